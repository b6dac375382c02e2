(** Wavenumber, skin depth, the quasistatic flag, the harmonic plane wave and the
    zero-frequency limit (C57-C60, C62, C63). *)
From Coq Require Import Reals Lra List String.
From Coquelicot Require Import Coquelicot.
From Verif Require Import Vec3 Calculus Deriv Cplx Radial Numpy Model_Static Model_FDEM Proof_Static2 Proof_FDEM Proof_FDEM2.
Open Scope R_scope.

(** ** C58 *)
Lemma decay_factor k d : Cmod (cexp (- Ci * k * RtoC d))%C = exp (Im k * d).
Proof. rewrite Cmod_cexp. f_equal. simpl. ring. Qed.

Lemma im_wavenumber_qs f sg mu e : 0 < f -> 0 < sg -> 0 < mu ->
  Im (wavenumber f sg mu e PyTrue) = - sqrt (omega f * sg * mu / 2).
Proof.
  intros F S M. pose proof (omega_pos f F) as W.
  assert (X : 0 < omega f * mu * sg) by (apply Rmult_lt_0_compat; [apply Rmult_lt_0_compat|]; assumption).
  unfold wavenumber; cbn [is_True]. set (z := (- Ci * omega f * mu * sg)%C).
  assert (R0 : Re z = 0) by (simpl; ring).
  assert (I0 : Im z = - (omega f * mu * sg)) by (simpl; ring).
  assert (A : Cmod z = omega f * mu * sg).
  { unfold Cmod. fold (Re z) (Im z). rewrite R0, I0.
    replace (0 ^ 2 + (- (omega f * mu * sg)) ^ 2) with ((omega f * mu * sg) * (omega f * mu * sg)) by ring.
    apply sqrt_square; lra. }
  unfold csqrt. cbn [snd]. rewrite A, R0, I0.
  destruct (Rle_dec 0 (- (omega f * mu * sg))); [lra|].
  replace ((omega f * mu * sg - 0) / 2) with (omega f * sg * mu / 2) by lra. ring.
Qed.

Lemma skin_depth_qs f sg mu e q : truth q = true -> 0 < f -> 0 < sg -> 0 < mu ->
  Cmod (cexp (- Ci * wavenumber f sg mu e PyTrue * RtoC (skin_depth f sg mu e q)))%C = exp (-1).
Proof.
  intros T F S M. pose proof (omega_pos f F) as W.
  rewrite decay_factor, im_wavenumber_qs by assumption. f_equal.
  unfold skin_depth. rewrite T.
  assert (X : 0 < omega f * sg * mu) by (apply Rmult_lt_0_compat; [apply Rmult_lt_0_compat|]; assumption).
  replace (- sqrt (omega f * sg * mu / 2) * sqrt (2 / (omega f * sg * mu)))
    with (- (sqrt (omega f * sg * mu / 2) * sqrt (2 / (omega f * sg * mu)))) by ring.
  rewrite <- sqrt_mult.
  - replace (omega f * sg * mu / 2 * (2 / (omega f * sg * mu))) with 1 by (field; repeat split; lra).
    rewrite sqrt_1. reflexivity.
  - lra.
  - apply Rlt_le, Rdiv_lt_0_compat; lra.
Qed.

Lemma im_wavenumber_full f sg mu e : 0 < f -> 0 < sg -> 0 < mu -> 0 < e ->
  Im (wavenumber f sg mu e PyFalse) =
  - (omega f * sqrt ((mu * e / 2) * (sqrt (1 + sg ^ 2 / (omega f * e) ^ 2) - 1))).
Proof.
  intros F S M E. pose proof (omega_pos f F) as W. set (w := omega f) in *.
  assert (X : 0 < w * mu * sg) by (apply Rmult_lt_0_compat; [apply Rmult_lt_0_compat|]; assumption).
  assert (Y : 0 < w * e) by nra.
  unfold wavenumber; cbn [is_True]. fold w. set (z := (RtoC (w ^ 2 * mu * e) - Ci * w * mu * sg)%C).
  assert (R0 : Re z = w ^ 2 * mu * e) by (simpl; ring).
  assert (I0 : Im z = - (w * mu * sg)) by (simpl; ring).
  set (Q := sqrt (1 + sg ^ 2 / (w * e) ^ 2)).
  assert (PQ : 0 < 1 + sg ^ 2 / (w * e) ^ 2).
  { assert (0 <= sg ^ 2 / (w * e) ^ 2); [|lra]. apply Rlt_le, Rdiv_lt_0_compat; nra. }
  assert (QQ : Q * Q = 1 + sg ^ 2 / (w * e) ^ 2) by (apply sqrt_sqrt; lra).
  assert (Q0 : 0 < Q) by (apply sqrt_lt_R0, PQ).
  assert (A : Cmod z = w ^ 2 * mu * e * Q).
  { unfold Cmod. fold (Re z) (Im z). rewrite R0, I0.
    replace ((w ^ 2 * mu * e) ^ 2 + (- (w * mu * sg)) ^ 2) with ((w ^ 2 * mu * e * Q) * (w ^ 2 * mu * e * Q)).
    - apply sqrt_square. apply Rmult_le_pos; [|lra]. apply Rmult_le_pos; [|lra]. apply Rmult_le_pos; nra.
    - replace ((w ^ 2 * mu * e * Q) * (w ^ 2 * mu * e * Q)) with ((w ^ 2 * mu * e) ^ 2 * (Q * Q)) by ring.
      rewrite QQ. field. split; lra. }
  unfold csqrt. cbn [snd]. rewrite A, R0, I0.
  destruct (Rle_dec 0 (- (w * mu * sg))); [lra|].
  replace ((w ^ 2 * mu * e * Q - w ^ 2 * mu * e) / 2) with ((w * w) * (mu * e / 2 * (Q - 1))) by field.
  rewrite sqrt_mult_alt by nra. rewrite sqrt_square by lra. ring.
Qed.

(** what the code returns when displacement currents are kept: |Im k| / omega^2 *)
Lemma skin_depth_full f sg mu e q : truth q = false -> 0 < f -> 0 < sg -> 0 < mu -> 0 < e ->
  skin_depth f sg mu e q = - Im (wavenumber f sg mu e PyFalse) / omega f ^ 2.
Proof.
  intros T F S M E. pose proof (omega_pos f F) as W. rewrite im_wavenumber_full by assumption.
  unfold skin_depth. rewrite T. field. lra.
Qed.

Lemma skin_depth_full_correct_iff f sg mu e q : truth q = false -> 0 < f -> 0 < sg -> 0 < mu -> 0 < e ->
  (Cmod (cexp (- Ci * wavenumber f sg mu e PyFalse * RtoC (skin_depth f sg mu e q)))%C = exp (-1)
   <-> Im (wavenumber f sg mu e PyFalse) = - omega f).
Proof.
  intros T F S M E. pose proof (omega_pos f F) as W.
  rewrite decay_factor, (skin_depth_full _ _ _ _ _ T F S M E).
  pose proof (proj2 (wavenumber_branch f sg mu e PyFalse F S M)) as B.
  set (b := Im (wavenumber f sg mu e PyFalse)) in *. set (w := omega f) in *. clearbody b w.
  split.
  - intro H. apply exp_inv in H.
    assert (b * b = w * w).
    { replace (b * b) with (- (b * (- b / w ^ 2)) * w ^ 2) by (field; lra). rewrite H. ring. }
    nra.
  - intro H. rewrite H. f_equal. field. lra.
Qed.

Lemma skin_depth_witness :
  0 < / (2 * PI) /\ 0 < sqrt 3 /\
  Cmod (cexp (- Ci * wavenumber (/ (2 * PI)) (sqrt 3) 1 1 PyFalse * RtoC (skin_depth (/ (2 * PI)) (sqrt 3) 1 1 PyFalse)))%C
    <> exp (-1).
Proof.
  pose proof PI_RGT_0 as P.
  assert (F : 0 < / (2 * PI)) by (apply Rinv_0_lt_compat; lra).
  assert (S : 0 < sqrt 3) by (apply sqrt_lt_R0; lra).
  split; [exact F|]. split; [exact S|]. intro H.
  apply (skin_depth_full_correct_iff _ _ _ _ PyFalse eq_refl F S Rlt_0_1 Rlt_0_1) in H.
  rewrite im_wavenumber_full in H by (try assumption; lra).
  assert (W : omega (/ (2 * PI)) = 1) by (unfold omega; field; lra).
  rewrite W in H.
  replace (sqrt 3 ^ 2 / (1 * 1) ^ 2) with 3 in H.
  2:{ rewrite pow_2, sqrt_sqrt by lra. field. }
  replace (1 + 3) with (2 * 2) in H by ring. rewrite sqrt_square in H by lra.
  replace (1 * 1 / 2 * (2 - 1)) with (/ 2) in H by field.
  assert (G : sqrt (/ 2) * sqrt (/ 2) = / 2) by (apply sqrt_sqrt; lra).
  nra.
Qed.

(** ** C59 *)
Definition ignores_permittivity {A} (value : R -> A) : Prop :=
  forall e e', 0 < e -> 0 < e' -> value e = value e'.

Lemma sigma_hat_ignores f sg q : 0 < f ->
  (ignores_permittivity (fun e => sigma_hat f sg e q) <-> is_True q = true).
Proof.
  intro F. pose proof (omega_pos f F) as W. unfold sigma_hat. split.
  - intro H. specialize (H 1 2 ltac:(lra) ltac:(lra)). destruct (is_True q); [reflexivity|].
    apply (f_equal Im) in H. simpl in H. lra.
  - intro H. rewrite H. intros e e' _ _. reflexivity.
Qed.

Lemma wavenumber_ignores f sg mu q : 0 < f -> 0 < mu ->
  (ignores_permittivity (fun e => wavenumber f sg mu e q) <-> is_True q = true).
Proof.
  intros F M. pose proof (omega_pos f F) as W. split.
  - intro H. specialize (H 1 2 ltac:(lra) ltac:(lra)). cbv beta in H.
    assert (G : (wavenumber f sg mu 1 q * wavenumber f sg mu 1 q = wavenumber f sg mu 2 q * wavenumber f sg mu 2 q)%C)
      by (rewrite H; reflexivity).
    rewrite !wavenumber_sq in G. unfold sigma_hat in G. destruct (is_True q); [reflexivity|].
    apply (f_equal Re) in G. simpl in G. exfalso.
    assert (0 < omega f * mu * omega f) by (apply Rmult_lt_0_compat; [apply Rmult_lt_0_compat|]; assumption).
    ring_simplify in G. nra.
  - intro H. unfold wavenumber. rewrite H. intros e e' _ _. reflexivity.
Qed.

Lemma skin_depth_ignores f sg mu q : 0 < f -> 0 < sg -> 0 < mu ->
  (ignores_permittivity (fun e => skin_depth f sg mu e q) <-> truth q = true).
Proof.
  intros F S M. pose proof (omega_pos f F) as W. split.
  - intro H. specialize (H 1 2 ltac:(lra) ltac:(lra)). cbv beta in H. unfold skin_depth in H.
    destruct (truth q); [reflexivity|]. exfalso. set (w := omega f) in *.
    assert (H1 : sqrt (mu * 1 / 2 * (sqrt (1 + sg ^ 2 / (w * 1) ^ 2) - 1)) = sqrt (mu * 2 / 2 * (sqrt (1 + sg ^ 2 / (w * 2) ^ 2) - 1))).
    { apply (f_equal (fun t => t * w)) in H. unfold Rdiv in H. rewrite !Rmult_assoc, !Rinv_l, !Rmult_1_r in H by lra.
      unfold Rdiv. rewrite !Rmult_assoc, !Rmult_1_r. exact H. }
    clear H. set (a := sg / w).
    assert (A : 0 < a) by (apply Rdiv_lt_0_compat; assumption).
    replace (sg ^ 2 / (w * 1) ^ 2) with (a * a) in H1 by (unfold a; field; lra).
    replace (sg ^ 2 / (w * 2) ^ 2) with (a * a / 4) in H1 by (unfold a; field; lra).
    destruct (sqrt_sq_pos (1 + a * a) ltac:(nra)) as [P1 Q1].
    destruct (sqrt_sq_pos (1 + a * a / 4) ltac:(nra)) as [P2 Q2].
    set (s1 := sqrt (1 + a * a)) in *. set (s2 := sqrt (1 + a * a / 4)) in *. clearbody s1 s2 a.
    assert (1 < s1) by nra. assert (1 < s2) by nra.
    apply (f_equal (fun t => t * t)) in H1. rewrite !sqrt_sqrt in H1 by nra.
    assert ((s1 - 1) / 2 = s2 - 1) by nra. nra.
  - intro H. unfold skin_depth. rewrite H. intros e e' _ _. reflexivity.
Qed.

(** ** C60: with displacement currents the fields do not satisfy Faraday's law *)
Lemma cv_neq_scal a b v : a <> b -> v <> cvzero -> cvscal a v <> cvscal b v.
Proof.
  intros N V E. apply V.
  assert (Z : forall w : C, (a * w = b * w -> w = 0)%C).
  { intros w H. assert (H' : ((a - b) * w = 0)%C) by (replace ((a - b) * w)%C with (a * w - b * w)%C by ring; rewrite H; ring).
    destruct (Ceq_dec w 0) as [|W]; [assumption|].
    exfalso. apply N. replace a with (b + (a - b) * w / w)%C by (field; exact W). rewrite H'. field; exact W. }
  pose proof (f_equal cvx E) as X. pose proof (f_equal cvy E) as Y. pose proof (f_equal cvz E) as T. simpl in *.
  apply cvec_eq; simpl; apply Z; assumption.
Qed.

Lemma ed_H_nonzero s p : 0 < fd_freq (ed_med s) -> 0 < fd_sigma (ed_med s) -> 0 < fd_mu (ed_med s) ->
  ed_current s * ed_length s <> 0 -> vcross (ed_orient s) (vsub p (ed_loc s)) <> vzero -> ed_H s p <> cvzero.
Proof.
  intros F S M I X E.
  assert (Hp : p <> ed_loc s).
  { intro Q. apply X. rewrite Q. unfold vcross, vsub. veq; ring. }
  pose proof (vnorm_pos _ (vsub_nz _ _ Hp)) as P. pose proof PI_RGT_0 as PP.
  rewrite (ed_H_profile s p Hp) in E. unfold cxfield, pH in E. set (v := vsub p (ed_loc s)) in *.
  set (r := vnorm v) in *. set (n := ed_orient s) in *.
  pose proof (wavenumber_branch (fd_freq (ed_med s)) (fd_sigma (ed_med s)) (fd_mu (ed_med s)) (fd_eps (ed_med s)) (fd_qs (ed_med s)) F S M) as [_ B].
  fold (fd_k (ed_med s)) in B. set (k := fd_k (ed_med s)) in *.
  match type of E with cvof ?c _ = _ => set (z := c) in * end.
  assert (Z : z <> 0%C).
  { unfold z. repeat apply Cmult_neq_0.
    - apply RtoC_neq. intro G. apply I. apply (f_equal (fun t => t * (4 * PI))) in G. field_simplify in G; lra.
    - rewrite <- RtoC_inv by lra. apply RtoC_neq. apply Rinv_neq_0_compat; lra.
    - rewrite <- RtoC_inv by lra. apply RtoC_neq. apply Rinv_neq_0_compat; lra.
    - rewrite <- RtoC_inv by lra. apply RtoC_neq. apply Rinv_neq_0_compat; lra.
    - intro G. apply (f_equal Re) in G. simpl in G. assert (0 < - Im k * r) by nra. unfold Im in *. nra.
    - apply cexp_neq_0. }
  clearbody z. apply X.
  assert (K : forall t : R, (z * RtoC t = 0)%C -> t = 0).
  { intros t H. destruct (Req_dec t 0) as [|T]; [assumption|]. exfalso.
    revert H. apply Cmult_neq_0; [exact Z|apply RtoC_neq, T]. }
  pose proof (f_equal cvx E) as E1. pose proof (f_equal cvy E) as E2. pose proof (f_equal cvz E) as E3. cbn [cvx cvy cvz cvof cvzero] in E1, E2, E3.
  apply K in E1, E2, E3. apply vec3_eq; [exact E1|exact E2|exact E3].
Qed.

Lemma ed_faraday_fails s p :
  is_True (fd_qs (ed_med s)) = false ->
  0 < fd_freq (ed_med s) -> 0 < fd_sigma (ed_med s) -> 0 < fd_mu (ed_med s) -> 0 < fd_eps (ed_med s) ->
  ed_current s * ed_length s <> 0 -> vcross (ed_orient s) (vsub p (ed_loc s)) <> vzero ->
  ~ is_ccurl (ed_E s) p (cvscal (- Ci * fd_omega (ed_med s) * fd_mu (ed_med s))%C (ed_H s p)).
Proof.
  intros Q F S M E I X H.
  pose proof (ed_H_nonzero s p F S M I X) as N.
  assert (Hp : p <> ed_loc s).
  { intro G. apply X. rewrite G. unfold vcross, vsub. veq; ring. }
  assert (S' : fd_sigma (ed_med s) <> 0) by lra.
  pose proof (is_ccurl_unique _ _ _ _ H (ed_curl_E s p S' Hp)) as U.
  revert U. apply cv_neq_scal; [|exact N]. intro G.
  unfold fd_sigma_hat, sigma_hat in G. rewrite Q in G.
  pose proof (omega_pos _ F) as W. unfold fd_omega in G.
  apply (f_equal Re) in G. unfold Cdiv in G. rewrite <- RtoC_inv in G by lra. simpl in G.
  set (w := omega (fd_freq (ed_med s))) in *. set (mu := fd_mu (ed_med s)) in *. set (e := fd_eps (ed_med s)) in *.
  assert (0 < / fd_sigma (ed_med s)) by (apply Rinv_0_lt_compat; lra).
  set (i := / fd_sigma (ed_med s)) in *. clearbody i w mu e.
  assert (0 < w * mu * (w * e * i)) by (repeat apply Rmult_lt_0_compat; assumption).
  nra.
Qed.

(** ** C62: plane fields depending on z only *)
Lemma zfield_curl (f : R -> C) (f' : C) (v p : vec3) : is_cderive f (vz p) f' ->
  is_ccurl (fun q => cvof (f (vz q)) v) p (cvof f' (V3 (- vy v) (vx v) 0)).
Proof.
  intros [A B]. destruct p as [x y z]. cbn [vz] in *. destruct v as [a b c]. split.
  - exists (M3 (V3 0 0 (Re f' * a)) (V3 0 0 (Re f' * b)) (V3 0 0 (Re f' * c))). split.
    + unfold re_vec, cvof. cbn [cvx cvy cvz vx vy vz].
      split_jac; unfold RtoC, Cmult; cbn [fst snd]; (eapply is_derive_eq; [der|]); ring.
    + unfold curl_of; parts. veq; ring.
  - exists (M3 (V3 0 0 (Im f' * a)) (V3 0 0 (Im f' * b)) (V3 0 0 (Im f' * c))). split.
    + unfold im_vec, cvof. cbn [cvx cvy cvz vx vy vz].
      split_jac; unfold RtoC, Cmult; cbn [fst snd]; (eapply is_derive_eq; [der|]); ring.
    + unfold curl_of; parts. veq; ring.
Qed.

Lemma zfield_div (f : R -> C) (f' : C) (v p : vec3) : is_cderive f (vz p) f' ->
  is_cdiv (fun q => cvof (f (vz q)) v) p (f' * RtoC (vz v))%C.
Proof.
  intros [A B]. destruct p as [x y z]. cbn [vz] in *. destruct v as [a b c]. split.
  - exists (M3 (V3 0 0 (Re f' * a)) (V3 0 0 (Re f' * b)) (V3 0 0 (Re f' * c))). split.
    + unfold re_vec, cvof. cbn [cvx cvy cvz vx vy vz].
      split_jac; unfold RtoC, Cmult; cbn [fst snd]; (eapply is_derive_eq; [der|]); ring.
    + unfold mtrace; parts; cbn [m0 m1 m2 vx vy vz]. ring.
  - exists (M3 (V3 0 0 (Im f' * a)) (V3 0 0 (Im f' * b)) (V3 0 0 (Im f' * c))). split.
    + unfold im_vec, cvof. cbn [cvx cvy cvz vx vy vz].
      split_jac; unfold RtoC, Cmult; cbn [fst snd]; (eapply is_derive_eq; [der|]); ring.
    + unfold mtrace; parts; cbn [m0 m1 m2 vx vy vz]. ring.
Qed.

Section Plane.
  Variable s : pwave.
  Let m := pw_med s.
  Let k := fd_k m.
  Let u := (Ci * k)%C.
  Let o := pw_orient s.
  Let e0 := pw_amp s.
  Let b_dir := vcross o (V3 0 0 (-1)).
  Hypothesis Hf : 0 < fd_freq m.
  Hypothesis Hmu : 0 < fd_mu m.
  Hypothesis Ho : vz o = 0.

  Lemma pw_E_z q : pw_E s q = cvof (RtoC e0 * cexp (u * RtoC (vz q)))%C o.
  Proof. unfold pw_E. fold m k u o e0. rewrite cscal_cvof. apply (f_equal (fun c => cvof c o)). ring. Qed.

  Lemma pw_B_z q : pw_B s q = cvof (- RtoC e0 * k / RtoC (fd_omega m) * cexp (u * RtoC (vz q)))%C b_dir.
  Proof.
    unfold pw_B. fold m k o e0 b_dir. replace (Ci * (k * RtoC (vz q)))%C with (u * RtoC (vz q))%C by (unfold u; ring).
    reflexivity.
  Qed.

  Lemma D_eu c z : is_cderive (fun t => c * cexp (u * RtoC t))%C z (c * (u * cexp (u * z)))%C.
  Proof. apply CD_scal. apply (CD_exp (fun t => u * RtoC t)%C), CD_ut. Qed.

  Lemma omega_neq : RtoC (fd_omega m) <> 0%C.
  Proof. pose proof (omega_pos _ Hf). unfold fd_omega. apply RtoC_neq; lra. Qed.

  Lemma pw_curl_E p : is_ccurl (pw_E s) p (cvscal (- Ci * fd_omega m)%C (pw_B s p)).
  Proof.
    eapply is_ccurl_ext; [intro q; symmetry; apply pw_E_z| |apply (zfield_curl _ _ o p (D_eu (RtoC e0) (vz p)))].
    rewrite pw_B_z, cscal_cvof. pose proof omega_neq as W. set (e := cexp _). clearbody e.
    replace (- Ci * fd_omega m * (- RtoC e0 * k / RtoC (fd_omega m) * e))%C with (RtoC e0 * (u * e))%C
      by (unfold u; field; exact W).
    f_equal. unfold b_dir, vcross. apply vec3_eq; cbn [vx vy vz]; rewrite ?Ho; ring.
  Qed.

  Lemma pw_curl_H p : is_ccurl (pw_H s) p (cvscal (fd_sigma_hat m) (pw_E s p)).
  Proof.
    pose proof omega_neq as W.
    assert (M : RtoC (fd_mu m) <> 0%C) by (apply RtoC_neq; lra).
    eapply is_ccurl_ext; [intro q; symmetry; exact (f_equal (cvscal (/ RtoC (fd_mu m))%C) (pw_B_z q))| |
      apply is_ccurl_cscal, (zfield_curl _ _ b_dir p (D_eu (- RtoC e0 * k / RtoC (fd_omega m))%C (vz p)))].
    rewrite pw_E_z, !cscal_cvof. set (e := cexp _). clearbody e.
    assert (K : (k * k)%C = (- Ci * fd_omega m * fd_mu m * fd_sigma_hat m)%C).
    { unfold k, fd_k. rewrite wavenumber_sq. reflexivity. }
    replace (/ fd_mu m * (- RtoC e0 * k / fd_omega m * (u * e)))%C with (- (RtoC e0 * (fd_sigma_hat m * e)))%C.
    - unfold b_dir, vcross, cvof. apply cvec_eq; cbn [cvx cvy cvz vx vy vz]; rewrite ?Ho;
        rewrite ?RtoC_opp, ?RtoC_minus, ?RtoC_mult, ?Cm1; ring.
    - fold m. unfold u.
      replace (/ fd_mu m * (- RtoC e0 * k / fd_omega m * (Ci * k * e)))%C
        with (- RtoC e0 * Ci * e * (k * k) / (fd_mu m * fd_omega m))%C by (field; split; assumption).
      rewrite K.
      replace (- RtoC e0 * Ci * e * (- Ci * fd_omega m * fd_mu m * fd_sigma_hat m) / (fd_mu m * fd_omega m))%C
        with ((Ci * Ci) * (RtoC e0 * e * fd_sigma_hat m))%C by (field; split; assumption).
      rewrite Ci2. ring.
  Qed.

  Lemma pw_div_E p : is_cdiv (pw_E s) p 0%C.
  Proof.
    eapply is_cdiv_ext; [intro q; symmetry; apply pw_E_z| |apply (zfield_div _ _ o p (D_eu (RtoC e0) (vz p)))].
    rewrite Ho. ring.
  Qed.

  Lemma pw_div_B p : is_cdiv (pw_B s) p 0%C.
  Proof.
    eapply is_cdiv_ext; [intro q; symmetry; apply pw_B_z| |apply (zfield_div _ _ b_dir p (D_eu _ (vz p)))].
    unfold b_dir, vcross; cbn [vx vy vz]. rewrite ?RtoC_minus, ?RtoC_mult. ring.
  Qed.

  Lemma pw_transverse p : cvz (pw_E s p) = 0%C /\ cvz (pw_B s p) = 0%C /\ cvdot (pw_B s p) o = 0%C.
  Proof.
    rewrite pw_E_z, pw_B_z. unfold cvdot, cvof, b_dir, vcross; cbn [cvx cvy cvz vx vy vz]. rewrite Ho.
    rewrite ?RtoC_minus, ?RtoC_mult, ?RtoC_opp. repeat split; ring.
  Qed.

  Lemma pw_mod p : Cmod (cexp (u * RtoC (vz p))%C) = exp (- Im k * vz p).
  Proof. rewrite Cmod_cexp. f_equal. unfold u. simpl. ring. Qed.
End Plane.

(** ** C63 *)
Lemma wavenumber_zero sg mu e q : wavenumber 0 sg mu e q = 0%C.
Proof.
  unfold wavenumber, omega. replace (2 * PI * 0) with 0 by ring.
  destruct (is_True q).
  - replace (- Ci * 0 * mu * sg)%C with (RtoC 0) by ring. apply csqrt_0.
  - replace (RtoC (0 ^ 2 * mu * e) - Ci * 0 * mu * sg)%C with (RtoC 0); [apply csqrt_0|].
    replace (0 ^ 2 * mu * e) with 0 by ring. ring.
Qed.

Lemma pE0_zero c r : 0 < r -> pE0 (RtoC c) (Ci * 0)%C r = RtoC (- c / r ^ 3).
Proof.
  intro H. unfold pE0. replace (- (Ci * 0 * r))%C with (RtoC 0) by ring. rewrite cexp_0.
  rewrite <- RtoC_inv by lra.
  replace (RtoC c * (RtoC (/ r) * RtoC (/ r) * RtoC (/ r)) * ((- (Ci * 0 * r * (Ci * 0 * r)) - Ci * 0 * r - 1) * 1))%C
    with (- (RtoC c * (RtoC (/ r) * RtoC (/ r) * RtoC (/ r))))%C by ring.
  rewrite <- !RtoC_mult, <- RtoC_opp. f_equal. field. lra.
Qed.

Lemma pE1_zero c r : 0 < r -> pE1 (RtoC c) (Ci * 0)%C r = RtoC (3 * c / r ^ 5).
Proof.
  intro H. unfold pE1. replace (- (Ci * 0 * r))%C with (RtoC 0) by ring. rewrite cexp_0.
  rewrite <- RtoC_inv by lra.
  replace (RtoC c * (RtoC (/ r) * RtoC (/ r) * RtoC (/ r) * RtoC (/ r) * RtoC (/ r)) * ((Ci * 0 * r * (Ci * 0 * r) + 3 * (Ci * 0 * r) + 3) * 1))%C
    with (RtoC c * (RtoC (/ r) * RtoC (/ r) * RtoC (/ r) * RtoC (/ r) * RtoC (/ r)) * 3)%C by ring.
  rewrite <- !RtoC_mult. f_equal. field. lra.
Qed.

Definition static_dipole (c : R) (n v : vec3) : vec3 :=
  vadd (vscal (- c / vnorm v ^ 3) n) (vscal (3 * c / vnorm v ^ 5 * vdot n v) v).

Lemma cvof_real a v : cvof (RtoC a) v = cvof 1%C (vscal a v).
Proof. apply cvec_eq; simpl; rewrite RtoC_mult; ring. Qed.

Lemma crfield_zero c n v : v <> vzero -> crfield (pE0 (RtoC c) (Ci * 0)%C) (pE1 (RtoC c) (Ci * 0)%C) n v = cvof 1%C (static_dipole c n v).
Proof.
  intro H. pose proof (vnorm_pos _ H) as P. unfold crfield. rewrite pE0_zero, pE1_zero by exact P.
  rewrite <- RtoC_mult, (cvof_real (- c / vnorm v ^ 3)), (cvof_real (3 * c / vnorm v ^ 5 * vdot n v)). unfold static_dipole.
  unfold cvof, cvadd, vadd; apply cvec_eq; cbn [cvx cvy cvz vx vy vz]; rewrite RtoC_plus; ring.
Qed.

Lemma mf_H_zero s p : fd_freq (mf_med s) = 0 -> p <> mf_loc s ->
  mf_H s p = cvof 1%C (static_dipole (mf_moment s / (4 * PI)) (mf_orient s) (vsub p (mf_loc s))).
Proof.
  intros F H. rewrite (mf_H_profile s p H). unfold fd_k. rewrite F, wavenumber_zero.
  apply crfield_zero, vsub_nz, H.
Qed.

Lemma static_is_static s p : p <> md_loc s -> md_mu s <> 0 ->
  mdipole_field s "cartesian" p = Ok (static_dipole (md_moment s / (4 * PI)) (md_orient s) (vsub p (md_loc s))).
Proof.
  intros H M. pose proof (vnorm_pos _ (vsub_nz _ _ H)) as P. pose proof PI_RGT_0.
  change (mdipole_field s "cartesian" p) with (Ok (vdiv (md_B s p) (md_mu s))). f_equal.
  unfold md_B, static_dipole. set (v := vsub p (md_loc s)) in *.
  unfold vdiv, vscal, vsub, vadd, vdot. veq; field; repeat split; lra.
Qed.

Lemma mf_E_zero s p : fd_freq (mf_med s) = 0 -> p <> mf_loc s -> mf_E s p = cvzero.
Proof.
  intros F H. rewrite (mf_E_profile s p H). unfold fd_omega, omega. rewrite F.
  replace (2 * PI * 0) with 0 by ring.
  apply cvec_eq; simpl; ring.
Qed.

Lemma ed_E_zero s p : fd_freq (ed_med s) = 0 -> 0 < fd_sigma (ed_med s) -> p <> ed_loc s ->
  ed_E s p = cvof 1%C (static_dipole (ed_current s * ed_length s / (4 * PI * fd_sigma (ed_med s))) (ed_orient s) (vsub p (ed_loc s))).
Proof.
  intros F S H. pose proof PI_RGT_0. rewrite (ed_E_profile s ltac:(lra) p H). unfold fd_k. rewrite F, wavenumber_zero.
  rewrite (crfield_zero _ _ _ (vsub_nz _ _ H)).
  pose proof (vnorm_pos _ (vsub_nz _ _ H)) as P.
  rewrite <- RtoC_inv by lra. rewrite cscal_cvof. set (v := vsub p (ed_loc s)) in *.
  replace (RtoC (/ fd_sigma (ed_med s)) * 1)%C with (RtoC (/ fd_sigma (ed_med s))) by ring.
  rewrite cvof_real. f_equal. unfold static_dipole, vscal, vadd. veq; field; repeat split; lra.
Qed.

Lemma ed_H_zero s p : fd_freq (ed_med s) = 0 -> p <> ed_loc s ->
  ed_H s p = cvof 1%C (vscal (ed_current s * ed_length s / (4 * PI * vnorm (vsub p (ed_loc s)) ^ 3))
                         (vcross (ed_orient s) (vsub p (ed_loc s)))).
Proof.
  intros F H. pose proof PI_RGT_0. rewrite (ed_H_profile s p H). unfold fd_k. rewrite F, wavenumber_zero.
  pose proof (vnorm_pos _ (vsub_nz _ _ H)) as P. set (v := vsub p (ed_loc s)) in *.
  unfold cxfield, pH. replace (- (Ci * 0 * vnorm v))%C with (RtoC 0) by ring. rewrite cexp_0.
  rewrite <- RtoC_inv by lra.
  match goal with |- cvof ?a _ = _ => replace a with (RtoC (ed_current s * ed_length s / (4 * PI * vnorm v ^ 3))) end.
  - apply cvof_real.
  - replace ((Ci * 0 * vnorm v + 1) * 1)%C with (RtoC 1) by ring. rewrite <- !RtoC_mult. f_equal. field. repeat split; lra.
Qed.

(** the potential of the static electric dipole *)
Lemma static_dipole_grad c n v : v <> vzero ->
  is_grad (fun q => c * vdot n q / vnorm q ^ 3) v (vopp (static_dipole c n v)).
Proof.
  intro H. destruct v as [x y z]. pose proof (vnorm_pos _ H) as P.
  pose proof (norm_dx x y z H) as Nx. pose proof (norm_dy x y z H) as Ny. pose proof (norm_dz x y z H) as Nz.
  unfold static_dipole, vopp, vadd, vscal, vdot. cbn [vx vy vz].
  split_grad; (eapply is_derive_eq; [der; try (apply pow_nonzero; lra)|]); cbv beta;
    set (r := vnorm (V3 x y z)) in *; clearbody r; cbn [INR Init.Nat.pred]; field; lra.
Qed.
