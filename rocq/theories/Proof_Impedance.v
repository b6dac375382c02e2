(** The ratio of electric to magnetic field of the harmonic sources. *)
From Coq Require Import Reals Lra Lia.
From Coquelicot Require Import Coquelicot.
From Verif Require Import Vec3 Calculus Deriv Cplx Numpy Model_Static Model_FDEM Spec_Flux Spec_Power Spec_Impedance Proof_FDEM Proof_FDEM2 Proof_FDEM3 Proof_Power Proof_Power2.
Open Scope R_scope.

Lemma four_pi_n0 r n : r <> 0 -> 4 * PI * r ^ n <> 0.
Proof. intro H. apply Rmult_integral_contrapositive_currified; [pose proof PI_RGT_0; lra|apply pow_nonzero, H]. Qed.
Lemma dist_n0 (p c : vec3) : p <> c -> vnorm (vsub p c) <> 0.
Proof. intros N Z. apply N. apply vnorm_eq0 in Z. destruct p, c. unfold vsub, vzero in Z. cbn in Z. injection Z. intros. f_equal; lra. Qed.

(** ** Duality *)
Lemma dual_J med I l o c p : fd_sigma med <> 0 -> p <> c ->
  ed_J (ED med I l o c) p = mf_H (MDF med (I * l) o c) p.
Proof.
  intros S N. unfold ed_J, ed_E, mf_H. cbn [mf_med mf_moment mf_orient mf_loc ed_med ed_current ed_length ed_orient ed_loc].
  set (r := vnorm _). assert (R0 : r <> 0) by apply dist_n0, N. unfold dipole_terms. set (V := cvadd _ _). set (e := cexp _).
  assert (Q : (RtoC (fd_sigma med) * (RtoC (I * l / (4 * PI * fd_sigma med * r ^ 3)) * e) = RtoC (I * l / (4 * PI * r ^ 3)) * e)%C).
  { rewrite Cmult_assoc, <- RtoC_mult. do 2 f_equal. field. repeat split; auto. apply PI_neq0. }
  rewrite <- Q. unfold cvscal. destruct V; cbn. f_equal; ring.
Qed.
Lemma dual_E med I l o c p : p <> c ->
  mf_E (MDF med (I * l) o c) p = cvscal (- Ci * RtoC (2 * PI * fd_freq med) * fd_mu med)%C (ed_H (ED med I l o c) p).
Proof.
  intros N. unfold ed_H, mf_E. cbn [mf_med mf_moment mf_orient mf_loc ed_med ed_current ed_length ed_orient ed_loc].
  change (2 * PI * fd_freq med) with (fd_omega med).
  set (r := vnorm _). assert (R0 : r <> 0) by apply dist_n0, N. set (e := cexp _). set (h := vdiv _ _). set (kr := (_ * RtoC r)%C).
  rewrite cscal_cvof. pose proof (four_pi_n0 r 2 R0) as F.
  assert (X : RtoC (I * l / (4 * PI * r ^ 2)) = (RtoC (I * l) * / RtoC (4 * PI * r ^ 2))%C).
  { unfold Rdiv. rewrite RtoC_mult, RtoC_inv by exact F. reflexivity. }
  rewrite X. unfold cvof, Cdiv. destruct h as [h1 h2 h3], o as [o1 o2 o3]. unfold vcross. apply cvec_eq; cbn [cvx cvy cvz vx vy vz]; rewrite !RtoC_minus, !RtoC_mult; ring.
Qed.
Lemma dual_A med I l o c p : p <> c ->
  mf_A (MDF med (I * l) o c) p = cvscal (Ci * RtoC (2 * PI * fd_freq med) * fd_mu med)%C (ed_A (ED med I l o c) p).
Proof.
  intros N. unfold ed_A, mf_A. cbn [mf_med mf_moment mf_orient mf_loc ed_med ed_current ed_length ed_orient ed_loc].
  change (2 * PI * fd_freq med) with (fd_omega med).
  set (r := vnorm _). assert (R0 : r <> 0) by apply dist_n0, N. set (e := cexp _).
  rewrite cscal_cvof. pose proof (four_pi_n0 r 1 R0) as F. rewrite pow_1 in F.
  unfold Rdiv. rewrite (RtoC_mult (I * l) (/ _)), RtoC_inv by exact F. f_equal. unfold Cdiv. ring.
Qed.

(** ** Impedances *)
Section Imp.
  Variable s : fdem.
  Hypothesis P : physical s.

  Lemma k_n0 : fd_k s <> RtoC 0.
  Proof. destruct (k_pos s P) as [A _]. intro Z. apply (f_equal Re) in Z. unfold ka in A. cbn in Z. lra. Qed.
  Lemma wm_n0 : RtoC (2 * PI * fd_freq s * fd_mu s) <> RtoC 0.
  Proof. destruct P as (F & S & M). apply RtoC_neq. pose proof PI_RGT_0. apply Rgt_not_eq. apply Rmult_lt_0_compat; [|lra]. nra. Qed.
  Lemma Z_n0 : intrinsic (2 * PI * fd_freq s) (fd_mu s) (fd_k s) <> RtoC 0.
  Proof. unfold intrinsic, Cdiv. apply Cmult_neq_0; [apply wm_n0|]. intro Z. pose proof k_n0 as K. apply (f_equal (Cmult (fd_k s))) in Z. rewrite Cinv_r in Z by exact K. rewrite Cmult_0_r in Z. injection Z. lra. Qed.

  Section U.
    Variable r : R.
    Hypothesis H : 0 < r.
    Let u := (Ci * fd_k s * RtoC r)%C.
    Lemma u_parts : Re u = kb s * r /\ Im u = ka s * r.
    Proof. unfold u. rewrite k_eq. cbn. split; ring. Qed.
    Lemma den_n0 : (1 + u + u * u)%C <> RtoC 0.
    Proof.
      destruct u_parts as [A B]. destruct (k_pos s P) as [KA KB]. intro Z. apply (f_equal Im) in Z. cbn -[u] in Z.
      change (fst u) with (Re u) in Z. change (snd u) with (Im u) in Z. rewrite A, B in Z.
      assert (0 < ka s * r) by nra. assert (0 < kb s * r) by nra. nra.
    Qed.
  End U.

  Lemma k_sq : (fd_k s * fd_k s)%C = (- Ci * RtoC (2 * PI * fd_freq s * fd_mu s) * fd_sigma_hat s)%C.
  Proof. unfold fd_k at 1 2. rewrite wavenumber_sq. unfold fd_sigma_hat, omega. rewrite !RtoC_mult. ring. Qed.
End Imp.

(** how far the ratio is from that of a plane wave, with u = i k r *)
Definition ratio (u : C) : C := (u * (1 + u) / (1 + u + u * u))%C.

Lemma cross_terms f kr n o : ccross (dipole_terms f kr n o) n = cvof (f * (1 + Ci * kr + (Ci * kr) * (Ci * kr)))%C (vcross n o).
Proof.
  unfold dipole_terms, ccross, cvscal, cvadd, cvof. destruct n as [a b c], o as [x y z]. unfold vcross, vdot. cbn [cvx cvy cvz vx vy vz].
  assert (I2 : (Ci * kr * (Ci * kr) = - (kr * kr))%C) by (replace (Ci * kr * (Ci * kr))%C with (Ci * Ci * (kr * kr))%C by ring; rewrite Ci2; ring).
  rewrite I2. apply cvec_eq; cbn [cvx cvy cvz]; rewrite !RtoC_minus, !RtoC_plus, !RtoC_mult; simpl (kr ^ 2)%C; ring.
Qed.
Lemma cross_terms_l f kr n o : ccross (dipole_terms f kr n o) n = cvscal (- (1))%C (cvof (f * (1 + Ci * kr + (Ci * kr) * (Ci * kr)))%C (vcross o n)).
Proof.
  rewrite cross_terms, cscal_cvof. unfold cvof. destruct n as [a b c], o as [x y z]. unfold vcross. apply cvec_eq; cbn [cvx cvy cvz vx vy vz]; rewrite !RtoC_minus, !RtoC_mult; ring.
Qed.

Lemma mf_imp s p : physical (mf_med s) -> p <> mf_loc s ->
  let r := vnorm (vsub p (mf_loc s)) in
  mf_E s p = cvscal (intrinsic (2 * PI * fd_freq (mf_med s)) (fd_mu (mf_med s)) (fd_k (mf_med s)) * ratio (Ci * fd_k (mf_med s) * RtoC r))%C
    (ccross (mf_H s p) (vdiv (vsub p (mf_loc s)) r)).
Proof.
  intros P N r. assert (R0 : r <> 0) by apply dist_n0, N. assert (RP : 0 < r) by (pose proof (vnorm_nonneg (vsub p (mf_loc s))); unfold r in *; lra).
  pose proof (k_n0 _ P) as K. pose proof (den_n0 _ P r RP) as D.
  unfold mf_E, mf_H. cbv zeta. fold r. rewrite cross_terms, cscal_cvof. f_equal.
  unfold ratio, intrinsic. set (e := cexp _). set (k := fd_k _) in *. change (2 * PI * fd_freq (mf_med s)) with (fd_omega (mf_med s)).
  pose proof (four_pi_n0 r 2 R0) as F. pose proof (RtoC_neq _ F) as F'. pose proof (RtoC_neq _ R0) as R0'.
  assert (X : RtoC (mf_moment s / (4 * PI * r ^ 3)) = (RtoC (mf_moment s) / (RtoC (4 * PI * r ^ 2) * RtoC r))%C).
  { unfold Rdiv. rewrite RtoC_mult, RtoC_inv by (apply four_pi_n0, R0). unfold Cdiv. rewrite <- RtoC_mult. do 3 f_equal. ring. }
  rewrite X, (RtoC_mult (fd_omega (mf_med s))). replace (Ci * (k * r))%C with (Ci * k * r)%C by ring.
  set (u := (Ci * k * r)%C) in *. set (q := RtoC (4 * PI * r ^ 2)) in *.
  assert (U : (u / k / r)%C = Ci) by (unfold u; field; split; assumption). rewrite <- U. clearbody u q e.
  field. repeat split; assumption.
Qed.

Lemma ed_imp s p : physical (ed_med s) -> p <> ed_loc s ->
  let r := vnorm (vsub p (ed_loc s)) in
  ed_H s p = cvscal (- (/ (intrinsic (2 * PI * fd_freq (ed_med s)) (fd_mu (ed_med s)) (fd_k (ed_med s)) * (fd_sigma_hat (ed_med s) / fd_sigma (ed_med s)))) * ratio (Ci * fd_k (ed_med s) * RtoC r))%C
    (ccross (ed_E s p) (vdiv (vsub p (ed_loc s)) r)).
Proof.
  intros P N r. assert (R0 : r <> 0) by apply dist_n0, N. assert (RP : 0 < r) by (pose proof (vnorm_nonneg (vsub p (ed_loc s))); unfold r in *; lra).
  pose proof (k_n0 _ P) as K. pose proof (den_n0 _ P r RP) as D. pose proof (wm_n0 _ P) as W. pose proof (k_sq (ed_med s)) as KK.
  assert (S : RtoC (fd_sigma (ed_med s)) <> RtoC 0) by (destruct P as (_ & S & _); apply RtoC_neq; lra).
  assert (HS : fd_sigma_hat (ed_med s) <> RtoC 0).
  { intro Z. rewrite Z, Cmult_0_r in KK. apply (Cmult_neq_0 _ _ K K KK). }
  unfold ed_E, ed_H. cbv zeta. fold r. rewrite cross_terms_l, !cscal_cvof. f_equal.
  unfold ratio, intrinsic. set (e := cexp _). set (k := fd_k _) in *. set (sh := fd_sigma_hat _) in *.
  pose proof (four_pi_n0 r 2 R0) as F. pose proof (RtoC_neq _ F) as F'. pose proof (RtoC_neq _ R0) as R0'.
  assert (X : RtoC (ed_current s * ed_length s / (4 * PI * fd_sigma (ed_med s) * r ^ 3)) = (RtoC (ed_current s * ed_length s) / (RtoC (4 * PI * r ^ 2) * RtoC r * fd_sigma (ed_med s)))%C).
  { assert (fd_sigma (ed_med s) <> 0) by (intro Z; rewrite Z in S; apply S; reflexivity).
    rewrite <- !RtoC_mult. unfold Cdiv. rewrite <- RtoC_inv, <- RtoC_mult. { f_equal. field. repeat split; auto. apply PI_neq0. }
    apply Rmult_integral_contrapositive_currified; [apply Rmult_integral_contrapositive_currified; assumption|assumption]. }
  assert (Y : RtoC (ed_current s * ed_length s / (4 * PI * r ^ 2)) = (RtoC (ed_current s * ed_length s) / RtoC (4 * PI * r ^ 2))%C).
  { unfold Rdiv. rewrite RtoC_mult, RtoC_inv by exact F. reflexivity. }
  rewrite X, Y. replace (Ci * (k * r))%C with (Ci * k * r)%C by ring.
  assert (V : (sh = Ci * (k * k) / RtoC (2 * PI * fd_freq (ed_med s) * fd_mu (ed_med s)))%C).
  { rewrite KK. replace (Ci * (- Ci * RtoC (2 * PI * fd_freq (ed_med s) * fd_mu (ed_med s)) * sh))%C with (- (Ci * Ci) * RtoC (2 * PI * fd_freq (ed_med s) * fd_mu (ed_med s)) * sh)%C by ring. rewrite Ci2. field. exact W. }
  rewrite V. set (w := RtoC (2 * PI * fd_freq (ed_med s) * fd_mu (ed_med s))) in *.
  assert (CI : Ci <> RtoC 0) by (intro Z; apply (f_equal Im) in Z; cbn in Z; lra).
  field. repeat split; try assumption. 
Qed.

Lemma ratio_far s r : physical s -> is_True (fd_qs s) = true -> 0 < r ->
  Cmod (ratio (Ci * fd_k s * RtoC r) - 1)%C <= / (2 * (r / fd_skin_depth s) ^ 2).
Proof.
  intros P Q H. pose proof (den_n0 s P r H) as D. destruct (u_parts s r) as [A B]. destruct (k_quasi s P Q) as [KQ SD]. destruct (k_pos s P) as [KA KB].
  set (u := (Ci * fd_k s * RtoC r)%C) in *. unfold ratio.
  replace (u * (1 + u) / (1 + u + u * u) - 1)%C with (- / (1 + u + u * u))%C by (field; exact D).
  rewrite Cmod_opp, Cmod_inv by exact D.
  assert (SN : fd_skin_depth s <> 0) by (intro Z; rewrite Z in SD; lra).
  assert (X : r / fd_skin_depth s = kb s * r).
  { apply (Rmult_eq_reg_r (fd_skin_depth s)); [|exact SN]. unfold Rdiv. rewrite Rmult_assoc, Rinv_l by exact SN. transitivity (fd_skin_depth s * kb s * r); [rewrite SD; ring|ring]. }
  rewrite X. set (x := kb s * r) in *. assert (XP : 0 < x) by (unfold x; nra).
  apply Rinv_le_contravar; [nra|].
  assert (L : Rabs (Im (1 + u + u * u)%C) <= Cmod (1 + u + u * u)%C).
  { apply Rsqr_incr_0; [|apply Rabs_pos|apply Cmod_ge_0]. rewrite <- Rsqr_abs. unfold Rsqr. rewrite Cmod_sqr. nra. }
  apply Rle_trans with (2 := L). eapply Rle_trans; [|apply Rle_abs].
  cbn -[u]. change (fst u) with (Re u). change (snd u) with (Im u). rewrite A, B, KQ. fold x. nra.
Qed.

Lemma mod_cvec c v : cvof c v = cvscal c (cvof 1 v).
Proof. rewrite cscal_cvof. f_equal. ring. Qed.
Lemma amp2 F : amplitude F ^ 2 = Cmod (cvx F) ^ 2 + Cmod (cvy F) ^ 2 + Cmod (cvz F) ^ 2.
Proof.
  unfold amplitude. rewrite pow2_sqrt.
  - destruct F as [[a b] [c d] [e f]]. unfold re_vec, im_vec, vnorm2, vdot. cbn [vx vy vz cvx cvy cvz]. simpl (_ ^ 2). rewrite !Rmult_1_r, !Cmod_sqr. cbn. ring.
  - unfold vnorm2, vdot. nra.
Qed.
Lemma amp_scal c F : amplitude (cvscal c F) ^ 2 = Cmod c ^ 2 * amplitude F ^ 2.
Proof. rewrite !amp2. unfold cvscal. cbn [cvx cvy cvz]. rewrite !Cmod_mult. ring. Qed.

Lemma pw_imp s p : physical (pw_med s) -> vz (pw_orient s) = 0 ->
  pw_E s p = cvscal (intrinsic (2 * PI * fd_freq (pw_med s)) (fd_mu (pw_med s)) (fd_k (pw_med s))) (ccross (pw_H s p) (V3 0 0 (-1))).
Proof.
  intros P O. pose proof (k_n0 _ P) as K. pose proof P as (F & S & M).
  unfold pw_H. rewrite pw_E_z, pw_B_z. rewrite cscal_cvof. unfold intrinsic. set (e := cexp _). set (k := fd_k _) in *.
  change (2 * PI * fd_freq (pw_med s)) with (fd_omega (pw_med s)). rewrite RtoC_mult.
  assert (W : RtoC (fd_omega (pw_med s)) <> RtoC 0) by (apply RtoC_neq; pose proof (omega_pos _ F); unfold fd_omega; lra).
  assert (M' : RtoC (fd_mu (pw_med s)) <> RtoC 0) by (apply RtoC_neq; lra).
  destruct (pw_orient s) as [a b c]. cbn in O. subst c. unfold cvscal, ccross, cvof, vcross. cbn [cvx cvy cvz vx vy vz].
  apply cvec_eq; cbn [cvx cvy cvz]; rewrite ?RtoC_minus, ?RtoC_mult, ?Cm1; field; repeat split; assumption.
Qed.

Lemma imp_mod s : physical s -> Cmod (intrinsic (2 * PI * fd_freq s) (fd_mu s) (fd_k s)) ^ 2 = 2 * PI * fd_freq s * fd_mu s / Cmod (fd_sigma_hat s).
Proof.
  intro P. pose proof (k_n0 _ P) as K. pose proof P as (F & S & M). pose proof (k_sq s) as KK. apply (f_equal Cmod) in KK.
  assert (W : 0 < 2 * PI * fd_freq s * fd_mu s) by (pose proof PI_RGT_0; apply Rmult_lt_0_compat; [nra|lra]).
  rewrite !Cmod_mult, Cmod_opp, Cmod_R, Rabs_pos_eq in KK by lra.
  assert (CI : Cmod Ci = 1) by (unfold Cmod, Ci; simpl; replace (0 * (0 * 1) + 1 * (1 * 1)) with 1 by ring; apply sqrt_1). rewrite CI in KK.
  unfold intrinsic. rewrite Cmod_div by exact K. rewrite Cmod_R, Rabs_pos_eq by lra. pose proof (proj1 (Cmod_gt_0 _) K) as KP.
  assert (0 < Cmod (fd_sigma_hat s)) by nra.
  set (w := 2 * PI * fd_freq s * fd_mu s) in *. set (c := Cmod (fd_k s)) in *. set (h := Cmod (fd_sigma_hat s)) in *.
  replace ((w / c) ^ 2) with (w ^ 2 / (c * c)) by (field; lra). rewrite KK. field. lra.
Qed.
Lemma hat_mod s : Cmod (fd_sigma_hat s) = sqrt (fd_sigma s ^ 2 + (if is_True (fd_qs s) then 0 else (2 * PI * fd_freq s * fd_eps s) ^ 2)).
Proof.
  unfold fd_sigma_hat, sigma_hat, omega. destruct (is_True (fd_qs s)); unfold Cmod; f_equal; cbn; ring.
Qed.

Lemma pw_rho s p : physical (pw_med s) -> vz (pw_orient s) = 0 -> pw_orient s <> vzero -> pw_amp s <> 0 ->
  apparent_resistivity (2 * PI * fd_freq (pw_med s)) (fd_mu (pw_med s)) (pw_E s p) (pw_H s p) = / Cmod (fd_sigma_hat (pw_med s)).
Proof.
  intros P O N A. pose proof P as (F & S & M). pose proof (imp_mod _ P) as IM. pose proof (Z_n0 _ P) as ZN.
  assert (W : 0 < 2 * PI * fd_freq (pw_med s) * fd_mu (pw_med s)) by (pose proof PI_RGT_0; apply Rmult_lt_0_compat; [nra|lra]).
  assert (E : amplitude (pw_E s p) ^ 2 = Cmod (intrinsic (2 * PI * fd_freq (pw_med s)) (fd_mu (pw_med s)) (fd_k (pw_med s))) ^ 2 * amplitude (pw_H s p) ^ 2).
  { rewrite (pw_imp s p P O) at 1. rewrite amp_scal. f_equal. rewrite !amp2. unfold ccross. cbn [cvx cvy cvz vx vy vz].
    assert (HZ : cvz (pw_H s p) = RtoC 0).
    { unfold pw_H. rewrite pw_B_z. unfold cvscal, cvof, vcross. cbn [cvz vx vy vz]. rewrite RtoC_minus, !RtoC_mult. ring. }
    rewrite HZ. replace (cvy (pw_H s p) * -1 - RtoC 0 * 0)%C with (- cvy (pw_H s p))%C by (rewrite Cm1; ring).
    replace (RtoC 0 * 0 - cvx (pw_H s p) * -1)%C with (cvx (pw_H s p)) by (rewrite Cm1; ring).
    replace (cvx (pw_H s p) * 0 - cvy (pw_H s p) * 0)%C with (RtoC 0) by ring. rewrite Cmod_opp. ring. }
  assert (HP : amplitude (pw_H s p) ^ 2 <> 0).
  { intro Z. rewrite Z, Rmult_0_r in E. rewrite amp2, pw_E_z in E. unfold cvof in E. cbn [cvx cvy cvz] in E. rewrite !Cmod_mult, Cmod_cexp, !Cmod_R, !Rpow_mult_distr, !pow2_abs in E.
    set (x := exp _) in E. assert (XP : 0 < x) by apply exp_pos. assert (A2 : 0 < pw_amp s ^ 2) by nra. assert (Y : 0 < pw_amp s ^ 2 * x ^ 2) by (apply Rmult_lt_0_compat; nra).
    assert (vx (pw_orient s) = 0 /\ vy (pw_orient s) = 0) as [X1 X2].
    { assert (0 <= vx (pw_orient s) ^ 2) by nra. assert (0 <= vy (pw_orient s) ^ 2) by nra. rewrite O in E.
      assert (vx (pw_orient s) ^ 2 + vy (pw_orient s) ^ 2 = 0) by (apply (Rmult_eq_reg_l (pw_amp s ^ 2 * x ^ 2)); lra). split; nra. }
    apply N. destruct (pw_orient s). cbn in *. subst. reflexivity. }
  assert (CH : 0 < Cmod (fd_sigma_hat (pw_med s))).
  { rewrite hat_mod. apply sqrt_lt_R0. assert (0 < fd_sigma (pw_med s) ^ 2) by (apply pow_lt, S). destruct (is_True _); [lra|]. pose proof (pow2_ge_0 (2 * PI * fd_freq (pw_med s) * fd_eps (pw_med s))). lra. }
  unfold apparent_resistivity. rewrite E, IM. set (w := 2 * PI * fd_freq (pw_med s) * fd_mu (pw_med s)) in *. set (h := amplitude (pw_H s p) ^ 2) in *. field. repeat split; lra.
Qed.

Lemma imp_phase s : physical s -> 0 <= fd_eps s -> let Z := intrinsic (2 * PI * fd_freq s) (fd_mu s) (fd_k s) in
  0 < Im Z <= Re Z /\ (Im Z = Re Z <-> is_True (fd_qs s) = true \/ fd_eps s = 0).
Proof.
  intros P EP. cbv zeta. pose proof P as (F & S & M). destruct (k_pos s P) as [KA KB].
  assert (W : 0 < 2 * PI * fd_freq s * fd_mu s) by (pose proof PI_RGT_0; apply Rmult_lt_0_compat; [nra|lra]).
  pose proof (k_sq s) as KK. rewrite k_eq in KK. apply (f_equal Re) in KK. unfold fd_sigma_hat, sigma_hat, omega in KK.
  set (Z := intrinsic _ _ _). set (d := ka s ^ 2 + kb s ^ 2). assert (DP : 0 < d) by (unfold d; nra).
  assert (ZR : Re Z = 2 * PI * fd_freq s * fd_mu s * ka s / d) by (unfold Z, intrinsic; rewrite k_eq; cbn; unfold d; field; nra).
  assert (ZI : Im Z = 2 * PI * fd_freq s * fd_mu s * kb s / d) by (unfold Z, intrinsic; rewrite k_eq; cbn; unfold d; field; nra).
  assert (ID : 0 < / d) by (apply Rinv_0_lt_compat, DP). set (w := 2 * PI * fd_freq s * fd_mu s) in *.
  assert (Y : ka s * ka s - kb s * kb s = if is_True (fd_qs s) then 0 else w * (2 * PI * fd_freq s * fd_eps s)).
  { destruct (is_True (fd_qs s)); cbn in KK; unfold w in *; ring_simplify in KK; ring_simplify; lra. }
  assert (WF : 0 < 2 * PI * fd_freq s) by (pose proof PI_RGT_0; nra).
  assert (G : kb s <= ka s /\ (kb s = ka s <-> is_True (fd_qs s) = true \/ fd_eps s = 0)).
  { destruct (is_True (fd_qs s)).
    - assert (ka s = kb s) by nra. split; [lra|]. split; [auto|lra].
    - assert (0 <= w * (2 * PI * fd_freq s * fd_eps s)) by (apply Rmult_le_pos; [lra|nra]). split; [nra|]. split.
      + intro Q. right. rewrite Q in Y. assert (w * (2 * PI * fd_freq s) * fd_eps s = 0) by lra. assert (0 < w * (2 * PI * fd_freq s)) by nra. nra.
      + intros [Q|Q]; [discriminate|]. rewrite Q in Y. nra. }
  destruct G as [G1 G2]. rewrite ZR, ZI. unfold Rdiv. assert (WD : 0 < w * / d) by nra. split; [split|].
  - replace (w * kb s * / d) with (w * / d * kb s) by ring. nra.
  - replace (w * kb s * / d) with (w * / d * kb s) by ring. replace (w * ka s * / d) with (w * / d * ka s) by ring. nra.
  - rewrite <- G2. split; intro Q.
    + apply (Rmult_eq_reg_l (w * / d)); lra.
    + rewrite Q. reflexivity.
Qed.
