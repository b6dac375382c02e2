(** The transient plane wave (C69, C71). *)
From Coq Require Import Reals Lra.
From Coquelicot Require Import Coquelicot.
From Verif Require Import Vec3 Calculus Deriv Model_TDEM SpecFun Spec_TDEM Model_Static Proof_Static2 Proof_TDEM.
Open Scope R_scope.

Definition kwE (e0 sg mu z t : R) : R := - e0 * sqrt (mu * sg) * z * exp (- (mu * sg * z ^ 2) / (4 * t)) / (2 * sqrt PI * (t * sqrt t)).
Definition kwB (e0 sg mu z t : R) : R := - e0 * sqrt (mu * sg) * exp (- (mu * sg * z ^ 2) / (4 * t)) / (sqrt PI * sqrt t).

Lemma kwB_model e0 sg mu z t : 0 < sg -> 0 < mu -> 0 < t ->
  - e0 * sqrt (sg * mu / (PI * t)) * exp ((- mu * sg * z ^ 2) / (4 * t)) = kwB e0 sg mu z t.
Proof.
  intros A B D. unfold kwB. pose proof PI_RGT_0. pose proof sqrt_PI_pos. pose proof (sqrt_lt_R0 t D).
  replace (- mu * sg * z ^ 2 / (4 * t)) with (- (mu * sg * z ^ 2) / (4 * t)) by (field; lra).
  rewrite sqrt_div_alt by (apply Rmult_lt_0_compat; lra). rewrite (sqrt_mult_alt PI t) by lra. rewrite (Rmult_comm sg mu).
  field. lra.
Qed.

Section Wave.
  Variables (e0 sg mu : R).
  Hypothesis Hs : 0 < sg.
  Hypothesis Hm : 0 < mu.

  Lemma kw_faraday z t : 0 < t -> exists d,
    is_derive (fun z => kwE e0 sg mu z t) z d /\ is_derive (fun t => kwB e0 sg mu z t) t (- d).
  Proof.
    intro Ht. pose proof sqrt_PI_pos. pose proof (sqrt_lt_R0 t Ht) as P. pose proof (sqrt_sqrt t (Rlt_le _ _ Ht)) as S.
    eexists. split.
    - unfold kwE. der; nz.
    - unfold kwB. eapply is_derive_eq; [der; try nz; lra|].
      cbn [INR Init.Nat.pred].
      set (e := exp _). clearbody e. set (w := sqrt (mu * sg)). clearbody w. set (v := sqrt PI) in *. clearbody v.
      set (q := sqrt t) in *. clearbody q. rewrite <- S. field. lra.
  Qed.
  Lemma kw_ampere z t : 0 < t -> is_derive (fun z => kwB e0 sg mu z t) z (- (mu * (sg * kwE e0 sg mu z t))).
  Proof.
    intro Ht. pose proof sqrt_PI_pos. pose proof (sqrt_lt_R0 t Ht) as P. pose proof (sqrt_sqrt t (Rlt_le _ _ Ht)) as S.
    unfold kwB, kwE. eapply is_derive_eq; [der; nz|]. cbn [INR Init.Nat.pred].
    set (e := exp _). clearbody e. set (w := sqrt (mu * sg)). clearbody w. set (v := sqrt PI) in *. clearbody v.
    set (q := sqrt t) in *. clearbody q. rewrite <- S. field. lra.
  Qed.
  Lemma kwE_sq z t : 0 < t -> kwE e0 sg mu z t ^ 2 = e0 ^ 2 * (mu * sg) * z ^ 2 * exp (- (mu * sg * z ^ 2) / (2 * t)) / (4 * PI * t ^ 3).
  Proof.
    intro Ht. pose proof PI_RGT_0. pose proof sqrt_PI_pos. pose proof (sqrt_lt_R0 t Ht) as P. pose proof (sqrt_sqrt t (Rlt_le _ _ Ht)) as S.
    pose proof (sqrt_sqrt PI ltac:(lra)) as SP. pose proof (sqrt_sqrt (mu * sg) ltac:(apply Rmult_le_pos; lra)) as SM.
    unfold kwE. replace (- (mu * sg * z ^ 2) / (2 * t)) with (- (mu * sg * z ^ 2) / (4 * t) + - (mu * sg * z ^ 2) / (4 * t)) by (field; lra).
    rewrite exp_plus. set (e := exp _). clearbody e.
    replace (e0 ^ 2 * (mu * sg) * z ^ 2) with (e0 ^ 2 * (sqrt (mu * sg) * sqrt (mu * sg)) * z ^ 2) by (rewrite SM; ring).
    replace (4 * PI * t ^ 3) with (4 * (sqrt PI * sqrt PI) * (sqrt t * sqrt t) ^ 3) by (rewrite SP, S; ring).
    replace (2 * sqrt PI * (t * sqrt t)) with (2 * sqrt PI * ((sqrt t * sqrt t) * sqrt t)) by (rewrite S; ring).
    set (w := sqrt (mu * sg)) in *. set (v := sqrt PI) in *. set (q := sqrt t) in *. clearbody w v q. field. lra.
  Qed.
End Wave.

Definition tp_ok (s : tpwave) : Prop := 0 < td_time (tp_med s) /\ 0 < td_sigma (tp_med s) /\ 0 < td_mu (tp_med s).

Lemma tp_E_z s p : tp_E s p = vscal (kwE (tp_amp s) (td_sigma (tp_med s)) (td_mu (tp_med s)) (vz p) (td_time (tp_med s))) (tp_orient s).
Proof. unfold tp_E, kwE. reflexivity. Qed.
Lemma tp_B_z s p : tp_ok s -> tp_B s p = vscal (kwB (tp_amp s) (td_sigma (tp_med s)) (td_mu (tp_med s)) (vz p) (td_time (tp_med s))) (V3 (- vy (tp_orient s)) (vx (tp_orient s)) 0).
Proof. intros [A [B D]]. unfold tp_B. rewrite kwB_model by assumption. set (k := kwB _ _ _ _ _). clearbody k. veq; ring. Qed.

(** the Jacobian of f(z) v *)
Lemma zfield_jac (f : R -> R) (v p : vec3) d : is_derive f (vz p) d ->
  is_jac (fun q => vscal (f (vz q)) v) p (M3 (V3 0 0 (d * vx v)) (V3 0 0 (d * vy v)) (V3 0 0 (d * vz v))).
Proof.
  intro D. split_jac; cbn [vscal vx vy vz]; try (apply D_const); eapply is_derive_eq; try (der); ring.
Qed.

Lemma tp_curl_E s p : tp_ok s -> exists d, is_vderive (fun t => tp_B (tp_at s t) p) (td_time (tp_med s)) d /\ is_curl (tp_E s) p (vopp d).
Proof.
  intros [Ht [Hs Hm]].
  destruct (kw_faraday (tp_amp s) (td_sigma (tp_med s)) (td_mu (tp_med s)) (vz p) _ Ht) as [d [D1 D2]].
  exists (vscal (- d) (V3 (- vy (tp_orient s)) (vx (tp_orient s)) 0)). split.
  - set (T := td_time (tp_med s)) in *.
    assert (X : forall (f : vec3 -> R), (forall k v, f (vscal k v) = k * f v) ->
       is_derive (fun t => f (tp_B (tp_at s t) p)) T (f (vscal (- d) (V3 (- vy (tp_orient s)) (vx (tp_orient s)) 0)))).
    { intros f L. apply D_ext_loc with (e := T) (f := fun t => kwB (tp_amp s) (td_sigma (tp_med s)) (td_mu (tp_med s)) (vz p) t * f (V3 (- vy (tp_orient s)) (vx (tp_orient s)) 0)); [exact Ht| |].
      - intros t Hd. apply Rabs_def2 in Hd. rewrite tp_B_z by (unfold tp_ok; cbn; repeat split; [lra|assumption|assumption]). rewrite L. reflexivity.
      - rewrite L. eapply is_derive_eq; [der|]. ring. }
    split; [|split]; apply X; intros k v; reflexivity.
  - eexists. split.
    + apply (zfield_jac (fun z => kwE (tp_amp s) (td_sigma (tp_med s)) (td_mu (tp_med s)) z (td_time (tp_med s))) (tp_orient s) p d D1).
    + unfold curl_of. veq; ring.
Qed.

Lemma tp_curl_H s p : tp_ok s -> vz (tp_orient s) = 0 -> is_curl (tp_H s) p (vscal (td_sigma (tp_med s)) (tp_E s p)).
Proof.
  intros O Z. pose proof O as [Ht [Hs Hm]].
  pose proof (kw_ampere (tp_amp s) (td_sigma (tp_med s)) (td_mu (tp_med s)) (vz p) _ Ht) as D.
  set (v := V3 (- vy (tp_orient s)) (vx (tp_orient s)) 0) in *.
  exists (M3 (V3 0 0 (- (td_mu (tp_med s) * (td_sigma (tp_med s) * kwE (tp_amp s) (td_sigma (tp_med s)) (td_mu (tp_med s)) (vz p) (td_time (tp_med s)))) / td_mu (tp_med s) * vx v))
     (V3 0 0 (- (td_mu (tp_med s) * (td_sigma (tp_med s) * kwE (tp_amp s) (td_sigma (tp_med s)) (td_mu (tp_med s)) (vz p) (td_time (tp_med s)))) / td_mu (tp_med s) * vy v))
     (V3 0 0 (- (td_mu (tp_med s) * (td_sigma (tp_med s) * kwE (tp_amp s) (td_sigma (tp_med s)) (td_mu (tp_med s)) (vz p) (td_time (tp_med s)))) / td_mu (tp_med s) * vz v))).
  split.
  - eapply is_jac_ext.
    2:{ apply (zfield_jac (fun z => kwB (tp_amp s) (td_sigma (tp_med s)) (td_mu (tp_med s)) z (td_time (tp_med s)) / td_mu (tp_med s)) v p).
        eapply is_derive_eq; [der; lra|]. field. lra. }
    intro q. unfold tp_H. rewrite tp_B_z by exact O. fold v. unfold vdiv. set (k := kwB _ _ _ _ _). clearbody k. veq; field; lra.
  - rewrite tp_E_z. set (k := kwE _ _ _ _ _). clearbody k. unfold curl_of, v. veq; try (field; lra). rewrite Z. ring.
Qed.

Lemma tp_div s p : tp_ok s -> vz (tp_orient s) = 0 -> is_div (tp_E s) p 0 /\ is_div (tp_B s) p 0.
Proof.
  intros O Z. pose proof O as [Ht [Hs Hm]]. split.
  - destruct (kw_faraday (tp_amp s) (td_sigma (tp_med s)) (td_mu (tp_med s)) (vz p) _ Ht) as [d [D1 D2]].
    eexists. split; [apply (zfield_jac (fun z => kwE (tp_amp s) (td_sigma (tp_med s)) (td_mu (tp_med s)) z (td_time (tp_med s))) (tp_orient s) p d D1)|].
    unfold mtrace; cbn. rewrite Z. ring.
  - eexists. split.
    + eapply is_jac_ext; [intro q; symmetry; apply tp_B_z; exact O|].
      apply (zfield_jac (fun z => kwB (tp_amp s) (td_sigma (tp_med s)) (td_mu (tp_med s)) z (td_time (tp_med s)))).
      apply kw_ampere; assumption.
    + unfold mtrace; cbn. ring.
Qed.

(** C69 *)
Lemma phi_max u : u * exp (- u) <= exp (- (1)) /\ (u <> 1 -> u * exp (- u) < exp (- (1))).
Proof.
  assert (E : exp (- (1)) = exp (u - 1) * exp (- u)) by (rewrite <- exp_plus; f_equal; ring).
  pose proof (exp_pos (- u)) as P. rewrite E. split.
  - apply Rmult_le_compat_r; [lra|]. pose proof (exp_ineq1_le (u - 1)). lra.
  - intro N. apply Rmult_lt_compat_r; [exact P|]. pose proof (exp_ineq1 (u - 1)). lra.
Qed.

Lemma abs_le_of_sq a b : a ^ 2 <= b ^ 2 -> Rabs a <= Rabs b.
Proof. intro H. apply Rsqr_le_abs_0. unfold Rsqr. lra. Qed.
Lemma abs_lt_of_sq a b : a ^ 2 < b ^ 2 -> Rabs a < Rabs b.
Proof. intro H. apply Rsqr_lt_abs_0. unfold Rsqr. lra. Qed.

Section Peak.
  Variables (e0 sg mu : R).
  Hypothesis Hs : 0 < sg.
  Hypothesis Hm : 0 < mu.

  Lemma kwE_sq_time z t : 0 < t -> z <> 0 ->
    let u := peak_time z sg mu / t in
    kwE e0 sg mu z t ^ 2 = e0 ^ 2 * (mu * sg) * z ^ 2 / (4 * PI * peak_time z sg mu ^ 3) * (u * exp (- u)) ^ 3.
  Proof.
    intros Ht Hz u. rewrite kwE_sq by assumption. pose proof PI_RGT_0.
    assert (exp (- (mu * sg * z ^ 2) / (2 * t)) = exp (- u) ^ 3) as ->.
    { rewrite <- (Rmult_1_r (exp (- u) ^ 3)). cbn [pow]. rewrite !Rmult_1_r, <- !exp_plus. f_equal. unfold u, peak_time. field. lra. }
    set (e := exp (- u)). clearbody e. unfold u, peak_time. field. repeat split; try lra.
  Qed.
  Lemma kwE_sq_dist z t : 0 < t ->
    let v := mu * sg * z ^ 2 / (2 * t) in
    kwE e0 sg mu z t ^ 2 = e0 ^ 2 / (2 * PI * t ^ 2) * (v * exp (- v)).
  Proof.
    intros Ht v. rewrite kwE_sq by assumption. pose proof PI_RGT_0.
    replace (- (mu * sg * z ^ 2) / (2 * t)) with (- v) by (unfold v; field; lra).
    set (e := exp (- v)). clearbody e. unfold v. field. lra.
  Qed.

  Lemma peak_pos z : z <> 0 -> 0 < peak_time z sg mu.
  Proof.
    intro Hz. unfold peak_time. assert (0 < z ^ 2) by (apply pow2_gt_0; exact Hz).
    apply Rdiv_lt_0_compat; [|lra]. apply Rmult_lt_0_compat; [apply Rmult_lt_0_compat|]; assumption.
  Qed.

  Lemma peak_abs z t : 0 < t -> z <> 0 ->
    Rabs (kwE e0 sg mu z t) <= Rabs (kwE e0 sg mu z (peak_time z sg mu)) /\
    (e0 <> 0 -> t <> peak_time z sg mu -> Rabs (kwE e0 sg mu z t) < Rabs (kwE e0 sg mu z (peak_time z sg mu))).
  Proof.
    intros Ht Hz. pose proof (peak_pos z Hz) as P. pose proof PI_RGT_0. assert (Z2 : 0 < z ^ 2) by (apply pow2_gt_0; exact Hz).
    assert (MS : 0 < mu * sg) by (apply Rmult_lt_0_compat; assumption).
    assert (K : 0 < mu * sg * z ^ 2 / (4 * PI * peak_time z sg mu ^ 3)).
    { apply Rdiv_lt_0_compat; [apply Rmult_lt_0_compat; lra|]. apply Rmult_lt_0_compat; [lra|apply pow_lt; exact P]. }
    set (T := peak_time z sg mu) in *.
    assert (U1 : T / T = 1) by (field; lra).
    assert (Q : kwE e0 sg mu z T ^ 2 = e0 ^ 2 * (mu * sg * z ^ 2 / (4 * PI * T ^ 3)) * exp (- (1)) ^ 3).
    { pose proof (kwE_sq_time z T P Hz) as E. cbv zeta in E. fold T in E. rewrite U1 in E. rewrite E. rewrite Rmult_1_l. field. lra. }
    assert (Q2 : kwE e0 sg mu z t ^ 2 = e0 ^ 2 * (mu * sg * z ^ 2 / (4 * PI * T ^ 3)) * (T / t * exp (- (T / t))) ^ 3).
    { pose proof (kwE_sq_time z t Ht Hz) as E. cbv zeta in E. fold T in E. rewrite E. field. repeat split; lra. }
    destruct (phi_max (T / t)) as [L1 L2].
    assert (Pu : 0 < T / t) by (apply Rdiv_lt_0_compat; assumption).
    assert (0 < T / t * exp (- (T / t))) by (apply Rmult_lt_0_compat; [exact Pu|apply exp_pos]).
    split.
    - apply abs_le_of_sq. rewrite Q, Q2. apply Rmult_le_compat_l.
      + apply Rmult_le_pos; [apply pow2_ge_0|lra].
      + apply pow_incr. lra.
    - intros He N. apply abs_lt_of_sq. rewrite Q, Q2. apply Rmult_lt_compat_l.
      + apply Rmult_lt_0_compat; [apply pow2_gt_0; exact He|exact K].
      + assert (T / t <> 1). { intro X. apply N. apply (Rmult_eq_compat_r t) in X. field_simplify in X; lra. }
        specialize (L2 H1). set (x := T / t * exp (- (T / t))) in *. clearbody x.
        pose proof (exp_pos (- (1))). set (y := exp (- (1))) in *. clearbody y.
        assert (y ^ 3 - x ^ 3 = (y - x) * (y * y + y * x + x * x)) by ring.
        assert (0 < (y - x) * (y * y + y * x + x * x)) by (apply Rmult_lt_0_compat; nra). lra.
  Qed.

  Lemma dist_abs z z0 t : 0 < t -> Rabs z0 = diffusion_distance t sg mu ->
    Rabs (kwE e0 sg mu z t) <= Rabs (kwE e0 sg mu z0 t) /\
    (e0 <> 0 -> Rabs z <> diffusion_distance t sg mu -> Rabs (kwE e0 sg mu z t) < Rabs (kwE e0 sg mu z0 t)).
  Proof.
    intros Ht E0. pose proof PI_RGT_0. assert (MS : 0 < mu * sg) by (apply Rmult_lt_0_compat; assumption).
    assert (D2 : diffusion_distance t sg mu ^ 2 = 2 * t / (mu * sg)).
    { unfold diffusion_distance. rewrite pow_2. apply sqrt_sqrt. left. apply Rdiv_lt_0_compat; lra. }
    assert (DP : 0 < diffusion_distance t sg mu).
    { unfold diffusion_distance. apply sqrt_lt_R0, Rdiv_lt_0_compat; lra. }
    assert (Z0 : z0 ^ 2 = 2 * t / (mu * sg)) by (rewrite <- pow2_abs, E0; exact D2).
    pose proof (kwE_sq_dist z t Ht) as A. pose proof (kwE_sq_dist z0 t Ht) as B. cbv zeta in A, B.
    rewrite Z0 in B. replace (mu * sg * (2 * t / (mu * sg)) / (2 * t)) with 1 in B by (field; lra). rewrite Rmult_1_l in B.
    destruct (phi_max (mu * sg * z ^ 2 / (2 * t))) as [L1 L2].
    assert (K : 0 < / (2 * PI * t ^ 2)). { apply Rinv_0_lt_compat, Rmult_lt_0_compat; [lra|apply pow_lt; exact Ht]. }
    unfold Rdiv in A at 1. unfold Rdiv in B at 1.
    split.
    - apply abs_le_of_sq. rewrite A, B. apply Rmult_le_compat_l; [|exact L1]. apply Rmult_le_pos; [apply pow2_ge_0|lra].
    - intros He N. apply abs_lt_of_sq. rewrite A, B. apply Rmult_lt_compat_l.
      + apply Rmult_lt_0_compat; [apply pow2_gt_0; exact He|exact K].
      + apply L2. intro X. apply N.
        assert (z ^ 2 = 2 * t / (mu * sg)). { apply (Rmult_eq_reg_l (mu * sg / (2 * t))). 2:{ apply Rgt_not_eq, Rdiv_lt_0_compat; lra. } field_simplify; [|lra..]. field_simplify in X; lra. }
        apply Rsqr_inj; [apply Rabs_pos|lra|]. unfold Rsqr. rewrite <- !pow_2, pow2_abs, D2. exact H0.
  Qed.
End Peak.

Lemma tp_peak s p t : 0 < td_sigma (tp_med s) -> 0 < td_mu (tp_med s) -> 0 < t -> vz p <> 0 ->
  let E u := vnorm (tp_E (tp_at s u) p) in
  let T := td_peak_time (tp_med s) (vz p) in
  0 < T /\ E t <= E T /\ (tp_amp s <> 0 -> tp_orient s <> vzero -> t <> T -> E t < E T).
Proof.
  intros Hs Hm Ht Hz E T. split; [apply peak_pos; assumption|].
  destruct (peak_abs (tp_amp s) _ _ Hs Hm (vz p) t Ht Hz) as [A B].
  unfold E. rewrite !tp_E_z, !vnorm_scal. cbn [tp_at tp_med tp_amp tp_orient at_time td_sigma td_mu td_time]. split.
  - apply Rmult_le_compat_r; [apply vnorm_nonneg|exact A].
  - intros Ha Ho N. apply Rmult_lt_compat_r; [apply vnorm_pos; exact Ho|]. apply B; assumption.
Qed.

Lemma tp_dist s p q : 0 < td_sigma (tp_med s) -> 0 < td_mu (tp_med s) -> 0 < td_time (tp_med s) ->
  Rabs (vz q) = td_diffusion_distance (tp_med s) ->
  vnorm (tp_E s p) <= vnorm (tp_E s q) /\
  (tp_amp s <> 0 -> tp_orient s <> vzero -> Rabs (vz p) <> td_diffusion_distance (tp_med s) -> vnorm (tp_E s p) < vnorm (tp_E s q)).
Proof.
  intros Hs Hm Ht Hz.
  destruct (dist_abs (tp_amp s) _ _ Hs Hm (vz p) (vz q) _ Ht Hz) as [A B].
  rewrite !tp_E_z, !vnorm_scal. split.
  - apply Rmult_le_compat_r; [apply vnorm_nonneg|exact A].
  - intros Ha Ho N. apply Rmult_lt_compat_r; [apply vnorm_pos; exact Ho|]. apply B; assumption.
Qed.

(** diffusion *)
Definition kwE_z (e0 sg mu z t : R) : R :=
  - e0 * sqrt (mu * sg) * (1 - mu * sg * z ^ 2 / (2 * t)) * exp (- (mu * sg * z ^ 2) / (4 * t)) / (2 * sqrt PI * (t * sqrt t)).
Definition kwE_zz (e0 sg mu z t : R) : R :=
  - e0 * sqrt (mu * sg) * (- 3 * mu * sg * z / (2 * t) + (mu * sg) ^ 2 * z ^ 3 / (4 * t ^ 2)) * exp (- (mu * sg * z ^ 2) / (4 * t)) / (2 * sqrt PI * (t * sqrt t)).
Lemma kw_diffusion e0 sg mu z t : 0 < sg -> 0 < mu -> 0 < t ->
  is_derive (fun z => kwE e0 sg mu z t) z (kwE_z e0 sg mu z t) /\
  is_derive (fun z => kwE_z e0 sg mu z t) z (kwE_zz e0 sg mu z t) /\
  is_derive (fun t => kwE e0 sg mu z t) t (kwE_zz e0 sg mu z t / (mu * sg)).
Proof.
  intros Hs Hm Ht. pose proof sqrt_PI_pos. pose proof (sqrt_lt_R0 t Ht) as P. pose proof (sqrt_sqrt t (Rlt_le _ _ Ht)) as S.
  split; [|split].
  - unfold kwE, kwE_z. eapply is_derive_eq; [der; nz|]. cbn [INR Init.Nat.pred]. set (e := exp _). clearbody e. set (w := sqrt (mu * sg)). clearbody w. set (v := sqrt PI) in *. clearbody v. field. lra.
  - unfold kwE_z, kwE_zz. eapply is_derive_eq; [der; nz|]. cbn [INR Init.Nat.pred]. set (e := exp _). clearbody e. set (w := sqrt (mu * sg)). clearbody w. set (v := sqrt PI) in *. clearbody v. field. lra.
  - unfold kwE, kwE_zz. eapply is_derive_eq; [der; try nz; lra|]. cbn [INR Init.Nat.pred]. set (e := exp _). clearbody e. set (w := sqrt (mu * sg)). clearbody w. set (v := sqrt PI) in *. clearbody v.
    set (q := sqrt t) in *. clearbody q. rewrite <- S. field. repeat split; lra.
Qed.

Lemma vderive_scal (f : R -> R) x d v : is_derive f x d -> is_vderive (fun u => vscal (f u) v) x (vscal d v).
Proof. intro D. split; [|split]; cbn [vscal vx vy vz]; (eapply is_derive_eq; [der|ring]). Qed.

Lemma tp_diffusion s x y : tp_ok s -> exists g : R -> vec3, forall z,
  is_vderive (fun z => tp_E s (V3 x y z)) z (g z) /\
  exists d, is_vderive g z (vscal (td_mu (tp_med s) * td_sigma (tp_med s)) d) /\
            is_vderive (fun t => tp_E (tp_at s t) (V3 x y z)) (td_time (tp_med s)) d.
Proof.
  intros [Ht [Hs Hm]]. set (f := kwE_z (tp_amp s) (td_sigma (tp_med s)) (td_mu (tp_med s))).
  exists (fun z => vscal (f z (td_time (tp_med s))) (tp_orient s)). intro z.
  destruct (kw_diffusion (tp_amp s) _ _ z _ Hs Hm Ht) as [A [B D]].
  set (k := kwE_zz (tp_amp s) (td_sigma (tp_med s)) (td_mu (tp_med s)) z (td_time (tp_med s))) in *.
  split; [|exists (vscal (k / (td_mu (tp_med s) * td_sigma (tp_med s))) (tp_orient s)); split].
  - exact (vderive_scal _ _ _ (tp_orient s) A).
  - pose proof (vderive_scal _ _ _ (tp_orient s) B) as X.
    replace (vscal (td_mu (tp_med s) * td_sigma (tp_med s)) (vscal (k / (td_mu (tp_med s) * td_sigma (tp_med s))) (tp_orient s))) with (vscal k (tp_orient s)); [exact X|].
    clearbody k. veq; field; lra.
  - exact (vderive_scal _ _ _ (tp_orient s) D).
Qed.
