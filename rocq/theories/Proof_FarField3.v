(** A distant prism against its point source: fields, gradients and magnetic fields (C112). *)
From Coq Require Import Reals Lra Psatz String List.
From Coquelicot Require Import Coquelicot.
From Verif Require Import Vec3 Numpy Calculus Deriv Integral TripleParam Model_Gravity Model_Static Model_Prism Spec_Prism Spec_Far Spec_Super
  Proof_Prism Proof_Prism2 Proof_Far Proof_Super Proof_Super2 Proof_Super4 Proof_Super5 Proof_Super6 Proof_LoopFar2 Proof_FarField Proof_FarField2.
Import ListNotations.
Open Scope R_scope.

Lemma k1_norm u : u <> vzero -> vnorm (k1 u) = / vnorm u ^ 2.
Proof.
  intro H. pose proof (vnorm_pos u H) as P. apply vnorm_unique; [apply Rlt_le, Rinv_0_lt_compat, pow_lt, P|].
  transitivity (vnorm2 u * (/ vnorm u) ^ 6); [|unfold vnorm2, k1; cbn [vx vy vz]; ring]. rewrite <- vnorm_sqr. field. lra.
Qed.
Lemma k2_low u m : u <> vzero -> vnorm m * (/ vnorm u) ^ 3 <= vnorm (mvec (k2 u) m).
Proof.
  intro H. pose proof (vnorm_pos u H) as P. pose proof (vnorm_nonneg m) as M0. assert (W0 : 0 < (/ vnorm u) ^ 3) by (apply pow_lt, Rinv_0_lt_compat, P).
  apply Rsqr_incr_0_var; [|apply vnorm_nonneg]. unfold Rsqr. rewrite vnorm_sqr.
  replace (vnorm2 (mvec (k2 u) m)) with (vnorm2 m * (/ vnorm u) ^ 6 + 3 * (vdot u m * vdot u m) * (/ vnorm u) ^ 8 + 9 * (vdot u m * vdot u m) * (/ vnorm u) ^ 8 * (vnorm2 u * (/ vnorm u) ^ 2 - 1)).
  2: { unfold k2, mvec, vnorm2, vdot; cbn [vx vy vz m0 m1 m2]. ring. }
  replace (vnorm2 u * (/ vnorm u) ^ 2) with 1 by (rewrite <- vnorm_sqr; field; lra).
  replace (vnorm m * (/ vnorm u) ^ 3 * (vnorm m * (/ vnorm u) ^ 3)) with (vnorm m * vnorm m * (/ vnorm u) ^ 6) by ring. rewrite vnorm_sqr.
  assert (0 <= (vdot u m * vdot u m) * (/ vnorm u) ^ 8). { apply Rmult_le_pos; [apply Rle_0_sqr|apply pow_le, Rlt_le, Rinv_0_lt_compat, P]. } lra.
Qed.
Lemma volume_pos b : ordered b -> 0 < volume b.
Proof. intros (X & Y & Z). unfold volume. repeat apply Rmult_lt_0_compat; lra. Qed.
Lemma far_nz b p : half_diagonal b < vnorm (vsub p (location b)) -> vsub p (location b) <> vzero.
Proof. intros H E. rewrite E, vnorm_zero in H. pose proof (half_diagonal_nonneg b). lra. Qed.
Lemma unit_dot w : vnorm w = 1 -> vdot w w = 1.
Proof. intro H. rewrite <- vnorm2_dot, <- vnorm_sqr, H. ring. Qed.

Section Far.
Variables (b : box) (p : vec3).
Hypothesis O : ordered b.
Let a := half_diagonal b.
Let r := vnorm (vsub p (location b)).
Hypothesis far : a < r.
Lemma ra : 0 < r - a. Proof. unfold r, a in *. lra. Qed.
Lemma a0 : 0 <= a. Proof. apply half_diagonal_nonneg. Qed.
Lemma r0 : 0 < r. Proof. pose proof a0. pose proof ra. lra. Qed.
Lemma far_k1 I : box_vintegral (fun q => k1 (vsub p q)) b I ->
  vnorm (vsub I (vscal (volume b) (k1 (vsub p (location b))))) <= 3 * (a / r) ^ 2 / (1 - a / r) ^ 4 * vnorm (vscal (volume b) (k1 (vsub p (location b)))).
Proof.
  intro T. pose proof (volume_pos b O) as V0. pose proof ra as RA. pose proof r0 as R0. pose proof a0 as A0.
  rewrite vnorm_scal, (Rabs_pos_eq (volume b)), k1_norm by (first [lra|apply far_nz, far]). fold r.
  replace (3 * (a / r) ^ 2 / (1 - a / r) ^ 4 * (volume b * / r ^ 2)) with (volume b * (3 * a ^ 2 * (/ (r - a)) ^ 4)).
  2: { replace (1 - a / r) with ((r - a) / r) by (field; lra). field. lra. }
  apply dir_norm; [|apply Rmult_le_pos; [lra|]; apply Rmult_le_pos; [apply Rmult_le_pos; [lra|apply pow_le, A0]|apply pow_le, Rlt_le, Rinv_0_lt_compat, RA]].
  intros w Hw. pose proof (row_integral 1 _ _ _ w T) as TI.
  assert (TI' : box_integral (fun q => vdot (k1 (vsub p q)) w) b (1 * vdot I w)) by (eapply box_ext; [|exact TI]; intro q; cbv beta; ring).
  pose proof (k1_mean b p w _ O far (unit_dot w Hw) TI') as M. cbv zeta in M. fold a in M. fold r in M.
  eapply Rle_trans; [|exact M]. right. f_equal. generalize (k1 (vsub p (location b))). intro v. unfold vdot, vsub, vscal; cbn [vx vy vz]. ring.
Qed.
Lemma far_k2 m I : box_vintegral (fun q => mvec (k2 (vsub p q)) m) b I ->
  vnorm (vsub I (vscal (volume b) (mvec (k2 (vsub p (location b))) m))) <= 12 * (a / r) ^ 2 / (1 - a / r) ^ 5 * vnorm (vscal (volume b) (mvec (k2 (vsub p (location b))) m)).
Proof.
  intro T. pose proof (volume_pos b O) as V0. pose proof ra as RA. pose proof r0 as R0. pose proof a0 as A0. pose proof (vnorm_nonneg m) as M0.
  assert (CO : 0 <= 12 * a ^ 2 * (/ (r - a)) ^ 5) by (apply Rmult_le_pos; [apply Rmult_le_pos; [lra|apply pow_le, A0]|apply pow_le, Rlt_le, Rinv_0_lt_compat, RA]).
  apply Rle_trans with (volume b * (12 * a ^ 2 * (/ (r - a)) ^ 5) * vnorm m).
  - apply dir_norm; [|apply Rmult_le_pos; [apply Rmult_le_pos; [lra|exact CO]|exact M0]].
    intros w Hw. pose proof (row_integral 1 _ _ _ w T) as TI.
    assert (TI' : box_integral (fun q => vdot (mvec (k2 (vsub p q)) m) w) b (vdot I w)).
    { replace (vdot I w) with (1 * vdot I w) by ring. eapply box_ext; [|exact TI]; intro q; cbv beta; ring. }
    replace (vdot w (vsub I (vscal (volume b) (mvec (k2 (vsub p (location b))) m)))) with (vdot I w - volume b * vdot (mvec (k2 (vsub p (location b))) m) w)
      by (generalize (mvec (k2 (vsub p (location b))) m); intro; unfold vdot, vsub, vscal; cbn [vx vy vz]; ring).
    destruct (vzero_dec m) as [Z|Z].
    + rewrite Z, vnorm_zero, Rmult_0_r. replace 0 with (volume b * 0) by ring. rewrite Z in TI'.
      apply (box_mean (fun u => vdot (mvec (k2 u) vzero) w) b p _ 0 O TI'). intros s _ d. 
      assert (E : forall u, vdot (mvec (k2 u) vzero) w = 0) by (intro u; unfold vdot, mvec, vzero; cbn [vx vy vz]; unfold vdot; cbn [vx vy vz]; ring).
      rewrite !E. replace (1 / 2 * (0 + 0) - 0) with 0 by ring. rewrite Rabs_R0. lra.
    + destruct (unit_of m Z) as (n & N & E). pose proof (vnorm_pos m Z) as MP. set (k := vnorm m) in *.
      assert (TN : box_integral (fun q => vdot (mvec (k2 (vsub p q)) n) w) b (/ k * vdot I w)).
      { apply (box_scal (/ k)) in TI'. eapply box_ext; [|exact TI']. intro q. cbv beta. rewrite E, mvec_scal.
        generalize (mvec (k2 (vsub p q)) n). intro v. unfold vdot, vscal; cbn [vx vy vz]. field. lra. }
      pose proof (k2_mean b p n w _ O far N (unit_dot w Hw) TN) as M. cbv zeta in M. fold a in M. fold r in M.
      replace (vdot I w - volume b * vdot (mvec (k2 (vsub p (location b))) m) w) with (k * (/ k * vdot I w - volume b * vdot (mvec (k2 (vsub p (location b))) n) w)).
      2: { rewrite E, mvec_scal. generalize (mvec (k2 (vsub p (location b))) n). intro v. unfold vdot, vscal; cbn [vx vy vz]. field. lra. }
      rewrite Rabs_mult, (Rabs_pos_eq k M0). rewrite (Rmult_comm _ k). apply Rmult_le_compat_l; [lra|exact M].
  - rewrite vnorm_scal, (Rabs_pos_eq (volume b)) by lra. pose proof (k2_low (vsub p (location b)) m (far_nz b p far)) as L. fold r in L.
    replace (volume b * (12 * a ^ 2 * (/ (r - a)) ^ 5) * vnorm m) with (12 * (a / r) ^ 2 / (1 - a / r) ^ 5 * (volume b * (vnorm m * (/ r) ^ 3))).
    2: { replace (1 - a / r) with ((r - a) / r) by (field; lra). generalize (vnorm m). intro. field. lra. }
    apply Rmult_le_compat_l; [|apply Rmult_le_compat_l; [lra|exact L]].
    unfold Rdiv at 1. apply Rmult_le_pos; [apply Rmult_le_pos; [lra|apply pow_le; unfold Rdiv; apply Rmult_le_pos; [exact A0|apply Rlt_le, Rinv_0_lt_compat, R0]]|].
    apply Rlt_le, Rinv_0_lt_compat, pow_lt. replace (1 - a / r) with ((r - a) / r) by (field; lra). apply Rdiv_lt_0_compat; assumption.
Qed.
Lemma close_scal c X Y e : vnorm (vsub X Y) <= e * vnorm Y -> vnorm (vsub (vscal c X) (vscal c Y)) <= e * vnorm (vscal c Y).
Proof.
  intro H. replace (vsub (vscal c X) (vscal c Y)) with (vscal c (vsub X Y)) by (unfold vsub, vscal; cbn [vx vy vz]; apply vec3_eq; cbn [vx vy vz]; ring).
  rewrite !vnorm_scal. replace (e * (Rabs c * vnorm Y)) with (Rabs c * (e * vnorm Y)) by ring. apply Rmult_le_compat_l; [apply Rabs_pos|exact H].
Qed.
Lemma close_unscal c f I X Y e : box_vintegral (fun q => vscal c (f q)) b X ->
  (forall J, box_vintegral f b J -> vnorm (vsub J Y) <= e * vnorm Y) -> (exists J, box_vintegral f b J) -> I = vscal c Y -> vnorm (vsub X I) <= e * vnorm I.
Proof.
  intros HX HJ (J & TJ) ->. replace X with (vscal c J).
  - apply close_scal, HJ, TJ.
  - eapply vunique; [exact O|apply vscal_integral, TJ|exact HX].
Qed.
Lemma U : outside b p. Proof. apply far_outside; assumption. Qed.
Lemma one_grav c v : vscal (c * 1) v = vscal c v. Proof. unfold vscal; apply vec3_eq; cbn [vx vy vz]; ring. Qed.
Lemma k1_int : exists J, box_vintegral (fun q => k1 (vsub p q)) b J.
Proof.
  eexists. eapply vext; [|apply (field_integral_all 1 1 b p O U)]. intro q. unfold vscal; apply vec3_eq; cbn [vx vy vz]; ring.
Qed.
Lemma mvec_int G rho m : box_vintegral (fun q => vscal (G * rho) (mvec (k2 (vsub p q)) m)) b (mvec (gravitational_gradient G b rho p) m).
Proof.
  destruct (gradient_integral_all G rho b p O U) as (X & Y & Z).
  apply (row_integral 1 _ _ _ m) in X. apply (row_integral 1 _ _ _ m) in Y. apply (row_integral 1 _ _ _ m) in Z.
  refine (conj _ (conj _ _)); cbn [mvec vx vy vz].
  - rewrite Rmult_1_l in X. eapply box_ext; [|exact X]. intro q. cbv beta. generalize (k2 (vsub p q)). intros [u0 u1 u2]. unfold mscal, mvec, vscal, vdot; cbn [vx vy vz m0 m1 m2]. ring.
  - rewrite Rmult_1_l in Y. eapply box_ext; [|exact Y]. intro q. cbv beta. generalize (k2 (vsub p q)). intros [u0 u1 u2]. unfold mscal, mvec, vscal, vdot; cbn [vx vy vz m0 m1 m2]. ring.
  - rewrite Rmult_1_l in Z. eapply box_ext; [|exact Z]. intro q. cbv beta. generalize (k2 (vsub p q)). intros [u0 u1 u2]. unfold mscal, mvec, vscal, vdot; cbn [vx vy vz m0 m1 m2]. ring.
Qed.
Lemma k2_int m : exists J, box_vintegral (fun q => mvec (k2 (vsub p q)) m) b J.
Proof.
  eexists. eapply vext; [|apply (mvec_int 1 1 m)]. intro q. cbv beta. generalize (mvec (k2 (vsub p q)) m). intro. unfold vscal; apply vec3_eq; cbn [vx vy vz]; ring.
Qed.
Lemma far_field rho : let g := pm_field (PM (prism_mass b rho) (location b)) p in
  vnorm (vsub (gravitational_field G_newton b rho p) g) <= 3 * (a / r) ^ 2 / (1 - a / r) ^ 4 * vnorm g.
Proof.
  intro g. eapply close_unscal; [apply field_integral_all; [exact O|exact U]|apply far_k1|apply k1_int|].
  unfold g. rewrite pm_field_k1. generalize (k1 (vsub p (location b))). intro v. unfold prism_mass, vscal; apply vec3_eq; cbn [vx vy vz]; ring.
Qed.
Lemma far_gradient rho m : let g := mvec (pm_gradient (PM (prism_mass b rho) (location b)) p) m in
  vnorm (vsub (mvec (gravitational_gradient G_newton b rho p) m) g) <= 12 * (a / r) ^ 2 / (1 - a / r) ^ 5 * vnorm g.
Proof.
  intro g. eapply close_unscal; [apply mvec_int|apply far_k2|apply k2_int|].
  unfold g. rewrite pm_gradient_k2. generalize (k2 (vsub p (location b))). intro v. unfold prism_mass, mscal, mvec, vdot, vscal; apply vec3_eq; cbn [vx vy vz m0 m1 m2]; ring.
Qed.
Lemma far_H k n mu H : mu <> 0 -> mdipole_field (MD (k * volume b) n (location b) mu) "cartesian" p = Ok H ->
  vnorm (vsub (magnetic_field b (vscal k n) p) H) <= 12 * (a / r) ^ 2 / (1 - a / r) ^ 5 * vnorm H.
Proof.
  intros M E. apply (md_H_k2 _ _ _ _ _ _ M) in E.
  eapply close_unscal; [apply H_integral; [exact O|exact U]|apply far_k2|apply k2_int|].
  rewrite E. replace (vscal (k * volume b) n) with (vscal (volume b) (vscal k n)) by (unfold vscal; apply vec3_eq; cbn [vx vy vz]; ring). rewrite mvec_scal. reflexivity.
Qed.
Lemma far_B k n mu B : mdipole_flux_density (MD (k * volume b) n (location b) mu) "cartesian" p = Ok B ->
  exists F, magnetic_flux_density mu b (vscal k n) [p] = Ok [F] /\ vnorm (vsub F B) <= 12 * (a / r) ^ 2 / (1 - a / r) ^ 5 * vnorm B.
Proof.
  intros E. exists (vscal mu (magnetic_field b (vscal k n) p)). split; [apply flux_outside, U|].
  cbn in E. injection E as E.
  assert (EB : B = vscal mu (vscal (1 / (4 * PI)) (vscal (volume b) (mvec (k2 (vsub p (location b))) (vscal k n))))).
  { rewrite <- E. transitivity (md_B (MD (k * volume b) n (location b) mu) p); [reflexivity|]. rewrite md_B_k2.
    replace (vscal (k * volume b) n) with (vscal (volume b) (vscal k n)) by (unfold vscal; apply vec3_eq; cbn [vx vy vz]; ring). rewrite mvec_scal. reflexivity. }
  rewrite EB. apply close_scal. eapply close_unscal; [apply H_integral; [exact O|exact U]|apply far_k2|apply k2_int|]. reflexivity.
Qed.
End Far.
