(** The magnetic prism and its gradient as superpositions at every outside point (C111). *)
From Coq Require Import Reals Lra Psatz.
From Coquelicot Require Import Coquelicot.
From Verif Require Import Vec3 Calculus Deriv Integral TripleParam Model_Gravity Model_Static Model_Prism Spec_Prism Spec_Super
  Proof_Prism Proof_Prism2 Proof_Prism3 Proof_Prism4 Proof_Far Proof_Super Proof_Super2 Proof_Super3 Proof_Super4.
Open Scope R_scope.

(** ** the third derivative kernels *)
Definition ker (x y z : R) : R := - x * z / ((x * x + y * y) * rad x y z).
Lemma fxxy_ker x y z : prism_fxxy x y z = ker x y z.
Proof.
  unfold prism_fxxy, ker. destruct (Req_dec x 0) as [X|X]; [|rewrite nonzero_true by exact X; reflexivity].
  subst. rewrite nonzero_0. unfold Rdiv. ring.
Qed.
Lemma fxxz_ker x y z : prism_fxxz x y z = ker x z y.
Proof.
  unfold prism_fxxz, ker. assert (E : rad x z y = rad x y z) by (unfold rad; f_equal; ring). rewrite E.
  destruct (Req_dec x 0) as [X|X]; [|rewrite nonzero_true by exact X; reflexivity].
  subst. rewrite nonzero_0. unfold Rdiv. ring.
Qed.
Lemma fzzz_ker x y z : rad x y z <> 0 -> prism_fzzz x y z = - ker x z y - ker y z x.
Proof.
  intro R0. unfold prism_fzzz, ker. cbv zeta. assert (E : rad x z y = rad x y z) by (unfold rad; f_equal; ring). assert (E' : rad y z x = rad x y z) by (unfold rad; f_equal; ring).
  rewrite E, E', (nonzero_true _ R0).
  assert (Z : forall a b, a * a + b * b = 0 -> a = 0) by (intros; nra).
  destruct (Req_dec (x * x + z * z) 0) as [V1|V1]; [replace (nonzero (x * x + z * z)) with false by (rewrite V1; symmetry; apply nonzero_0)|rewrite (nonzero_true _ V1)];
  (destruct (Req_dec (y * y + z * z) 0) as [V2|V2]; [replace (nonzero (y * y + z * z)) with false by (rewrite V2; symmetry; apply nonzero_0)|rewrite (nonzero_true _ V2)]).
  - rewrite (Z _ _ V1), (Z _ _ V2). unfold Rdiv. ring.
  - rewrite (Z _ _ V1). unfold Rdiv. ring.
  - rewrite (Z _ _ V2). unfold Rdiv. ring.
  - field. repeat split; assumption.
Qed.
Lemma ker_rc x y z : x <> 0 \/ y <> 0 -> rc (fun t => ker (x + t) (y + t) (z + t)).
Proof.
  intro H. assert (A : 0 < (x + 0) * (x + 0) + (y + 0) * (y + 0) + (z + 0) * (z + 0)) by (apply rad_pos; rewrite !Rplus_0_r; tauto).
  assert (B : 0 < (x + 0) * (x + 0) + (y + 0) * (y + 0)) by (rewrite !Rplus_0_r; destruct H; nra).
  assert (C : 0 < sqrt ((x + 0) * (x + 0) + (y + 0) * (y + 0) + (z + 0) * (z + 0))) by (apply sqrt_lt_R0, A).
  unfold ker, rad. eapply rc_derive. der; [exact A|]. apply Rmult_integral_contrapositive. lra.
Qed.
Definition ker_pair (x y z1 z2 : R) : R :=
  - x * (z2 * z2 - z1 * z1) / (rad x y z1 ^ 2 * rad x y z2 ^ 2 * (z1 / rad x y z1 + z2 / rad x y z2)).
Lemma ker_diff x y z1 z2 : apart z1 z2 -> ker x y z2 - ker x y z1 = ker_pair x y z1 z2.
Proof.
  intro H. assert (R1 : 0 < rad x y z1) by (apply rad_pos; right; right; destruct H; lra). assert (R2 : 0 < rad x y z2) by (apply rad_pos; right; right; destruct H; lra).
  pose proof (rad_sqr x y z1) as S1. pose proof (rad_sqr x y z2) as S2. unfold ker, ker_pair.
  destruct (Req_dec x 0) as [X|X]; [rewrite X; unfold Rdiv; ring|].
  set (r1 := rad x y z1) in *. set (r2 := rad x y z2) in *. assert (SS : 0 < x * x + y * y) by nra.
  assert (N : z1 * r2 + z2 * r1 <> 0).
  { destruct H as [[A B]|[A B]]; [apply Rgt_not_eq|apply Rlt_not_eq]; nra. }
  assert (E1 : z1 * z1 = r1 * r1 - (x * x + y * y)) by lra. assert (E2 : z2 * z2 = r2 * r2 - (x * x + y * y)) by lra.
  set (s := x * x + y * y) in *. 
  assert (K : - x * z2 / (s * r2) - - x * z1 / (s * r1) = - x * (z2 * z2 * (r1 * r1) - z1 * z1 * (r2 * r2)) / (s * (r1 * r2) * (z1 * r2 + z2 * r1))).
  { field. repeat split; lra. }
  rewrite K, E1, E2.
  replace ((r2 * r2 - s) * (r1 * r1) - (r1 * r1 - s) * (r2 * r2)) with (s * (r2 * r2 - r1 * r1)) by ring.
  replace (r2 * r2 - s - (r1 * r1 - s)) with (r2 * r2 - r1 * r1) by ring.
  field. repeat split; try lra.
Qed.
Lemma ker_rc_pair x y z1 z2 : apart z1 z2 -> rc (fun t => ker (x + t) (y + t) (z2 + t) - ker (x + t) (y + t) (z1 + t)).
Proof.
  intro H. assert (N1 : z1 <> 0) by (destruct H; lra). assert (N2 : z2 <> 0) by (destruct H; lra).
  assert (AP : forall t, 0 <= t < Rmin (Rabs z1) (Rabs z2) -> apart (z1 + t) (z2 + t)).
  { intros t T. pose proof (Rmin_l (Rabs z1) (Rabs z2)). pose proof (Rmin_r (Rabs z1) (Rabs z2)).
    destruct H as [[A B]|[A B]]; [left; lra|right]. rewrite (Rabs_left z1), (Rabs_left z2) in * by lra. lra. }
  assert (M : 0 < Rmin (Rabs z1) (Rabs z2)) by (apply Rmin_pos; apply Rabs_pos_lt; assumption).
  apply (rc_ext _ (fun t => ker_pair (x + t) (y + t) (z1 + t) (z2 + t)) _ M).
  { intros t T. symmetry. apply ker_diff, AP, T. }
  assert (P1 := proj1 (rad_pos (x + 0) (y + 0) (z1 + 0) ltac:(lra))). assert (P2 := proj1 (rad_pos (x + 0) (y + 0) (z2 + 0) ltac:(lra))).
  assert (Q1 : 0 < sqrt ((x + 0) * (x + 0) + (y + 0) * (y + 0) + (z1 + 0) * (z1 + 0))) by (apply sqrt_lt_R0, P1).
  assert (Q2 : 0 < sqrt ((x + 0) * (x + 0) + (y + 0) * (y + 0) + (z2 + 0) * (z2 + 0))) by (apply sqrt_lt_R0, P2).
  unfold ker_pair, rad. eapply rc_derive. der; try assumption; try lra.
  apply Rmult_integral_contrapositive. split; [apply Rmult_integral_contrapositive; split; apply pow_nonzero; lra|].
  destruct H as [[A B]|[A B]].
  - apply Rgt_not_eq, Rplus_lt_0_compat; apply Rdiv_lt_0_compat; lra.
  - apply Rlt_not_eq. assert (0 < - (z1 + 0) / sqrt ((x + 0) * (x + 0) + (y + 0) * (y + 0) + (z1 + 0) * (z1 + 0))) by (apply Rdiv_lt_0_compat; lra).
    assert (0 < - (z2 + 0) / sqrt ((x + 0) * (x + 0) + (y + 0) * (y + 0) + (z2 + 0) * (z2 + 0))) by (apply Rdiv_lt_0_compat; lra). unfold Rdiv in *. lra.
Qed.
Lemma ker_csum_rc a1 a2 b1 b2 c1 c2 : apart a1 a2 \/ apart b1 b2 \/ apart c1 c2 -> rc (moved ker a1 a2 b1 b2 c1 c2).
Proof.
  intros [A|[B|C]].
  - apply csum_rc. intros x y z X _ _. apply ker_rc. left. apply (apart_nz _ _ _ A X).
  - apply csum_rc. intros x y z _ Y _. apply ker_rc. right. apply (apart_nz _ _ _ B Y).
  - apply csum_rc_z. intros x y _ _. apply ker_rc_pair, C.
Qed.
Lemma fxyz_csum_rc a1 a2 b1 b2 c1 c2 : apart a1 a2 \/ apart b1 b2 \/ apart c1 c2 -> rc (moved prism_fxyz a1 a2 b1 b2 c1 c2).
Proof.
  intro H. apply csum_rc. intros x y z X Y Z.
  assert (N : x <> 0 \/ y <> 0 \/ z <> 0).
  { destruct H as [A|[A|A]]; [left|right; left|right; right]; eapply apart_nz; eassumption. }
  apply (rc_ext 1 (fun t => / rad (x + t) (y + t) (z + t))); [lra| |].
  - intros t _. unfold prism_fxyz. cbv zeta. destruct (Req_dec (rad (x + t) (y + t) (z + t)) 0) as [E|E].
    + rewrite E, nonzero_0. apply Rinv_0.
    + rewrite nonzero_true by exact E. unfold Rdiv. ring.
  - destruct (rad_pos (x + 0) (y + 0) (z + 0) ltac:(rewrite !Rplus_0_r; exact N)) as [A B]. unfold rad in *. eapply rc_derive. der; [exact A|lra].
Qed.
Lemma fxxy_csum_rc a1 a2 b1 b2 c1 c2 : apart a1 a2 \/ apart b1 b2 \/ apart c1 c2 -> rc (moved prism_fxxy a1 a2 b1 b2 c1 c2).
Proof. intro H. eapply (rc_ext 1); [lra| |apply (ker_csum_rc a1 a2 b1 b2 c1 c2 H)]. intros t _. unfold moved, csum. rewrite !fxxy_ker. reflexivity. Qed.
Lemma fxxz_csum_rc a1 a2 b1 b2 c1 c2 : apart a1 a2 \/ apart b1 b2 \/ apart c1 c2 -> rc (moved prism_fxxz a1 a2 b1 b2 c1 c2).
Proof.
  intro H. eapply (rc_ext 1); [lra| |apply (ker_csum_rc a1 a2 c1 c2 b1 b2); tauto]. intros t _. unfold moved, csum. rewrite !fxxz_ker. ring.
Qed.
Lemma fzzz_csum_rc a1 a2 b1 b2 c1 c2 : apart a1 a2 \/ apart b1 b2 \/ apart c1 c2 -> rc (moved prism_fzzz a1 a2 b1 b2 c1 c2).
Proof.
  intro H.
  assert (AP : forall u1 u2, apart u1 u2 -> exists d, 0 < d /\ forall t, 0 <= t < d -> u1 + t <> 0 /\ u2 + t <> 0).
  { intros u1 u2 U. exists (Rmin (Rabs u1) (Rabs u2)). split.
    - apply Rmin_pos; apply Rabs_pos_lt; destruct U; lra.
    - intros t T. pose proof (Rmin_l (Rabs u1) (Rabs u2)). pose proof (Rmin_r (Rabs u1) (Rabs u2)). split; apply stays; try lra; destruct U; lra. }
  assert (K : exists d, 0 < d /\ forall t, 0 <= t < d -> forall x y z, (x = a1 \/ x = a2) -> (y = b1 \/ y = b2) -> (z = c1 \/ z = c2) -> rad (x + t) (y + t) (z + t) <> 0).
  { destruct H as [A|[A|A]]; destruct (AP _ _ A) as (d & D & Hd); exists d; (split; [exact D|]); intros t T x y z X Y Z; destruct (Hd t T);
      apply Rgt_not_eq, rad_pos; [left; destruct X; subst|right; left; destruct Y; subst|right; right; destruct Z; subst]; assumption. }
  destruct K as (d & D & K).
  assert (R1 : rc (moved ker a1 a2 c1 c2 b1 b2)) by (apply ker_csum_rc; tauto). assert (R2 : rc (moved ker b1 b2 c1 c2 a1 a2)) by (apply ker_csum_rc; tauto).
  apply (rc_ext d (fun t => - moved ker a1 a2 c1 c2 b1 b2 t - moved ker b1 b2 c1 c2 a1 a2 t) _ D).
  - intros t T. unfold moved, csum. rewrite !fzzz_ker by (apply (K t T); tauto). ring.
  - apply rc_minus; [apply rc_opp|]; assumption.
Qed.

(** ** the magnetic field *)
Lemma H_form b m p : magnetic_field b m p = vscal (1 / (4 * PI)) (mvec (gravitational_gradient 1 b 1 p) m).
Proof.
  pose proof PI_RGT_0. unfold magnetic_field, gravitational_gradient, mvec, vdot. cbv zeta. cbn [m0 m1 m2 vx vy vz vscal].
  apply vec3_eq; cbn [vx vy vz vscal]; field; lra.
Qed.
Lemma row_integral c f b I m : box_vintegral f b I -> box_integral (fun q => c * vdot (f q) m) b (c * vdot I m).
Proof.
  intros (X & Y & Z). apply box_scal. unfold vdot.
  apply (box_ext (fun q => 1 * (vx m * vx (f q) + vy m * vy (f q)) + vz m * vz (f q))); [intro; ring|].
  replace (vx I * vx m + vy I * vy m + vz I * vz m) with (1 * (vx m * vx I + vy m * vy I) + vz m * vz I) by ring.
  unfold box_integral in *. apply triple_lin; [|exact Z]. apply triple_lin; assumption.
Qed.
Lemma H_integral b m p : ordered b -> outside b p ->
  box_vintegral (fun q => vscal (1 / (4 * PI)) (mvec (k2 (vsub p q)) m)) b (magnetic_field b m p).
Proof.
  intros O Q. rewrite H_form. destruct (gradient_integral_all 1 1 b p O Q) as (X & Y & Z).
  assert (E : forall r, vscal (1 * 1) r = r) by (intros r; apply vec3_eq; cbn; ring).
  refine (conj _ (conj _ _)); cbn [vscal mvec vx vy vz].
  - apply (row_integral (1 / (4 * PI)) _ _ _ m) in X. eapply box_ext; [|exact X]. intro q. cbn [mscal m0]. rewrite E. reflexivity.
  - apply (row_integral (1 / (4 * PI)) _ _ _ m) in Y. eapply box_ext; [|exact Y]. intro q. cbn [mscal m1]. rewrite E. reflexivity.
  - apply (row_integral (1 / (4 * PI)) _ _ _ m) in Z. eapply box_ext; [|exact Z]. intro q. cbn [mscal m2]. rewrite E. reflexivity.
Qed.
Lemma scalar_integral b m p : ordered b -> outside b p ->
  box_integral (fun q => 1 / (4 * PI) * vdot (k1 (vsub p q)) m) b (scalar_potential b m p).
Proof.
  intros O Q. pose proof (field_integral_all 1 1 b p O Q) as X. apply (row_integral (1 / (4 * PI)) _ _ _ m) in X.
  replace (scalar_potential b m p) with (1 / (4 * PI) * vdot (gravitational_field 1 b 1 p) m).
  - eapply box_ext; [|exact X]. intro q. unfold vdot. cbn [vscal vx vy vz]. ring.
  - unfold scalar_potential, gravitational_field, vdot. cbv zeta. cbn [vscal vx vy vz]. field. apply PI_neq0.
Qed.

(** ** derivatives at every outside point *)
Lemma vunique f b I J : ordered b -> box_vintegral f b I -> box_vintegral f b J -> I = J.
Proof. intros O (X & Y & Z) (X' & Y' & Z'). apply vec3_eq; eapply box_unique; eassumption. Qed.
Lemma vnice_scal c F : vnice F -> vnice (fun u => vscal c (F u)).
Proof. intros (X & Y & Z). refine (conj _ (conj _ _)); cbn [vscal vx vy vz]; (apply nice_mult; [apply nice_const|assumption]). Qed.
Lemma grav_field_grad_all G b rho p : ordered b -> outside b p -> is_grad (gravitational_potential G b rho) p (gravitational_field G b rho p).
Proof.
  intros O Q.
  destruct (integral_grad (fun u => G * rho * k0 u) (fun u => vscal (G * rho) (k1 u)) b p (gravitational_potential G b rho)) as [J [HJ D]].
  - apply ordered_weak, O.
  - exact Q.
  - apply vnice_scal, k1_nice.
  - intros u U. apply (is_grad_scal (G * rho)), k1_grad, U.
  - eapply near_impl; [|apply outside_near, Q]. intros p' Q'. apply pot_integral; assumption.
  - rewrite (vunique _ _ _ _ O (field_integral_all G rho b p O Q) HJ). exact D.
Qed.
Lemma grav_gradient_jac_all G b rho p : ordered b -> outside b p -> is_jac (gravitational_field G b rho) p (gravitational_gradient G b rho p).
Proof.
  intros O Q. destruct k2_nice as (X & Y & Z). destruct (gradient_integral_all G rho b p O Q) as (GX & GY & GZ).
  refine (conj _ (conj _ _)).
  - destruct (integral_grad (fun u => G * rho * vx (k1 u)) (fun u => vscal (G * rho) (m0 (k2 u))) b p (fun q => vx (gravitational_field G b rho q))) as [J [HJ D]];
      [apply ordered_weak, O|exact Q|apply vnice_scal, X| | |].
    + intros u U. apply (is_grad_scal (G * rho)). apply (proj1 (k2_jac u U)).
    + eapply near_impl; [|apply outside_near, Q]. intros p' A. apply (proj1 (field_integral_all G rho b p' O A)).
    + rewrite (vunique _ _ _ _ O GX HJ). exact D.
  - destruct (integral_grad (fun u => G * rho * vy (k1 u)) (fun u => vscal (G * rho) (m1 (k2 u))) b p (fun q => vy (gravitational_field G b rho q))) as [J [HJ D]];
      [apply ordered_weak, O|exact Q|apply vnice_scal, Y| | |].
    + intros u U. apply (is_grad_scal (G * rho)). apply (proj1 (proj2 (k2_jac u U))).
    + eapply near_impl; [|apply outside_near, Q]. intros p' A. apply (proj1 (proj2 (field_integral_all G rho b p' O A))).
    + rewrite (vunique _ _ _ _ O GY HJ). exact D.
  - destruct (integral_grad (fun u => G * rho * vz (k1 u)) (fun u => vscal (G * rho) (m2 (k2 u))) b p (fun q => vz (gravitational_field G b rho q))) as [J [HJ D]];
      [apply ordered_weak, O|exact Q|apply vnice_scal, Z| | |].
    + intros u U. apply (is_grad_scal (G * rho)). apply (proj2 (proj2 (k2_jac u U))).
    + eapply near_impl; [|apply outside_near, Q]. intros p' A. apply (proj2 (proj2 (field_integral_all G rho b p' O A))).
    + rewrite (vunique _ _ _ _ O GZ HJ). exact D.
Qed.
Lemma trace_all G b rho p : ordered b -> outside b p -> mtrace (gravitational_gradient G b rho p) = 0.
Proof.
  intros O Q. destruct (gradient_integral_all G rho b p O Q) as ((X & _) & (_ & Y & _) & (_ & _ & Z)).
  assert (T : box_integral (fun q => 1 * (1 * vx (m0 (mscal (G * rho) (k2 (vsub p q)))) + 1 * vy (m1 (mscal (G * rho) (k2 (vsub p q))))) + 1 * vz (m2 (mscal (G * rho) (k2 (vsub p q))))) b
     (1 * (1 * vx (m0 (gravitational_gradient G b rho p)) + 1 * vy (m1 (gravitational_gradient G b rho p))) + 1 * vz (m2 (gravitational_gradient G b rho p)))).
  { unfold box_integral in *. apply triple_lin; [apply triple_lin; assumption|assumption]. }
  assert (Z0 : box_integral (fun q => 0) b (0 * ((vx (b_max b) - vx (b_min b)) * (vy (b_max b) - vy (b_min b)) * (vz (b_max b) - vz (b_min b))))) by (exact (triple_const 0 (vx (b_min b)) (vx (b_max b)) (vy (b_min b)) (vy (b_max b)) (vz (b_min b)) (vz (b_max b)))).
  destruct (away b p Q) as (d & D0 & DH). destruct O as (A & B & C).
  assert (E : mtrace (gravitational_gradient G b rho p) = 0 * ((vx (b_max b) - vx (b_min b)) * (vy (b_max b) - vy (b_min b)) * (vz (b_max b) - vz (b_min b)))).
  { unfold mtrace. eapply box_unique; [split; [exact A|split; [exact B|exact C]]| |exact Z0].
    replace (vx (m0 (gravitational_gradient G b rho p)) + vy (m1 (gravitational_gradient G b rho p)) + vz (m2 (gravitational_gradient G b rho p)))
      with (1 * (1 * vx (m0 (gravitational_gradient G b rho p)) + 1 * vy (m1 (gravitational_gradient G b rho p))) + 1 * vz (m2 (gravitational_gradient G b rho p))) by ring.
    unfold box_integral in *. eapply triple_ext_in; [lra| |exact T].
    intros x y z X0 Y0 Z1. specialize (DH (V3 x y z) (conj X0 (conj Y0 Z1))).
    cbv beta. set (u := vsub p (V3 x y z)) in *. clearbody u. pose proof (vnorm_sqr u) as N. unfold vnorm2 in N. cbn [mscal k2 m0 m1 m2 vscal vx vy vz].
    replace (1 * (1 * (G * rho * (3 * vx u * vx u * (/ vnorm u) ^ 5 - 1 * (/ vnorm u) ^ 3)) + 1 * (G * rho * (3 * vy u * vy u * (/ vnorm u) ^ 5 - 1 * (/ vnorm u) ^ 3))) + 1 * (G * rho * (3 * vz u * vz u * (/ vnorm u) ^ 5 - 1 * (/ vnorm u) ^ 3)))
      with (3 * G * rho * ((vx u * vx u + vy u * vy u + vz u * vz u) * (/ vnorm u) ^ 5 - (/ vnorm u) ^ 3)) by ring.
    replace (vx u * vx u + vy u * vy u + vz u * vz u) with (vnorm u * vnorm u) by (rewrite N; unfold vdot; ring). field. lra. }
  rewrite E. ring.
Qed.
Lemma mag_H_is_grad_all b m p : ordered b -> outside b p -> is_grad (scalar_potential b m) p (magnetic_field b m p).
Proof.
  intros O Q.
  destruct (integral_grad (fun u => 1 / (4 * PI) * vdot (k1 u) m) (fun u => vscal (1 / (4 * PI)) (mvec (k2 u) m)) b p (scalar_potential b m)) as [J [HJ D]].
  - apply ordered_weak, O.
  - exact Q.
  - apply vnice_scal. destruct k2_nice as ((XX & XY & XZ) & (YX & YY & YZ) & (ZX & ZY & ZZ)).
    refine (conj _ (conj _ _)); cbn [mvec vx vy vz]; unfold vdot; repeat first [assumption | apply nice_const | apply nice_plus | apply nice_mult].
  - intros u U. apply (is_grad_scal (1 / (4 * PI))). destruct (k2_jac u U) as (JX & JY & JZ).
    apply (is_grad_ext (fun q => vx m * vx (k1 q) + vy m * vy (k1 q) + vz m * vz (k1 q))); [intro; unfold vdot; ring|].
    eapply is_grad_eq; [|apply (is_grad_plus (fun q => vx m * vx (k1 q) + vy m * vy (k1 q))); [apply (is_grad_plus (fun q => vx m * vx (k1 q)))|]; apply is_grad_scal; eassumption].
    unfold k2, mvec, vdot, vadd, vscal; cbn [vx vy vz m0 m1 m2]. f_equal; ring.
  - eapply near_impl; [|apply outside_near, Q]. intros p' Q'. apply scalar_integral; assumption.
  - rewrite (vunique _ _ _ _ O (H_integral b m p O Q) HJ). exact D.
Qed.
(** a row of the gradient of the magnetic field *)
Lemma H_row b m w p (F : vec3 -> R) (r : vec3 -> vec3) : ordered b -> outside b p ->
  (forall q, outside b q -> box_integral (fun q' => 1 / (4 * PI) * vdot w (mvec (k2 (vsub q q')) m)) b (F q)) ->
  (forall q, off_faces b q -> is_grad F q (r q)) ->
  rc (fun t => vx (r (diag p t))) -> rc (fun t => vy (r (diag p t))) -> rc (fun t => vz (r (diag p t))) ->
  is_grad F p (r p).
Proof.
  intros O Q HF HG RX RY RZ. set (c := 1 / (4 * PI)) in *.
  assert (IG : forall q, outside b q -> exists J, box_vintegral (fun q' => vscal c (k3 (vsub q q') m w)) b J /\ is_grad F q J).
  { intros q Hq. apply (integral_grad (fun u => c * vdot w (mvec (k2 u) m)) (fun u => vscal c (k3 u m w))).
    - apply ordered_weak, O.
    - exact Hq.
    - apply vnice_scal, k3_nice.
    - intros u U. apply (is_grad_scal c), k3_grad, U.
    - eapply near_impl; [|apply outside_near, Hq]. intros p' Q'. apply HF, Q'. }
  assert (HJ : forall q, outside b q -> off_faces b q -> box_vintegral (fun q' => vscal c (k3 (vsub q q') m w)) b (r q)).
  { intros q A B. destruct (IG q A) as (J & H & D). rewrite (is_grad_unique _ _ _ _ (HG q B) D). exact H. }
  assert (K : box_vintegral (fun q' => vscal c (k3 (vsub p q') m w)) b (r p)).
  { destruct (k3_nice m w) as (X & Y & Z).
    refine (conj _ (conj _ _)).
    - apply (extend (fun u => vx (vscal c (k3 u m w))) b p (fun q => vx (r q)) O Q); [apply (nice_mult _ _ (nice_const c) X)|exact RX|]. intros q A B. apply (HJ q A B).
    - apply (extend (fun u => vy (vscal c (k3 u m w))) b p (fun q => vy (r q)) O Q); [apply (nice_mult _ _ (nice_const c) Y)|exact RY|]. intros q A B. apply (HJ q A B).
    - apply (extend (fun u => vz (vscal c (k3 u m w))) b p (fun q => vz (r q)) O Q); [apply (nice_mult _ _ (nice_const c) Z)|exact RZ|]. intros q A B. apply (HJ q A B). }
  destruct (IG p Q) as (J & H & D). rewrite (vunique _ _ _ _ O K H). exact D.
Qed.
Lemma mag_grad_jac_all b m p : ordered b -> outside b p -> is_jac (magnetic_field b m) p (magnetic_field_gradient b m p).
Proof.
  intros O Q. pose proof (outside_apart b p O Q) as A.
  assert (Z0 : rc (fun t => eval_def_int b prism_fzzz (diag p t) 0)) by (apply eval0_rc, fzzz_csum_rc; tauto).
  assert (Z1 : rc (fun t => eval_def_int b prism_fzzz (diag p t) 1)) by (apply eval1_rc, fzzz_csum_rc; tauto).
  assert (Z2 : rc (fun t => eval_def_int b prism_fzzz (diag p t) 2)) by (apply eval2_rc, fzzz_csum_rc; tauto).
  assert (Y0 : rc (fun t => eval_def_int b prism_fxxy (diag p t) 0)) by (apply eval0_rc, fxxy_csum_rc; tauto).
  assert (Y1 : rc (fun t => eval_def_int b prism_fxxy (diag p t) 1)) by (apply eval1_rc, fxxy_csum_rc; tauto).
  assert (Y2 : rc (fun t => eval_def_int b prism_fxxy (diag p t) 2)) by (apply eval2_rc, fxxy_csum_rc; tauto).
  assert (X0 : rc (fun t => eval_def_int b prism_fxxz (diag p t) 0)) by (apply eval0_rc, fxxz_csum_rc; tauto).
  assert (X1 : rc (fun t => eval_def_int b prism_fxxz (diag p t) 1)) by (apply eval1_rc, fxxz_csum_rc; tauto).
  assert (X2 : rc (fun t => eval_def_int b prism_fxxz (diag p t) 2)) by (apply eval2_rc, fxxz_csum_rc; tauto).
  assert (W0 : rc (fun t => eval_def_int b prism_fxyz (diag p t) 0)) by (apply eval0_rc, fxyz_csum_rc; tauto).
  assert (L : forall f g h k, rc f -> rc g -> rc h -> rc (fun t => k * (f t * vx m + g t * vy m + h t * vz m))).
  { intros f g h k F G H. apply (rc_ext 1 (fun t => k * (vx m * f t + vy m * g t + vz m * h t))); [lra|intros; ring|].
    apply rc_scal. apply rc_plus; [apply rc_plus|]; apply rc_scal; assumption. }
  refine (conj _ (conj _ _)).
  - apply (H_row b m (V3 1 0 0) p (fun q => vx (magnetic_field b m q)) (fun q => m0 (magnetic_field_gradient b m q)) O Q).
    + intros q Hq. eapply box_ext; [|apply (proj1 (H_integral b m q O Hq))]. intro q'. unfold vdot; cbn [vscal mvec vx vy vz]; ring.
    + intros q Hq. apply (mag_grad_jac b m q Hq).
    + cbn. apply L; assumption.
    + cbn. apply L; assumption.
    + cbn. apply L; assumption.
  - apply (H_row b m (V3 0 1 0) p (fun q => vy (magnetic_field b m q)) (fun q => m1 (magnetic_field_gradient b m q)) O Q).
    + intros q Hq. eapply box_ext; [|apply (proj1 (proj2 (H_integral b m q O Hq)))]. intro q'. unfold vdot; cbn [vscal mvec vx vy vz]; ring.
    + intros q Hq. apply (mag_grad_jac b m q Hq).
    + cbn. apply L; assumption.
    + cbn. apply L; assumption.
    + cbn. apply L; assumption.
  - apply (H_row b m (V3 0 0 1) p (fun q => vz (magnetic_field b m q)) (fun q => m2 (magnetic_field_gradient b m q)) O Q).
    + intros q Hq. eapply box_ext; [|apply (proj2 (proj2 (H_integral b m q O Hq)))]. intro q'. unfold vdot; cbn [vscal mvec vx vy vz]; ring.
    + intros q Hq. apply (mag_grad_jac b m q Hq).
    + cbn. apply L; assumption.
    + cbn. apply L; assumption.
    + cbn. apply L; assumption.
Qed.
