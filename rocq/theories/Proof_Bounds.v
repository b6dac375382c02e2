(** Bounds on a prism's attraction from the distances of its points. *)
From Coq Require Import Reals Lra Psatz List.
From Coquelicot Require Import Coquelicot.
From Verif Require Import Vec3 Calculus Deriv Numpy Integral Model_Gravity Model_Prism Spec_Prism Spec_Super Spec_Interior Proof_Prism3 Proof_Far Proof_Super2 Proof_Super4 Proof_Super5 Proof_Super6 Proof_FarField3 Proof_LoopFar2 Proof_Sphere Proof_Loop2 Proof_PrismC Proof_Interior.
Import ListNotations.
Open Scope R_scope.

Lemma box_const k b : box_integral (fun _ => k) b (k * volume b).
Proof. unfold box_integral. replace (k * volume b) with (k * ((vx (b_max b) - vx (b_min b)) * (vy (b_max b) - vy (b_min b)) * (vz (b_max b) - vz (b_min b)))) by (unfold volume; ring). apply triple_const. Qed.
Lemma box_le f g b I J : ordered b -> (forall q, in_box b q -> f q <= g q) -> box_integral f b I -> box_integral g b J -> I <= J.
Proof. intros (X & Y & Z) H. apply triple_le; try lra. intros x y z A B C. apply H. unfold in_box; cbn [vx vy vz]. tauto. Qed.
Lemma box_bounds f b I lo hi : ordered b -> (forall q, in_box b q -> lo <= f q <= hi) -> box_integral f b I -> lo * volume b <= I <= hi * volume b.
Proof. intros O H T. split; [apply (box_le (fun _ => lo) f b)|apply (box_le f (fun _ => hi) b)]; try assumption; try apply box_const; intros q Q; apply (H q Q). Qed.

Section B.
Variables (b : box) (rho : R) (p : vec3) (near : R).
Hypothesis O : ordered b.
Hypothesis U : outside b p.
Hypothesis P : 0 <= rho.
Hypothesis N0 : 0 < near.
Hypothesis D : forall q, in_box b q -> near <= vnorm (vsub p q).
Let Gp : 0 < G_newton. Proof. unfold G_newton. lra. Qed.
Let K0 : 0 <= G_newton * rho. Proof. apply Rmult_le_pos; lra. Qed.
Lemma up_potential : gravitational_potential G_newton b rho p <= G_newton * prism_mass b rho / near.
Proof.
  assert (Q : forall q, in_box b q -> pm_potential (PM rho q) p <= G_newton * rho / near).
  { intros q Hq. specialize (D q Hq). unfold pm_potential; cbn [pm_mass pm_loc]. cbv zeta. unfold Rdiv. apply Rmult_le_compat_l; try assumption; apply Rinv_le_contravar; lra. }
  pose proof (box_le _ _ b _ _ O Q (proj1 (gravity_super b rho p O U)) (box_const _ b)) as C. unfold prism_mass.
  replace (G_newton * (volume b * rho) / near) with (G_newton * rho / near * volume b) by (unfold Rdiv; ring). exact C.
Qed.
Lemma k1_dot u w : vdot (k1 u) w = - (vdot u w * (/ vnorm u) ^ 3). Proof. unfold k1, vdot; cbv zeta; cbn [vx vy vz]. ring. Qed.
Lemma inv_le n x : near <= x -> (/ x) ^ n <= (/ near) ^ n.
Proof. intros H. apply pow_incr. split; [apply Rlt_le, Rinv_0_lt_compat; lra|apply Rinv_le_contravar; lra]. Qed.
Lemma bound_field : vnorm (gravitational_field G_newton b rho p) <= G_newton * prism_mass b rho / near ^ 2.
Proof.
  pose proof (volume_pos b O) as V0. apply dir_norm; [|unfold prism_mass; apply Rmult_le_pos; [apply Rmult_le_pos; [lra|apply Rmult_le_pos; lra]|apply Rlt_le, Rinv_0_lt_compat, pow_lt, N0]].
  intros w Hw. pose proof (row_integral 1 _ _ _ w (proj1 (proj2 (gravity_super b rho p O U)))) as T. cbv beta in T.
  assert (Q : forall q, in_box b q -> - (G_newton * rho * (/ near) ^ 2) <= 1 * vdot (pm_field (PM rho q) p) w <= G_newton * rho * (/ near) ^ 2).
  { intros q Hq. specialize (D q Hq). set (u := vsub p q) in *. assert (Hu : 0 < vnorm u) by lra.
    assert (E : Rabs (vdot (pm_field (PM rho q) p) w) <= G_newton * rho * (/ near) ^ 2).
    { eapply Rle_trans; [apply cauchy_schwarz|]. rewrite Hw, Rmult_1_r, pm_field_k1. fold u. rewrite vnorm_scal, (Rabs_pos_eq _ K0). apply Rmult_le_compat_l; [exact K0|].
      rewrite k1_norm by (intros Z; rewrite Z, vnorm_zero in Hu; lra). rewrite <- pow_inv. apply inv_le, D. }
    apply Rabs_le_between in E. lra. }
  pose proof (box_bounds _ b _ _ _ O Q T) as [A C]. rewrite Rmult_1_l in A, C.
  replace (G_newton * prism_mass b rho / near ^ 2) with (G_newton * rho * (/ near) ^ 2 * volume b) by (unfold prism_mass; field; lra). replace (vdot w (gravitational_field G_newton b rho p)) with (vdot (gravitational_field G_newton b rho p) w) by (unfold vdot; ring). apply Rabs_le. lra.
Qed.
Lemma k2_high u m : u <> vzero -> vnorm (mvec (k2 u) m) <= 2 * vnorm m * (/ vnorm u) ^ 3.
Proof.
  intro H. pose proof (vnorm_pos u H) as Q. pose proof (vnorm_nonneg m) as M0. assert (W0 : 0 < (/ vnorm u) ^ 3) by (apply pow_lt, Rinv_0_lt_compat, Q).
  apply Rsqr_incr_0_var; [|apply Rmult_le_pos; [lra|lra]]. unfold Rsqr. rewrite vnorm_sqr.
  replace (vnorm2 (mvec (k2 u) m)) with (vnorm2 m * (/ vnorm u) ^ 6 + 3 * (vdot u m * vdot u m) * (/ vnorm u) ^ 8 + 9 * (vdot u m * vdot u m) * (/ vnorm u) ^ 8 * (vnorm2 u * (/ vnorm u) ^ 2 - 1)).
  2: { unfold k2, mvec, vnorm2, vdot; cbn [vx vy vz m0 m1 m2]. ring. }
  replace (vnorm2 u * (/ vnorm u) ^ 2) with 1 by (rewrite <- vnorm_sqr; field; lra).
  replace (2 * vnorm m * (/ vnorm u) ^ 3 * (2 * vnorm m * (/ vnorm u) ^ 3)) with (4 * (vnorm m * vnorm m) * (/ vnorm u) ^ 6) by ring. rewrite vnorm_sqr.
  assert (C : (vdot u m * vdot u m) * (/ vnorm u) ^ 8 <= vnorm2 m * (/ vnorm u) ^ 6).
  { replace (vnorm2 m * (/ vnorm u) ^ 6) with (vnorm u * vnorm u * vnorm2 m * (/ vnorm u) ^ 8) by (field; lra). apply Rmult_le_compat_r; [apply pow_le, Rlt_le, Rinv_0_lt_compat, Q|].
    rewrite vnorm_sqr. pose proof (lagrange_identity u m). pose proof (vnorm2_nonneg (vcross u m)). lra. }
  lra.
Qed.
Lemma mvec_integral v : box_vintegral (fun q => vscal (G_newton * rho) (mvec (k2 (vsub p q)) v)) b (mvec (gravitational_gradient G_newton b rho p) v).
Proof.
  destruct (gradient_integral_all G_newton rho b p O U) as (X & Y & Z).
  apply (row_integral 1 _ _ _ v) in X. apply (row_integral 1 _ _ _ v) in Y. apply (row_integral 1 _ _ _ v) in Z.
  refine (conj _ (conj _ _)); cbn [mvec vx vy vz].
  - rewrite Rmult_1_l in X. eapply box_ext; [|exact X]. intro q. cbv beta. generalize (k2 (vsub p q)). intros [u0 u1 u2]. unfold mscal, mvec, vscal, vdot; cbn [vx vy vz m0 m1 m2]. ring.
  - rewrite Rmult_1_l in Y. eapply box_ext; [|exact Y]. intro q. cbv beta. generalize (k2 (vsub p q)). intros [u0 u1 u2]. unfold mscal, mvec, vscal, vdot; cbn [vx vy vz m0 m1 m2]. ring.
  - rewrite Rmult_1_l in Z. eapply box_ext; [|exact Z]. intro q. cbv beta. generalize (k2 (vsub p q)). intros [u0 u1 u2]. unfold mscal, mvec, vscal, vdot; cbn [vx vy vz m0 m1 m2]. ring.
Qed.
Lemma bound_gradient v : vnorm (mvec (gravitational_gradient G_newton b rho p) v) <= 2 * G_newton * prism_mass b rho / near ^ 3 * vnorm v.
Proof.
  pose proof (volume_pos b O) as V0. pose proof (vnorm_nonneg v) as Nv.
  assert (Z : 0 <= 2 * G_newton * prism_mass b rho / near ^ 3 * vnorm v) by (unfold prism_mass; apply Rmult_le_pos; [apply Rmult_le_pos; [apply Rmult_le_pos; [lra|apply Rmult_le_pos; lra]|apply Rlt_le, Rinv_0_lt_compat, pow_lt, N0]|exact Nv]).
  apply dir_norm; [|exact Z].
  intros w Hw. pose proof (row_integral 1 _ _ _ w (mvec_integral v)) as T. cbv beta in T.
  set (hi := 2 * (G_newton * rho) * (/ near) ^ 3 * vnorm v).
  assert (Q : forall q, in_box b q -> - hi <= 1 * vdot (vscal (G_newton * rho) (mvec (k2 (vsub p q)) v)) w <= hi).
  { intros q Hq. specialize (D q Hq). set (u := vsub p q) in *. assert (Hu : 0 < vnorm u) by lra.
    assert (E : Rabs (vdot (vscal (G_newton * rho) (mvec (k2 u) v)) w) <= hi).
    { eapply Rle_trans; [apply cauchy_schwarz|]. rewrite Hw, Rmult_1_r, vnorm_scal, (Rabs_pos_eq _ K0). unfold hi.
      replace (2 * (G_newton * rho) * (/ near) ^ 3 * vnorm v) with (G_newton * rho * (2 * vnorm v * (/ near) ^ 3)) by ring. apply Rmult_le_compat_l; [exact K0|].
      eapply Rle_trans; [apply k2_high; intros Y; rewrite Y, vnorm_zero in Hu; lra|]. apply Rmult_le_compat_l; [lra|]. apply inv_le, D. }
    apply Rabs_le_between in E. lra. }
  pose proof (box_bounds _ b _ _ _ O Q T) as [A C]. rewrite Rmult_1_l in A, C.
  replace (2 * G_newton * prism_mass b rho / near ^ 3 * vnorm v) with (hi * volume b) by (unfold hi, prism_mass; field; lra). replace (vdot w (mvec (gravitational_gradient G_newton b rho p) v)) with (vdot (mvec (gravitational_gradient G_newton b rho p) v) w) by (unfold vdot; ring). apply Rabs_le. lra.
Qed.
End B.

(** ** up to the boundary and into the prism *)
Lemma limit_ge f p e phi : is_cont f p -> continuity_pt phi 0 -> (forall t, 0 < t -> phi t <= f (vadd p (vscal t e))) -> phi 0 <= f p.
Proof.
  intros Cf Cp H. apply Rnot_lt_le. intros L. set (h := (phi 0 - f p) / 2). assert (h0 : 0 < h) by (unfold h; lra).
  destruct (Cf h h0) as (d & d0 & Hd). destruct (Cp h h0) as (a & a0 & Ha).
  pose proof (vnorm_nonneg e) as Ne. set (t := Rmin (a / 2) (d / (2 * (vnorm e + 1)))).
  assert (t0 : 0 < t) by (unfold t; apply Rmin_pos; [lra|apply Rdiv_lt_0_compat; lra]).
  assert (ta : t < a) by (pose proof (Rmin_l (a / 2) (d / (2 * (vnorm e + 1)))) as Q; fold t in Q; lra).
  assert (td : t * vnorm e < d).
  { pose proof (Rmin_r (a / 2) (d / (2 * (vnorm e + 1)))) as Q. fold t in Q. apply Rle_lt_trans with (t * (vnorm e + 1)); [apply Rmult_le_compat_l; lra|].
    apply Rle_lt_trans with (d / (2 * (vnorm e + 1)) * (vnorm e + 1)); [apply Rmult_le_compat_r; lra|]. replace (d / (2 * (vnorm e + 1)) * (vnorm e + 1)) with (d / 2) by (field; lra). lra. }
  specialize (H t t0). specialize (Ha t). specialize (Hd (vadd p (vscal t e))).
  assert (Q1 : Rabs (phi t - phi 0) < h). { apply Ha. split; [split; [exact Logic.I|lra]|]. unfold dist; cbn; unfold R_dist. rewrite Rabs_pos_eq; lra. }
  assert (Q2 : Rabs (f (vadd p (vscal t e)) - f p) < h).
  { apply Hd. replace (vsub (vadd p (vscal t e)) p) with (vscal t e) by (unfold vsub, vadd, vscal; destruct p, e; cbn; f_equal; ring). rewrite vnorm_scal, Rabs_pos_eq; lra. }
  apply Rabs_def2 in Q1. apply Rabs_def2 in Q2. unfold h in *. lra.
Qed.
Lemma out_norm b p q : outside b p -> in_box b q -> 0 < vnorm (vsub p q).
Proof.
  intros U Q. apply vnorm_pos. intros Z. destruct p as [x y z], q as [x' y' z']. unfold vsub, vzero in Z; cbn in Z. injection Z as A B C. unfold outside, in_box in *; cbn [vx vy vz] in *. lra.
Qed.
Lemma not_in_out b p : ~ in_box b p -> outside b p. Proof. unfold in_box, outside. intros H. lra. Qed.
Lemma far_pos b p far : ordered b -> (forall q, in_box b q -> vnorm (vsub p q) <= far) -> 0 < far.
Proof.
  intros O D. destruct O as (X & Y & Z). assert (A : in_box b (b_min b)) by (unfold in_box; lra). assert (B : in_box b (b_max b)) by (unfold in_box; lra).
  pose proof (D _ A) as DA. pose proof (D _ B) as DB. pose proof (vnorm_nonneg (vsub p (b_min b))) as NA. pose proof (vnorm_nonneg (vsub p (b_max b))) as NB.
  destruct (Req_dec far 0) as [E|E]; [|lra]. subst far.
  assert (ZA : vnorm (vsub p (b_min b)) = 0) by lra. assert (ZB : vnorm (vsub p (b_max b)) = 0) by lra. apply vnorm_eq0 in ZA. apply vnorm_eq0 in ZB.
  apply (f_equal vx) in ZA. apply (f_equal vx) in ZB. unfold vsub, vzero in *; cbn [vx] in *. lra.
Qed.
Section E.
Variables (rho : R).
Hypothesis P : 0 <= rho.
Let Gp : 0 < G_newton. Proof. unfold G_newton. lra. Qed.
Let K0 : 0 <= G_newton * rho. Proof. apply Rmult_le_pos; lra. Qed.
Lemma low_out b p far : ordered b -> outside b p -> (forall q, in_box b q -> vnorm (vsub p q) <= far) -> G_newton * prism_mass b rho / far <= gravitational_potential G_newton b rho p.
Proof.
  intros O U D. 
  assert (Q : forall q, in_box b q -> G_newton * rho / far <= pm_potential (PM rho q) p).
  { intros q Hq. specialize (D q Hq). pose proof (out_norm b p q U Hq). unfold pm_potential; cbn [pm_mass pm_loc]. cbv zeta. unfold Rdiv. apply Rmult_le_compat_l; try assumption; apply Rinv_le_contravar; lra. }
  pose proof (box_le _ _ b _ _ O Q (box_const _ b) (proj1 (gravity_super b rho p O U))) as A. unfold prism_mass.
  replace (G_newton * (volume b * rho) / far) with (G_newton * rho / far * volume b) by (unfold Rdiv; ring). exact A.
Qed.
Lemma shifted b p e far t : 0 < t -> vnorm e <= 1 -> (forall q, in_box b q -> vnorm (vsub p q) <= far) -> forall q, in_box b q -> vnorm (vsub (vadd p (vscal t e)) q) <= far + t.
Proof.
  intros T E D q Hq. replace (vsub (vadd p (vscal t e)) q) with (vadd (vsub p q) (vscal t e)) by (unfold vsub, vadd, vscal; destruct p, q, e; cbn; f_equal; ring).
  eapply Rle_trans; [apply vnorm_triangle|]. rewrite vnorm_scal, Rabs_pos_eq by lra. specialize (D q Hq). assert (t * vnorm e <= t * 1) by (apply Rmult_le_compat_l; lra). lra.
Qed.
Lemma low_edge b p e far : ordered b -> vnorm e <= 1 -> (forall t, 0 < t -> outside b (vadd p (vscal t e))) -> (forall q, in_box b q -> vnorm (vsub p q) <= far) ->
  G_newton * prism_mass b rho / far <= gravitational_potential G_newton b rho p.
Proof.
  intros O E U D. pose proof (far_pos b p far O D) as F0.
  pose proof (limit_ge (gravitational_potential G_newton b rho) p e (fun t => G_newton * prism_mass b rho / (far + t))) as L. cbv beta in L. rewrite Rplus_0_r in L. apply L; clear L.
  - apply grav_cont.
  - apply derivable_continuous_pt, ex_derive_Reals_0. auto_derive. lra.
  - intros t T. apply low_out; [exact O|apply U, T|apply shifted; assumption].
Qed.
Lemma low_all b p far : ordered b -> (forall q, in_box b q -> vnorm (vsub p q) <= far) -> G_newton * prism_mass b rho / far <= gravitational_potential G_newton b rho p.
Proof.
  intros O D. assert (N1 : forall x y z, x * x + y * y + z * z = 1 -> vnorm (V3 x y z) <= 1) by (intros x y z H; unfold vnorm, vnorm2, vdot; cbn [vx vy vz]; rewrite H, sqrt_1; lra).
  assert (lowx : forall c, ordered c -> (forall q, in_box c q -> vnorm (vsub p q) <= far) -> vx p <= vx (b_min c) -> G_newton * prism_mass c rho / far <= gravitational_potential G_newton c rho p).
  { intros c Oc Dc H. apply (low_edge c p (V3 (-1) 0 0)); [exact Oc|apply N1; ring| |exact Dc]. intros t T. unfold outside, vadd, vscal; cbn [vx vy vz]. lra. }
  assert (highx : forall c, ordered c -> (forall q, in_box c q -> vnorm (vsub p q) <= far) -> vx (b_max c) <= vx p -> G_newton * prism_mass c rho / far <= gravitational_potential G_newton c rho p).
  { intros c Oc Dc H. apply (low_edge c p (V3 1 0 0)); [exact Oc|apply N1; ring| |exact Dc]. intros t T. unfold outside, vadd, vscal; cbn [vx vy vz]. lra. }
  destruct (Rle_dec (vx p) (vx (b_min b))) as [A|A]; [apply lowx; assumption|]. destruct (Rle_dec (vx (b_max b)) (vx p)) as [B|B]; [apply highx; assumption|].
  destruct b as [[x0 y0 z0] [x1 y1 z1]]. unfold ordered in O; cbn [b_min b_max vx vy vz] in *. set (t := vx p) in *.
  destruct (grav_cut G_newton _ _ _ rho p (cut_x x0 y0 z0 x1 y1 z1 t)) as (E1 & _ & _ & E2). rewrite E1, E2.
  specialize (lowx (Box (V3 t y0 z0) (V3 x1 y1 z1))). specialize (highx (Box (V3 x0 y0 z0) (V3 t y1 z1))). unfold ordered in lowx, highx; cbn [b_min b_max vx vy vz] in *.
  unfold Rdiv. rewrite Rmult_plus_distr_l, Rmult_plus_distr_r. rewrite Rplus_comm. rewrite (Rplus_comm (gravitational_potential _ _ _ _)).
  apply Rplus_le_compat; [apply lowx|apply highx]; try lra; intros q Q; apply D; unfold in_box in *; cbn [b_min b_max vx vy vz] in *; lra.
Qed.
Lemma low_pull b p far h w : ordered b -> outside b p -> (forall q, in_box b q -> vnorm (vsub p q) <= far) -> 0 <= h -> (forall q, in_box b q -> h <= vdot w (vsub q p)) ->
  G_newton * prism_mass b rho * h / far ^ 3 <= vdot w (gravitational_field G_newton b rho p).
Proof.
  intros O U D H0 Hh. pose proof (row_integral 1 _ _ _ w (proj1 (proj2 (gravity_super b rho p O U)))) as T. cbv beta in T.
  assert (Q : forall q, in_box b q -> G_newton * rho * h * (/ far) ^ 3 <= 1 * vdot (pm_field (PM rho q) p) w).
  { intros q Hq. specialize (D q Hq). specialize (Hh q Hq). pose proof (out_norm b p q U Hq) as Hu. rewrite pm_field_k1, Rmult_1_l. set (u := vsub p q) in *.
    replace (vdot (vscal (G_newton * rho) (k1 u)) w) with (G_newton * rho * (vdot w (vsub q p) * (/ vnorm u) ^ 3)).
    2: { replace (vdot (vscal (G_newton * rho) (k1 u)) w) with (G_newton * rho * vdot (k1 u) w) by (unfold vdot, vscal; cbn [vx vy vz]; ring). rewrite k1_dot. unfold u. unfold vdot, vsub; cbn [vx vy vz]. ring. }
    rewrite Rmult_assoc. apply Rmult_le_compat_l; [exact K0|]. apply Rmult_le_compat; [exact H0|apply pow_le, Rlt_le, Rinv_0_lt_compat; lra|exact Hh|].
    apply pow_incr. split; [apply Rlt_le, Rinv_0_lt_compat; lra|apply Rinv_le_contravar; lra]. }
  pose proof (box_le _ _ b _ _ O Q (box_const _ b) T) as A. rewrite Rmult_1_l in A.
  replace (G_newton * prism_mass b rho * h / far ^ 3) with (G_newton * rho * h * (/ far) ^ 3 * volume b) by (unfold prism_mass, Rdiv; rewrite pow_inv; ring).
  replace (vdot w (gravitational_field G_newton b rho p)) with (vdot (gravitational_field G_newton b rho p) w) by (unfold vdot; ring). exact A.
Qed.
Lemma pull_all b p far h w : ordered b -> (forall q, in_box b q -> vnorm (vsub p q) <= far) -> vnorm w = 1 -> 0 <= h -> (forall q, in_box b q -> h <= vdot w (vsub q p)) ->
  G_newton * prism_mass b rho * h / far ^ 3 <= vdot w (gravitational_field G_newton b rho p).
Proof.
  intros O D W H0 Hh. pose proof (far_pos b p far O D) as F0. destruct (grav_cont G_newton b rho p) as (_ & Cx & Cy & Cz).
  pose proof (limit_ge (fun q => vdot w (gravitational_field G_newton b rho q)) p (vopp w) (fun t => G_newton * prism_mass b rho * (h + t) / (far + t) ^ 3)) as L. cbv beta in L. rewrite !Rplus_0_r in L.
  assert (W2 : vdot w w = 1) by (change (vnorm2 w = 1); rewrite <- vnorm_sqr, W; ring).
  apply L; clear L.
  - unfold vdot. apply is_cont_plus; [apply is_cont_plus|]; (apply is_cont_mult; [apply is_cont_const|assumption]).
  - apply derivable_continuous_pt, ex_derive_Reals_0. auto_derive. apply Rgt_not_eq. assert (0 < far + 0) by lra. repeat apply Rmult_lt_0_compat; lra.
  - intros t T. assert (Hq : forall q, in_box b q -> h + t <= vdot w (vsub q (vadd p (vscal t (vopp w))))).
    { intros q Hq. specialize (Hh q Hq). replace (vdot w (vsub q (vadd p (vscal t (vopp w))))) with (vdot w (vsub q p) + t * vdot w w) by (unfold vdot, vsub, vadd, vscal, vopp; cbn [vx vy vz]; ring). rewrite W2. lra. }
    apply low_pull; [exact O| |apply shifted; [exact T|rewrite vnorm_opp, W; lra|exact D]|lra|exact Hq].
    apply not_in_out. intros I. specialize (Hq _ I). replace (vdot w (vsub (vadd p (vscal t (vopp w))) (vadd p (vscal t (vopp w))))) with 0 in Hq by (unfold vdot, vsub, vadd, vscal, vopp; cbn [vx vy vz]; ring). lra.
Qed.
End E.
