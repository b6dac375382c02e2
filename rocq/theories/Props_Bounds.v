(** C124: a prism attracts: bounds on its potential, field and gradient from the distances of its points. *)
From Coq Require Import Reals Lra List.
From Verif Require Import Vec3 Calculus Numpy Model_Gravity Model_Prism Spec_Prism Spec_Interior Proof_FarField3 Proof_Bounds.
Open Scope R_scope.

(** if no point of the prism is farther than [far], the potential is at least that of all its mass at that distance;
    this holds at every observation point, outside, on the surface or inside *)
Theorem C124_potential_at_least b rho p far : ordered b -> 0 <= rho -> (forall q, in_box b q -> vnorm (vsub p q) <= far) ->
  G_newton * prism_mass b rho / far <= gravitational_potential G_newton b rho p.
Proof. intros O P. apply low_all; assumption. Qed.
Theorem C124_potential_is_positive b rho p : ordered b -> 0 < rho -> 0 < gravitational_potential G_newton b rho p.
Proof.
  intros O P. set (far := vnorm (vsub p (b_min b)) + vnorm (vsub (b_max b) (b_min b))).
  assert (D : forall q, in_box b q -> vnorm (vsub p q) <= far).
  { intros q Q. replace (vsub p q) with (vadd (vsub p (b_min b)) (vopp (vsub q (b_min b)))) by (unfold vsub, vadd, vopp; destruct p, q, (b_min b); cbn; f_equal; ring).
    eapply Rle_trans; [apply vnorm_triangle|]. unfold far. apply Rplus_le_compat_l. rewrite vnorm_opp. apply sqrt_le_1_alt. unfold vnorm2, vdot, vsub; cbn [vx vy vz]. unfold in_box in Q. destruct Q as (X & Y & Z). nra. }
  eapply Rlt_le_trans; [|apply (low_all rho (Rlt_le _ _ P) b p far O D)]. pose proof (far_pos b p far O D). pose proof (volume_pos b O).
  apply Rdiv_lt_0_compat; [|assumption]. unfold prism_mass, G_newton. apply Rmult_lt_0_compat; [lra|apply Rmult_lt_0_compat; assumption].
Qed.

(** if every point of the prism is ahead by at least [h] in the direction [w], and none farther than [far], the field along [w] is
    at least G M h / far^3; in particular a station on or outside a face is never pushed away from the prism *)
Theorem C124_field_attracts b rho p far h w : ordered b -> 0 <= rho -> (forall q, in_box b q -> vnorm (vsub p q) <= far) ->
  vnorm w = 1 -> 0 <= h -> (forall q, in_box b q -> h <= vdot w (vsub q p)) ->
  G_newton * prism_mass b rho * h / far ^ 3 <= vdot w (gravitational_field G_newton b rho p).
Proof. intros O P. apply pull_all; assumption. Qed.

(** outside, with every point of the prism at least [near] away *)
Theorem C124_upper_bounds b rho p near : ordered b -> outside b p -> 0 <= rho -> 0 < near -> (forall q, in_box b q -> near <= vnorm (vsub p q)) ->
  gravitational_potential G_newton b rho p <= G_newton * prism_mass b rho / near /\
  vnorm (gravitational_field G_newton b rho p) <= G_newton * prism_mass b rho / near ^ 2 /\
  (forall v, vnorm (mvec (gravitational_gradient G_newton b rho p) v) <= 2 * G_newton * prism_mass b rho / near ^ 3 * vnorm v).
Proof. intros O U P N D. split; [apply up_potential|split; [apply bound_field|intro v; apply bound_gradient]]; assumption. Qed.

(** a cube of edge 2, a station above it, and one at its centre *)
Example C124_witness : let b := Box (V3 (-1) (-1) (-1)) (V3 1 1 1) in let p := V3 0 0 3 in
  ordered b /\ outside b p /\ (forall q, in_box b q -> 2 <= vnorm (vsub p q) /\ vnorm (vsub p q) <= 5) /\
  vnorm (V3 0 0 (-1)) = 1 /\ (forall q, in_box b q -> 2 <= vdot (V3 0 0 (-1)) (vsub q p)) /\
  (forall q, in_box b q -> vnorm (vsub (V3 0 0 0) q) <= 2).
Proof.
  cbv zeta. unfold ordered, outside, in_box, vnorm, vnorm2, vdot, vsub; cbn [b_min b_max vx vy vz]. repeat split; try lra.
  - replace 2 with (sqrt (2 * 2)) by (apply sqrt_square; lra). apply sqrt_le_1_alt. nra.
  - replace 5 with (sqrt (5 * 5)) by (apply sqrt_square; lra). apply sqrt_le_1_alt. nra.
  - replace (0 * 0 + 0 * 0 + -1 * -1) with 1 by ring. apply sqrt_1.
  - intros q Q. lra.
  - intros q Q. replace 2 with (sqrt (2 * 2)) by (apply sqrt_square; lra). apply sqrt_le_1_alt. nra.
Qed.
Print Assumptions C124_potential_at_least.
Print Assumptions C124_potential_is_positive.
Print Assumptions C124_field_attracts.
Print Assumptions C124_upper_bounds.
