(** C109: prisms seen from a distance. *)
From Coq Require Import Reals Lra.
From Verif Require Import Vec3 Model_Gravity Model_Prism Spec_Prism Spec_Far Proof_Far Proof_Far2.
Open Scope R_scope.

(** C109: outside its circumscribed sphere a prism has the potential of its mass at its centre up to the square of its size
    over the square of the distance *)
Theorem C109_far_prism_is_a_point_mass b rho p : ordered b -> 0 <= rho ->
  let r := vnorm (vsub p (location b)) in let a := half_diagonal b in
  a < r ->
  Rabs (gravitational_potential G_newton b rho p - pm_potential (PM (prism_mass b rho) (location b)) p)
    <= a ^ 2 / (r ^ 2 - a ^ 2) * pm_potential (PM (prism_mass b rho) (location b)) p.
Proof. intros O P r a H. exact (far_point_mass b rho p O H P). Qed.

(** C109: two-sided bounds *)
Theorem C109_potential_bounds G b rho p : ordered b -> 0 <= G * rho ->
  let r := vnorm (vsub p (location b)) in let a := half_diagonal b in
  a < r ->
  G * prism_mass b rho / sqrt (r ^ 2 + a ^ 2) <= gravitational_potential G b rho p <= G * prism_mass b rho * r / (r ^ 2 - a ^ 2).
Proof. intros O P r a H. exact (far_potential G b rho p O H P). Qed.

(** C109: at opposite points about the centre the potentials are equal and the fields opposite *)
Theorem C109_opposite_points G b rho p : ordered b -> outside b p ->
  gravitational_potential G b rho (opposite (location b) p) = gravitational_potential G b rho p /\
  gravitational_field G b rho (opposite (location b) p) = vscal (-1) (gravitational_field G b rho p).
Proof. intros O U. split; [apply potential_opposite; assumption|apply field_opposite; assumption]. Qed.

(** C109: the mirror image of a prism has the mirrored potential and field *)
Theorem C109_mirror_images G m b rho p : ordered b -> outside b p ->
  (gravitational_potential G (mirror_box_x m b) rho (mirror_x m p) = gravitational_potential G b rho p /\
   gravitational_potential G (mirror_box_y m b) rho (mirror_y m p) = gravitational_potential G b rho p /\
   gravitational_potential G (mirror_box_z m b) rho (mirror_z m p) = gravitational_potential G b rho p) /\
  (let g := gravitational_field G b rho p in
   gravitational_field G (mirror_box_x m b) rho (mirror_x m p) = V3 (- vx g) (vy g) (vz g) /\
   gravitational_field G (mirror_box_y m b) rho (mirror_y m p) = V3 (vx g) (- vy g) (vz g) /\
   gravitational_field G (mirror_box_z m b) rho (mirror_z m p) = V3 (vx g) (vy g) (- vz g)).
Proof.
  intros O U. split.
  - split; [apply potential_mirror_x; assumption|]. split; [apply potential_mirror_y; assumption|apply potential_mirror_z; assumption].
  - intros g. split; [apply field_mirror_x; assumption|]. split; [apply field_mirror_y; assumption|apply field_mirror_z; assumption].
Qed.

(** a cube of edge 2 seen from a point at distance 5 *)
Example C109_witness : let b := Box (V3 1 1 1) (V3 3 3 3) in let p := V3 7 2 2 in
  ordered b /\ outside b p /\ location b = V3 2 2 2 /\ half_diagonal b < vnorm (vsub p (location b)) /\ half_diagonal b ^ 2 = 3.
Proof.
  cbv zeta. assert (L : location (Box (V3 1 1 1) (V3 3 3 3)) = V3 2 2 2) by (unfold location, vscal, vadd; cbn; f_equal; field).
  assert (Q : vnorm (vsub (V3 3 3 3) (V3 1 1 1)) ^ 2 = 12) by (unfold vnorm; rewrite <- Rsqr_pow2, Rsqr_sqrt by (unfold vnorm2; cbn; lra); unfold vnorm2; cbn; ring).
  assert (N : vnorm (vsub (V3 7 2 2) (V3 2 2 2)) = 5).
  { unfold vnorm, vnorm2; cbn. replace ((7 - 2) * (7 - 2) + (2 - 2) * (2 - 2) + (2 - 2) * (2 - 2)) with (5 * 5) by ring. apply sqrt_square. lra. }
  pose proof (sqrt_pos (vnorm2 (vsub (V3 3 3 3) (V3 1 1 1)))) as P. fold (vnorm (vsub (V3 3 3 3) (V3 1 1 1))) in P.
  rewrite L, N. unfold half_diagonal. cbn [b_min b_max]. set (d := vnorm _) in *.
  split; [unfold ordered; cbn; lra|]. split; [unfold outside; cbn; lra|]. split; [reflexivity|].
  split; [nra|]. unfold Rdiv. rewrite Rpow_mult_distr, Q. field.
Qed.
Print Assumptions C109_far_prism_is_a_point_mass.
Print Assumptions C109_potential_bounds.
Print Assumptions C109_opposite_points.
Print Assumptions C109_mirror_images.
