(** C123: the fields inside a prism are the Newtonian integrals over it, with the classical contribution of a small cavity. *)
From Coq Require Import Reals Lra String List.
From Verif Require Import Vec3 Calculus Numpy Model_Gravity Model_Static Model_Prism Spec_Prism Spec_Super Spec_Interior Proof_Prism4 Proof_Interior.
Import ListNotations.
Open Scope R_scope.

(** the six boxes and the cube make up the prism: together they cover it, nothing else, and their volumes add up *)
Theorem C123_shell_and_cube_tile_the_prism b p d : cube_within b p d ->
  (forall q, in_box b q <-> in_box (cube p d) q \/ Exists (fun c => in_box c q) (shell b p d)) /\
  volume b = volume (cube p d) + fold_right (fun c v => volume c + v) 0 (shell b p d).
Proof.
  destruct b as [[x0 y0 z0] [x1 y1 z1]], p as [x y z]. unfold cube_within, cube, shell; cbn [vx vy vz b_min b_max]. intros (D & H1 & H2 & H3 & H4 & H5 & H6). split.
  - intros q. rewrite !Exists_cons, Exists_nil. unfold in_box; cbn [vx vy vz b_min b_max]. split; [|intros H; lra]. intros Q.
    destruct (Rle_dec (vx q) (x - d)); [right; lra|]. destruct (Rle_dec (x + d) (vx q)); [right; lra|].
    destruct (Rle_dec (vy q) (y - d)); [right; lra|]. destruct (Rle_dec (y + d) (vy q)); [right; lra|].
    destruct (Rle_dec (vz q) (z - d)); [right; lra|]. destruct (Rle_dec (z + d) (vz q)); [right; lra|]. left. lra.
  - cbn [fold_right]. unfold volume; cbn [vx vy vz b_min b_max]. ring.
Qed.

(** potential: the cube's own share is G rho d^2 (12 ln(2 + sqrt 3) - 2 pi), so the integrals over the shell converge to the
    returned potential as the cube shrinks; field: the integral over the shell is the returned field, for every cube;
    gradient: it is the returned gradient plus 4/3 pi G rho times the identity *)
Theorem C123_gravity_inside b rho p d : cube_within b p d ->
  boxes_integral (fun q => pm_potential (PM rho q) p) (shell b p d)
    (gravitational_potential G_newton b rho p - G_newton * rho * ((12 * ln (2 + sqrt 3) - 2 * PI) * d ^ 2)) /\
  boxes_vintegral (fun q => pm_field (PM rho q) p) (shell b p d) (gravitational_field G_newton b rho p) /\
  boxes_mintegral (fun q => pm_gradient (PM rho q) p) (shell b p d)
    (madd (gravitational_gradient G_newton b rho p) (mscal (4 / 3 * PI * G_newton * rho) mid)).
Proof. intros W. split; [exact (in_potential b p d W rho)|split; [exact (in_field b p d W rho)|exact (in_gradient b p d W rho)]]. Qed.

(** a prism of magnetization M = k n seen from inside: the integrals over the shell of the dipoles' potentials and fields are the
    returned scalar potential and the returned H plus M/3; the returned B is mu0 times (that integral plus 2/3 M) *)
Theorem C123_magnetic_inside b k n mu p d : cube_within b p d ->
  boxes_integral (fun q => - k * vdot n (vsub p q) / (4 * PI * vnorm (vsub p q) ^ 3)) (shell b p d) (scalar_potential b (vscal k n) p) /\
  (forall H, mu <> 0 -> (forall q, mdipole_field (MD k n q mu) "cartesian" p = Ok (H q)) ->
     exists I, boxes_vintegral H (shell b p d) I /\ magnetic_field b (vscal k n) p = vsub I (vscal (1 / 3) (vscal k n)) /\
       magnetic_flux_density mu b (vscal k n) [p] = Ok [vscal mu (vadd I (vscal (2 / 3) (vscal k n)))]).
Proof.
  intros W. split; [exact (in_scalar b p d W k n)|]. intros H M E. eexists. split; [exact (in_H b p d W k n mu H M E)|].
  assert (S : is_inside b p = true) by (apply is_inside_spec; unfold cube_within in W; lra).
  split; [|rewrite flux_pointwise; cbn [map]; rewrite S; do 2 f_equal]; destruct (magnetic_field b (vscal k n) p) as [h1 h2 h3], (vscal k n) as [k1 k2 k3]; unfold vsub, vadd, vscal; cbn [vx vy vz]; f_equal; field.
Qed.

(** a box of edges 2, 4, 6 and a point off its centre *)
Example C123_witness : let b := Box (V3 0 0 0) (V3 2 4 6) in let p := V3 1 1 2 in
  cube_within b p (1 / 2) /\ exists H, forall q, mdipole_field (MD 2 (V3 0 1 0) q 3) "cartesian" p = Ok (H q).
Proof. cbv zeta. split; [unfold cube_within; cbn; lra|]. eexists (fun q => _); intro q; reflexivity. Qed.
Print Assumptions C123_shell_and_cube_tile_the_prism.
Print Assumptions C123_gravity_inside.
Print Assumptions C123_magnetic_inside.
