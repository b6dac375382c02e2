(** C112: the fields of distant prisms. *)
From Coq Require Import Reals Lra String List.
From Verif Require Import Vec3 Numpy Model_Gravity Model_Static Model_Prism Spec_Prism Spec_Far Proof_FarField3.
Import ListNotations.
Open Scope R_scope.

(** C112: outside its circumscribed sphere the field and the gradient of a prism are those of a point mass with the prism's mass at
    the prism's location, up to a relative error of the order of the square of its size over its distance *)
Theorem C112_far_field_is_a_point_mass b rho p : ordered b ->
  let r := vnorm (vsub p (location b)) in let a := half_diagonal b in
  a < r ->
  let s := PM (prism_mass b rho) (location b) in
  vnorm (vsub (gravitational_field G_newton b rho p) (pm_field s p)) <= 3 * (a / r) ^ 2 / (1 - a / r) ^ 4 * vnorm (pm_field s p) /\
  forall v, vnorm (vsub (mvec (gravitational_gradient G_newton b rho p) v) (mvec (pm_gradient s p) v))
    <= 12 * (a / r) ^ 2 / (1 - a / r) ^ 5 * vnorm (mvec (pm_gradient s p) v).
Proof. intros O r a H s. split; [exact (far_field b p O H rho)|intro v; exact (far_gradient b p O H rho v)]. Qed.

(** C112: there a prism of magnetisation [k n] is a dipole with the moment of its volume at its location *)
Theorem C112_far_prism_is_a_dipole b k n mu p H B F : ordered b -> mu <> 0 ->
  let r := vnorm (vsub p (location b)) in let a := half_diagonal b in
  a < r ->
  let s := MD (k * volume b) n (location b) mu in
  mdipole_field s "cartesian" p = Ok H -> mdipole_flux_density s "cartesian" p = Ok B -> magnetic_flux_density mu b (vscal k n) [p] = Ok [F] ->
  vnorm (vsub (magnetic_field b (vscal k n) p) H) <= 12 * (a / r) ^ 2 / (1 - a / r) ^ 5 * vnorm H /\
  vnorm (vsub F B) <= 12 * (a / r) ^ 2 / (1 - a / r) ^ 5 * vnorm B.
Proof.
  intros O M r a L s EH EB EF. split; [exact (far_H b p O L k n mu H M EH)|].
  destruct (far_B b p O L k n mu B EB) as (F' & E & Q). rewrite EF in E. injection E as <-. exact Q.
Qed.

(** C112: the moment of that dipole is the one the prism's [moment] returns *)
Theorem C112_moment_is_that_of_the_far_dipole b m k n mu p H : ordered b -> mu <> 0 ->
  let r := vnorm (vsub p (location b)) in let a := half_diagonal b in
  a < r -> vscal k n = moment b m ->
  mdipole_field (MD k n (location b) mu) "cartesian" p = Ok H ->
  vnorm (vsub (magnetic_field b m p) H) <= 12 * (a / r) ^ 2 / (1 - a / r) ^ 5 * vnorm H.
Proof.
  intros O M r a L E EH.
  assert (V : 0 < volume b) by (destruct b as [[x y z] [x' y' z']]; unfold ordered, volume in *; cbn in *; repeat apply Rmult_lt_0_compat; lra).
  assert (Em : m = vscal (k / volume b) n).
  { unfold moment in E. destruct m as [mx my mz], n as [nx ny nz]. unfold vscal in *. cbn [vx vy vz] in *. injection E as E1 E2 E3.
    f_equal; (apply Rmult_eq_reg_l with (volume b); [|lra]); [rewrite <- E1|rewrite <- E2|rewrite <- E3]; field; lra. }
  rewrite Em. replace k with (k / volume b * volume b) in EH by (field; lra).
  exact (far_H b p O L (k / volume b) n mu H M EH).
Qed.

(** a cube of edge 2 at distance 5: the three calls return *)
Example C112_witness : let b := Box (V3 1 1 1) (V3 3 3 3) in let p := V3 7 2 2 in
  ordered b /\ half_diagonal b < vnorm (vsub p (location b)) /\
  (exists H, mdipole_field (MD (2 * volume b) (V3 0 0 1) (location b) 3) "cartesian" p = Ok H) /\
  (exists B, mdipole_flux_density (MD (2 * volume b) (V3 0 0 1) (location b) 3) "cartesian" p = Ok B) /\
  (exists F, magnetic_flux_density 3 b (vscal 2 (V3 0 0 1)) [p] = Ok [F]) /\
  vscal 16 (V3 0 0 1) = moment b (V3 0 0 2).
Proof.
  cbv zeta. assert (L : location (Box (V3 1 1 1) (V3 3 3 3)) = V3 2 2 2) by (unfold location, vscal, vadd; cbn; f_equal; field).
  assert (Q : vnorm (vsub (V3 3 3 3) (V3 1 1 1)) ^ 2 = 12) by (unfold vnorm; rewrite <- Rsqr_pow2, Rsqr_sqrt by (unfold vnorm2; cbn; lra); unfold vnorm2; cbn; ring).
  assert (N : vnorm (vsub (V3 7 2 2) (V3 2 2 2)) = 5).
  { unfold vnorm, vnorm2; cbn. replace ((7 - 2) * (7 - 2) + (2 - 2) * (2 - 2) + (2 - 2) * (2 - 2)) with (5 * 5) by ring. apply sqrt_square. lra. }
  pose proof (vnorm_nonneg (vsub (V3 3 3 3) (V3 1 1 1))) as P.
  assert (H : half_diagonal (Box (V3 1 1 1) (V3 3 3 3)) < vnorm (vsub (V3 7 2 2) (location (Box (V3 1 1 1) (V3 3 3 3))))).
  { rewrite L, N. unfold half_diagonal. cbn [b_min b_max]. set (d := vnorm _) in *. nra. }
  assert (O : ordered (Box (V3 1 1 1) (V3 3 3 3))) by (unfold ordered; cbn; lra).
  split; [exact O|]. split; [exact H|]. split; [eexists; reflexivity|]. split; [eexists; reflexivity|].
  destruct (far_B _ _ O H 2 (V3 0 0 1) 3 _ eq_refl) as (F & E & _). split; [exists F; exact E|]. unfold moment, volume, vscal; cbn; f_equal; ring.
Qed.
Print Assumptions C112_far_field_is_a_point_mass.
Print Assumptions C112_far_prism_is_a_dipole.
Print Assumptions C112_moment_is_that_of_the_far_dipole.
