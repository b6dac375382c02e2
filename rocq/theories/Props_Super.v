(** C111: prisms as superpositions of point sources, at every point outside them. *)
From Coq Require Import Reals Lra String List.
From Verif Require Import Vec3 Calculus Numpy Model_Gravity Model_Static Model_Prism Spec_Prism Spec_Super Proof_Super5 Proof_Super6.
Import ListNotations.
Open Scope R_scope.

(** C111: at every point off a prism, on the planes of its faces too, its potential, field and gradient are the integrals over the
    prism of those of point masses of its density *)
Theorem C111_gravity_is_superposition b rho p : ordered b -> outside b p ->
  box_integral (fun q => pm_potential (PM rho q) p) b (gravitational_potential G_newton b rho p) /\
  box_vintegral (fun q => pm_field (PM rho q) p) b (gravitational_field G_newton b rho p) /\
  box_mintegral (fun q => pm_gradient (PM rho q) p) b (gravitational_gradient G_newton b rho p).
Proof. exact (gravity_super b rho p). Qed.

(** C111: a prism of magnetisation [k n] is the superposition of dipoles of moment [k] along [n]: its scalar potential, its field
    and its flux density are the integrals of theirs.  (The library has no scalar potential of a dipole, so it is written out.) *)
Theorem C111_magnetization_is_superposition b k n mu p : ordered b -> outside b p ->
  box_integral (fun q => - k * vdot n (vsub p q) / (4 * PI * vnorm (vsub p q) ^ 3)) b (scalar_potential b (vscal k n) p) /\
  (forall H, mu <> 0 -> (forall q, mdipole_field (MD k n q mu) "cartesian" p = Ok (H q)) -> box_vintegral H b (magnetic_field b (vscal k n) p)) /\
  (forall B, (forall q, mdipole_flux_density (MD k n q mu) "cartesian" p = Ok (B q)) ->
     exists F, magnetic_flux_density mu b (vscal k n) [p] = Ok [F] /\ box_vintegral B b F).
Proof. exact (magnetic_super b k n mu p). Qed.

(** C111: the gravity methods differentiate into each other on the planes of the faces as everywhere else outside *)
Theorem C111_gravity_derivatives G b rho p : ordered b -> outside b p ->
  is_grad (gravitational_potential G b rho) p (gravitational_field G b rho p) /\
  is_jac (gravitational_field G b rho) p (gravitational_gradient G b rho p) /\
  mtrace (gravitational_gradient G b rho p) = 0.
Proof. intros O Q. split; [|split]; [apply grav_field_grad_all|apply grav_gradient_jac_all|apply trace_all]; assumption. Qed.

(** C111: and so do the magnetic ones *)
Theorem C111_magnetic_derivatives b m p : ordered b -> outside b p ->
  is_grad (scalar_potential b m) p (magnetic_field b m p) /\ is_jac (magnetic_field b m) p (magnetic_field_gradient b m p).
Proof. intros O Q. split; [apply mag_H_is_grad_all|apply mag_grad_jac_all]; assumption. Qed.

(** a point on the lines of two edges, off the prism; the fields of the dipoles at its points exist *)
Example C111_witness : let b := Box (V3 0 0 0) (V3 1 2 3) in let p := V3 0 0 5 in
  ordered b /\ outside b p /\ ~ off_faces b p /\
  (exists H, forall q, mdipole_field (MD 2 (V3 0 1 0) q 3) "cartesian" p = Ok (H q)) /\
  (exists B, forall q, mdipole_flux_density (MD 2 (V3 0 1 0) q 3) "cartesian" p = Ok (B q)).
Proof.
  cbv zeta. split; [unfold ordered; cbn; lra|]. split; [unfold outside; cbn; lra|]. split; [unfold off_faces; cbn; lra|].
  split; eexists (fun q => _); intro q; reflexivity.
Qed.
Print Assumptions C111_gravity_is_superposition.
Print Assumptions C111_magnetization_is_superposition.
Print Assumptions C111_gravity_derivatives.
Print Assumptions C111_magnetic_derivatives.
