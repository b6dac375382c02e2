(** Properties C24, C25: point mass and uniform sphere (geoana/gravity.py). *)
From Coq Require Import Reals Lra List Bool.
From Coquelicot Require Import Coquelicot.
From Verif Require Import Vec3 Numpy Calculus Deriv Model_Gravity Proof_Gravity.
Import ListNotations.
Open Scope R_scope.

(** C24: the returned field is the gradient of the returned potential, and the
    returned tensor is the Jacobian of the returned field, symmetric and
    trace free, at every point other than the mass itself. *)
Theorem C24_point_mass_field_is_gradient :
  forall (s : point_mass) (p : vec3), p <> pm_loc s ->
    is_grad (pm_potential s) p (pm_field s p).
Proof. intros s p H. apply pm_field_is_grad. apply vsub_neq; exact H. Qed.

Theorem C24_point_mass_tensor_is_jacobian :
  forall (s : point_mass) (p : vec3), p <> pm_loc s ->
    is_jac (pm_field s) p (pm_gradient s p) /\ msym (pm_gradient s p) /\ mtrace (pm_gradient s p) = 0.
Proof.
  intros s p H. apply vsub_neq in H. split; [|split].
  - apply pm_gradient_is_jac; exact H.
  - apply pm_gradient_sym.
  - apply pm_gradient_trace; exact H.
Qed.

(** Laplace: the divergence of the field vanishes off the mass *)
Theorem C24_point_mass_laplace :
  forall (s : point_mass) (p : vec3), p <> pm_loc s ->
    is_div (pm_field s) p 0 /\ is_curl (pm_field s) p vzero.
Proof. exact pm_div_curl. Qed.

(** inverse-distance law: potential * distance = G * mass, field attractive with
    magnitude G |mass| / distance^2 *)
Theorem C24_point_mass_inverse_square :
  forall (G : R) (s : point_mass) (p : vec3), G = 6.6743 / 10 ^ 11 -> p <> pm_loc s ->
    pm_potential s p * vnorm (vsub p (pm_loc s)) = G * pm_mass s /\
    vnorm (pm_field s p) = G * Rabs (pm_mass s) / vnorm (vsub p (pm_loc s)) ^ 2 /\
    vdot (pm_field s p) (vsub p (pm_loc s)) = - (G * pm_mass s / vnorm (vsub p (pm_loc s))).
Proof. intros G s p ->. replace (6.6743 / 10 ^ 11) with G_newton by (unfold G_newton; lra). exact (pm_inverse_square s p). Qed.

Example C24_witness : V3 1 2 2 <> pm_loc (PM 5 vzero) /\ pm_potential (PM 5 vzero) (V3 1 2 2) = G_newton * 5 / 3.
Proof. exact pm_witness. Qed.

(** C25: the value at each point of a grid is the value at that point alone *)
Theorem C25_sphere_grid_is_pointwise :
  forall (s : grav_sphere) (grid : list vec3),
    gs_potential_grid s grid = Ok (map (eval1 0 (gs_potential_grid s)) grid) /\
    gs_field_grid s grid = Ok (map (eval1 vzero (gs_field_grid s)) grid) /\
    gs_gradient_grid s grid = Ok (map (eval1 None (gs_gradient_grid s)) grid).
Proof. exact gs_grid_pointwise. Qed.

(** outside, the sphere is indistinguishable from a point mass with the same
    mass at its centre *)
Theorem C25_sphere_outside_is_point_mass :
  forall (s : grav_sphere) (p : vec3), 0 < gs_radius s -> gs_radius s < vnorm (vsub p (gs_loc s)) ->
    let pm := PM (4 / 3 * PI * gs_radius s ^ 3 * gs_rho s) (gs_loc s) in
    eval1 0 (gs_potential_grid s) p = pm_potential pm p /\
    eval1 vzero (gs_field_grid s) p = pm_field pm p /\
    eval1 None (gs_gradient_grid s) p = Some (pm_gradient pm p).
Proof. exact gs_outside_all. Qed.

(** potential and field are continuous everywhere, in particular across the surface *)
Theorem C25_sphere_continuous :
  forall (s : grav_sphere) (p : vec3), 0 < gs_radius s ->
    is_cont (eval1 0 (gs_potential_grid s)) p /\
    is_cont (fun q => vx (eval1 vzero (gs_field_grid s) q)) p /\
    is_cont (fun q => vy (eval1 vzero (gs_field_grid s) q)) p /\
    is_cont (fun q => vz (eval1 vzero (gs_field_grid s) q)) p.
Proof. exact gs_continuous_all. Qed.

(** the field is the gradient of the potential inside, outside AND on the surface *)
Theorem C25_sphere_field_is_gradient :
  forall (s : grav_sphere) (p : vec3), 0 < gs_radius s ->
    is_grad (eval1 0 (gs_potential_grid s)) p (eval1 vzero (gs_field_grid s) p).
Proof. exact gs_field_is_grad_all. Qed.

(** off the surface the tensor is the Jacobian of the field and Poisson's
    equation holds; on the surface the tensor is nan ([None]) *)
Theorem C25_sphere_poisson :
  forall (s : grav_sphere) (p : vec3), 0 < gs_radius s ->
    let r := vnorm (vsub p (gs_loc s)) in
    match eval1 None (gs_gradient_grid s) p with
    | Some J =>
        r <> gs_radius s /\ is_jac (eval1 vzero (gs_field_grid s)) p J /\ msym J /\
        (r < gs_radius s -> mtrace J = - 4 * PI * G_newton * gs_rho s) /\
        (r > gs_radius s -> mtrace J = 0)
    | None => r = gs_radius s
    end.
Proof. exact gs_poisson_all. Qed.

Example C25_witness :
  let s := GS 2 3 (V3 1 0 0) in
  0 < gs_radius s /\ gs_radius s < vnorm (vsub (V3 1 0 5) (gs_loc s)) /\
  vnorm (vsub (V3 1 0 1) (gs_loc s)) < gs_radius s /\
  eval1 0 (gs_potential_grid s) (V3 1 0 1) = 22 * PI * G_newton.
Proof. exact gs_witness. Qed.

Print Assumptions C24_point_mass_field_is_gradient.
Print Assumptions C24_point_mass_tensor_is_jacobian.
Print Assumptions C24_point_mass_laplace.
Print Assumptions C24_point_mass_inverse_square.
Print Assumptions C25_sphere_grid_is_pointwise.
Print Assumptions C25_sphere_outside_is_point_mass.
Print Assumptions C25_sphere_continuous.
Print Assumptions C25_sphere_field_is_gradient.
Print Assumptions C25_sphere_poisson.
