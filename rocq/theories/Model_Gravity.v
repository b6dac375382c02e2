(** Model of geoana/gravity.py (PointMass and Sphere). *)
From Coq Require Import Reals List Bool.
From Verif Require Import Vec3 Numpy.
Import ListNotations.
Open Scope R_scope.

(** scipy.constants.G (CODATA 2018/2022), gravity.py l.21 *)
Definition G_newton : R := 66743 / 1000000000000000.

(** ** PointMass *)

(** gravity.py l.32-100: the attributes after validation *)
Record point_mass : Type := PM { pm_mass : R; pm_loc : vec3 }.

(** gravity.py l.154-158.  [r = 0] gives inf in numpy; every theorem assumes [r <> 0]. *)
Definition pm_potential (s : point_mass) (xyz : vec3) : R :=
  let r_vec := vsub xyz (pm_loc s) in
  let r := vnorm r_vec in
  (G_newton * pm_mass s) / r.

(** gravity.py l.211-216 *)
Definition pm_field (s : point_mass) (xyz : vec3) : vec3 :=
  let r_vec := vsub xyz (pm_loc s) in
  let r := vnorm r_vec in
  let r_hat := V3 (vx r_vec / r) (vy r_vec / r) (vz r_vec / r) in
  let c := - G_newton * pm_mass s in
  V3 (c * vx r_hat / r ^ 2) (c * vy r_hat / r ^ 2) (c * vz r_hat / r ^ 2).

(** gravity.py l.273-280: row i, column j of
    [-G m (eye(3) - 3 r_hat[...,None]*r_hat[...,None,:]) / r**3] *)
Definition pm_gradient (s : point_mass) (xyz : vec3) : mat3 :=
  let r_vec := vsub xyz (pm_loc s) in
  let r := vnorm r_vec in
  let r_hat := V3 (vx r_vec / r) (vy r_vec / r) (vz r_vec / r) in
  let c := - G_newton * pm_mass s in
  let e (d a b : R) := c * (d - 3 * a * b) / r ^ 3 in
  M3 (V3 (e 1 (vx r_hat) (vx r_hat)) (e 0 (vx r_hat) (vy r_hat)) (e 0 (vx r_hat) (vz r_hat)))
     (V3 (e 0 (vy r_hat) (vx r_hat)) (e 1 (vy r_hat) (vy r_hat)) (e 0 (vy r_hat) (vz r_hat)))
     (V3 (e 0 (vz r_hat) (vx r_hat)) (e 0 (vz r_hat) (vy r_hat)) (e 1 (vz r_hat) (vz r_hat))).

(** the vectorised methods on a grid (all operations are elementwise over the
    leading axes, gravity.py l.154-158, 211-216, 273-280) *)
Definition pm_potential_grid (s : point_mass) (xyz : list vec3) : list R := map (pm_potential s) xyz.
Definition pm_field_grid (s : point_mass) (xyz : list vec3) : list vec3 := map (pm_field s) xyz.
Definition pm_gradient_grid (s : point_mass) (xyz : list vec3) : list mat3 := map (pm_gradient s) xyz.

(** ** Sphere *)

(** gravity.py l.283-338: stored attributes are _radius, _rho, _location *)
Record grav_sphere : Type := GS { gs_radius : R; gs_rho : R; gs_loc : vec3 }.

(** gravity.py l.349 *)
Definition gs_mass (s : grav_sphere) : R := 4 / 3 * PI * gs_radius s ^ 3 * gs_rho s.

(** Sphere inherits PointMass: [super().f] reads [self.mass] and [self.location] *)
Definition gs_as_point_mass (s : grav_sphere) : point_mass := PM (gs_mass s) (gs_loc s).

(** gravity.py l.421-428 *)
Definition gs_potential_grid (s : grav_sphere) (xyz : list vec3) : result (list R) :=
  let r_vec := map (fun p => vsub p (gs_loc s)) xyz in
  let r := map vnorm r_vec in
  let u_g := map (fun _ => 0) r in
  let ind0 := map (fun ri => Rltb (gs_radius s) ri) r in
  do u_g <- mask_assign ind0 u_g (pm_potential_grid (gs_as_point_mass s) (mask_select ind0 xyz));
  let nind0 := map negb ind0 in
  mask_assign nind0 u_g
    (map (fun ri => G_newton * 2 / 3 * PI * gs_rho s * (3 * gs_radius s ^ 2 - ri ^ 2)) (mask_select nind0 r)).

(** gravity.py l.487-494 *)
Definition gs_field_grid (s : grav_sphere) (xyz : list vec3) : result (list vec3) :=
  let r_vec := map (fun p => vsub p (gs_loc s)) xyz in
  let r := map vnorm r_vec in
  let g_vec := map (fun _ => vzero) r in
  let ind0 := map (fun ri => Rltb (gs_radius s) ri) r in
  do g_vec <- mask_assign ind0 g_vec (pm_field_grid (gs_as_point_mass s) (mask_select ind0 xyz));
  let nind0 := map negb ind0 in
  mask_assign nind0 g_vec
    (map (fun rv => vscal (- G_newton * 4 / 3 * PI * gs_rho s) rv) (mask_select nind0 r_vec)).

(** gravity.py l.558-567; [None] stands for the nan-filled tensor on the surface *)
Definition gs_gradient_grid (s : grav_sphere) (xyz : list vec3) : result (list (option mat3)) :=
  let r_vec := map (fun p => vsub p (gs_loc s)) xyz in
  let r := map vnorm r_vec in
  let g_tens := map (fun _ => Some (M3 vzero vzero vzero)) r in
  let ind0 := map (fun ri => Rltb (gs_radius s) ri) r in
  let ind1 := map (fun ri => Reqb ri (gs_radius s)) r in
  do g_tens <- mask_assign ind0 g_tens (map Some (pm_gradient_grid (gs_as_point_mass s) (mask_select ind0 xyz)));
  do g_tens <- mask_fill (map negb ind0) g_tens (Some (mscal (- G_newton * 4 / 3 * PI * gs_rho s) mid));
  mask_fill ind1 g_tens None.
