(** C128: a homogeneous sphere is the superposition of the point masses in it (Newton's shell theorem), and the charges
    on a conducting sphere make its secondary potential (Coulomb's law). *)
From Coq Require Import Reals Lra List String.
From Coquelicot Require Import Coquelicot.
From Verif Require Import Vec3 Numpy Model_Gravity Model_Static Proof_Gravity Spec_Flux Spec_Ball Proof_Ball3 Proof_Ball4.
Import ListNotations.
Open Scope R_scope.

(** C128: integrals are taken in spherical coordinates about the axis from the centre through the observation point; there
    is one for every point *)
Theorem C128_polar_axis : forall c p, exists e1 e2 e3 d, frame e1 e2 e3 /\ 0 <= d /\ p = along c d e3.
Proof. exact polar_axis. Qed.

(** C128: at every point, inside, outside, on the surface or at the centre, the potential and the field of a Sphere are
    the integrals over the ball of those of the point masses in it *)
Theorem C128_sphere_is_superposition : forall rad rho c e1 e2 e3 d, 0 < rad -> frame e1 e2 e3 -> 0 <= d ->
  let p := along c d e3 in
  exists U g, gs_potential_grid (GS rad rho c) [p] = Ok [U] /\ gs_field_grid (GS rad rho c) [p] = Ok [g] /\
    ball_integral e1 e2 e3 c rad (fun y => pm_potential (PM rho y) p) U /\
    ball_vintegral e1 e2 e3 c rad (fun y => pm_field (PM rho y) p) g.
Proof.
  intros rad rho c e1 e2 e3 d R0 F D p. eexists _, _. rewrite gs_potential_grid_pt, gs_field_grid_pt. split; [reflexivity|]. split; [reflexivity|].
  split; [apply ball_potential|apply ball_field]; assumption.
Qed.

(** C128: and outside the sphere so is the gradient tensor *)
Theorem C128_gradient_is_superposition : forall rad rho c e1 e2 e3 d, 0 < rad -> frame e1 e2 e3 -> rad < d ->
  let p := along c d e3 in
  exists T, gs_gradient_grid (GS rad rho c) [p] = Ok [Some T] /\ ball_mintegral e1 e2 e3 c rad (fun y => pm_gradient (PM rho y) p) T.
Proof.
  intros rad rho c e1 e2 e3 d R0 F D p. exists (pm_gradient (gs_as_point_mass (GS rad rho c)) p). split.
  - rewrite gs_gradient_grid_pt. cbn [map]. unfold gs_gradient_pt. cbn [gs_radius gs_loc]. unfold p. rewrite (axis_norm e1 e2 e3 c d F) by lra. unfold Reqb, Rltb.
    destruct (Req_EM_T d rad); [lra|]. destruct (Rlt_dec rad d); [reflexivity|lra].
  - apply ball_gradient; try assumption; lra.
Qed.

(** C128: the charge density reported on the surface of a conducting sphere makes, by Coulomb's law, the secondary potential
    reported at every point *)
Theorem C128_charges_make_the_potential : forall eps0 s dr sigma e1 e2 e3 d v,
  0 < eps0 -> 0 < sp_radius s -> sp_c1 s + 2 * sp_c0 s <> 0 -> frame e1 e2 e3 -> 0 <= d -> (forall w, dr = Some w -> 0 < w) ->
  (forall y, vnorm (vsub y (sp_loc s)) = sp_radius s -> charge_density eps0 s [y] dr = Ok [sigma y]) ->
  let p := along (sp_loc s) d e3 in
  sphere_potential s [p] "secondary" = Ok (One [v]) ->
  sphere_integral e1 e2 e3 (sp_loc s) (sp_radius s) (fun y => sigma y / (4 * PI * eps0 * vnorm (vsub p y))) v.
Proof. exact charge_potential. Qed.

(** the axes of coordinates are a frame, and the charges of a sphere are defined all over its surface *)
Example C128_witness : frame (V3 1 0 0) (V3 0 1 0) (V3 0 0 1) /\
  exists sigma, (forall y, vnorm (vsub y (V3 1 2 3)) = 2 -> charge_density 1 (SP 2 5 3 (V3 1 0 1) (V3 1 2 3)) [y] None = Ok [sigma y]) /\
    sigma (V3 1 2 5) <> 0 /\ exists v, sphere_potential (SP 2 5 3 (V3 1 0 1) (V3 1 2 3)) [V3 1 2 7] "secondary" = Ok (One [v]).
Proof.
  split; [unfold frame, vdot; cbn; repeat split; lra|]. eexists. split; [|split].
  - intros y E. apply charge_surface; [cbn; lra|discriminate|exact E].
  - unfold sp_cur, vdot, vsub. cbn. lra.
  - eexists. destruct (Proof_Sphere.sphere_potential_modes (SP 2 5 3 (V3 1 0 1) (V3 1 2 3)) [V3 1 2 7]) as (_ & _ & M & _). exact M.
Qed.
Print Assumptions C128_polar_axis.
Print Assumptions C128_sphere_is_superposition.
Print Assumptions C128_gradient_is_superposition.
Print Assumptions C128_charges_make_the_potential.
