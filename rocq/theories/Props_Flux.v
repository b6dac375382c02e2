(** C114: the integral laws.  Gauss' law for masses, electrodes, poles and dipoles,
    current balance of half-space electrodes, Ampere's law for a loop and a long wire. *)
From Coq Require Import Reals Lra Lia List Bool String.
From Coquelicot Require Import Coquelicot.
From Verif Require Import Vec3 Calculus Numpy Spec_Static Spec_Loop Spec_Flux Model_Gravity Model_Static Proof_Flux Proof_Flux2 Proof_Flux3.
Import ListNotations.
Open Scope R_scope.

(** the flux of gravity out of any sphere is -4 pi G times the mass inside *)
Theorem C114_gauss_law_of_a_point_mass :
  forall (s : point_mass) e1 e2 e3 c rad d, frame e1 e2 e3 -> 0 < rad -> Rabs d <> rad -> pm_loc s = along c d e3 ->
  flux_out e1 e2 e3 c rad (pm_field s) (- 4 * PI * G_newton * enclosed rad d (pm_mass s)).
Proof. exact pm_gauss. Qed.

(** ... which for a homogeneous ball is its density times the volume enclosed by a
    concentric sphere of any radius, inside the ball or not *)
Theorem C114_gauss_law_inside_a_sphere :
  forall (s : grav_sphere) e1 e2 e3 rad, frame e1 e2 e3 -> 0 < rad -> 0 <= gs_radius s ->
  flux_out e1 e2 e3 (gs_loc s) rad (eval1 vzero (gs_field_grid s))
    (- 4 * PI * G_newton * (gs_rho s * (4 / 3 * PI * Rmin rad (gs_radius s) ^ 3))).
Proof. exact gs_gauss_centre. Qed.

(** ... and all or nothing for any sphere that does not cut the ball *)
Theorem C114_gauss_law_outside_a_sphere :
  forall (s : grav_sphere) e1 e2 e3 c rad d, frame e1 e2 e3 -> 0 < rad -> 0 <= gs_radius s -> gs_loc s = along c d e3 ->
  rad + gs_radius s < Rabs d \/ Rabs d + gs_radius s < rad ->
  flux_out e1 e2 e3 c rad (eval1 vzero (gs_field_grid s)) (- 4 * PI * G_newton * enclosed rad d (gs_mass s)).
Proof. exact gs_gauss_clear. Qed.

(** the current leaving any sphere is the current injected inside it *)
Theorem C114_current_of_an_electrode :
  forall rho I loc e1 e2 e3 c rad d, frame e1 e2 e3 -> 0 < rad -> Rabs d <> rad -> rho <> 0 -> loc = along c d e3 ->
  flux_out e1 e2 e3 c rad (pc_current_density (point_current rho I loc)) (enclosed rad d I).
Proof. exact pc_gauss. Qed.

(** a wire injects its current at its last node and collects it at its first *)
Theorem C114_current_of_a_wire :
  forall (s : lcur) e1 e2 e3 c rad d1 d0, frame e1 e2 e3 -> 0 < rad -> Rabs d1 <> rad -> Rabs d0 <> rad ->
  (2 <= List.length (lc_nodes s))%nat -> lc_sigma s <> 0 -> List.last (lc_nodes s) vzero = along c d1 e3 -> List.hd vzero (lc_nodes s) = along c d0 e3 ->
  flux_out e1 e2 e3 c rad (lc_current_density s) (enclosed rad d1 (lc_current s) - enclosed rad d0 (lc_current s)).
Proof. exact lc_gauss. Qed.

(** all the current of a half-space electrode goes into the ground: what crosses the
    lower half of a sphere centred on the surface above the electrode *)
Theorem C114_current_into_the_ground :
  forall (s : hsp) rad, hs_rho s <> 0 -> vz (hs_loc s) <= 0 -> 0 < rad -> - vz (hs_loc s) <> rad ->
  exists J, (forall q, vz q <= 0 -> hs_current_density s [q] = Ok [J q]) /\
    flux_below (V3 1 0 0) (V3 0 1 0) (V3 0 0 1) (V3 (vx (hs_loc s)) (vy (hs_loc s)) 0) rad J (enclosed rad (vz (hs_loc s)) (hs_current s)).
Proof. exact hs_gauss. Qed.

(** ... and for a pair of surface electrodes the current of A less that of B *)
Theorem C114_current_of_an_electrode_pair :
  forall (s : dhsp) e1 e3 c rad da db, frame e1 (V3 0 0 1) e3 -> 0 < rad -> Rabs da <> rad -> Rabs db <> rad -> dh_rho s <> 0 ->
  vz c = 0 -> dh_a s = along c da e3 -> dh_b s = along c db e3 ->
  exists J, (forall q, vz q <= 0 -> dh_current_density s [q] None = Ok [J q]) /\
    flux_beyond e1 (V3 0 0 1) e3 c rad J (enclosed rad da (dh_current s) - enclosed rad db (dh_current s)).
Proof. exact dh_gauss. Qed.

(** magnetic dipoles have no net flux out of any sphere, poles mu times their moment *)
Theorem C114_flux_of_a_magnetic_dipole :
  forall (s : mdipole) e1 e2 e3 c rad d, frame e1 e2 e3 -> 0 < rad -> Rabs d <> rad -> md_loc s = along c d e3 ->
  exists B, (forall q, mdipole_flux_density s "cartesian" q = Ok (B q)) /\ flux_out e1 e2 e3 c rad B 0.
Proof. intros s e1 e2 e3 c rad d F H N L. exists (md_B s). split; [reflexivity|]. exact (md_gauss s e1 e2 e3 c rad d F H N L). Qed.
Theorem C114_flux_of_a_magnetic_pole :
  forall (s : mdipole) e1 e2 e3 c rad d, frame e1 e2 e3 -> 0 < rad -> Rabs d <> rad -> md_loc s = along c d e3 ->
  exists B, (forall q, mpole_flux_density s "cartesian" q = Ok (B q)) /\ flux_out e1 e2 e3 c rad B (enclosed rad d (md_mu s * md_moment s)).
Proof. intros s e1 e2 e3 c rad d F H N L. exists (mp_B s). split; [reflexivity|]. exact (mp_gauss s e1 e2 e3 c rad d F H N L). Qed.

(** a sphere in a uniform field carries no net charge and no net source of current (or
    of magnetic flux), whatever concentric sphere is looked at *)
Theorem C114_no_net_charge_of_a_sphere :
  forall (s : sph) e1 e2 e3 rad, frame e1 e2 e3 -> 0 < rad ->
  exists E J, (forall q, sphere_field s [q] "total" = Ok (One [E q])) /\ (forall q, sphere_flux s [q] "total" = Ok (One [J q])) /\
    flux_out e1 e2 e3 (sp_loc s) rad E 0 /\ flux_out e1 e2 e3 (sp_loc s) rad J 0.
Proof. exact sphere_gauss. Qed.

(** Ampere's law: B integrated along the whole axis of a current loop is mu I *)
Theorem C114_ampere_law_on_the_axis_of_a_loop :
  forall s : cloop, 0 < cl_radius s -> proper_axis (cl_orient s) ->
  exists b : R -> vec3,
    (forall z, loop_flux_density s "cartesian" (along (cl_loc s) z (cl_orient s)) = Ok (b z)) /\
    (forall L, 0 <= L -> is_RInt (fun z => vdot (b z) (cl_orient s)) (- L) L (cl_mu s * cl_current s * (L / sqrt (cl_radius s ^ 2 + L ^ 2)))) /\
    is_lim (fun L => RInt (fun z => vdot (b z) (cl_orient s)) (- L) L) p_infty (cl_mu s * cl_current s).
Proof. exact loop_ampere. Qed.

(** a straight wire tends to the infinite wire: B = mu I / (2 pi rho), right-handed about
    the current ([w] is the unit direction cross the offset, so its length is rho) *)
Theorem C114_long_straight_wire :
  forall I sigma mu u c p, proper_direction u -> vcross u (vsub p c) <> vzero ->
  let w := vcross u (vsub p c) in
  exists B : R -> vec3,
    (forall L, 0 < L -> lc_flux_density (LC [along c (- L) u; along c L u] I sigma mu) p = Ok (Some (B L))) /\
    let B0 := vscal (mu * I / (2 * PI * vnorm2 w)) w in
    is_lim (fun L => vx (B L)) p_infty (vx B0) /\ is_lim (fun L => vy (B L)) p_infty (vy B0) /\ is_lim (fun L => vz (B L)) p_infty (vz B0).
Proof. exact long_wire. Qed.

(** ** Witnesses: a tilted frame, sources inside and outside the sphere, and the values
    of the fluxes *)
Example frame_tilted : frame (V3 (3 / 5) 0 (4 / 5)) (V3 0 1 0) (V3 (4 / 5) 0 (- 3 / 5)).
Proof. repeat split; unfold vdot; cbn; lra. Qed.
Example frame_surface : frame (V3 0 1 0) (V3 0 0 1) (V3 1 0 0).
Proof. repeat split; unfold vdot; cbn; lra. Qed.
Example enclosed_values : enclosed 2 1 7 = 7 /\ enclosed 2 (- 3) 7 = 0.
Proof. split; [apply enclosed_in|apply enclosed_out]; unfold Rabs; destruct (Rcase_abs _); lra. Qed.
Example C114_witness_gravity : let s := PM 5 (V3 4 0 (- 3)) in
  pm_loc s = along vzero 5 (V3 (4 / 5) 0 (- 3 / 5)) /\ Rabs 5 <> 2 /\ Rabs 5 <> 6.
Proof. cbn. split; [apply vec3_eq; cbn; lra|]. rewrite Rabs_pos_eq by lra. split; lra. Qed.
Example C114_witness_sphere : let s := GS 1 2 (V3 4 0 (- 3)) in
  gs_loc s = along vzero 5 (V3 (4 / 5) 0 (- 3 / 5)) /\ 2 + gs_radius s < Rabs 5 /\ Rabs 5 + gs_radius s < 7.
Proof. cbn. split; [apply vec3_eq; cbn; lra|]. rewrite Rabs_pos_eq by lra. split; lra. Qed.
Example C114_witness_wire : let s := LC [V3 0 0 1; V3 3 1 7; V3 0 0 5] 2 (1 / 100) 1 in
  (2 <= List.length (lc_nodes s))%nat /\ lc_sigma s <> 0 /\ last_node s = along (V3 0 0 4) 1 (V3 0 0 1) /\ first_node s = along (V3 0 0 4) (- 3) (V3 0 0 1).
Proof. cbn. split; [lia|]. split; [lra|]. split; apply vec3_eq; cbn; lra. Qed.
Example C114_witness_ground : let s := HS 100 2 (V3 1 2 (- 3)) in hs_rho s <> 0 /\ vz (hs_loc s) <= 0 /\ - vz (hs_loc s) <> 5.
Proof. cbn. repeat split; lra. Qed.
Example C114_witness_pair : let s := DHS 100 2 (V3 0 2 0) (V3 4 2 0) in
  dh_a s = along (V3 0 2 0) 0 (V3 1 0 0) /\ dh_b s = along (V3 0 2 0) 4 (V3 1 0 0) /\ Rabs 0 < 1 /\ 1 < Rabs 4.
Proof. cbn. split; [apply vec3_eq; cbn; lra|]. split; [apply vec3_eq; cbn; lra|]. rewrite !Rabs_pos_eq by lra. split; lra. Qed.
Example C114_witness_direction : proper_direction (V3 0 0 1) /\ vcross (V3 0 0 1) (vsub (V3 2 0 5) vzero) <> vzero.
Proof.
  split.
  - split; [unfold vdot; cbn; lra|]. left. apply Rle_trans with 1; [|right; symmetry; apply vnorm_unique; [lra|]; unfold vnorm2, vcross; cbn; lra].
    rewrite <- Rinv_1. apply Rinv_le_contravar; [lra|]. apply pow_R1_Rle. lra.
  - intro E. unfold vcross, vsub, vzero in E; cbn in E. apply V3_inj in E. lra.
Qed.
Example C114_witness_loop : proper_axis (V3 0 0 1).
Proof.
  split; [apply vnorm_unique; [lra|]; unfold vnorm2; cbn; lra|]. right. unfold vcross, vzero; cbn. f_equal; ring.
Qed.
Print Assumptions C114_gauss_law_of_a_point_mass.
Print Assumptions C114_gauss_law_inside_a_sphere.
Print Assumptions C114_gauss_law_outside_a_sphere.
Print Assumptions C114_current_of_an_electrode.
Print Assumptions C114_current_of_a_wire.
Print Assumptions C114_current_into_the_ground.
Print Assumptions C114_current_of_an_electrode_pair.
Print Assumptions C114_flux_of_a_magnetic_dipole.
Print Assumptions C114_flux_of_a_magnetic_pole.
Print Assumptions C114_no_net_charge_of_a_sphere.
Print Assumptions C114_ampere_law_on_the_axis_of_a_loop.
Print Assumptions C114_long_straight_wire.
