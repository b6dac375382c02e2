(** C122: the same inverse-square law seen through the gravity, magnetic and resistivity classes. *)
From Coq Require Import Reals Lra String List.
From Coquelicot Require Import Coquelicot.
From Verif Require Import Vec3 Calculus Deriv Numpy Model_Prism Spec_Prism Model_Gravity Model_Static Spec_Static Proof_Static Proof_Sphere Proof_Jump Proof_Prism4.
Import ListNotations.
Open Scope R_scope.

(** Poisson's relation: the magnetic prism is the gravity prism of any density [rho], differentiated
    once along the magnetization, at every point (faces and edges included) *)
Theorem C122_prism_poisson_relation G b rho m p : G * rho <> 0 ->
  scalar_potential b m p = vdot m (gravitational_field G b rho p) / (4 * PI * G * rho) /\
  magnetic_field b m p = vscal (1 / (4 * PI * G * rho)) (mvec (gravitational_gradient G b rho p) m).
Proof.
  intros N. pose proof PI_RGT_0. assert (G <> 0) by (intros ->; apply N; ring). assert (rho <> 0) by (intros ->; apply N; ring). split.
  - unfold scalar_potential, gravitational_field, vdot, vscal; cbv zeta; cbn [vx vy vz]. field. repeat split; assumption || lra.
  - rewrite grav_T6, mag_T6. unfold mvec, mscal, vscal, vdot; cbn [m0 m1 m2 vx vy vz]. f_equal; field; repeat split; assumption || lra.
Qed.

(** the same for a point: a dipole is a point mass differentiated along its orientation, a pole and an
    electrode are point masses *)
Lemma off_norm p loc : p <> loc -> 0 < vnorm (vsub p loc).
Proof. intros N. apply vnorm_pos. intros H. apply N. destruct p as [a b c], loc as [x y z]. unfold vsub, vzero in H; cbn in H. injection H as A B C. f_equal; lra. Qed.
Theorem C122_dipole_is_gradient_of_mass M o loc mu mass p : p <> loc -> mu <> 0 -> mass <> 0 ->
  mdipole_field (MD M o loc mu) "cartesian" p = Ok (vscal (M / (4 * PI * G_newton * mass)) (mvec (pm_gradient (PM mass loc) p) o)).
Proof.
  intros N U W. pose proof (off_norm p loc N) as Rp. pose proof PI_RGT_0. assert (G_newton <> 0) by (unfold G_newton; lra).
  change (mdipole_field (MD M o loc mu) "cartesian" p) with (Ok (vdiv (md_B (MD M o loc mu) p) mu)). f_equal. unfold md_B, pm_gradient. cbn [md_loc md_mu md_moment md_orient pm_loc pm_mass].
  set (r := vnorm (vsub p loc)) in *. destruct (vsub p loc) as [a b c], o as [x y z]. unfold vdiv, vscal, vsub, mvec, vdot; cbn [m0 m1 m2 vx vy vz]. f_equal; field; repeat split; assumption || lra.
Qed.
Theorem C122_pole_and_electrode_are_masses M o loc mu rho I mass p : p <> loc -> mu <> 0 -> mass <> 0 -> rho <> 0 ->
  mpole_field (MD M o loc mu) "cartesian" p = Ok (vscal (- M / (4 * PI * G_newton * mass)) (pm_field (PM mass loc) p)) /\
  pc_potential (point_current rho I loc) p = rho * I / (4 * PI * G_newton * mass) * pm_potential (PM mass loc) p /\
  pc_current_density (point_current rho I loc) p = vscal (- I / (4 * PI * G_newton * mass)) (pm_field (PM mass loc) p).
Proof.
  intros N U W Q. pose proof (off_norm p loc N) as Rp. pose proof PI_RGT_0. assert (G_newton <> 0) by (unfold G_newton; lra).
  split; [|split].
  - change (mpole_field (MD M o loc mu) "cartesian" p) with (Ok (vdiv (mp_B (MD M o loc mu) p) mu)). f_equal. unfold mp_B, pm_field. cbn [md_loc md_mu md_moment md_orient pm_loc pm_mass].
    set (r := vnorm (vsub p loc)) in *. destruct (vsub p loc) as [a b c]. unfold vdiv, vscal; cbn [vx vy vz]. f_equal; field; repeat split; assumption || lra.
  - unfold pc_potential, lc_scalar_potential, point_current, pm_potential, n_segments, first_node. cbn [lc_nodes lc_current lc_sigma List.length Nat.pred Nat.eqb hd pm_loc pm_mass].
    set (r := vnorm (vsub p loc)) in *. field. repeat split; assumption || lra.
  - unfold pc_current_density, lc_current_density, lc_electric_field, point_current, pm_field, n_segments, first_node. cbn [lc_nodes lc_current lc_sigma List.length Nat.pred Nat.eqb hd pm_loc pm_mass].
    set (r := vnorm (vsub p loc)) in *. destruct (vsub p loc) as [a b c]. unfold vdiv, vscal; cbn [vx vy vz]. f_equal; field; repeat split; assumption || lra.
Qed.

(** outside a sphere in a uniform field F0 = a o the secondary potential is that of a point dipole of
    moment 4 pi k R^3 a at its centre, and the total field derived from the potential is the primary
    field plus the field the dipole class returns *)
Theorem C122_sphere_is_a_dipole s a o mass mu p : valid_sphere s -> sp_radius s < vnorm (vsub p (sp_loc s)) -> sp_F0 s = vscal a o -> mass <> 0 -> mu <> 0 ->
  let k := (sp_c1 s - sp_c0 s) / (sp_c1 s + 2 * sp_c0 s) in
  sphere_potential s [p] "secondary" = Ok (One [- (k * sp_radius s ^ 3 * a) / (G_newton * mass) * vdot o (pm_field (PM mass (sp_loc s)) p)]) /\
  exists Hd, mdipole_field (MD (4 * PI * k * sp_radius s ^ 3 * a) o (sp_loc s) mu) "cartesian" p = Ok Hd /\ is_grad (tV s) p (vopp (vadd (sp_F0 s) Hd)).
Proof.
  intros V O E W U k. assert (R0 : 0 < sp_radius s) by apply V. set (v := vsub p (sp_loc s)) in *. set (r := vnorm v) in *.
  assert (Rp : 0 < r) by lra. pose proof PI_RGT_0. assert (G_newton <> 0) by (unfold G_newton; lra). assert (D : sp_c1 s + 2 * sp_c0 s <> 0) by (unfold valid_sphere in V; lra). split.
  - destruct (sphere_potential_modes s [p]) as (_ & _ & Hs & _). rewrite Hs. cbn [map]. do 3 f_equal. rewrite (sp_V_out s p O). unfold sp_prim, pm_field, sp_cur. cbn [pm_loc pm_mass]. fold v r. rewrite E. fold k.
    destruct v as [x y z], o as [o1 o2 o3]. unfold vdot, vopp, vscal; cbn [vx vy vz]. fold k. field. repeat split; assumption || lra.
  - eexists. split; [reflexivity|]. pose proof (sphere_outside_true s p V O) as T. cbv zeta in T. fold v r k in T.
    eapply is_grad_eq; [|exact T]. unfold md_B. cbn [md_loc md_mu md_moment md_orient]. fold v r. rewrite E. destruct v as [x y z], o as [o1 o2 o3].
    unfold vopp, vadd, vdiv, vscal, vsub, vdot; cbn [vx vy vz]. f_equal; field; repeat split; assumption || lra.
Qed.

Example C122_witness : (1 * 2 <> 0) /\ V3 3 0 0 <> V3 0 0 0 /\ (let s := SP 2 2 1 (V3 1 0 0) vzero in valid_sphere s /\ sp_radius s < vnorm (vsub (V3 3 0 0) (sp_loc s)) /\ sp_F0 s = vscal 1 (V3 1 0 0)).
Proof.
  split; [lra|]. split; [intro H; apply (f_equal vx) in H; cbn in H; lra|]. destruct sphere_outside_refuted as [A [B C]]. cbv zeta. split; [exact A|split; [exact B|]]. unfold vscal; cbn. f_equal; ring.
Qed.
Print Assumptions C122_prism_poisson_relation.
Print Assumptions C122_dipole_is_gradient_of_mass.
Print Assumptions C122_pole_and_electrode_are_masses.
Print Assumptions C122_sphere_is_a_dipole.
