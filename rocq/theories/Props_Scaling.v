(** C97: similitude.  When every length is multiplied by [a] and the medium is adapted so that the
    dimensionless numbers of the problem stay the same, each field is multiplied by the power of [a] its
    physical dimension dictates. *)
From Coq Require Import Reals Lra String List.
From Coquelicot Require Import Coquelicot.
From Verif Require Import Vec3 Cplx Numpy Model_Static Model_Gravity Model_Prism Model_FDEM Model_TDEM Model_RTE Model_Layered
  Spec_Static Spec_Loop Spec_Scaling Proof_Scaling Proof_Scaling2 Proof_Scaling3 Proof_Scaling4 Proof_Scaling5 Proof_Scaling6.
Import ListNotations.
Open Scope R_scope.

(** ** Harmonic sources *)
(** lengths doubled, a quarter of the frequency: with and without displacement currents *)
Example media_similar : same_induction 2 (FD 4 (1/10) 1 3 PyTrue) (FD 1 (1/10) 1 5 PyTrue) /\
  same_induction 2 (FD 4 (1/10) 1 3 PyFalse) (FD 2 (1/20) 1 3 PyFalse).
Proof. repeat split; cbn; try lra; try (intros; lra); intros H; exfalso; now apply H. Qed.

Theorem C97_electric_dipole : forall a m m' I l o c p, 0 < a -> same_induction a m m' -> fd_sigma m' <> 0 -> fd_sigma m <> 0 ->
  let s := ED m I l o c in let s' := ED m' I l o (vscal a c) in
  ed_A s' (vscal a p) = cvscal (RtoC (/ a)) (ed_A s p) /\
  ed_E s' (vscal a p) = cvscal (RtoC (fd_sigma m / fd_sigma m' / a ^ 3)) (ed_E s p) /\
  ed_J s' (vscal a p) = cvscal (RtoC (/ a ^ 3)) (ed_J s p) /\
  ed_H s' (vscal a p) = cvscal (RtoC (/ a ^ 2)) (ed_H s p) /\
  ed_B s' (vscal a p) = cvscal (RtoC (fd_mu m' / a ^ 2)) (ed_H s p).
Proof. intros a m m' I l o c p A. exact (ed_scale a A m m' I l o c p). Qed.

Theorem C97_magnetic_dipole : forall a m m' mom o c p, 0 < a -> same_induction a m m' -> fd_freq m * fd_mu m <> 0 ->
  let s := MDF m mom o c in let s' := MDF m' mom o (vscal a c) in
  let w := fd_freq m' * fd_mu m' / (fd_freq m * fd_mu m) in
  mf_A s' (vscal a p) = cvscal (RtoC (w / a)) (mf_A s p) /\
  mf_E s' (vscal a p) = cvscal (RtoC (w / a ^ 2)) (mf_E s p) /\
  mf_J s' (vscal a p) = cvscal (RtoC (fd_sigma m' * w / a ^ 2)) (mf_E s p) /\
  mf_H s' (vscal a p) = cvscal (RtoC (/ a ^ 3)) (mf_H s p) /\
  mf_B s' (vscal a p) = cvscal (RtoC (fd_mu m' / a ^ 3)) (mf_H s p).
Proof. intros a m m' mom o c p A. exact (mf_scale a A m m' mom o c p). Qed.

Theorem C97_plane_wave : forall a m m' E0 o p, 0 < a -> same_induction a m m' -> fd_freq m <> 0 -> fd_freq m' <> 0 ->
  pw_E (PW m' E0 o) (vscal a p) = pw_E (PW m E0 o) p /\
  pw_B (PW m' E0 o) (vscal a p) = cvscal (RtoC (fd_freq m / fd_freq m' / a)) (pw_B (PW m E0 o) p).
Proof. intros a m m' E0 o p A. exact (pw_scale a A m m' E0 o p). Qed.

(** scipy's Bessel functions are arbitrary functions here *)
Theorem C97_dipole_on_half_space : forall iv kv mu_0 a m m' mo o c p secondary, 0 < a ->
  same_induction a m m' -> fd_mu m' = fd_mu m -> fd_mu m <> 0 ->
  mh_k mu_0 (MH m' mo o (vscal a c)) <> RtoC 0 -> (vx p <> vx c \/ vy p <> vy c) ->
  mh_H iv kv mu_0 (MH m' mo o (vscal a c)) secondary (vscal a p) =
  cvscal (RtoC (/ a ^ 3)) (mh_H iv kv mu_0 (MH m mo o c) secondary p).
Proof. intros iv kv mu_0 a m m' mo o c p secondary A. exact (mh_scale a A iv kv mu_0 m m' mo o c p secondary). Qed.
(** the wavenumber of a conducting half-space is not zero *)
Example half_space_meets : mh_k 1 (MH (FD 1 1 1 5 PyTrue) 1 (V3 0 0 1) (vscal 2 (V3 1 2 3))) <> RtoC 0.
Proof.
  intros E. pose proof (csqrt_sq (- Ci * RtoC (2 * PI * 1) * RtoC 1 * fd_sigma_hat (FD 1 1 1 5 PyTrue))%C) as S. unfold mh_k in E. cbn [mh_med fd_freq] in E.
  rewrite E in S. apply (f_equal snd) in S. cbn in S. pose proof PI_RGT_0. lra.
Qed.

Theorem C97_harmonic_loop : forall a f sg mu f' sg' mu' r I n secondary, 0 < a -> a ^ 2 * (f' * mu' * sg') = f * mu * sg ->
  loop_hz f' sg' mu' (a * r) I n secondary = (RtoC (/ a) * loop_hz f sg mu r I n secondary)%C.
Proof. intros a f sg mu f' sg' mu' r I n secondary A. exact (floop_scale a A f sg mu f' sg' mu' r I n secondary). Qed.

(** ** Transient sources *)
Example media_diffusion : same_diffusion 2 (TD 1 (1/10) 1) (TD 4 (1/10) 1) /\ same_diffusion 3 (TD 1 9 1) (TD 1 1 1).
Proof. repeat split; cbn; lra. Qed.

Theorem C97_transient_electric_dipole : forall a m m' I l o c p, 0 < a -> same_diffusion a m m' -> p <> c ->
  let s := TED m I l o c in let s' := TED m' I l o (vscal a c) in
  te_A s' (vscal a p) = vscal (/ a) (te_A s p) /\
  te_E s' (vscal a p) = vscal (td_sigma m / td_sigma m' / a ^ 3) (te_E s p) /\
  te_J s' (vscal a p) = vscal (/ a ^ 3) (te_J s p) /\
  te_H s' (vscal a p) = vscal (/ a ^ 2) (te_H s p) /\
  te_B s' (vscal a p) = vscal (td_mu m' / a ^ 2) (te_H s p) /\
  te_dH s' (vscal a p) = vscal (td_time m / td_time m' / a ^ 2) (te_dH s p) /\
  te_dB s' (vscal a p) = vscal (td_mu m' * (td_time m / td_time m') / a ^ 2) (te_dH s p).
Proof. intros a m m' I l o c p A. exact (te_scale a A m m' I l o c p). Qed.

Theorem C97_transient_plane_wave : forall a m m' E0 o p, 0 < a -> same_diffusion a m m' ->
  tp_E (TPW m' E0 o) (vscal a p) = vscal (td_time m / td_time m') (tp_E (TPW m E0 o) p) /\
  tp_B (TPW m' E0 o) (vscal a p) = vscal (/ a) (tp_B (TPW m E0 o) p).
Proof. intros a m m' E0 o p A. exact (tp_scale a A m m' E0 o p). Qed.

Theorem C97_transient_loop : forall a m m' r I n, 0 < a -> same_diffusion a m m' -> 0 < r ->
  tloop_hz (td_time m') (td_sigma m') (td_mu m') (a * r) I n = / a * tloop_hz (td_time m) (td_sigma m) (td_mu m) r I n /\
  tloop_dbz (td_time m') (td_sigma m') (td_mu m') (a * r) I n =
    td_sigma m / td_sigma m' / a ^ 3 * tloop_dbz (td_time m) (td_sigma m) (td_mu m) r I n.
Proof. intros a m m' r I n A. exact (tloop_scale a A m m' r I n). Qed.

Theorem C97_transient_dipole_on_half_space : forall a m m' mo c x y z, 0 < a -> same_diffusion a m m' -> x <> vx c \/ y <> vy c ->
  let s := TV m mo c in let s' := TV m' mo (vscal a c) in let row := [x; y; z] in let row' := [a * x; a * y; a * z] in
  tv_H s' row' = rmap (vscal (/ a ^ 3)) (tv_H s row) /\
  tv_B s' row' = rmap (vscal (td_mu m' / a ^ 3)) (tv_H s row) /\
  tv_dH s' row' = rmap (vscal (td_time m / td_time m' / a ^ 3)) (tv_dH s row) /\
  tv_dB s' row' = rmap (vscal (td_mu m' * (td_time m / td_time m') / a ^ 3)) (tv_dH s row).
Proof. exact tv_scale. Qed.

(** ** Static sources *)
Theorem C97_static_dipole_and_pole : forall a m o c mu p, 0 < a ->
  md_A (MD m o (vscal a c) mu) (vscal a p) = vscal (/ a ^ 2) (md_A (MD m o c mu) p) /\
  md_B (MD m o (vscal a c) mu) (vscal a p) = vscal (/ a ^ 3) (md_B (MD m o c mu) p) /\
  mp_B (MD m o (vscal a c) mu) (vscal a p) = vscal (/ a ^ 2) (mp_B (MD m o c mu) p).
Proof. intros a m o c mu p A. exact (md_scale a A m o c mu p). Qed.

Theorem C97_loop_flux_density : forall a r I o c mu p, 0 < a ->
  loop_flux_density (CL (a * r) I o (vscal a c) mu) "cartesian" (vscal a p) =
  rmap (vscal (/ a)) (loop_flux_density (CL r I o c mu) "cartesian" p).
Proof. intros a r I o c mu p A. exact (loop_B_scale a A r I o c mu p). Qed.

(** outside the thin cone around the axis in which the code uses a series *)
Theorem C97_loop_vector_potential : forall a r I o c mu p, 0 < a -> proper_axis o ->
  1 / 10 ^ 6 <= axis_distance o c p ^ 2 / (r ^ 2 + axis_height o c p ^ 2) ->
  loop_vector_potential (CL (a * r) I o (vscal a c) mu) "cartesian" (vscal a p) =
  loop_vector_potential (CL r I o c mu) "cartesian" p.
Proof.
  intros a r I o c mu p A PA S. apply (loop_A_scale a A); [exact PA|]. unfold small_rho, Rltb. destruct (Rlt_dec _ _); [lra|reflexivity].
Qed.

(** inside the cone the second term of the series has the wrong dimension: the potential changes with the unit
    of length at every point off the axis *)
Theorem C97_loop_vector_potential_near_axis_refuted : forall a r I o c mu p, 0 < a -> a <> 1 -> 0 < r -> mu * I <> 0 -> proper_axis o ->
  axis_distance o c p ^ 2 / (r ^ 2 + axis_height o c p ^ 2) < 1 / 10 ^ 6 -> axis_distance o c p <> 0 -> r ^ 2 <> 4 * axis_height o c p ^ 2 ->
  loop_vector_potential (CL (a * r) I o (vscal a c) mu) "cartesian" (vscal a p) <>
  loop_vector_potential (CL r I o c mu) "cartesian" p.
Proof.
  intros a r I o c mu p A A1 R0 IM PA S. apply near_axis_A; try assumption. unfold small_rho, Rltb. destruct (Rlt_dec _ _); [reflexivity|contradiction].
Qed.
Example near_axis_meets : let o := V3 0 0 1 in let c := V3 0 0 0 in let p := V3 (1 / 2000) 0 0 in
  proper_axis o /\ axis_distance o c p ^ 2 / (1 ^ 2 + axis_height o c p ^ 2) < 1 / 10 ^ 6 /\ axis_distance o c p <> 0 /\ 1 ^ 2 <> 4 * axis_height o c p ^ 2.
Proof.
  cbv zeta. assert (D : axis_distance (V3 0 0 1) (V3 0 0 0) (V3 (1 / 2000) 0 0) = 1 / 2000).
  { unfold axis_distance. apply vnorm_unique; [lra|]. vunf. field. }
  assert (H : axis_height (V3 0 0 1) (V3 0 0 0) (V3 (1 / 2000) 0 0) = 0) by (unfold axis_height; vunf; ring). rewrite D, H.
  split; [|lra]. split; [apply vnorm_unique; [lra|]; vunf; ring|right; vring].
Qed.

Theorem C97_wire : forall a nodes I sg mu x, 0 < a ->
  lc_scalar_potential (LC (map (vscal a) nodes) I sg mu) (vscal a x) = / a * lc_scalar_potential (LC nodes I sg mu) x /\
  lc_electric_field (LC (map (vscal a) nodes) I sg mu) (vscal a x) = vscal (/ a ^ 2) (lc_electric_field (LC nodes I sg mu) x) /\
  lc_current_density (LC (map (vscal a) nodes) I sg mu) (vscal a x) = vscal (/ a ^ 2) (lc_current_density (LC nodes I sg mu) x) /\
  (every_segment proper_segment nodes ->
   lc_flux_density (LC (map (vscal a) nodes) I sg mu) (vscal a x) = rmap (option_map (vscal (/ a))) (lc_flux_density (LC nodes I sg mu) x)) /\
  (every_segment proper_segment nodes -> every_segment (off_segment x) nodes ->
   lc_vector_potential (LC (map (vscal a) nodes) I sg mu) (vscal a x) = lc_vector_potential (LC nodes I sg mu) x).
Proof.
  intros a nodes I sg mu x A. exact (conj (pot_scale a A nodes I sg mu x) (conj (elec_scale a A nodes I sg mu x) (conj (cden_scale a A nodes I sg mu x)
    (conj (wire_B_scale a A nodes I sg mu x) (wire_A_scale a A nodes I sg mu x))))).
Qed.

Theorem C97_electrodes : forall a rho I c d pts m n, 0 < a ->
  hs_potential (HS rho I (vscal a c)) (map (vscal a) pts) = rmap (map (Rmult (/ a))) (hs_potential (HS rho I c) pts) /\
  hs_electric_field (HS rho I (vscal a c)) (map (vscal a) pts) = rmap (map (vscal (/ a ^ 2))) (hs_electric_field (HS rho I c) pts) /\
  hs_current_density (HS rho I (vscal a c)) (map (vscal a) pts) = rmap (map (vscal (/ a ^ 2))) (hs_current_density (HS rho I c) pts) /\
  let s := DHS rho I c d in let s' := DHS rho I (vscal a c) (vscal a d) in let m' := map (vscal a) m in let n' := option_map (map (vscal a)) n in
  dh_potential s' m' n' = rmap (map (Rmult (/ a))) (dh_potential s m n) /\
  dh_electric_field s' m' n' = rmap (map (vscal (/ a ^ 2))) (dh_electric_field s m n) /\
  dh_current_density s' m' n' = rmap (map (vscal (/ a ^ 2))) (dh_current_density s m n).
Proof.
  intros a rho I c d pts m n A. cbv zeta. exact (conj (hs_pot_scale a A rho I c pts) (conj (hs_el_scale a A rho I c pts) (conj (hs_cd_scale a A rho I c pts)
    (conj (dh_pot_scale a A rho I c d m n) (conj (dh_el_scale a A rho I c d m n) (dh_cd_scale a A rho I c d m n)))))).
Qed.

(** sphere in a uniform field: the potentials and the charge scale *)
Theorem C97_sphere_potential_and_charge : forall a eps0 r c1 c0 F c pts field dr, 0 < a ->
  sphere_potential (SP (a * r) c1 c0 F (vscal a c)) (map (vscal a) pts) field = rmap (fields_map (Rmult a)) (sphere_potential (SP r c1 c0 F c) pts field) /\
  charge_density eps0 (SP (a * r) c1 c0 F (vscal a c)) (map (vscal a) pts) (option_map (Rmult a) dr) = charge_density eps0 (SP r c1 c0 F c) pts dr.
Proof. intros a eps0 r c1 c0 F c pts field dr A. exact (conj (sphere_pot_scale a A r c1 c0 F c pts field) (charge_scale a A eps0 r c1 c0 F c pts dr)). Qed.

(** but the field outside the sphere changes with the unit of length *)
Theorem C97_sphere_field_refuted : forall a r c1 c0 F c p, 0 < a -> a <> 1 -> 0 < r -> r < vnorm (vsub p c) ->
  (c1 - c0) / (c1 + 2 * c0) <> 0 -> vdot (vsub p c) F <> 0 ->
  sp_total_field (SP (a * r) c1 c0 F (vscal a c)) [vscal a p] <> sp_total_field (SP r c1 c0 F c) [p].
Proof. exact sphere_E_unit. Qed.
Example sphere_meets : 1 < vnorm (vsub (V3 2 0 0) (V3 0 0 0)) /\ (2 - 1) / (2 + 2 * 1) <> 0 /\ vdot (vsub (V3 2 0 0) (V3 0 0 0)) (V3 1 0 0) <> 0.
Proof. rewrite (vnorm_unique _ 2) by (vunf; lra). vunf. lra. Qed.

(** ** Gravity; the sphere and the prism keep their density *)
Theorem C97_point_mass : forall a m c p, 0 < a ->
  pm_potential (PM m (vscal a c)) (vscal a p) = / a * pm_potential (PM m c) p /\
  pm_field (PM m (vscal a c)) (vscal a p) = vscal (/ a ^ 2) (pm_field (PM m c) p) /\
  pm_gradient (PM m (vscal a c)) (vscal a p) = mscal (/ a ^ 3) (pm_gradient (PM m c) p).
Proof. intros a m c p A. exact (pm_scale a A m c p). Qed.

Theorem C97_gravity_sphere : forall a r rho c pts, 0 < a ->
  gs_potential_grid (Model_Gravity.GS (a * r) rho (vscal a c)) (map (vscal a) pts) = rmap (map (Rmult (a ^ 2))) (gs_potential_grid (Model_Gravity.GS r rho c) pts) /\
  gs_field_grid (Model_Gravity.GS (a * r) rho (vscal a c)) (map (vscal a) pts) = rmap (map (vscal a)) (gs_field_grid (Model_Gravity.GS r rho c) pts) /\
  gs_gradient_grid (Model_Gravity.GS (a * r) rho (vscal a c)) (map (vscal a) pts) = gs_gradient_grid (Model_Gravity.GS r rho c) pts.
Proof. intros a r rho c pts A. exact (gs_scale a A r rho c pts). Qed.

Theorem C97_gravity_prism : forall a G b rho p, 0 < a ->
  gravitational_potential G (scale_box a b) rho (vscal a p) = a ^ 2 * gravitational_potential G b rho p /\
  gravitational_field G (scale_box a b) rho (vscal a p) = vscal a (gravitational_field G b rho p) /\
  (proper_box b -> ~ on_an_edge (b_min b) (b_max b) p ->
   gravitational_gradient G (scale_box a b) rho (vscal a p) = gravitational_gradient G b rho p).
Proof. intros a G b rho p A. exact (grav_prism_scale a A G b rho p). Qed.

Theorem C97_magnetic_prism : forall a mu_0 b m p pts, 0 < a ->
  scalar_potential (scale_box a b) m (vscal a p) = a * scalar_potential b m p /\
  (proper_box b -> ~ on_an_edge (b_min b) (b_max b) p -> Model_Prism.magnetic_field (scale_box a b) m (vscal a p) = Model_Prism.magnetic_field b m p) /\
  magnetic_field_gradient (scale_box a b) m (vscal a p) = mscal (/ a) (magnetic_field_gradient b m p) /\
  (proper_box b -> (forall q, In q pts -> ~ on_an_edge (b_min b) (b_max b) q) ->
   magnetic_flux_density mu_0 (scale_box a b) m (map (vscal a) pts) = magnetic_flux_density mu_0 b m pts).
Proof.
  intros a mu_0 b m p pts A. destruct (mag_prism_scale a A b m p) as (S & H & G). exact (conj S (conj H (conj G (mag_flux_scale a A mu_0 b m pts)))).
Qed.
(** a corner line extended beyond the box, a face and an interior point are not on an edge *)
Example off_edges : proper_box (Box (V3 0 0 0) (V3 1 2 3)) /\ ~ on_an_edge (V3 0 0 0) (V3 1 2 3) (V3 0 0 7) /\
  ~ on_an_edge (V3 0 0 0) (V3 1 2 3) (V3 0 1 1) /\ ~ on_an_edge (V3 0 0 0) (V3 1 2 3) (V3 (1/2) 1 1).
Proof. unfold proper_box, on_an_edge. cbn. repeat split; lra. Qed.

(** on an edge the true gradient is infinite and the returned number depends on the unit of length *)
Theorem C97_prism_on_edge_refuted : ~ (forall a G b rho p, 0 < a -> proper_box b ->
  gravitational_gradient G (scale_box a b) rho (vscal a p) = gravitational_gradient G b rho p).
Proof.
  intros H. apply edge_unit_dependent. cbv zeta. rewrite H; [reflexivity|lra|]. unfold proper_box. cbn. lra.
Qed.

(** ** Layered half-space *)
Theorem C97_reflection_coefficient : forall a s mu_0 f la sg mu h, 0 < a -> 0 < s ->
  py_rTE mu_0 (f / (a ^ 2 * s)) (la / a) (map (Cmult (RtoC s)) sg) mu (map (Rmult a) h) = py_rTE mu_0 f la sg mu h.
Proof. intros a s mu_0 f la sg mu h A S. exact (rTE_scale a s A S mu_0 f la sg mu h). Qed.

(** for any Hankel filter; errors and undefined entries are the same.  With displacement currents the conductivities
    must be divided by [a]; then the frequency is divided by [a] too and the permittivities stay. *)
Theorem C97_layered_dipole : forall a s mu_0 flt o xyz field, 0 < a -> 0 < s -> ly_quasistatic o = true \/ s = / a ->
  Model_Layered.magnetic_field mu_0 flt (scale_layered a s o) (map (vscal a) xyz) field =
  rmap (map (map (option_map (cvscal (RtoC (/ a ^ 3)))))) (Model_Layered.magnetic_field mu_0 flt o xyz field).
Proof. intros a s mu_0 flt o xyz field A S. exact (layered_scale a s A S mu_0 flt o xyz field). Qed.
Example layered_meets : exists r, Model_Layered.magnetic_field 1 (HF [1; 2] [1; 0] [0; 1])
  (LY [10] [3] (P1 [RtoC 1; RtoC 2]) (P1 [RtoC 1; RtoC 1]) (P1 [RtoC 1; RtoC 1]) false (V3 0 0 1) (V3 0 0 1) 1) [V3 4 0 0; V3 0 0 2] "total" = Ok r.
Proof.
  eexists. unfold Model_Layered.magnetic_field, Rltb. cbn [existsb vz]. destruct (Rlt_dec 0 0); [lra|]. destruct (Rlt_dec 2 0); [lra|]. cbn [orb]. reflexivity.
Qed.
Print Assumptions C97_electric_dipole.
Print Assumptions C97_magnetic_dipole.
Print Assumptions C97_plane_wave.
Print Assumptions C97_dipole_on_half_space.
Print Assumptions C97_harmonic_loop.
Print Assumptions C97_transient_electric_dipole.
Print Assumptions C97_transient_plane_wave.
Print Assumptions C97_transient_loop.
Print Assumptions C97_transient_dipole_on_half_space.
Print Assumptions C97_static_dipole_and_pole.
Print Assumptions C97_loop_flux_density.
Print Assumptions C97_loop_vector_potential.
Print Assumptions C97_loop_vector_potential_near_axis_refuted.
Print Assumptions C97_wire.
Print Assumptions C97_electrodes.
Print Assumptions C97_sphere_potential_and_charge.
Print Assumptions C97_sphere_field_refuted.
Print Assumptions C97_point_mass.
Print Assumptions C97_gravity_sphere.
Print Assumptions C97_gravity_prism.
Print Assumptions C97_magnetic_prism.
Print Assumptions C97_prism_on_edge_refuted.
Print Assumptions C97_reflection_coefficient.
Print Assumptions C97_layered_dipole.
