(** C96: the fields are linear in the strength of the source. *)
From Coq Require Import Reals Lra List String.
From Coquelicot Require Import Coquelicot.
From Verif Require Import Vec3 Cplx Numpy Model_Static Model_Gravity Model_FDEM Model_TDEM Model_Prism Spec_FDEM Spec_Linear
  Proof_Linear Proof_Linear2 Proof_Reciprocity2.
Import ListNotations.
Open Scope R_scope.

(** ** Sources with a direction: a source whose moment vector is a m1 + b m2 has the field a F1 + b F2;
    in particular the field depends on strength and direction only through their product *)
Theorem C96_harmonic_electric_dipole med c p a b I l o I1 l1 o1 I2 l2 o2 : vscal (I * l) o = vcomb a b (vscal (I1 * l1) o1) (vscal (I2 * l2) o2) ->
  let s := ED med I l o c in let s1 := ED med I1 l1 o1 c in let s2 := ED med I2 l2 o2 c in
  ed_A s p = ccomb a b (ed_A s1 p) (ed_A s2 p) /\ ed_E s p = ccomb a b (ed_E s1 p) (ed_E s2 p) /\ ed_J s p = ccomb a b (ed_J s1 p) (ed_J s2 p) /\
  ed_H s p = ccomb a b (ed_H s1 p) (ed_H s2 p) /\ ed_B s p = ccomb a b (ed_B s1 p) (ed_B s2 p).
Proof. exact (ed_linear med c p a b I l o I1 l1 o1 I2 l2 o2). Qed.

Theorem C96_harmonic_magnetic_dipole med c p a b m o m1 o1 m2 o2 : vscal m o = vcomb a b (vscal m1 o1) (vscal m2 o2) ->
  let s := MDF med m o c in let s1 := MDF med m1 o1 c in let s2 := MDF med m2 o2 c in
  mf_A s p = ccomb a b (mf_A s1 p) (mf_A s2 p) /\ mf_E s p = ccomb a b (mf_E s1 p) (mf_E s2 p) /\ mf_J s p = ccomb a b (mf_J s1 p) (mf_J s2 p) /\
  mf_H s p = ccomb a b (mf_H s1 p) (mf_H s2 p) /\ mf_B s p = ccomb a b (mf_B s1 p) (mf_B s2 p).
Proof. exact (mf_linear med c p a b m o m1 o1 m2 o2). Qed.

Theorem C96_harmonic_plane_wave med p a b m o m1 o1 m2 o2 : vscal m o = vcomb a b (vscal m1 o1) (vscal m2 o2) ->
  let s := PW med m o in let s1 := PW med m1 o1 in let s2 := PW med m2 o2 in
  pw_E s p = ccomb a b (pw_E s1 p) (pw_E s2 p) /\ pw_J s p = ccomb a b (pw_J s1 p) (pw_J s2 p) /\
  pw_B s p = ccomb a b (pw_B s1 p) (pw_B s2 p) /\ pw_H s p = ccomb a b (pw_H s1 p) (pw_H s2 p).
Proof. exact (pw_linear med p a b m o m1 o1 m2 o2). Qed.

Theorem C96_transient_electric_dipole med c p a b I l o I1 l1 o1 I2 l2 o2 : vscal (I * l) o = vcomb a b (vscal (I1 * l1) o1) (vscal (I2 * l2) o2) ->
  let s := TED med I l o c in let s1 := TED med I1 l1 o1 c in let s2 := TED med I2 l2 o2 c in
  te_A s p = vcomb a b (te_A s1 p) (te_A s2 p) /\ te_E s p = vcomb a b (te_E s1 p) (te_E s2 p) /\ te_J s p = vcomb a b (te_J s1 p) (te_J s2 p) /\
  te_H s p = vcomb a b (te_H s1 p) (te_H s2 p) /\ te_B s p = vcomb a b (te_B s1 p) (te_B s2 p) /\
  te_dH s p = vcomb a b (te_dH s1 p) (te_dH s2 p) /\ te_dB s p = vcomb a b (te_dB s1 p) (te_dB s2 p).
Proof. exact (te_linear med c p a b I l o I1 l1 o1 I2 l2 o2). Qed.

Theorem C96_transient_plane_wave med p a b m o m1 o1 m2 o2 : vscal m o = vcomb a b (vscal m1 o1) (vscal m2 o2) ->
  let s := TPW med m o in let s1 := TPW med m1 o1 in let s2 := TPW med m2 o2 in
  tp_E s p = vcomb a b (tp_E s1 p) (tp_E s2 p) /\ tp_J s p = vcomb a b (tp_J s1 p) (tp_J s2 p) /\
  tp_B s p = vcomb a b (tp_B s1 p) (tp_B s2 p) /\ tp_H s p = vcomb a b (tp_H s1 p) (tp_H s2 p).
Proof. exact (tp_linear med p a b m o m1 o1 m2 o2). Qed.

Theorem C96_static_magnetic_dipole mu c p a b m o m1 o1 m2 o2 : vscal m o = vcomb a b (vscal m1 o1) (vscal m2 o2) ->
  let s := MD m o c mu in let s1 := MD m1 o1 c mu in let s2 := MD m2 o2 c mu in
  mdipole_vector_potential s "cartesian" p = rcomb a b (mdipole_vector_potential s1 "cartesian" p) (mdipole_vector_potential s2 "cartesian" p) /\
  mdipole_flux_density s "cartesian" p = rcomb a b (mdipole_flux_density s1 "cartesian" p) (mdipole_flux_density s2 "cartesian" p) /\
  mdipole_field s "cartesian" p = rcomb a b (mdipole_field s1 "cartesian" p) (mdipole_field s2 "cartesian" p).
Proof. exact (md_linear mu c p a b m o m1 o1 m2 o2). Qed.

Theorem C96_magnetic_pole mu o c p a b m1 m2 :
  let s m := MD m o c mu in
  mpole_flux_density (s (a * m1 + b * m2)) "cartesian" p = rcomb a b (mpole_flux_density (s m1) "cartesian" p) (mpole_flux_density (s m2) "cartesian" p) /\
  mpole_field (s (a * m1 + b * m2)) "cartesian" p = rcomb a b (mpole_field (s m1) "cartesian" p) (mpole_field (s m2) "cartesian" p).
Proof. exact (mp_linear mu o c p a b m1 m2). Qed.

Theorem C96_current_loop rad n c mu p a b I1 I2 :
  let s I := CL rad I n c mu in
  loop_vector_potential (s (a * I1 + b * I2)) "cartesian" p = rcomb a b (loop_vector_potential (s I1) "cartesian" p) (loop_vector_potential (s I2) "cartesian" p) /\
  loop_flux_density (s (a * I1 + b * I2)) "cartesian" p = rcomb a b (loop_flux_density (s I1) "cartesian" p) (loop_flux_density (s I2) "cartesian" p) /\
  loop_field (s (a * I1 + b * I2)) "cartesian" p = rcomb a b (loop_field (s I1) "cartesian" p) (loop_field (s I2) "cartesian" p).
Proof. exact (loop_linear rad n c mu p a b I1 I2). Qed.

Theorem C96_line_current nodes sig mu p a b I1 I2 :
  let s I := LC nodes I sig mu in let I := a * I1 + b * I2 in
  lc_scalar_potential (s I) p = a * lc_scalar_potential (s I1) p + b * lc_scalar_potential (s I2) p /\
  lc_electric_field (s I) p = vcomb a b (lc_electric_field (s I1) p) (lc_electric_field (s I2) p) /\
  lc_current_density (s I) p = vcomb a b (lc_current_density (s I1) p) (lc_current_density (s I2) p) /\
  lc_vector_potential (s I) p = rcomb a b (lc_vector_potential (s I1) p) (lc_vector_potential (s I2) p) /\
  lc_flux_density (s I) p = rocomb a b (lc_flux_density (s I1) p) (lc_flux_density (s I2) p) /\
  lc_magnetic_field (s I) p = rocomb a b (lc_magnetic_field (s I1) p) (lc_magnetic_field (s I2) p).
Proof. exact (wire_linear nodes sig mu p a b I1 I2). Qed.

Theorem C96_point_mass c p a b m1 m2 : let s m := PM m c in let m := a * m1 + b * m2 in
  pm_potential (s m) p = a * pm_potential (s m1) p + b * pm_potential (s m2) p /\
  pm_field (s m) p = vcomb a b (pm_field (s m1) p) (pm_field (s m2) p) /\
  pm_gradient (s m) p = madd (mscal a (pm_gradient (s m1) p)) (mscal b (pm_gradient (s m2) p)).
Proof. exact (pm_linear c p a b m1 m2). Qed.

Theorem C96_magnetic_dipole_half_space iv kv mu_0 md c p a b m o m1 o1 m2 o2 sec : beside p c -> vscal m o = vcomb a b (vscal m1 o1) (vscal m2 o2) ->
    mh_H iv kv mu_0 (MH md m o c) sec p = ccomb a b (mh_H iv kv mu_0 (MH md m1 o1 c) sec p) (mh_H iv kv mu_0 (MH md m2 o2 c) sec p).
Proof. exact (mh_linear iv kv mu_0 md c p a b m o m1 o1 m2 o2 sec). Qed.

Theorem C96_gravity_sphere R c xyz a b r1 r2 : let s rho := GS R rho c in let rho := a * r1 + b * r2 in
  gs_potential_grid (s rho) xyz = rzip (scomb a b) (gs_potential_grid (s r1) xyz) (gs_potential_grid (s r2) xyz) /\
  gs_field_grid (s rho) xyz = rzip (vcomb a b) (gs_field_grid (s r1) xyz) (gs_field_grid (s r2) xyz) /\
  gs_gradient_grid (s rho) xyz = rzip (omap2 (mcomb a b)) (gs_gradient_grid (s r1) xyz) (gs_gradient_grid (s r2) xyz).
Proof. exact (gs_linear R c xyz a b r1 r2). Qed.

Theorem C96_sphere_in_uniform_field R c1 c0 c eps0 dr xyz field a b u v : let s F := SP R c1 c0 F c in let F := vcomb a b u v in
  sphere_potential (s F) xyz field = rfzip (scomb a b) (sphere_potential (s u) xyz field) (sphere_potential (s v) xyz field) /\
  sphere_field (s F) xyz field = rfzip (vcomb a b) (sphere_field (s u) xyz field) (sphere_field (s v) xyz field) /\
  sphere_flux (s F) xyz field = rfzip (vcomb a b) (sphere_flux (s u) xyz field) (sphere_flux (s v) xyz field) /\
  charge_density eps0 (s F) xyz dr = rzip (scomb a b) (charge_density eps0 (s u) xyz dr) (charge_density eps0 (s v) xyz dr).
Proof. exact (sph_linear R c1 c0 c eps0 dr xyz field a b u v). Qed.

Theorem C96_point_current_half_space rho c xyz a b I1 I2 : let s I := HS rho I c in let I := a * I1 + b * I2 in
  hs_potential (s I) xyz = rzip (scomb a b) (hs_potential (s I1) xyz) (hs_potential (s I2) xyz) /\
  hs_electric_field (s I) xyz = rzip (vcomb a b) (hs_electric_field (s I1) xyz) (hs_electric_field (s I2) xyz) /\
  hs_current_density (s I) xyz = rzip (vcomb a b) (hs_current_density (s I1) xyz) (hs_current_density (s I2) xyz).
Proof. exact (hs_linear rho c xyz a b I1 I2). Qed.

Theorem C96_dipole_half_space rho A B xm xn a b I1 I2 : let s I := DHS rho I A B in let I := a * I1 + b * I2 in
  dh_potential (s I) xm xn = rzip (scomb a b) (dh_potential (s I1) xm xn) (dh_potential (s I2) xm xn) /\
  dh_electric_field (s I) xm xn = rzip (vcomb a b) (dh_electric_field (s I1) xm xn) (dh_electric_field (s I2) xm xn) /\
  dh_current_density (s I) xm xn = rzip (vcomb a b) (dh_current_density (s I1) xm xn) (dh_current_density (s I2) xm xn).
Proof. exact (dh_linear rho A B xm xn a b I1 I2). Qed.

Theorem C96_magnetic_prism box mu_0 a b u v p pts : let m := vcomb a b u v in
  scalar_potential box m p = scomb a b (scalar_potential box u p) (scalar_potential box v p) /\
  magnetic_field box m p = vcomb a b (magnetic_field box u p) (magnetic_field box v p) /\
  magnetic_field_gradient box m p = mcomb a b (magnetic_field_gradient box u p) (magnetic_field_gradient box v p) /\
  magnetic_flux_density mu_0 box m pts = rzip (vcomb a b) (magnetic_flux_density mu_0 box u pts) (magnetic_flux_density mu_0 box v pts).
Proof. exact (mag_prism_linear box mu_0 a b u v p pts). Qed.

Theorem C96_transient_vertical_dipole med c row a b m1 m2 : let s m := TV med m c in let m := a * m1 + b * m2 in
  tv_H (s m) row = rcomb a b (tv_H (s m1) row) (tv_H (s m2) row) /\ tv_dH (s m) row = rcomb a b (tv_dH (s m1) row) (tv_dH (s m2) row) /\
  tv_B (s m) row = rcomb a b (tv_B (s m1) row) (tv_B (s m2) row) /\ tv_dB (s m) row = rcomb a b (tv_dB (s m1) row) (tv_dB (s m2) row).
Proof. exact (tv_linear med c row a b m1 m2). Qed.

Theorem C96_transient_loop t sg mu R a b I1 I2 n k1 k2 :
  tloop_hz t sg mu R (a * I1 + b * I2) n = scomb a b (tloop_hz t sg mu R I1 n) (tloop_hz t sg mu R I2 n) /\
  tloop_dbz t sg mu R (a * I1 + b * I2) n = scomb a b (tloop_dbz t sg mu R I1 n) (tloop_dbz t sg mu R I2 n) /\
  tloop_hz t sg mu R I1 (a * k1 + b * k2) = scomb a b (tloop_hz t sg mu R I1 k1) (tloop_hz t sg mu R I1 k2) /\
  tloop_dbz t sg mu R I1 (a * k1 + b * k2) = scomb a b (tloop_dbz t sg mu R I1 k1) (tloop_dbz t sg mu R I1 k2).
Proof. exact (tloop_linear t sg mu R a b I1 I2 n k1 k2). Qed.

(** ** Concrete cases: moment vectors that are combinations of two sources with other strengths and directions *)
Example C96_witness_electric : vscal (5 * 2) (V3 0 (3 / 5) (4 / 5)) = vcomb 2 (-4) (vscal (3 * 1) (V3 0 1 0)) (vscal (1 * 2) (V3 0 0 (-1))).
Proof. unfold vcomb. apply vec3_eq; vunf; cbn; lra. Qed.
Example C96_witness_magnetic : vscal 10 (V3 0 (3 / 5) (4 / 5)) = vcomb 2 (-4) (vscal 3 (V3 0 1 0)) (vscal 2 (V3 0 0 (-1))) /\ beside (V3 1 2 0) (V3 0 0 0).
Proof. split; [unfold vcomb; apply vec3_eq; vunf; cbn; lra|left; cbn; lra]. Qed.
Print Assumptions C96_harmonic_electric_dipole.
Print Assumptions C96_harmonic_magnetic_dipole.
Print Assumptions C96_harmonic_plane_wave.
Print Assumptions C96_transient_electric_dipole.
Print Assumptions C96_transient_plane_wave.
Print Assumptions C96_static_magnetic_dipole.
Print Assumptions C96_magnetic_pole.
Print Assumptions C96_current_loop.
Print Assumptions C96_line_current.
Print Assumptions C96_point_mass.
Print Assumptions C96_magnetic_dipole_half_space.
Print Assumptions C96_gravity_sphere.
Print Assumptions C96_sphere_in_uniform_field.
Print Assumptions C96_point_current_half_space.
Print Assumptions C96_dipole_half_space.
Print Assumptions C96_magnetic_prism.
Print Assumptions C96_transient_vertical_dipole.
Print Assumptions C96_transient_loop.
