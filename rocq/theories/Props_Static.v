(** Properties C38-C40, C44-C54: static electromagnetics (geoana/em/static). *)
From Coq Require Import Reals Lra List Bool String.
From Coquelicot Require Import Coquelicot.
From Verif Require Import Vec3 Numpy Calculus Deriv Integral Model_Static Spec_Static Proof_Static Proof_Static2 Proof_Static3 Proof_Line Proof_Line2 Proof_Line3 Proof_Sphere.
Import ListNotations.
Open Scope R_scope.

(** ** C38 *)
(** A, B and H are the functions returned by the three methods; off the dipole
    B = curl A, div A = div B = 0, curl H = 0 and B = mu H *)
Theorem C38_dipole_magnetostatics :
  forall (s : mdipole) (p : vec3), p <> md_loc s ->
  exists A B H : vec3 -> vec3,
    (forall q, mdipole_vector_potential s "cartesian" q = Ok (A q)) /\
    (forall q, mdipole_flux_density s "cartesian" q = Ok (B q)) /\
    (forall q, mdipole_field s "cartesian" q = Ok (H q)) /\
    is_curl A p (B p) /\ is_div A p 0 /\ is_div B p 0 /\ is_curl H p vzero /\
    (md_mu s <> 0 -> B p = vscal (md_mu s) (H p)).
Proof. exact mdipole_magnetostatics. Qed.
Example C38_witness : V3 1 2 3 <> md_loc (MD 2 (V3 0 0 1) vzero 1).
Proof. intro H. apply V3_inj in H. lra. Qed.

(** ** C39 *)
Theorem C39_pole_inverse_square :
  forall (s : mdipole) (p : vec3), p <> md_loc s ->
  exists B H : vec3 -> vec3,
    (forall q, mpole_flux_density s "cartesian" q = Ok (B q)) /\
    (forall q, mpole_field s "cartesian" q = Ok (H q)) /\
    is_curl B p vzero /\ is_div B p 0 /\
    (let r := vsub p (md_loc s) in
     B p = vscal (md_mu s * md_moment s / (4 * PI * vnorm r ^ 3)) r /\
     vnorm (B p) = Rabs (md_mu s * md_moment s) / (4 * PI * vnorm r ^ 2)) /\
    (md_mu s <> 0 -> B p = vscal (md_mu s) (H p)).
Proof. exact mpole_inverse_square. Qed.
Theorem C39_pole_orientation_irrelevant :
  forall m o o' loc mu c q,
  mpole_flux_density (MD m o loc mu) c q = mpole_flux_density (MD m o' loc mu) c q /\
  mpole_field (MD m o loc mu) c q = mpole_field (MD m o' loc mu) c q.
Proof. exact mpole_orientation_irrelevant. Qed.

(** ** C40: [cyl_components phi v] are the components of v along (e_r, e_phi, e_z) *)
Theorem C40_cylindrical_is_a_change_of_basis :
  forall (d : mdipole) (l : cloop) (c : string) (r phi z : R), lower c = "cylindrical"%string -> 0 < r ->
  let there := V3 (r * cos phi) (r * sin phi) z in
  mdipole_vector_potential d c (V3 r phi z) = rmap (cyl_components phi) (mdipole_vector_potential d "cartesian" there) /\
  mdipole_flux_density d c (V3 r phi z) = rmap (cyl_components phi) (mdipole_flux_density d "cartesian" there) /\
  mdipole_field d c (V3 r phi z) = rmap (cyl_components phi) (mdipole_field d "cartesian" there) /\
  mpole_flux_density d c (V3 r phi z) = rmap (cyl_components phi) (mpole_flux_density d "cartesian" there) /\
  mpole_field d c (V3 r phi z) = rmap (cyl_components phi) (mpole_field d "cartesian" there) /\
  loop_vector_potential l c (V3 r phi z) = rmap (cyl_components phi) (loop_vector_potential l "cartesian" there) /\
  loop_flux_density l c (V3 r phi z) = rmap (cyl_components phi) (loop_flux_density l "cartesian" there) /\
  loop_field l c (V3 r phi z) = rmap (cyl_components phi) (loop_field l "cartesian" there).
Proof. exact coordinates_cylindrical. Qed.
(** on the axis the basis of angle 0 is used whatever phi *)
Theorem C40_on_the_axis :
  forall (d : mdipole) (l : cloop) (c : string) (phi z : R), lower c = "cylindrical"%string ->
  mdipole_vector_potential d c (V3 0 phi z) = mdipole_vector_potential d "cartesian" (V3 0 0 z) /\
  mdipole_flux_density d c (V3 0 phi z) = mdipole_flux_density d "cartesian" (V3 0 0 z) /\
  mdipole_field d c (V3 0 phi z) = mdipole_field d "cartesian" (V3 0 0 z) /\
  mpole_flux_density d c (V3 0 phi z) = mpole_flux_density d "cartesian" (V3 0 0 z) /\
  mpole_field d c (V3 0 phi z) = mpole_field d "cartesian" (V3 0 0 z) /\
  loop_vector_potential l c (V3 0 phi z) = loop_vector_potential l "cartesian" (V3 0 0 z) /\
  loop_flux_density l c (V3 0 phi z) = loop_flux_density l "cartesian" (V3 0 0 z) /\
  loop_field l c (V3 0 phi z) = loop_field l "cartesian" (V3 0 0 z).
Proof. exact coordinates_axis. Qed.
Theorem C40_unknown_coordinates_rejected :
  forall (d : mdipole) (l : cloop) (c : string) (p : vec3), lower c <> "cartesian"%string -> lower c <> "cylindrical"%string ->
  mdipole_vector_potential d c p = Raise AssertionError /\ mdipole_flux_density d c p = Raise AssertionError /\
  mdipole_field d c p = Raise AssertionError /\
  mpole_flux_density d c p = Raise AssertionError /\ mpole_field d c p = Raise AssertionError /\
  loop_vector_potential l c p = Raise AssertionError /\ loop_flux_density l c p = Raise TypeError /\ loop_field l c p = Raise TypeError.
Proof. exact coordinates_unknown. Qed.
Example C40_witness : lower "CylindricaL" = "cylindrical"%string /\ lower "Spherical" <> "cartesian"%string /\ lower "Spherical" <> "cylindrical"%string.
Proof. split; [reflexivity|]. split; intro H; discriminate H. Qed.

(** ** C44 *)
Theorem C44_field_is_minus_gradient :
  forall (s : lcur) (p : vec3), lc_sigma s <> 0 -> p <> List.hd vzero (lc_nodes s) -> p <> List.last (lc_nodes s) vzero ->
  is_grad (lc_scalar_potential s) p (vopp (lc_electric_field s p)).
Proof. exact lc_E_grad. Qed.
Theorem C44_closed_wire_has_no_field :
  forall (s : lcur) (q : vec3), (2 <= List.length (lc_nodes s))%nat -> List.hd vzero (lc_nodes s) = List.last (lc_nodes s) vzero ->
  lc_scalar_potential s q = 0 /\ lc_electric_field s q = vzero /\ lc_current_density s q = vzero.
Proof. exact lc_closed. Qed.
Theorem C44_only_the_ends_matter :
  forall (s s' : lcur) (q : vec3), (2 <= List.length (lc_nodes s))%nat -> (2 <= List.length (lc_nodes s'))%nat ->
  List.hd vzero (lc_nodes s) = List.hd vzero (lc_nodes s') -> List.last (lc_nodes s) vzero = List.last (lc_nodes s') vzero -> lc_current s = lc_current s' -> lc_sigma s = lc_sigma s' ->
  lc_scalar_potential s q = lc_scalar_potential s' q /\ lc_electric_field s q = lc_electric_field s' q /\ lc_current_density s q = lc_current_density s' q.
Proof. exact lc_ends_only. Qed.
Theorem C44_two_electrodes :
  forall (s : lcur) (q : vec3), (2 <= List.length (lc_nodes s))%nat -> List.hd vzero (lc_nodes s) <> List.last (lc_nodes s) vzero -> lc_sigma s <> 0 ->
  let V n := lc_current s / (4 * PI * lc_sigma s * vnorm (vsub q n)) in
  lc_scalar_potential s q = V (List.last (lc_nodes s) vzero) - V (List.hd vzero (lc_nodes s)).
Proof. exact lc_open. Qed.
Theorem C44_one_node_is_a_point_source :
  forall n I sig mu q, sig <> 0 -> q <> n ->
  let s := LC [n] I sig mu in let r := vsub q n in
  lc_scalar_potential s q = I / (4 * PI * sig * vnorm r) /\
  lc_electric_field s q = vscal (I / (4 * PI * sig * vnorm r ^ 3)) r /\
  lc_current_density s q = vscal (I / (4 * PI * vnorm r ^ 3)) r.
Proof. exact lc_single. Qed.
Theorem C44_ohm :
  forall s q, lc_current_density s q = vscal (lc_sigma s) (lc_electric_field s q).
Proof. reflexivity. Qed.
Example C44_witness : let s := LC [V3 0 0 0; V3 1 1 0; V3 2 0 0] 1 (1/2) 1 in
  (2 <= List.length (lc_nodes s))%nat /\ first_node s <> last_node s /\ lc_sigma s <> 0 /\ V3 0 1 0 <> first_node s /\ V3 0 1 0 <> last_node s.
Proof. cbn. repeat split; try (intro H; apply V3_inj in H; lra); try lra; repeat constructor. Qed.
Example C44_witness_closed : let s := LC [V3 0 0 0; V3 1 1 0; V3 0 0 0] 1 (1/2) 1 in (2 <= List.length (lc_nodes s))%nat /\ first_node s = last_node s.
Proof. cbn. split; [repeat constructor|reflexivity]. Qed.

(** ** C45: the returned B is mu I / 4 pi times the Biot-Savart integral along the wire *)
Theorem C45_biot_savart :
  forall (s : lcur) (p : vec3), every_segment proper_segment (lc_nodes s) -> every_segment (off_line p) (lc_nodes s) ->
  exists V, is_wire_integral (biot_savart p) (lc_nodes s) V /\
    lc_flux_density s p = Ok (Some (vscal (lc_mu s * lc_current s / (4 * PI)) V)).
Proof. exact line_biot_savart. Qed.

Lemma witness_wire : let nodes := [V3 0 0 0; V3 1 0 0; V3 1 1 0] in
  every_segment proper_segment nodes /\ every_segment (off_line (V3 0 0 1)) nodes /\ every_segment (off_segment (V3 0 0 1)) nodes.
Proof.
  cbv zeta. cbn [every_segment].
  assert (N1 : vsub (V3 1 0 0) (V3 0 0 0) = V3 1 0 0) by (unfold vsub; cbn; f_equal; ring).
  assert (N2 : vsub (V3 1 1 0) (V3 1 0 0) = V3 0 1 0) by (unfold vsub; cbn; f_equal; ring).
  assert (L1 : vnorm (V3 1 0 0) = 1) by (apply vnorm_unique; [lra|]; unfold vnorm2; cbn; ring).
  assert (L2 : vnorm (V3 0 1 0) = 1) by (apply vnorm_unique; [lra|]; unfold vnorm2; cbn; ring).
  assert (T : / 10 ^ 20 <= 1) by (replace 1 with (/ 1) by field; apply Rinv_le_contravar; lra).
  refine (conj (conj _ (conj _ I)) (conj (conj _ (conj _ I)) (conj _ (conj _ I)))).
  - split; [intro E; apply V3_inj in E; lra|]. cbv zeta. right. rewrite N1, L1. unfold vcross, vscal, vzero; cbn. f_equal; field.
  - split; [intro E; apply V3_inj in E; lra|]. cbv zeta. left. rewrite N2, L2.
    replace (vcross (vscal (/ 1) (V3 0 1 0)) (V3 1 0 0)) with (V3 0 0 (-1)) by (unfold vcross, vscal; cbn; f_equal; field).
    replace (vnorm (V3 0 0 (-1))) with 1; [exact T|]. symmetry. apply vnorm_unique; [lra|]. unfold vnorm2; cbn; ring.
  - unfold off_line. rewrite N1. intro E. unfold vcross, vsub, vzero in E; cbn in E. apply V3_inj in E. lra.
  - unfold off_line. rewrite N2. intro E. unfold vcross, vsub, vzero in E; cbn in E. apply V3_inj in E. lra.
  - intros s Hs E. unfold on_seg in E. rewrite N1 in E. unfold vadd, vscal in E; cbn in E. apply V3_inj in E. lra.
  - intros s Hs E. unfold on_seg in E. rewrite N2 in E. unfold vadd, vscal in E; cbn in E. apply V3_inj in E. lra.
Qed.
Example C45_witness : let s := LC [V3 0 0 0; V3 1 0 0; V3 1 1 0] 3 1 1 in
  every_segment proper_segment (lc_nodes s) /\ every_segment (off_line (V3 0 0 1)) (lc_nodes s).
Proof. split; apply witness_wire. Qed.

(** ** C46 *)
(** a node inserted strictly inside any segment changes nothing, at every point
    (also where the result is not finite) *)
Theorem C46_subdividing_changes_nothing :
  forall l1 a b l2 t I sig mu p, 0 < t < 1 -> every_segment proper_segment (l1 ++ a :: b :: l2) ->
  let w := LC (l1 ++ a :: b :: l2) I sig mu in let w' := LC (l1 ++ a :: on_seg a b t :: b :: l2) I sig mu in
  lc_vector_potential w' p = lc_vector_potential w p /\ lc_flux_density w' p = lc_flux_density w p /\
  lc_magnetic_field w' p = lc_magnetic_field w p.
Proof. exact line_subdivide. Qed.
Theorem C46_reversing_negates :
  forall nodes I sig mu p, every_segment proper_segment nodes ->
  let w := LC nodes I sig mu in let w' := LC (rev nodes) I sig mu in
  (every_segment (off_segment p) nodes -> exists A, lc_vector_potential w p = Ok A /\ lc_vector_potential w' p = Ok (vopp A)) /\
  (every_segment (off_line p) nodes -> exists B, lc_flux_density w p = Ok (Some B) /\ lc_flux_density w' p = Ok (Some (vopp B))).
Proof. exact line_reverse. Qed.
Theorem C46_joining_adds :
  forall l1 x l2 I sig mu p, every_segment proper_segment (l1 ++ x :: l2) -> every_segment (off_line p) (l1 ++ x :: l2) ->
  let w := LC (l1 ++ x :: l2) I sig mu in let w1 := LC (l1 ++ [x]) I sig mu in let w2 := LC (x :: l2) I sig mu in
  (exists A1 A2, lc_vector_potential w1 p = Ok A1 /\ lc_vector_potential w2 p = Ok A2 /\ lc_vector_potential w p = Ok (vadd A1 A2)) /\
  (exists B1 B2, lc_flux_density w1 p = Ok (Some B1) /\ lc_flux_density w2 p = Ok (Some B2) /\ lc_flux_density w p = Ok (Some (vadd B1 B2))).
Proof. exact line_concat. Qed.
Example C46_witness : every_segment proper_segment ([V3 0 0 0] ++ V3 1 0 0 :: V3 1 1 0 :: []) /\ 0 < 1/3 < 1 /\
  every_segment (off_line (V3 0 0 1)) ([V3 0 0 0] ++ V3 1 0 0 :: [V3 1 1 0]) /\ every_segment (off_segment (V3 0 0 1)) [V3 0 0 0; V3 1 0 0; V3 1 1 0].
Proof. refine (conj _ (conj _ (conj _ _))); [apply witness_wire|lra|apply witness_wire|apply witness_wire]. Qed.

(** ** C47: B is finite exactly at the points off every line through a segment,
    so the claim for all points off the wire fails *)
Theorem C47_finite_exactly_off_the_lines :
  forall (s : lcur) (p : vec3), every_segment proper_segment (lc_nodes s) ->
  ((exists b, lc_flux_density s p = Ok (Some b)) <-> every_segment (off_line p) (lc_nodes s)) /\
  (~ every_segment (off_line p) (lc_nodes s) -> lc_flux_density s p = Ok None).
Proof. exact line_finite_iff. Qed.
Theorem C47_finite_off_the_wire_refuted :
  ~ (forall (s : lcur) (p : vec3), every_segment proper_segment (lc_nodes s) -> every_segment (off_segment p) (lc_nodes s) ->
       exists b, lc_flux_density s p = Ok (Some b)).
Proof.
  intro H. destruct line_not_finite_example as [A [B C]]. destruct (H _ _ A B) as [b E]. cbv zeta in C. rewrite C in E. discriminate.
Qed.
Example C47_witness : let s := LC [V3 0 0 0; V3 1 0 0] 1 1 1 in
  every_segment proper_segment (lc_nodes s) /\ every_segment (off_segment (V3 2 0 0)) (lc_nodes s) /\ lc_flux_density s (V3 2 0 0) = Ok None.
Proof. exact line_not_finite_example. Qed.

(** ** C48 *)
Theorem C48_vector_potential_integral :
  forall (s : lcur) (p : vec3), every_segment proper_segment (lc_nodes s) -> every_segment (off_segment p) (lc_nodes s) ->
  exists V, is_wire_integral (dl_over_r p) (lc_nodes s) V /\
    lc_vector_potential s p = Ok (vscal (lc_mu s * lc_current s / (4 * PI)) V).
Proof. exact line_vector_potential. Qed.
Theorem C48_curl_of_vector_potential :
  forall (s : lcur) (p : vec3), every_segment proper_segment (lc_nodes s) -> every_segment (off_line p) (lc_nodes s) ->
  exists (A : vec3 -> vec3) (B : vec3), (forall q, lc_vector_potential s q = Ok (A q)) /\ lc_flux_density s p = Ok (Some B) /\ is_curl A p B.
Proof. exact line_curl. Qed.
Example C48_witness : let s := LC [V3 0 0 0; V3 1 0 0; V3 1 1 0] 3 1 1 in
  every_segment proper_segment (lc_nodes s) /\ every_segment (off_line (V3 0 0 1)) (lc_nodes s) /\ every_segment (off_segment (V3 0 0 1)) (lc_nodes s).
Proof. exact witness_wire. Qed.

(** ** C49 *)
Theorem C49_ohm_and_laplace :
  forall rho I loc p, rho <> 0 -> p <> loc ->
  let s := point_current rho I loc in
  pc_potential s p = rho * I / (4 * PI * vnorm (vsub p loc)) /\
  is_grad (pc_potential s) p (vopp (pc_electric_field s p)) /\
  pc_current_density s p = vdiv (pc_electric_field s p) rho /\
  is_div (pc_electric_field s) p 0.
Proof. exact pc_ohm. Qed.
Theorem C49_flux_is_the_current :
  forall rho I loc rad, rho <> 0 -> 0 < rad -> sphere_flux_is (pc_current_density (point_current rho I loc)) loc rad I.
Proof. exact pc_flux. Qed.
Example C49_witness : (100 : R) <> 0 /\ V3 1 0 0 <> vzero /\ 0 < 3.
Proof. split; [lra|]. split; [intro H; apply V3_inj in H; lra|lra]. Qed.

(** ** C50 (the bookkeeping part is in Props_Setters.v) *)
Theorem C50_half_space_fields :
  forall (s : hsp), hs_rho s <> 0 -> vz (hs_loc s) <= 0 ->
  exists (V : vec3 -> R) (E J : vec3 -> vec3),
    (forall pts, List.Forall (fun p => vz p <= 0) pts ->
       hs_potential s pts = Ok (map V pts) /\ hs_electric_field s pts = Ok (map E pts) /\ hs_current_density s pts = Ok (map J pts)) /\
    (forall p, vz p <= 0 -> p <> hs_loc s ->
       is_grad V p (vopp (E p)) /\ is_div E p 0 /\ E p = vscal (hs_rho s) (J p) /\ (vz p = 0 -> vz (J p) = 0)).
Proof. exact hs_fields. Qed.
Theorem C50_dipole_half_space_fields :
  forall (s : dhsp), dh_rho s <> 0 -> vz (dh_a s) <= 0 -> vz (dh_b s) <= 0 ->
  exists (V : vec3 -> R) (E J : vec3 -> vec3),
    (forall pts, List.Forall (fun p => vz p <= 0) pts ->
       dh_potential s pts None = Ok (map V pts) /\ dh_electric_field s pts None = Ok (map E pts) /\
       dh_current_density s pts None = Ok (map J pts)) /\
    (forall p, vz p <= 0 -> p <> dh_a s -> p <> dh_b s ->
       is_grad V p (vopp (E p)) /\ E p = vscal (dh_rho s) (J p) /\ (vz p = 0 -> vz (J p) = 0)).
Proof. exact dh_fields. Qed.
Theorem C50_points_above_ground_rejected :
  forall (s : hsp) (pts : list vec3), List.Exists (fun p => 0 < vz p) pts ->
  hs_potential s pts = Raise ValueError /\ hs_electric_field s pts = Raise ValueError /\ hs_current_density s pts = Raise ValueError.
Proof. exact hs_rejects. Qed.
Theorem C50_dipole_points_above_ground_rejected :
  forall (s : dhsp) (ms : list vec3) (no : option (list vec3)),
  List.Exists (fun p => 0 < vz p) ms \/ (exists ns, no = Some ns /\ List.Exists (fun p => 0 < vz p) ns) ->
  dh_potential s ms no = Raise ValueError /\ dh_electric_field s ms no = Raise ValueError /\ dh_current_density s ms no = Raise ValueError.
Proof. exact dh_rejects. Qed.
Example C50_witness : let s := HS 100 1 (V3 0 0 (-1)) in hs_rho s <> 0 /\ vz (hs_loc s) <= 0 /\ V3 1 0 0 <> hs_loc s /\ vz (V3 1 0 0) <= 0 /\ List.Exists (fun p => 0 < vz p) [V3 0 0 0; V3 0 0 1].
Proof. cbn. repeat split; try lra; [intro H; apply V3_inj in H; lra|]. right. left. cbn. lra. Qed.

(** ** C51 *)
Theorem C51_reciprocity :
  forall rho I a b m n, vz a <= 0 -> vz b <= 0 -> vz m <= 0 -> vz n <= 0 ->
  exists v, dh_potential (DHS rho I a b) [m] (Some [n]) = Ok [v] /\
    dh_potential (DHS rho I m n) [a] (Some [b]) = Ok [v] /\
    dh_potential (DHS rho I b a) [m] (Some [n]) = Ok [- v] /\
    dh_potential (DHS rho I a b) [n] (Some [m]) = Ok [- v].
Proof. exact dh_reciprocity. Qed.
Theorem C51_difference_of_potentials :
  forall s ms ns, List.Forall (fun p => vz p <= 0) ms -> List.Forall (fun p => vz p <= 0) ns ->
  (exists vm vn, dh_potential s ms None = Ok vm /\ dh_potential s ns None = Ok vn /\ dh_potential s ms (Some ns) = Ok (map (fun ab => fst ab - snd ab) (combine vm vn))) /\
  (exists em en, dh_electric_field s ms None = Ok em /\ dh_electric_field s ns None = Ok en /\ dh_electric_field s ms (Some ns) = Ok (map (fun ab => vsub (fst ab) (snd ab)) (combine em en))).
Proof. exact dh_grid2. Qed.
Example C51_witness : vz (V3 0 0 0) <= 0 /\ vz (V3 1 0 0) <= 0 /\ vz (V3 2 0 (-1)) <= 0 /\ vz (V3 3 0 0) <= 0.
Proof. cbn; lra. Qed.

(** ** C52-C54: the spheres.  [tV], [tE], [tJ] are the values the three methods return
    for a single point with field='total'; for MagnetostaticSphere read V, H, B and mu *)
Theorem C52_total_is_primary_plus_secondary :
  forall s,
  consistent_modes 0 Rplus (sphere_potential s) (tV s) /\
  consistent_modes vzero vadd (sphere_field s) (tE s) /\
  consistent_modes vzero vadd (sphere_flux s) (tJ s).
Proof. exact sphere_modes. Qed.
Theorem C52_inside_field_is_minus_gradient :
  forall s p, valid_sphere s -> vnorm (vsub p (sp_loc s)) < sp_radius s -> is_grad (tV s) p (vopp (tE s p)).
Proof. exact sphere_inside. Qed.
(** outside, exactly when there is no contrast, on the equatorial plane, or at
    distance radius^2 from the centre *)
Theorem C52_outside_exact_domain :
  forall s p, valid_sphere s -> sp_radius s < vnorm (vsub p (sp_loc s)) ->
  (is_grad (tV s) p (vopp (tE s p)) <->
   (sp_c1 s = sp_c0 s \/ vdot (vsub p (sp_loc s)) (sp_F0 s) = 0 \/ vnorm (vsub p (sp_loc s)) = sp_radius s ^ 2)).
Proof. exact sphere_outside_iff. Qed.
Theorem C52_outside_gradient_refuted :
  ~ (forall s p, valid_sphere s -> sp_radius s < vnorm (vsub p (sp_loc s)) -> is_grad (tV s) p (vopp (tE s p))).
Proof. intro H. destruct sphere_outside_refuted as [A [B C]]. exact (C (H _ _ A B)). Qed.
(** what minus the gradient of the returned potential is outside *)
Theorem C52_outside_gradient_value :
  forall s p, valid_sphere s -> sp_radius s < vnorm (vsub p (sp_loc s)) ->
  let v := vsub p (sp_loc s) in let k := (sp_c1 s - sp_c0 s) / (sp_c1 s + 2 * sp_c0 s) in
  is_grad (tV s) p (vopp (vadd (vscal (1 - k * sp_radius s ^ 3 / vnorm v ^ 3) (sp_F0 s)) (vscal (3 * k * sp_radius s ^ 3 * vdot v (sp_F0 s) / vnorm v ^ 5) v))).
Proof. exact sphere_outside_true. Qed.
Theorem C52_potential_continuous :
  forall s p, valid_sphere s -> is_cont (tV s) p.
Proof. exact sphere_cont. Qed.
Theorem C52_no_contrast :
  forall s p, valid_sphere s -> sp_c1 s = sp_c0 s ->
  tV s p = - vdot (sp_F0 s) (vsub p (sp_loc s)) /\ tE s p = sp_F0 s /\ tJ s p = vscal (sp_c0 s) (sp_F0 s).
Proof. exact sphere_no_contrast. Qed.
Example C52_witness : let s := SP 2 2 1 (V3 1 0 0) vzero in let p := V3 3 0 0 in
  valid_sphere s /\ sp_radius s < vnorm (vsub p (sp_loc s)) /\ ~ is_grad (tV s) p (vopp (tE s p)).
Proof. exact sphere_outside_refuted. Qed.

(** C53: one-sided limits along the outward normal n of the returned fields *)
Theorem C53_surface_limits :
  forall s n w, valid_sphere s -> vnorm n = 1 ->
  let p := fun t => vadd (sp_loc s) (vscal t n) in let k := (sp_c1 s - sp_c0 s) / (sp_c1 s + 2 * sp_c0 s) in let e := vdot (sp_F0 s) n in
  filterlim (fun t => vdot (tE s (p t)) w) (at_right (sp_radius s)) (locally ((1 - k) * vdot (sp_F0 s) w + 3 * k * e / sp_radius s * vdot n w)) /\
  filterlim (fun t => vdot (tE s (p t)) w) (at_left (sp_radius s)) (locally ((1 - k) * vdot (sp_F0 s) w)) /\
  filterlim (fun t => vdot (tJ s (p t)) n) (at_right (sp_radius s)) (locally (sp_c0 s * e * (1 - k + 3 * k / sp_radius s))) /\
  filterlim (fun t => vdot (tJ s (p t)) n) (at_left (sp_radius s)) (locally (sp_c0 s * e * (1 - k + 3 * k))).
Proof. exact sphere_surface. Qed.
Theorem C53_normal_current_exact_domain :
  forall s n (jo ji : R), valid_sphere s -> vnorm n = 1 ->
  let p := fun t => vadd (sp_loc s) (vscal t n) in
  filterlim (fun t => vdot (tJ s (p t)) n) (at_right (sp_radius s)) (locally jo) ->
  filterlim (fun t => vdot (tJ s (p t)) n) (at_left (sp_radius s)) (locally ji) ->
  (jo = ji <-> sp_radius s = 1 \/ sp_c1 s = sp_c0 s \/ vdot (sp_F0 s) n = 0).
Proof. exact sphere_normal_flux_iff. Qed.
Theorem C53_normal_current_refuted : let s := SP 2 2 1 (V3 1 0 0) vzero in let n := V3 1 0 0 in
  exists jo ji,
  filterlim (fun t => vdot (tJ s (vadd (sp_loc s) (vscal t n))) n) (at_right (sp_radius s)) (locally jo) /\
  filterlim (fun t => vdot (tJ s (vadd (sp_loc s) (vscal t n))) n) (at_left (sp_radius s)) (locally ji) /\ jo <> ji.
Proof. exact sphere_normal_refuted. Qed.
(** the field E derived from the returned potential does satisfy the surface
    conditions, and charge_density is eps0 times the jump of its normal component
    within the shell of thickness dr, zero elsewhere *)
Theorem C53_potential_conserves_current_and_charge :
  forall s n, valid_sphere s -> vnorm n = 1 ->
  exists (E : vec3 -> vec3) (eo ei : R),
    (forall p, vnorm (vsub p (sp_loc s)) <> sp_radius s -> is_grad (tV s) p (vopp (E p))) /\
    filterlim (fun t => vdot (E (vadd (sp_loc s) (vscal t n))) n) (at_right (sp_radius s)) (locally eo) /\
    filterlim (fun t => vdot (E (vadd (sp_loc s) (vscal t n))) n) (at_left (sp_radius s)) (locally ei) /\
    sp_c0 s * eo = sp_c1 s * ei /\
    (forall eps0 dr t, 0 < t -> let d := match dr with None => 5 / 100 * sp_radius s | Some d => d end in
      (Rabs (t - sp_radius s) < d / 2 -> charge_density eps0 s [vadd (sp_loc s) (vscal t n)] dr = Ok [eps0 * (eo - ei)]) /\
      (d / 2 <= Rabs (t - sp_radius s) -> charge_density eps0 s [vadd (sp_loc s) (vscal t n)] dr = Ok [0])).
Proof. exact sphere_potential_surface. Qed.
Example C53_witness : valid_sphere (SP 2 2 1 (V3 1 0 0) vzero) /\ vnorm (V3 1 0 0) = 1.
Proof. split; [unfold valid_sphere; cbn; lra|]. apply vnorm_unique; [lra|]. unfold vnorm2; cbn; ring. Qed.

(** C54: MagnetostaticSphere is the same code with (sigma, E, J) read as (mu, H, B) *)
Theorem C54_tangential_H_continuous :
  forall s n w, valid_sphere s -> vnorm n = 1 -> vdot n w = 0 ->
  exists h, filterlim (fun t => vdot (tE s (vadd (sp_loc s) (vscal t n))) w) (at_right (sp_radius s)) (locally h) /\
            filterlim (fun t => vdot (tE s (vadd (sp_loc s) (vscal t n))) w) (at_left (sp_radius s)) (locally h).
Proof. exact sphere_tangential. Qed.
Theorem C54_B_is_mu_H :
  forall s p, tJ s p = vscal (if Rleb (vnorm (vsub p (sp_loc s))) (sp_radius s) then sp_c1 s else sp_c0 s) (tE s p).
Proof. intros s p. rewrite tJ_eq, tE_eq. reflexivity. Qed.
Theorem C54_normal_B_exact_domain :
  forall s n (jo ji : R), valid_sphere s -> vnorm n = 1 ->
  let p := fun t => vadd (sp_loc s) (vscal t n) in
  filterlim (fun t => vdot (tJ s (p t)) n) (at_right (sp_radius s)) (locally jo) ->
  filterlim (fun t => vdot (tJ s (p t)) n) (at_left (sp_radius s)) (locally ji) ->
  (jo = ji <-> sp_radius s = 1 \/ sp_c1 s = sp_c0 s \/ vdot (sp_F0 s) n = 0).
Proof. exact sphere_normal_flux_iff. Qed.
Theorem C54_H_is_minus_gradient_refuted :
  ~ (forall s p, valid_sphere s -> sp_radius s < vnorm (vsub p (sp_loc s)) -> is_grad (tV s) p (vopp (tE s p))).
Proof. exact C52_outside_gradient_refuted. Qed.
Theorem C54_H_is_minus_gradient_inside :
  forall s p, valid_sphere s -> vnorm (vsub p (sp_loc s)) < sp_radius s -> is_grad (tV s) p (vopp (tE s p)).
Proof. exact sphere_inside. Qed.
Example C54_witness : vnorm (V3 1 0 0) = 1 /\ vdot (V3 1 0 0) (V3 0 1 2) = 0.
Proof. split; [|unfold vdot; cbn; ring]. apply vnorm_unique; [lra|]. unfold vnorm2; cbn; ring. Qed.

Print Assumptions C38_dipole_magnetostatics.
Print Assumptions C39_pole_inverse_square.
Print Assumptions C39_pole_orientation_irrelevant.
Print Assumptions C40_cylindrical_is_a_change_of_basis.
Print Assumptions C40_on_the_axis.
Print Assumptions C40_unknown_coordinates_rejected.
Print Assumptions C44_field_is_minus_gradient.
Print Assumptions C44_closed_wire_has_no_field.
Print Assumptions C44_only_the_ends_matter.
Print Assumptions C44_two_electrodes.
Print Assumptions C44_one_node_is_a_point_source.
Print Assumptions C44_ohm.
Print Assumptions C45_biot_savart.
Print Assumptions C46_subdividing_changes_nothing.
Print Assumptions C46_reversing_negates.
Print Assumptions C46_joining_adds.
Print Assumptions C47_finite_exactly_off_the_lines.
Print Assumptions C47_finite_off_the_wire_refuted.
Print Assumptions C48_vector_potential_integral.
Print Assumptions C48_curl_of_vector_potential.
Print Assumptions C49_ohm_and_laplace.
Print Assumptions C49_flux_is_the_current.
Print Assumptions C50_half_space_fields.
Print Assumptions C50_dipole_half_space_fields.
Print Assumptions C50_points_above_ground_rejected.
Print Assumptions C50_dipole_points_above_ground_rejected.
Print Assumptions C51_reciprocity.
Print Assumptions C51_difference_of_potentials.
Print Assumptions C52_total_is_primary_plus_secondary.
Print Assumptions C52_inside_field_is_minus_gradient.
Print Assumptions C52_outside_exact_domain.
Print Assumptions C52_outside_gradient_refuted.
Print Assumptions C52_outside_gradient_value.
Print Assumptions C52_potential_continuous.
Print Assumptions C52_no_contrast.
Print Assumptions C53_surface_limits.
Print Assumptions C53_normal_current_exact_domain.
Print Assumptions C53_normal_current_refuted.
Print Assumptions C53_potential_conserves_current_and_charge.
Print Assumptions C54_tangential_H_continuous.
Print Assumptions C54_B_is_mu_H.
Print Assumptions C54_normal_B_exact_domain.
Print Assumptions C54_H_is_minus_gradient_refuted.
Print Assumptions C54_H_is_minus_gradient_inside.
