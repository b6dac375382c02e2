(** C101: evaluating the conversions, the static and gravity sources, the transient half-space
    dipole and the dipole helpers on arrays of points of any shape. *)
From Coq Require Import String Reals List Arith Lia Lra.
From Verif Require Import Vec3 Numpy Model_Utils Model_Spatial Model_Static Model_Gravity Model_TDEM Model_Arrays Spec_Arrays Model_Arrays2 Spec_Arrays2 Proof_Arrays2 Proof_Arrays3 Proof_Arrays4 Proof_Arrays5 Proof_Arrays6.
Import ListNotations.
Open Scope nat_scope.

(** C101: the coordinate conversions work row by row on arrays of any number of axes; the rows of
    the result have width 3 when those of the grid have, and 2 otherwise *)
Theorem C101_conversions (grid vec : nd R) (points : list nat) (k m : nat) : shape grid = points ++ [k] -> 2 <= k ->
  let w := if Nat.eqb k 3 then 3 else 2 in
  row_by_row cylindrical_to_cartesian grid w (cyl_to_cart_array grid) /\
  row_by_row cartesian_to_cylindrical grid w (cart_to_cyl_array grid) /\
  (shape vec = points ++ [m] -> w <= m ->
     row_by_row2 cylindrical_to_cartesian_vec grid vec w (cyl_to_cart_vec_array grid vec) /\
     row_by_row2 cartesian_to_cylindrical_vec grid vec w (cart_to_cyl_vec_array grid vec)) /\
  (k = 3 -> one_vector_per_point (fun p => Ok (spherical_to_cartesian p)) grid (sph_to_cart_array grid) /\
            one_vector_per_point (fun p => Ok (cartesian_to_spherical p)) grid (cart_to_sph_array grid)).
Proof.
  intros E L w. split; [exact (cyl_to_cart_rows grid points k E L)|]. split; [exact (cart_to_cyl_rows grid points k E L)|]. split.
  - intros E' L'. unfold w in L'.
    assert (Lm : 2 <= m /\ (k = 3 -> 3 <= m)) by (destruct (Nat.eqb_spec k 3); lia). destruct Lm as [Lm Lk].
    split; [exact (cyl_to_cart_vec_rows grid vec points k m E L E' Lm Lk)|exact (cart_to_cyl_vec_rows grid vec points k m E L E' Lm Lk)].
  - intros ->. exact (sph_points grid points E).
Qed.
(** C101: ... and raise IndexError on rows of one number *)
Theorem C101_conversions_reject_narrow_rows (grid : nd R) (points : list nat) (k : nat) : shape grid = points ++ [k] -> k < 2 ->
  cyl_to_cart_array grid = Raise IndexError /\ cart_to_cyl_array grid = Raise IndexError.
Proof. exact (narrow_raises grid points k). Qed.

(** C101: the static magnetic dipole and pole, in both coordinate systems *)
Theorem C101_magnetic_dipole_and_pole (s : mdipole) (coordinates : string) (xyz : nd R) (points : list nat) : shape xyz = points ++ [3] ->
  lower coordinates = "cartesian"%string \/ lower coordinates = "cylindrical"%string ->
  one_vector_per_point (mdipole_vector_potential s coordinates) xyz (mdipole_vector_potential_array s coordinates (XyzArray xyz)) /\
  one_vector_per_point (mdipole_flux_density s coordinates) xyz (mdipole_flux_density_array s coordinates (XyzArray xyz)) /\
  one_vector_per_point (mdipole_field s coordinates) xyz (mdipole_field_array s coordinates (XyzArray xyz)) /\
  one_vector_per_point (mpole_flux_density s coordinates) xyz (mpole_flux_density_array s coordinates (XyzArray xyz)) /\
  one_vector_per_point (mpole_field s coordinates) xyz (mpole_field_array s coordinates (XyzArray xyz)).
Proof.
  intros E C.
  assert (HA := wc_points _ (md_A s) coordinates points xyz (fun b v => md_A_points s points b v) C E).
  assert (HB := wc_points _ (md_B s) coordinates points xyz (fun b v => md_B_points s points b v) C E).
  assert (HP := wc_points _ (mp_B s) coordinates points xyz (fun b v => mp_B_points s points b v) C E).
  split; [exact HA|]. split; [exact HB|]. split; [exact (div_vector _ (md_mu s) xyz _ HB)|]. split; [exact HP|exact (div_vector _ (md_mu s) xyz _ HP)].
Qed.
(** C101: any other coordinate system is an AssertionError, for every array *)
Theorem C101_unknown_coordinates (s : mdipole) (coordinates : string) (xyz : xyz_arg R) :
  lower coordinates <> "cartesian"%string -> lower coordinates <> "cylindrical"%string ->
  mdipole_vector_potential_array s coordinates xyz = Raise AssertionError /\ mdipole_flux_density_array s coordinates xyz = Raise AssertionError /\
  mdipole_field_array s coordinates xyz = Raise AssertionError /\ mpole_flux_density_array s coordinates xyz = Raise AssertionError /\
  mpole_field_array s coordinates xyz = Raise AssertionError.
Proof.
  intros H1 H2. unfold mdipole_field_array, mpole_field_array, mdipole_vector_potential_array, mdipole_flux_density_array, mpole_flux_density_array.
  rewrite !wc_rejects_name by assumption. repeat split.
Qed.

(** C101: line and point currents in a whole space *)
Theorem C101_line_current (s : lcur) (xyz : nd R) (points : list nat) : shape xyz = points ++ [3] ->
  one_number_per_point (lc_scalar_potential s) xyz (lc_V_array s (XyzArray xyz)) /\
  one_vector_per_point (fun p => Ok (lc_electric_field s p)) xyz (lc_E_array s (XyzArray xyz)) /\
  one_vector_per_point (fun p => Ok (lc_current_density s p)) xyz (lc_J_array s (XyzArray xyz)).
Proof.
  intros E. assert (HE : one_vector_per_point (fun p => Ok (lc_electric_field s p)) xyz (lc_E_array s (XyzArray xyz))).
  { destruct (lc_E_points s points xyz E) as (e & He & Ee & Hv). exists e. rewrite E, removelast_snoc. split; [exact He|]. split; [exact Ee|]. intros j Hj. rewrite (Hv j Hj). reflexivity. }
  split; [|split; [exact HE|exact (scal_vector _ (lc_sigma s) xyz _ HE)]].
  destruct (lc_V_scalars s points xyz E) as (e & He & Ee & Hv). exists e. rewrite E, removelast_snoc. auto.
Qed.

(** C101: a point current in a half-space: pointwise if no point is above the surface; one point
    above it makes the whole call raise *)
Theorem C101_half_space_point_current (s : hsp) (xyz : nd R) (points : list nat) : shape xyz = points ++ [3] ->
  (all_below xyz ->
     one_number_per_point (hs_V s) xyz (hs_V_array s (XyzArray xyz)) /\
     one_vector_per_point (fun p => Ok (hs_E s p)) xyz (hs_E_array s (XyzArray xyz)) /\
     one_vector_per_point (fun p => Ok (vdiv (hs_E s p) (hs_rho s))) xyz (hs_J_array s (XyzArray xyz))) /\
  (forall j, index_of points j -> (0 < vz (vec_at xyz j))%R ->
     hs_V_array s (XyzArray xyz) = Raise ValueError /\ hs_E_array s (XyzArray xyz) = Raise ValueError /\ hs_J_array s (XyzArray xyz) = Raise ValueError).
Proof.
  intros E. split.
  - intros B. unfold all_below in B. rewrite E, removelast_snoc in B. pose proof (above_false points xyz E B) as N.
    assert (HE : one_vector_per_point (fun p => Ok (hs_E s p)) xyz (hs_E_array s (XyzArray xyz))).
    { destruct (hs_E_points s points xyz E N) as (e & He & Ee & Hv). exists e. rewrite E, removelast_snoc. split; [exact He|]. split; [exact Ee|]. intros j Hj. rewrite (Hv j Hj). reflexivity. }
    split; [|split; [exact HE|exact (div_vector _ (hs_rho s) xyz _ HE)]].
    destruct (hs_V_scalars s points xyz E N) as (e & He & Ee & Hv). exists e. rewrite E, removelast_snoc. auto.
  - intros j Hj H. pose proof (above_true points xyz j E Hj H) as A. unfold hs_J_array, hs_V_array, hs_E_array.
    destruct (check_points points xyz E) as [-> _]. cbn [rbind]. rewrite A. repeat split.
Qed.

(** C101: a current dipole over a half-space, measured at one array of points *)
Theorem C101_half_space_dipole (s : dhsp) (xyz : nd R) (points : list nat) : shape xyz = points ++ [3] -> all_below xyz ->
  one_number_per_point (dh_V s) xyz (dh_V_array s (XyzArray xyz) None) /\
  one_vector_per_point (fun p => Ok (dh_E s p)) xyz (dh_E_array s (XyzArray xyz) None) /\
  one_vector_per_point (fun p => Ok (vdiv (dh_E s p) (dh_rho s))) xyz (dh_J_array s (XyzArray xyz) None).
Proof.
  intros E B. unfold all_below in B. rewrite E, removelast_snoc in B.
  assert (HE : one_vector_per_point (fun p => Ok (dh_E s p)) xyz (dh_E_array s (XyzArray xyz) None)).
  { destruct (dh_E_none s points xyz E B) as (e & He & Ee & Hv). exists e. rewrite E, removelast_snoc. split; [exact He|]. split; [exact Ee|]. intros j Hj. rewrite (Hv j Hj). reflexivity. }
  split; [|split; [exact HE|exact (div_vector _ (dh_rho s) xyz _ HE)]].
  destruct (dh_V_none s points xyz E B) as (e & He & Ee & Hv). exists e. rewrite E, removelast_snoc. auto.
Qed.
(** C101: ... and between two arrays M and N, whose shapes numpy broadcasts against one another:
    entry [ix] is the value at M[ix] minus the value at N[ix], read with broadcasting; shapes that
    do not broadcast are a ValueError *)
Theorem C101_half_space_dipole_two_electrodes (s : dhsp) (m n : nd R) (pm pn : list nat) : shape m = pm ++ [3] -> shape n = pn ++ [3] ->
  all_below m -> all_below n ->
  match bshape pm pn with
  | None => dh_V_array s (XyzArray m) (Some (XyzArray n)) = Raise ValueError /\ dh_E_array s (XyzArray m) (Some (XyzArray n)) = Raise ValueError
  | Some u =>
      exists v e, dh_V_array s (XyzArray m) (Some (XyzArray n)) = Ok v /\ shape v = u /\
        dh_E_array s (XyzArray m) (Some (XyzArray n)) = Ok e /\ shape e = u ++ [3] /\
        forall ix, index_of u ix ->
          get v ix = (dh_V s (vec_at m (bindex pm ix)) - dh_V s (vec_at n (bindex pn ix)))%R /\
          vec_at e ix = vsub (dh_E s (vec_at m (bindex pm ix))) (dh_E s (vec_at n (bindex pn ix)))
  end.
Proof.
  intros Em En Bm Bn. unfold all_below in Bm, Bn. rewrite Em, removelast_snoc in Bm. rewrite En, removelast_snoc in Bn.
  pose proof (dh_V_some s pm pn m n Em En Bm Bn) as HV. pose proof (dh_E_some s pm pn m n Em En Bm Bn) as HE.
  destruct (bshape pm pn) as [u|]; [|split; assumption].
  destruct HV as (v & H1 & H2 & H3). destruct HE as (e & H4 & H5 & H6). exists v, e. split; [exact H1|]. split; [exact H2|]. split; [exact H4|]. split; [exact H5|].
  intros ix Hi. split; [exact (H3 ix Hi)|exact (H6 ix Hi)].
Qed.

(** C101: the gravity point mass: one number, one vector, one 3 x 3 matrix per point *)
Theorem C101_point_mass (s : point_mass) (xyz : nd R) (points : list nat) : shape xyz = points ++ [3] ->
  one_number_per_point (pm_potential s) xyz (pm_potential_array s (XyzArray xyz)) /\
  one_vector_per_point (fun p => Ok (pm_field s p)) xyz (pm_field_array s (XyzArray xyz)) /\
  one_matrix_per_point (pm_gradient s) xyz (pm_gradient_array s (XyzArray xyz)).
Proof.
  intros E. split; [|split; [|exact (pm_T_matrices s points xyz E)]].
  - destruct (pm_u_scalars s points xyz E) as (e & He & Ee & Hv). exists e. rewrite E, removelast_snoc. auto.
  - destruct (pm_g_points s points xyz E) as (e & He & Ee & Hv). exists e. rewrite E, removelast_snoc. split; [exact He|]. split; [exact Ee|]. intros j Hj. rewrite (Hv j Hj). reflexivity.
Qed.

(** C101: the transient dipole over a half-space, for arrays of times and of points of two or
    three coordinates *)
Theorem C101_transient_half_space_dipole (s : tvmd) (time xy : nd R) (points : list nat) (k : nat) : shape xy = points ++ [k] ->
  (k = 2 \/ k = 3 ->
     rows_per_time (fun t row => tv_H (tv_at s t) row) time xy (tv_H_array s time (XyzArray xy)) /\
     rows_per_time (fun t row => tv_dH (tv_at s t) row) time xy (tv_dH_array s time (XyzArray xy)) /\
     rows_per_time (fun t row => tv_B (tv_at s t) row) time xy (tv_B_array s time (XyzArray xy)) /\
     rows_per_time (fun t row => tv_dB (tv_at s t) row) time xy (tv_dB_array s time (XyzArray xy))) /\
  (k <> 2 -> k <> 3 ->
     tv_H_array s time (XyzArray xy) = Raise ValueError /\ tv_dH_array s time (XyzArray xy) = Raise ValueError /\
     tv_B_array s time (XyzArray xy) = Raise ValueError /\ tv_dB_array s time (XyzArray xy) = Raise ValueError).
Proof.
  intros E. split.
  - intros Hk. assert (H1 := tv_rows vmd_H_array vmd_H s time xy points k vmd_H_rows E Hk). assert (H2 := tv_rows vmd_dH_array vmd_dH s time xy points k vmd_dH_rows E Hk).
    split; [exact H1|]. split; [exact H2|]. split; [exact (scal_rows _ (td_mu (tv_med s)) time xy _ H1)|exact (scal_rows _ (td_mu (tv_med s)) time xy _ H2)].
  - intros N2 N3. unfold tv_B_array, tv_dB_array, tv_H_array, tv_dH_array. rewrite !(tv_rejects _ s time xy points k E N2 N3). repeat split.
Qed.

(** C101: a last axis other than 3 is a ValueError of every source above *)
Theorem C101_wrong_width (xyz : nd R) (points : list nat) (k : nat) : shape xyz = points ++ [k] -> k <> 3 ->
  (forall s c, lower c = "cartesian"%string \/ lower c = "cylindrical"%string ->
     mdipole_vector_potential_array s c (XyzArray xyz) = Raise ValueError /\ mdipole_flux_density_array s c (XyzArray xyz) = Raise ValueError /\
     mdipole_field_array s c (XyzArray xyz) = Raise ValueError /\ mpole_flux_density_array s c (XyzArray xyz) = Raise ValueError /\ mpole_field_array s c (XyzArray xyz) = Raise ValueError) /\
  (forall s, lc_V_array s (XyzArray xyz) = Raise ValueError /\ lc_E_array s (XyzArray xyz) = Raise ValueError /\ lc_J_array s (XyzArray xyz) = Raise ValueError) /\
  (forall s, hs_V_array s (XyzArray xyz) = Raise ValueError /\ hs_E_array s (XyzArray xyz) = Raise ValueError /\ hs_J_array s (XyzArray xyz) = Raise ValueError) /\
  (forall s n, dh_V_array s (XyzArray xyz) n = Raise ValueError /\ dh_E_array s (XyzArray xyz) n = Raise ValueError /\ dh_J_array s (XyzArray xyz) n = Raise ValueError) /\
  (forall s, pm_potential_array s (XyzArray xyz) = Raise ValueError /\ pm_field_array s (XyzArray xyz) = Raise ValueError /\ pm_gradient_array s (XyzArray xyz) = Raise ValueError).
Proof.
  intros E N. assert (K : check_xyz_dim (XyzArray xyz) 3 = Raise ValueError) by (rewrite (check_width xyz points k 3 E); apply Nat.eqb_neq in N; rewrite N; reflexivity).
  split; [|split; [|split; [|split]]].
  - intros s c Hc. unfold mdipole_field_array, mpole_field_array, mdipole_vector_potential_array, mdipole_flux_density_array, mpole_flux_density_array, with_coordinates_array. rewrite K. cbn [rbind].
    destruct Hc as [-> | ->]; repeat split.
  - intros s. unfold lc_J_array, lc_V_array, lc_E_array. rewrite K. repeat split.
  - intros s. unfold hs_J_array, hs_V_array, hs_E_array. rewrite K. repeat split.
  - intros s n. unfold dh_J_array, dh_V_array, dh_E_array, dh_array. rewrite K. repeat split.
  - intros s. unfold pm_potential_array, pm_field_array, pm_gradient_array. rewrite K. repeat split.
Qed.

(** C101: the helpers of the dipole classes on arrays of points *)
Theorem C101_dipole_helpers (location orientation : vec3) (xyz : nd R) (points : list nat) (k : nat) : shape xyz = points ++ [k] ->
  (k = 3 ->
     one_vector_per_point (fun p => Ok (vsub p location)) xyz (bd_vector_distance location xyz) /\
     one_number_per_point (fun p => vnorm (vsub p location)) xyz (bd_distance location xyz) /\
     one_number_per_point (fun p => vdot p orientation) xyz (bd_dot_orientation orientation xyz) /\
     one_vector_per_point (fun p => Ok (vcross p orientation)) xyz (bd_cross_orientation orientation xyz)) /\
  (k <> 1 -> k <> 3 ->
     bd_vector_distance location xyz = Raise ValueError /\ bd_distance location xyz = Raise ValueError /\ bd_dot_orientation orientation xyz = Raise ValueError /\
     (k <> 2 -> bd_cross_orientation orientation xyz = Raise ValueError)).
Proof.
  intros E. split; [intros ->; exact (helpers_points location orientation xyz points E)|exact (helpers_reject location orientation xyz points k E)].
Qed.
(** C101: ... rows of one number x are not rejected: the distances are those of the point (x, x, x) *)
Theorem C101_dipole_helpers_reject_width_one_refuted (location : vec3) (xyz : nd R) (points : list nat) : shape xyz = points ++ [1] ->
  exists e d, bd_vector_distance location xyz = Ok e /\ shape e = points ++ [3] /\ bd_distance location xyz = Ok d /\ shape d = points /\
  forall j, index_of points j -> let x := get xyz (j ++ [0]) in vec_at e j = vsub (V3 x x x) location /\ get d j = vnorm (vsub (V3 x x x) location).
Proof. exact (helpers_width_one location xyz points). Qed.

(** ** Concrete cases *)
(** a 2 x 1 array of points below the surface *)
Example C101_witness : let xyz := ND [2; 1; 3] (fun ix => (- INR (last ix 0%nat) - INR (hd 0%nat ix))%R) in
  shape xyz = [2; 1] ++ [3] /\ all_below xyz /\ index_of [2; 1] [1; 0] /\ vec_at xyz [1; 0] = V3 (-1) (-2) (-3).
Proof.
  split; [reflexivity|]. split; [|split; [repeat constructor|]].
  - intros j Hj. cbn [vec_at vz get]. unfold vec_at. cbn [vz get]. rewrite last_last. pose proof (pos_INR 2). pose proof (pos_INR (hd 0 (j ++ [2]))). lra.
  - unfold vec_at. cbn [get app last hd INR]. apply vec3_eq; cbn [vx vy vz]; lra.
Qed.
(** a 2 x 1 array against a single point and against a row of three *)
Example C101_broadcast_witness : bshape [2; 1] [] = Some [2; 1] /\ bshape [2; 1] [4] = Some [2; 4] /\ bindex [2; 1] [1; 3] = [1; 0] /\ bindex [4] [1; 3] = [3] /\ bshape [2] [3] = None.
Proof. repeat split. Qed.
(** the gradient at two points is an array of shape (2, 3, 3) *)
Example C101_gradient_shape (s : point_mass) : let xyz := ND [2; 3] (fun ix => INR (last ix 0 + hd 0 ix)) in
  exists e, pm_gradient_array s (XyzArray xyz) = Ok e /\ shape e = [2; 3; 3] /\ get e [1; 2; 0] = vx (m2 (pm_gradient s (V3 1 2 3))).
Proof.
  intros xyz. destruct (C101_point_mass s xyz [2] eq_refl) as (_ & _ & e & H & S & G). exists e. split; [exact H|]. split; [exact S|].
  change [1; 2; 0] with ([1] ++ [2; 0]). rewrite (G [1] 2 0); [|repeat constructor|lia|lia]. unfold entry, xyz, vec_at. cbn [get app last hd INR Nat.add component m2].
  replace (1 + 1)%R with 2%R by lra. replace (2 + 1)%R with 3%R by lra. reflexivity.
Qed.
Print Assumptions C101_conversions.
Print Assumptions C101_conversions_reject_narrow_rows.
Print Assumptions C101_magnetic_dipole_and_pole.
Print Assumptions C101_unknown_coordinates.
Print Assumptions C101_line_current.
Print Assumptions C101_half_space_point_current.
Print Assumptions C101_half_space_dipole.
Print Assumptions C101_half_space_dipole_two_electrodes.
Print Assumptions C101_point_mass.
Print Assumptions C101_transient_half_space_dipole.
Print Assumptions C101_wrong_width.
Print Assumptions C101_dipole_helpers.
Print Assumptions C101_dipole_helpers_reject_width_one_refuted.
