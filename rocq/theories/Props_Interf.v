(** The interferogram properties of /verif/properties.jsonl. *)
From Coq Require Import Ascii String Reals List Arith Lia Lra.
From Verif Require Import Numpy Model_Interf Spec_Interf Proof_Interf Proof_Dates Proof_Interf2.
Import ListNotations.
Open Scope R_scope.

(** ** C75: line of sight *)
Theorem C75_unit_vectors : forall latlon g l out, orbiting g -> get_LOS_vector latlon g (LList l) = Ok out ->
  length out = length l /\ forall o, In o out -> exists v, o = Some v /\
    unit3 v /\ horizontal_dot v (track (satellite_azimuth g)) = 0 /\ 0 <= up v.
Proof. exact los_list_unit. Qed.
Theorem C75_succeeds : forall latlon g l, orbiting g -> l <> [] -> (exists o, latlon (ref0 g) (ref1 g) = Ok o) ->
  (forall u, In u l -> exists p, latlon (fst u) (snd u) = Ok p) ->
  exists out, get_LOS_vector latlon g (LList l) = Ok out.
Proof. exact los_ok. Qed.
Theorem C75_batch : forall latlon g l out n u, get_LOS_vector latlon g (LList l) = Ok out -> nth_error l n = Some u ->
  exists o, nth_error out n = Some o /\ get_LOS_vector latlon g (LPoint u) = Ok [o].
Proof. exact los_batch. Qed.
(** An array with a location in each row is always rejected. *)
Theorem C75_array_of_locations_refuted : forall latlon g l out, get_LOS_vector latlon g (LRows l) <> Ok out.
Proof. exact los_rows_fail. Qed.

(** a satellite at 800 km, and a stand-in for utm.to_latlon *)
Definition w_g := IG 0 2 3 10 20 1000 2000 2 3 500000 4600000 23 (-166) 788792 6371000.
Definition w_latlon (e n : R) : result (R * R) := Ok (n / 111000, e / 111000).
Example C75_witness : orbiting w_g /\ exists out, get_LOS_vector w_latlon w_g (LList [(500000, 4600000); (510000, 4600000)]) = Ok out.
Proof.
  assert (O : orbiting w_g) by (split; cbn; lra). split; [exact O|]. apply C75_succeeds; [exact O|discriminate| |].
  - eexists. reflexivity.
  - intros u _. eexists. reflexivity.
Qed.

(** ** C90: incidence *)
(** At the reference point the incidence angle is ref_incidence, looking to the right. *)
Theorem C90_reference_incidence : forall latlon g l out, get_LOS_vector latlon g (LList l) = Ok out -> orbiting g ->
  forall n, nth_error l n = Some (ref0 g, ref1 g) -> -90 < ref_incidence g < 90 ->
  exists v, nth_error out n = Some (Some v) /\ up v = cos (ref_incidence g * PI / 180) /\
    horizontal_dot v (right_of (satellite_azimuth g)) = - sin (ref_incidence g * PI / 180).
Proof. exact call_reference. Qed.
(** Everywhere above the horizon the vector points to the satellite abeam of the point. *)
Theorem C90_points_to_satellite : forall latlon g l out, get_LOS_vector latlon g (LList l) = Ok out -> orbiting g ->
  forall n u lat0 lon0 lat lon beta d,
  latlon (ref0 g) (ref1 g) = Ok (lat0, lon0) -> nth_error l n = Some u -> latlon (fst u) (snd u) = Ok (lat, lon) ->
  nadir_angle g beta -> left_angle lon lat lon0 lat0 (satellite_azimuth g) d -> 0 < satellite_up g (beta - d) ->
  exists v k, nth_error out n = Some (Some v) /\ 0 < k /\
    k * horizontal_dot v (right_of (satellite_azimuth g)) = - satellite_left g (beta - d) /\
    k * up v = satellite_up g (beta - d).
Proof. exact call_points_to_satellite. Qed.
(** Points further to the right of the track are seen at a larger incidence. *)
Theorem C90_incidence_grows_to_the_right : forall latlon g l out, get_LOS_vector latlon g (LList l) = Ok out -> orbiting g ->
  forall n1 n2 u1 u2 lat0 lon0 lat1 lon1 lat2 lon2 beta d1 d2 v1 v2,
  latlon (ref0 g) (ref1 g) = Ok (lat0, lon0) ->
  nth_error l n1 = Some u1 -> latlon (fst u1) (snd u1) = Ok (lat1, lon1) ->
  nth_error l n2 = Some u2 -> latlon (fst u2) (snd u2) = Ok (lat2, lon2) ->
  nadir_angle g beta -> left_angle lon1 lat1 lon0 lat0 (satellite_azimuth g) d1 ->
  left_angle lon2 lat2 lon0 lat0 (satellite_azimuth g) d2 ->
  0 < satellite_up g (beta - d1) -> 0 < satellite_up g (beta - d2) ->
  -90 < beta - d1 -> beta - d2 < 90 -> d2 < d1 ->
  nth_error out n1 = Some (Some v1) -> nth_error out n2 = Some (Some v2) ->
  horizontal_dot v2 (right_of (satellite_azimuth g)) < horizontal_dot v1 (right_of (satellite_azimuth g)).
Proof. exact call_monotone. Qed.
(** The two angles these theorems mention exist and are unique. *)
Theorem C90_nadir_angle_exists : forall g, orbiting g -> exists beta, nadir_angle g beta.
Proof. exact nadir_exists. Qed.
Theorem C90_left_angle_exists_unique : forall x y ox oy az,
  exists d, left_angle x y ox oy az d /\ forall d', left_angle x y ox oy az d' -> d' = d.
Proof.
  intros. destruct (ang_to_gc_spec x y ox oy az) as (d & _ & L). exists d. split; [exact L|].
  intros d' L'. exact (left_angle_unique _ _ _ _ _ _ _ L' L).
Qed.

(** With vertical incidence at the reference and a track due north through (0, 0), the points on
    the equator at longitudes 0 and 1 have angles 0 and -1; both see the satellite. *)
Definition w_n := IG 0 2 3 10 20 1000 2000 2 3 0 0 0 0 788792 6371000.
Lemma w_n_orbit : orbiting w_n. Proof. split; cbn; lra. Qed.
Lemma w_n_nadir : nadir_angle w_n 0.
Proof. unfold nadir_angle. cbn. split; [lra|]. replace (0 - 0) with 0 by ring. replace (0 * PI / 180) with 0 by field. rewrite sin_0. ring. Qed.
Lemma w_n_left : left_angle 1 0 0 0 0 (-1).
Proof.
  unfold left_angle. split; [lra|]. unfold dot3, east, north, sphere_point.
  replace (0 * PI / 180) with 0 by field. rewrite sin_0, cos_0.
  replace (-1 * PI / 180) with (- (1 * PI / 180)) by field. rewrite sin_neg. ring.
Qed.
Lemma w_n_up0 : 0 < satellite_up w_n (0 - 0).
Proof. unfold satellite_up. cbn. replace ((0 - 0) * PI / 180) with 0 by field. rewrite cos_0. lra. Qed.
Lemma w_n_up1 : 0 < satellite_up w_n (0 - -1).
Proof.
  unfold satellite_up. cbn. replace ((0 - -1) * PI / 180) with (PI / 180) by field.
  assert (C : 1 - (PI / 180) * (PI / 180) / 2 <= cos (PI / 180)).
  { pose proof PI_RGT_0. pose proof PI_4.
    replace (PI / 180) with (2 * (PI / 360)) at 3 by field. rewrite cos_2a_sin.
    assert (0 <= sin (PI / 360)) by (apply sin_ge_0; lra).
    assert (sin (PI / 360) < PI / 360) by (apply sin_lt_x; lra). nra. }
  pose proof PI_RGT_0. pose proof PI_4. nra.
Qed.
Definition w_deg (e n : R) : result (R * R) := Ok (n, e).
Example C90_witness : exists out v, get_LOS_vector w_deg w_n (LList [(0, 0); (1, 0)]) = Ok out /\
  orbiting w_n /\ nadir_angle w_n 0 /\ left_angle 1 0 0 0 0 (-1) /\ 0 < satellite_up w_n (0 - -1) /\
  nth_error out 1 = Some (Some v) /\ horizontal_dot v (right_of 0) < 0.
Proof.
  destruct (C75_succeeds w_deg w_n [(0, 0); (1, 0)] w_n_orbit) as [out E]; [discriminate|eexists; reflexivity|intros u _; eexists; reflexivity|].
  destruct (C90_reference_incidence _ _ _ _ E w_n_orbit 0 eq_refl) as (v0 & E0 & _ & H0); [cbn; lra|].
  destruct (C90_points_to_satellite _ _ _ _ E w_n_orbit 1 (1, 0) 0 0 0 1 0 (-1) eq_refl eq_refl eq_refl w_n_nadir w_n_left w_n_up1) as (v & k & E1 & _).
  exists out, v. split; [exact E|]. split; [exact w_n_orbit|]. split; [exact w_n_nadir|]. split; [exact w_n_left|].
  split; [exact w_n_up1|]. split; [exact E1|].
  assert (L0 : left_angle 0 0 0 0 0 0) by (apply left_angle_ref).
  pose proof (C90_incidence_grows_to_the_right _ _ _ _ E w_n_orbit 0 1 (0, 0) (1, 0) 0 0 0 0 0 1 0 0 (-1) v0 v
    eq_refl eq_refl eq_refl eq_refl eq_refl w_n_nadir L0 w_n_left w_n_up0 w_n_up1 ltac:(lra) ltac:(lra) ltac:(lra) E0 E1) as M.
  cbn [satellite_azimuth w_n] in *. rewrite H0 in M. cbn [ref_incidence w_n] in M.
  replace (0 * PI / 180) with 0 in M by field. rewrite sin_0 in M. lra.
Qed.

(** ** C78: raster layout *)
Theorem C78_layout : forall g fresh m, length (m (data_buf g)) = (shape0 g * shape1 g)%nat ->
  exists v, fst (get_plot_data g fresh m) = Ok (vectorNx g, vectorNy g, v) /\
    v_rows v = shape1 g /\ v_cols v = shape0 g /\
    (forall a b, (a < shape0 g)%nat -> (b < shape1 g)%nat ->
       shown (scaling g) (nth (a + shape0 g * b) (m (data_buf g)) None)
         (vread (snd (get_plot_data g fresh m)) v (shape1 g - 1 - b) a)).
Proof. exact plot_data_ok. Qed.
(** Column a of the image lies between edges a and a + 1, row shape1 - 1 - b between edges
    shape1 - (b + 1) and shape1 - b: the raster starts in the top left corner. *)
Theorem C78_easting_edges : forall g, length (vectorNx g) = S (shape0 g) /\
  forall k, (k <= shape0 g)%nat -> nth k (vectorNx g) 0 = cell_left g k.
Proof. exact vectorNx_spec. Qed.
Theorem C78_northing_edges : forall g, length (vectorNy g) = S (shape1 g) /\
  forall b, (b <= shape1 g)%nat -> nth (shape1 g - b) (vectorNy g) 0 = cell_top g b.
Proof. exact vectorNy_spec. Qed.
Theorem C78_data_kept : forall g fresh m, fresh <> data_buf g ->
  forall b, b <> fresh -> snd (get_plot_data g fresh m) b = m b.
Proof. exact stored_data_kept. Qed.
Theorem C78_wrong_size : forall g fresh m, length (m (data_buf g)) <> (shape0 g * shape1 g)%nat ->
  fst (get_plot_data g fresh m) = Raise ValueError.
Proof. exact plot_data_size. Qed.
(** Wrapped phases are the representatives in [0, fringe). *)
Theorem C78_wrap : forall x y, 0 < y -> 0 <= fmod x y < y /\ exists k, x = fmod x y + IZR k * y.
Proof. exact fmod_spec. Qed.
Theorem C78_wrap_unique : forall x y r k, 0 <= r < y -> x = r + IZR k * y -> fmod x y = r.
Proof. exact fmod_unique. Qed.
Definition w_mem : memory := fun i => match i with O => [Some 1; Some 0; Some 3; None; Some 5; Some 6] | _ => [] end.
Example C78_witness : length (w_mem (data_buf w_g)) = (shape0 w_g * shape1 w_g)%nat /\
  exists x y v, fst (get_plot_data w_g 1 w_mem) = Ok (x, y, v) /\
    vread (snd (get_plot_data w_g 1 w_mem)) v 2 0 = Some (1 * 2) /\
    vread (snd (get_plot_data w_g 1 w_mem)) v 2 1 = None /\ snd (get_plot_data w_g 1 w_mem) 0%nat = w_mem 0%nat.
Proof.
  split; [reflexivity|]. destruct (C78_layout w_g 1 w_mem eq_refl) as (v & E & _ & _ & S).
  eexists _, _, v. split; [exact E|]. split; [|split].
  - specialize (S 0%nat 0%nat ltac:(cbn; lia) ltac:(cbn; lia)). cbn [shown nth w_g data_buf shape0 shape1 Nat.add Nat.mul w_mem Nat.sub] in S.
    destruct S as [[? _]|[_ S]]; [lra|exact S].
  - specialize (S 1%nat 0%nat ltac:(cbn; lia) ltac:(cbn; lia)). cbn [shown nth w_g data_buf shape0 shape1 Nat.add Nat.mul w_mem Nat.sub] in S.
    destruct S as [[_ S]|[? _]]; [exact S|lra].
  - apply C78_data_kept; discriminate.
Qed.

(** ** C79: dates *)
Theorem C79_date_roundtrip : forall sep t, sep = "-"%char \/ sep = "/"%char -> calendar t -> at_midnight t ->
  date_time_from_json (written_date sep t) = Ok t.
Proof. exact date_roundtrip. Qed.
Theorem C79_iso_roundtrip : forall t, calendar t -> date_time_from_json (written_iso t) = Ok t.
Proof. exact iso_roundtrip. Qed.
Theorem C79_accepted_is_calendar : forall s t, date_time_from_json s = Ok t -> calendar t.
Proof. exact accepted_is_calendar. Qed.
(** No ten or twenty character string is read as anything but what it says. *)
Theorem C79_date_accepts_only : forall s t, String.length s = 10%nat -> date_time_from_json s = Ok t ->
  at_midnight t /\ exists d, written_day (day t) d /\
    slashes s = (pad4 (year t) ++ String "/" (pad2 (month t) ++ String "/" d))%string.
Proof. exact date_accepts_only. Qed.
Theorem C79_iso_accepts_only : forall s t, String.length s = 20%nat -> date_time_from_json s = Ok t ->
  exists d, written_day (day t) d /\
    lowercase s = lowercase (pad4 (year t) ++ String "-" (pad2 (month t) ++ String "-" (d ++ String "T"
      (pad2 (hour t) ++ String ":" (pad2 (minute t) ++ String ":" (pad2 (second t) ++ "Z"))))))%string.
Proof. exact iso_accepts_only. Qed.
(** Exactly these strings that do not have ten characters are read. *)
Theorem C79_iso_accepts_exactly : forall s t, String.length s <> 10%nat ->
  (date_time_from_json s = Ok t <-> calendar t /\ iso_text t s).
Proof. exact iso_exactly. Qed.
Example C79_short_iso : date_time_from_json "2009-4-6t1:2:3z" = Ok (DT 2009 4 6 1 2 3).
Proof. reflexivity. Qed.
(** A string that is not read raises ValueError. *)
Theorem C79_unreadable_raises_value_error : forall s, (forall t, date_time_from_json s <> Ok t) -> date_time_from_json s = Raise ValueError.
Proof.
  intros s. assert (X : forall fmt v, (forall t, strptime fmt v <> Ok t) -> strptime fmt v = Raise ValueError).
  { intros fmt v. unfold strptime. destruct (fmt v) as [|[t [|c r]] l]; [reflexivity| |reflexivity]. destruct (constructible t); [intros N; now elim (N t)|reflexivity]. }
  unfold date_time_from_json. destruct Nat.eqb; apply X.
Qed.
Example C79_unreadable : forall t, date_time_from_json "yesterday" <> Ok t.
Proof. intros t. discriminate. Qed.
(** Assigning a date stores it, or raises TypeError. *)
Theorem C79_setter : forall v,
  (exists t, date_setter v = Ok t /\ (v = VDate t \/ (exists s, v = VString s /\ date_time_from_json s = Ok t))) \/
  date_setter v = Raise TypeError.
Proof. exact date_setter_ok_or_type_error. Qed.
Example C79_witness : calendar (DT 2012 2 29 23 5 9) /\ written_iso (DT 2012 2 29 23 5 9) = "2012-02-29T23:05:09Z"%string /\
  written_date "/" (DT 2009 4 6 0 0 0) = "2009/04/06"%string /\
  date_time_from_json "2009-04-06" = Ok (DT 2009 4 6 0 0 0) /\ date_time_from_json "2011-02-29" = Raise ValueError.
Proof. split; [apply constructible_iff; reflexivity|]. repeat split; reflexivity. Qed.
Print Assumptions C75_unit_vectors.
Print Assumptions C75_succeeds.
Print Assumptions C75_batch.
Print Assumptions C75_array_of_locations_refuted.
Print Assumptions C90_reference_incidence.
Print Assumptions C90_points_to_satellite.
Print Assumptions C90_incidence_grows_to_the_right.
Print Assumptions C90_nadir_angle_exists.
Print Assumptions C90_left_angle_exists_unique.
Print Assumptions C78_layout.
Print Assumptions C78_easting_edges.
Print Assumptions C78_northing_edges.
Print Assumptions C78_data_kept.
Print Assumptions C78_wrong_size.
Print Assumptions C78_wrap.
Print Assumptions C78_wrap_unique.
Print Assumptions C79_date_roundtrip.
Print Assumptions C79_iso_roundtrip.
Print Assumptions C79_accepted_is_calendar.
Print Assumptions C79_date_accepts_only.
Print Assumptions C79_iso_accepts_only.
Print Assumptions C79_setter.
Print Assumptions C79_iso_accepts_exactly.
Print Assumptions C79_unreadable_raises_value_error.
