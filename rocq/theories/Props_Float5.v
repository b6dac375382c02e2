(** C135: coordinate transforms in floating point. *)
From Coq Require Import ZArith Reals Lra.
From Verif Require Import Vec3 Numpy Model_Spatial Model_Float Model_Float5 Spec_Float Spec_Float4 Proof_Float Proof_Float3 Proof_Float9 Proof_Float11.
Open Scope R_scope.

(** C135: a point converted to cylindrical coordinates and back returns to within 48 unit roundoffs of its distance from the axis, its
    height unchanged *)
Theorem C135_cylindrical_round_trip ct st at2 g : good_cos ct -> good_sin st -> good_atan2 at2 ->
  let g' := fcyl_to_cart ct st (fcart_to_cyl at2 g) in let r := sqrt (vx g ^ 2 + vy g ^ 2) in
  Rabs (vx g' - vx g) <= 48 * / 2 ^ 53 * r /\ Rabs (vy g' - vy g) <= 48 * / 2 ^ 53 * r /\ vz g' = vz g.
Proof. intros A B D. exact (cyl_round ct st at2 A B D g). Qed.
(** ... and the other way: the radius to 13 unit roundoffs, the angle to 48 *)
Theorem C135_cylindrical_round_trip_back ct st at2 g : good_cos ct -> good_sin st -> good_atan2 at2 -> 0 < vx g -> - PI < vy g <= PI ->
  let g' := fcart_to_cyl at2 (fcyl_to_cart ct st g) in
  within 13 (vx g') (vx g) /\ Rabs (vy g' - vy g) <= 48 * / 2 ^ 53 /\ vz g' = vz g.
Proof. intros A B D. exact (cyl_round' ct st at2 A B D g). Qed.
(** C135: through spherical coordinates, to within 100 unit roundoffs of the distance from the origin *)
Theorem C135_spherical_round_trip ct st at2 g : good_cos ct -> good_sin st -> good_atan2 at2 ->
  let g' := fsph_to_cart ct st (fcart_to_sph at2 g) in let e := 100 * / 2 ^ 53 * vnorm g in
  Rabs (vx g' - vx g) <= e /\ Rabs (vy g' - vy g) <= e /\ Rabs (vz g' - vz g) <= e.
Proof. intros A B D. exact (sph_round ct st at2 A B D g). Qed.
(** C135: the cylindrical components of a vector are turned by the azimuth to 27 unit roundoffs of its horizontal length, and come back to 81 *)
Theorem C135_vectors ct st at2 g v : good_cos ct -> good_sin st -> let h := sqrt (vx v ^ 2 + vy v ^ 2) in
  (let w := fcyl_to_cart_vec ct st g v in
   Rabs (vx w - (vx v * cos (vy g) - vy v * sin (vy g))) <= 27 * / 2 ^ 53 * h /\ Rabs (vy w - (vx v * sin (vy g) + vy v * cos (vy g))) <= 27 * / 2 ^ 53 * h /\ vz w = vz v) /\
  (let w := fcyl_to_cart_vec ct st (fcart_to_cyl at2 g) (fcart_to_cyl_vec ct st at2 g v) in
   Rabs (vx w - vx v) <= 81 * / 2 ^ 53 * h /\ Rabs (vy w - vy v) <= 81 * / 2 ^ 53 * h /\ vz w = vz v).
Proof. intros A B h. split; [exact (vec_errors ct st A B g v)|exact (vec_round ct st at2 A B g v)]. Qed.

(** C135, FINDING: coordinates that are 0 do not come back.  However good the library, every point of the y axis other than the origin leaves
    the plane x = 0, every point of the negative x axis the plane y = 0, and through spherical coordinates every point of the plane z = 0
    leaves that plane *)
Theorem C135_zero_coordinates_refuted ct st at2 g : good_cos ct -> good_sin st -> good_atan2 at2 ->
  (vx g = 0 -> vy g <> 0 -> vx (fcyl_to_cart ct st (fcart_to_cyl at2 g)) <> 0) /\
  (vx g < 0 -> vy g = 0 -> vy (fcyl_to_cart ct st (fcart_to_cyl at2 g)) <> 0) /\
  (vz g = 0 -> vx g <> 0 \/ vy g <> 0 -> vz (fsph_to_cart ct st (fcart_to_sph at2 g)) <> 0).
Proof. intros A B D. exact (off_axis ct st at2 A B D g). Qed.

(** correctly rounded library functions *)
Example C135_witness : good_cos (fun t => fl (cos t)) /\ good_sin (fun t => fl (sin t)) /\ good_atan2 (fun y x => fl (atan2 y x)).
Proof.
  assert (W : forall x, within 8 (fl x) x).
  { intros x. unfold within. eapply Rle_trans; [apply fl_err|]. apply Rmult_le_compat_r; [apply Rabs_pos|]. fold u. pose proof u_pos. lra. }
  split; [intros t; apply W|]. split; [intros t; apply W|]. intros y x. split; [apply fl_float|apply W].
Qed.
Print Assumptions C135_cylindrical_round_trip.
Print Assumptions C135_cylindrical_round_trip_back.
Print Assumptions C135_spherical_round_trip.
Print Assumptions C135_vectors.
Print Assumptions C135_zero_coordinates_refuted.
