(** Properties C41-C43: CircularLoopWholeSpace (geoana/em/static/wholespace.py). *)
From Coq Require Import String Reals Lra.
From Coquelicot Require Import Coquelicot.
From Verif Require Import Vec3 Calculus Numpy Model_Static Spec_Static Spec_Loop Proof_Loop2 Proof_Loop3 Proof_Loop4 Proof_Loop5.
Open Scope R_scope.

(** ** C41: B = curl A, and div A = 0, off the wire and outside the small radius branch *)
Theorem C41_vector_potential_is_defined :
  forall s : cloop, proper_axis (cl_orient s) ->
  exists A : vec3 -> vec3, forall q, loop_vector_potential s "cartesian"%string q = Ok (A q).
Proof. exact loop_A_total. Qed.
Theorem C41_B_is_curl_A :
  forall (s : cloop) (p : vec3) (A : vec3 -> vec3), 0 < cl_radius s -> proper_axis (cl_orient s) ->
  (forall q, loop_vector_potential s "cartesian"%string q = Ok (A q)) ->
  let rho := axis_distance (cl_orient s) (cl_loc s) p in let h := axis_height (cl_orient s) (cl_loc s) p in
  1 / 10 ^ 6 < rho ^ 2 / (cl_radius s ^ 2 + h ^ 2) -> ~ (rho = cl_radius s /\ h = 0) ->
  (exists B, loop_flux_density s "cartesian"%string p = Ok B /\ is_curl A p B) /\ is_div A p 0.
Proof. exact loop_curl. Qed.
(** B is the Biot-Savart integral once around the loop; (u, v) is any orthonormal
    pair with u x v the orientation *)
Theorem C41_biot_savart :
  forall (s : cloop) (u v p : vec3), 0 < cl_radius s -> orthonormal u v -> cl_orient s = vcross u v -> proper_axis (cl_orient s) ->
  let rho := axis_distance (cl_orient s) (cl_loc s) p in let h := axis_height (cl_orient s) (cl_loc s) p in
  1 / 10 ^ 6 <= rho ^ 2 / (cl_radius s ^ 2 + h ^ 2) -> ~ (rho = cl_radius s /\ h = 0) ->
  exists V, is_circle_integral (biot_savart p) (cl_loc s) u v (cl_radius s) V /\
    loop_flux_density s "cartesian"%string p = Ok (vscal (cl_mu s * cl_current s / (4 * PI)) V).
Proof. exact loop_biot_savart. Qed.

(** ** C42: near the axis.  B is within the stated distance of the Biot-Savart
    integral (so it is exact on the axis, and exact to fourth order in rho) *)
Theorem C42_flux_density_near_the_axis :
  forall (s : cloop) (u v p : vec3), 0 < cl_radius s -> orthonormal u v -> cl_orient s = vcross u v -> proper_axis (cl_orient s) ->
  let a := cl_radius s in let rho := axis_distance (cl_orient s) (cl_loc s) p in let h := axis_height (cl_orient s) (cl_loc s) p in
  rho ^ 2 / (a ^ 2 + h ^ 2) < 1 / 10 ^ 6 ->
  exists V B, is_circle_integral (biot_savart p) (cl_loc s) u v a V /\ loop_flux_density s "cartesian"%string p = Ok B /\
    vnorm (vsub B (vscal (cl_mu s * cl_current s / (4 * PI)) V)) <= 260 * Rabs (cl_mu s * cl_current s) * a ^ 2 * Rabs h * rho ^ 5 / sqrt (a ^ 2 + h ^ 2) ^ 9.
Proof. exact loop_small_B5. Qed.
Theorem C42_on_the_axis :
  forall (s : cloop) (z : R), 0 < cl_radius s -> proper_axis (cl_orient s) ->
  let p := vadd (cl_loc s) (vscal z (cl_orient s)) in let a := cl_radius s in
  loop_flux_density s "cartesian"%string p = Ok (vscal (cl_mu s * cl_current s * a ^ 2 / (2 * sqrt (a ^ 2 + z ^ 2) ^ 3)) (cl_orient s)) /\
  (a ^ 2 <> 4 * z ^ 2 -> loop_vector_potential s "cartesian"%string p = Ok vzero).
Proof. exact loop_on_axis. Qed.
(** ... but the vector potential is not: for the unit loop there are points next to
    the axis where the exact potential (mu I / 4 pi times the line integral) is at
    most 1 and the returned one exceeds any given bound *)
Theorem C42_vector_potential_near_the_axis_refuted :
  forall K : R, exists p V A,
  let rho := axis_distance (V3 0 0 1) vzero p in let h := axis_height (V3 0 0 1) vzero p in
  rho ^ 2 / (1 ^ 2 + h ^ 2) < 1 / 10 ^ 6 /\ 1 ^ 2 <> 4 * h ^ 2 /\
  is_circle_integral (dl_over_r p) vzero (V3 1 0 0) (V3 0 1 0) 1 V /\ vnorm (vscal (1 * 1 / (4 * PI)) V) <= 1 /\
  loop_vector_potential (CL 1 1 (V3 0 0 1) vzero 1) "cartesian"%string p = Ok A /\ K < vnorm A.
Proof. exact loop_A_unbounded. Qed.

(** ** C43: A is mu I / 4 pi times the line integral of dl / |p - q| around the loop *)
Theorem C43_line_integral :
  forall (s : cloop) (u v p : vec3), 0 < cl_radius s -> orthonormal u v -> cl_orient s = vcross u v -> proper_axis (cl_orient s) ->
  let rho := axis_distance (cl_orient s) (cl_loc s) p in let h := axis_height (cl_orient s) (cl_loc s) p in
  1 / 10 ^ 6 <= rho ^ 2 / (cl_radius s ^ 2 + h ^ 2) -> ~ (rho = cl_radius s /\ h = 0) ->
  exists V, is_circle_integral (dl_over_r p) (cl_loc s) u v (cl_radius s) V /\
    loop_vector_potential s "cartesian"%string p = Ok (vscal (cl_mu s * cl_current s / (4 * PI)) V).
Proof. exact loop_line_integral. Qed.

(** a tilted loop and two points satisfying the hypotheses *)
Lemma witness_loop_axis : proper_axis (V3 (3 / 5) 0 (4 / 5)).
Proof.
  split; [apply vnorm_unique; [lra|]; unfold vnorm2; cbn; lra|]. left.
  replace (vnorm (vcross (V3 (3 / 5) 0 (4 / 5)) (V3 0 0 1))) with (3 / 5).
  - apply Rle_trans with (/ 2); [apply Rinv_le_contravar; lra|lra].
  - symmetry. apply vnorm_unique; [lra|]. unfold vnorm2, vcross; cbn. lra.
Qed.
Example C41_C43_witness :
  let s := CL 2 5 (V3 (3 / 5) 0 (4 / 5)) (V3 1 1 1) 3 in let u := V3 0 1 0 in let v := V3 (- (4 / 5)) 0 (3 / 5) in let p := V3 1 2 1 in
  0 < cl_radius s /\ orthonormal u v /\ cl_orient s = vcross u v /\ proper_axis (cl_orient s) /\
  1 / 10 ^ 6 < axis_distance (cl_orient s) (cl_loc s) p ^ 2 / (cl_radius s ^ 2 + axis_height (cl_orient s) (cl_loc s) p ^ 2) /\
  ~ (axis_distance (cl_orient s) (cl_loc s) p = cl_radius s /\ axis_height (cl_orient s) (cl_loc s) p = 0).
Proof.
  cbv zeta. cbn [cl_radius cl_orient cl_loc].
  assert (D : axis_distance (V3 (3 / 5) 0 (4 / 5)) (V3 1 1 1) (V3 1 2 1) = 1) by (apply vnorm_unique; [lra|]; unfold vnorm2, vcross, vsub; cbn; lra).
  assert (H : axis_height (V3 (3 / 5) 0 (4 / 5)) (V3 1 1 1) (V3 1 2 1) = 0) by (unfold axis_height, vdot, vsub; cbn; lra).
  rewrite D, H.
  refine (conj _ (conj _ (conj _ (conj witness_loop_axis (conj _ _))))); [lra| | |lra|intros [E _]; lra].
  - unfold orthonormal, vdot; cbn. lra.
  - unfold vcross; cbn. f_equal; lra.
Qed.
Example C42_witness :
  let n := V3 (3 / 5) 0 (4 / 5) in let c := V3 1 1 1 in let p := V3 1 (1 + / 10 ^ 4) 1 in
  proper_axis n /\ 0 < axis_distance n c p /\ axis_distance n c p ^ 2 / (2 ^ 2 + axis_height n c p ^ 2) < 1 / 10 ^ 6.
Proof.
  cbv zeta.
  assert (D : axis_distance (V3 (3 / 5) 0 (4 / 5)) (V3 1 1 1) (V3 1 (1 + / 10 ^ 4) 1) = / 10 ^ 4) by (apply vnorm_unique; [lra|]; unfold vnorm2, vcross, vsub; cbn; lra).
  assert (H : axis_height (V3 (3 / 5) 0 (4 / 5)) (V3 1 1 1) (V3 1 (1 + / 10 ^ 4) 1) = 0) by (unfold axis_height, vdot, vsub; cbn; lra).
  rewrite D, H. refine (conj witness_loop_axis (conj _ _)); lra.
Qed.
Print Assumptions C41_vector_potential_is_defined.
Print Assumptions C41_B_is_curl_A.
Print Assumptions C41_biot_savart.
Print Assumptions C42_flux_density_near_the_axis.
Print Assumptions C42_on_the_axis.
Print Assumptions C42_vector_potential_near_the_axis_refuted.
Print Assumptions C43_line_integral.
