(** C119: the flux linking two magnetic sources. *)
From Coq Require Import String Reals List Lra.
From Coquelicot Require Import Coquelicot.
From Verif Require Import Vec3 Calculus Numpy Model_Static Spec_Static Spec_Loop Spec_Linkage Proof_Line Proof_Line2 Proof_Loop4 Proof_Linkage Proof_Linkage2.
Import ListNotations.
Open Scope R_scope.

(** C119: two wires.  The line integral of the vector potential of one along the other, divided by its own mu and current, is the same both ways *)
Theorem C119_wires : forall s1 s2 : lcur, every_segment proper_segment (lc_nodes s1) -> every_segment proper_segment (lc_nodes s2) ->
  wires_apart (lc_nodes s1) (lc_nodes s2) ->
  exists (A1 A2 : vec3 -> vec3) (M : R), (forall p, lc_vector_potential s1 p = Ok (A1 p)) /\ (forall p, lc_vector_potential s2 p = Ok (A2 p)) /\
    is_circulation A1 (lc_nodes s2) (lc_mu s1 * lc_current s1 * M) /\ is_circulation A2 (lc_nodes s1) (lc_mu s2 * lc_current s2 * M).
Proof. exact wire_wire. Qed.

(** C119: a circular loop and a wire *)
Theorem C119_loop_and_wire : forall (s : cloop) (u v : vec3) (w : lcur),
  0 < cl_radius s -> orthonormal u v -> cl_orient s = vcross u v -> proper_axis (cl_orient s) ->
  every_segment proper_segment (lc_nodes w) -> along (off_ring (cl_orient s) (cl_loc s) (cl_radius s)) (lc_nodes w) ->
  exists (A1 A2 : vec3 -> vec3) (M : R),
    (forall p, off_ring (cl_orient s) (cl_loc s) (cl_radius s) p -> loop_vector_potential s "cartesian"%string p = Ok (A1 p)) /\
    (forall p, lc_vector_potential w p = Ok (A2 p)) /\
    is_circulation A1 (lc_nodes w) (cl_mu s * cl_current s * M) /\ is_circle_circulation A2 (cl_loc s) u v (cl_radius s) (lc_mu w * lc_current w * M).
Proof. exact loop_wire. Qed.

(** C119: two circular loops in any position *)
Theorem C119_loops : forall (s : cloop) (u v : vec3) (r : cloop) (x y : vec3),
  0 < cl_radius s -> orthonormal u v -> cl_orient s = vcross u v -> proper_axis (cl_orient s) ->
  0 < cl_radius r -> orthonormal x y -> cl_orient r = vcross x y -> proper_axis (cl_orient r) ->
  (forall t, off_ring (cl_orient s) (cl_loc s) (cl_radius s) (circle (cl_loc r) x y (cl_radius r) t)) ->
  (forall t, off_ring (cl_orient r) (cl_loc r) (cl_radius r) (circle (cl_loc s) u v (cl_radius s) t)) ->
  exists (A1 A2 : vec3 -> vec3) (M : R),
    (forall p, off_ring (cl_orient s) (cl_loc s) (cl_radius s) p -> loop_vector_potential s "cartesian"%string p = Ok (A1 p)) /\
    (forall p, off_ring (cl_orient r) (cl_loc r) (cl_radius r) p -> loop_vector_potential r "cartesian"%string p = Ok (A2 p)) /\
    is_circle_circulation A1 (cl_loc r) x y (cl_radius r) (cl_mu s * cl_current s * M) /\
    is_circle_circulation A2 (cl_loc s) u v (cl_radius s) (cl_mu r * cl_current r * M).
Proof. exact loop_loop. Qed.

(** C119: a magnetic dipole and a wire: the line integral of the dipole's vector potential along the wire, times the wire's current, is the moment dotted with the wire's flux density at the dipole *)
Theorem C119_dipole_and_wire : forall (d : mdipole) (w : lcur),
  every_segment proper_segment (lc_nodes w) -> every_segment (off_line (md_loc d)) (lc_nodes w) -> lc_mu w = md_mu d ->
  exists (A : vec3 -> vec3) (J : R) (B : vec3), (forall p, mdipole_vector_potential d "cartesian"%string p = Ok (A p)) /\ is_circulation A (lc_nodes w) J /\
    lc_flux_density w (md_loc d) = Ok (Some B) /\ lc_current w * J = md_moment d * vdot (md_orient d) B.
Proof. exact dipole_wire. Qed.

(** C119: a magnetic dipole and a circular loop *)
Theorem C119_dipole_and_loop : forall (d : mdipole) (s : cloop) (u v : vec3),
  0 < cl_radius s -> orthonormal u v -> cl_orient s = vcross u v -> proper_axis (cl_orient s) ->
  off_ring (cl_orient s) (cl_loc s) (cl_radius s) (md_loc d) -> cl_mu s = md_mu d ->
  exists (A : vec3 -> vec3) (J : R) (B : vec3), (forall p, mdipole_vector_potential d "cartesian"%string p = Ok (A p)) /\
    is_circle_circulation A (cl_loc s) u v (cl_radius s) J /\
    loop_flux_density s "cartesian"%string (md_loc d) = Ok B /\ cl_current s * J = md_moment d * vdot (md_orient d) B.
Proof. exact dipole_loop. Qed.

(** ** Witnesses *)
Lemma witness_axis_segment a b : vsub b a = V3 0 2 0 \/ vsub b a = V3 0 0 3 \/ vsub b a = V3 2 0 0 -> proper_segment a b.
Proof.
  intros D. split.
  - intros <-. replace (vsub a a) with vzero in D by (destruct a; unfold vsub, vzero; cbn; f_equal; ring). unfold vzero in D. destruct D as [D|[D|D]]; apply V3_inj in D; lra.
  - cbv zeta. destruct D as [-> |[-> | ->]].
    + left. replace (vnorm (V3 0 2 0)) with 2 by (symmetry; apply vnorm_unique; [lra|]; unfold vnorm2; cbn; ring).
      replace (vnorm _) with 1 by (symmetry; apply vnorm_unique; [lra|]; unfold vnorm2, vcross, vscal; cbn; field). apply Rle_trans with (/ 1); [apply Rinv_le_contravar; lra|lra].
    + left. replace (vnorm (V3 0 0 3)) with 3 by (symmetry; apply vnorm_unique; [lra|]; unfold vnorm2; cbn; ring).
      replace (vnorm _) with 1 by (symmetry; apply vnorm_unique; [lra|]; unfold vnorm2, vcross, vscal; cbn; field). apply Rle_trans with (/ 1); [apply Rinv_le_contravar; lra|lra].
    + right. unfold vcross, vscal, vzero; cbn. f_equal; ring.
Qed.
(** a point further from the z axis than 1 is off the unit circle in the plane z = 0 *)
Lemma witness_off_ring c a p : 0 < a -> vnorm2 (vcross (V3 0 0 1) (vsub p c)) <> a * a \/ axis_height (V3 0 0 1) c p <> 0 ->
  1 / 10 ^ 6 * (a ^ 2 + axis_height (V3 0 0 1) c p ^ 2) <= vnorm2 (vcross (V3 0 0 1) (vsub p c)) -> off_ring (V3 0 0 1) c a p.
Proof.
  intros Ha N L. unfold off_ring, axis_distance. assert (E : vnorm (vcross (V3 0 0 1) (vsub p c)) ^ 2 = vnorm2 (vcross (V3 0 0 1) (vsub p c))) by (rewrite <- vnorm_sqr; ring).
  assert (P : 0 < a ^ 2 + axis_height (V3 0 0 1) c p ^ 2) by (pose proof (pow2_ge_0 (axis_height (V3 0 0 1) c p)); assert (0 < a ^ 2) by (apply pow_lt; exact Ha); lra).
  split.
  - rewrite E. apply Rmult_le_reg_r with (a ^ 2 + axis_height (V3 0 0 1) c p ^ 2); [exact P|]. unfold Rdiv at 2. rewrite Rmult_assoc, Rinv_l, Rmult_1_r by lra. exact L.
  - intros [H1 H2]. destruct N as [N|N]; [|contradiction]. apply N. rewrite <- vnorm_sqr, H1. reflexivity.
Qed.
(** a bent wire, a straight wire away from it, two coaxial loops and a dipole *)
Example C119_witness :
  let w1 := LC [V3 2 (-1) 0; V3 2 1 0; V3 2 1 3] 3 1 7 in let w2 := LC [V3 5 0 0; V3 7 0 0] 4 1 7 in
  let s := CL 1 5 (V3 0 0 1) vzero 7 in let r := CL 2 6 (V3 0 0 1) (V3 0 0 1) 7 in
  let d := MD 2 (V3 1 0 0) (V3 0 3 1) 7 in let u := V3 1 0 0 in let v := V3 0 1 0 in
  every_segment proper_segment (lc_nodes w1) /\ every_segment proper_segment (lc_nodes w2) /\ wires_apart (lc_nodes w1) (lc_nodes w2) /\
  orthonormal u v /\ V3 0 0 1 = vcross u v /\ proper_axis (V3 0 0 1) /\
  along (off_ring (cl_orient s) (cl_loc s) (cl_radius s)) (lc_nodes w1) /\
  (forall t, off_ring (cl_orient s) (cl_loc s) (cl_radius s) (circle (cl_loc r) u v (cl_radius r) t)) /\
  (forall t, off_ring (cl_orient r) (cl_loc r) (cl_radius r) (circle (cl_loc s) u v (cl_radius s) t)) /\
  every_segment (off_line (md_loc d)) (lc_nodes w1) /\ off_ring (cl_orient s) (cl_loc s) (cl_radius s) (md_loc d).
Proof.
  cbv zeta. cbn [lc_nodes cl_orient cl_loc cl_radius md_loc].
  split; [split; [|split; [|exact I]]; apply witness_axis_segment; unfold vsub; cbn; [left|right; left]; f_equal; ring|].
  split; [split; [|exact I]; apply witness_axis_segment; unfold vsub; cbn; right; right; f_equal; ring|].
  split; [repeat split; intros x t Hx Ht E; unfold on_seg, vadd, vscal, vsub in E; cbn in E; apply V3_inj in E; lra|].
  split; [repeat split; unfold vdot; cbn; ring|]. split; [unfold vcross; cbn; f_equal; ring|]. split; [exact unit_loop_axis|].
  split.
  { unfold along. split; [|split; [|exact I]]; intros t Ht; apply witness_off_ring; try lra;
      unfold axis_height, on_seg, vnorm2, vcross, vdot, vadd, vscal, vsub, vzero; cbn; try nra; left; nra. }
  split.
  { intros t. pose proof (sin2_cos2 t) as T. unfold Rsqr in T. apply witness_off_ring; try lra; unfold axis_height, circle, vnorm2, vcross, vdot, vadd, vscal, vsub, vzero; cbn; [right; lra|nra]. }
  split.
  { intros t. pose proof (sin2_cos2 t) as T. unfold Rsqr in T. apply witness_off_ring; try lra; unfold axis_height, circle, vnorm2, vcross, vdot, vadd, vscal, vsub, vzero; cbn; [right; lra|nra]. }
  split.
  { repeat split; intros E; unfold vcross, vsub, vzero in E; cbn in E; apply V3_inj in E; lra. }
  apply witness_off_ring; try lra; unfold axis_height, vnorm2, vcross, vdot, vadd, vscal, vsub, vzero; cbn; [right; lra|lra].
Qed.
Print Assumptions C119_wires.
Print Assumptions C119_loop_and_wire.
Print Assumptions C119_loops.
Print Assumptions C119_dipole_and_wire.
Print Assumptions C119_dipole_and_loop.
