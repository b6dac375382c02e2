(** C110: a current loop seen from a distance is the magnetic dipole of moment I pi a^2. *)
From Coq Require Import String Reals Lra.
From Verif Require Import Vec3 Numpy Model_Static Spec_Static Spec_Loop Proof_LoopFar3.
Open Scope R_scope.

(** C110: outside the sphere through the loop its flux density differs from the dipole's by at most
    33 (a/r)^2 / (1 - (a/r)^2)^3 of the dipole's scale mu m / 4 pi r^3 (plus 1e-11 of it inside the series branch about the axis) *)
Theorem C110_loop_is_a_dipole : forall (s : cloop) (p : vec3), proper_axis (cl_orient s) ->
  let a := cl_radius s in let r := vnorm (vsub p (cl_loc s)) in let x := (a / r) ^ 2 in
  let m := cl_current s * (PI * a ^ 2) in let dipole := MD m (cl_orient s) (cl_loc s) (cl_mu s) in
  0 < a < r ->
  exists B D, loop_flux_density s "cartesian" p = Ok B /\ mdipole_flux_density dipole "cartesian" p = Ok D /\
    vnorm (vsub B D) <= Rabs (cl_mu s * m) / (4 * PI * r ^ 3) * (33 * (x / (1 - x) ^ 3) + 1 / 10 ^ 11).
Proof.
  intros s p P a r x m dipole Ha. destruct (loop_B_defined s p Ha P) as [B HB]. exists B, (md_B dipole p). split; [exact HB|]. split; [reflexivity|].
  destruct (Rlt_le_dec (axis_distance (cl_orient s) (cl_loc s) p ^ 2 / (cl_radius s ^ 2 + axis_height (cl_orient s) (cl_loc s) p ^ 2)) (1 / 10 ^ 6)) as [L|L].
  - exact (loop_far_B_axis s p Ha P B L HB).
  - eapply Rle_trans; [exact (loop_far_B s p Ha P B L HB)|]. apply Rmult_le_compat_l; [|assert (0 < 1 / 10 ^ 11) by (apply Rdiv_lt_0_compat; [lra|apply pow_lt; lra]); unfold x, a, r; lra].
    apply Rmult_le_pos; [apply Rabs_pos|]. apply Rlt_le, Rinv_0_lt_compat. assert (Q := PI_RGT_0). apply Rmult_lt_0_compat; [lra|apply pow_lt; exact (Rlt_trans _ _ _ (proj1 Ha) (proj2 Ha))].
Qed.

(** C110: outside the series branch, for the flux density and the vector potential *)
Theorem C110_off_axis : forall (s : cloop) (p : vec3), proper_axis (cl_orient s) ->
  let a := cl_radius s in let r := vnorm (vsub p (cl_loc s)) in let x := (a / r) ^ 2 in
  let m := cl_current s * (PI * a ^ 2) in let dipole := MD m (cl_orient s) (cl_loc s) (cl_mu s) in
  let rho := axis_distance (cl_orient s) (cl_loc s) p in let h := axis_height (cl_orient s) (cl_loc s) p in
  0 < a < r -> 1 / 10 ^ 6 <= rho ^ 2 / (a ^ 2 + h ^ 2) ->
  exists B D A Q, loop_flux_density s "cartesian" p = Ok B /\ mdipole_flux_density dipole "cartesian" p = Ok D /\
    loop_vector_potential s "cartesian" p = Ok A /\ mdipole_vector_potential dipole "cartesian" p = Ok Q /\
    vnorm (vsub B D) <= Rabs (cl_mu s * m) / (4 * PI * r ^ 3) * (33 * (x / (1 - x) ^ 3)) /\
    vnorm (vsub A Q) <= Rabs (cl_mu s * m) / (4 * PI * r ^ 2) * (3 * (x / (1 - x))).
Proof.
  intros s p P a r x m dipole rho h Ha L. destruct (loop_B_defined s p Ha P) as [B HB]. destruct (loop_A_defined s p Ha P L) as [A HA].
  exists B, (md_B dipole p), A, (md_A dipole p). split; [exact HB|]. split; [reflexivity|]. split; [exact HA|]. split; [reflexivity|]. split.
  - exact (loop_far_B s p Ha P B L HB).
  - exact (loop_far_A s p Ha P A L HA).
Qed.

(** C110: as a loop of fixed moment shrinks its flux density tends to the dipole's *)
Theorem C110_shrinking_loop : forall (n c : vec3) (mu m : R) (p : vec3), proper_axis n ->
  let rho := axis_distance n c p in let h := axis_height n c p in
  h ^ 2 / 10 ^ 6 < rho ^ 2 ->
  forall eps, 0 < eps -> exists delta, 0 < delta /\ forall a, 0 < a < delta ->
  exists B D, loop_flux_density (CL a (m / (PI * a ^ 2)) n c mu) "cartesian" p = Ok B /\ mdipole_flux_density (MD m n c mu) "cartesian" p = Ok D /\
    vnorm (vsub B D) < eps.
Proof.
  intros n c mu m p P rho h L eps He. destruct (shrinking n c mu m p P L eps He) as (delta & D0 & H). exists delta. split; [exact D0|].
  intros a Ha. destruct (H a Ha) as (B & HB & N). exists B, (md_B (MD m n c mu) p). split; [exact HB|]. split; [reflexivity|exact N].
Qed.

Lemma C110_witness_axis : proper_axis (V3 (3 / 5) 0 (4 / 5)).
Proof.
  split; [apply vnorm_unique; [lra|]; unfold vnorm2; cbn; lra|]. left.
  replace (vnorm (vcross (V3 (3 / 5) 0 (4 / 5)) (V3 0 0 1))) with (3 / 5).
  - apply Rle_trans with (/ 2); [apply Rinv_le_contravar; lra|lra].
  - symmetry. apply vnorm_unique; [lra|]. unfold vnorm2, vcross; cbn. lra.
Qed.
(** a tilted loop of radius 1 seen from a distance of 13 *)
Example C110_witness :
  let s := CL 1 5 (V3 (3 / 5) 0 (4 / 5)) (V3 1 1 1) 3 in let p := V3 4 5 13 in
  proper_axis (cl_orient s) /\ 0 < cl_radius s < vnorm (vsub p (cl_loc s)) /\
  1 / 10 ^ 6 <= axis_distance (cl_orient s) (cl_loc s) p ^ 2 / (cl_radius s ^ 2 + axis_height (cl_orient s) (cl_loc s) p ^ 2) /\
  axis_height (cl_orient s) (cl_loc s) p ^ 2 / 10 ^ 6 < axis_distance (cl_orient s) (cl_loc s) p ^ 2.
Proof.
  cbv zeta. cbn [cl_orient cl_loc cl_radius].
  assert (R : vnorm (vsub (V3 4 5 13) (V3 1 1 1)) = 13) by (apply vnorm_unique; [lra|]; unfold vnorm2, vsub; cbn; lra).
  assert (H : axis_height (V3 (3 / 5) 0 (4 / 5)) (V3 1 1 1) (V3 4 5 13) = 57 / 5) by (unfold axis_height, vdot, vsub; cbn; lra).
  assert (D : axis_distance (V3 (3 / 5) 0 (4 / 5)) (V3 1 1 1) (V3 4 5 13) ^ 2 = 976 / 25).
  { pose proof (pythagoras (V3 (3 / 5) 0 (4 / 5)) (vsub (V3 4 5 13) (V3 1 1 1)) (proj1 C110_witness_axis)) as P. rewrite R in P.
    change (axis_distance (V3 (3 / 5) 0 (4 / 5)) (V3 1 1 1) (V3 4 5 13)) with (vnorm (vcross (V3 (3 / 5) 0 (4 / 5)) (vsub (V3 4 5 13) (V3 1 1 1)))).
    change (axis_height (V3 (3 / 5) 0 (4 / 5)) (V3 1 1 1) (V3 4 5 13)) with (vdot (V3 (3 / 5) 0 (4 / 5)) (vsub (V3 4 5 13) (V3 1 1 1))) in H. rewrite H in P. lra. }
  rewrite R, H, D. split; [exact C110_witness_axis|]. lra.
Qed.
Print Assumptions C110_loop_is_a_dipole.
Print Assumptions C110_off_axis.
Print Assumptions C110_shrinking_loop.
