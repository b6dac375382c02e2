(** C143: rotation_matrix_from_normals in floating point. *)
From Coq Require Import ZArith Reals Lra Lia Psatz.
From Flocq Require Import Core.
From Verif Require Import Vec3 Numpy Model_Spatial Model_Float Model_Float9 Spec_Float Spec_Float7
  Proof_Spatial Proof_Float Proof_Float2 Proof_Float3 Proof_Float8 Proof_Float9 Proof_Float14 Proof_Float19 Proof_Float20 Proof_Float21.
Open Scope R_scope.

(** C143: a rotation comes back for all non-zero vectors, and it misses the second normal by at most 800 units of roundoff over the
    length of the sum of the normals *)
Theorem C143_accuracy nrm dot v0 v1 tol :
  good_norm nrm -> good_dot dot -> v0 <> vzero -> v1 <> vzero -> 0 < tol <= / 2 ^ 60 ->
  let n0 := vscal (/ vnorm v0) v0 in let n1 := vscal (/ vnorm v1) v1 in
  exists M, frotation_matrix nrm dot v0 v1 tol = Ok M /\ is_rotation M /\
    vnorm (vsub (mvec M n0) n1) * vnorm (vadd n0 n1) <= 800 * / 2 ^ 53.
Proof.
  intros GN GD N0 N1 T n0 n1. unfold n0, n1. rewrite <- !vunit_scal by assumption. exact (rot_ok nrm dot GN GD v0 v1 N0 N1 tol T).
Qed.

(** so up to a right angle the error is 600 units of roundoff *)
Theorem C143_up_to_a_right_angle nrm dot v0 v1 tol :
  good_norm nrm -> good_dot dot -> v0 <> vzero -> v1 <> vzero -> 0 < tol <= / 2 ^ 60 -> 0 <= vdot v0 v1 ->
  let n0 := vscal (/ vnorm v0) v0 in let n1 := vscal (/ vnorm v1) v1 in
  exists M, frotation_matrix nrm dot v0 v1 tol = Ok M /\ is_rotation M /\ vnorm (vsub (mvec M n0) n1) <= 600 * / 2 ^ 53.
Proof.
  intros GN GD N0 N1 T A n0 n1. destruct (C143_accuracy nrm dot v0 v1 tol GN GD N0 N1 T) as (M & E & R & B). fold n0 n1 in B. exists M. split; [exact E|]. split; [exact R|].
  assert (L : 14 / 10 <= vnorm (vadd n0 n1)).
  { rewrite <- (sqrt_square (14 / 10)) by lra. apply sqrt_le_1_alt.
    replace (vnorm2 (vadd n0 n1)) with (vnorm2 n0 + vnorm2 n1 + 2 * vdot n0 n1) by (destruct n0, n1; vring).
    assert (U0 : vnorm2 n0 = 1) by (unfold n0; rewrite <- vunit_scal by assumption; apply vunit_norm2, N0). assert (U1 : vnorm2 n1 = 1) by (unfold n1; rewrite <- vunit_scal by assumption; apply vunit_norm2, N1).
    assert (0 <= vdot n0 n1).
    { replace (vdot n0 n1) with (/ vnorm v0 * / vnorm v1 * vdot v0 v1) by (unfold n0, n1; destruct v0, v1; vunf; ring). pose proof (vnorm_pos v0 N0). pose proof (vnorm_pos v1 N1).
      apply Rmult_le_pos; [|exact A]. apply Rmult_le_pos; left; apply Rinv_0_lt_compat; assumption. }
    rewrite U0, U1. lra. }
  pose proof (vnorm_nonneg (vsub (mvec M n0) n1)). nra.
Qed.

(** towards the z axis and the x axis, the targets that the library's sources use, no vector is lost, opposite ones included: a
    rotation comes back that misses the axis by at most 2^-18 *)
Theorem C143_coordinate_axes nrm dot v0 tol :
  good_norm nrm -> absorbs nrm -> exact_on_axes dot -> v0 <> vzero -> float (vx v0) -> float (vy v0) -> float (vz v0) -> 0 < tol <= / 2 ^ 60 ->
  forall n, n = V3 0 0 1 \/ n = V3 1 0 0 ->
  exists M, frotation_matrix nrm dot v0 n tol = Ok M /\ is_rotation M /\ vnorm (vsub (mvec M (vscal (/ vnorm v0) v0)) n) <= / 2 ^ 18.
Proof.
  intros GN AB EX N0 X Y Z T n H. rewrite <- vunit_scal by assumption. destruct H as [->| ->]; [apply to_z|apply to_x]; auto.
Qed.

(** FINDING: opposite normals may give a wrong rotation.  For (1,3,7) and its opposite (-3,-9,-21), and the default tolerance, the
    rotation returned keeps the third component of (1,3,7) although it should change its sign, and misses the second normal by more
    than 1.8, however the dot product is computed: the cross product of the rounded normals is rounding noise along the z axis *)
Theorem C143_opposite_normals_refuted nrm dot :
  good_norm nrm -> rounds_small_integers nrm -> good_dot dot ->
  let v0 := V3 1 3 7 in let v1 := V3 (-3) (-9) (-21) in
  let n0 := vscal (/ vnorm v0) v0 in let n1 := vscal (/ vnorm v1) v1 in
  n1 = vopp n0 /\
  exists M, frotation_matrix nrm dot v0 v1 (/ 10 ^ 20) = Ok M /\ vz (mvec M v0) = 7 /\ 18 / 10 < vnorm (vsub (mvec M n0) n1).
Proof.
  intros GN GI GD v0 v1 n0 n1.
  assert (N0 : v0 <> vzero) by (intro Z; apply (f_equal vx) in Z; cbn in Z; lra). assert (N1 : v1 <> vzero) by (intro Z; apply (f_equal vx) in Z; cbn in Z; lra).
  assert (E1 : vnorm v1 = 3 * vnorm v0). { replace v1 with (vscal (-3) v0) by (unfold v0, v1, vscal; cbn [vx vy vz]; f_equal; ring). rewrite vnorm_scal. f_equal. rewrite Rabs_left; lra. }
  pose proof (vnorm_pos v0 N0) as P0. assert (O : n1 = vopp n0). { unfold n1, n0. rewrite E1. set (s := vnorm v0) in *. unfold v0, v1, vscal, vopp. cbn [vx vy vz]. f_equal; field; lra. }
  split; [exact O|]. destruct (C143_accuracy nrm dot v0 v1 (/ 10 ^ 20) GN GD N0 N1) as (M & E & R & _); [lra|]. exists M. split; [exact E|].
  pose proof (opposite_lost nrm GN GI dot M E) as Z. split; [exact Z|].
  assert (S : vnorm v0 < 77 / 10). { unfold vnorm. rewrite <- (sqrt_square (77 / 10)) by lra. apply sqrt_lt_1; unfold vnorm2, v0; cbn [vx vy vz]; lra. }
  assert (D : vz (vsub (mvec M n0) n1) = 14 * / vnorm v0). { rewrite O. unfold n0. rewrite mvec_scal. cbn [vsub vz vopp vscal]. fold v0 in Z. rewrite Z. set (s := vnorm v0). unfold v0. cbn [vz]. ring. }
  apply Rlt_le_trans with (14 * / vnorm v0).
  - apply (Rmult_lt_reg_r (vnorm v0)); [exact P0|]. rewrite Rmult_assoc, Rinv_l by lra. lra.
  - rewrite <- D. set (q := vsub _ _) in *. unfold vnorm. rewrite <- (sqrt_Rsqr (vz q)) by (rewrite D; apply Rmult_le_pos; [lra|left; apply Rinv_0_lt_compat, P0]).
    apply sqrt_le_1_alt. unfold Rsqr, vnorm2. nra.
Qed.

(** the norm of Model_Float, summed from left to right, and a correctly rounded dot product are such libraries *)
Example C143_witness : good_norm fnorm /\ rounds_small_integers fnorm /\ good_dot (fun a b => fl (vdot a b)) /\ / 10 ^ 20 <= / 2 ^ 60.
Proof.
  split; [|split; [|split]].
  - intro v. apply (near_within' 8 4); [lia|cbn; lra|].
    unfold fnorm. assert (SQ : forall x, near 1 (fl (x * x)) (x * x)) by (intro; apply near_fl).
    apply (near_weaken 3); [lia|]. unfold vnorm. change 3%nat with (S 2). apply near_round, near_sqrt; [apply vnorm2_nonneg|]. unfold vnorm2.
    apply (near_weaken 3); [lia|]. apply near_round. apply near_plus; [nra|nra| |apply (near_weaken 1); [lia|apply SQ]].
    apply near_round. apply near_plus; [nra|nra|apply SQ|apply SQ].
  - intros x y z X Y Z. unfold fnorm. cbn [vx vy vz]. f_equal. f_equal. rewrite <- !mult_IZR.
    assert (I : forall i, (Z.abs i <= 10000000)%Z -> fl (IZR i) = IZR i).
    { intros i Hi. apply fl_id. replace (IZR i) with (IZR i * bpow radix2 0) by (cbn; ring). apply float_int. lia. }
    rewrite !I, <- plus_IZR, !I, <- plus_IZR, !I by nia. reflexivity.
  - intros a b. eapply Rle_trans; [apply fl_err|]. fold u. pose proof u_lt as U. unfold vdot.
    pose proof (Rabs_triang (vx a * vx b + vy a * vy b) (vz a * vz b)). pose proof (Rabs_triang (vx a * vx b) (vy a * vy b)). 
    pose proof (Rabs_pos (vx a * vx b)). pose proof (Rabs_pos (vy a * vy b)). pose proof (Rabs_pos (vz a * vz b)). nra.
  - lra.
Qed.
(** so is a dot product summed from left to right, and the vector may point the other way *)
Example C143_axes_witness : absorbs fnorm /\ exact_on_axes (fun a b => fl (fl (fl (vx a * vx b) + fl (vy a * vy b)) + fl (vz a * vz b))) /\
  let v0 := V3 1 0 (- IZR (2 ^ 40)) in v0 <> vzero /\ float (vx v0) /\ float (vy v0) /\ float (vz v0).
Proof.
  split; [exact fnorm_absorbs|]. split; [exact left_dot_exact|]. cbv zeta. cbn [vx vy vz]. split; [intro Z; apply (f_equal vx) in Z; cbn in Z; lra|].
  split; [exact (float_bpow 0)|]. split; [exact float_0|]. apply float_opp. exact (float_bpow 40).
Qed.
Print Assumptions C143_accuracy.
Print Assumptions C143_up_to_a_right_angle.
Print Assumptions C143_opposite_normals_refuted.
Print Assumptions C143_coordinate_axes.
