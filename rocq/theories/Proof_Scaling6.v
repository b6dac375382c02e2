(** Where the code is not homogeneous, and assembled statements. *)
From Coq Require Import Reals Lra Lia String List Bool.
From Coquelicot Require Import Coquelicot.
From Verif Require Import Vec3 Cplx Numpy Model_Spatial Model_Static Model_TDEM Spec_Static Spec_Loop Spec_Scaling CurveDeriv Proof_Static3 Proof_Loop2 Proof_Sphere Proof_Scaling Proof_Scaling2 Proof_Scaling3.
Import ListNotations.
Open Scope R_scope.

Lemma Ok_inj {X} (x y : X) : Ok x = Ok y -> x = y.
Proof. congruence. Qed.
Section Near.
Variables (a r I mu : R) (o c p : vec3).
Hypotheses (A : 0 < a) (A1 : a <> 1) (RP : 0 < r) (IM : mu * I <> 0) (PA : proper_axis o).
Hypotheses (SM : small_rho r (axis_distance o c p) (axis_height o c p) = true) (OFF : axis_distance o c p <> 0) (HZ : r ^ 2 <> 4 * axis_height o c p ^ 2).
Lemma pow4_ne1 : / a ^ 4 <> 1.
Proof.
  intros E. assert (F : a ^ 4 = 1) by (rewrite <- (Rinv_inv (a ^ 4)), E; field).
  assert (G : (a ^ 2 - 1) * (a ^ 2 + 1) = 0) by lra. apply Rmult_integral in G. destruct G as [G|G]; [|nra]. assert (H : (a - 1) * (a + 1) = 0) by lra. apply Rmult_integral in H. destruct H; lra.
Qed.
Lemma near_axis_A : loop_vector_potential (CL (a * r) I o (vscal a c) mu) "cartesian" (vscal a p) <> loop_vector_potential (CL r I o c mu) "cartesian" p.
Proof.
  destruct (loop_rot o PA) as (M & R & RM & MN). unfold loop_vector_potential. rewrite !with_coordinates_cart by reflexivity. unfold cl_A. cbn [cl_radius cl_mu cl_current].
  rewrite (cl_frame _ (CL (a * r) I o (vscal a c) mu) (vscal a p) M R), (cl_frame _ (CL r I o c mu) p M R). cbn [cl_loc].
  rewrite <- (frame_height M o c p RM MN), <- (frame_rho M o c p RM MN) in *. cbv zeta in *. rewrite sub_scale, mvec_scal by exact A.
  set (q := mvec M (vsub p c)) in *. intros E. apply Ok_inj in E.
  set (rho := hyp2 (vx q) (vy q)) in *. set (z := vz q) in *.
  assert (V : local (fun rho z => V3 0 (cl_A_phi (a * r) (mu * I / PI) rho z) 0) (vscal a q) = local (fun rho z => V3 0 (cl_A_phi r (mu * I / PI) rho z) 0) q).
  { rewrite <- (rot_inv_r M (local _ (vscal a q)) RM), <- (rot_inv_r M (local _ q) RM). f_equal. exact E. }
  unfold local in V. replace (vx (vscal a q)) with (a * vx q) in V by reflexivity. replace (vy (vscal a q)) with (a * vy q) in V by reflexivity. replace (vz (vscal a q)) with (a * vz q) in V by reflexivity.
  rewrite hyp2_scale, atan2_scale in V by exact A. cbn [vx vy vz] in V. fold rho z in V.
  set (ph := atan2 (vy q) (vx q)) in *. clearbody ph. injection V as V1 V2. pose proof (sin2_cos2 ph) as SC. unfold Rsqr in SC.
  set (C1 := cl_A_phi (a * r) (mu * I / PI) (a * rho) (a * z)) in *. set (C0 := cl_A_phi r (mu * I / PI) rho z) in *.
  assert (CE : C1 = C0).
  { assert (W1 : (C1 - C0) * sin ph = 0) by lra. assert (W2 : (C1 - C0) * cos ph = 0) by lra.
    apply Rminus_diag_uniq. replace (C1 - C0) with ((C1 - C0) * sin ph * sin ph + (C1 - C0) * cos ph * cos ph) by (transitivity ((C1 - C0) * (sin ph * sin ph + cos ph * cos ph)); [ring|rewrite SC; ring]). rewrite W1, W2. ring. }
  unfold C1, C0, cl_A_phi in CE. rewrite small_scale, SM in CE by exact A.
  replace ((a * r) ^ 2 + (a * z) ^ 2) with (a ^ 2 * (r ^ 2 + z ^ 2)) in CE by ring. rewrite sqrt_scale in CE by exact A.
  assert (T : 0 < sqrt (r ^ 2 + z ^ 2)) by (apply sqrt_lt_R0; nra). set (t := sqrt (r ^ 2 + z ^ 2)) in *.
  pose proof PI_RGT_0 as PP.
  assert (D4 : r ^ 2 - 4 * z ^ 2 <> 0) by lra.
  replace ((a * r) ^ 2 - 4 * (a * z) ^ 2) with (a ^ 2 * (r ^ 2 - 4 * z ^ 2)) in CE by ring.
  assert (K : mu * I * (rho ^ 3 * 3 * r ^ 2 / (r ^ 2 - 4 * z ^ 2) / (32 * t ^ 7)) * (/ a ^ 4 - 1) = 0).
  { apply Rminus_diag_eq in CE. rewrite <- CE. field. repeat split; lra. }
  apply Rmult_integral in K. destruct K as [K|K]; [|apply pow4_ne1; lra].
  apply Rmult_integral in K. destruct K as [K|K]; [apply IM; exact K|].
  assert (N : rho ^ 3 * 3 * r ^ 2 / (r ^ 2 - 4 * z ^ 2) / (32 * t ^ 7) <> 0); [|apply N; exact K].
  assert (P3 : rho ^ 3 <> 0) by (apply pow_nonzero; exact OFF). assert (P7 : t ^ 7 <> 0) by (apply pow_nonzero; lra). assert (P2 : r ^ 2 <> 0) by (apply pow_nonzero; lra).
  unfold Rdiv. repeat apply Rmult_integral_contrapositive_currified; try assumption; try lra; apply Rinv_neq_0_compat; [exact D4|]. apply Rmult_integral_contrapositive_currified; [lra|exact P7].
Qed.
End Near.

Lemma sphere_E_unit a r c1 c0 F c p : 0 < a -> a <> 1 -> 0 < r -> r < vnorm (vsub p c) -> sp_cur (SP r c1 c0 F c) <> 0 -> vdot (vsub p c) F <> 0 ->
  sp_total_field (SP (a * r) c1 c0 F (vscal a c)) [vscal a p] <> sp_total_field (SP r c1 c0 F c) [p].
Proof.
  intros A A1 R0 OUT CU D. rewrite !sp_total_field_pt. cbn [map]. intros E. injection E as E. unfold sp_E in E. cbn [sp_radius sp_loc] in E. rewrite sub_scale, norm_scale, ltb_scale in E by exact A.
  replace (Rltb r (vnorm (vsub p c))) with true in E by (unfold Rltb; destruct (Rlt_dec r (vnorm (vsub p c))); [reflexivity|lra]).
  unfold sp_Eout in E. cbn [sp_radius sp_F0] in E. change (sp_cur (SP (a * r) c1 c0 F (vscal a c))) with (sp_cur (SP r c1 c0 F c)) in E. set (k := sp_cur (SP r c1 c0 F c)) in *. clearbody k.
  rewrite norm_scale in E by exact A. set (v := vsub p c) in *. set (n := vnorm v) in *. assert (N : 0 < n) by lra.
  assert (S : vdot v (vscal (3 * vdot v F * k * r / n ^ 4 * (/ a - 1)) v) = 0).
  { transitivity (vdot v (vsub (vadd (vscal (1 - k * (a * r) ^ 3 / (a * n) ^ 3) F) (vdiv (vscal (3 * vdot (vscal a v) F * k * (a * r)) (vscal a v)) ((a * n) ^ 4)))
       (vadd (vscal (1 - k * r ^ 3 / n ^ 3) F) (vdiv (vscal (3 * vdot v F * k * r) v) (n ^ 4))))).
    - replace (vdot (vscal a v) F) with (a * vdot v F) by (destruct v, F; vunf; ring). generalize (vdot v F). intros w. f_equal. unfold vdiv. apply vec3_eq; vunf; field; lra.
    - rewrite E. clear. destruct v, F. unfold vdiv. vunf. ring. }
  assert (V : vdot v v = n * n) by (unfold n; rewrite vnorm_sqr, vnorm2_dot; reflexivity).
  replace (vdot v (vscal (3 * vdot v F * k * r / n ^ 4 * (/ a - 1)) v)) with (3 * vdot v F * k * r / n ^ 4 * (/ a - 1) * vdot v v) in S by (generalize (3 * vdot v F * k * r / n ^ 4 * (/ a - 1)); intros q; destruct v; vunf; ring).
  rewrite V in S. assert (AI : / a - 1 <> 0) by (intro Z; apply A1; rewrite <- (Rinv_inv a); replace (/ a) with 1 by lra; field).
  revert S. unfold Rdiv. repeat apply Rmult_integral_contrapositive_currified; try assumption; try lra. apply Rinv_neq_0_compat, pow_nonzero; lra.
Qed.

Lemma tv_scale a m m' mo c x y z : 0 < a -> same_diffusion a m m' -> x <> vx c \/ y <> vy c ->
  tv_H (TV m' mo (vscal a c)) [a * x; a * y; a * z] = rmap (vscal (/ a ^ 3)) (tv_H (TV m mo c) [x; y; z]) /\
  tv_B (TV m' mo (vscal a c)) [a * x; a * y; a * z] = rmap (vscal (td_mu m' / a ^ 3)) (tv_H (TV m mo c) [x; y; z]) /\
  tv_dH (TV m' mo (vscal a c)) [a * x; a * y; a * z] = rmap (vscal (td_time m / td_time m' / a ^ 3)) (tv_dH (TV m mo c) [x; y; z]) /\
  tv_dB (TV m' mo (vscal a c)) [a * x; a * y; a * z] = rmap (vscal (td_mu m' * (td_time m / td_time m') / a ^ 3)) (tv_dH (TV m mo c) [x; y; z]).
Proof.
  intros A S P. assert (XY : 0 < (x - vx c) ^ 2 + (y - vy c) ^ 2).
  { assert (x - vx c <> 0 \/ y - vy c <> 0) as [X|Y] by (destruct P; [left|right]; lra); pose proof (pow2_ge_0 (x - vx c)); pose proof (pow2_ge_0 (y - vy c)); [pose proof (pow2_gt_0 _ X)|pose proof (pow2_gt_0 _ Y)]; lra. }
  destruct (vmd_scale a A m m' mo _ _ S XY) as (E1 & E2).
  unfold tv_B, tv_dB, tv_H, tv_dH, tv_call. cbn [tv_med tv_moment tv_loc rmap rbind]. replace (a * x - vx (vscal a c)) with (a * (x - vx c)) by (vunf; ring). replace (a * y - vy (vscal a c)) with (a * (y - vy c)) by (vunf; ring).
  rewrite E1, E2, !vscal_vscal. repeat split; f_equal; f_equal; unfold Rdiv; ring.
Qed.
