(** C142: the vertical field of a vertical dipole on a half-space in floating point. *)
From Coq Require Import ZArith Reals Lra Lia Psatz.
From Flocq Require Import Core.
From Coquelicot Require Import Coquelicot.
From Verif Require Import Vec3 Cplx Spec_FDEM Model_FDEM Model_Float Model_Float6 Model_Float8 Spec_Float Spec_Float2 Spec_Float5 Spec_Float6
  Proof_Float Proof_Float2 Proof_Float9 Proof_Float12 Proof_Float13 Proof_Float14 Proof_FDEM5 Proof_Float17 Proof_Float18.
Open Scope R_scope.

(** C142: both components, secondary or total, have an absolute error of 42000 (1 + (skin depth/distance)^2) units of roundoff of
    the primary field *)
Theorem C142_absolute_error csq cex cube pow iv kv mu_0 s secondary p :
  good_csqrt csq -> good_cexp cex -> good_cube cube -> good_pow pow ->
  let f := fd_freq (mh_med s) in let sigma := fd_sigma (mh_med s) in
  0 < mu_0 -> 0 < f -> 0 < sigma -> is_True (fd_qs (mh_med s)) = true -> vx (mh_orient s) = 0 -> vy (mh_orient s) = 0 ->
  let r := sqrt ((vx p - vx (mh_loc s)) ^ 2 + (vy p - vy (mh_loc s)) ^ 2) in 0 < r ->
  let primary := mh_moment s * vz (mh_orient s) / (4 * PI * r ^ 3) in
  let bound := 42000 * (1 + (skin_depth f sigma mu_0 0 PyTrue / r) ^ 2) * / 2 ^ 53 * Rabs primary in
  let exact := cvz (mh_H iv kv mu_0 s secondary p) in
  let computed := fmh_hz csq cex cube pow mu_0 s secondary p in
  Rabs (Re computed - Re exact) <= bound /\ Rabs (Im computed - Im exact) <= bound.
Proof.
  intros GS GX GC GP f sigma M F S Q OX OY r R0 primary bound exact computed.
  assert (O : off s p). { destruct (Req_dec (vx p) (vx (mh_loc s))) as [Ex|Ex]; [|left; exact Ex]. right. intro Ey. unfold r in R0. rewrite Ex, Ey in R0.
    replace ((vx (mh_loc s) - vx (mh_loc s)) ^ 2 + (vy (mh_loc s) - vy (mh_loc s)) ^ 2) with 0 in R0 by ring. rewrite sqrt_0 in R0. lra. }
  destruct (vert_err csq cex cube pow mu_0 s p GS GX GC GP M F S Q OX OY O iv kv secondary) as [A B]. fold r f sigma in A, B.
  assert (E : (skin_depth f sigma mu_0 0 PyTrue / r) ^ 2 = / (kap f sigma mu_0 * r) ^ 2).
  { rewrite <- (skin_K f sigma mu_0 r F S M). pose proof (xpos f sigma mu_0 r F S M R0) as X. rewrite <- (skin_K f sigma mu_0 r F S M) in X.
    assert (skin_depth f sigma mu_0 0 PyTrue <> 0) by (intro Z; rewrite Z in X; unfold Rdiv in X; rewrite Rinv_0, Rmult_0_r in X; lra). field. split; lra. }
  unfold bound. rewrite E. replace primary with (mh_moment s / (4 * PI) * (vz (mh_orient s) / r ^ 3)) by (unfold primary; field; split; [lra|apply PI_neq0]).
  set (n := Rabs (mh_moment s / (4 * PI) * (vz (mh_orient s) / r ^ 3))) in *. assert (N0 : 0 <= n) by apply Rabs_pos. split; [exact A|]. eapply Rle_trans; [exact B|].
  pose proof u_lt as U. unfold u in U. change (/ 2 ^ 53) with u. assert (0 <= u * n) by (apply Rmult_le_pos; [unfold u; lra|exact N0]).
  set (q := / (kap f sigma mu_0 * r) ^ 2). replace (42000 * (1 + q) * u * n) with (42000 * q * u * n + 42000 * (u * n)) by ring. lra.
Qed.

(** FINDING: where the skin depth is 2^13 = 8192 distances or more, the quadrature component is 0 or more than 7 times too large,
    however good the library's exponential and cube are *)
Theorem C142_low_frequency_refuted csq cex cube pow iv kv mu_0 s secondary p :
  good_csqrt csq -> good_pow pow ->
  let f := fd_freq (mh_med s) in let sigma := fd_sigma (mh_med s) in
  0 < mu_0 -> 0 < f -> 0 < sigma -> is_True (fd_qs (mh_med s)) = true -> vx (mh_orient s) = 0 -> vy (mh_orient s) = 0 ->
  let r := sqrt ((vx p - vx (mh_loc s)) ^ 2 + (vy p - vy (mh_loc s)) ^ 2) in 0 < r ->
  mh_moment s <> 0 -> vz (mh_orient s) <> 0 -> 2 ^ 13 * r <= skin_depth f sigma mu_0 0 PyTrue ->
  useless 7 (Im (fmh_hz csq cex cube pow mu_0 s secondary p)) (Im (cvz (mh_H iv kv mu_0 s secondary p))).
Proof.
  intros GS GP f sigma M F S Q OX OY r R0 N Z D.
  assert (O : off s p). { destruct (Req_dec (vx p) (vx (mh_loc s))) as [Ex|Ex]; [|left; exact Ex]. right. intro Ey. unfold r in R0. rewrite Ex, Ey in R0.
    replace ((vx (mh_loc s) - vx (mh_loc s)) ^ 2 + (vy (mh_loc s) - vy (mh_loc s)) ^ 2) with 0 in R0 by ring. rewrite sqrt_0 in R0. lra. }
  apply (vert_lost csq cex cube pow mu_0 s p GS GP M F S Q OX OY O iv kv secondary N Z). fold r f sigma.
  rewrite <- (skin_K f sigma mu_0 r F S M). assert (0 < 2 ^ 13 * r) by lra. set (d := skin_depth _ _ _ _ _) in *.
  apply (Rmult_le_reg_r d); [lra|]. unfold Rdiv. rewrite Rmult_assoc, Rinv_l by lra. lra.
Qed.

(** such libraries exist, and so do such surveys: 1 Hz over 0.0001 S/m read 5 m from a dipole *)
Example C142_witness :
  let s := MH (FD 1 (/ 10000) (4 * PI / 10000000) 0 PyTrue) 3 (V3 0 0 1) (V3 1 2 0) in let p := V3 4 6 0 in
  good_csqrt (fun z => (fl (sqrt (- snd z / 2)), - fl (sqrt (- snd z / 2)))) /\
  good_cexp (fun z => (fl (exp (fst z) * cos (snd z)), fl (exp (fst z) * sin (snd z)))) /\ good_pow (fun x k => fl (x ^ k)) /\
  good_cube (fun z => (fl (- (2 * fst z ^ 3)), fl (- (2 * fst z ^ 3)))) /\
  sqrt ((vx p - vx (mh_loc s)) ^ 2 + (vy p - vy (mh_loc s)) ^ 2) = 5 /\ is_True (fd_qs (mh_med s)) = true /\
  2 ^ 13 * 5 <= skin_depth (fd_freq (mh_med s)) (fd_sigma (mh_med s)) (4 * PI / 10000000) 0 PyTrue.
Proof.
  intros s p.
  assert (W : forall m x, 2 <= m -> within m (fl x) x).
  { intros m x H. unfold within. eapply Rle_trans; [apply fl_err|]. apply Rmult_le_compat_r; [apply Rabs_pos|]. unfold u. apply Rmult_le_compat_r; [lra|exact H]. }
  split.
  - intros y Y. exists (fl (sqrt (y / 2))). cbn [snd]. rewrite Ropp_involutive. split; [reflexivity|apply W; lra].
  - split; [intros x y; cbn [fst snd]; split; apply W; lra|]. split; [intros x k; apply W; lra|].
    split; [intros h; cbn [fst snd]; split; apply W; lra|]. split.
    { unfold s, p; cbn [vx vy mh_loc]. replace ((4 - 1) ^ 2 + (6 - 2) ^ 2) with (5 * 5) by ring. apply sqrt_square. lra. }
    split; [reflexivity|]. unfold s. cbn [fd_freq fd_sigma mh_med].
    unfold skin_depth, truth, omega. assert (PI <= 315 / 100) by (pose proof Proof_Float11.PI_close; lra). pose proof PI_RGT_0.
    apply Proof_Float6.sqrt_low; [lra|]. set (d := 2 * PI * 1 * / 10000 * (4 * PI / 10000000)).
    assert (P2 : 0 < PI * PI <= 99225 / 10000) by (split; nra).
    assert (DP : 0 < d <= 80 / 100000000000) by (unfold d; lra).
    apply (Rmult_le_reg_r d); [lra|]. unfold Rdiv. rewrite (Rmult_assoc 2), Rinv_l by lra. lra.
Qed.
Print Assumptions C142_absolute_error.
Print Assumptions C142_low_frequency_refuted.
