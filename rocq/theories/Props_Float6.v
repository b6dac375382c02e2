(** C137: the harmonic central loop in floating point. *)
From Coq Require Import ZArith Reals Lra Lia Psatz.
From Flocq Require Import Core.
From Coquelicot Require Import Coquelicot.
From Verif Require Import Cplx Model_FDEM Model_Float Model_Float6 Spec_Float Spec_Float2 Spec_Float5 Proof_Float Proof_Float2 Proof_Float9 Proof_Float12 Proof_Float13 Proof_Float14.
Open Scope R_scope.

(** C137: the quadrature component, secondary or total, is accurate to 7100 (1 + (skin depth/radius)^4) units of roundoff *)
Theorem C137_quadrature csq cex pow f sigma mu a current turns secondary :
  good_csqrt csq -> good_cexp cex -> good_pow pow -> 0 < f -> 0 < sigma -> 0 < mu -> 0 < a ->
  within (7100 * (1 + (skin_depth f sigma mu 0 PyTrue / a) ^ 4))
    (Im (floop_hz csq cex pow f sigma mu a current turns secondary)) (Im (loop_hz f sigma mu a current turns secondary)).
Proof.
  intros GS GX GP F S M A. unfold within. pose proof (quad_err csq cex pow GS GX GP f sigma mu a current turns F S M A secondary) as H.
  assert (E : (skin_depth f sigma mu 0 PyTrue / a) ^ 4 = / (kap f sigma mu * a) ^ 4).
  { rewrite <- (skin_K f sigma mu a F S M). pose proof (xpos f sigma mu a F S M A) as X. rewrite <- (skin_K f sigma mu a F S M) in X.
    assert (skin_depth f sigma mu 0 PyTrue <> 0) by (intro Z; rewrite Z in X; unfold Rdiv in X; rewrite Rinv_0, Rmult_0_r in X; lra). field. split; lra. }
  rewrite E. exact H.
Qed.

(** the in-phase component has an absolute error of 1000 (1 + skin depth/radius) units of roundoff of the primary field *)
Theorem C137_in_phase csq cex pow f sigma mu a current turns secondary :
  good_csqrt csq -> good_cexp cex -> good_pow pow -> 0 < f -> 0 < sigma -> 0 < mu -> 0 < a ->
  let primary := turns * current / (2 * a) in
  Rabs (Re (floop_hz csq cex pow f sigma mu a current turns secondary) - Re (loop_hz f sigma mu a current turns secondary))
  <= 1000 * (1 + skin_depth f sigma mu 0 PyTrue / a) * / 2 ^ 53 * Rabs primary.
Proof.
  intros GS GX GP F S M A. cbv zeta. pose proof (phase_err csq cex pow GS GX GP f sigma mu a current turns F S M A secondary) as H.
  assert (E : skin_depth f sigma mu 0 PyTrue / a = / (kap f sigma mu * a)).
  { rewrite <- (skin_K f sigma mu a F S M). pose proof (xpos f sigma mu a F S M A) as X. rewrite <- (skin_K f sigma mu a F S M) in X.
    assert (skin_depth f sigma mu 0 PyTrue <> 0) by (intro Z; rewrite Z in X; unfold Rdiv in X; rewrite Rinv_0, Rmult_0_r in X; lra). field. split; lra. }
  rewrite E. exact H.
Qed.

(** FINDING: where the skin depth is 2^13 = 8192 radii or more, the quadrature component is 0 or more than 3 times too large,
    however good the library's exponential is *)
Theorem C137_low_frequency_refuted csq cex pow f sigma mu a current turns secondary :
  good_csqrt csq -> good_pow pow -> 0 < f -> 0 < sigma -> 0 < mu -> 0 < a -> turns * current <> 0 ->
  2 ^ 13 * a <= skin_depth f sigma mu 0 PyTrue ->
  useless 3 (Im (floop_hz csq cex pow f sigma mu a current turns secondary)) (Im (loop_hz f sigma mu a current turns secondary)).
Proof.
  intros GS GP F S M A N D. apply (low_lost csq cex pow GS GP f sigma mu a current turns F S M A secondary N).
  rewrite <- (skin_K f sigma mu a F S M). assert (0 < 2 ^ 13 * a) by lra. set (d := skin_depth _ _ _ _ _) in *.
  apply (Rmult_le_reg_r d); [lra|]. unfold Rdiv. rewrite Rmult_assoc, Rinv_l by lra. lra.
Qed.

(** such libraries exist, and so do such media: 1 Hz over 0.0001 S/m and a loop of radius 5 m *)
Example C137_witness :
  good_csqrt (fun z => (fl (sqrt (- snd z / 2)), - fl (sqrt (- snd z / 2)))) /\
  good_cexp (fun z => (fl (exp (fst z) * cos (snd z)), fl (exp (fst z) * sin (snd z)))) /\ good_pow (fun x k => fl (x ^ k)) /\
  2 ^ 13 * 5 <= skin_depth 1 (/ 10000) (4 * PI / 10000000) 0 PyTrue.
Proof.
  assert (W : forall m x, 2 <= m -> within m (fl x) x).
  { intros m x H. unfold within. eapply Rle_trans; [apply fl_err|]. apply Rmult_le_compat_r; [apply Rabs_pos|]. unfold u. apply Rmult_le_compat_r; [lra|exact H]. }
  split.
  - intros y Y. exists (fl (sqrt (y / 2))). cbn [snd]. rewrite Ropp_involutive. split; [reflexivity|apply W; lra].
  - split; [intros x y; cbn [fst snd]; split; apply W; lra|]. split; [intros x k; apply W; lra|].
    unfold skin_depth, truth, omega. assert (PI <= 315 / 100) by (pose proof Proof_Float11.PI_close; lra). pose proof PI_RGT_0.
    apply Proof_Float6.sqrt_low; [lra|]. set (d := 2 * PI * 1 * / 10000 * (4 * PI / 10000000)).
    assert (P2 : 0 < PI * PI <= 99225 / 10000) by (split; nra).
    assert (DP : 0 < d <= 80 / 100000000000) by (unfold d; lra).
    apply (Rmult_le_reg_r d); [lra|]. unfold Rdiv. rewrite (Rmult_assoc 2), Rinv_l by lra. lra.
Qed.
Print Assumptions C137_quadrature.
Print Assumptions C137_in_phase.
Print Assumptions C137_low_frequency_refuted.
