(** What the logarithmic kernels return in floating point (C108). *)
From Coq Require Import ZArith Reals Lra Lia Psatz.
From Flocq Require Import Core.
From Verif Require Import Vec3 Numpy Model_Prism Model_Float Spec_Float Proof_Float Proof_Float3.
Open Scope R_scope.

Lemma fzy_fzx log x y z : fprism_fzy log x y z = fprism_fzx log y x z.
Proof. unfold fprism_fzy, fprism_fzx, fradius. rewrite (Rplus_comm (fl (y * y))). reflexivity. Qed.
Lemma zy_zx x y z : prism_fzy x y z = prism_fzx y x z.
Proof. unfold prism_fzy, prism_fzx, rad. replace (y * y + x * x + z * z) with (x * x + y * y + z * z) by ring. reflexivity. Qed.

Lemma sum_nonneg x y z : float y -> 0 <= fl (y + fradius x y z).
Proof. intros F. apply fl_nonneg. pose proof (fradius_ge_y x y z F). pose proof (Rle_abs (- y)). rewrite Rabs_Ropp in *. lra. Qed.
Lemma log_positive log log' x y z : float y -> (forall t, 0 < t -> log t = log' t) -> fprism_fzx log x y z = fprism_fzx log' x y z.
Proof.
  intros F H. unfold fprism_fzx. pose proof (sum_nonneg x y z F). destruct (Req_EM_T _ _).
  - destruct (Rlt_dec y 0); [|reflexivity]. apply H. rewrite fl_double by exact F. lra.
  - rewrite H by lra. reflexivity.
Qed.

Lemma near_rad x y z : near 3 (fradius x y z) (rad x y z).
Proof.
  unfold fradius, rad. apply (near_round 2). apply near_sqrt; [pose proof (sqr_nonneg x); pose proof (sqr_nonneg y); pose proof (sqr_nonneg z); lra|].
  apply (near_weaken 3); [lia|]. apply (near_round 2). apply near_plus; [pose proof (sqr_nonneg x); pose proof (sqr_nonneg y); lra|apply sqr_nonneg| |].
  - apply (near_round 1). apply near_plus; [apply sqr_nonneg|apply sqr_nonneg|apply near_fl|apply near_fl].
  - apply (near_weaken 1); [lia|apply near_fl].
Qed.
Lemma near_v x y z : 0 <= y -> near 4 (fl (y + fradius x y z)) (y + rad x y z).
Proof. intros P. apply (near_round 3). apply near_plus; [exact P|apply sqrt_pos|apply near_refl|apply near_rad]. Qed.

Lemma ln_w4 d : w ^ 4 <= d <= / w ^ 4 -> Rabs (ln d) <= 8 * u.
Proof.
  intros [A B]. pose proof (wk_pos 4) as P. pose proof u_pos. pose proof u_small. pose proof w_pos as W.
  assert (L : ln (w ^ 4) >= - (8 * u)).
  { replace (w ^ 4) with (w * w * (w * w)) by ring. rewrite !ln_mult by (try nra; apply Rmult_lt_0_compat; exact W).
    assert (E : - ln w <= 2 * u).
    { rewrite <- ln_Rinv by exact W. assert (ln (/ w) <= / w - 1) by (pose proof (exp_ineq1_le (ln (/ w))) as Q; rewrite exp_ln in Q by (apply Rinv_0_lt_compat, W); lra).
      assert (/ w * w = 1) by (apply Rinv_l; lra). assert (0 < / w) by (apply Rinv_0_lt_compat, W). unfold w in *. nra. }
    lra. }
  assert (L1 : ln (w ^ 4) <= ln d) by (destruct A as [A| <-]; [left; apply ln_increasing; lra|right; reflexivity]).
  assert (L2 : ln d <= - ln (w ^ 4)).
  { rewrite <- ln_Rinv by exact P. destruct B as [B| ->]; [left; apply ln_increasing; lra|right; reflexivity]. }
  apply Rabs_le. lra.
Qed.

Lemma fzx_accurate log x y z : good_log log -> 0 <= y -> Rabs (fprism_fzx log x y z - prism_fzx x y z) <= 10 * / 2 ^ 53 * (1 + Rabs (prism_fzx x y z)).
Proof.
  intros G P. destruct (near_v x y z P) as (d & E & D). unfold fprism_fzx, prism_fzx, Reqb, Rltb. cbv zeta. rewrite E. fold u.
  pose proof (sqrt_pos (x * x + y * y + z * z)) as Q. fold (rad x y z) in Q. pose proof (wk_pos 4). pose proof u_pos. pose proof u_small.
  destruct (Req_EM_T (y + rad x y z) 0) as [Z|Z].
  - rewrite Z, Rmult_0_l. destruct (Req_EM_T 0 0); [|lra]. destruct (Rlt_dec y 0); [lra|]. rewrite Rminus_0_r, Rabs_R0. nra.
  - set (v := y + rad x y z) in *. assert (V : 0 < v) by (unfold v in *; lra). assert (D0 : 0 < d) by lra.
    destruct (Req_EM_T (v * d) 0) as [N|N]; [apply Rmult_integral in N; lra|].
    assert (VD : 0 < v * d) by (apply Rmult_lt_0_compat; assumption).
    pose proof (G _ VD) as K. unfold within in K. fold u in K. rewrite (ln_mult v d) in K by assumption.
    pose proof (ln_w4 d D) as L. rewrite Rabs_Ropp.
    replace (- log (v * d) - - ln v) with (- (log (v * d) - (ln v + ln d)) - ln d) by ring.
    pose proof (Rabs_triang (ln v) (ln d)) as T. pose proof (Rabs_pos (ln v)).
    eapply Rle_trans; [apply (Rabs_triang (- _) (- _))|]. rewrite !Rabs_Ropp.
    assert (Rabs (log (v * d) - (ln v + ln d)) <= 8 * u * (Rabs (ln v) + 8 * u)) by (eapply Rle_trans; [exact K|]; apply Rmult_le_compat_l; lra). nra.
Qed.

Lemma fzx_edge log x y z : float y -> y < 0 -> Rabs x * 2 ^ 27 <= Rabs y -> Rabs z * 2 ^ 27 <= Rabs y -> fprism_fzx log x y z = log (-2 * y).
Proof.
  intros F N A B. unfold fprism_fzx. rewrite fradius_near_axis_y by assumption. rewrite (Rabs_left y) by exact N.
  replace (y + - y) with 0 by ring. rewrite (fl_id 0 float_0). cbv zeta. destruct (Req_EM_T 0 0); [|lra]. destruct (Rlt_dec y 0); [|lra]. rewrite fl_double by exact F. reflexivity.
Qed.

(** the exact kernel off the edge line *)
Lemma rad_gt x y z : x <> 0 \/ z <> 0 -> Rabs y < rad x y z.
Proof.
  intros H. unfold rad. rewrite <- (sqrt_Rsqr_abs y). unfold Rsqr. apply sqrt_lt_1_alt. split; [apply sqr_nonneg|].
  assert (0 < x * x + z * z) by (destruct H; [assert (0 < x * x) by nra; nra|assert (0 < z * z) by nra; nra]). lra.
Qed.
Lemma v_pos x y z : x <> 0 \/ z <> 0 -> 0 < y + rad x y z.
Proof. intros H. pose proof (rad_gt x y z H). pose proof (Rle_abs (- y)). rewrite Rabs_Ropp in *. lra. Qed.
Lemma fzx_off x y z : x <> 0 \/ z <> 0 -> prism_fzx x y z = - ln (y + rad x y z).
Proof. intros H. pose proof (v_pos x y z H). unfold prism_fzx, Reqb. cbv zeta. destruct (Req_EM_T _ _); [lra|reflexivity]. Qed.
Lemma v_prod x y z : (y + rad x y z) * (rad x y z - y) = x * x + z * z.
Proof. unfold rad. set (s := sqrt _). assert (s * s = x * x + y * y + z * z) by (apply sqrt_sqrt; nra). nra. Qed.
Lemma fzx_decreasing x y1 y2 z : x <> 0 \/ z <> 0 -> y1 < y2 -> prism_fzx x y2 z < prism_fzx x y1 z.
Proof.
  intros H L. rewrite !fzx_off by exact H. apply Ropp_lt_contravar. apply ln_increasing; [apply v_pos, H|].
  pose proof (v_pos x y1 z H) as A. pose proof (v_pos x y2 z H) as B. pose proof (rad_gt x y1 z H) as C1. pose proof (rad_gt x y2 z H) as C2.
  pose proof (Rle_abs y1). pose proof (Rle_abs y2).
  assert (S1 : rad x y1 z * rad x y1 z = x * x + y1 * y1 + z * z) by (apply sqrt_sqrt; nra).
  assert (S2 : rad x y2 z * rad x y2 z = x * x + y2 * y2 + z * z) by (apply sqrt_sqrt; nra).
  set (r1 := rad x y1 z) in *. set (r2 := rad x y2 z) in *. assert (0 < r1 + r2) by (pose proof (Rabs_pos y1); pose proof (Rabs_pos y2); lra).
  apply Rnot_le_lt. intros N.
  assert (E : (r2 - r1) * (r1 + r2) = (y2 - y1) * (y1 + y2)) by (replace ((r2 - r1) * (r1 + r2)) with (r2 * r2 - r1 * r1) by ring; rewrite S1, S2; ring).
  assert (Z1 : 0 < (y2 - y1) * (y1 + r1 + (y2 + r2))) by (apply Rmult_lt_0_compat; lra).
  assert (Z2 : 0 <= (r1 - r2 - (y2 - y1)) * (r1 + r2)) by (apply Rmult_le_pos; lra).
  clear - E Z1 Z2. nra.
Qed.
(** at distance rho from the edge the exact value exceeds ln(-2 y) by at least - ln (rho^2) *)
Lemma fzx_exceeds x y z : x <> 0 \/ z <> 0 -> y < 0 -> ln (-2 * y) - ln (x * x + z * z) <= prism_fzx x y z.
Proof.
  intros H N. rewrite fzx_off by exact H. pose proof (v_pos x y z H) as V. pose proof (rad_gt x y z H) as C1. rewrite Rabs_left in C1 by exact N.
  rewrite <- (v_prod x y z). rewrite (ln_mult (y + rad x y z)) by lra.
  assert (ln (-2 * y) <= ln (rad x y z - y)) by (left; apply ln_increasing; lra). lra.
Qed.
Lemma pow2_float n : float (/ 2 ^ n).
Proof.
  replace (/ 2 ^ n) with (bpow radix2 (- Z.of_nat n)); [apply float_bpow|]. rewrite bpow_opp. f_equal. rewrite <- pow_IZR || idtac.
  induction n; [reflexivity|]. rewrite Nat2Z.inj_succ, <- Z.add_1_r, bpow_1, IHn. reflexivity.
Qed.
Lemma fzx_unbounded M : exists x, float x /\ float (-1) /\ x <> 0 /\ prism_fzx x (-1) 0 - fprism_fzx ln x (-1) 0 > M.
Proof.
  assert (L2 : 0 < ln 2) by (rewrite <- ln_1; apply ln_increasing; lra).
  destruct (archimed (Rabs M / ln 2)) as [A _]. set (k := Z.to_nat (up (Rabs M / ln 2))).
  pose proof (Rabs_pos M) as AM.
  assert (K : Rabs M / ln 2 < INR k).
  { unfold k. rewrite INR_IZR_INZ, Z2Nat.id; [exact A|]. apply le_IZR. left. eapply Rle_lt_trans; [|exact A]. apply Rmult_le_pos; [exact AM|left; apply Rinv_0_lt_compat, L2]. }
  assert (P : forall n, 0 < 2 ^ n) by (intros; apply pow_lt; lra).
  exists (/ 2 ^ (k + 27)). pose proof (P (k + 27)%nat) as P1. pose proof (Rinv_0_lt_compat _ P1) as X0. set (x := / 2 ^ (k + 27)) in *.
  assert (F1 : float (-1)) by (replace (-1) with (- / 2 ^ 0) by (cbn; lra); apply float_opp, pow2_float).
  split; [apply pow2_float|]. split; [exact F1|]. split; [lra|].
  assert (HX : x * 2 ^ 27 <= 1).
  { unfold x. rewrite pow_add, Rinv_mult, Rmult_assoc, Rinv_l by (pose proof (P 27%nat); lra). rewrite Rmult_1_r. rewrite <- Rinv_1. apply Rinv_le_contravar; [lra|apply pow_R1_Rle; lra]. }
  assert (AX : Rabs x = x) by (apply Rabs_pos_eq; lra). assert (A1 : Rabs (-1) = 1) by (rewrite Rabs_left; lra).
  rewrite (fzx_edge ln x (-1) 0 F1) by (rewrite ?AX, ?A1, ?Rabs_R0; lra).
  pose proof (fzx_exceeds x (-1) 0 (or_introl (Rgt_not_eq _ _ X0)) ltac:(lra)) as E. replace (x * x + 0 * 0) with (x * x) in E by ring. rewrite (ln_mult x x) in E by exact X0.
  assert (LX : ln x = - (INR (k + 27) * ln 2)) by (unfold x; rewrite ln_Rinv by exact P1; rewrite ln_pow by lra; reflexivity).
  rewrite LX, plus_INR in E. assert (Rabs M < INR k * ln 2) by (apply Rmult_lt_reg_r with (/ ln 2); [apply Rinv_0_lt_compat, L2|]; rewrite Rmult_assoc, Rinv_r by lra; unfold Rdiv in K; lra).
  pose proof (Rle_abs M). pose proof (pos_INR 27). pose proof (pos_INR k). nra.
Qed.

(** one edge seen from beyond its end: the computed contribution has the wrong sign *)
Lemma float_256 : float (-256).
Proof. replace (-256) with (- bpow radix2 8) by (cbn; lra). apply float_opp, float_bpow. Qed.
Lemma float_m1 : float (-1).
Proof. replace (-1) with (- bpow radix2 0) by (cbn; lra). apply float_opp, float_bpow. Qed.
Lemma float_20 : float (/ 2 ^ 20). Proof. apply pow2_float. Qed.
Lemma fzx_at_one : fprism_fzx ln (/ 2 ^ 20) (-1) 0 = - ln (/ 2 ^ 41).
Proof.
  set (a := 1 + / 2 ^ 40). set (b := 1 + / 2 ^ 41).
  assert (FI : forall m k, (Z.abs m < 2 ^ 53)%Z -> float (IZR m * / 2 ^ k)).
  { intros m k L. unfold float, fexp53. apply generic_format_FLX. exists (Float radix2 m (- Z.of_nat k)).
    - unfold F2R. cbn [Fnum Fexp]. f_equal. rewrite bpow_opp. f_equal. clear. induction k; [reflexivity|]. rewrite Nat2Z.inj_succ, <- Z.add_1_r, bpow_1, <- IHk. reflexivity.
    - exact L. }
  assert (FA : float a) by (replace a with (IZR 1099511627777 * / 2 ^ 40) by (unfold a; field); apply FI; lia).
  assert (FB : float b) by (replace b with (IZR 2199023255553 * / 2 ^ 41) by (unfold b; field); apply FI; lia).
  assert (X2 : fl (/ 2 ^ 20 * / 2 ^ 20) = / 2 ^ 40) by (replace (/ 2 ^ 20 * / 2 ^ 20) with (/ 2 ^ 40) by field; apply fl_id, pow2_float).
  assert (Y2 : fl (-1 * -1) = 1) by (replace (-1 * -1) with (/ 2 ^ 0) by (cbn; lra); rewrite (fl_id _ (pow2_float 0)); cbn; lra).
  assert (Z2 : fl (0 * 0) = 0) by (rewrite Rmult_0_l; apply fl_id, float_0).
  unfold fprism_fzx, fradius. rewrite X2, Y2, Z2. replace (/ 2 ^ 40 + 1) with a by (unfold a; ring). rewrite (fl_id a FA), Rplus_0_r, (fl_id a FA).
  assert (S : fl (sqrt a) = b).
  { assert (A0 : 0 <= a) by (unfold a; lra). pose proof (sqrt_sqrt a A0) as Q. pose proof (sqrt_pos a).
    assert (E : b * b = a + / 2 ^ 82) by (unfold a, b; field).
    assert (L : sqrt a < b) by (apply Rnot_le_lt; intros N; assert (0 < / 2 ^ 82) by lra; unfold b in *; nra).
    assert (G : 1 < sqrt a) by (rewrite <- sqrt_1; apply sqrt_lt_1_alt; unfold a; lra).
    apply (fl_close 0); [exact FB|cbn; unfold b; lra|cbn; split; [lra|]; unfold b in L; lra|].
    rewrite Rabs_left by lra. assert ((b - sqrt a) * (b + sqrt a) = / 2 ^ 82) by nra.
    assert (1 < b) by (unfold b; lra). assert (b - sqrt a <= / 2 ^ 82) by nra. change (0 - 53)%Z with (-53)%Z. rewrite bpow_53. lra. }
  rewrite S. replace (-1 + b) with (/ 2 ^ 41) by (unfold b; ring). rewrite (fl_id _ (pow2_float 41)). cbv zeta. destruct (Req_EM_T _ _); [lra|reflexivity].
Qed.
Lemma fzx_far : fprism_fzx ln (/ 2 ^ 20) (-256) 0 = ln 512.
Proof.
  rewrite fzx_edge; [f_equal; lra|apply float_256|lra| |].
  - rewrite (Rabs_pos_eq (/ 2 ^ 20)) by lra. rewrite Rabs_left by lra. lra.
  - rewrite Rabs_R0, Rabs_left by lra. lra.
Qed.
Lemma wrong_sign : fprism_fzx ln (/ 2 ^ 20) (-256) 0 < fprism_fzx ln (/ 2 ^ 20) (-1) 0.
Proof. rewrite fzx_far, fzx_at_one, <- ln_Rinv by lra. apply ln_increasing; lra. Qed.
