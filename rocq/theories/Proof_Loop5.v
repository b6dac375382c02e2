(** C42: the flux density of the loop near its axis, to the fifth order. *)
From Coq Require Import String Reals List Lra.
From Coquelicot Require Import Coquelicot.
From Verif Require Import Vec3 Calculus Deriv Integral Periodic Elliptic CurveDeriv Numpy Model_Spatial Proof_Spatial Model_Static
  Spec_Static Spec_Loop Proof_Static Proof_Static2 Proof_Static3 Proof_Line Proof_Line3 Proof_Loop Proof_Loop2 Proof_Loop3 Proof_Loop4 Proof_LoopFar.
Open Scope R_scope.

Definition p52 (x : R) : R := 1 - 5 / 2 * x + 35 / 8 * x ^ 2 - 105 / 16 * x ^ 3.
Lemma taylor52 x : Rabs x <= 1 / 100 -> Rabs (/ sqrt (1 + x) ^ 5 - p52 x) <= 10 * x ^ 4.
Proof.
  intro H. apply Rabs_le_between in H.
  assert (P : 0 < 1 + x) by lra. pose proof (sqrt_lt_R0 _ P) as S. pose proof (sqrt_sqrt _ (Rlt_le _ _ P)) as Q.
  set (s := sqrt (1 + x)) in *. assert (S5 : 0 < s ^ 5) by (apply pow_lt; exact S).
  set (y := / s ^ 5). assert (Y : 0 < y) by (apply Rinv_0_lt_compat, S5).
  assert (E : y * y * (1 + x) ^ 5 = 1) by (unfold y; rewrite <- Q; field; lra).
  clearbody y. clear S5 S Q s.
  set (r := 1155 / 64 + x * (693 / 32 + x * (1155 / 256 + x * (- (165 / 256) + x * (- (10395 / 128) + x * (- (25025 / 128) + x * (- (40425 / 256) + x * (- (11025 / 256))))))))).
  assert (E2 : (y - p52 x) * ((y + p52 x) * (1 + x) ^ 5) = x ^ 4 * r).
  { transitivity (y * y * (1 + x) ^ 5 - p52 x * p52 x * (1 + x) ^ 5); [ring|]. rewrite E. unfold p52, r. field. }
  assert (X2 : 0 <= x ^ 2 <= 1 / 10000) by (split; nra).
  assert (PP : 97 / 100 <= p52 x).
  { unfold p52. assert (- (1 / 10000) <= x ^ 3 <= 1 / 10000) by (replace (x ^ 3) with (x * x ^ 2) by ring; split; nra). lra. }
  assert (C : 95 / 100 <= (1 + x) ^ 5 <= 1052 / 1000).
  { split; [replace (95 / 100) with (95 / 100 * 1) by ring; apply Rle_trans with ((99 / 100) ^ 5); [lra|]; apply pow_incr; lra|apply Rle_trans with ((101 / 100) ^ 5); [apply pow_incr; lra|lra]]. }
  assert (YY : 97 / 100 <= y).
  { destruct (Rle_lt_dec (97 / 100) y) as [K|K]; [exact K|]. exfalso.
    assert (y * y < 941 / 1000) by nra. assert (y * y * (1 + x) ^ 5 < 1) by nra. lra. }
  set (D := (y + p52 x) * (1 + x) ^ 5) in *.
  assert (DD : 184 / 100 <= D) by (unfold D; nra).
  assert (RB : 0 <= r <= 184 / 10).
  { assert (Bd : forall c v, Rabs v <= c -> - c / 100 <= x * v <= c / 100).
    { intros c v Hv. apply Rabs_le_between in Hv. split; nra. }
    assert (B7 : Rabs (- (40425 / 256) + x * (- (11025 / 256))) <= 160) by (apply Rabs_le; lra).
    pose proof (Bd _ _ B7) as K7.
    assert (B6 : Rabs (- (25025 / 128) + x * (- (40425 / 256) + x * (- (11025 / 256)))) <= 200) by (apply Rabs_le; lra).
    pose proof (Bd _ _ B6) as K6.
    assert (B5 : Rabs (- (10395 / 128) + x * (- (25025 / 128) + x * (- (40425 / 256) + x * (- (11025 / 256))))) <= 90) by (apply Rabs_le; lra).
    pose proof (Bd _ _ B5) as K5.
    assert (B4 : Rabs (- (165 / 256) + x * (- (10395 / 128) + x * (- (25025 / 128) + x * (- (40425 / 256) + x * (- (11025 / 256)))))) <= 2) by (apply Rabs_le; lra).
    pose proof (Bd _ _ B4) as K4.
    assert (B3 : Rabs (1155 / 256 + x * (- (165 / 256) + x * (- (10395 / 128) + x * (- (25025 / 128) + x * (- (40425 / 256) + x * (- (11025 / 256))))))) <= 5) by (apply Rabs_le; lra).
    pose proof (Bd _ _ B3) as K3.
    assert (B2 : Rabs (693 / 32 + x * (1155 / 256 + x * (- (165 / 256) + x * (- (10395 / 128) + x * (- (25025 / 128) + x * (- (40425 / 256) + x * (- (11025 / 256)))))))) <= 22) by (apply Rabs_le; lra).
    pose proof (Bd _ _ B2) as K2. unfold r. lra. }
  assert (X4 : 0 <= x ^ 4) by (replace (x ^ 4) with ((x ^ 2) ^ 2) by ring; apply pow2_ge_0).
  assert (E3 : y - p52 x = x ^ 4 * r / D) by (rewrite <- E2; field; lra).
  rewrite E3. rewrite Rabs_pos_eq.
  - apply Rmult_le_reg_r with D; [lra|]. unfold Rdiv. rewrite Rmult_assoc, Rinv_l, Rmult_1_r by lra.
    replace (10 * x ^ 4 * D) with (x ^ 4 * (10 * D)) by ring. apply Rmult_le_compat_l; lra.
  - apply Rmult_le_pos; [apply Rmult_le_pos; lra|apply Rlt_le, Rinv_0_lt_compat; lra].
Qed.

(** differences of (1 + x)^(-3/2) and of its fourth order expansion *)
Definition p34 (x : R) : R := p32 x + 315 / 128 * x ^ 4.
Lemma taylor34 x y m : Rabs x <= m -> Rabs y <= m -> m <= 1 / 100 ->
  Rabs ((/ sqrt (1 + x) ^ 3 - p34 x) - (/ sqrt (1 + y) ^ 3 - p34 y)) <= 15 * m ^ 4 * Rabs (x - y).
Proof.
  intros X Y M. apply Rabs_le_between in X. apply Rabs_le_between in Y.
  set (f := fun x => / sqrt (1 + x) ^ 3 - p34 x).
  destruct (MVT_gen f y x (fun x => - (3 / 2) * (/ sqrt (1 + x) ^ 5 - p52 x))) as [c [Hc E]].
  - intros c Hc. assert (Bc : - m <= c <= m) by (unfold Rmin, Rmax in Hc; destruct (Rle_dec y x); lra).
    assert (P : 0 < 1 + c) by lra. pose proof (sqrt_lt_R0 _ P) as S. unfold f, p34, p32. eapply is_derive_eq; [der; first [exact P|apply pow_nonzero; lra]|].
    cbn [INR Init.Nat.pred]. unfold p52. set (s := sqrt (1 + c)) in *. field. lra.
  - intros c Hc. assert (Bc : - m <= c <= m) by (unfold Rmin, Rmax in Hc; destruct (Rle_dec y x); lra).
    assert (P : 0 < 1 + c) by lra. pose proof (sqrt_lt_R0 _ P) as S. unfold f, p34, p32. eapply derive_continuity. der; first [exact P|apply pow_nonzero; lra].
  - assert (Bc : - m <= c <= m) by (unfold Rmin, Rmax in Hc; destruct (Rle_dec y x); lra).
    change (Rabs (f x - f y) <= 15 * m ^ 4 * Rabs (x - y)). rewrite E, Rabs_mult. apply Rmult_le_compat_r; [apply Rabs_pos|].
    assert (AC : Rabs c <= m) by (apply Rabs_le; lra).
    pose proof (taylor52 c ltac:(lra)) as K. rewrite Rabs_mult, (Rabs_left (- (3 / 2))) by lra.
    assert (c ^ 4 <= m ^ 4). { replace (c ^ 4) with (Rabs c ^ 4). - apply pow_incr. split; [apply Rabs_pos|exact AC]. - rewrite RPow_abs. apply Rabs_pos_eq. replace (c ^ 4) with ((c ^ 2) ^ 2) by ring. apply pow2_ge_0. }
    lra.
Qed.

Section Small.
Variables a rho z : R.
Hypothesis Ha : 0 < a.
Hypothesis Hr : 0 <= rho.
Hypothesis Sm : rho ^ 2 / (a ^ 2 + z ^ 2) < 1 / 10 ^ 6.
Let T := sqrt (a ^ 2 + z ^ 2).
Let e := rho / T.
Let b := a / T.

Lemma s5_J : exists J, is_RInt (fun t => cos t / sqrt (ring_d2 a rho z (cos t)) ^ 3) 0 (2 * PI) J /\
  Rabs (J * T ^ 3 - PI * (3 * e * b - 15 / 2 * e ^ 3 * b + 105 / 8 * e ^ 3 * b ^ 3)) <= 1040 * PI * e ^ 5 * b.
Proof.
  destruct (sm_J a rho z Ha Hr Sm) as [J [HJ _]]. exists J. split; [exact HJ|].
  destruct (sm_T a z Ha) as [T0 T2]. pose proof (sm_e a rho z Ha Hr Sm) as [E0 E1]. pose proof (sm_b a z Ha) as [B0 B1]. fold T in T0, T2, E0, E1, B0, B1. fold e in E0, E1. fold b in B0, B1.
  assert (PIpos := PI_RGT_0).
  assert (HP : is_RInt (fun t => (cos t / sqrt (ring_d2 a rho z (cos t)) ^ 3 + cos (t + PI) / sqrt (ring_d2 a rho z (cos (t + PI))) ^ 3) / 2) 0 (2 * PI) J).
  { apply (half_turn (fun t => cos t / sqrt (ring_d2 a rho z (cos t)) ^ 3)); [| |exact HJ].
    - intros t. replace (cos (t + 2 * PI)) with (cos t); [reflexivity|]. rewrite <- (cos_period t 1). f_equal. cbn; ring.
    - intros t. pose proof (ring_d2_pos a rho z t Ha Hr (sm_off a rho z Ha Hr Sm)) as P. pose proof (sqrt_lt_R0 _ P).
      apply continuity_pt_filterlim. unfold ring_d2 in *. eapply derive_continuity. der; first [exact P|apply pow_nonzero; lra]. }
  set (w := 2 * e * b). set (A := e ^ 2).
  set (Bc := - w * (- (3 / 2) + 15 / 4 * A - 105 / 16 * A ^ 2 + 315 / 32 * A ^ 3)). set (Dc := - w ^ 3 * (- (35 / 16) + 315 / 32 * A)).
  pose proof (turn_cubic 0 Bc 0 Dc) as HC.
  apply (is_RInt_scal (V:=R_NormedModule) _ _ _ (T ^ 3)) in HP.
  assert (K : Rabs (T ^ 3 * J - PI * (Bc + 3 / 4 * Dc)) <= 2 * PI * (1 / 2 * (15 * (2001 / 1000 * e) ^ 4 * (2 * w)))).
  { eapply rg_near; [exact HP|exact HC|]. intros t. unfold scal; cbn -[pow cos]. unfold mult; cbn -[pow cos]. rewrite neg_cos.
    pose proof (COS_bound t) as Hc. destruct (sm_x a rho z Ha Hr Sm (cos t) Hc) as [X1 X2]. destruct (sm_x a rho z Ha Hr Sm (- cos t) ltac:(lra)) as [Y1 Y2].
    fold T in X1, X2, Y1, Y2. fold e in X1, X2, Y1, Y2. fold b in X1, X2, Y1, Y2.
    rewrite (sm_d a rho z Ha t). fold T. fold e b.
    replace (sqrt (ring_d2 a rho z (- cos t))) with (T * sqrt (1 + (e ^ 2 - 2 * e * b * - cos t))).
    2:{ rewrite <- neg_cos. symmetry. exact (sm_d a rho z Ha (t + PI)). }
    set (c := cos t) in *. set (x := e ^ 2 - 2 * e * b * c) in *. set (y := e ^ 2 - 2 * e * b * - c) in *.
    assert (Px : 0 < sqrt (1 + x)) by (apply sqrt_lt_R0; apply Rabs_le_between in X2; lra).
    assert (Py : 0 < sqrt (1 + y)) by (apply sqrt_lt_R0; apply Rabs_le_between in Y2; lra).
    pose proof (taylor34 x y (2001 / 1000 * e) X1 Y1 ltac:(lra)) as L.
    set (sx := sqrt (1 + x)) in *. set (sy := sqrt (1 + y)) in *. clearbody sx sy.
    replace (T ^ 3 * ((c / (T * sx) ^ 3 + - c / (T * sy) ^ 3) / 2) - c * (0 + Bc * c + 0 * c ^ 2 + Dc * c ^ 3))
      with (c / 2 * ((/ sx ^ 3 - p34 x) - (/ sy ^ 3 - p34 y))).
    - rewrite Rabs_mult. apply Rmult_le_compat; try apply Rabs_pos.
      + unfold Rdiv. rewrite Rabs_mult, (Rabs_pos_eq (/ 2)) by lra. apply Rmult_le_compat_r; [lra|]. apply Rabs_le; lra.
      + eapply Rle_trans; [exact L|]. apply Rmult_le_compat_l; [apply Rmult_le_pos; [lra|apply pow_le; lra]|].
        replace (x - y) with (- (2 * w) * c) by (unfold x, y, w; ring). assert (W0 : 0 <= w) by (unfold w; apply Rmult_le_pos; [apply Rmult_le_pos; lra|lra]).
        rewrite Rabs_mult, Rabs_Ropp, (Rabs_pos_eq (2 * w)) by lra. rewrite <- (Rmult_1_r (2 * w)) at 2. apply Rmult_le_compat_l; [lra|]. apply Rabs_le; lra.
    - unfold p34, p32, Bc, Dc, x, y, w, A. field. lra. }
  set (Q := PI * (3 * e * b - 15 / 2 * e ^ 3 * b + 105 / 8 * e ^ 3 * b ^ 3)) in *.
  assert (EQ : PI * (Bc + 3 / 4 * Dc) = Q + PI * (e ^ 5 * b) * (105 / 8 - 315 / 16 * e ^ 2 - 945 / 16 * b ^ 2)) by (unfold Q, Bc, Dc, w, A; field).
  rewrite EQ in K. replace (J * T ^ 3 - Q) with ((T ^ 3 * J - (Q + PI * (e ^ 5 * b) * (105 / 8 - 315 / 16 * e ^ 2 - 945 / 16 * b ^ 2))) + PI * (e ^ 5 * b) * (105 / 8 - 315 / 16 * e ^ 2 - 945 / 16 * b ^ 2)) by ring.
  eapply Rle_trans; [apply Rabs_triang|]. eapply Rle_trans; [apply Rplus_le_compat_r, K|].
  assert (E5 : 0 <= e ^ 5 * b) by (apply Rmult_le_pos; [apply pow_le; exact E0|lra]).
  assert (X : Rabs (105 / 8 - 315 / 16 * e ^ 2 - 945 / 16 * b ^ 2) <= 60).
  { assert (0 <= e ^ 2 <= 1 / 1000) by (split; nra). assert (0 <= b ^ 2 <= 1) by (split; nra). apply Rabs_le. lra. }
  rewrite Rabs_mult, (Rabs_pos_eq (PI * (e ^ 5 * b))) by (apply Rmult_le_pos; lra).
  assert (PI * (e ^ 5 * b) * Rabs (105 / 8 - 315 / 16 * e ^ 2 - 945 / 16 * b ^ 2) <= PI * (e ^ 5 * b) * 60) by (apply Rmult_le_compat_l; [apply Rmult_le_pos; lra|exact X]).
  replace (2 * PI * (1 / 2 * (15 * (2001 / 1000 * e) ^ 4 * (2 * w)))) with (PI * (e ^ 5 * b) * (60 * (2001 / 1000) ^ 4)) by (unfold w; field).
  assert ((2001 / 1000) ^ 4 <= 161 / 10) by lra.
  assert (PI * (e ^ 5 * b) * (60 * (2001 / 1000) ^ 4) <= PI * (e ^ 5 * b) * (966)) by (apply Rmult_le_compat_l; [apply Rmult_le_pos; lra|lra]).
  replace (1040 * PI * e ^ 5 * b) with (PI * (e ^ 5 * b) * 1040) by ring. lra.
Qed.

Lemma s5_B_rho mu I : exists J, is_RInt (fun t => cos t / sqrt (ring_d2 a rho z (cos t)) ^ 3) 0 (2 * PI) J /\
  Rabs (cl_B_rho a (mu * I / PI) rho z - mu * I / (4 * PI) * (a * z * J)) <= 260 * Rabs (mu * I) * a ^ 2 * Rabs z * rho ^ 5 / T ^ 9.
Proof.
  destruct (sm_T a z Ha) as [T0 T2]. fold T in T0, T2. assert (PIpos := PI_RGT_0). destruct s5_J as [J [HJ BJ]]. exists J. split; [exact HJ|].
  assert (HS : small_rho a rho z = true) by (unfold small_rho, Rltb; destruct (Rlt_dec _ _); [reflexivity|contradiction]).
  unfold cl_B_rho. rewrite HS. cbv zeta. fold T.
  set (D := J * T ^ 3 - PI * (3 * e * b - 15 / 2 * e ^ 3 * b + 105 / 8 * e ^ 3 * b ^ 3)) in *.
  assert (Z2 : z ^ 2 = T * T - a ^ 2) by lra.
  replace (3 * (mu * I / PI) * PI * a ^ 2 * z * (rho / (4 * T ^ 5) + rho ^ 3 * (15 * a ^ 2 - 20 * z ^ 2) / (32 * T ^ 9)) - mu * I / (4 * PI) * (a * z * J))
    with (- (mu * I) * (a * z) * (D / (4 * PI * T ^ 3))).
  2:{ unfold D, e, b. rewrite Z2. field. lra. }
  unfold Rdiv at 1. rewrite (Rabs_mult (- (mu * I) * (a * z))), (Rabs_mult D), (Rabs_mult (- (mu * I))), (Rabs_mult a), Rabs_Ropp. rewrite (Rabs_pos_eq a) by lra.
  rewrite (Rabs_pos_eq (/ (4 * PI * T ^ 3))).
  2:{ apply Rlt_le, Rinv_0_lt_compat. apply Rmult_lt_0_compat; [lra|apply pow_lt; lra]. }
  replace (260 * Rabs (mu * I) * a ^ 2 * Rabs z * rho ^ 5 / T ^ 9) with (Rabs (mu * I) * (a * Rabs z) * (1040 * PI * e ^ 5 * b * / (4 * PI * T ^ 3))).
  2:{ unfold e, b. field. lra. }
  apply Rmult_le_compat_l; [repeat apply Rmult_le_pos; try apply Rabs_pos; lra|].
  apply Rmult_le_compat_r; [apply Rlt_le, Rinv_0_lt_compat; apply Rmult_lt_0_compat; [lra|apply pow_lt; lra]|exact BJ].
Qed.
End Small.

Lemma loop_small_B5 s u v p : 0 < cl_radius s -> orthonormal u v -> cl_orient s = vcross u v -> proper_axis (cl_orient s) ->
  let a := cl_radius s in let rho := axis_distance (cl_orient s) (cl_loc s) p in let h := axis_height (cl_orient s) (cl_loc s) p in
  rho ^ 2 / (a ^ 2 + h ^ 2) < 1 / 10 ^ 6 ->
  exists V B, is_circle_integral (biot_savart p) (cl_loc s) u v a V /\ loop_flux_density s "cartesian"%string p = Ok B /\
    vnorm (vsub B (vscal (cl_mu s * cl_current s / (4 * PI)) V)) <= 260 * Rabs (cl_mu s * cl_current s) * a ^ 2 * Rabs h * rho ^ 5 / sqrt (a ^ 2 + h ^ 2) ^ 9.
Proof.
  intros Ha HO Hn P a rho h Br. assert (R0 : 0 <= rho) by apply vnorm_nonneg. assert (PIpos := PI_RGT_0).
  pose proof (sm_off a rho h Ha R0 Br) as Off.
  destruct (s5_B_rho a rho h Ha R0 Br (cl_mu s) (cl_current s)) as [J [HJ EJ]].
  set (er := cl_B_rho a (cl_mu s * cl_current s / PI) rho h - cl_mu s * cl_current s / (4 * PI) * (a * h * J)) in *.
  assert (HZ : exists J0, is_RInt (fun t => / sqrt (ring_d2 a rho h (cos t)) ^ 3) 0 (2 * PI) J0 /\
      cl_B_z a (cl_mu s * cl_current s / PI) rho h = cl_mu s * cl_current s / (4 * PI) * (a ^ 2 * J0 - a * rho * J)).
  { destruct (Req_dec rho 0) as [Z|Z].
    - rewrite Z. destruct (ring_axis a h Ha) as [J0 [H0 E0]]. exists J0. split; [exact H0|]. rewrite axis_Bz by exact Ha. rewrite E0.
      field. split; [|lra]. apply Rgt_not_eq. destruct (sm_T a h Ha) as [T0 _]. exact T0.
    - destruct (xBz_ring a rho h Ha ltac:(lra) Off (cl_mu s) (cl_current s)) as [J' [J0 [HJ' [HJ0 EZ]]]].
      assert (J' = J) by (apply (is_RInt_unique (V:=R_CompleteNormedModule)) in HJ; apply (is_RInt_unique (V:=R_CompleteNormedModule)) in HJ'; congruence). subst J'.
      exists J0. split; assumption. }
  destruct HZ as [J0 [HJ0 EZ]].
  destruct (loop_biot_savart_gen s u v p J J0 er Ha HO Hn P Off HJ HJ0) as [V [B [HV [HB HN]]]].
  - fold rho h a. unfold er. ring.
  - exact EZ.
  - exists V, B. split; [exact HV|]. split; [exact HB|]. rewrite HN. exact EJ.
Qed.
