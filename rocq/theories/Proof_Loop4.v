(** C42: the loop near its axis. *)
From Coq Require Import String Reals List Lra.
From Coquelicot Require Import Coquelicot.
From Verif Require Import Vec3 Calculus Deriv Integral Periodic Elliptic CurveDeriv Numpy Model_Spatial Proof_Spatial Model_Static
  Spec_Static Spec_Loop Proof_Static Proof_Static2 Proof_Static3 Proof_Line Proof_Line3 Proof_Loop Proof_Loop2 Proof_Loop3.
Open Scope R_scope.

(** third order expansion of (1 + x)^(-3/2) *)
Definition p32 (x : R) : R := 1 - 3 / 2 * x + 15 / 8 * x ^ 2 - 35 / 16 * x ^ 3.
Lemma taylor32 x : Rabs x <= 1 / 100 -> Rabs (/ sqrt (1 + x) ^ 3 - p32 x) <= 3 * x ^ 4.
Proof.
  intro H. apply Rabs_le_between in H.
  assert (P : 0 < 1 + x) by lra. pose proof (sqrt_lt_R0 _ P) as S. pose proof (sqrt_sqrt _ (Rlt_le _ _ P)) as Q.
  set (s := sqrt (1 + x)) in *. assert (S3 : 0 < s ^ 3) by (apply pow_lt; exact S).
  set (y := / s ^ 3). assert (Y : 0 < y) by (apply Rinv_0_lt_compat, S3).
  assert (E : y * y * (1 + x) ^ 3 = 1) by (unfold y; rewrite <- Q; field; lra).
  clearbody y. clear S3 S Q s.
  set (r := 315 / 64 + x * (63 / 32 + x * (- (105 / 256) + x * (45 / 256 + x * (- (1575 / 256) + x * (- (1225 / 256))))))).
  assert (E2 : (y - p32 x) * ((y + p32 x) * (1 + x) ^ 3) = x ^ 4 * r).
  { transitivity (y * y * (1 + x) ^ 3 - p32 x * p32 x * (1 + x) ^ 3); [ring|]. rewrite E. unfold p32, r. field. }
  assert (X2 : 0 <= x ^ 2 <= 1 / 10000) by (split; nra).
  assert (PP : 98 / 100 <= p32 x) by (unfold p32; nra).
  assert (C : 97 / 100 <= (1 + x) ^ 3 <= 104 / 100) by (split; nra).
  assert (YY : 98 / 100 <= y).
  { destruct (Rle_lt_dec (98 / 100) y) as [K|K]; [exact K|]. exfalso.
    assert (y * y < 9604 / 10000) by nra. assert (y * y * (1 + x) ^ 3 < 1) by nra. lra. }
  set (D := (y + p32 x) * (1 + x) ^ 3) in *.
  assert (DD : 19 / 10 <= D) by (unfold D; nra).
  assert (RB : 0 <= r <= 54 / 10).
  { assert (Bd : forall c v, Rabs v <= c -> - c / 100 <= x * v <= c / 100).
    { intros c v Hv. apply Rabs_le_between in Hv. split; nra. }
    assert (B5 : Rabs (- (1575 / 256) + x * (- (1225 / 256))) <= 7) by (apply Rabs_le; lra).
    pose proof (Bd _ _ B5) as K5.
    assert (B4 : Rabs (45 / 256 + x * (- (1575 / 256) + x * (- (1225 / 256)))) <= 1) by (apply Rabs_le; lra).
    pose proof (Bd _ _ B4) as K4.
    assert (B3 : Rabs (- (105 / 256) + x * (45 / 256 + x * (- (1575 / 256) + x * (- (1225 / 256))))) <= 1) by (apply Rabs_le; lra).
    pose proof (Bd _ _ B3) as K3.
    assert (B2 : Rabs (63 / 32 + x * (- (105 / 256) + x * (45 / 256 + x * (- (1575 / 256) + x * (- (1225 / 256)))))) <= 3) by (apply Rabs_le; lra).
    pose proof (Bd _ _ B2) as K2. unfold r. lra. }
  assert (X4 : 0 <= x ^ 4) by (replace (x ^ 4) with ((x ^ 2) ^ 2) by ring; apply pow2_ge_0).
  assert (E3 : y - p32 x = x ^ 4 * r / D) by (rewrite <- E2; field; lra).
  rewrite E3. rewrite Rabs_pos_eq.
  - apply Rmult_le_reg_r with D; [lra|]. unfold Rdiv. rewrite Rmult_assoc, Rinv_l, Rmult_1_r by lra.
    replace (3 * x ^ 4 * D) with (x ^ 4 * (3 * D)) by ring. apply Rmult_le_compat_l; lra.
  - apply Rmult_le_pos; [apply Rmult_le_pos; lra|apply Rlt_le, Rinv_0_lt_compat; lra].
Qed.

(** integral over a turn of cos t times a cubic in cos t *)
Lemma turn_cubic A B C D : is_RInt (fun t => cos t * (A + B * cos t + C * cos t ^ 2 + D * cos t ^ 3)) 0 (2 * PI) (PI * (B + 3 / 4 * D)).
Proof.
  assert (PIpos := PI_RGT_0).
  set (F := fun t => A * sin t + B * (t / 2 + sin t * cos t / 2) + C * (sin t - sin t ^ 3 / 3) + D * (3 / 8 * t + 3 / 8 * (sin t * cos t) + sin t * cos t ^ 3 / 4)).
  replace (PI * (B + 3 / 4 * D)) with (F (2 * PI) - F 0).
  - apply (FTC F); [lra| |].
    + intros t _. unfold F. eapply is_derive_eq; [der; lra|]. cbn [INR Init.Nat.pred].
      assert (S2 : sin t ^ 2 = 1 - cos t ^ 2) by (pose proof (sin2_cos2 t) as HH; unfold Rsqr in HH; cbn; lra).
      field_simplify. rewrite S2. field.
    + intros t _. apply continuity_pt_filterlim. eapply derive_continuity. der.
  - unfold F. rewrite sin_2PI, cos_2PI, sin_0, cos_0. field.
Qed.

Section Small.
Variables a rho z : R.
Hypothesis Ha : 0 < a.
Hypothesis Hr : 0 <= rho.
Hypothesis Sm : rho ^ 2 / (a ^ 2 + z ^ 2) < 1 / 10 ^ 6.
Let T := sqrt (a ^ 2 + z ^ 2).
Let e := rho / T.
Let b := a / T.

Lemma sm_T : 0 < T /\ T * T = a ^ 2 + z ^ 2.
Proof.
  assert (A2 : 0 < a ^ 2 + z ^ 2) by (pose proof (pow2_ge_0 z); assert (0 < a ^ 2) by (apply pow_lt; lra); lra).
  split; [apply sqrt_lt_R0, A2|apply sqrt_sqrt, Rlt_le, A2].
Qed.
Lemma sm_e : 0 <= e < 1 / 1000.
Proof.
  destruct sm_T as [T0 T2]. assert (E0 : 0 <= e) by (apply Rmult_le_pos; [exact Hr|apply Rlt_le, Rinv_0_lt_compat, T0]).
  split; [exact E0|]. assert (e ^ 2 < 1 / 10 ^ 6). { replace (e ^ 2) with (rho ^ 2 / (T * T)) by (unfold e; field; lra). rewrite T2. exact Sm. }
  assert (1 / 10 ^ 6 = (1 / 1000) * (1 / 1000)) by field. destruct (Rlt_le_dec e (1 / 1000)) as [L|L]; [exact L|]. exfalso. nra.
Qed.
Lemma sm_b : 0 < b <= 1.
Proof.
  destruct sm_T as [T0 T2]. split; [apply Rdiv_lt_0_compat; assumption|].
  apply Rmult_le_reg_r with T; [exact T0|]. unfold b, Rdiv. rewrite Rmult_assoc, Rinv_l, Rmult_1_r, Rmult_1_l by lra.
  unfold T. rewrite <- (sqrt_pow2 a) at 1 by lra. apply sqrt_le_1_alt. pose proof (pow2_ge_0 z). lra.
Qed.
Lemma sm_off : 0 < (a - rho) ^ 2 + z ^ 2.
Proof.
  destruct sm_T as [T0 T2]. pose proof sm_e as [E0 E1]. pose proof sm_b as [B0 B1].
  assert (Er : rho = e * T) by (unfold e; field; lra). assert (Ea : a = b * T) by (unfold b; field; lra).
  replace ((a - rho) ^ 2 + z ^ 2) with (T * T * (1 - 2 * e * b + e ^ 2)).
  - apply Rmult_lt_0_compat; [nra|]. assert (0 <= e * b <= 1 / 1000) by (split; nra). pose proof (pow2_ge_0 e). lra.
  - transitivity (T * T - 2 * (e * T) * (b * T) + (e * T) ^ 2); [ring|]. rewrite <- Er, <- Ea, T2. ring.
Qed.
Lemma sm_x c : -1 <= c <= 1 -> Rabs (e ^ 2 - 2 * e * b * c) <= 2001 / 1000 * e /\ Rabs (e ^ 2 - 2 * e * b * c) <= 1 / 100.
Proof.
  intro Hc. pose proof sm_e as [E0 E1]. pose proof sm_b as [B0 B1].
  assert (K : - e <= e * b * c <= e). { assert (-1 <= b * c <= 1) by (split; nra). rewrite Rmult_assoc. split; nra. }
  assert (0 <= e ^ 2 <= e / 1000) by (split; nra).
  split; apply Rabs_le; lra.
Qed.
Lemma sm_d t : sqrt (ring_d2 a rho z (cos t)) = T * sqrt (1 + (e ^ 2 - 2 * e * b * cos t)).
Proof.
  destruct sm_T as [T0 T2]. assert (Er : rho = e * T) by (unfold e; field; lra). assert (Ea : a = b * T) by (unfold b; field; lra).
  transitivity (sqrt (T * T * (1 + (e ^ 2 - 2 * e * b * cos t)))).
  - f_equal. unfold ring_d2. transitivity (T * T + (e * T) ^ 2 - 2 * (b * T) * (e * T) * cos t); [|ring]. rewrite <- Er, <- Ea, T2. ring.
  - rewrite sqrt_mult_alt by nra. rewrite sqrt_square by lra. reflexivity.
Qed.

Lemma sm_J : exists J, is_RInt (fun t => cos t / sqrt (ring_d2 a rho z (cos t)) ^ 3) 0 (2 * PI) J /\
  Rabs (J * T ^ 3 - PI * (3 * e * b - 15 / 2 * e ^ 3 * b + 105 / 8 * e ^ 3 * b ^ 3)) <= 98 * PI * e ^ 4.
Proof.
  destruct sm_T as [T0 T2]. pose proof sm_e as [E0 E1]. pose proof sm_b as [B0 B1]. assert (PIpos := PI_RGT_0).
  assert (Ex : ex_RInt (fun t => cos t / sqrt (ring_d2 a rho z (cos t)) ^ 3) 0 (2 * PI)).
  { apply (ex_RInt_continuous (V:=R_CompleteNormedModule)). intros t _. pose proof (ring_d2_pos a rho z t Ha Hr sm_off) as P. pose proof (sqrt_lt_R0 _ P).
    apply continuity_pt_filterlim. unfold ring_d2 in *. eapply derive_continuity. der; first [exact P|apply pow_nonzero; lra]. }
  destruct Ex as [J HJ]. exists J. split; [exact HJ|].
  set (B := - 2 * e * b). set (A := e ^ 2).
  assert (HC := turn_cubic (1 - 3 / 2 * A + 15 / 8 * A ^ 2 - 35 / 16 * A ^ 3) (B * (- (3 / 2) + 15 / 4 * A - 105 / 16 * A ^ 2)) (B ^ 2 * (15 / 8 - 105 / 16 * A)) (- (35 / 16) * B ^ 3)).
  assert (HD := is_RInt_minus (V:=R_NormedModule) _ _ _ _ _ _ (is_RInt_scal (V:=R_NormedModule) _ _ _ (T ^ 3) _ HJ) HC).
  assert (Bd := fun M H => norm_RInt_le_const (V:=R_NormedModule) _ 0 (2 * PI) _ M ltac:(lra) H HD).
  assert (G : forall t, 0 <= t <= 2 * PI -> Rabs (T ^ 3 * (cos t / sqrt (ring_d2 a rho z (cos t)) ^ 3) -
     cos t * (1 - 3 / 2 * A + 15 / 8 * A ^ 2 - 35 / 16 * A ^ 3 + B * (- (3 / 2) + 15 / 4 * A - 105 / 16 * A ^ 2) * cos t + B ^ 2 * (15 / 8 - 105 / 16 * A) * cos t ^ 2 + - (35 / 16) * B ^ 3 * cos t ^ 3)) <= 3 * (2001 / 1000 * e) ^ 4).
  { intros t _. pose proof (COS_bound t) as Hc. destruct (sm_x (cos t) Hc) as [X1 X2]. set (x := e ^ 2 - 2 * e * b * cos t) in *.
    rewrite sm_d. fold x. assert (P : 0 < sqrt (1 + x)) by (apply sqrt_lt_R0; apply Rabs_le_between in X2; lra).
    replace (T ^ 3 * (cos t / (T * sqrt (1 + x)) ^ 3) - cos t * _) with (cos t * (/ sqrt (1 + x) ^ 3 - p32 x)).
    - rewrite Rabs_mult. pose proof (taylor32 x X2) as K.
      assert (X4 : x ^ 4 <= (2001 / 1000 * e) ^ 4).
      { rewrite <- (RPow_abs x 4) || idtac. replace (x ^ 4) with (Rabs x ^ 4).
        - apply pow_incr. split; [apply Rabs_pos|exact X1].
        - rewrite RPow_abs. apply Rabs_pos_eq. replace (x ^ 4) with ((x ^ 2) ^ 2) by ring. apply pow2_ge_0. }
      apply Rle_trans with (1 * (3 * x ^ 4)); [|lra]. apply Rmult_le_compat; try apply Rabs_pos; [apply Rabs_le; lra|exact K].
    - unfold p32. set (y := sqrt (1 + x)) in *. clearbody y. unfold x, A, B. field. lra. }
  specialize (Bd (3 * (2001 / 1000 * e) ^ 4) G).
  unfold minus, scal, plus, opp in Bd; cbn -[pow] in Bd. unfold mult, norm in Bd; cbn -[pow] in Bd. unfold abs in Bd; cbn -[pow] in Bd.
  set (Q := PI * (3 * e * b - 15 / 2 * e ^ 3 * b + 105 / 8 * e ^ 3 * b ^ 3)).
  replace (J * T ^ 3 - Q) with ((T ^ 3 * J + - (PI * (B * (- (3 / 2) + 15 / 4 * A - 105 / 16 * A ^ 2) + 3 / 4 * (- (35 / 16) * B ^ 3)))) + PI * (105 / 8 * e ^ 5 * b)).
  2:{ unfold Q, A, B. field. }
  eapply Rle_trans; [apply Rabs_triang|]. eapply Rle_trans; [apply Rplus_le_compat; [exact Bd|apply Rle_refl]|].
  assert (E4 : 0 <= e ^ 4) by (apply pow_le; exact E0).
  rewrite (Rabs_pos_eq (PI * (105 / 8 * e ^ 5 * b))).
  - assert (e ^ 5 * b <= e ^ 4 / 1000).
    { replace (e ^ 5 * b) with (e ^ 4 * (e * b)) by ring. unfold Rdiv. apply Rmult_le_compat_l; [exact E4|]. nra. }
    replace ((2001 / 1000 * e) ^ 4) with ((2001 / 1000) ^ 4 * e ^ 4) by ring.
    assert ((2001 / 1000) ^ 4 <= 161 / 10) by lra.
    assert ((2001 / 1000) ^ 4 * e ^ 4 <= 161 / 10 * e ^ 4) by (apply Rmult_le_compat_r; assumption).
    replace ((2 * PI - 0) * (3 * ((2001 / 1000) ^ 4 * e ^ 4)) + PI * (105 / 8 * e ^ 5 * b)) with (PI * (6 * ((2001 / 1000) ^ 4 * e ^ 4) + 105 / 8 * (e ^ 5 * b))) by ring.
    replace (98 * PI * e ^ 4) with (PI * (98 * e ^ 4)) by ring. apply Rmult_le_compat_l; lra.
  - apply Rmult_le_pos; [lra|]. apply Rmult_le_pos; [|lra]. apply Rmult_le_pos; [lra|]. apply pow_le; exact E0.
Qed.

Lemma sm_B_rho mu I : exists J, is_RInt (fun t => cos t / sqrt (ring_d2 a rho z (cos t)) ^ 3) 0 (2 * PI) J /\
  Rabs (cl_B_rho a (mu * I / PI) rho z - mu * I / (4 * PI) * (a * z * J)) <= 25 * Rabs (mu * I) * a * Rabs z * rho ^ 4 / T ^ 7.
Proof.
  destruct sm_T as [T0 T2]. assert (PIpos := PI_RGT_0). destruct sm_J as [J [HJ BJ]]. exists J. split; [exact HJ|].
  assert (HS : small_rho a rho z = true) by (unfold small_rho, Rltb; destruct (Rlt_dec _ _); [reflexivity|contradiction]).
  unfold cl_B_rho. rewrite HS. cbv zeta. fold T.
  set (D := J * T ^ 3 - PI * (3 * e * b - 15 / 2 * e ^ 3 * b + 105 / 8 * e ^ 3 * b ^ 3)) in *.
  assert (Z2 : z ^ 2 = T * T - a ^ 2) by lra.
  replace (3 * (mu * I / PI) * PI * a ^ 2 * z * (rho / (4 * T ^ 5) + rho ^ 3 * (15 * a ^ 2 - 20 * z ^ 2) / (32 * T ^ 9)) - mu * I / (4 * PI) * (a * z * J))
    with (- (mu * I) * (a * z) * (D / (4 * PI * T ^ 3))).
  2:{ unfold D, e, b. rewrite Z2. field. lra. }
  unfold Rdiv at 1. rewrite (Rabs_mult (- (mu * I) * (a * z))), (Rabs_mult D), (Rabs_mult (- (mu * I))), (Rabs_mult a), Rabs_Ropp. rewrite (Rabs_pos_eq a) by lra.
  rewrite (Rabs_pos_eq (/ (4 * PI * T ^ 3))).
  2:{ apply Rlt_le, Rinv_0_lt_compat. apply Rmult_lt_0_compat; [lra|apply pow_lt; lra]. }
  replace (25 * Rabs (mu * I) * a * Rabs z * rho ^ 4 / T ^ 7) with (Rabs (mu * I) * (a * Rabs z) * (100 * PI * e ^ 4 * / (4 * PI * T ^ 3))).
  2:{ unfold e. field. lra. }
  apply Rmult_le_compat_l; [repeat apply Rmult_le_pos; try apply Rabs_pos; lra|].
  apply Rmult_le_compat_r; [apply Rlt_le, Rinv_0_lt_compat; apply Rmult_lt_0_compat; [lra|apply pow_lt; lra]|].
  eapply Rle_trans; [exact BJ|]. assert (0 <= e ^ 4) by (apply pow_le, sm_e). apply Rmult_le_compat_r; [assumption|]. lra.
Qed.
End Small.

Lemma ellip_0 : ellipk 0 = PI / 2 /\ ellipe 0 = PI / 2.
Proof.
  assert (PIpos := PI_RGT_0).
  assert (H : is_RInt (fun _ : R => 1) 0 (PI / 2) (PI / 2)).
  { replace (PI / 2) with (scal (PI / 2 - 0) 1) at 2 by (unfold scal; cbn; unfold mult; cbn; field). apply (is_RInt_const (V:=R_NormedModule)). }
  split; apply (is_RInt_unique (V:=R_CompleteNormedModule)); (eapply is_RInt_ext_in; [lra| |exact H]); intros x _; cbv beta;
    replace (1 - 0 * sin x ^ 2) with 1 by ring; rewrite sqrt_1; field.
Qed.

Lemma axis_Bz a C z : 0 < a -> cl_B_z a C 0 z = C * PI * a ^ 2 / (2 * sqrt (a ^ 2 + z ^ 2) ^ 3).
Proof.
  intro Ha. unfold cl_B_z. cbv zeta. replace (a - 0) with a by ring. replace (a + 0) with a by ring.
  assert (A2 : 0 < a ^ 2 + z ^ 2) by (pose proof (pow2_ge_0 z); assert (0 < a ^ 2) by (apply pow_lt; lra); lra).
  replace (1 - (a ^ 2 + z ^ 2) / (a ^ 2 + z ^ 2)) with 0 by (field; lra). destruct ellip_0 as [K E]. rewrite K, E.
  pose proof (sqrt_lt_R0 _ A2) as S. pose proof (sqrt_sqrt _ (Rlt_le _ _ A2)) as Q. set (T := sqrt (a ^ 2 + z ^ 2)) in *. clearbody T.
  replace (a ^ 2 - 0 ^ 2 - z ^ 2) with (2 * a ^ 2 - T * T) by lra. rewrite <- Q. field. lra.
Qed.

Lemma ring_axis a z : 0 < a -> exists J0, is_RInt (fun t => / sqrt (ring_d2 a 0 z (cos t)) ^ 3) 0 (2 * PI) J0 /\ J0 = 2 * PI / sqrt (a ^ 2 + z ^ 2) ^ 3.
Proof.
  intro Ha. eexists. split; [|reflexivity].
  replace (2 * PI / sqrt (a ^ 2 + z ^ 2) ^ 3) with (scal (2 * PI - 0) (/ sqrt (a ^ 2 + z ^ 2) ^ 3)) by (unfold scal; cbn -[pow]; unfold mult; cbn -[pow]; unfold Rdiv; ring).
  eapply is_RInt_ext; [|apply (is_RInt_const (V:=R_NormedModule))]. intros t _. cbv beta. do 3 f_equal. unfold ring_d2. ring.
Qed.

Lemma loop_small_B s u v p : 0 < cl_radius s -> orthonormal u v -> cl_orient s = vcross u v -> proper_axis (cl_orient s) ->
  let a := cl_radius s in let rho := axis_distance (cl_orient s) (cl_loc s) p in let h := axis_height (cl_orient s) (cl_loc s) p in
  rho ^ 2 / (a ^ 2 + h ^ 2) < 1 / 10 ^ 6 ->
  exists V B, is_circle_integral (biot_savart p) (cl_loc s) u v a V /\ loop_flux_density s "cartesian"%string p = Ok B /\
    vnorm (vsub B (vscal (cl_mu s * cl_current s / (4 * PI)) V)) <= 25 * Rabs (cl_mu s * cl_current s) * a * Rabs h * rho ^ 4 / sqrt (a ^ 2 + h ^ 2) ^ 7.
Proof.
  intros Ha HO Hn P a rho h Br. assert (R0 : 0 <= rho) by apply vnorm_nonneg. assert (PIpos := PI_RGT_0).
  pose proof (sm_off a rho h Ha R0 Br) as Off.
  destruct (sm_B_rho a rho h Ha R0 Br (cl_mu s) (cl_current s)) as [J [HJ EJ]].
  set (er := cl_B_rho a (cl_mu s * cl_current s / PI) rho h - cl_mu s * cl_current s / (4 * PI) * (a * h * J)) in *.
  assert (HZ : exists J0, is_RInt (fun t => / sqrt (ring_d2 a rho h (cos t)) ^ 3) 0 (2 * PI) J0 /\
      cl_B_z a (cl_mu s * cl_current s / PI) rho h = cl_mu s * cl_current s / (4 * PI) * (a ^ 2 * J0 - a * rho * J)).
  { destruct (Req_dec rho 0) as [Z|Z].
    - rewrite Z. destruct (ring_axis a h Ha) as [J0 [H0 E0]]. exists J0. split; [exact H0|]. rewrite axis_Bz by exact Ha. rewrite E0.
      field. split; [|lra]. apply Rgt_not_eq. destruct (sm_T a h Ha) as [T0 _]. exact T0.
    - destruct (xBz_ring a rho h Ha ltac:(lra) Off (cl_mu s) (cl_current s)) as [J' [J0 [HJ' [HJ0 EZ]]]].
      assert (J' = J) by (apply (is_RInt_unique (V:=R_CompleteNormedModule)) in HJ; apply (is_RInt_unique (V:=R_CompleteNormedModule)) in HJ'; congruence). subst J'.
      exists J0. split; assumption. }
  destruct HZ as [J0 [HJ0 EZ]].
  destruct (loop_biot_savart_gen s u v p J J0 er Ha HO Hn P Off HJ HJ0) as [V [B [HV [HB HN]]]].
  - fold rho h a. unfold er. ring.
  - exact EZ.
  - exists V, B. split; [exact HV|]. split; [exact HB|]. rewrite HN. exact EJ.
Qed.

Lemma loop_on_axis s z : 0 < cl_radius s -> proper_axis (cl_orient s) ->
  let p := vadd (cl_loc s) (vscal z (cl_orient s)) in let a := cl_radius s in
  loop_flux_density s "cartesian"%string p = Ok (vscal (cl_mu s * cl_current s * a ^ 2 / (2 * sqrt (a ^ 2 + z ^ 2) ^ 3)) (cl_orient s)) /\
  (a ^ 2 <> 4 * z ^ 2 -> loop_vector_potential s "cartesian"%string p = Ok vzero).
Proof.
  intros Ha P p a. destruct (loop_rot _ P) as [M [E [R Mn]]]. assert (PIpos := PI_RGT_0).
  assert (Q : mvec M (vsub p (cl_loc s)) = V3 0 0 z).
  { replace (vsub p (cl_loc s)) with (vscal z (cl_orient s)) by (unfold p; destruct (cl_loc s), (cl_orient s); vring).
    rewrite mvec_scal, Mn. unfold vscal; cbn. f_equal; ring. }
  assert (A2 : 0 < a ^ 2 + z ^ 2) by (pose proof (pow2_ge_0 z); assert (0 < a ^ 2) by (apply pow_lt; assumption); lra).
  assert (H2 : hyp2 0 0 = 0) by (unfold hyp2; replace (0 ^ 2 + 0 ^ 2) with 0 by ring; apply sqrt_0).
  assert (HS : small_rho a 0 z = true).
  { unfold small_rho, Rltb. destruct (Rlt_dec _ _) as [L|L]; [reflexivity|]. exfalso. apply L. rewrite pow_ne_zero by discriminate. unfold Rdiv. rewrite Rmult_0_l, Rmult_1_l.
    apply Rinv_0_lt_compat, pow_lt; lra. }
  split.
  - unfold loop_flux_density. rewrite with_loop_eq by (left; reflexivity). rewrite with_coordinates_cart by reflexivity.
    unfold cl_B. rewrite (cl_frame _ _ _ M E), Q. f_equal. fold a. unfold local; cbn [vx vy vz]. rewrite H2, axis_Bz by exact Ha.
    replace (cl_B_rho a (cl_mu s * cl_current s / PI) 0 z) with 0 by (unfold cl_B_rho; rewrite HS; cbv zeta; unfold Rdiv; ring).
    transitivity (mvec (mtrans M) (vscal (cl_mu s * cl_current s * a ^ 2 / (2 * sqrt (a ^ 2 + z ^ 2) ^ 3)) (mvec M (cl_orient s)))).
    + f_equal. rewrite Mn. unfold vscal; cbn [vx vy vz]. pose proof (sqrt_lt_R0 _ A2). f_equal; try ring. field. split; lra.
    + rewrite mvec_scal, rot_inv_l by exact R. reflexivity.
  - intro N. unfold loop_vector_potential. rewrite with_coordinates_cart by reflexivity.
    unfold cl_A. rewrite (cl_frame _ _ _ M E), Q. f_equal. fold a. unfold local; cbn [vx vy vz]. rewrite H2.
    replace (cl_A_phi a (cl_mu s * cl_current s / PI) 0 z) with 0 by (unfold cl_A_phi; rewrite HS; cbv zeta; unfold Rdiv; ring).
    destruct M as [[] [] []]; vunf; f_equal; ring.
Qed.

(** ** the vector potential near the axis *)
Lemma loop_small_A s u v p : 0 < cl_radius s -> orthonormal u v -> cl_orient s = vcross u v -> proper_axis (cl_orient s) ->
  let a := cl_radius s in let rho := axis_distance (cl_orient s) (cl_loc s) p in let h := axis_height (cl_orient s) (cl_loc s) p in
  0 < (a - rho) ^ 2 + h ^ 2 ->
  exists J V A, is_RInt (fun t => cos t / sqrt (ring_d2 a rho h (cos t))) 0 (2 * PI) J /\
    is_circle_integral (dl_over_r p) (cl_loc s) u v a V /\ loop_vector_potential s "cartesian"%string p = Ok A /\
    vnorm V = Rabs (a * J) /\ vnorm A = Rabs (cl_A_phi a (cl_mu s * cl_current s / PI) rho h).
Proof.
  intros Ha HO Hn P a rho h Off. destruct (loop_rot _ P) as [M [E [R Mn]]].
  pose proof (frame_rho M _ (cl_loc s) p R Mn) as Fr. pose proof (frame_height M _ (cl_loc s) p R Mn) as Fh. cbv zeta in Fr. fold rho in Fr. fold h in Fh.
  assert (R0 : 0 <= rho) by apply vnorm_nonneg.
  set (q := mvec M (vsub p (cl_loc s))) in *.
  assert (Ex : ex_RInt (fun t => cos t / sqrt (ring_d2 a rho h (cos t))) 0 (2 * PI)).
  { apply (ex_RInt_continuous (V:=R_CompleteNormedModule)). intros t _. pose proof (ring_d2_pos a rho h t Ha R0 Off) as Pd. pose proof (sqrt_lt_R0 _ Pd).
    apply continuity_pt_filterlim. unfold ring_d2 in *. eapply derive_continuity. der; first [exact Pd|lra]. }
  assert (NT : forall w x, vnorm (turn w (V3 0 x 0)) = Rabs x).
  { intros w x. apply vnorm_unique; [apply Rabs_pos|]. unfold turn, vnorm2; cbn [vx vy vz]. pose proof (sin2_cos2 w) as S. unfold Rsqr in S.
    rewrite <- Rabs_mult, Rabs_pos_eq by nra. transitivity (x * x * (sin w * sin w + cos w * cos w)); [rewrite S; ring|ring]. }
  destruct Ex as [J HJ].
  exists J, (mvec (mtrans M) (turn (atan2 (vy q) (vx q)) (V3 0 (a * J) 0))), (mvec (mtrans M) (turn (atan2 (vy q) (vx q)) (V3 0 (cl_A_phi a (cl_mu s * cl_current s / PI) rho h) 0))).
  split; [exact HJ|]. split; [|split; [|split]].
  - eapply (frame_integral u v (cl_loc s) p a M R).
    + intro t. eapply frame_A; eassumption.
    + intro t. apply gA_periodic.
    + intro t. fold q. rewrite Fr, Fh. apply gA_cont; [exact Ha|lra|exact Off].
    + fold q. rewrite Fr, Fh. apply gA_int; first [exact Ha|lra|exact Off|exact HJ].
  - unfold loop_vector_potential. rewrite with_coordinates_cart by reflexivity. unfold cl_A. rewrite (cl_frame _ _ _ M E). fold q. f_equal.
    f_equal. unfold local, turn; cbn [vx vy vz]. rewrite Fr, Fh. reflexivity.
  - rewrite rotation_norm by (apply is_rotation_trans; exact R). apply NT.
  - rewrite rotation_norm by (apply is_rotation_trans; exact R). apply NT.
Qed.

Definition unit_loop : cloop := CL 1 1 (V3 0 0 1) vzero 1.
Lemma unit_loop_axis : proper_axis (V3 0 0 1).
Proof. split; [apply vnorm_unique; [lra|]; unfold vnorm2; cbn; ring|]. right. unfold vcross, vzero; cbn. f_equal; ring. Qed.
Lemma unit_loop_at x z : 0 <= x -> axis_distance (V3 0 0 1) vzero (V3 x 0 z) = x /\ axis_height (V3 0 0 1) vzero (V3 x 0 z) = z.
Proof.
  intro H. split.
  - unfold axis_distance. apply vnorm_unique; [exact H|]. unfold vnorm2, vcross, vsub, vzero; cbn. ring.
  - unfold axis_height, vdot, vsub, vzero; cbn. ring.
Qed.

Lemma loop_A_unbounded (K : R) : exists p V A,
  let rho := axis_distance (V3 0 0 1) vzero p in let h := axis_height (V3 0 0 1) vzero p in
  rho ^ 2 / (1 ^ 2 + h ^ 2) < 1 / 10 ^ 6 /\ 1 ^ 2 <> 4 * h ^ 2 /\
  is_circle_integral (dl_over_r p) vzero (V3 1 0 0) (V3 0 1 0) 1 V /\ vnorm (vscal (1 * 1 / (4 * PI)) V) <= 1 /\
  loop_vector_potential unit_loop "cartesian"%string p = Ok A /\ K < vnorm A.
Proof.
  assert (PIpos := PI_RGT_0).
  set (L := Rabs K + 1). assert (L1 : 1 <= L /\ K < L) by (unfold L; pose proof (Rabs_pos K); pose proof (Rle_abs K); split; lra).
  set (dl := 1 / (10 ^ 16 * L)). assert (T16 : 0 < 10 ^ 16) by (apply pow_lt; lra).
  assert (D0 : 0 < dl) by (apply Rdiv_lt_0_compat; [lra|]; apply Rmult_lt_0_compat; lra).
  assert (D1 : dl < 1 / 2).
  { unfold dl. apply Rmult_lt_reg_r with (10 ^ 16 * L); [apply Rmult_lt_0_compat; lra|]. unfold Rdiv. rewrite Rmult_assoc, Rinv_l by (apply Rgt_not_eq; apply Rmult_lt_0_compat; lra). nra. }
  set (z := sqrt ((1 - dl) / 4)). assert (Z0 : 0 < z) by (apply sqrt_lt_R0; lra).
  assert (Z2 : z * z = (1 - dl) / 4) by (apply sqrt_sqrt; lra).
  set (rho := / 10 ^ 4). assert (R0 : 0 < rho) by (apply Rinv_0_lt_compat, pow_lt; lra).
  assert (R4 : rho = 1 / 10000) by (unfold rho; field).
  destruct (unit_loop_at rho z (Rlt_le _ _ R0)) as [E1 E2].
  assert (Sm : rho ^ 2 / (1 ^ 2 + z ^ 2) < 1 / 10 ^ 6).
  { apply Rmult_lt_reg_r with (1 ^ 2 + z ^ 2); [nra|]. unfold Rdiv at 1. rewrite Rmult_assoc, Rinv_l, Rmult_1_r by nra. rewrite R4. nra. }
  assert (Off : 0 < (1 - rho) ^ 2 + z ^ 2) by (rewrite R4; nra).
  assert (HO : orthonormal (V3 1 0 0) (V3 0 1 0)) by (unfold orthonormal, vdot; cbn; repeat split; ring).
  assert (Hn : cl_orient unit_loop = vcross (V3 1 0 0) (V3 0 1 0)) by (unfold unit_loop, vcross; cbn; f_equal; ring).
  pose proof (loop_small_A unit_loop (V3 1 0 0) (V3 0 1 0) (V3 rho 0 z) ltac:(cbn; lra) HO Hn unit_loop_axis) as HH.
  cbv zeta in HH. cbn [cl_radius cl_current cl_orient cl_loc cl_mu unit_loop] in HH. rewrite E1, E2 in HH.
  destruct (HH Off) as [J [V [A [HJ [HV [HA [NV NA]]]]]]].
  exists (V3 rho 0 z), V, A. cbv zeta. rewrite E1, E2. split; [exact Sm|]. split; [nra|]. split; [exact HV|]. split; [|split; [exact HA|]].
  - rewrite vnorm_scal, NV. rewrite Rmult_1_l, Rmult_1_l.
    assert (BJ : Rabs J <= (2 * PI - 0) * 2).
    { apply (norm_RInt_le_const (V:=R_NormedModule) (fun t => cos t / sqrt (ring_d2 1 rho z (cos t))) 0 (2 * PI) J 2); [lra| |exact HJ].
      intros t _. unfold norm; cbn -[pow]. unfold abs; cbn -[pow].
      pose proof (COS_bound t) as [C1 C2].
      assert (Q : 1 / 4 <= ring_d2 1 rho z (cos t)) by (unfold ring_d2; rewrite R4; nra).
      assert (SQ : 1 / 2 <= sqrt (ring_d2 1 rho z (cos t))).
      { replace (1 / 2) with (sqrt (1 / 4)) by (apply sqrt_lem_1; lra). apply sqrt_le_1_alt. exact Q. }
      unfold Rdiv. rewrite Rabs_mult. rewrite (Rabs_pos_eq (/ _)) by (apply Rlt_le, Rinv_0_lt_compat; lra).
      replace 2 with (1 * / (1 / 2)) by field. apply Rmult_le_compat; [apply Rabs_pos|apply Rlt_le, Rinv_0_lt_compat; lra|apply Rabs_le; lra|].
      apply Rinv_le_contravar; lra. }
    rewrite (Rabs_pos_eq (1 / (4 * PI))) by (apply Rlt_le, Rdiv_lt_0_compat; lra).
    apply Rle_trans with (1 / (4 * PI) * ((2 * PI - 0) * 2)).
    + apply Rmult_le_compat_l; [apply Rlt_le, Rdiv_lt_0_compat; lra|exact BJ].
    + right. field. lra.
  - rewrite NA. unfold cl_A_phi. unfold small_rho, Rltb. destruct (Rlt_dec _ _) as [_|N]; [|contradiction].
    cbv zeta. replace (1 ^ 2 - 4 * z ^ 2) with dl by (replace (z ^ 2) with (z * z) by ring; rewrite Z2; field).
    assert (A2 : 0 < 1 ^ 2 + z ^ 2) by nra. pose proof (sqrt_lt_R0 _ A2) as S. pose proof (sqrt_sqrt _ (Rlt_le _ _ A2)) as Q.
    set (T := sqrt (1 ^ 2 + z ^ 2)) in *. clearbody T.
    assert (T1 : T < 2) by nra.
    assert (T7 : 0 < T ^ 7 <= 128).
    { split; [apply pow_lt; exact S|]. replace 128 with (2 ^ 7) by ring. apply pow_incr. lra. }
    assert (Term : L < rho ^ 3 * 3 * 1 ^ 2 / dl / (32 * T ^ 7)).
    { unfold dl. rewrite R4.
      replace ((1 / 10000) ^ 3 * 3 * 1 ^ 2 / (1 / (10 ^ 16 * L)) / (32 * T ^ 7)) with (L * (30000 / (32 * T ^ 7))) by (field; lra).
      assert (1 < 30000 / (32 * T ^ 7)).
      { apply Rmult_lt_reg_r with (32 * T ^ 7); [lra|]. unfold Rdiv. rewrite Rmult_assoc, Rinv_l by lra. lra. }
      nra. }
    assert (First : 0 < rho * 1 ^ 2 / (4 * T ^ 3)) by (apply Rdiv_lt_0_compat; [nra|]; assert (0 < T ^ 3) by (apply pow_lt; exact S); lra).
    replace (PI * (1 * 1 / PI) * (rho * 1 ^ 2 / (4 * T ^ 3) + rho ^ 3 * 3 * 1 ^ 2 / dl / (32 * T ^ 7)))
      with (rho * 1 ^ 2 / (4 * T ^ 3) + rho ^ 3 * 3 * 1 ^ 2 / dl / (32 * T ^ 7)) by (field; lra).
    eapply Rlt_le_trans; [|apply Rle_abs]. lra.
Qed.
