(** The harmonic central loop in floating point (C137): the formulas and the exact response. *)
From Coq Require Import ZArith Reals Lra Lia Psatz.
From Flocq Require Import Core.
From Coquelicot Require Import Coquelicot.
From Verif Require Import Vec3 Calculus Deriv Cplx Model_FDEM Model_Float Model_Float3 Model_Float6 Spec_Float Spec_Float2 Spec_Float5
  Proof_FDEM Proof_Float Proof_Float2 Proof_Float3 Proof_Float5 Proof_Float6 Proof_Float7 Proof_Float8 Proof_Float9 Proof_Float11.
Open Scope R_scope.

(** ** The exact response in terms of x = radius / skin depth *)
Definition Pex (x : R) : R := exp (- x) * ((3 + 3 * x) * cos x + (3 * x + 2 * x ^ 2) * sin x).
Definition Iex (x : R) : R := exp (- x) * ((3 * x + 2 * x ^ 2) * cos x - (3 + 3 * x) * sin x).

Definition kap (f sg mu : R) : R := sqrt (omega f * mu * sg / 2).

Section Exact.
  Variables f sg mu a I n : R.
  Hypothesis F0 : 0 < f. Hypothesis S0 : 0 < sg. Hypothesis M0 : 0 < mu. Hypothesis A0 : 0 < a.
  Notation K := (kap f sg mu).
  Lemma arg_p : 0 < omega f * mu * sg / 2.
  Proof. pose proof (omega_pos f F0). assert (0 < omega f * mu * sg) by (apply Rmult_lt_0_compat; [apply Rmult_lt_0_compat|]; assumption). lra. Qed.
  Lemma K_pos : 0 < K. Proof. apply sqrt_lt_R0, arg_p. Qed.
  Lemma K_sq : 2 * (K * K) = omega f * mu * sg.
  Proof. unfold kap. rewrite sqrt_sqrt; [field|]. pose proof arg_p. lra. Qed.
  Lemma k_is : csqrt (- Ci * omega f * mu * sg)%C = (K, - K).
  Proof.
    symmetry. apply csqrt_unique; [exact K_pos|]. pose proof K_sq. apply C_eq; cbn; [ring|]. lra.
  Qed.
  Lemma skin_K : a / skin_depth f sg mu 0 PyTrue = K * a.
  Proof.
    unfold skin_depth, truth. pose proof (omega_pos f F0). pose proof arg_p as AP. pose proof K_pos. 
    assert (E : 2 / (omega f * sg * mu) = / (omega f * mu * sg / 2)) by (field; repeat split; lra).
    rewrite E, sqrt_inv. fold (kap f sg mu). field. lra.
  Qed.
  Definition camp := I / (2 * (K * K) * a ^ 3).
  Lemma loop_parts sec : loop_hz f sg mu a I n sec =
    (n * (- (camp * Iex (K * a)) - if sec then I / 2 / a else 0), n * (- (camp * (3 - Pex (K * a))))).
  Proof.
    pose proof K_pos. unfold loop_hz. change (2 * PI * f) with (omega f). cbv zeta. rewrite k_is. set (kc := ((K, - K) : C)).
    replace (- Ci * kc * a)%C with ((- (K * a), - (K * a)) : C) by (unfold kc; apply C_eq; cbn; ring).
    unfold cexp. cbn [Re Im fst snd]. rewrite cos_neg, sin_neg.
    set (e := exp (- (K * a))). set (c := cos (K * a)). set (s := sin (K * a)).
    assert (B : (3 + 3 * Ci * kc * a - kc ^ 2 * a ^ 2)%C = ((3 + 3 * (K * a), 3 * (K * a) + 2 * (K * a) ^ 2) : C)) by (unfold kc; apply C_eq; cbn; ring).
    rewrite B. assert (D : (kc ^ 2 * a ^ 3)%C = ((0, - (2 * (K * K) * a ^ 3)) : C)) by (unfold kc; apply C_eq; cbn; ring).
    rewrite D. unfold Pex, Iex. fold e c s. unfold camp. assert (0 < a ^ 3) by (apply pow_lt, A0). set (d := 2 * (K * K) * a ^ 3).
    assert (DP : 0 < d) by (unfold d; apply Rmult_lt_0_compat; [nra|assumption]).
    assert (Q : Cdiv (- RtoC I)%C (0, - d) = ((0, - (I / d)) : C)) by (apply C_eq; cbn; field; lra).
    rewrite Q. destruct sec; apply C_eq; cbn; field; repeat split; lra.
  Qed.
End Exact.

(** 3 - Pex is positive and of fourth order *)
Lemma Pex_deriv x : is_derive (fun t => 3 - Pex t) x (2 * x * exp (- x) * ((1 + x) * sin x - x * cos x)).
Proof. unfold Pex. auto_derive; [exact Logic.I|]. ring. Qed.
Lemma Pex_0 : 3 - Pex 0 = 0.
Proof. unfold Pex. rewrite Ropp_0, exp_0, cos_0. ring. Qed.
Lemma sin_ge_xcos x : 0 <= x <= PI -> x * cos x <= sin x.
Proof.
  intros [A B]. destruct (Req_dec x 0) as [->|N]; [rewrite sin_0; lra|].
  assert (D : forall c, 0 <= c <= x -> derivable_pt_lim (fun t => sin t - t * cos t) c (c * sin c)).
  { intros c _. apply is_derive_Reals. auto_derive; [exact Logic.I|]. ring. }
  destruct (MVT_cor2 (fun t => sin t - t * cos t) (fun c => c * sin c) 0 x) as (c & E & C1 & C2); [lra|exact D|].
  rewrite sin_0, Rmult_0_l, !Rminus_0_r in E.
  assert (0 <= c * sin c) by (apply Rmult_le_pos; [lra|apply sin_ge_0; lra]).
  nra.
Qed.
Lemma sin_le x : 0 <= x -> sin x <= x.
Proof. intro H. destruct (Req_dec x 0) as [->|N]; [rewrite sin_0; lra|]. apply Rlt_le, sin_lt_x. lra. Qed.
Lemma cos_low x : 0 <= x -> 1 - x ^ 2 / 2 <= cos x.
Proof.
  intro H. pose proof (sin_le (x / 2) ltac:(lra)). replace x with (2 * (x / 2)) at 2 by field. rewrite cos_2a_sin.
  assert (A : sin (x / 2) * sin (x / 2) <= x / 2 * (x / 2)).
  { apply Rsqr_le_abs_1. rewrite (Rabs_pos_eq (x / 2)) by lra. unfold Rabs. destruct (Rcase_abs _); [|lra].
    pose proof (sin_le (x/2) ltac:(lra)). destruct (Rle_dec (x / 2) 1).
    - assert (0 <= sin (x / 2)) by (apply sin_ge_0; pose proof PI2_3_2; unfold PI2 in *; lra). lra.
    - pose proof (SIN_bound (x / 2)). lra. }
  nra.
Qed.
Lemma resp_upper x : 0 <= x -> 3 - Pex x <= x ^ 4 / 2.
Proof.
  intro H. destruct (Req_dec x 0) as [->|N]; [rewrite Pex_0; lra|].
  assert (D : forall c, 0 <= c <= x -> derivable_pt_lim (fun t => t ^ 4 / 2 - (3 - Pex t)) c (2 * c ^ 3 - 2 * c * exp (- c) * ((1 + c) * sin c - c * cos c))).
  { intros c _. apply is_derive_Reals. apply (is_derive_minus (fun t => t ^ 4 / 2) (fun t => 3 - Pex t)); [auto_derive; [exact Logic.I|cbn; field]|apply Pex_deriv]. }
  destruct (MVT_cor2 _ _ 0 x ltac:(lra) D) as (c & E & C1 & C2). rewrite Pex_0 in E.
  assert (B : (1 + c) * sin c - c * cos c <= c ^ 2 + c ^ 3 / 2).
  { pose proof (sin_le c ltac:(lra)). pose proof (cos_low c ltac:(lra)). nra. }
  assert (X : exp (- c) * (1 + c / 2) <= 1).
  { pose proof (exp_ineq1_le c). pose proof (exp_inv_mult c). pose proof (exp_pos (- c)). nra. }
  assert (Y : exp (- c) * ((1 + c) * sin c - c * cos c) <= c ^ 2).
  { apply Rle_trans with (exp (- c) * (c ^ 2 + c ^ 3 / 2)); [apply Rmult_le_compat_l; [apply Rlt_le, exp_pos|exact B]|].
    replace (exp (- c) * (c ^ 2 + c ^ 3 / 2)) with (c ^ 2 * (exp (- c) * (1 + c / 2))) by field. pose proof (pow2_ge_0 c). nra. }
  assert (0 <= 2 * c ^ 3 - 2 * c * exp (- c) * ((1 + c) * sin c - c * cos c)).
  { replace (2 * c ^ 3 - 2 * c * exp (- c) * ((1 + c) * sin c - c * cos c)) with (2 * c * (c ^ 2 - exp (- c) * ((1 + c) * sin c - c * cos c))) by ring.
    apply Rmult_le_pos; lra. }
  assert (0 <= (2 * c ^ 3 - 2 * c * exp (- c) * ((1 + c) * sin c - c * cos c)) * (x - 0)) by (apply Rmult_le_pos; lra).
  replace (0 ^ 4 / 2 - 0) with 0 in E by field. lra.
Qed.

Lemma exp_m1 x : x <= 1 -> / 3 <= exp (- x).
Proof.
  intro H. apply Rle_trans with (exp (- (1))); [|apply exp_le; lra]. rewrite exp_Ropp. apply Rinv_le_contravar; [apply exp_pos|apply exp_le_3].
Qed.
Lemma PI_gt3 : 3 <= PI. Proof. pose proof PI_close. lra. Qed.
Lemma resp_lower1 x : 0 <= x <= 1 -> x ^ 4 / 12 <= 3 - Pex x.
Proof.
  intros [H H1]. destruct (Req_dec x 0) as [->|N]; [rewrite Pex_0; lra|].
  assert (D : forall c, 0 <= c <= x -> derivable_pt_lim (fun t => (3 - Pex t) - t ^ 4 / 12) c (2 * c * exp (- c) * ((1 + c) * sin c - c * cos c) - c ^ 3 / 3)).
  { intros c _. apply is_derive_Reals. apply (is_derive_minus (fun t => 3 - Pex t) (fun t => t ^ 4 / 12)); [apply Pex_deriv|auto_derive; [exact Logic.I|cbn; field]]. }
  destruct (MVT_cor2 _ _ 0 x ltac:(lra) D) as (c & E & C1 & C2). rewrite Pex_0 in E. replace (0 - 0 ^ 4 / 12) with 0 in E by field.
  pose proof PI_gt3. pose proof (sin_ge_xcos c ltac:(lra)) as B. pose proof (cos_low c ltac:(lra)) as L. pose proof (exp_m1 c ltac:(lra)) as X.
  assert (SL : c / 2 <= sin c) by nra.
  assert (Y : c ^ 2 / 2 <= (1 + c) * sin c - c * cos c) by nra.
  assert (Z : c ^ 2 / 6 <= exp (- c) * ((1 + c) * sin c - c * cos c)).
  { apply Rle_trans with (/ 3 * (c ^ 2 / 2)); [lra|]. apply Rmult_le_compat; [lra|nra|exact X|exact Y]. }
  assert (0 <= (2 * c * exp (- c) * ((1 + c) * sin c - c * cos c) - c ^ 3 / 3) * (x - 0)).
  { apply Rmult_le_pos; [|lra]. replace (2 * c * exp (- c) * ((1 + c) * sin c - c * cos c) - c ^ 3 / 3) with (2 * c * (exp (- c) * ((1 + c) * sin c - c * cos c) - c ^ 2 / 6)) by field. apply Rmult_le_pos; lra. }
  lra.
Qed.
Lemma resp_lower2 x : 1 <= x -> / 12 <= 3 - Pex x.
Proof.
  intro H. pose proof PI_gt3 as P3. destruct (Rle_dec x 3) as [L|L].
  - pose proof (resp_lower1 1 ltac:(lra)) as B1. destruct (Req_dec x 1) as [->|N]; [lra|].
    assert (D : forall c, 1 <= c <= x -> derivable_pt_lim (fun t => 3 - Pex t) c (2 * c * exp (- c) * ((1 + c) * sin c - c * cos c))).
    { intros c _. apply is_derive_Reals, Pex_deriv. }
    destruct (MVT_cor2 _ _ 1 x ltac:(lra) D) as (c & E & C1 & C2). pose proof (sin_ge_xcos c ltac:(lra)) as B. pose proof (exp_pos (- c)).
    assert (0 <= sin c) by (apply sin_ge_0; lra).
    assert (0 <= 2 * c * exp (- c) * ((1 + c) * sin c - c * cos c) * (x - 1)) by (apply Rmult_le_pos; [apply Rmult_le_pos; [nra|nra]|lra]).
    lra.
  - assert (E3 : (125 / 216) * x ^ 3 <= exp x).
    { replace (exp x) with (exp (x / 3) ^ 3) by (cbn; rewrite Rmult_1_r, <- !exp_plus; f_equal; field).
      pose proof (exp_over (x / 3)) as O. replace (125 / 216 * x ^ 3) with ((5 / 2 * (x / 3)) ^ 3) by field. apply pow_incr. lra. }
    pose proof (exp_inv_mult x) as EI. pose proof (exp_pos (- x)) as EP. pose proof (exp_pos x) as EQ.
    assert (B : (3 + 3 * x) * cos x + (3 * x + 2 * x ^ 2) * sin x <= 3 + 6 * x + 2 * x ^ 2).
    { pose proof (COS_bound x). pose proof (SIN_bound x). nra. }
    assert (C : 3 + 6 * x + 2 * x ^ 2 <= 35 / 12 * exp x) by nra.
    unfold Pex. assert (exp (- x) * ((3 + 3 * x) * cos x + (3 * x + 2 * x ^ 2) * sin x) <= exp (- x) * (35 / 12 * exp x)) by (apply Rmult_le_compat_l; lra).
    replace (exp (- x) * (35 / 12 * exp x)) with (35 / 12 * (exp x * exp (- x))) in H0 by ring. rewrite EI in H0. lra.
Qed.
Lemma resp_lower x : 0 < x -> / (12 * (1 + / x ^ 4)) <= 3 - Pex x.
Proof.
  intro H. assert (X4 : 0 < x ^ 4) by (apply pow_lt, H). assert (IX : 0 < / x ^ 4) by (apply Rinv_0_lt_compat, X4).
  destruct (Rle_dec x 1) as [L|L].
  - apply Rle_trans with (2 := resp_lower1 x (conj (Rlt_le _ _ H) L)). replace (x ^ 4 / 12) with (/ (12 * / x ^ 4)) by (field; lra).
    apply Rinv_le_contravar; lra.
  - apply Rle_trans with (2 := resp_lower2 x ltac:(lra)). apply Rinv_le_contravar; lra.
Qed.
Lemma resp_pos x : 0 < x -> 0 < 3 - Pex x.
Proof. intro H. apply Rlt_le_trans with (2 := resp_lower x H). apply Rinv_0_lt_compat. assert (0 < / x ^ 4) by (apply Rinv_0_lt_compat, pow_lt, H). lra. Qed.
