(** The vertical dipole transients in floating point: bounds on the exact functions and the late times (C138). *)
From Coq Require Import ZArith Reals Lra Lia Psatz.
From Flocq Require Import Core.
From Coquelicot Require Import Coquelicot.
From Verif Require Import Vec3 Calculus Deriv SpecFun Model_TDEM Proof_Static2 Proof_TDEM Proof_TDEM3 Proof_TDEM4 Model_Float Model_Float2 Model_Float7 Spec_Float Spec_Float2 Proof_Float Proof_Float2 Proof_Float3 Proof_Float5 Proof_Float6 Proof_Float7 Proof_Float8.
Open Scope R_scope.

(** ** the exact functions at small arguments *)
Definition qz (s : R) : R := erf s - (2 * s + 4 * s ^ 3) / sqrt PI * exp (- s ^ 2).
Definition mz (s : R) : R := (9 / 2 - s ^ 2) * erf s - (9 * s + 4 * s ^ 3) / sqrt PI * exp (- s ^ 2).
Definition ez (s : R) : R := 9 / 2 * erf s - (4 * s ^ 5 + 6 * s ^ 3 + 9 * s) / sqrt PI * exp (- s ^ 2).
Lemma D_qz s : is_derive qz s (- (8 * s ^ 2 * (1 - s ^ 2) / sqrt PI * exp (- s ^ 2))).
Proof. pose proof (D_erf s) as D. pose proof sqrt_PI_pos. unfold qz. eapply is_derive_eq; [der; lra|]. absf. field. lra. Qed.
Lemma D_mz s : is_derive mz s (- (2 * s * qz s)).
Proof. pose proof (D_erf s) as D. pose proof sqrt_PI_pos. unfold mz, qz. eapply is_derive_eq; [der; lra|]. absf. field. lra. Qed.
Lemma D_ez s : is_derive ez s (- (8 * s ^ 4 * (1 - s ^ 2) / sqrt PI * exp (- s ^ 2))).
Proof. pose proof (D_erf s) as D. pose proof sqrt_PI_pos. unfold ez. eapply is_derive_eq; [der; lra|]. absf. field. lra. Qed.
Lemma at_0 : qz 0 = 0 /\ mz 0 = 0 /\ ez 0 = 0.
Proof. unfold qz, mz, ez. rewrite erf_0. unfold Rdiv. repeat split; ring. Qed.
(** 0 <= p (1 - s^2) exp (- s^2) / sqrt PI <= p / sqrt PI *)
Lemma bump p s : 0 <= p -> 0 <= s <= 1 -> 0 <= p * (1 - s ^ 2) / sqrt PI * exp (- s ^ 2) <= p / sqrt PI.
Proof.
  intros P S. pose proof sqrt_PI_pos. pose proof (exp_sq_le1 s). pose proof (exp_pos (- s ^ 2)). assert (0 <= 1 - s ^ 2 <= 1) by nra.
  assert (I : 0 < / sqrt PI) by (apply Rinv_0_lt_compat; lra). unfold Rdiv.
  assert (0 <= p * (1 - s ^ 2) <= p) by nra. set (a := p * (1 - s ^ 2)) in *. set (e := exp _) in *. assert (0 <= a * e <= p) by nra.
  replace (a * / sqrt PI * e) with (a * e * / sqrt PI) by ring. split; [apply Rmult_le_pos; lra|apply Rmult_le_compat_r; lra].
Qed.
Lemma qz_small s : 0 < s <= 1 -> - (8 / (3 * sqrt PI) * s ^ 3) <= qz s < 0.
Proof.
  intros H. pose proof sqrt_PI_pos. destruct at_0 as [Q0 _]. split.
  - assert (X : qz 0 + 8 / (3 * sqrt PI) * 0 ^ 3 <= qz s + 8 / (3 * sqrt PI) * s ^ 3).
    { apply (le_from (fun s => qz s + 8 / (3 * sqrt PI) * s ^ 3) (fun s => 8 * s ^ 2 / sqrt PI - 8 * s ^ 2 * (1 - s ^ 2) / sqrt PI * exp (- s ^ 2))); [lra| |].
      - intros x _. pose proof (D_qz x) as D. eapply is_derive_eq; [der|]. absf. field. lra.
      - intros x Hx. pose proof (bump (8 * x ^ 2) x ltac:(pose proof (pow2_ge_0 x); lra) ltac:(lra)). lra. }
    rewrite Q0 in X. lra.
  - assert (X : - qz 0 < - qz s); [|rewrite Q0 in X; lra].
    assert (Y : - qz (s / 2) < - qz s).
    { apply (incr_from (fun s => - qz s) (fun s => 8 * s ^ 2 * (1 - s ^ 2) / sqrt PI * exp (- s ^ 2))); [lra| |].
      - intros x _. pose proof (D_qz x) as D. eapply is_derive_eq; [der|]. absf. ring.
      - intros x Hx. assert (x ^ 2 < 1) by nra. pose proof (exp_pos (- x ^ 2)). assert (0 < x ^ 2) by nra.
        apply Rmult_lt_0_compat; [|lra]. apply Rdiv_lt_0_compat; [apply Rmult_lt_0_compat; lra|lra]. }
    assert (Z : - qz 0 <= - qz (s / 2)); [|lra].
    apply (le_from (fun s => - qz s) (fun s => 8 * s ^ 2 * (1 - s ^ 2) / sqrt PI * exp (- s ^ 2))); [lra| |].
    + intros x _. pose proof (D_qz x) as D. eapply is_derive_eq; [der|]. absf. ring.
    + intros x Hx. apply (bump (8 * x ^ 2) x); [pose proof (pow2_ge_0 x); lra|lra].
Qed.
Lemma ez_small s : 0 < s <= 1 -> - (8 / (5 * sqrt PI) * s ^ 5) <= ez s < 0.
Proof.
  intros H. pose proof sqrt_PI_pos. destruct at_0 as (_ & _ & Q0). assert (P4 : forall x, 0 <= x ^ 4) by (intros x; replace (x ^ 4) with ((x ^ 2) ^ 2) by ring; apply pow2_ge_0). split.
  - assert (X : ez 0 + 8 / (5 * sqrt PI) * 0 ^ 5 <= ez s + 8 / (5 * sqrt PI) * s ^ 5).
    { apply (le_from (fun s => ez s + 8 / (5 * sqrt PI) * s ^ 5) (fun s => 8 * s ^ 4 / sqrt PI - 8 * s ^ 4 * (1 - s ^ 2) / sqrt PI * exp (- s ^ 2))); [lra| |].
      - intros x _. pose proof (D_ez x) as D. eapply is_derive_eq; [der|]. absf. field. lra.
      - intros x Hx. pose proof (bump (8 * x ^ 4) x ltac:(pose proof (P4 x); lra) ltac:(lra)). lra. }
    rewrite Q0 in X. lra.
  - assert (X : - ez 0 < - ez s); [|rewrite Q0 in X; lra].
    assert (Y : - ez (s / 2) < - ez s).
    { apply (incr_from (fun s => - ez s) (fun s => 8 * s ^ 4 * (1 - s ^ 2) / sqrt PI * exp (- s ^ 2))); [lra| |].
      - intros x _. pose proof (D_ez x) as D. eapply is_derive_eq; [der|]. absf. ring.
      - intros x Hx. assert (x ^ 2 < 1) by nra. pose proof (exp_pos (- x ^ 2)). assert (0 < x ^ 4) by (apply pow_lt; lra).
        apply Rmult_lt_0_compat; [|lra]. apply Rdiv_lt_0_compat; [apply Rmult_lt_0_compat; lra|lra]. }
    assert (Z : - ez 0 <= - ez (s / 2)); [|lra].
    apply (le_from (fun s => - ez s) (fun s => 8 * s ^ 4 * (1 - s ^ 2) / sqrt PI * exp (- s ^ 2))); [lra| |].
    + intros x _. pose proof (D_ez x) as D. eapply is_derive_eq; [der|]. absf. ring.
    + intros x Hx. apply (bump (8 * x ^ 4) x); [pose proof (P4 x); lra|lra].
Qed.
Lemma mz_small s : 0 < s <= 1 -> 0 < mz s <= 16 / (15 * sqrt PI) * s ^ 5.
Proof.
  intros H. pose proof sqrt_PI_pos. destruct at_0 as (_ & Q0 & _). split.
  - rewrite <- Q0. apply (incr_from mz (fun s => - (2 * s * qz s))); [lra|intros x _; apply D_mz|]. intros x Hx. pose proof (qz_small x ltac:(lra)). nra.
  - assert (X : 16 / (15 * sqrt PI) * 0 ^ 5 - mz 0 <= 16 / (15 * sqrt PI) * s ^ 5 - mz s).
    { apply (le_from (fun s => 16 / (15 * sqrt PI) * s ^ 5 - mz s) (fun s => 2 * s * (8 / (3 * sqrt PI) * s ^ 3 + qz s))); [lra| |].
      - intros x _. pose proof (D_mz x) as D. eapply is_derive_eq; [der|]. absf. field. lra.
      - intros x Hx. pose proof (qz_small x ltac:(lra)). apply Rmult_le_pos; lra. }
    rewrite Q0 in X. lra.
Qed.
Lemma gz_mz s : 0 < s -> gz s = mz s / s ^ 2.
Proof. intros. pose proof sqrt_PI_pos. unfold gz, mz. field. lra. Qed.
Lemma dgz_ez s : 0 < s -> dgz s = ez s / s ^ 2.
Proof. intros. pose proof sqrt_PI_pos. unfold dgz, ez. field. lra. Qed.
Lemma gz_late s : 0 < s <= 1 -> 0 < gz s <= 16 / (15 * sqrt PI) * s ^ 3.
Proof.
  intros H. pose proof sqrt_PI_pos. rewrite gz_mz by lra. destruct (mz_small s H) as [A B]. assert (P : 0 < s ^ 2) by (apply pow_lt; lra). split; [apply Rdiv_lt_0_compat; lra|].
  apply Rmult_le_reg_r with (s ^ 2); [exact P|]. replace (mz s / s ^ 2 * s ^ 2) with (mz s) by (field; lra). lra.
Qed.
Lemma dgz_late s : 0 < s <= 1 -> - (8 / (5 * sqrt PI) * s ^ 3) <= dgz s < 0.
Proof.
  intros H. pose proof sqrt_PI_pos. rewrite dgz_ez by lra. destruct (ez_small s H) as [A B]. assert (P : 0 < s ^ 2) by (apply pow_lt; lra). split.
  - apply Rmult_le_reg_r with (s ^ 2); [exact P|]. replace (ez s / s ^ 2 * s ^ 2) with (ez s) by (field; lra). lra.
  - apply Rmult_lt_reg_r with (s ^ 2); [exact P|]. replace (ez s / s ^ 2 * s ^ 2) with (ez s) by (field; lra). lra.
Qed.

Section Dipole.
  Variables (pow : R -> nat -> R) (ferf fexp : R -> R).
  Hypothesis GP : good_pow pow.
  Hypothesis GE : good_erf ferf.
  Hypothesis GX : good_exp fexp.
  Variables t sg mu m px py : R.
  Hypothesis T : 0 < t.
  Hypothesis S : 0 < sg.
  Hypothesis M : 0 < mu.
  Hypothesis A : px <> 0 \/ py <> 0.
  Notation r := (vmd_off px py).
  Notation r' := (foffset px py).
  Notation x := (theta t sg mu * r).
  Notation x' := (fl (ftheta t sg mu * r')).
  Notation y := (fsq x').
  Lemma r_pos : 0 < r. Proof. apply vmd_off_pos, A. Qed.
  Lemma near_r : near 2 r' r.
  Proof.
    apply near_round, near_sqrt; [nra|]. replace (px ^ 2 + py ^ 2) with (px * px + py * py) by ring. apply near_round, near_plus; [nra|nra| |]; apply near_fl.
  Qed.
  Lemma dx_pos : 0 < x. Proof. apply Rmult_lt_0_compat; [apply sqrt_lt_R0, Rdiv_lt_0_compat; [apply Rmult_lt_0_compat; assumption|lra]|apply r_pos]. Qed.
  Lemma dx_sq : x ^ 2 = mu * sg * r ^ 2 / (4 * t).
  Proof. apply (x_sq t sg mu r); assumption. Qed.
  Lemma near_dx : near 6 x' x.
  Proof. apply near_round. replace 5%nat with (3 + 2)%nat by lia. apply near_mult; [apply near_theta; assumption|apply near_r]. Qed.
  Lemma dx'_pos : 0 < x'. Proof. apply (near_pos 6 x' x); [apply near_dx|apply dx_pos]. Qed.
  Lemma near_dy : near 13 y (x ^ 2). Proof. apply (near_sq 6), near_dx. Qed.
  Lemma near_derf : near 15 (ferf x') (erf x).
  Proof. replace 15%nat with (9 + 6)%nat by lia. apply near_trans with (erf x'); [apply (within_near 8); [lra|cbn; lra|lra|apply GE, dx'_pos]|apply near_erf; [apply dx_pos|apply near_dx]]. Qed.
  Lemma near_dexp : near 9 (fexp (- y)) (exp (- y)).
  Proof. apply (within_near 8); [lra|cbn; lra|lra|apply GX]. Qed.
  (** 9/(2 thr^2) *)
  Notation q := (fl (9 / fl (2 * y))).
  Lemma near_q9 : near 15 q (9 / (2 * x ^ 2)).
  Proof. apply near_round. replace 14%nat with (0 + 14)%nat by lia. apply near_div; [apply near_refl|]. apply near_round. replace 13%nat with (0 + 13)%nat by lia. apply near_mult; [apply near_refl|apply near_dy]. Qed.
  (** the coefficients of the exponentials *)
  Notation c1 := (fl (fl (fl (9 / x') + fl (4 * x')) / fsqrtpi)).
  Notation c2 := (fl (fl (fl (fl (4 * pow x' 3%nat) + fl (6 * x')) + fl (9 / x')) / fsqrtpi)).
  Notation C1 := ((9 / x + 4 * x) / sqrt PI).
  Notation C2 := ((4 * x ^ 3 + 6 * x + 9 / x) / sqrt PI).
  Lemma near_9x : near 7 (fl (9 / x')) (9 / x).
  Proof. apply near_round. replace 6%nat with (0 + 6)%nat by lia. apply near_div; [apply near_refl|apply near_dx]. Qed.
  Lemma near_kx k : near 7 (fl (k * x')) (k * x).
  Proof. apply near_round. replace 6%nat with (0 + 6)%nat by lia. apply near_mult; [apply near_refl|apply near_dx]. Qed.
  Lemma ix_pos : 0 < 9 / x. Proof. apply Rdiv_lt_0_compat; [lra|apply dx_pos]. Qed.
  Lemma near_c1 : near 11 c1 C1.
  Proof.
    pose proof dx_pos. pose proof ix_pos. apply near_round. replace 10%nat with (8 + 2)%nat by lia. apply near_div; [|apply near_sqrtpi].
    apply near_round, near_plus; [lra|lra|apply near_9x|apply near_kx].
  Qed.
  Lemma near_c2 : near 33 c2 C2.
  Proof.
    pose proof dx_pos. pose proof ix_pos. assert (0 < x ^ 3) by (apply pow_lt; lra). apply near_round. replace 32%nat with (30 + 2)%nat by lia. apply near_div; [|apply near_sqrtpi].
    apply near_round, near_plus; [lra|lra| |apply (near_weaken 7); [lia|apply near_9x]].
    apply near_round, near_plus; [lra|lra| |apply (near_weaken 7); [lia|apply near_kx]].
    apply near_round. replace 27%nat with (0 + (9 + 3 * 6))%nat by lia. apply near_mult; [apply near_refl|]. apply near_trans with (x' ^ 3); [apply pow_near, GP|apply near_pow3, near_dx].
  Qed.
  Notation t2 c := (fl (c * fexp (- y))).
  Lemma near_t2 k c C : near k c C -> near (k + 10) (t2 c) (C * exp (- y)).
  Proof. intros H. replace (k + 10)%nat with (Datatypes.S (k + 9)) by lia. apply near_round, near_mult; [exact H|apply near_dexp]. Qed.
  (** the factors *)
  Lemma near_m : near 3 (fl (m / fl (4 * fpi))) (m / (4 * PI)).
  Proof. apply near_round. replace 2%nat with (0 + 2)%nat by lia. apply near_div; [apply near_refl|]. apply near_round. replace 1%nat with (0 + 1)%nat by lia. apply near_mult; [apply near_refl|apply near_pi]. Qed.
  Lemma near_r3 : near 15 (pow r' 3%nat) (r ^ 3).
  Proof. replace 15%nat with (9 + 3 * 2)%nat by lia. apply near_trans with (r' ^ 3); [apply pow_near, GP|apply near_pow3, near_r]. Qed.
  Definition dfactor (e : R) := m / (4 * PI) * (1 / e).
  Lemma near_whole k j e' e D G : near k e' e -> near j D G ->
    near (k + j + 7) (fl (fl (m / fl (4 * fpi)) * fl (fl (1 / e') * fl D))) (dfactor e * G).
  Proof.
    intros E H. unfold dfactor. rewrite Rmult_assoc. replace (k + j + 7)%nat with (Datatypes.S (3 + (Datatypes.S (Datatypes.S k + Datatypes.S j)))) by lia.
    apply near_round, near_mult; [apply near_m|]. apply near_round, near_mult; [|apply near_round, H].
    apply near_round. replace k with (0 + k)%nat by lia. apply near_div; [apply near_refl|exact E].
  Qed.
  Lemma near_r3t : near 16 (fl (pow r' 3%nat * t)) (r ^ 3 * t).
  Proof. apply near_round. replace 15%nat with (15 + 0)%nat by lia. apply near_mult; [apply near_r3|apply near_refl]. Qed.
  Lemma hz_exact : vz (vmd_H t sg mu m px py) = dfactor (r ^ 3) * gz x.
  Proof. rewrite vmd_H_g. cbn. unfold dfactor, Rdiv. ring. Qed.
  Lemma dhz_exact : vz (vmd_dH t sg mu m px py) = dfactor (r ^ 3 * t) * dgz x.
  Proof. rewrite vmd_dH_g. cbn. unfold dfactor, Rdiv. ring. Qed.

  (** ** late *)
  Ltac fx := generalize dx_pos; generalize x; intros ?s ?Hs; field; pose proof sqrt_PI_pos; repeat split; lra.
  Section Late.
    Hypothesis NM : m <> 0.
    Hypothesis L : 2 ^ 25 * (mu * sg * r ^ 2) <= t.
    Lemma dx_small : x ^ 2 <= / 2 ^ 27.
    Proof.
      rewrite dx_sq. apply Rmult_le_reg_r with (4 * t * 2 ^ 27); [apply Rmult_lt_0_compat; lra|].
      replace (mu * sg * r ^ 2 / (4 * t) * (4 * t * 2 ^ 27)) with (2 ^ 27 * (mu * sg * r ^ 2)) by (field; lra). replace (/ 2 ^ 27 * (4 * t * 2 ^ 27)) with (4 * t) by (field; lra). lra.
    Qed.
    Lemma dx4_small : x ^ 4 <= / 2 ^ 54.
    Proof. pose proof dx_small as H. assert (0 <= x ^ 2) by apply pow2_ge_0. replace (x ^ 4) with (x ^ 2 * x ^ 2) by ring. replace (/ 2 ^ 54) with (/ 2 ^ 27 * / 2 ^ 27) by lra. apply Rmult_le_compat; assumption. Qed.
    Lemma dx_lt1 : x <= 1.
    Proof. pose proof dx_small. pose proof dx_pos. nra. Qed.
    Lemma exp_dy : 999 / 1000 <= exp (- y).
    Proof. pose proof (near_low 13 y (x ^ 2) ltac:(lia) (pow2_ge_0 _) near_dy). pose proof dx_small. pose proof (exp_ineq1_le (- y)). lra. Qed.
    Lemma erf_dx : 11 / 10 * x <= erf x.
    Proof.
      pose proof (erf_low x dx_pos) as H. pose proof (exp_ineq1_le (- x ^ 2)). pose proof dx_small. pose proof dx_pos as XP. pose proof root_pi as [R1 R2].
      assert (C : 111 / 100 <= 2 / sqrt PI) by (apply Rmult_le_reg_r with (sqrt PI); [lra|]; replace (2 / sqrt PI * sqrt PI) with 2 by (field; lra); lra).
      assert (C2' : 111 / 100 * x <= 2 / sqrt PI * x) by (apply Rmult_le_compat_r; lra).
      assert (C3 : 111 / 100 * x * (999 / 1000) <= 2 / sqrt PI * x * exp (- x ^ 2)) by (apply Rmult_le_compat; lra). lra.
    Qed.
    Lemma inv_sq : 2 ^ 27 <= / x ^ 2 /\ / x ^ 2 = / x * / x /\ 0 < / x.
    Proof.
      pose proof dx_pos. pose proof dx_small. split; [rewrite <- (Rinv_inv (2 ^ 27)); apply Rinv_le_contravar; [apply pow_lt; lra|assumption]|].
      split; [fx|apply Rinv_0_lt_compat; lra].
    Qed.
    Lemma low_q : 449 / 100 * (/ x * / x) <= q.
    Proof.
      pose proof dx_pos. destruct inv_sq as (I1 & I2 & I3). assert (E : 9 / (2 * x ^ 2) = 9 / 2 * (/ x * / x)) by fx.
      assert (E0 : 0 <= 9 / 2 * (/ x * / x)) by nra. pose proof near_q9 as N. rewrite E in N. pose proof (near_low 15 q _ ltac:(lia) E0 N). lra.
    Qed.
    (** p stands for q - 1 or q *)
    Lemma low_t1 p : 448 / 100 * (/ x * / x) <= p -> 48 / 10 * / x <= fl (p * ferf x').
    Proof.
      intros P. pose proof dx_pos as XP. destruct inv_sq as (I1 & I2 & I3).
      pose proof (near_low 15 _ (erf x) ltac:(lia) ltac:(pose proof (erf_pos x XP); lra) near_derf) as [Q4 _]. pose proof erf_dx as Q5.
      assert (Q6 : (448 / 100 * (/ x * / x)) * (109 / 100 * x) <= p * ferf x') by (apply Rmult_le_compat; nra).
      replace (448 / 100 * (/ x * / x) * (109 / 100 * x)) with (448 / 100 * (109 / 100) * / x) in Q6 by fx.
      pose proof (near_low 1 (fl (p * ferf x')) (p * ferf x') ltac:(lia) ltac:(lra) (near_fl (p * ferf x'))) as [Q7 _]. lra.
    Qed.
    Lemma low_t2 k c C : (k <= 400)%nat -> near k c C -> 9 / x / sqrt PI <= C -> 48 / 10 * / x <= t2 c.
    Proof.
      intros K N LC. pose proof dx_pos as XP. destruct inv_sq as (I1 & I2 & I3). pose proof root_pi as [R1 R2].
      assert (C5 : 5 <= 9 / sqrt PI) by (apply Rmult_le_reg_r with (sqrt PI); [lra|]; replace (9 / sqrt PI * sqrt PI) with 9 by (field; lra); lra).
      assert (C6 : 5 * / x <= C) by (eapply Rle_trans; [|exact LC]; replace (9 / x / sqrt PI) with (9 / sqrt PI * / x) by fx; apply Rmult_le_compat_r; lra).
      pose proof exp_dy as EY. assert (C7 : 5 * / x * (999 / 1000) <= C * exp (- y)) by (apply Rmult_le_compat; lra).
      pose proof (near_low (k + 10) _ (C * exp (- y)) ltac:(lia) ltac:(lra) (near_t2 k c C N)) as [Q _]. lra.
    Qed.
    Lemma lost k e' e T1 T2 G : (k <= 400)%nat -> near k e' e -> e <> 0 -> float T1 -> float T2 -> 48 / 10 * / x <= T1 -> 48 / 10 * / x <= T2 -> G <> 0 -> Rabs G <= 95 / 100 * x ^ 3 ->
      useless 5 (fl (fl (m / fl (4 * fpi)) * fl (fl (1 / e') * fl (T1 - T2)))) (dfactor e * G).
    Proof.
      intros K N E F1 F2 L1 L2 GN GB. pose proof dx_pos as XP. destruct inv_sq as (I1 & I2 & I3). pose proof PI_RGT_0.
      assert (FN : dfactor e <> 0).
      { unfold dfactor, Rdiv. repeat apply Rmult_integral_contrapositive_currified; try lra; try (apply Rinv_neq_0_compat; lra). }
      split; [apply Rmult_integral_contrapositive_currified; assumption|].
      destruct (float_gap T1 T2 (48 / 10 * / x) F1 F2 ltac:(lra) L1 L2) as [Z|Z].
      - left. rewrite Z, (fl_id 0 float_0), Rmult_0_r, (fl_id 0 float_0), Rmult_0_r. apply fl_id, float_0.
      - right. pose proof (near_abs (k + 0 + 7) _ _ ltac:(lia) (near_whole k 0 e' e (T1 - T2) (T1 - T2) N (near_refl 0 _))) as [Q _]. rewrite Rabs_mult in Q. rewrite Rabs_mult.
        assert (FP : 0 < Rabs (dfactor e)) by (apply Rabs_pos_lt, FN). assert (GP0 : 0 < Rabs G) by (apply Rabs_pos_lt, GN).
        assert (GB2 : Rabs G <= 95 / 100 * (/ 2 ^ 54 * / x)).
        { eapply Rle_trans; [exact GB|]. apply Rmult_le_compat_l; [lra|]. replace (x ^ 3) with (x ^ 4 * / x) by fx. apply Rmult_le_compat_r; [lra|apply dx4_small]. }
        assert (D6 : 6 * Rabs G <= Rabs (T1 - T2)) by (replace (/ 2 ^ 53) with (2 * / 2 ^ 54) in Z by lra; lra).
        assert (Rabs (dfactor e) * (6 * Rabs G) <= Rabs (dfactor e) * Rabs (T1 - T2)) by (apply Rmult_le_compat_l; lra).
        assert (0 < Rabs (dfactor e) * Rabs G) by (apply Rmult_lt_0_compat; lra). lra.
    Qed.
    Lemma frac c d : 0 < d -> c <= 95 / 100 * (17 / 10) * d -> c / (d * sqrt PI) <= 95 / 100.
    Proof. intros P H. pose proof root_pi as [R1 R2]. apply Rmult_le_reg_r with (d * sqrt PI); [apply Rmult_lt_0_compat; lra|]. unfold Rdiv at 1. rewrite Rmult_assoc, Rinv_l by (apply Rmult_integral_contrapositive_currified; lra). nra. Qed.
    Lemma hz_late : useless 5 (fvmd_hz pow ferf fexp t sg mu m px py) (vz (vmd_H t sg mu m px py)).
    Proof.
      pose proof dx_pos as XP. pose proof r_pos as RP. pose proof root_pi as [R1 R2]. destruct inv_sq as (I1 & I2 & I3). rewrite hz_exact. unfold fvmd_hz. cbv zeta.
      destruct (gz_late x (conj XP dx_lt1)) as [G1 G2]. assert (X3 : 0 < x ^ 3) by (apply pow_lt; lra).
      apply (lost 15); [lia|apply near_r3|apply pow_nonzero; lra|apply fl_float|apply fl_float| | |lra|].
      - apply low_t1. pose proof low_q as Q. rewrite I2 in I1. assert (Q2 : 4485 / 1000 * (/ x * / x) <= q - 1) by lra.
        pose proof (near_low 1 (fl (q - 1)) (q - 1) ltac:(lia) ltac:(lra) (near_fl _)) as [Q3 _]. lra.
      - apply (low_t2 11 _ C1); [lia|apply near_c1|]. apply Rmult_le_compat_r; [left; apply Rinv_0_lt_compat; lra|lra].
      - rewrite Rabs_pos_eq by lra. eapply Rle_trans; [exact G2|]. apply Rmult_le_compat_r; [lra|]. apply frac; lra.
    Qed.
    Lemma dhz_late : useless 5 (fvmd_dhz pow ferf fexp t sg mu m px py) (vz (vmd_dH t sg mu m px py)).
    Proof.
      pose proof dx_pos as XP. pose proof r_pos as RP. pose proof root_pi as [R1 R2]. destruct inv_sq as (I1 & I2 & I3). rewrite dhz_exact. unfold fvmd_dhz. cbv zeta.
      destruct (dgz_late x (conj XP dx_lt1)) as [G1 G2]. assert (X3 : 0 < x ^ 3) by (apply pow_lt; lra). assert (R3 : 0 < r ^ 3) by (apply pow_lt; lra).
      apply (lost 16); [lia|apply near_r3t|apply Rmult_integral_contrapositive_currified; lra|apply fl_float|apply fl_float| | |lra|].
      - apply low_t1. pose proof low_q. nra.
      - apply (low_t2 33 _ C2); [lia|apply near_c2|]. apply Rmult_le_compat_r; [left; apply Rinv_0_lt_compat; lra|lra].
      - rewrite Rabs_left by lra. eapply Rle_trans; [apply Ropp_le_contravar, G1|]. rewrite Ropp_involutive. apply Rmult_le_compat_r; [lra|]. apply frac; lra.
    Qed.
  End Late.
End Dipole.
