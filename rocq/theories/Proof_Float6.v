(** The central-loop transients in floating point (C131). *)
From Coq Require Import ZArith Reals Lra Lia Psatz.
From Flocq Require Import Core.
From Coquelicot Require Import Coquelicot.
From Verif Require Import Vec3 Calculus Deriv SpecFun Model_TDEM Proof_TDEM3 Proof_TDEM4 Model_Float Model_Float2 Spec_Float Spec_Float2 Proof_Float Proof_Float2 Proof_Float3 Proof_Float5.
Open Scope R_scope.

Lemma near_sqrtpi : near 2 fsqrtpi (sqrt PI).
Proof. pose proof PI_RGT_0. apply near_round, near_sqrt; [lra|]. apply (near_weaken 1); [lia|apply near_pi]. Qed.
Lemma fl_opp x : fl (- x) = - fl x.
Proof. apply round_NE_opp. Qed.
Lemma sqrt_low a b : 0 <= a -> a * a <= b -> a <= sqrt b.
Proof. intros P H. rewrite <- (sqrt_square a) by exact P. apply sqrt_le_1_alt, H. Qed.
Lemma sqrt_high a b : 0 <= a -> b <= a * a -> sqrt b <= a.
Proof. intros P H. rewrite <- (sqrt_square a) by exact P. apply sqrt_le_1_alt, H. Qed.

Section Loop.
  Variables (pow : R -> nat -> R) (ferf fexp : R -> R).
  Hypothesis GP : good_pow pow.
  Hypothesis GE : good_erf ferf.
  Hypothesis GX : good_exp fexp.
  Variables t sg mu a I n : R.
  Hypothesis T : 0 < t.
  Hypothesis S : 0 < sg.
  Hypothesis M : 0 < mu.
  Hypothesis A : 0 < a.
  Hypothesis NI : n * I <> 0.
  Notation x := (theta t sg mu * a).
  Notation x' := (fl (ftheta t sg mu * a)).
  Lemma arg_pos : 0 < mu * sg / (4 * t).
  Proof. apply Rdiv_lt_0_compat; [apply Rmult_lt_0_compat; assumption|lra]. Qed.
  Lemma x_pos : 0 < x. Proof. apply Rmult_lt_0_compat; [apply sqrt_lt_R0, arg_pos|exact A]. Qed.
  Lemma x_sq : x ^ 2 = mu * sg * a ^ 2 / (4 * t).
  Proof. pose proof arg_pos as P. unfold theta. replace ((sqrt (mu * sg / (4 * t)) * a) ^ 2) with (sqrt (mu * sg / (4 * t)) * sqrt (mu * sg / (4 * t)) * a ^ 2) by ring. rewrite sqrt_sqrt by lra. field. lra. Qed.
  Lemma near_x : near 4 x' x.
  Proof.
    pose proof arg_pos. apply near_round. replace 3%nat with (3 + 0)%nat by lia. apply near_mult; [|apply near_refl].
    apply near_round, near_sqrt; [lra|]. apply (near_weaken 3); [lia|]. apply near_round.
    replace 2%nat with (1 + 1)%nat by lia. apply near_div; apply near_fl.
  Qed.
  Lemma x'_pos : 0 < x'. Proof. apply (near_pos 4 x' x); [apply near_x|apply x_pos]. Qed.
  Notation y := (fsq x').
  Lemma near_y : near 9 y (x ^ 2). Proof. apply (near_sq 4), near_x. Qed.
  Lemma y_pos : 0 < y. Proof. apply (near_pos 9 y (x ^ 2)); [apply near_y|apply pow_lt, x_pos]. Qed.
  Lemma near_ferf : near 13 (ferf x') (erf x).
  Proof. replace 13%nat with (9 + 4)%nat by lia. apply near_trans with (erf x'); [apply (within_near 8); [lra|cbn; lra|lra|apply GE, x'_pos]|apply near_erf; [apply x_pos|apply near_x]]. Qed.
  Lemma near_fexp : near 9 (fexp (- y)) (exp (- y)).
  Proof. apply (within_near 8); [lra|cbn; lra|lra|apply GX]. Qed.
  (** the two terms of the derivative *)
  Notation A1 := (fl (3 * ferf x')).
  Notation B1 := (fl (fl (fl (fl (2 * x') / fsqrtpi) * fl (3 + fl (2 * y))) * fexp (- y))).
  Notation P1 := (2 * x / sqrt PI * (3 + 2 * x ^ 2)).
  Lemma near_A1 : near 14 A1 (3 * erf x).
  Proof. apply near_round. replace 13%nat with (0 + 13)%nat by lia. apply near_mult; [apply near_refl|apply near_ferf]. Qed.
  Lemma near_P1 : near 20 (fl (fl (fl (2 * x') / fsqrtpi) * fl (3 + fl (2 * y)))) P1.
  Proof.
    apply near_round. replace 19%nat with (8 + 11)%nat by lia. apply near_mult.
    - apply near_round. replace 7%nat with (5 + 2)%nat by lia. apply near_div; [|apply near_sqrtpi]. apply near_round.
      replace 4%nat with (0 + 4)%nat by lia. apply near_mult; [apply near_refl|apply near_x].
    - apply near_round. pose proof x_pos. assert (0 < x ^ 2) by (apply pow_lt; lra). apply near_plus; [lra|lra|apply near_refl|].
      apply near_round. replace 9%nat with (0 + 9)%nat by lia. apply near_mult; [apply near_refl|apply near_y].
  Qed.
  Lemma near_B1 : near 30 B1 (P1 * exp (- y)).
  Proof. apply near_round. replace 29%nat with (20 + 9)%nat by lia. apply near_mult; [apply near_P1|apply near_fexp]. Qed.
  Lemma P1_pos : 0 < P1.
  Proof. pose proof x_pos. pose proof sqrt_PI_pos. assert (0 < x ^ 2) by (apply pow_lt; lra). apply Rmult_lt_0_compat; [apply Rdiv_lt_0_compat; lra|lra]. Qed.
  (** the two terms of the field *)
  Notation t1 := (fl (fl (3 / fl (fsqrtpi * x')) * fexp (- y))).
  Notation t2 := (fl (fl (1 - fl (3 / fl (2 * y))) * ferf x')).
  Lemma near_t1 : near 18 t1 (3 / (sqrt PI * x) * exp (- y)).
  Proof.
    apply near_round. replace 17%nat with (8 + 9)%nat by lia. apply near_mult; [|apply near_fexp]. apply near_round. replace 7%nat with (0 + 7)%nat by lia.
    apply near_div; [apply near_refl|]. apply near_round. replace 6%nat with (2 + 4)%nat by lia. apply near_mult; [apply near_sqrtpi|apply near_x].
  Qed.
  Lemma near_q : near 11 (fl (3 / fl (2 * y))) (3 / (2 * x ^ 2)).
  Proof.
    apply near_round. replace 10%nat with (0 + 10)%nat by lia. apply near_div; [apply near_refl|]. apply near_round. replace 9%nat with (0 + 9)%nat by lia. apply near_mult; [apply near_refl|apply near_y].
  Qed.
  Definition factor := - n * I / (sg * a ^ 3).
  Lemma near_factor : near 12 (fl (fl (- n * I) / fl (sg * pow a 3%nat))) factor.
  Proof.
    apply near_round. replace 11%nat with (1 + 10)%nat by lia. apply near_div; [apply near_fl|]. apply near_round. replace 9%nat with (0 + 9)%nat by lia.
    apply near_mult; [apply near_refl|apply pow_near, GP].
  Qed.
  Lemma factor_nz : factor <> 0.
  Proof.
    unfold factor. assert (0 < a ^ 3) by (apply pow_lt; lra). assert (0 < sg * a ^ 3) by (apply Rmult_lt_0_compat; lra). unfold Rdiv.
    apply Rmult_integral_contrapositive_currified; [lra|apply Rinv_neq_0_compat; lra].
  Qed.

  (** ** late *)
  Section Late.
    Hypothesis L : 2 ^ 25 * (mu * sg * a ^ 2) <= t.
    Lemma x_small : x ^ 2 <= / 2 ^ 27.
    Proof.
      rewrite x_sq. apply Rmult_le_reg_r with (4 * t * 2 ^ 27); [apply Rmult_lt_0_compat; lra|].
      replace (mu * sg * a ^ 2 / (4 * t) * (4 * t * 2 ^ 27)) with (2 ^ 27 * (mu * sg * a ^ 2)) by (field; lra). replace (/ 2 ^ 27 * (4 * t * 2 ^ 27)) with (4 * t) by (field; lra). lra.
    Qed.
    Lemma x4_small : x ^ 4 <= / 2 ^ 54.
    Proof. pose proof x_small as H. assert (0 <= x ^ 2) by apply pow2_ge_0. replace (x ^ 4) with (x ^ 2 * x ^ 2) by ring. replace (/ 2 ^ 54) with (/ 2 ^ 27 * / 2 ^ 27) by lra. apply Rmult_le_compat; assumption. Qed.
    Lemma y_small : y <= / 2 ^ 26.
    Proof. pose proof (near_low 9 y (x ^ 2) ltac:(lia) (pow2_ge_0 _) near_y). pose proof x_small. lra. Qed.
    Lemma exp_y : 999 / 1000 <= exp (- y).
    Proof. pose proof (exp_ineq1_le (- y)). pose proof y_small. lra. Qed.
    Lemma exp_x : 999 / 1000 <= exp (- x ^ 2).
    Proof. pose proof (exp_ineq1_le (- x ^ 2)). pose proof x_small. lra. Qed.
    Lemma erf_x : 11 / 10 * x <= erf x.
    Proof.
      pose proof (erf_low x x_pos) as H. pose proof exp_x. pose proof x_pos as XP. pose proof root_pi as [R1 R2].
      assert (C : 111 / 100 <= 2 / sqrt PI) by (apply Rmult_le_reg_r with (sqrt PI); [lra|]; replace (2 / sqrt PI * sqrt PI) with 2 by (field; lra); lra).
      assert (C2 : 111 / 100 * x <= 2 / sqrt PI * x) by (apply Rmult_le_compat_r; lra).
      assert (C3 : 111 / 100 * x * (999 / 1000) <= 2 / sqrt PI * x * exp (- x ^ 2)) by (apply Rmult_le_compat; lra). lra.
    Qed.
    Lemma rate_late : useless 5 (ftloop_dbz pow ferf fexp t sg mu a I n) (tloop_dbz t sg mu a I n).
    Proof.
      pose proof x_pos as XP. pose proof root_pi as [R1 R2]. pose proof factor_nz as FN. pose proof (nloop_pos x XP) as NP. pose proof (nloop_late x XP) as NL. pose proof x4_small as X4.
      unfold useless. rewrite tloop_dbz_n. fold factor. split; [apply Rmult_integral_contrapositive_currified; lra|].
      assert (LA : 3 * x <= A1).
      { pose proof (near_low 14 A1 (3 * erf x) ltac:(lia) ltac:(pose proof (erf_pos x XP); lra) near_A1). pose proof erf_x. lra. }
      assert (LB : 3 * x <= B1).
      { pose proof P1_pos as PP. pose proof exp_y as EY. assert (H0 : 0 <= P1 * exp (- y)) by (apply Rmult_le_pos; lra). pose proof (near_low 30 B1 _ ltac:(lia) H0 near_B1) as [H _].
        assert (C : 111 / 100 <= 2 / sqrt PI) by (apply Rmult_le_reg_r with (sqrt PI); [lra|]; replace (2 / sqrt PI * sqrt PI) with 2 by (field; lra); lra).
        assert (C2 : 111 / 100 * x * 3 <= P1).
        { replace (2 * x / sqrt PI) with (2 / sqrt PI * x) by (field; lra). pose proof (pow2_ge_0 x). apply Rmult_le_compat; [lra|lra|apply Rmult_le_compat_r; lra|lra]. }
        assert (C3 : 111 / 100 * x * 3 * (999 / 1000) <= P1 * exp (- y)) by (apply Rmult_le_compat; lra). lra. }
      unfold ftloop_dbz. cbv zeta.
      destruct (float_gap A1 B1 (3 * x) (fl_float _) (fl_float _) ltac:(lra) LA LB) as [Z|Z].
      - left. rewrite Z. rewrite (fl_id 0 float_0), Rmult_0_r. apply fl_id, float_0.
      - right. set (D := A1 - B1) in *. pose proof (near_abs 1 (fl D) D ltac:(lia) (near_fl D)) as [N1 _].
        pose proof (near_abs 12 _ _ ltac:(lia) near_factor) as [N2 _]. set (F := fl (fl (- n * I) / fl (sg * pow a 3%nat))) in *.
        pose proof (near_abs 1 (fl (F * fl D)) (F * fl D) ltac:(lia) (near_fl _)) as [N3 _]. rewrite Rabs_mult in N3.
        rewrite Rabs_mult, (Rabs_pos_eq (nloop x)) by lra. assert (FP : 0 < Rabs factor) by (apply Rabs_pos_lt, FN).
        assert (NB : nloop x <= / 2 ^ 54 * x).
        { eapply Rle_trans; [exact NL|]. assert (Q : 8 / (5 * sqrt PI) <= 1) by (apply Rmult_le_reg_r with (5 * sqrt PI); [lra|]; replace (8 / (5 * sqrt PI) * (5 * sqrt PI)) with 8 by (field; lra); lra).
          replace (x ^ 5) with (x ^ 4 * x) by ring. assert (0 < x ^ 4) by (apply pow_lt; lra). assert (x ^ 4 * x <= / 2 ^ 54 * x) by (apply Rmult_le_compat_r; lra).
          assert (0 <= x ^ 4 * x) by (apply Rmult_le_pos; lra). nra. }
        assert (G : 59 / 10 * nloop x <= Rabs D) by (replace (/ 2 ^ 53) with (2 * / 2 ^ 54) in Z by lra; lra).
        assert (G2 : 58 / 10 * nloop x <= Rabs (fl D)) by lra.
        assert (G3 : (999 / 1000 * Rabs factor) * (58 / 10 * nloop x) <= Rabs F * Rabs (fl D)) by (apply Rmult_le_compat; lra).
        assert (0 < Rabs factor * nloop x) by (apply Rmult_lt_0_compat; lra). lra.
    Qed.
    Lemma field_late : useless 5 (ftloop_hz ferf fexp t sg mu a I n) (tloop_hz t sg mu a I n).
    Proof.
      pose proof x_pos as XP. assert (TH : 0 < theta t sg mu) by (apply sqrt_lt_R0, arg_pos). pose proof root_pi as [R1 R2]. pose proof (gloop_pos x XP) as NP. pose proof (gloop_late x XP) as NL. pose proof x4_small as X4.
      unfold useless. rewrite tloop_hz_g.
      assert (GA : 0 < gloop x / (2 * a)) by (apply Rdiv_lt_0_compat; lra).
      split; [apply Rmult_integral_contrapositive_currified; lra|].
      assert (IX : 0 < / x) by (apply Rinv_0_lt_compat; lra).
      assert (C : 33 / 20 <= 3 / sqrt PI) by (apply Rmult_le_reg_r with (sqrt PI); [lra|]; replace (3 / sqrt PI * sqrt PI) with 3 by (field; repeat split; lra); lra).
      assert (LA : 3 / 2 * / x <= t1).
      { pose proof exp_y as EY. assert (C2 : 33 / 20 * / x <= 3 / (sqrt PI * x)) by (replace (3 / (sqrt PI * x)) with (3 / sqrt PI * / x) by (field; repeat split; lra); apply Rmult_le_compat_r; lra).
        pose proof (Rmult_le_compat (33 / 20 * / x) (3 / (sqrt PI * x)) (999 / 1000) (exp (- y)) ltac:(lra) ltac:(lra) C2 EY) as C3.
        assert (H0 : 0 <= 3 / (sqrt PI * x) * exp (- y)) by lra. pose proof (near_low 18 t1 _ ltac:(lia) H0 near_t1) as [H _]. lra. }
      assert (LB : 3 / 2 * / x <= - t2).
      { pose proof x_small as XS. assert (X2 : 0 < x ^ 2) by (apply pow_lt; lra).
        assert (Q0 : 2 ^ 27 <= / x ^ 2) by (rewrite <- (Rinv_inv (2 ^ 27)); apply Rinv_le_contravar; assumption).
        assert (Q1 : 3 / (2 * x ^ 2) = 3 / 2 * / x ^ 2) by (field; repeat split; lra).
        pose proof (near_low 11 _ (3 / (2 * x ^ 2)) ltac:(lia) ltac:(lra) near_q) as [Q _]. set (q := fl (3 / fl (2 * y))) in *.
        assert (Q2 : 149 / 100 * / x ^ 2 <= q - 1) by lra.
        pose proof (near_low 1 (fl (q - 1)) (q - 1) ltac:(lia) ltac:(lra) (near_fl _)) as [Q3 _].
        pose proof (near_low 13 _ (erf x) ltac:(lia) ltac:(pose proof (erf_pos x XP); lra) near_ferf) as [Q4 _]. pose proof erf_x as Q5.
        assert (Q6 : (148 / 100 * / x ^ 2) * (109 / 100 * x) <= fl (q - 1) * ferf x') by (apply Rmult_le_compat; lra).
        replace (148 / 100 * / x ^ 2 * (109 / 100 * x)) with (148 / 100 * (109 / 100) * / x) in Q6 by (field; repeat split; lra).
        assert (H0 : 0 <= fl (q - 1) * ferf x') by lra. pose proof (near_low 1 (fl (fl (q - 1) * ferf x')) _ ltac:(lia) H0 (near_fl (fl (q - 1) * ferf x'))) as [Q7 _].
        replace (fl (1 - q)) with (- fl (q - 1)) by (rewrite <- fl_opp; f_equal; ring).
        replace (- fl (q - 1) * ferf x') with (- (fl (q - 1) * ferf x')) by ring. rewrite fl_opp. lra. }
      unfold ftloop_hz. cbv zeta.
      assert (FB : float (- t2)) by (apply float_opp, fl_float).
      destruct (float_gap t1 (- t2) (3 / 2 * / x) (fl_float _) FB ltac:(lra) LA LB) as [Z|Z].
      - left. replace (t1 + t2) with 0 by lra. rewrite (fl_id 0 float_0). unfold Rdiv. rewrite Rmult_0_l, (fl_id 0 float_0), Rmult_0_r. apply fl_id, float_0.
      - right. replace (t1 - - t2) with (t1 + t2) in Z by ring. set (D := t1 + t2) in *. pose proof (near_abs 1 (fl D) D ltac:(lia) (near_fl D)) as [N1 _].
        assert (N2 : near 3 (fl (fl D / fl (2 * a))) (D / (2 * a))).
        { apply near_round. replace 2%nat with (1 + 1)%nat by lia. apply near_div; apply near_fl. }
        assert (N4 : near 5 (fl (fl (n * I) * fl (fl D / fl (2 * a)))) (n * I * (D / (2 * a)))).
        { apply near_round. replace 4%nat with (1 + 3)%nat by lia. apply near_mult; [apply near_fl|exact N2]. }
        pose proof (near_abs 5 _ _ ltac:(lia) N4) as [N5 _]. unfold Rdiv in N5. rewrite !Rabs_mult in N5. rewrite !Rabs_mult.
        assert (IA : 0 < / (2 * a)) by (apply Rinv_0_lt_compat; lra). unfold Rdiv. rewrite Rabs_mult, (Rabs_pos_eq (gloop x)), (Rabs_pos_eq (/ (2 * a))) by lra. rewrite (Rabs_pos_eq (/ (2 * a))) in N5 by lra.
        assert (K : 0 < Rabs n * Rabs I) by (rewrite <- Rabs_mult; apply Rabs_pos_lt, NI).
        assert (GB : gloop x <= / 2 ^ 55 * / x).
        { eapply Rle_trans; [exact NL|]. assert (Q : 8 / (15 * sqrt PI) <= 1 / 2) by (apply Rmult_le_reg_r with (15 * sqrt PI); [lra|]; replace (8 / (15 * sqrt PI) * (15 * sqrt PI)) with 8 by (field; repeat split; lra); lra).
          replace (8 * x ^ 3 / (15 * sqrt PI)) with (8 / (15 * sqrt PI) * (x ^ 4 * / x)) by (field; repeat split; lra). assert (0 < x ^ 4) by (apply pow_lt; lra).
          assert (x ^ 4 * / x <= / 2 ^ 54 * / x) by (apply Rmult_le_compat_r; lra). assert (0 <= x ^ 4 * / x) by (apply Rmult_le_pos; lra).
          replace (/ 2 ^ 55) with (1 / 2 * / 2 ^ 54) by lra. rewrite Rmult_assoc. apply Rmult_le_compat; try lra. left. apply Rdiv_lt_0_compat; lra. }
        assert (G : 6 * gloop x <= Rabs D) by (replace (/ 2 ^ 53) with (4 * / 2 ^ 55) in Z by lra; lra).
        assert (G3 : Rabs n * Rabs I * (6 * gloop x * / (2 * a)) <= Rabs n * Rabs I * (Rabs D * / (2 * a))) by (apply Rmult_le_compat_l; [lra|]; apply Rmult_le_compat_r; lra).
        assert (0 < Rabs n * Rabs I * (gloop x * / (2 * a))) by (apply Rmult_lt_0_compat; [lra|]; apply Rmult_lt_0_compat; lra). lra.
    Qed.
  End Late.
End Loop.
