(** The harmonic central loop in floating point (C137): rounding errors. *)
From Coq Require Import ZArith Reals Lra Lia Psatz.
From Flocq Require Import Core.
From Coquelicot Require Import Coquelicot.
From Verif Require Import Vec3 Calculus Deriv Cplx Model_FDEM Model_Float Model_Float3 Model_Float6 Spec_Float Spec_Float2 Spec_Float5
  Proof_FDEM Proof_Float Proof_Float2 Proof_Float3 Proof_Float5 Proof_Float6 Proof_Float7 Proof_Float8 Proof_Float9 Proof_Float11 Proof_Float12.
Open Scope R_scope.

Lemma fl0 : fl 0 = 0. Proof. apply fl_id, float_0. Qed.
Lemma flfl x : fl (fl x) = fl x. Proof. apply fl_id, fl_float. Qed.
Lemma R0m a : 0 - a = - a. Proof. ring. Qed.
Lemma Rdbl a : - a + - a = - (2 * a). Proof. ring. Qed.
Lemma Rnn a : a - a = 0. Proof. ring. Qed.
Ltac z := repeat (progress (rewrite ?Rmult_0_l, ?Rmult_0_r, ?fl0, ?Rplus_0_l, ?Rplus_0_r, ?Rminus_0_r, ?R0m, ?Ropp_0, ?Ropp_involutive, ?flfl, ?fl_opp,
  ?Ropp_mult_distr_l_reverse, ?Ropp_mult_distr_r_reverse, ?Ropp_involutive, ?Rmult_1_l)).

Section F.
  Variables (csq cex : C -> C) (pow : R -> nat -> R).
  Variables f sg mu a I n : R.
  Let w := fl (fl (2 * fpi) * f).
  Let y := fl (fl (w * mu) * sg).
  Variable h : R.
  Hypothesis HK : csq (0, - y) = (h, - h).
  Let g := fl (2 * fl (h * h)).
  Let d := fl (g * pow a 3%nat).
  Hypothesis DP : 0 < d.
  Let Fc := fl (fl I * fl (1 / d)).
  Let t := fl (fl (3 * h) * a).
  Let s2 := fl (g * pow a 2%nat).
  Let br := fl (3 + t).
  Let bi := fl (t + s2).
  Let v := fl (fl h * a).
  Let er := fst (cex (- v, - v)).
  Let ei := snd (cex (- v, - v)).
  Let Pc := fl (fl (br * er) - fl (bi * ei)).
  Let Ic := fl (fl (br * ei) + fl (bi * er)).

  Lemma m1 : cfmul (cfmul (cfmul (0, - (1)) (creal w)) (creal mu)) (creal sg) = (0, - y).
  Proof. unfold cfmul, creal. cbn [fst snd]. z. unfold y, w. z. reflexivity. Qed.
  Lemma m2 : cfmul (h, - h) (h, - h) = (0, - g).
  Proof. unfold cfmul. cbn [fst snd]. z. rewrite Rnn, Rdbl. z. reflexivity. Qed.
  Lemma m3 p : cfmul (0, - g) (creal p) = (0, - fl (g * p)).
  Proof. unfold cfmul, creal. cbn [fst snd]. z. reflexivity. Qed.
  Lemma m4 : cfdiv (creal (- I)) (0, - d) = (0, - Fc).
  Proof.
    unfold cfdiv, creal. cbn [fst snd]. destruct (Rle_dec _ _) as [L|L].
    - exfalso. rewrite Rabs_Ropp, Rabs_R0, Rabs_pos_eq in L by lra. lra.
    - replace (0 / - d) with 0 by (field; lra). z. assert (DD : fl d = d) by apply flfl. rewrite DD.
      replace (1 / - d) with (- (1 / d)) by (field; lra). z. reflexivity.
  Qed.
  Lemma m5 : cfmul (cfmul (0, 3) (h, - h)) (creal a) = (t, t).
  Proof. unfold cfmul, creal. cbn [fst snd]. z. reflexivity. Qed.
  Lemma m6 : cfmul (cfmul (0, - (1)) (h, - h)) (creal a) = (- v, - v).
  Proof. unfold cfmul, creal. cbn [fst snd]. z. reflexivity. Qed.
  Lemma m7 : cfsub (cfadd (creal 3) (t, t)) (0, - s2) = (br, bi).
  Proof. unfold cfsub, cfadd, creal. cbn [fst snd]. z. unfold Rminus. z. assert (T : fl t = t) by apply flfl. rewrite T. reflexivity. Qed.
  Lemma m8 : cfsub (creal 3) (cfmul (br, bi) (cex (- v, - v))) = (fl (3 - Pc), - Ic).
  Proof. unfold cfsub, cfmul, creal. cbn [fst snd]. fold er ei. z. reflexivity. Qed.
  Lemma m9 qr qi : cfmul (0, - Fc) (qr, - qi) = (- fl (Fc * qi), - fl (Fc * qr)).
  Proof. unfold cfmul. cbn [fst snd]. z. reflexivity. Qed.
  Lemma computed sec : floop_hz csq cex pow f sg mu a I n sec =
    (fl (n * if sec then fl (- fl (Fc * Ic) - fl (fl (I / 2) / a)) else - fl (Fc * Ic)), - fl (n * fl (Fc * fl (3 - Pc)))).
  Proof.
    unfold floop_hz. cbv zeta. fold w. rewrite m1, HK, m2, !m3. fold d s2. rewrite m4, m5, m6, m7, m8, m9.
    destruct sec; unfold cfmul, cfsub, creal; cbn [fst snd]; z; reflexivity.
  Qed.
End F.

Section G.
  Variables (csq cex : C -> C) (pow : R -> nat -> R).
  Hypothesis GS : good_csqrt csq.
  Hypothesis GP : good_pow pow.
  Variables f sg mu a I n : R.
  Hypothesis F0 : 0 < f. Hypothesis S0 : 0 < sg. Hypothesis M0 : 0 < mu. Hypothesis A0 : 0 < a.
  Notation K := (kap f sg mu).
  Notation x := (kap f sg mu * a).

  Lemma xpos : 0 < x. Proof. apply Rmult_lt_0_compat; [apply K_pos; assumption|assumption]. Qed.
  Lemma near_y' : near 5 (fl (fl (fl (fl (2 * fpi) * f) * mu) * sg)) (omega f * mu * sg).
  Proof.
    apply near_round. replace 4%nat with (4 + 0)%nat by lia. apply near_mult; [|apply near_refl]. apply near_round.
    replace 3%nat with (3 + 0)%nat by lia. apply near_mult; [|apply near_refl]. exact (near_omega f).
  Qed.
  Lemma structure : exists Fc br bi v P J,
    near 39 Fc (camp f sg mu a I) /\ near 15 br (3 + 3 * x) /\ near 37 bi (3 * x + 2 * x ^ 2) /\ near 14 v x /\
    P = fl (fl (br * fst (cex (- v, - v))) - fl (bi * snd (cex (- v, - v)))) /\
    J = fl (fl (br * snd (cex (- v, - v))) + fl (bi * fst (cex (- v, - v)))) /\
    forall sec, floop_hz csq cex pow f sg mu a I n sec =
      (fl (n * if sec then fl (- fl (Fc * J) - fl (fl (I / 2) / a)) else - fl (Fc * J)), - fl (n * fl (Fc * fl (3 - P)))).
  Proof.
    pose proof (K_pos f sg mu F0 S0 M0) as KP. pose proof near_y' as NY. set (y := fl (fl (fl (fl (2 * fpi) * f) * mu) * sg)) in *.
    pose proof (omega_pos f F0) as OP. assert (WP : 0 < omega f * mu * sg) by (apply Rmult_lt_0_compat; [apply Rmult_lt_0_compat|]; assumption).
    assert (YP : 0 < y) by (apply (near_pos 5 y _ NY WP)).
    destruct (GS y YP) as (h & HE & HW).
    assert (NH : near 12 h K).
    { replace 12%nat with (9 + 3)%nat by lia. apply near_trans with (sqrt (y / 2)); [apply (within_near 8); [lra|cbn; lra|lra|exact HW]|].
      unfold kap. apply near_sqrt; [lra|]. apply (near_weaken 5); [lia|]. replace 5%nat with (5 + 0)%nat by lia. apply near_div; [exact NY|apply near_refl]. }
    assert (NG : near 26 (fl (2 * fl (h * h))) (2 * (K * K))).
    { apply near_round. replace 25%nat with (0 + 25)%nat by lia. apply near_mult; [apply near_refl|]. apply near_round. replace 24%nat with (12 + 12)%nat by lia. apply near_mult; exact NH. }
    set (g := fl (2 * fl (h * h))) in *.
    assert (ND : near 36 (fl (g * pow a 3%nat)) (2 * (K * K) * a ^ 3)).
    { apply near_round. replace 35%nat with (26 + 9)%nat by lia. apply near_mult; [exact NG|apply pow_near, GP]. }
    assert (A3 : 0 < a ^ 3) by (apply pow_lt, A0).
    assert (DP : 0 < fl (g * pow a 3%nat)) by (apply (near_pos 36 _ _ ND); apply Rmult_lt_0_compat; [nra|exact A3]).
    exists (fl (fl I * fl (1 / fl (g * pow a 3%nat)))), (fl (3 + fl (fl (3 * h) * a))), (fl (fl (fl (3 * h) * a) + fl (g * pow a 2%nat))), (fl (fl h * a)).
    eexists; eexists. pose proof xpos as XP.
    assert (NT : near 14 (fl (fl (3 * h) * a)) (3 * x)).
    { replace (3 * x) with (3 * K * a) by ring. apply near_round. replace 13%nat with (13 + 0)%nat by lia. apply near_mult; [|apply near_refl]. apply near_round.
      replace 12%nat with (0 + 12)%nat by lia. apply near_mult; [apply near_refl|exact NH]. }
    assert (X2 : 0 < x ^ 2) by (apply pow_lt, XP).
    split; [|split; [|split; [|split; [|split; [reflexivity|split; [reflexivity|]]]]]].
    - unfold camp. apply near_round. replace 38%nat with (1 + 37)%nat by lia. replace (I / (2 * (K * K) * a ^ 3)) with (I * (1 / (2 * (K * K) * a ^ 3))) by (field; lra). apply near_mult; [apply near_fl|].
      apply near_round. replace 36%nat with (0 + 36)%nat by lia. apply near_div; [apply near_refl|exact ND].
    - apply near_round. apply near_plus; [lra|lra|apply near_refl|exact NT].
    - apply near_round. apply near_plus; [lra|lra|apply (near_weaken 14); [lia|exact NT]|]. replace (2 * x ^ 2) with (2 * (K * K) * a ^ 2) by ring.
      apply near_round. replace 35%nat with (26 + 9)%nat by lia. apply near_mult; [exact NG|apply pow_near, GP].
    - apply near_round. replace 13%nat with (13 + 0)%nat by lia. apply near_mult; [|apply near_refl]. apply near_round. exact NH.
    - intro sec. rewrite (computed csq cex pow f sg mu a I n h HE DP sec). reflexivity.
  Qed.

  (** ** Low frequencies *)
  Lemma camp_x : camp f sg mu a I = I / (2 * a) / x ^ 2.
  Proof. unfold camp. pose proof (K_pos f sg mu F0 S0 M0). field. split; lra. Qed.
  Lemma low_lost sec : n * I <> 0 -> x <= / 2 ^ 13 ->
    useless 3 (snd (floop_hz csq cex pow f sg mu a I n sec)) (Im (loop_hz f sg mu a I n sec)).
  Proof.
    intros NI XL. destruct structure as (Fc & br & bi & v & P & J & NF & _ & _ & _ & PE & _ & CE). rewrite CE, loop_parts by assumption. cbn [snd Im].
    assert (FP : float P) by (rewrite PE; apply fl_float). clear PE CE. pose proof xpos as XP.
    pose proof (resp_pos x XP) as RP. pose proof (resp_upper x (Rlt_le _ _ XP)) as RU.
    assert (CN : camp f sg mu a I <> 0).
    { rewrite camp_x. assert (I <> 0) by (intro Z; apply NI; rewrite Z; ring). unfold Rdiv.
      repeat apply Rmult_integral_contrapositive_currified; try assumption; apply Rinv_neq_0_compat; [lra|apply pow_nonzero; lra]. }
    assert (NN : n <> 0) by (intro Z; apply NI; rewrite Z; ring).
    set (c := camp f sg mu a I) in *. set (r := 3 - Pex x) in *.
    split.
    { apply Rmult_integral_contrapositive_currified; [exact NN|]. apply Ropp_neq_0_compat, Rmult_integral_contrapositive_currified; lra. }
    assert (GG : fl (3 - P) = 0 \/ / 2 ^ 51 <= Rabs (fl (3 - P))).
    { destruct (Rle_dec 2 P) as [L|L].
      - assert (G : grid (-51) (3 - P)).
        { apply grid_minus; [|apply grid_float; [exact FP|cbn; lra]].
          apply grid_float; [replace 3 with (IZR 3 * bpow radix2 0) by (cbn; ring); apply float_int; lia|cbn; lra]. }
        destruct (grid_gap _ _ (grid_fl _ _ G)) as [Z|Z]; [left; exact Z|right]. eapply Rle_trans; [|exact Z]. cbn. lra.
      - right. assert (1 <= fl (3 - P)).
        { rewrite <- (fl_id 1) by (replace 1 with (IZR 1 * bpow radix2 0) by (cbn; ring); apply float_int; lia). apply fl_mono. lra. }
        rewrite Rabs_pos_eq by lra. lra. }
    destruct GG as [Z|Z].
    - left. rewrite Z. rewrite !Rmult_0_r, fl0, Rmult_0_r, fl0. ring.
    - right. assert (X4 : x ^ 4 <= / 2 ^ 52).
      { replace (/ 2 ^ 52) with ((/ 2 ^ 13) ^ 4) by (rewrite <- Rinv_pow by lra; rewrite <- pow_mult; reflexivity). apply pow_incr. lra. }
      set (q := fl (3 - P)) in *.
      assert (NQ : near 41 (fl (n * fl (Fc * q))) (n * (c * q))).
      { apply near_round. replace 40%nat with (0 + 40)%nat by lia. apply near_mult; [apply near_refl|]. apply near_round. replace 39%nat with (39 + 0)%nat by lia. apply near_mult; [exact NF|apply near_refl]. }
      destruct (near_abs 41 _ _ ltac:(lia) NQ) as [LQ _]. rewrite Rabs_Ropp.
      apply Rlt_le_trans with (2 := LQ). rewrite Rabs_mult, Rabs_Ropp, Rabs_mult, (Rabs_pos_eq r) by lra. rewrite !Rabs_mult.
      assert (0 < Rabs n) by (apply Rabs_pos_lt, NN). assert (0 < Rabs c) by (apply Rabs_pos_lt, CN).
      replace (3 * (Rabs n * (Rabs c * r))) with (Rabs n * Rabs c * (3 * r)) by ring. replace (999 / 1000 * (Rabs n * (Rabs c * Rabs q))) with (Rabs n * Rabs c * (999 / 1000 * Rabs q)) by ring.
      apply Rmult_lt_compat_l; [apply Rmult_lt_0_compat; assumption|].
      apply Rle_lt_trans with (3 * (/ 2 ^ 52 / 2)); [lra|]. apply Rlt_le_trans with (999 / 1000 * / 2 ^ 51); [lra|]. lra.
  Qed.
End G.
