(** The vertical dipole transients in floating point: early times (C138). *)
From Coq Require Import ZArith Reals Lra Lia Psatz.
From Flocq Require Import Core.
From Coquelicot Require Import Coquelicot.
From Verif Require Import Vec3 Calculus Deriv SpecFun Model_TDEM Proof_TDEM3 Proof_TDEM4 Model_Float Model_Float2 Model_Float7 Spec_Float Spec_Float2 Proof_Float Proof_Float2 Proof_Float3 Proof_Float5 Proof_Float6 Proof_Float7 Proof_Float8 Proof_Float15.
Open Scope R_scope.

Lemma zexp4 z : 0 <= z -> z ^ 4 * exp (- z) <= 7.
Proof.
  intros P. pose proof (zexp2 (z / 2) ltac:(lra)) as H. replace (- z) with (- (z / 2) + - (z / 2)) by field. rewrite exp_plus. pose proof (exp_pos (- (z / 2))).
  replace (z ^ 4 * (exp (- (z / 2)) * exp (- (z / 2)))) with (16 * (((z / 2) ^ 2 * exp (- (z / 2))) * ((z / 2) ^ 2 * exp (- (z / 2))))) by field.
  assert (0 <= (z / 2) ^ 2 * exp (- (z / 2))) by (apply Rmult_le_pos; [apply pow2_ge_0|lra]). nra.
Qed.

(** for an argument of at least 4 *)
Section Big.
  Variable s : R.
  Hypothesis B : 4 <= s.
  Notation E := (exp (- (s ^ 2 / 2))).
  Notation F := (exp (- (s ^ 2 / 4))).
  Lemma F_low : 0 < F <= 16 / 625.
  Proof.
    split; [apply exp_pos|]. apply Rle_trans with (exp (- (4))); [assert (H : 4 <= s ^ 2 / 4) by nra; destruct H as [H|H]; [left; apply exp_increasing; lra|rewrite <- H; lra]|].
    rewrite exp_Ropp. replace 4 with (1 + 1 + (1 + 1)) by ring. rewrite !exp_plus. pose proof exp_1_low as X. rewrite <- (Rinv_inv (16 / 625)). apply Rinv_le_contravar; [lra|].
    set (e := exp 1) in *. assert (25 / 4 <= e * e) by nra. nra.
  Qed.
  Lemma bigE : 0 < E /\ s * E <= 1 / 5 /\ s ^ 3 * E <= 16 / 25 /\ s ^ 5 * E <= 7 / 4 /\ s ^ 7 * E <= 28.
  Proof.
    assert (Z : 0 <= s ^ 2 / 2) by (pose proof (pow2_ge_0 s); lra). pose proof (zexp1 _ Z) as Z1. pose proof (zexp2 _ Z) as Z2. pose proof (zexp4 _ Z) as Z4. pose proof (exp_pos (- (s ^ 2 / 2))) as EP. set (e := E) in *.
    assert (P : forall n, 0 < s ^ n) by (intros n; apply pow_lt; lra).
    split; [exact EP|]. repeat split.
    - apply Rle_trans with (/ 2 * (s ^ 2 / 2 * e)); [|lra]. replace (/ 2 * (s ^ 2 / 2 * e)) with (s * (s / 4) * e) by field. apply Rmult_le_compat_r; [lra|nra].
    - apply Rle_trans with ((s ^ 2 / 2) ^ 2 * e); [|lra]. replace ((s ^ 2 / 2) ^ 2 * e) with (s ^ 3 * (s / 4) * e) by field. apply Rmult_le_compat_r; [lra|]. pose proof (P 3%nat). nra.
    - apply Rle_trans with (/ 4 * ((s ^ 2 / 2) ^ 4 * e)); [|lra]. replace (/ 4 * ((s ^ 2 / 2) ^ 4 * e)) with (s ^ 5 * (s ^ 3 / 64) * e) by field. apply Rmult_le_compat_r; [lra|]. pose proof (P 5%nat).
      assert (64 <= s ^ 3) by (replace 64 with (4 ^ 3) by ring; apply pow_incr; lra). nra.
    - apply Rle_trans with (4 * ((s ^ 2 / 2) ^ 4 * e)); [|lra]. replace (4 * ((s ^ 2 / 2) ^ 4 * e)) with (s ^ 7 * (s / 4) * e) by field. apply Rmult_le_compat_r; [lra|]. pose proof (P 7%nat). nra.
  Qed.
  Lemma exp_half : exp (- s ^ 2) <= E * F.
  Proof. rewrite <- exp_plus. pose proof (pow2_ge_0 s). destruct (Req_dec (s ^ 2) 0); [nra|]. left. apply exp_increasing. nra. Qed.
  Lemma erf_4 : 19 / 20 <= erf s < 1.
  Proof.
    pose proof (erf_lt_1 s). pose proof (erf_near_1 s ltac:(lra)) as N. pose proof exp_half as X. pose proof F_low as [F0 F1]. pose proof bigE as (E0 & E1 & _). pose proof root_pi as [R1 R2].
    assert (PI3 : 17 / 10 * (17 / 10) <= PI) by (rewrite <- (sqrt_sqrt PI) by (pose proof PI_RGT_0; lra); apply Rmult_le_compat; lra).
    assert (C : 4 / PI <= 7 / 5) by (apply Rmult_le_reg_r with PI; [lra|]; replace (4 / PI * PI) with 4 by (field; lra); lra).
    assert (0 < 4 / PI) by (apply Rdiv_lt_0_compat; lra). assert (E <= 1 / 20) by nra. assert (E * F <= 1 / 20 * (16 / 625)) by (apply Rmult_le_compat; lra).
    pose proof (exp_pos (- s ^ 2)). split; [nra|lra].
  Qed.
  Notation C1 := ((9 / s + 4 * s) / sqrt PI).
  Notation C2 := ((4 * s ^ 3 + 6 * s + 9 / s) / sqrt PI).
  Notation q0 := (9 / (2 * s ^ 2)).
  Lemma inv_pi : 0 < / sqrt PI <= 10 / 17.
  Proof. pose proof root_pi as [R1 R2]. split; [apply Rinv_0_lt_compat; lra|]. rewrite <- (Rinv_inv (10 / 17)). apply Rinv_le_contravar; lra. Qed.
  Lemma over_s : 0 < 9 / s <= 9 / 16 * s.
  Proof. split; [apply Rdiv_lt_0_compat; lra|]. apply Rmult_le_reg_r with s; [lra|]. unfold Rdiv at 1. rewrite Rmult_assoc, Rinv_l by lra. nra. Qed.
  Lemma q0_bound : 0 < q0 <= 9 / 32.
  Proof. assert (16 <= s ^ 2) by nra. split; [apply Rdiv_lt_0_compat; lra|]. apply Rmult_le_reg_r with (2 * s ^ 2); [lra|]. unfold Rdiv at 1. rewrite Rmult_assoc, Rinv_l by lra. lra. Qed.
  Lemma C1_E : 0 < C1 /\ C1 * E <= 3 / 5 /\ C1 * (s ^ 2 * E) <= 2.
  Proof.
    pose proof inv_pi as [I0 I1]. pose proof over_s as [O0 O1]. pose proof bigE as (E0 & E1 & E3 & _). change C1 with ((9 / s + 4 * s) * / sqrt PI). set (e := E) in *. set (i := / sqrt PI) in *. set (o := 9 / s) in *.
    assert (C : 0 < (o + 4 * s) * i <= 27 / 10 * s) by nra. set (c := (o + 4 * s) * i) in *. split; [lra|]. split.
    - apply Rle_trans with (27 / 10 * s * e); [apply Rmult_le_compat_r; lra|lra].
    - assert (0 < s ^ 2) by nra. apply Rle_trans with (27 / 10 * s * (s ^ 2 * e)); [apply Rmult_le_compat_r; [apply Rmult_le_pos; lra|lra]|].
      replace (27 / 10 * s * (s ^ 2 * e)) with (27 / 10 * (s ^ 3 * e)) by ring. lra.
  Qed.
  Lemma C2_E : 0 < C2 /\ C2 * E <= 11 / 10 * q0 /\ C2 * (s ^ 2 * E) <= 17 * q0.
  Proof.
    pose proof inv_pi as [I0 I1]. pose proof over_s as [O0 O1]. pose proof bigE as (E0 & _ & _ & E5 & E7). change C2 with ((4 * s ^ 3 + 6 * s + 9 / s) * / sqrt PI). set (e := E) in *. set (i := / sqrt PI) in *. set (o := 9 / s) in *.
    assert (S2 : 16 <= s ^ 2) by nra. assert (S3 : 16 * s <= s ^ 3) by (replace (s ^ 3) with (s ^ 2 * s) by ring; apply Rmult_le_compat_r; lra).
    assert (C : 0 < (4 * s ^ 3 + 6 * s + o) * i <= 27 / 10 * s ^ 3) by nra. set (c := (4 * s ^ 3 + 6 * s + o) * i) in *. split; [lra|]. split.
    - apply Rmult_le_reg_r with (s ^ 2); [lra|]. replace (11 / 10 * (9 / (2 * s ^ 2)) * s ^ 2) with (99 / 20) by (field; lra).
      apply Rle_trans with (27 / 10 * s ^ 3 * e * s ^ 2); [apply Rmult_le_compat_r; [lra|apply Rmult_le_compat_r; lra]|]. replace (27 / 10 * s ^ 3 * e * s ^ 2) with (27 / 10 * (s ^ 5 * e)) by ring. lra.
    - apply Rmult_le_reg_r with (s ^ 2); [lra|]. replace (17 * (9 / (2 * s ^ 2)) * s ^ 2) with (153 / 2) by (field; lra).
      apply Rle_trans with (27 / 10 * s ^ 3 * (s ^ 2 * e) * s ^ 2); [apply Rmult_le_compat_r; [lra|apply Rmult_le_compat_r; [apply Rmult_le_pos; lra|lra]]|].
      replace (27 / 10 * s ^ 3 * (s ^ 2 * e) * s ^ 2) with (27 / 10 * (s ^ 7 * e)) by ring. lra.
  Qed.
End Big.

Section Early.
  Variables (pow : R -> nat -> R) (ferf fexp : R -> R).
  Hypothesis GP : good_pow pow.
  Hypothesis GE : good_erf ferf.
  Hypothesis GX : good_exp fexp.
  Variables t sg mu m px py : R.
  Hypothesis T : 0 < t.
  Hypothesis S : 0 < sg.
  Hypothesis M : 0 < mu.
  Hypothesis A : px <> 0 \/ py <> 0.
  Notation r := (vmd_off px py).
  Hypothesis L : t <= mu * sg * r ^ 2 / 64.
  Notation x := (theta t sg mu * r).
  Notation x' := (fl (ftheta t sg mu * foffset px py)).
  Notation y := (fsq x').
  Notation E := (exp (- (x ^ 2 / 2))).
  Notation F := (exp (- (x ^ 2 / 4))).
  Notation q := (fl (9 / fl (2 * y))).
  Notation q0 := (9 / (2 * x ^ 2)).
  Lemma dx_big : 4 <= x.
  Proof.
    pose proof (dx_pos t sg mu px py T S M A) as XP. pose proof (dx_sq t sg mu px py T S M) as X2. assert (16 <= x ^ 2).
    { rewrite X2. apply Rmult_le_reg_r with (4 * t); [lra|]. replace (mu * sg * r ^ 2 / (4 * t) * (4 * t)) with (mu * sg * r ^ 2) by (field; lra). lra. }
    nra.
  Qed.
  Lemma dy_low : 3 / 4 * x ^ 2 <= y.
  Proof. pose proof (near_low 13 y (x ^ 2) ltac:(lia) (pow2_ge_0 _) (near_dy t sg mu px py T S M)). pose proof (pow2_ge_0 x). lra. Qed.
  Lemma EF_mult : exp (- (3 / 4 * x ^ 2)) = E * F.
  Proof. rewrite <- exp_plus. f_equal. field. Qed.
  Lemma exp_dy_le : exp (- y) <= E * F.
  Proof. rewrite <- EF_mult. destruct dy_low as [H|H]; [left; apply exp_increasing; lra|rewrite H; lra]. Qed.
  Lemma exp_dy_diff : Rabs (exp (- y) - exp (- x ^ 2)) <= 14 * u * x ^ 2 * (E * F).
  Proof.
    pose proof (pow2_ge_0 x) as X. rewrite <- EF_mult. eapply Rle_trans; [apply (exp_lip y (x ^ 2) (3 / 4 * x ^ 2)); [apply dy_low|lra]|].
    apply Rmult_le_compat_r; [left; apply exp_pos|]. pose proof (near_diff_le 13 y (x ^ 2) ltac:(lia) X (near_dy t sg mu px py T S M)) as H. cbn [INR] in H. lra.
  Qed.
  (** the term with the exponential: v bounds C E and w bounds C x^2 E *)
  Lemma tail k c C v v2 : (k <= 400)%nat -> near k c C -> 0 < C -> C * E <= v -> C * (x ^ 2 * E) <= v2 ->
    Rabs (fl (c * fexp (- y)) - C * exp (- x ^ 2)) <= (16 / 625 * ((INR k + 11) * v + 14 * v2)) * u.
  Proof.
    intros K N P V V2. pose proof dx_big as B. pose proof (F_low x B) as [F0 F1]. pose proof (bigE x B) as (E0 & _). pose proof u_pos as U. pose proof exp_dy_le as YL. pose proof (exp_pos (- y)) as YP.
    pose proof exp_dy_diff as D. pose proof (pos_INR k) as K0.
    assert (H0 : 0 <= C * exp (- y)) by (apply Rmult_le_pos; lra). pose proof (near_diff_le (k + 10) _ _ ltac:(lia) H0 (near_t2 fexp GX t sg mu px py k c C N)) as H.
    rewrite plus_INR in H. replace (INR 10) with 10 in H by (cbn; lra).
    assert (H1 : C * exp (- y) <= 16 / 625 * v).
    { apply Rle_trans with (C * (E * F)); [apply Rmult_le_compat_l; lra|]. replace (C * (E * F)) with (F * (C * E)) by ring. apply Rmult_le_compat; try lra. apply Rmult_le_pos; lra. }
    assert (H2 : Rabs (C * exp (- y) - C * exp (- x ^ 2)) <= 14 * u * (16 / 625 * v2)).
    { rewrite <- Rmult_minus_distr_l, Rabs_mult, (Rabs_pos_eq C) by lra. apply Rle_trans with (C * (14 * u * x ^ 2 * (E * F))); [apply Rmult_le_compat_l; lra|].
      replace (C * (14 * u * x ^ 2 * (E * F))) with (14 * u * (F * (C * (x ^ 2 * E)))) by ring. apply Rmult_le_compat_l; [lra|]. apply Rmult_le_compat; try lra. apply Rmult_le_pos; [lra|]. apply Rmult_le_pos; [apply pow2_ge_0|lra]. }
    set (T2 := fl (c * fexp (- y))) in *. replace (T2 - C * exp (- x ^ 2)) with ((T2 - C * exp (- y)) + (C * exp (- y) - C * exp (- x ^ 2))) by ring.
    assert (H3 : (INR k + 10 + 1) * u * (C * exp (- y)) <= (INR k + 11) * u * (16 / 625 * v)).
    { replace (INR k + 10 + 1) with (INR k + 11) by ring. apply Rmult_le_compat_l; [apply Rmult_le_pos; lra|exact H1]. }
    eapply Rle_trans; [apply (abs_sum _ _ ((INR k + 11) * u * (16 / 625 * v)) (14 * u * (16 / 625 * v2))); [lra|exact H2]|]. right. ring.
  Qed.
  Lemma hz_early : within 75 (fvmd_hz pow ferf fexp t sg mu m px py) (vz (vmd_H t sg mu m px py)).
  Proof.
    pose proof dx_big as B. pose proof u_pos as U. pose proof u_small as U'. pose proof (erf_4 x B) as [E1 E2]. pose proof (q0_bound x B) as [Q0 Q1]. destruct (C1_E x B) as (P & V & V2).
    pose proof (tail 11 _ _ _ _ ltac:(lia) (near_c1 t sg mu px py T S M A) P V V2) as D2.
    set (T2 := fl (fl (fl (fl (9 / x') + fl (4 * x')) / fsqrtpi) * fexp (- y))) in *. rewrite INR_IZR_INZ in D2. cbn [Z.of_nat Pos.of_succ_nat Pos.succ] in D2.
    pose proof (near_diff_le 15 q q0 ltac:(lia) ltac:(lra) (near_q9 t sg mu px py T S M)) as Q. cbn [INR] in Q.
    pose proof (near_diff_le 15 _ (erf x) ltac:(lia) ltac:(lra) (near_derf ferf GE t sg mu px py T S M A)) as G. cbn [INR] in G.
    pose proof (near_nonneg 15 q q0 (near_q9 t sg mu px py T S M) ltac:(lra)) as QN. set (q1 := q) in *. set (f := ferf x') in *.
    assert (N1 : Rabs (q1 - q0) <= 5 * u) by nra. assert (N2 : Rabs (f - erf x) <= 16 * u) by nra.
    assert (N3 : Rabs (fl (q1 - 1) - (q0 - 1)) <= 7 * u).
    { apply Rabs_le_inv in N1. pose proof (near_diff_le 1 (fl (1 - q1)) (1 - q1) ltac:(lia) ltac:(nra) (near_fl _)) as H. cbn [INR] in H.
      replace (fl (q1 - 1)) with (- fl (1 - q1)) by (rewrite <- fl_opp; f_equal; ring).
      replace (- fl (1 - q1) - (q0 - 1)) with (- ((fl (1 - q1) - (1 - q1)) - (q1 - q0))) by ring. rewrite Rabs_Ropp.
      eapply Rle_trans; [apply (abs_dif _ _ (2 * u * (1 - q1)) (5 * u)); [lra|apply Rabs_le; lra]|]. nra. }
    assert (D1 : Rabs (fl (fl (q1 - 1) * f) - (q0 - 1) * erf x) <= 27 * u).
    { set (p := fl (q1 - 1)) in *. apply Rabs_le_inv in N3. apply Rabs_le_inv in N2.
      assert (PF : 0 <= - (p * f) <= 101 / 100) by (split; [replace (- (p * f)) with (- p * f) by ring; apply Rmult_le_pos; nra|replace (- (p * f)) with (- p * f) by ring; apply Rle_trans with (1001 / 1000 * (1001 / 1000)); [apply Rmult_le_compat; nra|lra]]).
      pose proof (near_diff_le 1 (fl (- (p * f))) (- (p * f)) ltac:(lia) ltac:(lra) (near_fl _)) as H. cbn [INR] in H. rewrite fl_opp in H.
      assert (H' : Rabs (fl (p * f) - p * f) <= 3 * u).
      { replace (fl (p * f) - p * f) with (- (- fl (p * f) - - (p * f))) by ring. rewrite Rabs_Ropp. nra. }
      replace (fl (p * f) - (q0 - 1) * erf x) with ((fl (p * f) - p * f) + ((p - (q0 - 1)) * f + (q0 - 1) * (f - erf x))) by ring.
      apply Rle_trans with (3 * u + (8 * u + 16 * u)); [|lra]. apply abs_sum; [exact H'|]. apply abs_sum.
      - rewrite Rabs_mult. apply Rle_trans with (7 * u * (101 / 100)); [|lra]. apply Rmult_le_compat; [apply Rabs_pos|apply Rabs_pos|apply Rabs_le; lra|apply Rabs_le; nra].
      - rewrite Rabs_mult. apply Rle_trans with (1 * (16 * u)); [|lra]. apply Rmult_le_compat; [apply Rabs_pos|apply Rabs_pos|apply Rabs_le; lra|apply Rabs_le; lra]. }
    set (T1 := fl (fl (q1 - 1) * f)) in *.
    assert (GZ : gz x <= - (2 / 3)).
    { unfold gz. pose proof (exp_pos (- x ^ 2)). set (c := (9 / x + 4 * x) / sqrt PI) in *. assert (0 < c * exp (- x ^ 2)) by (apply Rmult_lt_0_compat; lra). nra. }
    assert (W : within 43 (T1 - T2) (gz x)).
    { unfold within. fold u. rewrite (Rabs_left (gz x)) by lra. apply Rle_trans with (27 * u + 8 / 5 * u); [|nra].
      replace (T1 - T2 - gz x) with ((T1 - (q0 - 1) * erf x) - (T2 - (9 / x + 4 * x) / sqrt PI * exp (- x ^ 2))) by (unfold gz; ring).
      apply abs_dif; [exact D1|]. eapply Rle_trans; [exact D2|]. apply Rmult_le_compat_r; lra. }
    apply (within_near 43 43) in W; [|lra|rewrite INR_IZR_INZ; cbn; lra|lra].
    apply (near_within' 75 (15 + 44 + 7)); [lia|rewrite INR_IZR_INZ; cbn; lra|]. rewrite hz_exact. unfold fvmd_hz. cbv zeta. fold q1 f T1 T2.
    apply near_whole; [apply near_r3, GP|exact W].
  Qed.
  Lemma dhz_early : within 75 (fvmd_dhz pow ferf fexp t sg mu m px py) (vz (vmd_dH t sg mu m px py)).
  Proof.
    pose proof dx_big as B. pose proof u_pos as U. pose proof u_small as U'. pose proof (erf_4 x B) as [E1 E2]. pose proof (q0_bound x B) as [Q0 Q1]. destruct (C2_E x B) as (P & V & V2).
    pose proof (tail 33 _ _ _ _ ltac:(lia) (near_c2 pow GP t sg mu px py T S M A) P V V2) as D2.
    set (T2 := fl (fl (fl (fl (fl (4 * pow x' 3%nat) + fl (6 * x')) + fl (9 / x')) / fsqrtpi) * fexp (- y))) in *. rewrite INR_IZR_INZ in D2. cbn [Z.of_nat Pos.of_succ_nat Pos.succ] in D2.
    assert (N1 : near 31 (fl (q * ferf x')) (q0 * erf x)) by (apply near_round; replace 30%nat with (15 + 15)%nat by lia; apply near_mult; [apply near_q9|apply near_derf]; assumption).
    set (T1 := fl (q * ferf x')) in *. assert (QE : 19 / 20 * q0 <= q0 * erf x <= q0) by nra.
    pose proof (near_diff_le 31 T1 (q0 * erf x) ltac:(lia) ltac:(lra) N1) as D1. rewrite INR_IZR_INZ in D1. cbn [Z.of_nat Pos.of_succ_nat Pos.succ] in D1.
    assert (D1' : Rabs (T1 - q0 * erf x) <= 32 * u * q0) by (eapply Rle_trans; [exact D1|]; nra).
    assert (D2' : Rabs (T2 - (4 * x ^ 3 + 6 * x + 9 / x) / sqrt PI * exp (- x ^ 2)) <= 8 * u * q0) by (eapply Rle_trans; [exact D2|]; nra).
    assert (GZ : 9 / 10 * q0 <= dgz x).
    { unfold dgz. pose proof (exp_half x) as X. pose proof (F_low x B) as [F0 F1]. set (c := (4 * x ^ 3 + 6 * x + 9 / x) / sqrt PI) in *.
      assert (c * exp (- x ^ 2) <= 16 / 625 * (11 / 10 * q0)); [|lra]. apply Rle_trans with (c * (E * F)); [apply Rmult_le_compat_l; lra|]. replace (c * (E * F)) with (F * (c * E)) by ring.
      apply Rmult_le_compat; try lra. apply Rmult_le_pos; [lra|left; apply exp_pos]. }
    assert (W : within 45 (T1 - T2) (dgz x)).
    { unfold within. fold u. rewrite (Rabs_pos_eq (dgz x)) by lra. apply Rle_trans with (32 * u * q0 + 8 * u * q0); [|nra].
      replace (T1 - T2 - dgz x) with ((T1 - q0 * erf x) - (T2 - (4 * x ^ 3 + 6 * x + 9 / x) / sqrt PI * exp (- x ^ 2))) by (unfold dgz; ring).
      apply abs_dif; assumption. }
    apply (within_near 45 45) in W; [|lra|rewrite INR_IZR_INZ; cbn; lra|lra].
    apply (near_within' 75 (16 + 46 + 7)); [lia|rewrite INR_IZR_INZ; cbn; lra|]. rewrite dhz_exact. unfold fvmd_dhz. cbv zeta. fold T1 T2.
    apply near_whole; [apply near_r3t, GP|exact W].
  Qed.
End Early.
