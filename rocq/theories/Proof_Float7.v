(** The central-loop transients in floating point: early times (C131). *)
From Coq Require Import ZArith Reals Lra Lia Psatz.
From Flocq Require Import Core.
From Coquelicot Require Import Coquelicot.
From Verif Require Import Vec3 Calculus Deriv SpecFun Model_TDEM Proof_TDEM3 Proof_TDEM4 Model_Float Model_Float2 Spec_Float Spec_Float2 Proof_Float Proof_Float2 Proof_Float3 Proof_Float5 Proof_Float6.
Open Scope R_scope.

Lemma exp_1_low : 5 / 2 <= exp 1.
Proof.
  pose proof (exp_ineq1_le (1 / 8)) as H. assert (E : exp 1 = exp (1 / 8) ^ 8).
  { assert (X : 1 = 1 / 8 + 1 / 8 + (1 / 8 + 1 / 8) + (1 / 8 + 1 / 8 + (1 / 8 + 1 / 8))) by lra. rewrite X at 1. rewrite !exp_plus. ring. }
  rewrite E. apply Rle_trans with ((9 / 8) ^ 8); [lra|]. apply pow_incr. lra.
Qed.
Lemma exp_over z : 5 / 2 * z <= exp z.
Proof.
  pose proof (exp_ineq1_le (z - 1)) as H. pose proof exp_1_low as E. replace z with ((z - 1) + 1) at 2 by ring. rewrite exp_plus. pose proof (exp_pos 1). pose proof (exp_pos (z - 1)).
  destruct (Rle_dec z 0); [assert (0 < exp (z - 1) * exp 1) by (apply Rmult_lt_0_compat; lra); lra|nra].
Qed.
Lemma exp_inv_mult z : exp z * exp (- z) = 1.
Proof. rewrite <- exp_plus. replace (z + - z) with 0 by ring. apply exp_0. Qed.
Lemma zexp1 z : 0 <= z -> z * exp (- z) <= 2 / 5.
Proof. intros P. pose proof (exp_over z). pose proof (exp_inv_mult z). pose proof (exp_pos (- z)). nra. Qed.
Lemma zexp2 z : 0 <= z -> z ^ 2 * exp (- z) <= 16 / 25.
Proof.
  intros P. pose proof (zexp1 (z / 2) ltac:(lra)) as H. replace (- z) with (- (z / 2) + - (z / 2)) by field. rewrite exp_plus. pose proof (exp_pos (- (z / 2))).
  replace (z ^ 2 * (exp (- (z / 2)) * exp (- (z / 2)))) with (4 * ((z / 2 * exp (- (z / 2))) * (z / 2 * exp (- (z / 2))))) by field.
  assert (0 <= z / 2 * exp (- (z / 2))) by (apply Rmult_le_pos; lra). nra.
Qed.
Lemma zexp3 z : 0 <= z -> z ^ 3 * exp (- z) <= 216 / 125.
Proof.
  intros P. pose proof (zexp1 (z / 3) ltac:(lra)) as H. replace (- z) with (- (z / 3) + - (z / 3) + - (z / 3)) by field. rewrite !exp_plus. pose proof (exp_pos (- (z / 3))).
  replace (z ^ 3 * (exp (- (z / 3)) * exp (- (z / 3)) * exp (- (z / 3)))) with (27 * ((z / 3 * exp (- (z / 3))) * ((z / 3 * exp (- (z / 3))) * (z / 3 * exp (- (z / 3)))))) by field.
  assert (0 <= z / 3 * exp (- (z / 3))) by (apply Rmult_le_pos; lra). set (p := z / 3 * exp (- (z / 3))) in *. assert (p * p <= 4 / 25) by nra. nra.
Qed.
(** exp is 1-Lipschitz relative to its larger value *)
Lemma exp_lip p q m : m <= p -> m <= q -> Rabs (exp (- p) - exp (- q)) <= Rabs (p - q) * exp (- m).
Proof.
  assert (K : forall p q, m <= p -> p <= q -> 0 <= exp (- p) - exp (- q) <= (q - p) * exp (- m)).
  { clear p q. intros p q A B. pose proof (exp_ineq1_le (- (q - p))) as H. assert (E : exp (- q) = exp (- p) * exp (- (q - p))) by (rewrite <- exp_plus; f_equal; ring).
    pose proof (exp_pos (- p)). assert (exp (- p) <= exp (- m)) by (destruct A as [A|<-]; [left; apply exp_increasing; lra|lra]).
    assert (exp (- (q - p)) <= 1) by (rewrite <- exp_0; destruct B as [B|<-]; [left; apply exp_increasing; lra|replace (- (p - p)) with 0 by ring; lra]).
    rewrite E. split; nra. }
  intros A B. destruct (Rle_dec p q) as [L|L].
  - specialize (K p q A L). rewrite Rabs_pos_eq by lra. rewrite Rabs_left1 by lra. lra.
  - specialize (K q p B ltac:(lra)). rewrite Rabs_left1 by lra. rewrite Rabs_pos_eq by lra. lra.
Qed.
Lemma near_diff_le k a b : (k <= 500)%nat -> 0 <= b -> near k a b -> Rabs (a - b) <= (INR k + 1) * u * b.
Proof. intros L P H. apply near_within in H; [|exact L]. unfold within in H. fold u in H. rewrite (Rabs_pos_eq b) in H by exact P. exact H. Qed.
Lemma abs_sum a b p q : Rabs a <= p -> Rabs b <= q -> Rabs (a + b) <= p + q.
Proof. intros. eapply Rle_trans; [apply Rabs_triang|]. lra. Qed.
Lemma abs_dif a b p q : Rabs a <= p -> Rabs b <= q -> Rabs (a - b) <= p + q.
Proof. intros. apply abs_sum; [assumption|rewrite Rabs_Ropp; assumption]. Qed.

Lemma q_two w : 4 <= w -> 3 / w <= 3 / 4.
Proof. intros H. apply Rmult_le_reg_r with w; [lra|]. unfold Rdiv at 1. rewrite Rmult_assoc, Rinv_l by lra. lra. Qed.

Section Early.
  Variables (pow : R -> nat -> R) (ferf fexp : R -> R).
  Hypothesis GP : good_pow pow.
  Hypothesis GE : good_erf ferf.
  Hypothesis GX : good_exp fexp.
  Variables t sg mu a I n : R.
  Hypothesis T : 0 < t.
  Hypothesis S : 0 < sg.
  Hypothesis M : 0 < mu.
  Hypothesis A : 0 < a.
  Hypothesis L : t <= mu * sg * a ^ 2 / 16.
  Notation x := (theta t sg mu * a).
  Notation x' := (fl (ftheta t sg mu * a)).
  Notation y := (fsq x').
  Notation E := (exp (- (x ^ 2 / 2))).
  Lemma x_big : 2 <= x.
  Proof.
    pose proof (x_pos t sg mu a T S M A) as XP. pose proof (x_sq t sg mu a T S M) as X2. assert (4 <= x ^ 2).
    { rewrite X2. apply Rmult_le_reg_r with (4 * t); [lra|]. replace (mu * sg * a ^ 2 / (4 * t) * (4 * t)) with (mu * sg * a ^ 2) by (field; lra). lra. }
    nra.
  Qed.
  Lemma E_low : E <= 4 / 25.
  Proof.
    pose proof x_big as B. pose proof exp_1_low as X. apply Rle_trans with (exp (Ropp 2)); [assert (H : 2 <= x ^ 2 / 2) by nra; destruct H as [H|H]; [left; apply exp_increasing; lra|rewrite <- H; lra]|].
    rewrite exp_Ropp. replace 2 with (1 + 1) by ring. rewrite exp_plus. rewrite <- (Rinv_inv (4 / 25)). apply Rinv_le_contravar; [lra|nra].
  Qed.
  Lemma EE : exp (- x ^ 2) = E * E. Proof. rewrite <- exp_plus. f_equal. field. Qed.
  Notation P1 := (2 * x / sqrt PI * (3 + 2 * x ^ 2)).
  Lemma PE : 0 <= P1 * E <= 9 / 2 /\ P1 * (x ^ 2 * E) <= 21.
  Proof.
    pose proof x_big as B. pose proof root_pi as [R1 R2]. pose proof (exp_pos (- (x ^ 2 / 2))) as EP. assert (Z : 0 <= x ^ 2 / 2) by (pose proof (pow2_ge_0 x); lra).
    pose proof (zexp1 _ Z) as Z1. pose proof (zexp2 _ Z) as Z2. pose proof (zexp3 _ Z) as Z3. set (e := E) in *. set (s := x) in *.
    assert (C : 0 < 2 / sqrt PI <= 20 / 17).
    { split; [apply Rdiv_lt_0_compat; lra|]. apply Rmult_le_reg_r with (sqrt PI); [lra|]. replace (2 / sqrt PI * sqrt PI) with 2 by (field; lra). lra. }
    replace (2 * s / sqrt PI * (3 + 2 * s ^ 2)) with (2 / sqrt PI * (3 * s + 2 * s ^ 3)) by (field; lra). set (c := 2 / sqrt PI) in *.
    assert (S1 : s * e <= 2 / 5) by (apply Rle_trans with (s ^ 2 / 2 * e); [apply Rmult_le_compat_r; nra|lra]).
    assert (S3 : s ^ 3 * e <= 32 / 25).
    { apply Rle_trans with (2 * ((s ^ 2 / 2) ^ 2 * e)); [|lra]. replace (2 * ((s ^ 2 / 2) ^ 2 * e)) with (s ^ 3 * (s / 2) * e) by field. apply Rmult_le_compat_r; [lra|]. assert (0 < s ^ 3) by (apply pow_lt; lra). nra. }
    assert (S5 : s ^ 5 * e <= 4 * (216 / 125)).
    { apply Rle_trans with (4 * ((s ^ 2 / 2) ^ 3 * e)); [|lra]. replace (4 * ((s ^ 2 / 2) ^ 3 * e)) with (s ^ 5 * (s / 2) * e) by field. apply Rmult_le_compat_r; [lra|]. assert (0 < s ^ 5) by (apply pow_lt; lra). nra. }
    assert (0 < s ^ 3) by (apply pow_lt; lra). assert (0 < s ^ 5) by (apply pow_lt; lra).
    assert (N1 : 0 <= s * e) by (apply Rmult_le_pos; lra). assert (N3 : 0 <= s ^ 3 * e) by (apply Rmult_le_pos; lra). assert (N5 : 0 <= s ^ 5 * e) by (apply Rmult_le_pos; lra).
    replace (c * (3 * s + 2 * s ^ 3) * e) with (c * (3 * (s * e) + 2 * (s ^ 3 * e))) by ring.
    replace (c * (3 * s + 2 * s ^ 3) * (s ^ 2 * e)) with (c * (3 * (s ^ 3 * e) + 2 * (s ^ 5 * e))) by ring.
    repeat split; nra.
  Qed.
  Lemma y_half : x ^ 2 / 2 <= y.
  Proof. pose proof (near_low 9 y (x ^ 2) ltac:(lia) (pow2_ge_0 _) (near_y t sg mu a T S M)). pose proof (pow2_ge_0 x). lra. Qed.
  Lemma y_diff : Rabs (y - x ^ 2) <= 10 * u * x ^ 2.
  Proof. pose proof (near_diff_le 9 y (x ^ 2) ltac:(lia) (pow2_ge_0 _) (near_y t sg mu a T S M)) as H. cbn [INR] in H. lra. Qed.
  Lemma exp_y_le : exp (- y) <= E.
  Proof. destruct y_half as [H|H]; [left; apply exp_increasing; lra|rewrite H; lra]. Qed.
  Lemma exp_y_diff : Rabs (exp (- y) - exp (- x ^ 2)) <= 10 * u * x ^ 2 * E.
  Proof.
    pose proof (pow2_ge_0 x) as X. eapply Rle_trans; [apply (exp_lip y (x ^ 2) (x ^ 2 / 2)); [apply y_half|lra]|].
    apply Rmult_le_compat_r; [left; apply exp_pos|apply y_diff].
  Qed.
  Lemma erf_big : 19 / 20 <= erf x < 1.
  Proof.
    pose proof x_big as B. pose proof (erf_lt_1 x). pose proof (erf_near_1 x ltac:(lra)) as N. pose proof E_low as EL. rewrite EE in N. pose proof (exp_pos (- (x ^ 2 / 2))) as EP. pose proof root_pi as [R1 R2].
    assert (PI3 : 17 / 10 * (17 / 10) <= PI) by (rewrite <- (sqrt_sqrt PI) by (pose proof PI_RGT_0; lra); apply Rmult_le_compat; lra).
    assert (C : 4 / PI <= 7 / 5) by (apply Rmult_le_reg_r with PI; [lra|]; replace (4 / PI * PI) with 4 by (field; lra); lra).
    assert (0 < 4 / PI) by (apply Rdiv_lt_0_compat; lra). set (e := E) in *. assert (e * e <= 16 / 625) by nra. split; [nra|lra].
  Qed.
  Lemma rate_early : within 250 (ftloop_dbz pow ferf fexp t sg mu a I n) (tloop_dbz t sg mu a I n).
  Proof.
    pose proof x_big as B. pose proof erf_big as [E1 E2]. destruct PE as [[P0 PE1] PE2]. pose proof u_pos as U. pose proof (exp_pos (- (x ^ 2 / 2))) as EP. pose proof E_low as EL.
    pose proof (P1_pos t sg mu a T S M A) as PP.
    set (A1 := fl (3 * ferf x')). set (B1 := fl (fl (fl (fl (2 * x') / fsqrtpi) * fl (3 + fl (2 * y))) * fexp (- y))).
    assert (DA : Rabs (A1 - 3 * erf x) <= 45 * u).
    { pose proof (near_diff_le 14 A1 (3 * erf x) ltac:(lia) ltac:(lra) (near_A1 ferf GE t sg mu a T S M A)) as H. cbn [INR] in H. nra. }
    assert (DB1 : Rabs (B1 - P1 * exp (- y)) <= 140 * u).
    { pose proof exp_y_le as YL. pose proof (exp_pos (- y)) as YP. assert (H0 : 0 <= P1 * exp (- y)) by (apply Rmult_le_pos; lra). pose proof (near_diff_le 30 B1 _ ltac:(lia) H0 (near_B1 fexp GX t sg mu a T S M A)) as H.
      assert (P1 * exp (- y) <= 9 / 2) by (apply Rle_trans with (P1 * E); [apply Rmult_le_compat_l; lra|exact PE1]). cbn [INR] in H. nra. }
    assert (DB2 : Rabs (P1 * exp (- y) - P1 * exp (- x ^ 2)) <= 210 * u).
    { rewrite <- Rmult_minus_distr_l, Rabs_mult, (Rabs_pos_eq P1) by lra. pose proof exp_y_diff as Y. apply Rle_trans with (P1 * (10 * u * x ^ 2 * E)); [apply Rmult_le_compat_l; lra|].
      replace (P1 * (10 * u * x ^ 2 * E)) with (10 * u * (P1 * (x ^ 2 * E))) by ring. nra. }
    assert (NL : 2 <= nloop x).
    { unfold nloop. rewrite EE. replace (P1 * (E * E)) with (P1 * E * E) by ring. assert (P1 * E * E <= 9 / 2 * (4 / 25)) by (apply Rmult_le_compat; lra). lra. }
    assert (W : within 200 (A1 - B1) (nloop x)).
    { unfold within. fold u. rewrite (Rabs_pos_eq (nloop x)) by lra. apply Rle_trans with (45 * u + (140 * u + 210 * u)); [|nra].
      replace (A1 - B1 - nloop x) with ((A1 - 3 * erf x) - ((B1 - P1 * exp (- y)) + (P1 * exp (- y) - P1 * exp (- x ^ 2)))) by (unfold nloop; ring).
      apply abs_dif; [exact DA|apply abs_sum; assumption]. }
    apply (within_near 200 200) in W; [|lra|rewrite INR_IZR_INZ; cbn; lra|lra].
    apply (near_within' 250 215); [lia|rewrite INR_IZR_INZ; cbn; lra|]. rewrite tloop_dbz_n. unfold ftloop_dbz. cbv zeta. fold A1 B1.
    change (near 215 (fl (fl (fl (- n * I) / fl (sg * pow a 3%nat)) * fl (A1 - B1))) (factor sg a I n * nloop x)).
    apply near_round. replace 214%nat with (12 + 202)%nat by lia. apply near_mult; [apply near_factor, GP|apply near_round, W].
  Qed.
  Lemma field_early : within 250 (ftloop_hz ferf fexp t sg mu a I n) (tloop_hz t sg mu a I n).
  Proof.
    pose proof x_big as B. pose proof erf_big as [E1 E2]. pose proof u_pos as U. pose proof u_small as U'. pose proof (exp_pos (- (x ^ 2 / 2))) as EP. pose proof E_low as EL. pose proof root_pi as [R1 R2].
    set (t1 := fl (fl (3 / fl (fsqrtpi * x')) * fexp (- y))). set (q := fl (3 / fl (2 * y))). set (t2 := fl (fl (1 - q) * ferf x')).
    assert (X4 : 4 <= x ^ 2) by nra.
    assert (C : 0 < 3 / (sqrt PI * x) <= 9 / 10).
    { assert (34 / 10 <= sqrt PI * x) by nra. split; [apply Rdiv_lt_0_compat; lra|]. apply Rmult_le_reg_r with (sqrt PI * x); [lra|]. unfold Rdiv at 1. rewrite Rmult_assoc, Rinv_l by lra. lra. }
    assert (D1 : Rabs (t1 - 3 / (sqrt PI * x) * exp (- y)) <= 3 * u).
    { pose proof exp_y_le as YL. pose proof (exp_pos (- y)) as YP. set (c := 3 / (sqrt PI * x)) in *. assert (H0 : 0 <= c * exp (- y)) by (apply Rmult_le_pos; lra).
      pose proof (near_diff_le 18 t1 _ ltac:(lia) H0 (near_t1 fexp GX t sg mu a T S M)) as H. cbn [INR] in H.
      assert (c * exp (- y) <= 9 / 10 * (4 / 25)) by (apply Rmult_le_compat; lra). nra. }
    assert (D2 : Rabs (3 / (sqrt PI * x) * exp (- y) - 3 / (sqrt PI * x) * exp (- x ^ 2)) <= 8 * u).
    { set (c := 3 / (sqrt PI * x)) in *. rewrite <- Rmult_minus_distr_l, Rabs_mult, (Rabs_pos_eq c) by lra. pose proof exp_y_diff as Y. pose proof (zexp1 (x ^ 2 / 2) ltac:(lra)) as Z.
      assert (10 * u * x ^ 2 * E <= 8 * u) by nra. assert (0 <= Rabs (exp (- y) - exp (- x ^ 2))) by apply Rabs_pos. nra. }
    assert (Q : Rabs (q - 3 / (2 * x ^ 2)) <= 5 * u /\ 0 <= 3 / (2 * x ^ 2) <= 3 / 8).
    { assert (Q0 : 0 <= 3 / (2 * x ^ 2) <= 3 / 8).
      { split; [left; apply Rdiv_lt_0_compat; lra|]. apply Rmult_le_reg_r with (2 * x ^ 2); [lra|]. unfold Rdiv at 1. rewrite Rmult_assoc, Rinv_l by lra. lra. }
      split; [|exact Q0]. pose proof (near_diff_le 11 q _ ltac:(lia) (proj1 Q0) (near_q t sg mu a T S M)) as H. cbn [INR] in H. nra. }
    destruct Q as [Q Q0]. set (q0 := 3 / (2 * x ^ 2)) in *.
    assert (Q1 : Rabs (fl (1 - q) - (1 - q0)) <= 8 * u).
    { apply Rabs_le_inv in Q. assert (H0 : 0 <= 1 - q) by nra. pose proof (near_diff_le 1 (fl (1 - q)) (1 - q) ltac:(lia) H0 (near_fl _)) as H. cbn [INR] in H.
      replace (fl (1 - q) - (1 - q0)) with ((fl (1 - q) - (1 - q)) - (q - q0)) by ring. eapply Rle_trans; [apply (abs_dif _ _ (2 * u * (1 - q)) (5 * u)); [lra|apply Rabs_le; lra]|]. nra. }
    assert (F : Rabs (ferf x' - erf x) <= 14 * u).
    { pose proof (near_diff_le 13 _ (erf x) ltac:(lia) ltac:(lra) (near_ferf ferf GE t sg mu a T S M A)) as H. cbn [INR] in H. nra. }
    assert (D3 : Rabs (t2 - (1 - q0) * erf x) <= 26 * u).
    { set (p := fl (1 - q)) in *. set (f := ferf x') in *. apply Rabs_le_inv in Q1. apply Rabs_le_inv in F.
      assert (H0 : 0 <= p * f) by (apply Rmult_le_pos; nra). pose proof (near_diff_le 1 t2 (p * f) ltac:(lia) H0 (near_fl _)) as H. cbn [INR] in H.
      replace (t2 - (1 - q0) * erf x) with ((t2 - p * f) + (p * f - (1 - q0) * erf x)) by ring.
      assert (PF : p * f <= 11 / 10) by (apply Rle_trans with (101 / 100 * (101 / 100)); [apply Rmult_le_compat; nra|lra]).
      apply Rle_trans with (3 * u + 23 * u); [|lra]. apply abs_sum; [nra|].
      replace (p * f - (1 - q0) * erf x) with ((p - (1 - q0)) * f + (1 - q0) * (f - erf x)) by ring.
      apply Rle_trans with (9 * u + 14 * u); [|lra]. apply abs_sum.
      - rewrite Rabs_mult. apply Rle_trans with (8 * u * (101 / 100)); [|lra]. apply Rmult_le_compat; [apply Rabs_pos|apply Rabs_pos|apply Rabs_le; lra|apply Rabs_le; nra].
      - rewrite Rabs_mult. apply Rle_trans with (1 * (14 * u)); [|lra]. apply Rmult_le_compat; [apply Rabs_pos|apply Rabs_pos|apply Rabs_le; lra|apply Rabs_le; lra]. }
    assert (G : / 4 <= gloop x).
    { pose proof (gloop_early x ltac:(lra)) as [H _]. assert (3 / x ^ 2 <= 3 / 4); [|lra]. exact (q_two _ X4). }
    assert (W : within 200 (t1 + t2) (gloop x)).
    { unfold within. fold u. rewrite (Rabs_pos_eq (gloop x)) by lra. apply Rle_trans with ((3 * u + 8 * u) + 26 * u); [|nra].
      replace (t1 + t2 - gloop x) with (((t1 - 3 / (sqrt PI * x) * exp (- y)) + (3 / (sqrt PI * x) * exp (- y) - 3 / (sqrt PI * x) * exp (- x ^ 2))) + (t2 - (1 - q0) * erf x)) by (unfold gloop, q0; ring).
      apply abs_sum; [apply abs_sum; assumption|exact D3]. }
    apply (within_near 200 200) in W; [|lra|rewrite INR_IZR_INZ; cbn; lra|lra].
    apply (near_within' 250 206); [lia|rewrite INR_IZR_INZ; cbn; lra|]. rewrite tloop_hz_g. unfold ftloop_hz. cbv zeta. fold q t1 t2.
    apply near_round. replace 205%nat with (1 + 204)%nat by lia. apply near_mult; [apply near_fl|]. apply near_round. replace 203%nat with (202 + 1)%nat by lia.
    apply near_div; [apply near_round, W|apply near_fl].
  Qed.
End Early.
