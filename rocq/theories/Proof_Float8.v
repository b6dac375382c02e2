(** Properties of the medium and of sources in floating point (C132). *)
From Coq Require Import ZArith Reals Lra Lia Psatz.
From Flocq Require Import Core.
From Verif Require Import Vec3 Numpy Model_Gravity Model_Static Model_FDEM Model_TDEM Model_Float Model_Float2 Model_Float3 Spec_Float Spec_Float2 Proof_Float Proof_Float2 Proof_Float3 Proof_Float5.
Open Scope R_scope.

Local Instance valid53 : Prec_gt_0 53 := eq_refl.
Lemma fl_half e t : bpow radix2 e <= t < bpow radix2 (e + 1) -> Rabs (fl t - t) <= bpow radix2 (e - 53).
Proof.
  intros T. assert (N : t <> 0) by (pose proof (bpow_gt_0 radix2 e); lra).
  pose proof (error_le_half_ulp radix2 (FLX_exp 53) (fun x => negb (Z.even x)) t) as H. change (round radix2 (FLX_exp 53) (Znearest (fun x => negb (Z.even x))) t) with (fl t) in H.
  rewrite ulp_neq_0 in H by exact N. unfold cexp in H. assert (M : mag radix2 t = (e + 1)%Z :> Z) by (apply mag_unique_pos; replace (e + 1 - 1)%Z with e by lia; exact T).
  rewrite M in H. unfold FLX_exp in H. replace (bpow radix2 (e - 53)) with (/ 2 * bpow radix2 (e + 1 - 53)); [exact H|].
  replace (e + 1 - 53)%Z with (e - 53 + 1)%Z by lia. rewrite bpow_1. field.
Qed.
Lemma float_int m e : (Z.abs m < 2 ^ 53)%Z -> float (IZR m * bpow radix2 e).
Proof. intros H. apply generic_format_FLX. exists (Float radix2 m e); [reflexivity|exact H]. Qed.
Lemma bpow_52 : bpow radix2 (-52) = / 2 ^ 52.
Proof. cbn [bpow]. f_equal. change (Z.pow_pos radix2 52) with 4503599627370496%Z. lra. Qed.
Lemma bpow_54 : bpow radix2 (-54) = / 2 ^ 54.
Proof. cbn [bpow]. f_equal. change (Z.pow_pos radix2 54) with 18014398509481984%Z. lra. Qed.
Lemma bpow_m1 : bpow radix2 (-1) = / 2. Proof. reflexivity. Qed.
Lemma bpow_z : bpow radix2 0 = 1. Proof. reflexivity. Qed.
Lemma bpow_p1 : bpow radix2 1 = 2. Proof. reflexivity. Qed.

(** the floats around the square root of 2 *)
Definition root_lo : R := 6369051672525772 * / 2 ^ 52.
Definition root_hi : R := 6369051672525773 * / 2 ^ 52.
Lemma root_hi_float : float root_hi. Proof. unfold root_hi. rewrite <- bpow_52. apply (float_int 6369051672525773). reflexivity. Qed.
Lemma half_lo_float : float (root_lo / 2).
Proof. replace (root_lo / 2) with (6369051672525772 * bpow radix2 (-53)) by (rewrite bpow_53; unfold root_lo; field). apply (float_int 6369051672525772). reflexivity. Qed.
Lemma recip_hi : fl (1 / root_hi) = root_lo / 2.
Proof.
  apply (fl_close (-1)); [apply half_lo_float| | |]; change (-1 + 1)%Z with 0%Z; rewrite ?bpow_m1, ?bpow_z.
  - unfold root_lo. lra.
  - split; [apply Rmult_le_reg_r with root_hi|apply Rmult_lt_reg_r with root_hi]; unfold Rdiv; rewrite ?Rmult_1_l, ?Rinv_l; unfold root_hi; lra.
  - change (-1 - 53)%Z with (-54)%Z. rewrite bpow_54. replace (1 / root_hi - root_lo / 2) with ((1 - root_lo * root_hi / 2) / root_hi) by (field; unfold root_hi; lra).
    unfold Rdiv at 1. rewrite Rabs_mult, Rabs_inv, (Rabs_pos_eq root_hi) by (unfold root_hi; lra). apply Rmult_lt_reg_r with root_hi; [unfold root_hi; lra|]. rewrite Rmult_assoc, Rinv_l by (unfold root_hi; lra).
    unfold root_lo, root_hi. rewrite ?Rmult_1_r; apply Rabs_def1; lra.
Qed.
Lemma recip_lo : fl (1 / (root_lo / 2)) = root_hi.
Proof.
  assert (P : 0 < root_lo) by (unfold root_lo; lra). replace (1 / (root_lo / 2)) with (2 / root_lo) by (field; lra).
  apply (fl_close 0); [apply root_hi_float| | |]; change (0 + 1)%Z with 1%Z; rewrite ?bpow_z, ?bpow_p1.
  - unfold root_hi. lra.
  - split; [apply Rmult_le_reg_r with root_lo|apply Rmult_lt_reg_r with root_lo]; try exact P; unfold Rdiv; rewrite ?Rmult_assoc, ?Rinv_l by lra; unfold root_lo; lra.
  - change (0 - 53)%Z with (-53)%Z. rewrite bpow_53. replace (2 / root_lo - root_hi) with ((2 - root_lo * root_hi) / root_lo) by (field; lra).
    unfold Rdiv at 1. rewrite Rabs_mult, Rabs_inv, (Rabs_pos_eq root_lo) by lra. apply Rmult_lt_reg_r with root_lo; [exact P|]. rewrite Rmult_assoc, Rinv_l by lra.
    unfold root_lo, root_hi. rewrite ?Rmult_1_r; apply Rabs_def1; lra.
Qed.
Lemma inv_anti a b : 0 < a -> a <= b -> 1 / b <= 1 / a.
Proof. intros P L. unfold Rdiv. rewrite !Rmult_1_l. apply Rinv_le_contravar; assumption. Qed.
Lemma float_half : float (/ 2). Proof. rewrite <- bpow_m1. apply float_bpow. Qed.
Lemma float_one : float 1. Proof. rewrite <- bpow_z. apply float_bpow. Qed.
Lemma float_two : float 2. Proof. rewrite <- bpow_p1. apply float_bpow. Qed.

Lemma recip3_binade s : float s -> 1 <= s < 2 -> fl (1 / fl (1 / fl (1 / s))) = fl (1 / s).
Proof.
  intros F [[L|<-] U].
  2:{ replace (1 / 1) with 1 by field. rewrite (fl_id 1 float_one). replace (1 / 1) with 1 by field. rewrite (fl_id 1 float_one). replace (1 / 1) with 1 by field. apply (fl_id 1 float_one). }
  set (y := fl (1 / s)).
  assert (R0 : / 2 <= 1 / s < 1).
  { split; [apply Rmult_le_reg_r with s|apply Rmult_lt_reg_r with s]; try lra; unfold Rdiv; rewrite ?Rmult_assoc, ?Rinv_l by lra; lra. }
  assert (Y : / 2 <= y <= 1).
  { split; [rewrite <- (fl_id _ float_half); apply fl_mono; lra|rewrite <- (fl_id _ float_one); apply fl_mono; lra]. }
  assert (FY : float y) by apply fl_float.
  assert (D : Rabs (y - 1 / s) <= / 2 ^ 54).
  { pose proof (fl_half (-1) (1 / s)) as H. change (-1 + 1)%Z with 0%Z in H. change (-1 - 53)%Z with (-54)%Z in H. rewrite bpow_54, bpow_m1, bpow_z in H. apply H. lra. }
  destruct (Rle_dec s root_lo) as [A|B].
  - (* 1/y rounds back to s *)
    assert (Q : s * s <= root_lo * root_lo) by (apply Rmult_le_compat; lra). assert (Q' : s / 2 < y).
    { apply Rabs_le_inv in D. assert (s / 2 < 1 / s - / 2 ^ 54); [|lra]. apply Rmult_lt_reg_r with s; [lra|]. replace ((1 / s - / 2 ^ 54) * s) with (1 - s * / 2 ^ 54) by (field; lra).
      unfold root_lo in Q, A. lra. }
    assert (Z : fl (1 / y) = s).
    { apply (fl_close 0); [exact F| | |]; change (0 + 1)%Z with 1%Z; rewrite ?bpow_z, ?bpow_p1; [lra| |].
      - split; [apply Rmult_le_reg_r with y|apply Rmult_lt_reg_r with y]; try lra; unfold Rdiv; rewrite ?Rmult_assoc, ?Rinv_l by lra; lra.
      - change (0 - 53)%Z with (-53)%Z. rewrite bpow_53. replace (1 / y - s) with ((- (s / y)) * (y - 1 / s)) by (field; lra). rewrite Rabs_mult, Rabs_Ropp.
        assert (P : 0 < s / y < 2). { split; [apply Rdiv_lt_0_compat; lra|]. apply Rmult_lt_reg_r with y; [lra|]. unfold Rdiv. rewrite Rmult_assoc, Rinv_l by lra. lra. }
        rewrite (Rabs_pos_eq (s / y)) by lra. pose proof (Rabs_pos (y - 1 / s)). apply Rle_lt_trans with (s / y * / 2 ^ 54); [apply Rmult_le_compat_l; lra|lra]. }
    rewrite Z. reflexivity.
  - (* 1/z rounds back to y *)
    assert (SH : root_hi <= s).
    { destruct (float_grid s 0 F) as (m & E); [rewrite bpow_z; lra|]. change (0 - 52)%Z with (-52)%Z in E. rewrite bpow_52 in E. unfold root_hi, root_lo in *.
      assert (M : (6369051672525772 < m)%Z) by (apply lt_IZR; lra). assert (M' : (6369051672525773 <= m)%Z) by lia. apply IZR_le in M'. lra. }
    assert (YL : y <= root_lo / 2) by (rewrite <- recip_hi; apply fl_mono, inv_anti; [unfold root_hi; lra|exact SH]).
    set (z := fl (1 / y)). assert (ZL : root_hi <= z) by (unfold z; rewrite <- recip_lo; apply fl_mono, inv_anti; lra).
    destruct (Req_dec y (/ 2)) as [E|N].
    { unfold z. rewrite E. replace (1 / / 2) with 2 by field. rewrite (fl_id 2 float_two). replace (1 / 2) with (/ 2) by field. apply (fl_id _ float_half). }
    assert (Y1 : 1 <= 1 / y < 2).
    { split; [apply Rmult_le_reg_r with y|apply Rmult_lt_reg_r with y]; try lra; unfold Rdiv; rewrite ?Rmult_assoc, ?Rinv_l by lra; lra. }
    assert (ZU : z <= 2) by (unfold z; rewrite <- (fl_id 2 float_two); apply fl_mono; lra).
    assert (DZ : Rabs (z - 1 / y) <= / 2 ^ 53).
    { pose proof (fl_half 0 (1 / y)) as H. change (0 + 1)%Z with 1%Z in H. change (0 - 53)%Z with (-53)%Z in H. rewrite bpow_53, bpow_z, bpow_p1 in H. apply H. exact Y1. }
    assert (ZP : 1 < z) by (unfold root_hi in ZL; lra).
    apply (fl_close (-1)); [exact FY| | |]; change (-1 + 1)%Z with 0%Z; rewrite ?bpow_m1, ?bpow_z.
    + unfold root_lo in YL. lra.
    + split; [apply Rmult_le_reg_r with z|apply Rmult_lt_reg_r with z]; try lra; unfold Rdiv; rewrite ?Rmult_assoc, ?Rinv_l by lra; lra.
    + change (-1 - 53)%Z with (-54)%Z. rewrite bpow_54. replace (1 / z - y) with ((- (y / z)) * (z - 1 / y)) by (field; lra). rewrite Rabs_mult, Rabs_Ropp.
      assert (P : 0 < y / z < / 2). { split; [apply Rdiv_lt_0_compat; lra|]. apply Rmult_lt_reg_r with z; [lra|]. unfold Rdiv. rewrite Rmult_assoc, Rinv_l by lra. unfold root_lo, root_hi in *. lra. }
      rewrite (Rabs_pos_eq (y / z)) by lra. pose proof (Rabs_pos (z - 1 / y)). apply Rle_lt_trans with (y / z * / 2 ^ 53); [apply Rmult_le_compat_l; lra|lra].
Qed.
Lemma fl_recip_scale s e : s <> 0 -> fl (1 / (s * bpow radix2 e)) = fl (1 / s) * bpow radix2 (- e).
Proof. intros N. rewrite <- fl_scale. f_equal. rewrite bpow_opp. field. split; [|exact N]. pose proof (bpow_gt_0 radix2 e). lra. Qed.
Lemma fl_pos x : 0 < x -> 0 < fl x. Proof. intros P. exact (near_pos 1 _ _ (near_fl x) P). Qed.
Lemma fl_recip_pos x : 0 < x -> 0 < fl (1 / x). Proof. intros P. apply fl_pos, Rdiv_lt_0_compat; lra. Qed.
(** taking the reciprocal three times is taking it once *)
Lemma recip3 x : float x -> 0 < x -> fl (1 / fl (1 / fl (1 / x))) = fl (1 / x).
Proof.
  intros F P. destruct (binade x P) as (e & E1 & E2). rewrite bpow_1 in E2. pose proof (bpow_gt_0 radix2 (- e)) as B. pose proof (bpow_gt_0 radix2 e) as B'.
  assert (I : bpow radix2 e * bpow radix2 (- e) = 1) by (rewrite <- bpow_plus; replace (e + - e)%Z with 0%Z by lia; reflexivity).
  set (s := x * bpow radix2 (- e)). assert (X : x = s * bpow radix2 e) by (unfold s; rewrite Rmult_assoc, (Rmult_comm (bpow _ (- e))), I; ring).
  assert (S : 1 <= s < 2) by (unfold s; split; nra). assert (FS : float s) by (unfold s; rewrite <- (fl_id x F), <- fl_scale; apply fl_float).
  rewrite X. assert (P1 := fl_recip_pos s ltac:(lra)). assert (P2 := fl_recip_pos _ P1).
  rewrite !fl_recip_scale by lra. rewrite (recip3_binade s FS S). f_equal. f_equal. lia.
Qed.

(** ** 1/(1/49) *)
Lemma recip_49 : fl (1 / fl (1 / 49)) <> 49.
Proof.
  assert (E58 : bpow radix2 (-58) = / 2 ^ 58) by (cbn [bpow]; f_equal; change (Z.pow_pos radix2 58) with 288230376151711744%Z; lra).
  assert (E59 : bpow radix2 (-59) = / 2 ^ 59) by (cbn [bpow]; f_equal; change (Z.pow_pos radix2 59) with 576460752303423488%Z; lra).
  assert (E47 : bpow radix2 (-47) = / 2 ^ 47) by (cbn [bpow]; f_equal; change (Z.pow_pos radix2 47) with 140737488355328%Z; lra).
  assert (E48 : bpow radix2 (-48) = / 2 ^ 48) by (cbn [bpow]; f_equal; change (Z.pow_pos radix2 48) with 281474976710656%Z; lra).
  assert (A : fl (1 / 49) = 5882252574524729 * / 2 ^ 58).
  { apply (fl_close (-6)); [rewrite <- E58; apply (float_int 5882252574524729); reflexivity| | |].
    - change (bpow radix2 (-6)) with (/ 64). change (bpow radix2 (-6 + 1)) with (/ 32). lra.
    - change (bpow radix2 (-6)) with (/ 64). change (bpow radix2 (-6 + 1)) with (/ 32). lra.
    - change (-6 - 53)%Z with (-59)%Z. rewrite E59. rewrite ?Rmult_1_r; apply Rabs_def1; lra. }
  rewrite A. set (y := 5882252574524729 * / 2 ^ 58). assert (Y : 0 < y) by (unfold y; lra).
  assert (B : fl (1 / y) = 6896136929411073 * / 2 ^ 47).
  { apply (fl_close 5); [rewrite <- E47; apply (float_int 6896136929411073); reflexivity| | |].
    - change (bpow radix2 5) with 32. change (bpow radix2 (5 + 1)) with 64. lra.
    - change (bpow radix2 5) with 32. change (bpow radix2 (5 + 1)) with 64. split; [apply Rmult_le_reg_r with y|apply Rmult_lt_reg_r with y]; try exact Y; unfold Rdiv; rewrite ?Rmult_assoc, ?Rinv_l by lra; unfold y; lra.
    - change (5 - 53)%Z with (-48)%Z. rewrite E48. replace (1 / y - 6896136929411073 * / 2 ^ 47) with ((1 - 6896136929411073 * / 2 ^ 47 * y) / y) by (field; lra).
      unfold Rdiv at 1. rewrite Rabs_mult, Rabs_inv, (Rabs_pos_eq y) by lra. apply Rmult_lt_reg_r with y; [exact Y|]. rewrite Rmult_assoc, Rinv_l by lra. unfold y. rewrite ?Rmult_1_r; apply Rabs_def1; lra. }
  rewrite B. lra.
Qed.
Lemma float_49 : float 49.
Proof. replace 49 with (49 * bpow radix2 0) by (rewrite bpow_z; ring). apply (float_int 49). reflexivity. Qed.

(** ** few roundings *)
Lemma near_rho r : near 2 (fget_rho (fl (1 / r))) r.
Proof.
  destruct (Req_dec r 0) as [->|N].
  - unfold fget_rho. replace (1 / 0) with (/ 0 * 1) by (unfold Rdiv; ring). rewrite Rinv_0, Rmult_0_l, (fl_id 0 float_0). replace (1 / 0) with (/ 0 * 1) by (unfold Rdiv; ring). rewrite Rinv_0, Rmult_0_l, (fl_id 0 float_0). apply near_refl.
  - unfold fget_rho. apply near_round. apply near_eq with (1 / (1 / r)); [|field; exact N]. replace 1%nat with (0 + 1)%nat by lia. apply near_div; [apply near_refl|apply near_fl].
Qed.
Lemma near_norm v : near 4 (fnorm v) (vnorm v).
Proof.
  unfold fnorm, vnorm, vnorm2. pose proof (near_fl (vx v * vx v)) as A. pose proof (near_fl (vy v * vy v)) as B. pose proof (near_fl (vz v * vz v)) as D.
  pose proof (near_round _ _ _ (near_plus 1 _ _ _ _ (sq_nonneg _) (sq_nonneg _) A B)) as S1.
  assert (P : 0 <= vx v * vx v + vy v * vy v) by (apply Rplus_le_le_0_compat; apply sq_nonneg).
  pose proof (near_round _ _ _ (near_plus 2 _ _ _ _ P (sq_nonneg _) S1 (near_weaken 1 2 _ _ ltac:(lia) D))) as S2.
  apply (near_round 3). apply near_sqrt; [apply Rplus_le_le_0_compat; [exact P|apply sq_nonneg]|]. apply (near_weaken 3); [lia|exact S2].
Qed.
Lemma vnear_norm k a b : vnear k a b -> near k (vnorm a) (vnorm b).
Proof.
  intros (X & Y & Z). unfold vnorm, vnorm2. apply near_sqrt; [repeat apply Rplus_le_le_0_compat; apply sq_nonneg|].
  replace (2 * k)%nat with (k + k)%nat by lia. apply near_plus; [apply Rplus_le_le_0_compat; apply sq_nonneg|apply sq_nonneg| |apply near_mult; exact Z].
  apply near_plus; [apply sq_nonneg|apply sq_nonneg|apply near_mult; exact X|apply near_mult; exact Y].
Qed.
Lemma near_orient v : vnear 5 (forient v) (vdiv v (vnorm v)).
Proof. apply (vnear_div 0 4); [repeat split; apply near_refl|apply near_norm]. Qed.
Lemma unit_norm v : v <> V3 0 0 0 -> vnorm (vdiv v (vnorm v)) = 1.
Proof.
  intros N. assert (P : 0 < vnorm2 v).
  { destruct v as [x y z]. unfold vnorm2. cbn [vx vy vz]. pose proof (sq_nonneg x). pose proof (sq_nonneg y). pose proof (sq_nonneg z).
    destruct (Req_dec x 0) as [->|X]; [|assert (0 < x * x) by nra; lra]. destruct (Req_dec y 0) as [->|Y]; [|assert (0 < y * y) by nra; lra]. destruct (Req_dec z 0) as [->|Z]; [|assert (0 < z * z) by nra; lra]. contradiction. }
  assert (Q : vnorm v * vnorm v = vnorm2 v) by (unfold vnorm; apply sqrt_sqrt; lra). assert (NZ : 0 < vnorm v) by (unfold vnorm; apply sqrt_lt_R0, P).
  unfold vnorm at 1. rewrite <- sqrt_1. f_equal. unfold vnorm2 in Q |- *. unfold vdiv. cbn [vx vy vz]. set (n := vnorm v) in *.
  replace (vx v / n * (vx v / n) + vy v / n * (vy v / n) + vz v / n * (vz v / n)) with ((vx v * vx v + vy v * vy v + vz v * vz v) / (n * n)) by (field; lra). rewrite Q. field. nra.
Qed.
Lemma near_mass pow radius value : good_pow pow -> 0 < radius -> near 28 (fgs_mass pow radius (fset_mass pow radius value)) value.
Proof.
  intros H P. pose proof (pow_near pow radius 3 H) as Q. assert (0 < radius ^ 3) by (apply pow_lt; lra). pose proof PI_RGT_0.
  assert (A : near (S (1 + (S (S (0 + 1) + 9)))) (fset_mass pow radius value) (value * 3 / (4 * PI * radius ^ 3))).
  { apply near_round, near_div; [apply near_fl|]. apply near_round, near_mult; [|exact Q]. apply near_round, near_mult; [apply near_refl|apply near_pi]. }
  assert (E : near (S (S (S (1 + 1) + 9) + S (1 + (S (S (0 + 1) + 9))))) (fgs_mass pow radius (fset_mass pow radius value)) (4 / 3 * PI * radius ^ 3 * (value * 3 / (4 * PI * radius ^ 3)))).
  { unfold fgs_mass. apply near_round, near_mult; [|exact A]. apply near_round, near_mult; [|exact Q]. apply near_round, near_mult; [apply near_fl|apply near_pi]. }
  assert (V : 4 / 3 * PI * radius ^ 3 * (value * 3 / (4 * PI * radius ^ 3)) = value) by (field; repeat split; lra).
  rewrite V in E. cbn [Nat.add] in E. apply (near_weaken _ 28) in E; [exact E|lia].
Qed.
Lemma near_omega f : near 3 (fomega f) (omega f).
Proof. unfold fomega, omega. apply near_round. replace 2%nat with (2 + 0)%nat by lia. apply near_mult; [|apply near_refl]. apply near_round. replace 1%nat with (0 + 1)%nat by lia. apply near_mult; [apply near_refl|apply near_pi]. Qed.
Lemma near_skin_qs f sg mu ep q : truth q = true -> 0 < f -> 0 < sg -> 0 < mu -> near 4 (fskin_qs f sg mu) (skin_depth f sg mu ep q).
Proof.
  intros TQ F S M. unfold skin_depth. rewrite TQ. cbv zeta. unfold fskin_qs. apply near_round. pose proof PI_RGT_0.
  assert (0 < omega f) by (unfold omega; apply Rmult_lt_0_compat; lra).
  apply near_sqrt; [left; apply Rdiv_lt_0_compat; [lra|]; apply Rmult_lt_0_compat; [apply Rmult_lt_0_compat|]; assumption|].
  change (2 * 3)%nat with 6%nat. apply near_round. replace 5%nat with (0 + 5)%nat by lia. apply near_div; [apply near_refl|]. apply near_round. replace 4%nat with (4 + 0)%nat by lia.
  apply near_mult; [|apply near_refl]. apply near_round. replace 3%nat with (3 + 0)%nat by lia. apply near_mult; [apply near_omega|apply near_refl].
Qed.
Lemma near_peak pow z sg mu : good_pow pow -> near 12 (fpeak_time pow z sg mu) (peak_time z sg mu).
Proof.
  intros H. unfold fpeak_time, peak_time. apply near_round. replace 11%nat with (11 + 0)%nat by lia. apply near_div; [|apply near_refl]. apply near_round.
  replace 10%nat with (1 + 9)%nat by lia. apply near_mult; [apply near_fl|apply pow_near, H].
Qed.
Lemma near_diffusion t sg mu : 0 < t -> 0 < sg -> 0 < mu -> near 3 (fdiffusion_distance t sg mu) (diffusion_distance t sg mu).
Proof.
  intros T S M. unfold fdiffusion_distance, diffusion_distance. apply near_round. apply near_sqrt; [left; apply Rdiv_lt_0_compat; [lra|apply Rmult_lt_0_compat; assumption]|].
  apply (near_weaken 3); [lia|]. apply near_round. replace 2%nat with (1 + 1)%nat by lia. apply near_div; apply near_fl.
Qed.
Lemma near_theta t sg mu : 0 < t -> 0 < sg -> 0 < mu -> near 3 (ftheta t sg mu) (theta t sg mu).
Proof.
  intros T S M. unfold ftheta, theta. apply near_round. apply near_sqrt; [left; apply Rdiv_lt_0_compat; [apply Rmult_lt_0_compat; assumption|lra]|].
  apply (near_weaken 3); [lia|]. apply near_round. replace 2%nat with (1 + 1)%nat by lia. apply near_div; apply near_fl.
Qed.

(** ** the skin depth with displacement currents, in a poor conductor *)
Lemma skin_lost pow f sg mu ep q : good_pow pow -> truth q = false -> 0 < f -> 0 < sg -> 0 < mu -> 0 < ep -> 2 ^ 28 * sg <= omega f * ep ->
  fskin pow f sg mu ep = 0 /\ 0 < skin_depth f sg mu ep q.
Proof.
  intros H TQ F S M P L. pose proof PI_RGT_0. assert (W : 0 < omega f) by (unfold omega; apply Rmult_lt_0_compat; lra). assert (WE : 0 < omega f * ep) by (apply Rmult_lt_0_compat; assumption).
  split.
  - unfold fskin. cbv zeta. set (qq := fl (pow sg 2%nat / pow (fl (fomega f * ep)) 2%nat)).
    assert (N : near 27 qq (sg ^ 2 / (omega f * ep) ^ 2)).
    { unfold qq. apply near_round. replace 26%nat with (9 + 17)%nat by lia. apply near_div; [apply pow_near, H|].
      replace 17%nat with (9 + (4 + 4))%nat by lia. eapply near_trans; [apply pow_near, H|]. replace ((omega f * ep) ^ 2) with ((omega f * ep) * (omega f * ep)) by ring. replace (fl (fomega f * ep) ^ 2) with (fl (fomega f * ep) * fl (fomega f * ep)) by ring.
      assert (X : near 4 (fl (fomega f * ep)) (omega f * ep)). { apply near_round. replace 3%nat with (3 + 0)%nat by lia. apply near_mult; [apply near_omega|apply near_refl]. }
      apply near_mult; exact X. }
    assert (Q0 : 0 <= sg ^ 2 / (omega f * ep) ^ 2 <= / 2 ^ 56).
    { assert (0 < (omega f * ep) ^ 2) by (apply pow_lt; exact WE). split; [left; apply Rdiv_lt_0_compat; [apply pow_lt; exact S|assumption]|].
      apply Rmult_le_reg_r with ((omega f * ep) ^ 2); [assumption|]. unfold Rdiv. rewrite Rmult_assoc, Rinv_l by lra. set (wd := omega f * ep) in *.
      assert ((2 ^ 28 * sg) * (2 ^ 28 * sg) <= wd * wd) by (apply Rmult_le_compat; lra). replace (wd ^ 2) with (wd * wd) by ring. replace (sg ^ 2) with (sg * sg) by ring. lra. }
    apply near_low in N; [|lia|apply Q0]. assert (A : fl (1 + qq) = 1) by (apply absorb; [apply float_one|lra|lra]).
    rewrite A, sqrt_1, (fl_id 1 float_one), Rminus_diag_eq by reflexivity. rewrite (fl_id 0 float_0), Rmult_0_r, (fl_id 0 float_0), sqrt_0, (fl_id 0 float_0). unfold Rdiv. rewrite Rmult_0_l. apply fl_id, float_0.
  - unfold skin_depth. rewrite TQ. cbv zeta. apply Rdiv_lt_0_compat; [|exact W]. apply sqrt_lt_R0. apply Rmult_lt_0_compat; [apply Rdiv_lt_0_compat; [apply Rmult_lt_0_compat; assumption|lra]|].
    assert (0 < sg ^ 2 / (omega f * ep) ^ 2) by (apply Rdiv_lt_0_compat; apply pow_lt; assumption). assert (sqrt 1 < sqrt (1 + sg ^ 2 / (omega f * ep) ^ 2)) by (apply sqrt_lt_1; lra). rewrite sqrt_1 in H2. lra.
Qed.
Lemma set_rho_pos r : 0 < r -> fset_rho r = Ok (fl (1 / r)).
Proof.
  intros P. unfold fset_rho, fset_sigma. destruct (Req_EM_T r 0) as [E|_]; [lra|]. pose proof (fl_recip_pos r P). destruct (Rle_dec (fl (1 / r)) 0) as [E|_]; [lra|reflexivity].
Qed.
