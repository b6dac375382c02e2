(** The prism kernels in floating point (C108). *)
From Coq Require Import ZArith Reals Lra Lia Psatz.
From Flocq Require Import Core.
From Verif Require Import Vec3 Numpy Model_Prism Model_Float Spec_Float Proof_Float.
Open Scope R_scope.

#[local] Instance fexp53_valid : Valid_exp fexp53.
Proof. apply FLX_exp_valid. unfold Prec_gt_0. lia. Qed.

Lemma fl_mono a b : a <= b -> fl a <= fl b. Proof. apply round_le; typeclasses eauto. Qed.
Lemma fl_float x : float (fl x). Proof. apply generic_format_round; typeclasses eauto. Qed.
Lemma fl_id x : float x -> fl x = x. Proof. apply round_generic; typeclasses eauto. Qed.
Lemma float_0 : float 0. Proof. apply generic_format_0. Qed.
Lemma float_opp x : float x -> float (- x). Proof. apply generic_format_opp. Qed.
Lemma float_bpow e : float (bpow radix2 e). Proof. apply generic_format_bpow. unfold fexp53, FLX_exp. lia. Qed.
Lemma fl_nonneg x : 0 <= x -> 0 <= fl x. Proof. intros H. rewrite <- (fl_id 0 float_0). apply fl_mono, H. Qed.
Lemma fl_scale x e : fl (x * bpow radix2 e) = fl x * bpow radix2 e.
Proof.
  destruct (Req_dec x 0) as [->|N]; [rewrite Rmult_0_l, (fl_id 0 float_0); ring|].
  unfold fl, round, F2R, scaled_mantissa, cexp. cbn [Fnum Fexp]. rewrite mag_mult_bpow by exact N. unfold fexp53, FLX_exp.
  replace (x * bpow radix2 e * bpow radix2 (- (mag radix2 x + e - 53))) with (x * bpow radix2 (- (mag radix2 x - 53))).
  - rewrite Rmult_assoc, <- bpow_plus. do 2 f_equal. lia.
  - rewrite Rmult_assoc, <- bpow_plus. do 2 f_equal. lia.
Qed.

(** in one binade, a number closer than half a spacing to a floating point number rounds to it *)
Lemma fl_close e y t : float y -> bpow radix2 e <= y < bpow radix2 (e + 1) -> bpow radix2 e <= t < bpow radix2 (e + 1) ->
  Rabs (t - y) < bpow radix2 (e - 53) -> fl t = y.
Proof.
  intros F Y T D.
  assert (MY : mag radix2 y = (e + 1)%Z :> Z) by (apply mag_unique_pos; replace (e + 1 - 1)%Z with e by lia; exact Y).
  assert (MT : mag radix2 t = (e + 1)%Z :> Z) by (apply mag_unique_pos; replace (e + 1 - 1)%Z with e by lia; exact T).
  unfold fl, round, scaled_mantissa, cexp. rewrite MT.
  unfold float, generic_format in F. unfold scaled_mantissa, cexp in F. rewrite MY in F.
  set (c := fexp53 (e + 1)) in *. assert (Ec : c = (e - 52)%Z) by (unfold c, fexp53, FLX_exp; lia).
  set (m := Ztrunc (y * bpow radix2 (- c))) in *.
  assert (I : bpow radix2 c * bpow radix2 (- c) = 1) by (rewrite <- bpow_plus; replace (c + - c)%Z with 0%Z by lia; reflexivity).
  assert (Q : Znearest (fun x => negb (Z.even x)) (t * bpow radix2 (- c)) = m).
  { apply Znearest_imp. assert (E : IZR m = y * bpow radix2 (- c)) by (rewrite F; unfold F2R; cbn [Fnum Fexp]; rewrite Rmult_assoc, I; ring).
    rewrite E. replace (t * bpow radix2 (- c) - y * bpow radix2 (- c)) with ((t - y) * bpow radix2 (- c)) by ring.
    rewrite Rabs_mult, (Rabs_pos_eq (bpow _ _)) by apply bpow_ge_0.
    apply Rlt_le_trans with (bpow radix2 (e - 53) * bpow radix2 (- c)); [apply Rmult_lt_compat_r; [apply bpow_gt_0|exact D]|].
    rewrite <- bpow_plus. replace (e - 53 + - c)%Z with (-1)%Z by lia. cbn. lra. }
  rewrite Q. symmetry. exact F.
Qed.
(** the largest number of a binade *)
Lemma float_top e y : float y -> bpow radix2 e <= y < bpow radix2 (e + 1) -> y <= bpow radix2 (e + 1) * (1 - u).
Proof.
  intros F Y.
  assert (MY : mag radix2 y = (e + 1)%Z :> Z) by (apply mag_unique_pos; replace (e + 1 - 1)%Z with e by lia; exact Y).
  unfold float, generic_format in F. unfold scaled_mantissa, cexp in F. rewrite MY in F.
  set (c := fexp53 (e + 1)) in *. assert (Ec : c = (e - 52)%Z) by (unfold c, fexp53, FLX_exp; lia).
  set (m := Ztrunc (y * bpow radix2 (- c))) in *. unfold F2R in F. cbn [Fnum Fexp] in F.
  assert (B : bpow radix2 (e + 1) = IZR (2 ^ 53) * bpow radix2 c).
  { replace (IZR (2 ^ 53)) with (bpow radix2 53) by reflexivity. rewrite <- bpow_plus. f_equal. lia. }
  pose proof (bpow_gt_0 radix2 c) as P.
  assert (L : (m <= 2 ^ 53 - 1)%Z).
  { assert (m < 2 ^ 53)%Z; [|lia]. apply lt_IZR. apply Rmult_lt_reg_r with (bpow radix2 c); [exact P|]. rewrite <- F, <- B. apply Y. }
  rewrite F, B. apply IZR_le in L. rewrite minus_IZR in L.
  replace (IZR (2 ^ 53) * bpow radix2 c * (1 - u)) with ((IZR (2 ^ 53) - 1) * bpow radix2 c).
  - apply Rmult_le_compat_r; [lra|exact L].
  - unfold u. replace (IZR (2 ^ 53)) with (2 ^ 53) by lra. field.
Qed.
Lemma binade y : 0 < y -> exists e, bpow radix2 e <= y < bpow radix2 (e + 1).
Proof.
  intros P. destruct (mag radix2 y) as [e H]. exists (e - 1)%Z. specialize (H ltac:(lra)). rewrite Rabs_pos_eq in H by lra.
  replace (e - 1 + 1)%Z with e by lia. exact H.
Qed.
Lemma bpow_1 e : bpow radix2 (e + 1) = 2 * bpow radix2 e.
Proof. rewrite bpow_plus. cbn. ring. Qed.

Lemma bpow_53 : bpow radix2 (-53) = / 2 ^ 53.
Proof. cbn [bpow]. f_equal. change (Z.pow_pos radix2 53) with 9007199254740992%Z. lra. Qed.

(** the square root of the rounded square is exact *)
Lemma sqrt_square_pos y : float y -> 0 < y -> fl (sqrt (fl (y * y))) = y.
Proof.
  intros F P. destruct (binade y P) as (e & Y). pose proof (float_top e y F Y) as T. rewrite bpow_1 in T.
  pose proof (bpow_gt_0 radix2 e) as B. pose proof u_pos. pose proof u_small.
  destruct (near_fl (y * y)) as (d & E & D1 & D2). rewrite pow_1 in D1, D2.
  assert (D0 : 0 < d) by (pose proof w_pos; lra).
  set (q := sqrt d). assert (Q0 : 0 < q) by (apply sqrt_lt_R0, D0). assert (QQ : q * q = d) by (apply sqrt_sqrt; lra).
  assert (ES : sqrt (fl (y * y)) = y * q) by (rewrite E, sqrt_mult by nra; rewrite sqrt_square by lra; reflexivity).
  rewrite ES.
  assert (U1 : 2 * (1 - u) * (q - 1) < u).
  { unfold w in D2. assert (d * (1 - u) <= 1) by (apply Rmult_le_reg_r with (/ (1 - u)); [apply Rinv_0_lt_compat; lra|]; rewrite Rmult_assoc, Rinv_r by lra; lra).
    apply Rnot_le_lt. intros N. assert (q * (2 * (1 - u)) >= 2 - u) by lra. assert (q * (2 * (1 - u)) * (q * (2 * (1 - u))) >= (2 - u) * (2 - u)) by nra.
    assert (4 * (1 - u) * (d * (1 - u)) <= 4 * (1 - u)) by nra. nra. }
  assert (U2 : 2 * (1 - u) * (1 - q) < u).
  { unfold w in D1. apply Rnot_le_lt. intros N. assert (q * (2 * (1 - u)) <= 2 - 3 * u) by lra.
    assert (q * (2 * (1 - u)) * (q * (2 * (1 - u))) <= (2 - 3 * u) * (2 - 3 * u)) by (apply Rmult_le_compat; nra). nra. }
  assert (HB : bpow radix2 (e - 53) = bpow radix2 e * u) by (unfold Z.sub; rewrite bpow_plus; f_equal; apply bpow_53).
  assert (C1 : y * (q - 1) < bpow radix2 e * u).
  { destruct (Rle_dec q 1); [nra|]. apply Rle_lt_trans with (2 * bpow radix2 e * (1 - u) * (q - 1)); [apply Rmult_le_compat_r; lra|]. nra. }
  assert (C2 : y * (1 - q) < bpow radix2 e * u).
  { destruct (Rle_dec 1 q); [nra|]. apply Rle_lt_trans with (2 * bpow radix2 e * (1 - u) * (1 - q)); [apply Rmult_le_compat_r; lra|]. nra. }
  apply (fl_close e); [exact F|exact Y| |].
  - split.
    + rewrite <- ES. rewrite <- (sqrt_square (bpow radix2 e)) by lra. apply sqrt_le_1_alt.
      rewrite <- bpow_plus. rewrite <- (fl_id (bpow radix2 (e + e)) (float_bpow _)). apply fl_mono. rewrite bpow_plus. apply Rmult_le_compat; lra.
    + rewrite bpow_1. replace (y * q) with (y + y * (q - 1)) by ring. lra.
  - rewrite HB. replace (y * q - y) with (y * (q - 1)) by ring. unfold Rabs. destruct (Rcase_abs _); lra.
Qed.
Lemma sqrt_square_abs y : float y -> fl (sqrt (fl (y * y))) = Rabs y.
Proof.
  intros F. destruct (Rtotal_order y 0) as [N|[->|N]].
  - rewrite Rabs_left by exact N. replace (y * y) with (- y * - y) by ring. apply sqrt_square_pos; [apply float_opp, F|lra].
  - rewrite Rmult_0_l, Rabs_R0, (fl_id 0 float_0), sqrt_0. apply (fl_id 0 float_0).
  - rewrite Rabs_pos_eq by lra. apply sqrt_square_pos; assumption.
Qed.

(** the computed radius is at least every coordinate *)
Lemma fl_ge a b : float b -> b <= a -> b <= fl a. Proof. intros F H. rewrite <- (fl_id b F). apply fl_mono, H. Qed.
Lemma sqr_nonneg x : 0 <= x * x. Proof. nra. Qed.
Lemma fradius_ge_y x y z : float y -> Rabs y <= fradius x y z.
Proof.
  intros F. rewrite <- (sqrt_square_abs y F). unfold fradius. apply fl_mono, sqrt_le_1_alt. apply fl_ge; [apply fl_float|].
  pose proof (fl_nonneg _ (sqr_nonneg x)). pose proof (fl_nonneg _ (sqr_nonneg z)).
  assert (fl (y * y) <= fl (fl (x * x) + fl (y * y))) by (apply fl_ge; [apply fl_float|lra]). lra.
Qed.
Lemma fradius_ge_x x y z : float x -> Rabs x <= fradius x y z.
Proof.
  intros F. rewrite <- (sqrt_square_abs x F). unfold fradius. apply fl_mono, sqrt_le_1_alt. apply fl_ge; [apply fl_float|].
  pose proof (fl_nonneg _ (sqr_nonneg y)). pose proof (fl_nonneg _ (sqr_nonneg z)).
  assert (fl (x * x) <= fl (fl (x * x) + fl (y * y))) by (apply fl_ge; [apply fl_float|lra]). lra.
Qed.

(** a small addend is absorbed *)
Lemma absorb Y d : float Y -> 0 <= d -> d * 2 ^ 54 <= Y -> fl (Y + d) = Y.
Proof.
  intros F D H. destruct (Req_dec Y 0) as [->|N].
  - assert (d = 0) by lra. subst d. rewrite Rplus_0_l. apply fl_id, float_0.
  - assert (P : 0 < Y) by lra. destruct (binade Y P) as (e & B). pose proof (float_top e Y F B) as T. rewrite bpow_1 in *.
    assert (HB : bpow radix2 (e - 53) = bpow radix2 e * / 2 ^ 53) by (unfold Z.sub; rewrite bpow_plus; f_equal; apply bpow_53).
    pose proof (bpow_gt_0 radix2 e). unfold u in T.
    assert (d < bpow radix2 e * / 2 ^ 53) by lra.
    apply (fl_close e); [exact F|rewrite bpow_1; exact B|rewrite bpow_1; lra|].
    rewrite HB. replace (Y + d - Y) with d by ring. rewrite Rabs_pos_eq by lra. lra.
Qed.
Lemma fl_small_square x y : Rabs x * 2 ^ 27 <= Rabs y -> fl (x * x) * 2 ^ 54 <= fl (y * y).
Proof.
  intros H. assert (E : fl (x * x) * bpow radix2 54 = fl (x * x * bpow radix2 54)) by (symmetry; apply fl_scale).
  replace (2 ^ 54) with (bpow radix2 54) by (cbn; lra). rewrite E. apply fl_mono.
  replace (bpow radix2 54) with (2 ^ 27 * 2 ^ 27) by (cbn; lra).
  rewrite <- (Rabs_pos_eq (y * y)) by apply sqr_nonneg. rewrite <- (Rabs_pos_eq (x * x)) by apply sqr_nonneg. rewrite !Rabs_mult.
  replace (Rabs x * Rabs x * (2 ^ 27 * 2 ^ 27)) with ((Rabs x * 2 ^ 27) * (Rabs x * 2 ^ 27)) by ring.
  pose proof (Rabs_pos x). apply Rmult_le_compat; nra.
Qed.
Lemma fradius_near_axis_y x y z : float y -> Rabs x * 2 ^ 27 <= Rabs y -> Rabs z * 2 ^ 27 <= Rabs y -> fradius x y z = Rabs y.
Proof.
  intros F A B. unfold fradius. rewrite (Rplus_comm (fl (x * x))).
  rewrite (absorb (fl (y * y)) (fl (x * x))); [|apply fl_float|apply fl_nonneg, sqr_nonneg|apply fl_small_square, A].
  rewrite (absorb (fl (y * y)) (fl (z * z))); [|apply fl_float|apply fl_nonneg, sqr_nonneg|apply fl_small_square, B].
  apply sqrt_square_abs, F.
Qed.
Lemma fradius_near_axis_x x y z : float x -> Rabs y * 2 ^ 27 <= Rabs x -> Rabs z * 2 ^ 27 <= Rabs x -> fradius x y z = Rabs x.
Proof.
  intros F A B. unfold fradius.
  rewrite (absorb (fl (x * x)) (fl (y * y))); [|apply fl_float|apply fl_nonneg, sqr_nonneg|apply fl_small_square, A].
  rewrite (absorb (fl (x * x)) (fl (z * z))); [|apply fl_float|apply fl_nonneg, sqr_nonneg|apply fl_small_square, B].
  apply sqrt_square_abs, F.
Qed.
Lemma fl_double x : float x -> fl (-2 * x) = -2 * x.
Proof.
  intros F. replace (-2 * x) with (- x * bpow radix2 1) by (cbn; ring). rewrite fl_scale, fl_id by (apply float_opp, F). reflexivity.
Qed.
