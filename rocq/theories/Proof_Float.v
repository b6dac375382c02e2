(** Rounding error algebra. *)
From Coq Require Import ZArith Reals Lra Lia Psatz.
From Flocq Require Import Core.
From Flocq Require Import Relative.
From Verif Require Import Vec3 Model_Gravity Model_Float Spec_Float.
Open Scope R_scope.

Definition u : R := / 2 ^ 53.
Lemma u_pos : 0 < u. Proof. unfold u. apply Rinv_0_lt_compat. lra. Qed.
Lemma u_small : u <= / 1000000. Proof. unfold u. apply Rinv_le_contravar; lra. Qed.
Definition w : R := 1 - u.
Lemma w_pos : 0 < w. Proof. unfold w. pose proof u_small. lra. Qed.
Lemma w_lt : w < 1. Proof. unfold w. pose proof u_pos. lra. Qed.
Lemma wk_pos k : 0 < w ^ k. Proof. apply pow_lt, w_pos. Qed.
Lemma wk_le1 k : w ^ k <= 1. Proof. replace 1 with (1 ^ k) by apply pow1. apply pow_incr. pose proof w_pos; pose proof w_lt; lra. Qed.
Lemma wk_mono j k : (j <= k)%nat -> w ^ k <= w ^ j.
Proof. intros L. replace k with (j + (k - j))%nat by lia. rewrite pow_add. pose proof (wk_pos j). pose proof (wk_le1 (k - j)). nra. Qed.

(** [near k a b]: a is b up to k roundings *)
Definition near (k : nat) (a b : R) : Prop := exists d, a = b * d /\ w ^ k <= d <= / w ^ k.

Lemma near_refl k a : near k a a.
Proof. exists 1. split; [ring|]. split; [apply wk_le1|]. rewrite <- Rinv_1. apply Rinv_le_contravar; [apply wk_pos|apply wk_le1]. Qed.
Lemma near_weaken j k a b : (j <= k)%nat -> near j a b -> near k a b.
Proof. intros L (d & E & A & B). exists d. split; [exact E|]. pose proof (wk_mono j k L). pose proof (wk_pos k). split; [lra|]. eapply Rle_trans; [exact B|]. apply Rinv_le_contravar; lra. Qed.
Lemma near_trans j k a b c : near j a b -> near k b c -> near (j + k) a c.
Proof.
  intros (d & -> & A & B) (e & -> & D & F). exists (e * d). split; [ring|]. rewrite pow_add, Rinv_mult.
  pose proof (wk_pos j). pose proof (wk_pos k). split.
  - rewrite (Rmult_comm e d). apply Rmult_le_compat; lra.
  - rewrite (Rmult_comm e d). apply Rmult_le_compat; lra.
Qed.
Lemma near_mult j k a b c d : near j a b -> near k c d -> near (j + k) (a * c) (b * d).
Proof.
  intros (x & -> & A & B) (y & -> & D & F). exists (x * y). split; [ring|]. rewrite pow_add, Rinv_mult.
  pose proof (wk_pos j). pose proof (wk_pos k). split; apply Rmult_le_compat; lra.
Qed.
Lemma near_inv k a b : near k a b -> near k (/ a) (/ b).
Proof.
  intros (x & -> & A & B). exists (/ x). pose proof (wk_pos k). split; [apply Rinv_mult|]. split.
  - rewrite <- (Rinv_inv (w ^ k)). apply Rinv_le_contravar; lra.
  - apply Rinv_le_contravar; lra.
Qed.
Lemma near_div j k a b c d : near j a b -> near k c d -> near (j + k) (a / c) (b / d).
Proof. intros A B. apply near_mult; [exact A|]. apply near_inv, B. Qed.
Lemma near_opp k a b : near k a b -> near k (- a) (- b).
Proof. intros (x & -> & A). exists x. split; [ring|exact A]. Qed.
Lemma near_sqrt k a b : 0 <= b -> near (2 * k) a b -> near k (sqrt a) (sqrt b).
Proof.
  intros P (x & -> & A & B). exists (sqrt x). pose proof (wk_pos (2 * k)). pose proof (wk_pos k).
  assert (X : 0 <= x) by lra. split; [apply sqrt_mult; assumption|].
  assert (E : w ^ (2 * k) = w ^ k * w ^ k) by (replace (2 * k)%nat with (k + k)%nat by lia; apply pow_add).
  split.
  - rewrite <- (sqrt_square (w ^ k)) by lra. apply sqrt_le_1_alt. rewrite <- E. exact A.
  - rewrite <- (sqrt_square (/ w ^ k)) by (left; apply Rinv_0_lt_compat; lra). apply sqrt_le_1_alt. rewrite <- Rinv_mult, <- E. exact B.
Qed.
(** sums of numbers of one sign *)
Lemma near_plus k a b c d : 0 <= b -> 0 <= d -> near k a b -> near k c d -> near k (a + c) (b + d).
Proof.
  intros P Q (x & -> & A & B) (y & -> & D & F). pose proof (wk_pos k).
  destruct (Req_dec (b + d) 0) as [Z|N].
  - assert (b = 0) by lra. assert (d = 0) by lra. subst b d. exists 1. split; [ring|]. split; [apply wk_le1|].
    rewrite <- Rinv_1. apply Rinv_le_contravar; [apply wk_pos|apply wk_le1].
  - exists ((b * x + d * y) / (b + d)). split; [field; exact N|].
    assert (0 < b + d) by lra. split.
    + apply Rmult_le_reg_r with (b + d); [lra|]. replace ((b * x + d * y) / (b + d) * (b + d)) with (b * x + d * y) by (field; exact N). nra.
    + apply Rmult_le_reg_r with (b + d); [lra|]. replace ((b * x + d * y) / (b + d) * (b + d)) with (b * x + d * y) by (field; exact N). nra.
Qed.
Lemma near_pos k a b : near k a b -> 0 < b -> 0 < a.
Proof. intros (x & -> & A & B) P. pose proof (wk_pos k). apply Rmult_lt_0_compat; lra. Qed.
Lemma near_nonneg k a b : near k a b -> 0 <= b -> 0 <= a.
Proof. intros (x & -> & A & B) P. pose proof (wk_pos k). apply Rmult_le_pos; lra. Qed.

(** one rounding *)
Lemma near_fl x : near 1 (fl x) x.
Proof.
  destruct (relative_error_N_FLX_ex radix2 53 ltac:(lia) (fun z => negb (Z.even z)) x) as (e & A & B).
  unfold fl, fexp53. rewrite B. exists (1 + e). split; [reflexivity|]. rewrite pow_1.
  assert (U : / 2 * bpow radix2 (- (53) + 1) = u).
  { unfold u. change (bpow radix2 (- (53) + 1)) with (/ IZR (2 ^ 52)). rewrite <- Rinv_mult. f_equal. cbn [Z.pow Z.pow_pos Pos.iter Z.mul Pos.mul]. lra. }
  rewrite U in A. apply Rabs_le_inv in A. unfold w. pose proof u_pos. pose proof u_small. split; [lra|].
  apply Rmult_le_reg_r with (1 - u); [lra|]. rewrite Rinv_l by lra. nra.
Qed.
Lemma near_round k a b : near k a b -> near (S k) (fl a) b.
Proof. intros H. replace (S k) with (1 + k)%nat by lia. eapply near_trans; [apply near_fl|exact H]. Qed.

(** the error in units of 2^-53 *)
Lemma bernoulli k : 1 - INR k * u <= w ^ k.
Proof.
  induction k; [cbn; lra|]. rewrite S_INR. cbn [pow]. unfold w at 1. pose proof u_pos. pose proof (wk_le1 k). nra.
Qed.
Lemma near_within k a b : (k <= 500)%nat -> near k a b -> within (INR k + 1) a b.
Proof.
  intros L (d & -> & A & B). unfold within. fold u. replace (b * d - b) with ((d - 1) * b) by ring. rewrite Rabs_mult.
  apply Rmult_le_compat_r; [apply Rabs_pos|].
  pose proof (bernoulli k) as K. pose proof u_pos as U. pose proof u_small as U'. pose proof (pos_INR k) as P.
  assert (Q : INR k <= 500) by (replace 500 with (INR 500) by (cbn; lra); apply le_INR; exact L).
  apply Rabs_le. split; [nra|].
  assert (/ w ^ k <= / (1 - INR k * u)) by (apply Rinv_le_contravar; nra).
  assert (/ (1 - INR k * u) <= 1 + (INR k + 1) * u); [|lra].
  apply Rmult_le_reg_r with (1 - INR k * u); [nra|]. rewrite Rinv_l by nra.
  assert (INR k * (INR k + 1) * u <= 1) by (assert (INR k * (INR k + 1) <= 251000) by nra; nra). nra.
Qed.
Lemma within_near n k a b : 0 <= n -> n <= INR k -> n <= 500 -> within n a b -> near (S k) a b.
Proof.
  intros P Q L H. unfold within in H. fold u in H. pose proof u_pos as U. pose proof u_small as U'.
  destruct (Req_dec b 0) as [->|N].
  - rewrite Rabs_R0, Rmult_0_r in H. assert (a = 0) by (destruct (Req_dec a 0); [assumption|]; assert (0 < Rabs (a - 0)) by (apply Rabs_pos_lt; lra); lra).
    subst a. apply near_refl.
  - exists (a / b). split; [field; exact N|].
    assert (D : Rabs (a / b - 1) <= n * u).
    { replace (a / b - 1) with ((a - b) / b) by (field; exact N). unfold Rdiv. rewrite Rabs_mult, Rabs_inv.
      apply Rmult_le_reg_r with (Rabs b); [apply Rabs_pos_lt, N|]. rewrite Rmult_assoc, Rinv_l by (apply Rabs_no_R0, N). lra. }
    apply Rabs_le_inv in D.
    assert (W : w ^ S k <= 1 - n * u).
    { destruct (Rle_dec 1 n) as [G|G].
      - (* w^(k+1) <= 1/(1+ (k+1) u) *)
        assert (B : forall j, w ^ j * (1 + INR j * u) <= 1).
        { induction j; [cbn; lra|]. rewrite S_INR. cbn [pow]. pose proof (wk_pos j). pose proof (pos_INR j).
          apply Rle_trans with (w ^ j * (1 + INR j * u)); [|exact IHj]. unfold w at 1. assert (0 <= INR j * u) by nra. assert (0 <= INR j * u * u) by nra. nra. }
        specialize (B (S k)). rewrite S_INR in B. pose proof (pos_INR k).
        apply Rmult_le_reg_r with (1 + (n + 1) * u); [nra|].
        apply Rle_trans with 1; [|].
        + apply Rle_trans with (w ^ S k * (1 + (INR k + 1) * u)); [|exact B]. apply Rmult_le_compat_l; [left; apply wk_pos|]. nra.
        + assert (n * (n + 1) * u <= 1) by (assert (n * (n + 1) <= 251000) by nra; nra). nra.
      - destruct k; [cbn in Q; assert (n = 0) by lra; subst n; pose proof (wk_le1 1); lra|].
        apply Rle_trans with (w ^ 1); [apply wk_mono; lia|]. rewrite pow_1. unfold w. nra. }
    split; [lra|].
    apply Rle_trans with (1 + n * u); [lra|]. pose proof (wk_pos (S k)).
    apply Rle_trans with (/ (1 - n * u)); [|apply Rinv_le_contravar; [lra|exact W]].
    apply Rmult_le_reg_r with (1 - n * u); [nra|]. rewrite Rinv_l by nra. nra.
Qed.
