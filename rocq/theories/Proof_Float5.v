(** The central-loop transients in floating point: late times (C131). *)
From Coq Require Import ZArith Reals Lra Lia Psatz.
From Flocq Require Import Core.
From Coquelicot Require Import Coquelicot.
From Verif Require Import Vec3 Calculus Deriv SpecFun Proof_Static2 Proof_TDEM Model_TDEM Proof_TDEM3 Proof_TDEM4 Model_Float Model_Float2 Spec_Float Spec_Float2 Proof_Float Proof_Float2 Proof_Float3.
From Verif Require Import Model_Oksar Proof_Oksar4.
Open Scope R_scope.

(** ** two floats that are not equal *)
Lemma float_grid A e : float A -> bpow radix2 e <= A -> exists m : Z, A = IZR m * bpow radix2 (e - 52).
Proof.
  intros F L. unfold float, generic_format in F. unfold F2R in F; cbn [Fnum Fexp] in F.
  set (c := cexp radix2 fexp53 A) in *. set (m := Ztrunc (scaled_mantissa radix2 fexp53 A)) in *.
  assert (C : (e - 52 <= c)%Z).
  { unfold c, cexp, fexp53, FLX_exp. assert ((e + 1 <= mag radix2 A)%Z); [|lia].
    apply mag_ge_bpow. replace (e + 1 - 1)%Z with e by lia. pose proof (bpow_gt_0 radix2 e). rewrite Rabs_pos_eq by lra. exact L. }
  exists (m * Z.pow 2 (c - (e - 52)))%Z. rewrite F. rewrite mult_IZR, Rmult_assoc. f_equal.
  replace (IZR (2 ^ (c - (e - 52)))) with (bpow radix2 (c - (e - 52))).
  - rewrite <- bpow_plus. f_equal. lia.
  - rewrite <- IZR_Zpower by lia. reflexivity.
Qed.
Lemma float_gap A B b : float A -> float B -> 0 < b -> b <= A -> b <= B -> A - B = 0 \/ b * / 2 ^ 53 <= Rabs (A - B).
Proof.
  intros FA FB P LA LB. destruct (binade b P) as (e & E1 & E2).
  destruct (float_grid A e FA ltac:(lra)) as (m & EA). destruct (float_grid B e FB ltac:(lra)) as (m' & EB).
  pose proof (bpow_gt_0 radix2 (e - 52)) as G. rewrite EA, EB. replace (IZR m * _ - _) with (IZR (m - m') * bpow radix2 (e - 52)) by (rewrite minus_IZR; ring).
  destruct (Z.eq_dec (m - m') 0) as [Z|N]; [left; rewrite Z; ring|right].
  rewrite Rabs_mult, (Rabs_pos_eq (bpow _ _)) by lra. assert (1 <= Rabs (IZR (m - m'))) by (rewrite <- abs_IZR; apply IZR_le; lia).
  assert (Q : bpow radix2 (e - 52) = bpow radix2 (e + 1) * / 2 ^ 53).
  { rewrite <- bpow_53, <- bpow_plus. f_equal. lia. }
  assert (b * / 2 ^ 53 <= bpow radix2 (e - 52)).
  { rewrite Q. apply Rmult_le_compat_r; [left; apply Rinv_0_lt_compat; lra|lra]. }
  nra.
Qed.

(** ** the factor of a few roundings *)
Lemma near_low k a b : (k <= 500)%nat -> 0 <= b -> near k a b -> 999 / 1000 * b <= a <= 1001 / 1000 * b.
Proof.
  intros L P H. apply near_within in H; [|exact L]. unfold within in H. fold u in H. rewrite (Rabs_pos_eq b) in H by exact P.
  pose proof u_small. pose proof u_pos. pose proof (pos_INR k). assert (INR k <= 500) by (replace 500 with (INR 500) by (cbn; lra); apply le_INR; exact L).
  apply Rabs_le_inv in H. assert ((INR k + 1) * u <= 1 / 1000) by nra. nra.
Qed.
Lemma near_abs k a b : (k <= 500)%nat -> near k a b -> 999 / 1000 * Rabs b <= Rabs a <= 1001 / 1000 * Rabs b.
Proof.
  intros L (d & -> & A). rewrite Rabs_mult. pose proof (wk_pos k). rewrite (Rabs_pos_eq d) by lra.
  apply near_low with k; [exact L|apply Rabs_pos|]. exists d. split; [reflexivity|exact A].
Qed.

(** ** the error function *)
Lemma erf_le x y : 0 < x -> x <= y -> erf x <= erf y.
Proof.
  intros P [L|<-]; [|lra]. left. apply (incr_from erf (fun x => 2 / sqrt PI * exp (- x ^ 2))); [exact L|intros; apply D_erf|].
  intros. pose proof sqrt_PI_pos. apply Rmult_lt_0_compat; [apply Rdiv_lt_0_compat; lra|apply exp_pos].
Qed.
Lemma erf_star x y : 0 < x -> x <= y -> x * erf y <= y * erf x.
Proof.
  intros P [L|<-]; [|lra].
  assert (X : - (erf x / x) <= - (erf y / y)).
  { apply (le_from (fun s => - (erf s / s)) (fun s => ploop s / s ^ 2)); [exact L| |].
    - intros s Hs. pose proof (D_erf s) as D. pose proof sqrt_PI_pos. eapply is_derive_eq; [der; lra|]. unfold ploop. field. split; lra.
    - intros s Hs. pose proof (ploop_pos s ltac:(lra)). apply Rmult_le_pos; [lra|]. left. apply Rinv_0_lt_compat, pow_lt. lra. }
  apply Rmult_le_reg_r with (/ (x * y)); [apply Rinv_0_lt_compat, Rmult_lt_0_compat; lra|].
  replace (x * erf y * / (x * y)) with (erf y / y) by (field; lra). replace (y * erf x * / (x * y)) with (erf x / x) by (field; lra). lra.
Qed.
Lemma near_erf k a x : 0 < x -> near k a x -> near k (erf a) (erf x).
Proof.
  intros P (d & -> & A & B). pose proof (wk_pos k) as W. pose proof (wk_le1 k) as W1. pose proof (erf_pos x P) as E. assert (D : 0 < d) by lra.
  assert (W2 : 1 <= / w ^ k) by (rewrite <- Rinv_1; apply Rinv_le_contravar; lra).
  assert (XD : 0 < x * d) by (apply Rmult_lt_0_compat; assumption).
  exists (erf (x * d) / erf x). split; [field; lra|].
  assert (G : forall c z, c * erf x <= z -> c <= z / erf x) by (intros; apply Rmult_le_reg_r with (erf x); [lra|]; replace (z / erf x * erf x) with z by (field; lra); lra).
  assert (G' : forall c z, z <= c * erf x -> z / erf x <= c) by (intros; apply Rmult_le_reg_r with (erf x); [lra|]; replace (z / erf x * erf x) with z by (field; lra); lra).
  destruct (Rle_dec d 1) as [L|L].
  - pose proof (erf_star (x * d) x XD ltac:(nra)) as S. pose proof (erf_le (x * d) x XD ltac:(nra)).
    assert (d * erf x <= erf (x * d)) by (apply Rmult_le_reg_l with x; [exact P|lra]). split; [apply G|apply G']; nra.
  - pose proof (erf_star x (x * d) P ltac:(nra)) as S. pose proof (erf_le x (x * d) P ltac:(nra)).
    assert (erf (x * d) <= d * erf x) by (apply Rmult_le_reg_l with x; [exact P|lra]). split; [apply G|apply G']; nra.
Qed.
Lemma erf_low x : 0 < x -> 2 / sqrt PI * x * exp (- x ^ 2) <= erf x.
Proof. intros P. pose proof (ploop_pos x P) as H. unfold ploop in H. pose proof sqrt_PI_pos. replace (2 / sqrt PI * x) with (2 * x / sqrt PI) by (field; lra). lra. Qed.
Lemma nloop_late s : 0 < s -> nloop s <= 8 / (5 * sqrt PI) * s ^ 5.
Proof.
  intros H. pose proof sqrt_PI_pos.
  assert (X : 8 / (5 * sqrt PI) * 0 ^ 5 - nloop 0 <= 8 / (5 * sqrt PI) * s ^ 5 - nloop s).
  { apply (le_from (fun s => 8 / (5 * sqrt PI) * s ^ 5 - nloop s) (fun s => 8 * s ^ 4 / sqrt PI * (1 - exp (- s ^ 2)))); [exact H| |].
    - intros x _. pose proof (D_erf x) as D. unfold nloop. eapply is_derive_eq; [der; lra|]. absf. field. lra.
    - intros x Hx. pose proof (exp_sq_le1 x). apply Rmult_le_pos; [|lra]. apply Rle_mult_inv_pos; [|lra]. assert (0 < x ^ 4) by (apply pow_lt; lra). lra. }
  replace (nloop 0) with 0 in X by (unfold nloop; rewrite erf_0; unfold Rdiv; ring). replace (8 / (5 * sqrt PI) * 0 ^ 5) with 0 in X by (field; lra). lra.
Qed.
Lemma root_pi : 17 / 10 < sqrt PI < 9 / 5.
Proof.
  destruct C91_constants_lemma as [H _]. apply Rabs_le_inv in H. unfold PI2 in H. split.
  - rewrite <- (sqrt_square (17 / 10)) by lra. apply sqrt_lt_1_alt. lra.
  - rewrite <- (sqrt_square (9 / 5)) by lra. apply sqrt_lt_1_alt. lra.
Qed.
