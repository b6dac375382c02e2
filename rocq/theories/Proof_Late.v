(** Late times: the leading power of the transients (C125). *)
From Coq Require Import Reals Lra Psatz.
From Coquelicot Require Import Coquelicot.
From Verif Require Import Vec3 Calculus Deriv Integral Model_TDEM SpecFun Proof_TDEM3 Proof_TDEM4 Proof_Limits Proof_Limits3.
Open Scope R_scope.

(** a function with a non-negative derivative and value 0 at 0 *)
Lemma nonneg_from (f df : R -> R) x : 0 <= x -> f 0 = 0 -> (forall s, 0 <= s <= x -> is_derive f s (df s)) -> (forall s, 0 <= s <= x -> 0 <= df s) -> 0 <= f x.
Proof.
  intros Hx F0 D P. destruct (Req_dec x 0) as [->|N]; [lra|].
  destruct (MVT_gen f 0 x df) as (c & Hc & E).
  - intros s Hs. apply D. rewrite Rmin_left, Rmax_right in Hs by lra. lra.
  - intros s Hs. rewrite Rmin_left, Rmax_right in Hs by lra. eapply derive_continuity. apply D. lra.
  - rewrite Rmin_left, Rmax_right in Hc by lra. specialize (P c Hc). rewrite F0 in E. nra.
Qed.
Lemma exp_tay y : 0 <= y -> 1 - y + y ^ 2 / 2 - y ^ 3 / 6 <= exp (- y) <= 1 - y + y ^ 2 / 2.
Proof.
  intros Hy.
  assert (A0 : forall s, 0 <= s -> 0 <= 1 - exp (- s)) by (intros s Hs; destruct (Req_dec s 0) as [->|N]; [rewrite Ropp_0, exp_0; lra|]; pose proof (exp_increasing (- s) 0 ltac:(lra)); rewrite exp_0 in *; lra).
  assert (A1 : forall s, 0 <= s -> 0 <= exp (- s) - (1 - s)).
  { intros s Hs. apply (nonneg_from (fun s => exp (- s) - (1 - s)) (fun s => 1 - exp (- s)) s Hs); [rewrite Ropp_0, exp_0; ring| |].
    - intros u _. auto_derive; [trivial|]. ring.
    - intros u Hu. apply A0. lra. }
  assert (A2 : forall s, 0 <= s -> 0 <= 1 - s + s ^ 2 / 2 - exp (- s)).
  { intros s Hs. apply (nonneg_from (fun s => 1 - s + s ^ 2 / 2 - exp (- s)) (fun s => exp (- s) - (1 - s)) s Hs); [rewrite Ropp_0, exp_0; field| |].
    - intros u _. auto_derive; [trivial|]. field.
    - intros u Hu. apply A1. lra. }
  assert (A3 : 0 <= exp (- y) - (1 - y + y ^ 2 / 2 - y ^ 3 / 6)).
  { apply (nonneg_from (fun s => exp (- s) - (1 - s + s ^ 2 / 2 - s ^ 3 / 6)) (fun s => 1 - s + s ^ 2 / 2 - exp (- s)) y Hy); [rewrite Ropp_0, exp_0; field| |].
    - intros u _. auto_derive; [trivial|]. field.
    - intros u Hu. apply A2. lra. }
  specialize (A2 y Hy). lra.
Qed.
Lemma exp_poly u : 0 < u -> exists h, 0 <= h <= 1 / 6 /\ exp (- u ^ 2) = 1 - u ^ 2 + u ^ 4 / 2 - h * u ^ 6.
Proof.
  intros Hu. destruct (exp_tay (u ^ 2) (pow2_ge_0 u)) as [A B]. pose proof (pow_lt u 6 Hu) as P. exists ((1 - u ^ 2 + u ^ 4 / 2 - exp (- u ^ 2)) / u ^ 6).
  split; [split|].
  - apply Rdiv_le_0_compat; [|exact P]. replace (u ^ 4) with ((u ^ 2) ^ 2) by ring. lra.
  - apply Rle_div_l; [exact P|]. replace (u ^ 4) with ((u ^ 2) ^ 2) by ring. replace (u ^ 6) with ((u ^ 2) ^ 3) by ring. lra.
  - field. lra.
Qed.
Lemma erf_poly u : 0 < u -> exists d, 0 <= d <= 1 / 42 /\ erf u = 2 / sqrt PI * (u - u ^ 3 / 3 + u ^ 5 / 10 - d * u ^ 7).
Proof.
  intros Hu. pose proof sqrt_PI_pos as W. set (w := sqrt PI) in *.
  assert (D : forall s, is_derive (fun s => w / 2 * erf s) s (exp (- s ^ 2))).
  { intros s. eapply is_derive_eq; [apply D_scal, D_erf|]. fold w. field. lra. }
  assert (Hi : 0 <= (u - u ^ 3 / 3 + u ^ 5 / 10) - w / 2 * erf u).
  { apply (nonneg_from (fun s => (s - s ^ 3 / 3 + s ^ 5 / 10) - w / 2 * erf s) (fun s => (1 - s ^ 2 + s ^ 4 / 2) - exp (- s ^ 2)) u); [lra|rewrite erf_0; field| |].
    - intros s _. apply (is_derive_minus (fun s => s - s ^ 3 / 3 + s ^ 5 / 10) (fun s => w / 2 * erf s)); [|apply D]. auto_derive; [trivial|]. field.
    - intros s _. destruct (exp_tay (s ^ 2) (pow2_ge_0 s)) as [_ B]. replace (s ^ 4) with ((s ^ 2) ^ 2) by ring. lra. }
  assert (Lo : 0 <= w / 2 * erf u - (u - u ^ 3 / 3 + u ^ 5 / 10 - u ^ 7 / 42)).
  { apply (nonneg_from (fun s => w / 2 * erf s - (s - s ^ 3 / 3 + s ^ 5 / 10 - s ^ 7 / 42)) (fun s => exp (- s ^ 2) - (1 - s ^ 2 + s ^ 4 / 2 - s ^ 6 / 6)) u); [lra|rewrite erf_0; field| |].
    - intros s _. apply (is_derive_minus (fun s => w / 2 * erf s) (fun s => s - s ^ 3 / 3 + s ^ 5 / 10 - s ^ 7 / 42)); [apply D|]. auto_derive; [trivial|]. field.
    - intros s _. destruct (exp_tay (s ^ 2) (pow2_ge_0 s)) as [B _]. replace (s ^ 4) with ((s ^ 2) ^ 2) by ring. replace (s ^ 6) with ((s ^ 2) ^ 3) by ring. lra. }
  pose proof (pow_lt u 7 Hu) as P. exists ((u - u ^ 3 / 3 + u ^ 5 / 10 - w / 2 * erf u) / u ^ 7). split; [split|].
  - apply Rdiv_le_0_compat; [exact Hi|exact P].
  - apply Rle_div_l; [exact P|]. lra.
  - field. lra.
Qed.
Lemma late_poly g L K : 0 <= K -> (forall u, 0 < u <= 1 -> exists q, g u = L + u * q /\ Rabs q <= K) -> late g L.
Proof.
  intros K0 H. exists K. split; [exact K0|]. intros u Hu. destruct (H u Hu) as (q & -> & Q). replace (L + u * q - L) with (q * u) by ring. rewrite Rabs_mult, (Rabs_pos_eq u) by lra. apply Rmult_le_compat_r; lra.
Qed.
(** the same up to the factor 1 / sqrt pi *)
Lemma late_pi g L K : 0 <= K -> (forall u, 0 < u <= 1 -> exists q, g u = / sqrt PI * (L + u * q) /\ Rabs q <= K) -> late g (L / sqrt PI).
Proof.
  intros K0 H. pose proof inv_pi_1 as [A B]. apply (late_poly g _ K K0). intros u Hu. destruct (H u Hu) as (q & E & Q). exists (/ sqrt PI * q). split; [rewrite E; unfold Rdiv; ring|].
  rewrite Rabs_mult, (Rabs_pos_eq (/ sqrt PI)) by lra. pose proof (Rabs_pos q). nra.
Qed.
Ltac late_go u := intros u Hu; destruct (erf_poly u ltac:(lra)) as (d & Dd & ->); destruct (exp_poly u ltac:(lra)) as (h & Hh & Eh); try rewrite Eh; clear Eh;
  assert (U2 : 0 <= u ^ 2 <= 1) by nra; pose proof sqrt_PI_pos; set (w := sqrt PI) in *; clearbody w.
Lemma late_erf1 : late (fun u => erf u / u) (2 / sqrt PI).
Proof.
  apply (late_pi _ _ 2); [lra|]. late_go u. exists (- 2 * u * (1 / 3 - u ^ 2 / 10 + d * u ^ 4)). split; [field; lra|].
  apply Rabs_le. assert (0 <= u ^ 4 <= 1) by nra. assert (0 <= d * u ^ 4 <= 1 / 42) by nra. assert (0 <= 1 / 3 - u ^ 2 / 10 + d * u ^ 4 <= 1) by lra. nra.
Qed.
Lemma late_H3 : late (fun u => uH u / u ^ 3) (4 / 3 / sqrt PI).
Proof.
  apply (late_pi _ _ 2); [lra|]. unfold uH. late_go u. exists (u * (2 * (1 / 10 - d * u ^ 2) - 1 + 2 * h * u ^ 2)). split; [field; lra|].
  apply Rabs_le. assert (0 <= d * u ^ 2 <= 1 / 42) by nra. assert (0 <= h * u ^ 2 <= 1 / 6) by nra. assert (-1 <= 2 * (1 / 10 - d * u ^ 2) - 1 + 2 * h * u ^ 2 <= 1) by lra. nra.
Qed.
Lemma late_O3 : late (fun u => uO u / u ^ 3) (- (8 / 3) / sqrt PI).
Proof.
  apply (late_pi _ _ 6); [lra|]. unfold uO. late_go u. exists (u * (2 * (1 / 10 - d * u ^ 2) + 3 + (2 * h - 2) * u ^ 2 + 4 * h * u ^ 4)). split; [field; lra|].
  apply Rabs_le. assert (0 <= u ^ 4 <= 1) by nra. assert (0 <= d * u ^ 2 <= 1 / 42) by nra. assert (0 <= h * u ^ 2 <= 1 / 6) by nra. assert (0 <= h * u ^ 4 <= 1 / 6) by nra.
  assert (0 <= 2 * (1 / 10 - d * u ^ 2) + 3 + (2 * h - 2) * u ^ 2 + 4 * h * u ^ 4 <= 6) by lra. nra.
Qed.
Lemma late_n5 : late (fun u => nloop u / u ^ 5) (8 / 5 / sqrt PI).
Proof.
  apply (late_pi _ _ 6); [lra|]. unfold nloop. late_go u. exists (u * (- 6 * d + 6 * h - 2 + 4 * h * u ^ 2)). split; [field; lra|].
  apply Rabs_le. assert (0 <= h * u ^ 2 <= 1 / 6) by nra. assert (-6 <= - 6 * d + 6 * h - 2 + 4 * h * u ^ 2 <= 6) by lra. nra.
Qed.
Lemma late_g3 : late (fun u => gloop u / u ^ 3) (8 / 15 / sqrt PI).
Proof.
  apply (late_pi _ _ 6); [lra|]. unfold gloop. late_go u. exists (u * (1 / 5 - 3 * h + 3 * d - 2 * d * u ^ 2)). split; [field; lra|].
  apply Rabs_le. assert (0 <= d * u ^ 2 <= 1 / 42) by nra. assert (-6 <= 1 / 5 - 3 * h + 3 * d - 2 * d * u ^ 2 <= 6) by lra. nra.
Qed.
Lemma late_gz3 : late (fun u => gz u / u ^ 3) (16 / 15 / sqrt PI).
Proof.
  apply (late_pi _ _ 6); [lra|]. unfold gz. late_go u. exists (u * (- 9 * d - 1 / 5 + 2 * d * u ^ 2 + 9 * h - 2 + 4 * h * u ^ 2)). split; [field; lra|].
  apply Rabs_le. assert (0 <= d * u ^ 2 <= 1 / 42) by nra. assert (0 <= h * u ^ 2 <= 1 / 6) by nra. assert (-6 <= - 9 * d - 1 / 5 + 2 * d * u ^ 2 + 9 * h - 2 + 4 * h * u ^ 2 <= 6) by lra. nra.
Qed.
Lemma late_dgz3 : late (fun u => dgz u / u ^ 3) (- (8 / 5) / sqrt PI).
Proof.
  apply (late_pi _ _ 6); [lra|]. unfold dgz. late_go u. exists (u * (- 9 * d + 9 * h + 1 + (6 * h - 2) * u ^ 2 + 4 * h * u ^ 4)). split; [field; lra|].
  apply Rabs_le. assert (0 <= u ^ 4 <= 1) by nra. assert (0 <= h * u ^ 2 <= 1 / 6) by nra. assert (0 <= h * u ^ 4 <= 1 / 6) by nra.
  assert (-6 <= - 9 * d + 9 * h + 1 + (6 * h - 2) * u ^ 2 + 4 * h * u ^ 4 <= 6) by lra. nra.
Qed.
(** ** the modified Bessel functions near 0 *)
Lemma exp_abs x : Rabs x <= 1 -> Rabs (exp x - (1 + x + x ^ 2 / 2)) <= Rabs x ^ 3.
Proof.
  intros X. destruct (Rle_lt_dec x 0) as [N|P].
  - destruct (exp_tay (- x) ltac:(lra)) as [A B]. rewrite Ropp_involutive in A, B. rewrite (Rabs_left1 x) in * by lra.
    assert (0 <= (- x) ^ 3) by (apply pow_le; lra). replace ((- x) ^ 2) with (x ^ 2) in A, B by ring. apply Rabs_le. lra.
  - rewrite (Rabs_pos_eq x) in * by lra. destruct (exp_tay x ltac:(lra)) as [A B].
    assert (E : exp x * exp (- x) = 1) by (rewrite <- exp_plus, Rplus_opp_r; apply exp_0). pose proof (exp_pos x). pose proof (exp_pos (- x)).
    assert (P3 : 0 < x ^ 3) by (apply pow_lt; lra). set (e := exp x) in *. set (f := exp (- x)) in *. clearbody e f.
    assert (Q1 : 0 <= x ^ 3 * (5 / 6 - 11 / 12 * x + 5 / 12 * x ^ 2 - x ^ 3 / 6)) by (apply Rmult_le_pos; [lra|nra]).
    assert (Q2 : 0 <= x ^ 3 * (1 - 5 / 4 * x + x ^ 2 / 2)) by (apply Rmult_le_pos; [lra|nra]).
    assert (U : e <= 1 + x + x ^ 2 / 2 + x ^ 3).
    { apply (Rmult_le_reg_r f); [lra|]. rewrite E. apply Rle_trans with ((1 + x + x ^ 2 / 2 + x ^ 3) * (1 - x + x ^ 2 / 2 - x ^ 3 / 6)); [nra|]. apply Rmult_le_compat_l; [|lra]. assert (0 <= x ^ 2) by apply pow2_ge_0. lra. }
    assert (L : 1 + x + x ^ 2 / 2 - x ^ 3 <= e).
    { apply (Rmult_le_reg_r f); [lra|]. rewrite E. apply Rle_trans with ((1 + x + x ^ 2 / 2 - x ^ 3) * (1 - x + x ^ 2 / 2)); [|nra]. apply Rmult_le_compat_l; [nra|lra]. }
    apply Rabs_le. lra.
Qed.
Lemma cos_pow_int w : is_RInt (fun t => cos t + w * cos t ^ 2 + w ^ 2 / 2 * cos t ^ 3) 0 PI (w * PI / 2).
Proof.
  set (F := fun t => sin t + w * (t / 2 + sin t * cos t / 2) + w ^ 2 / 2 * (sin t - sin t ^ 3 / 3)).
  replace (w * PI / 2) with (minus (F PI) (F 0)).
  2:{ unfold F, minus, plus, opp; cbn. rewrite sin_PI, sin_0. field. }
  apply (is_RInt_derive F).
  - intros t _. unfold F. auto_derive; [trivial|]. pose proof (sin2_cos2 t) as S. unfold Rsqr in S. set (a := sin t) in *. set (b := cos t) in *. clearbody a b.
    replace (b ^ 3) with (b * (1 - a * a)) by (replace (1 - a * a) with (b * b) by lra; ring). replace (b ^ 2) with ((b * b + (1 - a * a)) / 2) by (replace (1 - a * a) with (b * b) by lra; field). field.
  - intros t _. apply continuity_pt_filterlim, derivable_continuous_pt, ex_derive_Reals_0. auto_derive. trivial.
Qed.
Lemma cos_int w : is_RInt (fun t => 1 + w * cos t) 0 PI PI.
Proof.
  set (F := fun t => t + w * sin t). replace PI with (minus (F PI) (F 0)) at 2.
  2:{ unfold F, minus, plus, opp; cbn. rewrite sin_PI, sin_0. ring. }
  apply (is_RInt_derive F).
  - intros t _. unfold F. auto_derive; [trivial|]. ring.
  - intros t _. apply continuity_pt_filterlim, derivable_continuous_pt, ex_derive_Reals_0. auto_derive. trivial.
Qed.
Lemma near_int (f g : R -> R) If Ig M : is_RInt f 0 PI If -> is_RInt g 0 PI Ig -> (forall t, Rabs (f t - g t) <= M) -> Rabs (/ PI * If - / PI * Ig) <= M.
Proof.
  intros Ff Gg H. pose proof PI_RGT_0 as P. rewrite <- Rmult_minus_distr_l, Rabs_mult, (Rabs_pos_eq (/ PI)) by (left; now apply Rinv_0_lt_compat).
  assert (B : Rabs (If - Ig) <= (PI - 0) * M).
  { pose proof (is_RInt_minus _ _ _ _ _ _ Ff Gg) as D. change (minus If Ig) with (If - Ig) in D. rewrite <- (is_RInt_unique _ _ _ _ D).
    apply abs_RInt_le_const; [lra|eexists; exact D|]. intros t _. exact (H t). }
  apply (Rmult_le_reg_l PI); [exact P|]. rewrite <- Rmult_assoc, Rinv_r, Rmult_1_l by lra. lra.
Qed.
Lemma iv0_poly w : 0 < w <= 1 / 2 -> exists a, Rabs a <= 1 /\ iv 0 w = 1 + a * w ^ 2.
Proof.
  intros W. pose proof PI_RGT_0 as P. assert (B : Rabs (iv 0 w - 1) <= w ^ 2).
  { rewrite iv_eq. replace 1 with (/ PI * PI) by (field; lra). apply (near_int (bker 0 w) (fun t => 1 + w * cos t)); [exact (RInt_correct _ _ _ (bker_int 0 w 0 PI))|exact (cos_int w)|].
    intro t. unfold bker. cbn [INR]. rewrite Rmult_0_l, cos_0, Rmult_1_r. pose proof (COS_bound t) as C. set (k := cos t) in *. clearbody k. assert (Ak : Rabs k <= 1) by (apply Rabs_le; lra).
    assert (X : Rabs (w * k) <= w) by (rewrite Rabs_mult, (Rabs_pos_eq w) by lra; nra). pose proof (exp_abs (w * k) ltac:(lra)) as E.
    replace (exp (w * k) - (1 + w * k)) with ((exp (w * k) - (1 + w * k + (w * k) ^ 2 / 2)) + (w * k) ^ 2 / 2) by field.
    eapply Rle_trans; [apply Rabs_triang|]. set (q := w * k) in *. assert (Q2 : q ^ 2 = Rabs q ^ 2) by (now rewrite pow2_abs). rewrite (Rabs_pos_eq (q ^ 2 / 2)) by (pose proof (pow2_ge_0 q); lra).
    pose proof (Rabs_pos q) as Qp. assert (Rabs q ^ 3 <= Rabs q ^ 2 / 2) by (set (v := Rabs q) in *; clearbody v; assert (0 <= v ^ 2) by apply pow2_ge_0; replace (v ^ 3) with (v * v ^ 2) by ring; nra). assert (Rabs q ^ 2 <= w ^ 2) by (apply pow_incr; lra). lra. }
  assert (W2 : 0 < w ^ 2) by nra. exists ((iv 0 w - 1) / w ^ 2). split; [|field; lra]. unfold Rdiv. rewrite Rabs_mult, (Rabs_pos_eq (/ w ^ 2)) by (left; now apply Rinv_0_lt_compat).
  apply (Rmult_le_reg_r (w ^ 2)); [exact W2|]. rewrite Rmult_assoc, Rinv_l by lra. lra.
Qed.
Lemma iv1_poly w : 0 < w <= 1 / 2 -> exists b, Rabs b <= 1 /\ iv 1 w = w / 2 + b * w ^ 3.
Proof.
  intros W. pose proof PI_RGT_0 as P. assert (B : Rabs (iv 1 w - w / 2) <= w ^ 3).
  { rewrite iv_eq. replace (w / 2) with (/ PI * (w * PI / 2)) by (field; lra). apply (near_int (bker 1 w) (fun t => cos t + w * cos t ^ 2 + w ^ 2 / 2 * cos t ^ 3)); [exact (RInt_correct _ _ _ (bker_int 1 w 0 PI))|exact (cos_pow_int w)|].
    intro t. unfold bker. cbn [INR]. rewrite Rmult_1_l. pose proof (COS_bound t) as C. set (k := cos t) in *. clearbody k. assert (Ak : Rabs k <= 1) by (apply Rabs_le; lra).
    assert (X : Rabs (w * k) <= w) by (rewrite Rabs_mult, (Rabs_pos_eq w) by lra; nra). pose proof (exp_abs (w * k) ltac:(lra)) as E.
    replace (exp (w * k) * k - (k + w * k ^ 2 + w ^ 2 / 2 * k ^ 3)) with ((exp (w * k) - (1 + w * k + (w * k) ^ 2 / 2)) * k) by field.
    rewrite Rabs_mult. pose proof (Rabs_pos (w * k)) as Qp. pose proof (Rabs_pos (exp (w * k) - (1 + w * k + (w * k) ^ 2 / 2))) as Ep. pose proof (Rabs_pos k).
    assert (Rabs (w * k) ^ 3 <= w ^ 3) by (apply pow_incr; lra). nra. }
  assert (W2 : 0 < w ^ 3) by (apply pow_lt; lra). exists ((iv 1 w - w / 2) / w ^ 3). split; [|field; lra]. unfold Rdiv. rewrite Rabs_mult, (Rabs_pos_eq (/ w ^ 3)) by (left; now apply Rinv_0_lt_compat).
  apply (Rmult_le_reg_r (w ^ 3)); [exact W2|]. rewrite Rmult_assoc, Rinv_l by lra. unfold Rdiv in B. lra.
Qed.
Lemma exp_1 w : 0 < w -> exists e, 0 <= e <= 1 /\ exp (- w) = 1 - e * w.
Proof.
  intro W. assert (0 <= exp (- w) <= 1). { pose proof (exp_pos (- w)). pose proof (exp_increasing (- w) 0 ltac:(lra)) as I. rewrite exp_0 in I. lra. }
  assert (1 - w <= exp (- w)). { pose proof (exp_ineq1_le (- w)). lra. }
  exists ((1 - exp (- w)) / w). split; [|field; lra]. split; [apply Rdiv_le_0_compat; lra|]. apply Rle_div_l; lra.
Qed.
Ltac late_bes u := intros u Hu; assert (W : 0 < u ^ 2 / 2 <= 1 / 2) by nra; assert (Wz : u ^ 2 / 2 <> 0) by lra;
  destruct (iv0_poly _ W) as (a & Aa & Ea); destruct (iv1_poly _ W) as (b & Bb & Eb); destruct (exp_1 (u ^ 2 / 2) ltac:(lra)) as (e & He & Ee).
Lemma late_gr4 : late (fun u => gr u / u ^ 4) (1 / 2).
Proof.
  apply (late_poly _ _ 8); [lra|]. unfold gr. late_bes u. rewrite !ive_half, (iv_2 _ Wz), Eb, Ea, Ee. set (w := u ^ 2 / 2) in *.
  exists (u / 2 * ((b * w - (a - 2 * b)) * (1 - e * w) - e / 2)). split.
  - replace (u ^ 4) with (4 * w ^ 2) by (unfold w; field). replace (u ^ 2) with (2 * w) by (unfold w; field). replace (u * (u / 2 * ((b * w - (a - 2 * b)) * (1 - e * w) - e / 2))) with (w * ((b * w - (a - 2 * b)) * (1 - e * w) - e / 2)) by (unfold w; field). field. exact Wz.
  - clearbody w. apply Rabs_le_between in Aa. apply Rabs_le_between in Bb. assert (0 <= e * w <= 1 / 2) by nra. assert (-1 <= b * w <= 1) by nra.
    assert (-4 <= (b * w - (a - 2 * b)) * (1 - e * w) <= 4) by nra. apply Rabs_le. nra.
Qed.
Lemma late_dgr4 : late (fun u => dgr u / u ^ 4) (-1).
Proof.
  apply (late_poly _ _ 16); [lra|]. unfold dgr. late_bes u. rewrite !ive_half, Eb, Ea, Ee. set (w := u ^ 2 / 2) in *.
  set (q := a * (1 + 2 * w) - 1 - 2 * b - (2 + 2 * w) * b * w).
  exists (u / 2 * (e - q * (1 - e * w))). split.
  - replace (u ^ 4) with (4 * w ^ 2) by (unfold w; field). replace (u ^ 2) with (2 * w) by (unfold w; field). replace (u * (u / 2 * (e - q * (1 - e * w)))) with (w * (e - q * (1 - e * w))) by (unfold w; field). unfold q. field. exact Wz.
  - clearbody w. apply Rabs_le_between in Aa. apply Rabs_le_between in Bb. assert (0 <= e * w <= 1 / 2) by nra. assert (-(1/2) <= b * w <= 1 / 2) by nra. assert (-1/2 <= a * w <= 1 / 2) by nra.
    assert (-(1/2) <= b * w * w <= 1 / 2) by nra. assert (-10 <= q <= 10) by (unfold q; lra). clearbody q.
    assert (-10 <= q * (1 - e * w) <= 10) by nra. apply Rabs_le. nra.
Qed.
