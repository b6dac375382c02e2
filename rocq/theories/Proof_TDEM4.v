(** Signs, monotonicity and bounds of the transient fields (C74). *)
From Coq Require Import Reals Lra.
From Coquelicot Require Import Coquelicot.
From Verif Require Import Vec3 Calculus Deriv Numpy Model_TDEM SpecFun Spec_TDEM Model_Static Proof_Static2 Proof_TDEM Proof_TDEM3.
Open Scope R_scope.

Lemma incr_from (f df : R -> R) a b : a < b -> (forall x, a <= x <= b -> is_derive f x (df x)) ->
  (forall x, a < x < b -> 0 < df x) -> f a < f b.
Proof.
  intros L D P.
  destruct (MVT_cor2 f df a b L) as [c [E Hc]].
  - intros c Hc. apply is_derive_Reals. apply D. exact Hc.
  - assert (0 < df c * (b - a)) by (apply Rmult_lt_0_compat; [apply P; lra|lra]). lra.
Qed.
Lemma le_from (f df : R -> R) a b : a < b -> (forall x, a <= x <= b -> is_derive f x (df x)) ->
  (forall x, a < x <= b -> 0 <= df x) -> f a <= f b.
Proof.
  intros L D P.
  destruct (MVT_cor2 f df a b L) as [c [E Hc]].
  - intros c Hc. apply is_derive_Reals. apply D. exact Hc.
  - assert (0 <= df c * (b - a)) by (apply Rmult_le_pos; [apply P; lra|lra]). lra.
Qed.

Definition ploop (s : R) : R := erf s - 2 * s / sqrt PI * exp (- s ^ 2).
Lemma D_ploop s : is_derive ploop s (4 * s ^ 2 / sqrt PI * exp (- s ^ 2)).
Proof. pose proof sqrt_PI_pos. pose proof (D_erf s) as X. unfold ploop. eapply is_derive_eq; [der; lra|]. absf. field. lra. Qed.
Lemma ploop_0 : ploop 0 = 0. Proof. unfold ploop. rewrite erf_0. unfold Rdiv. ring. Qed.
Lemma ploop_pos s : 0 < s -> 0 < ploop s.
Proof.
  intro H. rewrite <- ploop_0. apply (incr_from ploop (fun s => 4 * s ^ 2 / sqrt PI * exp (- s ^ 2))); [exact H|intros x _; apply D_ploop|].
  intros x Hx. pose proof sqrt_PI_pos. apply Rmult_lt_0_compat; [|apply exp_pos]. apply Rdiv_lt_0_compat; [|lra].
  assert (0 < x ^ 2) by (apply pow_lt; lra). lra.
Qed.
Lemma exp_sq_le1 s : exp (- s ^ 2) <= 1.
Proof. rewrite <- exp_0. pose proof (pow2_ge_0 s) as [L|<-]; [left; apply exp_increasing; lra|rewrite Ropp_0; lra]. Qed.
Lemma ploop_le s : 0 < s -> ploop s <= 4 * s ^ 3 / (3 * sqrt PI).
Proof.
  intro H. pose proof sqrt_PI_pos.
  assert (X : 4 * 0 ^ 3 / (3 * sqrt PI) - ploop 0 <= 4 * s ^ 3 / (3 * sqrt PI) - ploop s).
  { apply (le_from (fun s => 4 * s ^ 3 / (3 * sqrt PI) - ploop s) (fun s => 4 * s ^ 2 / sqrt PI * (1 - exp (- s ^ 2)))); [exact H| |].
    - intros x _. pose proof (D_ploop x) as D. eapply is_derive_eq; [der; lra|]. cbn [INR Init.Nat.pred]. field. lra.
    - intros x Hx. pose proof (exp_sq_le1 x). apply Rmult_le_pos; [|lra]. apply Rle_mult_inv_pos; [|lra]. pose proof (pow2_ge_0 x). lra. }
  rewrite ploop_0 in X. replace (4 * 0 ^ 3 / (3 * sqrt PI)) with 0 in X by (field; lra). lra.
Qed.

Definition mloop (s : R) : R := 3 * s / sqrt PI * exp (- s ^ 2) + (s ^ 2 - 3 / 2) * erf s.
Lemma mloop_g s : 0 < s -> mloop s = s ^ 2 * gloop s.
Proof. intro H. pose proof sqrt_PI_pos. unfold mloop, gloop. absf. field. lra. Qed.
Lemma D_mloop s : is_derive mloop s (2 * s * ploop s).
Proof. pose proof sqrt_PI_pos. pose proof (D_erf s) as X. unfold mloop, ploop. eapply is_derive_eq; [der; lra|]. absf. field. lra. Qed.
Lemma mloop_0 : mloop 0 = 0. Proof. unfold mloop. rewrite erf_0. unfold Rdiv. ring. Qed.
Lemma gloop_pos s : 0 < s -> 0 < gloop s.
Proof.
  intro H. assert (0 < s ^ 2) by (apply pow_lt; exact H).
  assert (0 < mloop s).
  { rewrite <- mloop_0. apply (incr_from mloop (fun s => 2 * s * ploop s)); [exact H|intros x _; apply D_mloop|].
    intros x Hx. apply Rmult_lt_0_compat; [lra|apply ploop_pos; lra]. }
  rewrite mloop_g in H1 by exact H. apply (Rmult_lt_reg_l (s ^ 2)); [exact H0|]. lra.
Qed.
Lemma gloop_late s : 0 < s -> gloop s <= 8 * s ^ 3 / (15 * sqrt PI).
Proof.
  intro H. pose proof sqrt_PI_pos. assert (S2 : 0 < s ^ 2) by (apply pow_lt; exact H).
  assert (X : 8 * 0 ^ 5 / (15 * sqrt PI) - mloop 0 <= 8 * s ^ 5 / (15 * sqrt PI) - mloop s).
  { apply (le_from (fun s => 8 * s ^ 5 / (15 * sqrt PI) - mloop s) (fun s => 2 * s * (4 * s ^ 3 / (3 * sqrt PI) - ploop s))); [exact H| |].
    - intros x _. pose proof (D_mloop x) as D. eapply is_derive_eq; [der; lra|]. cbn [INR Init.Nat.pred]. field. lra.
    - intros x Hx. pose proof (ploop_le x). apply Rmult_le_pos; lra. }
  rewrite mloop_0, mloop_g in X by exact H. replace (8 * 0 ^ 5 / (15 * sqrt PI)) with 0 in X by (field; lra).
  apply (Rmult_le_reg_l (s ^ 2)); [exact S2|]. replace (s ^ 2 * (8 * s ^ 3 / (15 * sqrt PI))) with (8 * s ^ 5 / (15 * sqrt PI)) by (field; lra). lra.
Qed.
Lemma nloop_pos s : 0 < s -> 0 < nloop s.
Proof.
  intro H. pose proof sqrt_PI_pos. replace 0 with (nloop 0) by (unfold nloop; rewrite erf_0; unfold Rdiv; ring).
  apply (incr_from nloop (fun s => 8 * s ^ 4 / sqrt PI * exp (- s ^ 2))); [exact H| |].
  - intros x _. pose proof (D_erf x) as X. unfold nloop. eapply is_derive_eq; [der; lra|]. absf. field. lra.
  - intros x Hx. apply Rmult_lt_0_compat; [|apply exp_pos]. apply Rdiv_lt_0_compat; [|lra]. assert (0 < x ^ 4) by (apply pow_lt; lra). lra.
Qed.
Lemma gloop_early s : 0 < s -> 1 - 3 / s ^ 2 <= gloop s < 1.
Proof.
  intro H. pose proof sqrt_PI_pos. assert (S2 : 0 < s ^ 2) by (apply pow_lt; exact H).
  pose proof (ploop_pos s H) as PP. pose proof (erf_lt_1 s) as E1. pose proof (erf_near_1 s H) as E2.
  assert (Gs : gloop s = erf s - 3 / (2 * s ^ 2) * ploop s) by (unfold gloop, ploop; absf; field; lra).
  rewrite Gs. assert (K : 0 < 3 / (2 * s ^ 2)) by (apply Rdiv_lt_0_compat; lra). split.
  - assert (P1 : ploop s <= 1).
    { unfold ploop. assert (0 <= 2 * s / sqrt PI * exp (- s ^ 2)). { apply Rmult_le_pos; [|left; apply exp_pos]. left. apply Rdiv_lt_0_compat; lra. } lra. }
    assert (X : exp (- s ^ 2) <= / s ^ 2).
    { rewrite exp_Ropp. apply Rinv_le_contravar; [exact S2|]. pose proof (exp_ineq1_le (s ^ 2)). lra. }
    assert (PI_gt : 3 < PI) by (pose proof PI2_3_2; lra).
    assert (4 / PI <= 3 / 2). { apply Rle_div_l; lra. }
    assert (4 / PI * exp (- s ^ 2) <= 3 / 2 * / s ^ 2).
    { apply Rmult_le_compat; [left; apply Rdiv_lt_0_compat; lra|left; apply exp_pos|assumption|assumption]. }
    assert (3 / (2 * s ^ 2) * ploop s <= 3 / (2 * s ^ 2)) by nra.
    replace (3 / s ^ 2) with (3 / 2 * / s ^ 2 + 3 / (2 * s ^ 2)) by (field; lra). lra.
  - assert (0 < 3 / (2 * s ^ 2) * ploop s) by (apply Rmult_lt_0_compat; assumption). lra.
Qed.

Section Loop.
  Variables (sg mu a I n : R).
  Hypothesis Hs : 0 < sg.
  Hypothesis Hm : 0 < mu.
  Hypothesis Ha : 0 < a.
  Hypothesis HI : 0 < n * I.

  Lemma loop_positive t : 0 < t -> 0 < tloop_hz t sg mu a I n.
  Proof.
    intro Ht. rewrite tloop_hz_g. apply Rmult_lt_0_compat; [exact HI|]. apply Rdiv_lt_0_compat; [|lra].
    apply gloop_pos, s_pos; assumption.
  Qed.
  Lemma loop_deriv_neg t : 0 < t -> tloop_dhz t sg mu a I n < 0.
  Proof.
    intro Ht. unfold tloop_dhz. rewrite tloop_dbz_n. pose proof (nloop_pos _ (s_pos sg mu t a Hs Hm Ht Ha)) as N.
    assert (A3 : 0 < sg * a ^ 3) by (apply Rmult_lt_0_compat; [exact Hs|apply pow_lt; exact Ha]).
    set (N0 := nloop _) in *. clearbody N0.
    replace (- n * I / (sg * a ^ 3) * N0 / mu) with (- (n * I * N0 / (sg * a ^ 3 * mu))) by (field; repeat split; lra).
    apply Ropp_lt_gt_0_contravar. apply Rdiv_lt_0_compat; apply Rmult_lt_0_compat; assumption.
  Qed.
  Lemma loop_decreasing t t' : 0 < t -> t < t' -> tloop_hz t' sg mu a I n < tloop_hz t sg mu a I n.
  Proof.
    intros Ht L.
    assert (- tloop_hz t sg mu a I n < - tloop_hz t' sg mu a I n); [|lra].
    apply (incr_from (fun t => - tloop_hz t sg mu a I n) (fun t => - tloop_dhz t sg mu a I n)); [exact L| |].
    - intros x Hx. pose proof (tloop_hz_time x sg mu a I n ltac:(lra) Hs Hm Ha) as D. der.
    - intros x Hx. pose proof (loop_deriv_neg x ltac:(lra)). lra.
  Qed.
  Lemma loop_early t : 0 < t -> n * I / (2 * a) * (1 - 12 * t / (mu * sg * a ^ 2)) <= tloop_hz t sg mu a I n < n * I / (2 * a).
  Proof.
    intro Ht. rewrite tloop_hz_g. pose proof (gloop_early _ (s_pos sg mu t a Hs Hm Ht Ha)) as [A B].
    assert (E : 3 / (theta t sg mu * a) ^ 2 = 12 * t / (mu * sg * a ^ 2)).
    { rewrite Rpow_mult_distr, theta_sq by assumption. field. repeat split; lra. }
    rewrite E in A. set (g := gloop _) in *. clearbody g.
    assert (K : 0 < n * I / (2 * a)) by (apply Rdiv_lt_0_compat; lra).
    replace (n * I * (g / (2 * a))) with (n * I / (2 * a) * g) by (field; lra). split.
    - apply Rmult_le_compat_l; lra.
    - rewrite <- (Rmult_1_r (n * I / (2 * a))) at 2. apply Rmult_lt_compat_l; assumption.
  Qed.
  Lemma loop_late t : 0 < t -> tloop_hz t sg mu a I n <= n * I / (2 * a) * (8 / (15 * sqrt PI)) * sqrt (mu * sg * a ^ 2 / (4 * t)) ^ 3.
  Proof.
    intro Ht. rewrite tloop_hz_g. pose proof (gloop_late _ (s_pos sg mu t a Hs Hm Ht Ha)) as A. pose proof sqrt_PI_pos.
    assert (E : sqrt (mu * sg * a ^ 2 / (4 * t)) = theta t sg mu * a).
    { unfold theta. rewrite <- (sqrt_Rsqr a) at 2 by lra. rewrite <- sqrt_mult.
      - f_equal. unfold Rsqr. field. lra.
      - left. apply Rdiv_lt_0_compat; [apply Rmult_lt_0_compat; assumption|lra].
      - unfold Rsqr. nra. }
    rewrite E. set (s := theta t sg mu * a) in *. clearbody s. set (g := gloop s) in *. clearbody g.
    assert (K : 0 < n * I / (2 * a)) by (apply Rdiv_lt_0_compat; lra).
    replace (n * I * (g / (2 * a))) with (n * I / (2 * a) * g) by (field; lra). rewrite Rmult_assoc. apply Rmult_le_compat_l; [lra|].
    replace (8 / (15 * sqrt PI) * s ^ 3) with (8 * s ^ 3 / (15 * sqrt PI)) by (field; lra). exact A.
  Qed.
End Loop.

(** the dipole vector potential *)
Lemma te_A_bound s p : te_ok s -> p <> te_loc s -> te_current s * te_length s <> 0 -> te_orient s <> vzero ->
  0 < vnorm (te_A s p) < Rabs (te_current s * te_length s) / (4 * PI * vnorm (vsub p (te_loc s))) * vnorm (te_orient s).
Proof.
  intros [Ht [Hs Hm]] N HI Ho. apply vsub_nz in N. pose proof (vnorm_pos _ N) as Hr. pose proof (vnorm_pos _ Ho) as On. pose proof PI_RGT_0.
  unfold te_A. rewrite vnorm_scal. set (r := vnorm (vsub p (te_loc s))) in *.
  pose proof (s_pos _ _ _ r Hs Hm Ht Hr) as P. pose proof (erf_pos _ P) as E0. pose proof (erf_lt_1 (td_theta (te_med s) * r)) as E1.
  change (theta (td_time (te_med s)) (td_sigma (te_med s)) (td_mu (te_med s))) with (td_theta (te_med s)) in *.
  set (e := erf _) in *. clearbody e. clear P.
  assert (R4 : 0 < 4 * PI * r) by (apply Rmult_lt_0_compat; lra).
  rewrite Rabs_mult, Rabs_div by lra. rewrite (Rabs_right (4 * PI * r)) by lra. rewrite (Rabs_right e) by lra.
  assert (K : 0 < Rabs (te_current s * te_length s) / (4 * PI * r)) by (apply Rdiv_lt_0_compat; [apply Rabs_pos_lt; exact HI|exact R4]).
  split.
  - apply Rmult_lt_0_compat; [apply Rmult_lt_0_compat|]; assumption.
  - apply Rmult_lt_compat_r; [exact On|]. rewrite <- Rmult_1_r. apply Rmult_lt_compat_l; lra.
Qed.

(** the derivative formula 4.70 of reference.py does not vanish identically *)
Lemma ref_dhz_nz : dhz_from_vert_4_70 1 (theta 1 4 1) 1 4 1 <> 0.
Proof.
  pose proof PI_RGT_0. pose proof sqrt_PI_pos as W.
  assert (T : theta 1 4 1 = 1). { unfold theta. replace (1 * 4 / (4 * 1)) with 1 by field. apply sqrt_1. }
  set (Q := fun s => 9 * erf s - 2 * s / sqrt PI * (9 + 6 * s ^ 2 + 4 * s ^ 4) * exp (- s ^ 2)).
  assert (Q1 : Q 1 < 0).
  { assert (- Q 0 < - Q 1).
    { apply (incr_from (fun s => - Q s) (fun s => 16 * s ^ 4 * (1 - s ^ 2) / sqrt PI * exp (- s ^ 2))); [lra| |].
      - intros x _. pose proof (D_erf x) as X. unfold Q. eapply is_derive_eq; [der; lra|]. absf. field. lra.
      - intros x Hx. apply Rmult_lt_0_compat; [|apply exp_pos]. apply Rdiv_lt_0_compat; [|exact W].
        assert (0 < x ^ 4) by (apply pow_lt; lra). apply Rmult_lt_0_compat; [lra|nra]. }
    assert (Q 0 = 0) by (unfold Q; rewrite erf_0; unfold Rdiv; ring). lra. }
  assert (E : dhz_from_vert_4_70 1 (theta 1 4 1) 1 4 1 = - (1) / (8 * PI) * Q 1).
  { unfold dhz_from_vert_4_70, Q. rewrite T. replace (1 * 1) with 1 by ring. absf. field. lra. }
  rewrite E. apply Rmult_integral_contrapositive_currified; [|lra].
  apply Rmult_integral_contrapositive_currified; [lra|]. apply Rinv_neq_0_compat. lra.
Qed.
