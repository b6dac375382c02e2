(** Early- and late-time limits of the transient fields (C100). *)
From Coq Require Import Reals Lra.
From Coquelicot Require Import Coquelicot.
From Verif Require Import Vec3 Calculus Deriv Integral Numpy Model_TDEM SpecFun Spec_TDEM Spec_Fourier Proof_Fourier Proof_Fourier2 Proof_Fourier5 Proof_TDEM3 Spec_Limits.
Open Scope R_scope.

(** functions of u = c / sqrt t, for u large and for u small *)
Definition early (g : R -> R) (L : R) : Prop := exists K, 0 <= K /\ forall u, 1 <= u -> Rabs (g u - L) <= K / u.
Definition late (g : R -> R) (L : R) : Prop := exists K, 0 <= K /\ forall u, 0 < u <= 1 -> Rabs (g u - L) <= K * u.

Lemma early_ext f g L : (forall u, 1 <= u -> f u = g u) -> early f L -> early g L.
Proof. intros E (K & H0 & H). exists K. split; [exact H0|]. intros u Hu. rewrite <- E by exact Hu. now apply H. Qed.
Lemma late_ext f g L : (forall u, 0 < u <= 1 -> f u = g u) -> late f L -> late g L.
Proof. intros E (K & H0 & H). exists K. split; [exact H0|]. intros u Hu. rewrite <- E by exact Hu. now apply H. Qed.
Lemma early_const c : early (fun _ => c) c.
Proof. exists 0. split; [lra|]. intros u Hu. rewrite Rminus_eq_0, Rabs_R0. unfold Rdiv. lra. Qed.
Lemma late_const c : late (fun _ => c) c.
Proof. exists 0. split; [lra|]. intros u Hu. rewrite Rminus_eq_0, Rabs_R0. lra. Qed.
Lemma early_plus f g L M : early f L -> early g M -> early (fun u => f u + g u) (L + M).
Proof.
  intros (K & H0 & H) (K' & H0' & H'). exists (K + K'). split; [lra|]. intros u Hu. specialize (H u Hu). specialize (H' u Hu).
  replace (f u + g u - (L + M)) with ((f u - L) + (g u - M)) by ring. pose proof (Rabs_triang (f u - L) (g u - M)). unfold Rdiv in *. lra.
Qed.
Lemma late_plus f g L M : late f L -> late g M -> late (fun u => f u + g u) (L + M).
Proof.
  intros (K & H0 & H) (K' & H0' & H'). exists (K + K'). split; [lra|]. intros u Hu. specialize (H u Hu). specialize (H' u Hu).
  replace (f u + g u - (L + M)) with ((f u - L) + (g u - M)) by ring. pose proof (Rabs_triang (f u - L) (g u - M)). lra.
Qed.
Lemma early_scal k f L : early f L -> early (fun u => k * f u) (k * L).
Proof.
  intros (K & H0 & H). exists (Rabs k * K). split; [apply Rmult_le_pos; [apply Rabs_pos|exact H0]|]. intros u Hu. specialize (H u Hu).
  replace (k * f u - k * L) with (k * (f u - L)) by ring. rewrite Rabs_mult. unfold Rdiv in *. rewrite Rmult_assoc.
  apply Rmult_le_compat_l; [apply Rabs_pos|exact H].
Qed.
Lemma late_scal k f L : late f L -> late (fun u => k * f u) (k * L).
Proof.
  intros (K & H0 & H). exists (Rabs k * K). split; [apply Rmult_le_pos; [apply Rabs_pos|exact H0]|]. intros u Hu. specialize (H u Hu).
  replace (k * f u - k * L) with (k * (f u - L)) by ring. rewrite Rabs_mult. rewrite Rmult_assoc.
  apply Rmult_le_compat_l; [apply Rabs_pos|exact H].
Qed.
(** a factor bounded by 1 and one that vanishes *)
Lemma early_damp f g : early f 0 -> (forall u, 1 <= u -> Rabs (g u) <= 1) -> early (fun u => g u * f u) 0.
Proof.
  intros (K & H0 & H) B. exists K. split; [exact H0|]. intros u Hu. specialize (H u Hu). specialize (B u Hu). rewrite Rminus_0_r in *.
  rewrite Rabs_mult. pose proof (Rabs_pos (f u)). pose proof (Rabs_pos (g u)). nra.
Qed.
Lemma late_damp f g : late f 0 -> (forall u, 0 < u <= 1 -> Rabs (g u) <= 1) -> late (fun u => g u * f u) 0.
Proof.
  intros (K & H0 & H) B. exists K. split; [exact H0|]. intros u Hu. specialize (H u Hu). specialize (B u Hu). rewrite Rminus_0_r in *.
  rewrite Rabs_mult. pose proof (Rabs_pos (f u)). pose proof (Rabs_pos (g u)). nra.
Qed.

Lemma early_inv : early (fun u => / u) 0.
Proof. exists 1. split; [lra|]. intros u Hu. rewrite Rminus_0_r, Rabs_right; [lra|]. apply Rle_ge, Rlt_le, Rinv_0_lt_compat; lra. Qed.
Lemma late_id : late (fun u => u) 0.
Proof. exists 1. split; [lra|]. intros u Hu. rewrite Rminus_0_r, Rabs_right; lra. Qed.
Lemma early_erf : early erf 1.
Proof.
  exists 4. split; [lra|]. intros u Hu. destruct (erf_one u ltac:(lra)) as [A B]. rewrite Rabs_minus_sym, Rabs_right by lra.
  eapply Rle_trans; [exact B|]. unfold Rdiv. apply Rmult_le_compat_l; [lra|]. apply Rinv_le_contravar; nra.
Qed.
Lemma late_erf : late erf 0.
Proof. exists 2. split; [lra|]. intros u Hu. destruct (erf_lin u ltac:(lra)) as [A B]. rewrite Rminus_0_r, Rabs_right; lra. Qed.
Lemma exp_inv3 y : 0 < y -> exp (- y) <= 27 / y ^ 3.
Proof.
  intro H. replace (- y) with (- (y / 3) + (- (y / 3) + - (y / 3))) by field. rewrite !exp_plus.
  pose proof (exp_inv (y / 3) ltac:(lra)) as E. pose proof (exp_pos (- (y / 3))). replace (27 / y ^ 3) with (/ (y / 3) * (/ (y / 3) * / (y / 3))) by (field; lra).
  apply Rmult_le_compat; try lra; [nra|]. apply Rmult_le_compat; lra.
Qed.
Lemma early_gauss k : (k <= 5)%nat -> early (fun u => u ^ k * exp (- u ^ 2)) 0.
Proof.
  intro Hk. exists 27. split; [lra|]. intros u Hu. rewrite Rminus_0_r. pose proof (exp_pos (- u ^ 2)). assert (1 <= u ^ 2) by nra.
  pose proof (exp_inv3 (u ^ 2) ltac:(lra)) as E. assert (P : u ^ k <= u ^ 5) by (apply Rle_pow; assumption).
  assert (0 < u ^ k) by (apply pow_lt; lra). rewrite Rabs_right by (apply Rle_ge, Rlt_le, Rmult_lt_0_compat; lra).
  apply (Rle_trans _ (u ^ 5 * (27 / (u ^ 2) ^ 3))); [apply Rmult_le_compat; lra|]. right. field. lra.
Qed.
Lemma exp_le1 u : 0 < exp (- u ^ 2) <= 1.
Proof. split; [apply exp_pos|]. rewrite <- exp_0. pose proof (pow2_ge_0 u). destruct (Req_dec (u ^ 2) 0) as [->|]; [rewrite Ropp_0; lra|]. apply Rlt_le, exp_increasing; lra. Qed.
Lemma late_gauss k : late (fun u => u ^ S k * exp (- u ^ 2)) 0.
Proof.
  apply (late_ext (fun u => (u ^ k * exp (- u ^ 2)) * u)); [intros u _; cbn [pow]; ring|].
  apply (late_damp (fun u => u) (fun u => u ^ k * exp (- u ^ 2))); [exact late_id|]. intros u Hu. pose proof (exp_le1 u).
  assert (0 < u ^ k <= 1). { split; [apply pow_lt; lra|]. rewrite <- (pow1 k). apply pow_incr; lra. }
  rewrite Rabs_right; nra.
Qed.

(** ** from u back to t *)
Lemma early_lim (x g : R -> R) c L : 0 < c -> (forall t, 0 < t -> x t = g (c / sqrt t)) -> early g L -> starts_at x L.
Proof.
  intros Hc E (K & H0 & H). apply lim_abs; [apply at_right_proper_filter|]. intros e He.
  apply (filter_imp (fun t => (0 < t /\ K / c * sqrt t < e) /\ t < c ^ 2)).
  - intros t [[Hp Ht] Hl]. rewrite E by exact Hp. pose proof (sqrt_lt_R0 t Hp).
    assert (sqrt t <= c). { rewrite <- (sqrt_pow2 c) by lra. apply sqrt_le_1_alt. lra. }
    assert (1 <= c / sqrt t). { apply Rle_div_r; lra. }
    specialize (H _ H3). replace (K / (c / sqrt t)) with (K / c * sqrt t) in H by (field; lra). lra.
  - apply filter_and; [apply (at_0_sqrt e (K / c) He); apply Rdiv_le_0_compat; lra|].
    assert (P : 0 < c ^ 2) by nra. exists (mkposreal _ P). intros t Ht Hp. unfold ball in Ht; cbn in Ht.
    unfold AbsRing_ball, abs, minus, plus, opp in Ht; cbn in Ht. rewrite Rabs_right in Ht by lra. cbn. lra.
Qed.
Lemma late_lim (x g : R -> R) c L : 0 < c -> (forall t, 0 < t -> x t = g (c / sqrt t)) -> late g L -> ends_at x L.
Proof.
  intros Hc E (K & H0 & H). apply lim_abs; [apply Rbar_locally_filter|]. intros e He.
  eapply filter_imp; [|exact (at_inf_sqrt e (K * c) (c ^ 2) He ltac:(nra))].
  intros t (Hp & HM & Ht). rewrite E by exact Hp. pose proof (sqrt_lt_R0 t Hp).
  assert (c <= sqrt t). { rewrite <- (sqrt_pow2 c) by lra. apply sqrt_le_1_alt. lra. }
  assert (0 < c / sqrt t <= 1). { split; [apply Rdiv_lt_0_compat; lra|]. apply Rle_div_l; lra. }
  specialize (H _ H3). replace (K * (c / sqrt t)) with (K * c / sqrt t) in H by (field; lra). lra.
Qed.
(** c for a distance r *)
Lemma dd_pos sg mu r : 0 < sg -> 0 < mu -> 0 < r -> 0 < sqrt (mu * sg) * r / 2.
Proof. intros. assert (0 < sqrt (mu * sg)) by (apply sqrt_lt_R0; nra). nra. Qed.
Lemma theta_u t sg mu r : 0 < t -> 0 < sg -> 0 < mu -> theta t sg mu * r = sqrt (mu * sg) * r / 2 / sqrt t.
Proof. intros Ht Hs Hm. rewrite theta_half by assumption. pose proof (sqrt_lt_R0 t Ht). field. lra. Qed.
Lemma t_of_u c t : 0 < t -> 0 < c -> / t = / c ^ 2 * (c / sqrt t) ^ 2.
Proof. intros Ht Hc. pose proof (sqrt_lt_R0 t Ht). pose proof (sqrt_sqrt t ltac:(lra)) as S. remember (sqrt t) as w eqn:E. clear E. subst t. field. lra. Qed.

(** ** the functions of u in the fields *)
Lemma inv_pi_1 : 0 < / sqrt PI <= 1.
Proof. pose proof root_pi_1. split; [apply Rinv_0_lt_compat; lra|]. rewrite <- Rinv_1. apply Rinv_le_contravar; lra. Qed.
Definition uH (u : R) : R := erf u - 2 / sqrt PI * u * exp (- u ^ 2).
Lemma early_H : early uH 1.
Proof.
  replace 1 with (1 + - (2 / sqrt PI) * 0) by ring. apply (early_ext (fun u => erf u + - (2 / sqrt PI) * (u ^ 1 * exp (- u ^ 2)))).
  - intros u _. unfold uH. rewrite pow_1. ring.
  - apply early_plus; [exact early_erf|]. apply early_scal. apply early_gauss. repeat constructor.
Qed.
Lemma late_H : late uH 0.
Proof.
  replace 0 with (0 + - (2 / sqrt PI) * 0) by ring. apply (late_ext (fun u => erf u + - (2 / sqrt PI) * (u ^ 1 * exp (- u ^ 2)))).
  - intros u _. unfold uH. rewrite pow_1. ring.
  - apply late_plus; [exact late_erf|]. apply late_scal. apply late_gauss.
Qed.
Lemma early_n : early nloop 3.
Proof.
  replace 3 with (3 * 1 + (- (6 / sqrt PI) * 0 + - (4 / sqrt PI) * 0)) at 1 by ring.
  apply (early_ext (fun u => 3 * erf u + (- (6 / sqrt PI) * (u ^ 1 * exp (- u ^ 2)) + - (4 / sqrt PI) * (u ^ 3 * exp (- u ^ 2))))).
  - intros u _. unfold nloop. pose proof sqrt_PI_pos. field. lra.
  - apply early_plus; [apply early_scal, early_erf|]. apply early_plus; apply early_scal, early_gauss; repeat constructor.
Qed.
Lemma late_n : late nloop 0.
Proof.
  replace 0 with (3 * 0 + (- (6 / sqrt PI) * 0 + - (4 / sqrt PI) * 0)) at 1 by ring.
  apply (late_ext (fun u => 3 * erf u + (- (6 / sqrt PI) * (u ^ 1 * exp (- u ^ 2)) + - (4 / sqrt PI) * (u ^ 3 * exp (- u ^ 2))))).
  - intros u _. unfold nloop. pose proof sqrt_PI_pos. field. lra.
  - apply late_plus; [apply late_scal, late_erf|]. apply late_plus; apply late_scal, late_gauss.
Qed.
Lemma early_gloop : early gloop 1.
Proof.
  assert (A : early (fun u => / u * (3 / sqrt PI * (u ^ 0 * exp (- u ^ 2)))) 0).
  { apply early_damp. { replace 0 with (3 / sqrt PI * 0) by ring. apply early_scal, early_gauss. repeat constructor. }
    intros u Hu. rewrite Rabs_right. { rewrite <- Rinv_1. apply Rinv_le_contravar; lra. } apply Rle_ge, Rlt_le, Rinv_0_lt_compat; lra. }
  assert (B : early (fun u => (/ u * erf u) * / u) 0).
  { apply (early_damp (fun u => / u) (fun u => / u * erf u)); [exact early_inv|]. intros u Hu. destruct (erf_one u ltac:(lra)). pose proof (erf_pos u ltac:(lra)).
    assert (0 < / u <= 1). { split; [apply Rinv_0_lt_compat; lra|]. rewrite <- Rinv_1. apply Rinv_le_contravar; lra. } rewrite Rabs_right; nra. }
  pose proof (early_plus _ _ _ _ (early_plus _ _ _ _ A early_erf) (early_scal (- (3 / 2)) _ _ B)) as E.
  replace (0 + 1 + - (3 / 2) * 0) with 1 in E by ring. eapply early_ext; [|exact E]. intros u Hu. cbv beta. unfold gloop. pose proof sqrt_PI_pos. field. lra.
Qed.
(** a function with N(0) = 0 and |N'| <= K u^2 is at most K u^3 *)
Lemma cube_small (N dN : R -> R) K u : 0 < u -> N 0 = 0 -> (forall x, is_derive N x (dN x)) -> 0 <= K -> (forall x, 0 <= x <= u -> Rabs (dN x) <= K * x ^ 2) ->
  Rabs (N u) <= K * u ^ 3.
Proof.
  intros Hu N0 D HK B. destruct (MVT_cor2 N dN 0 u Hu) as [x [E Hx]].
  - intros x Hx. apply is_derive_Reals, D.
  - rewrite N0, !Rminus_0_r in E. rewrite E, Rabs_mult, (Rabs_right u) by lra. specialize (B x ltac:(lra)).
    apply (Rle_trans _ (K * x ^ 2 * u)); [apply Rmult_le_compat_r; lra|]. assert (K * x ^ 2 <= K * u ^ 2) by (apply Rmult_le_compat_l; nra). cbn [pow] in *. nra.
Qed.
Lemma late_gloop : late gloop 0.
Proof.
  exists 8. split; [lra|]. intros u Hu. rewrite Rminus_0_r. pose proof inv_pi_1 as P. pose proof sqrt_PI_pos as W.
  pose (N := fun s => 6 * s / sqrt PI * exp (- s ^ 2) + (2 * s ^ 2 - 3) * erf s).
  assert (B : Rabs (N u) <= 16 * u ^ 3).
  { apply (cube_small N (fun s => -8 * s ^ 2 / sqrt PI * exp (- s ^ 2) + 4 * s * erf s)); try lra.
    - unfold N. rewrite erf_0. unfold Rdiv. ring.
    - intro s. pose proof (D_erf s) as X. unfold N. eapply is_derive_eq; [der; lra|]. absf. field. lra.
    - intros s Hs. pose proof (exp_le1 s) as E. destruct (erf_lin s ltac:(lra)) as [E1 E2].
      assert (0 <= s ^ 2) by apply pow2_ge_0. assert (0 <= / sqrt PI * exp (- s ^ 2) <= 1) by (split; nra). unfold Rdiv.
      replace (-8 * s ^ 2 * / sqrt PI * exp (- s ^ 2)) with (- (8 * s ^ 2 * (/ sqrt PI * exp (- s ^ 2)))) by ring. set (q := / sqrt PI * exp _) in *. clearbody q.
      assert (0 <= 4 * s * erf s <= 8 * s ^ 2) by (split; nra). assert (0 <= 8 * s ^ 2 * q <= 8 * s ^ 2) by (split; nra).
      apply Rabs_le. lra. }
  assert (E : gloop u = N u / (2 * u ^ 2)). { unfold gloop, N. field. lra. }
  rewrite E. unfold Rdiv. rewrite Rabs_mult. rewrite (Rabs_right (/ _)) by (apply Rle_ge, Rlt_le, Rinv_0_lt_compat; nra).
  apply (Rle_trans _ (16 * u ^ 3 * / (2 * u ^ 2))); [apply Rmult_le_compat_r; [apply Rlt_le, Rinv_0_lt_compat; nra|exact B]|]. right. field. lra.
Qed.
Lemma early_gz : early gz (-1).
Proof.
  assert (B : early (fun u => (/ u * erf u) * / u) 0).
  { apply (early_damp (fun u => / u) (fun u => / u * erf u)); [exact early_inv|]. intros u Hu. destruct (erf_one u ltac:(lra)). pose proof (erf_pos u ltac:(lra)).
    assert (0 < / u <= 1). { split; [apply Rinv_0_lt_compat; lra|]. rewrite <- Rinv_1. apply Rinv_le_contravar; lra. } rewrite Rabs_right; nra. }
  assert (A : early (fun u => / u * (9 / sqrt PI * (u ^ 0 * exp (- u ^ 2)))) 0).
  { apply early_damp. { replace 0 with (9 / sqrt PI * 0) by ring. apply early_scal, early_gauss. repeat constructor. }
    intros u Hu. rewrite Rabs_right. { rewrite <- Rinv_1. apply Rinv_le_contravar; lra. } apply Rle_ge, Rlt_le, Rinv_0_lt_compat; lra. }
  assert (G : early (fun u => u ^ 1 * exp (- u ^ 2)) 0) by (apply early_gauss; repeat constructor).
  pose proof (early_plus _ _ _ _ (early_plus _ _ _ _ (early_scal (9 / 2) _ _ B) (early_scal (-1) _ _ early_erf))
     (early_plus _ _ _ _ (early_scal (-1) _ _ A) (early_scal (- (4 / sqrt PI)) _ _ G))) as E.
  replace (9 / 2 * 0 + -1 * 1 + (-1 * 0 + - (4 / sqrt PI) * 0)) with (-1) in E by ring.
  eapply early_ext; [|exact E]. intros u Hu. cbv beta. unfold gz. pose proof sqrt_PI_pos. field. lra.
Qed.
Lemma late_gz : late gz 0.
Proof.
  exists 16. split; [lra|]. intros u Hu. rewrite Rminus_0_r. pose proof inv_pi_1 as P. pose proof sqrt_PI_pos as W.
  pose (N := fun s => (9 - 2 * s ^ 2) * erf s - (18 * s + 8 * s ^ 3) / sqrt PI * exp (- s ^ 2)).
  assert (B : Rabs (N u) <= 32 * u ^ 3).
  { apply (cube_small N (fun s => - 4 * s * erf s + (8 * s ^ 2 + 16 * s ^ 4) / sqrt PI * exp (- s ^ 2))); try lra.
    - unfold N. rewrite erf_0. unfold Rdiv. ring.
    - intro s. pose proof (D_erf s) as X. unfold N. eapply is_derive_eq; [der; lra|]. absf. field. lra.
    - intros s Hs. pose proof (exp_le1 s) as E. destruct (erf_lin s ltac:(lra)) as [E1 E2].
      assert (0 <= s ^ 2 <= 1) by nra. assert (0 <= / sqrt PI * exp (- s ^ 2) <= 1) by (split; nra). unfold Rdiv. rewrite (Rmult_assoc (8 * s ^ 2 + _)).
      set (q := / sqrt PI * exp _) in *. clearbody q. replace (s ^ 4) with (s ^ 2 * s ^ 2) by ring.
      assert (0 <= 4 * s * erf s <= 8 * s ^ 2) by (split; nra). set (w := s ^ 2) in *. clearbody w.
      assert (0 <= (8 * w + 16 * (w * w)) * q <= 24 * w) by (split; nra).
      apply Rabs_le. lra. }
  assert (E : gz u = N u / (2 * u ^ 2)). { unfold gz, N. field. lra. }
  rewrite E. unfold Rdiv. rewrite Rabs_mult. rewrite (Rabs_right (/ _)) by (apply Rle_ge, Rlt_le, Rinv_0_lt_compat; nra).
  apply (Rle_trans _ (32 * u ^ 3 * / (2 * u ^ 2))); [apply Rmult_le_compat_r; [apply Rlt_le, Rinv_0_lt_compat; nra|exact B]|]. right. field. lra.
Qed.
