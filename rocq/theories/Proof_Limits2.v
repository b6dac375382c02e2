(** The scaled Bessel functions of the half-space dipole for large and small arguments (C100). *)
From Coq Require Import Reals Lra.
From Coquelicot Require Import Coquelicot.
From Verif Require Import Vec3 Calculus Deriv Integral Numpy Model_TDEM SpecFun Spec_Fourier Proof_Fourier Proof_Fourier2 Proof_Fourier5 Proof_TDEM3 Proof_TDEM4 Spec_Limits Proof_Limits.
Open Scope R_scope.

(** ** sin and cos from below *)
Lemma sin_le y : 0 <= y -> sin y <= y.
Proof. intros [H| <-]; [apply Rlt_le, sin_lt_x, H|rewrite sin_0; lra]. Qed.
Lemma cos_ge y : 0 <= y -> 1 - y ^ 2 / 2 <= cos y.
Proof.
  intros [H| <-]; [|rewrite cos_0; lra].
  pose proof (le_from (fun y => cos y - (1 - y ^ 2 / 2)) (fun y => - sin y + y) 0 y H) as L.
  cbv beta in L. rewrite cos_0 in L. assert (0 <= cos y - (1 - y ^ 2 / 2)); [|lra]. replace 0 with (1 - (1 - 0 ^ 2 / 2)) by field. apply L.
  - intros x _. eapply is_derive_eq; [der; lra|]. cbn [INR Init.Nat.pred]. field.
  - intros x Hx. pose proof (sin_le x ltac:(lra)). lra.
Qed.
Lemma sin_ge y : 0 <= y -> y - y ^ 3 / 6 <= sin y.
Proof.
  intros [H| <-]; [|rewrite sin_0; lra].
  pose proof (le_from (fun y => sin y - (y - y ^ 3 / 6)) (fun y => cos y - (1 - y ^ 2 / 2)) 0 y H) as L.
  cbv beta in L. rewrite sin_0 in L. assert (0 <= sin y - (y - y ^ 3 / 6)); [|lra]. replace 0 with (0 - (0 - 0 ^ 3 / 6)) by field. apply L.
  - intros x _. eapply is_derive_eq; [der; lra|]. cbn [INR Init.Nat.pred]. field.
  - intros x Hx. pose proof (cos_ge x ltac:(lra)). lra.
Qed.
Lemma one_minus_cos t : 0 <= t <= PI -> t ^ 2 / 8 <= 1 - cos t.
Proof.
  intros Ht. replace t with (2 * (t / 2)) at 2 by field. rewrite cos_2a_sin. pose proof (sin_ge (t / 2) ltac:(lra)) as S.
  assert (H : t / 4 <= sin (t / 2)).
  { assert (PI <= 34 / 10). { destruct (PI_ineq 2) as [_ U]. cbn [sum_f_R0 Nat.mul Nat.add] in U. unfold tg_alt, PI_tg in U. cbn [pow INR Nat.mul Nat.add] in U. lra. }
    eapply Rle_trans; [|exact S]. assert (t ^ 2 <= 12) by nra. nra. }
  assert (0 <= t / 4) by lra. nra.
Qed.

(** ** the integrals *)
Definition kern (x t : R) : R := exp (- (x * (1 - cos t))).
Lemma kern_cont x (g : R -> R) : (forall t, continuous g t) -> forall t, continuous (fun t => kern x t * g t) t.
Proof.
  intros G t. apply (continuous_mult (kern x) g); [|apply G]. apply continuity_pt_filterlim. eapply derive_continuity. unfold kern. der.
Qed.
Lemma ex_cont (f : R -> R) a b : (forall t, continuous f t) -> ex_RInt f a b.
Proof. intro H. apply (ex_RInt_continuous (V:=R_CompleteNormedModule)). intros t _. apply H. Qed.
Lemma rint_scal k (f : R -> R) a b : (forall t, continuous f t) -> RInt (fun t => k * f t) a b = k * RInt f a b.
Proof.
  intro H. apply is_RInt_unique. apply (is_RInt_scal f a b k). apply (RInt_correct (V:=R_CompleteNormedModule)), ex_cont, H.
Qed.
Lemma ive_kern n x : 0 <= x -> ive n x = / PI * RInt (fun t => kern x t * cos (INR n * t)) 0 PI.
Proof.
  intro Hx. unfold ive, iv. rewrite Rabs_right by lra.
  assert (E : forall t, kern x t * cos (INR n * t) = exp (- x) * (exp (x * cos t) * cos (INR n * t))).
  { intro t. unfold kern. replace (- (x * (1 - cos t))) with (- x + x * cos t) by ring. rewrite exp_plus. ring. }
  assert (F : RInt (fun t => kern x t * cos (INR n * t)) 0 PI = exp (- x) * RInt (fun t => exp (x * cos t) * cos (INR n * t)) 0 PI).
  { rewrite <- rint_scal by (intro t; apply continuity_pt_filterlim; eapply derive_continuity; der). apply RInt_ext. intros t _. apply E. }
  rewrite F. ring.
Qed.
Lemma cosn_cont n t : continuous (fun t => cos (INR n * t)) t.
Proof. apply continuity_pt_filterlim. eapply derive_continuity. der. Qed.
Lemma kern_le1 x t : 0 <= x -> 0 < kern x t <= 1.
Proof.
  intro Hx. unfold kern. split; [apply exp_pos|]. pose proof (COS_bound t). assert (Y : 0 <= x * (1 - cos t)) by nra.
  destruct Y as [Y|Y]; [|rewrite <- Y, Ropp_0, exp_0; lra]. apply Rlt_le. pattern 1 at 2. rewrite <- exp_0. apply exp_increasing. lra.
Qed.
Lemma abs_int (f : R -> R) (g : R -> R) : (forall t, continuous f t) -> (forall t, continuous g t) -> (forall t, 0 <= t <= PI -> Rabs (f t) <= g t) ->
  Rabs (RInt f 0 PI) <= RInt g 0 PI.
Proof.
  intros F G H. pose proof PI_RGT_0. apply (norm_RInt_le f g 0 PI); [lra|exact H| |]; apply (RInt_correct (V:=R_CompleteNormedModule)), ex_cont; assumption.
Qed.
Lemma ive_le1 n x : 0 <= x -> Rabs (ive n x) <= 1.
Proof.
  intro Hx. rewrite ive_kern by exact Hx. pose proof PI_RGT_0 as P. rewrite Rabs_mult, (Rabs_right (/ PI)) by (apply Rle_ge, Rlt_le, Rinv_0_lt_compat, P).
  assert (B : Rabs (RInt (fun t => kern x t * cos (INR n * t)) 0 PI) <= RInt (fun _ => 1) 0 PI).
  { apply abs_int; [apply kern_cont, cosn_cont|intro; apply continuous_const|]. intros t _. rewrite Rabs_mult. pose proof (kern_le1 x t Hx) as K.
    rewrite (Rabs_right (kern x t)) by lra. pose proof (COS_bound (INR n * t)) as C. assert (Rabs (cos (INR n * t)) <= 1) by (apply Rabs_le; lra).
    pose proof (Rabs_pos (cos (INR n * t))). nra. }
  rewrite RInt_const in B. unfold scal in B; cbn in B; unfold mult in B; cbn in B.
  apply (Rle_trans _ (/ PI * ((PI - 0) * 1))); [apply Rmult_le_compat_l; [apply Rlt_le, Rinv_0_lt_compat, P|exact B]|]. right. field. lra.
Qed.

Lemma gauss_scaled k : 0 < k -> RInt (fun t => exp (- (k * t) ^ 2)) 0 PI <= sqrt PI / (2 * k).
Proof.
  intro Hk. pose proof (RInt_comp_lin gauss k 0 0 PI) as E.
  assert (X : ex_RInt gauss (k * 0 + 0) (k * PI + 0)) by apply gauss_int. specialize (E X).
  change (fun y => scal k (gauss (k * y + 0))) with (fun y => k * gauss (k * y + 0)) in E.
  rewrite rint_scal in E by (intro t; apply (continuous_comp (fun y => k * y + 0) gauss); [apply continuity_pt_filterlim; eapply derive_continuity; der|apply gauss_cont]).
  replace (k * 0 + 0) with 0 in E by ring. replace (k * PI + 0) with (k * PI) in E by ring.
  assert (F : RInt (fun y => gauss (k * y + 0)) 0 PI = RInt (fun t => exp (- (k * t) ^ 2)) 0 PI).
  { apply RInt_ext. intros t _. unfold gauss. rewrite Rplus_0_r. reflexivity. }
  rewrite F in E. set (I := RInt (fun t => exp _) 0 PI) in *. clearbody I.
  assert (G : RInt gauss 0 (k * PI) <= sqrt PI / 2).
  { pose proof (erf_lt_1 (k * PI)) as [_ L]. unfold erf in L. pose proof sqrt_PI_pos as W. change (RInt (fun t => exp (- t ^ 2)) 0 (k * PI)) with (RInt gauss 0 (k * PI)) in L.
    assert (A : forall J : R, 2 / sqrt PI * J < 1 -> J <= sqrt PI / 2).
    { intros J Q. apply (Rmult_lt_compat_l (sqrt PI / 2)) in Q; [|lra]. replace (sqrt PI / 2 * (2 / sqrt PI * J)) with J in Q by (field; lra). lra. }
    apply A. exact L. }
  rewrite <- E in G. replace (sqrt PI / (2 * k)) with (sqrt PI / 2 / k) by (field; lra). apply Rle_div_r; [exact Hk|]. lra.
Qed.

Lemma ive_diff x : 0 < x -> Rabs (ive 1 x - ive 2 x) <= 12 / (x * sqrt x).
Proof.
  intro Hx. pose proof PI_RGT_0 as P. pose proof (sqrt_lt_R0 x Hx) as W. rewrite !ive_kern by lra.
  replace (/ PI * RInt (fun t => kern x t * cos (INR 1 * t)) 0 PI - / PI * RInt (fun t => kern x t * cos (INR 2 * t)) 0 PI)
    with (/ PI * (RInt (fun t => kern x t * cos (INR 1 * t)) 0 PI - RInt (fun t => kern x t * cos (INR 2 * t)) 0 PI)) by ring.
  rewrite <- (RInt_minus (V:=R_CompleteNormedModule)) by (apply ex_cont, kern_cont, cosn_cont).
  rewrite Rabs_mult, (Rabs_right (/ PI)) by (apply Rle_ge, Rlt_le, Rinv_0_lt_compat, P).
  set (k := sqrt x / 4). assert (Hk : 0 < k) by (unfold k; lra).
  assert (B : Rabs (RInt (fun t => minus (kern x t * cos (INR 1 * t)) (kern x t * cos (INR 2 * t))) 0 PI) <= RInt (fun t => 6 / x * exp (- (k * t) ^ 2)) 0 PI).
  { apply abs_int.
    - intro t. apply (continuous_minus (V:=R_NormedModule)); apply kern_cont, cosn_cont.
    - intro t. apply continuity_pt_filterlim. eapply derive_continuity. apply (D_scal (6 / x) (fun t => exp (- (k * t) ^ 2))). der.
    - intros t Ht. pose proof (one_minus_cos t Ht) as C1. pose proof (COS_bound t) as C2. change (minus (kern x t * cos (INR 1 * t)) (kern x t * cos (INR 2 * t))) with (kern x t * cos (1 * t) + - (kern x t * cos ((1 + 1) * t))).
      rewrite Rmult_1_l. replace ((1 + 1) * t) with (2 * t) by ring. rewrite cos_2a_cos. set (c := cos t) in *.
      replace (kern x t * c + - (kern x t * (2 * c * c - 1))) with ((1 - c) * kern x t * (1 + 2 * c)) by ring.
      assert (KK : (1 - c) * kern x t <= 2 / x * exp (- (k * t) ^ 2)).
      { unfold kern. fold c. pose proof (Rtotal_order (1 - c) 0). assert (T0 : 0 <= t ^ 2) by apply pow2_ge_0.
        assert (A : exp (- (x * (1 - c) / 2)) <= exp (- (k * t) ^ 2)).
        { assert (Q : (k * t) ^ 2 <= x * (1 - c) / 2). { unfold k. replace ((sqrt x / 4 * t) ^ 2) with (sqrt x * sqrt x * t ^ 2 / 16) by field. rewrite sqrt_sqrt by lra. nra. }
          destruct (Req_dec ((k * t) ^ 2) (x * (1 - c) / 2)) as [->|]; [lra|]. apply Rlt_le, exp_increasing. lra. }
        replace (- (x * (1 - c))) with (- (x * (1 - c) / 2) + - (x * (1 - c) / 2)) by field. rewrite exp_plus.
        assert (D : (1 - c) * exp (- (x * (1 - c) / 2)) <= 2 / x).
        { destruct (Rle_lt_or_eq_dec 0 (1 - c) ltac:(lra)) as [L|L].
          - pose proof (exp_inv (x * (1 - c) / 2) ltac:(nra)) as E. apply (Rmult_le_compat_l (1 - c)) in E; [|lra].
            replace ((1 - c) * / (x * (1 - c) / 2)) with (2 / x) in E by (field; lra). exact E.
          - rewrite <- L, Rmult_0_l. apply Rdiv_le_0_compat; lra. }
        rewrite <- Rmult_assoc. apply Rmult_le_compat; [|apply Rlt_le, exp_pos|exact D|exact A].
        apply Rmult_le_pos; [lra|apply Rlt_le, exp_pos]. }
      pose proof (kern_le1 x t ltac:(lra)) as K1. assert (0 <= (1 - c) * kern x t) by nra.
      rewrite Rabs_mult, (Rabs_right ((1 - c) * _)) by lra. assert (Rabs (1 + 2 * c) <= 3) by (apply Rabs_le; lra). pose proof (Rabs_pos (1 + 2 * c)).
      replace (6 / x * exp (- (k * t) ^ 2)) with ((2 / x * exp (- (k * t) ^ 2)) * 3) by (field; lra).
      apply Rmult_le_compat; lra. }
  rewrite rint_scal in B by (intro t; apply continuity_pt_filterlim; eapply derive_continuity; der).
  pose proof (gauss_scaled k Hk) as G.
  set (I := RInt (fun t => exp _) 0 PI) in *. clearbody I.
  apply (Rle_trans _ (/ PI * (6 / x * (sqrt PI / (2 * k))))).
  { apply Rmult_le_compat_l; [apply Rlt_le, Rinv_0_lt_compat, P|]. eapply Rle_trans; [exact B|]. apply Rmult_le_compat_l; [apply Rdiv_le_0_compat; lra|exact G]. }
  unfold k. pose proof root_pi_1 as R1. pose proof (sqrt_sqrt PI ltac:(lra)) as SP. set (w := sqrt PI) in *. clearbody w. rewrite <- SP.
  replace (/ (w * w) * (6 / x * (w / (2 * (sqrt x / 4))))) with (12 / (x * sqrt x) * / w) by (field; lra).
  assert (0 < 12 / (x * sqrt x)) by (apply Rdiv_lt_0_compat; nra). assert (/ w <= 1) by (rewrite <- Rinv_1; apply Rinv_le_contravar; lra). nra.
Qed.

(** ** the functions of u *)
Lemma early_gr : early gr 0.
Proof.
  exists 96. split; [lra|]. intros u Hu. rewrite Rminus_0_r. unfold gr. assert (P : 0 < u ^ 2 / 2) by nra. pose proof (ive_diff _ P) as B.
  set (d := ive 1 _ - ive 2 _) in *. clearbody d. rewrite Rabs_mult, (Rabs_right (2 * u ^ 2)) by nra.
  assert (W : u / 2 <= sqrt (u ^ 2 / 2)). { rewrite <- (sqrt_pow2 (u / 2)) by lra. apply sqrt_le_1_alt. nra. }
  apply (Rle_trans _ (2 * u ^ 2 * (12 / (u ^ 2 / 2 * sqrt (u ^ 2 / 2))))); [apply Rmult_le_compat_l; [nra|exact B]|].
  set (w := sqrt (u ^ 2 / 2)) in *. clearbody w. replace (2 * u ^ 2 * (12 / (u ^ 2 / 2 * w))) with (48 / w) by (field; split; lra).
  replace (96 / u) with (48 / (u / 2)) by (field; lra). unfold Rdiv. apply Rmult_le_compat_l; [lra|]. apply Rinv_le_contravar; lra.
Qed.
Lemma late_gr : late gr 0.
Proof.
  exists 4. split; [lra|]. intros u Hu. rewrite Rminus_0_r. unfold gr. pose proof (ive_le1 1 (u ^ 2 / 2) ltac:(nra)) as A. pose proof (ive_le1 2 (u ^ 2 / 2) ltac:(nra)) as B.
  rewrite Rabs_mult, (Rabs_right (2 * u ^ 2)) by nra. pose proof (Rabs_triang (ive 1 (u ^ 2 / 2)) (- ive 2 (u ^ 2 / 2))) as T. rewrite Rabs_Ropp in T. fold (ive 1 (u ^ 2 / 2) - ive 2 (u ^ 2 / 2)) in T.
  set (d := Rabs (_ - _)) in *. clearbody d. assert (d <= 2) by lra. nra.
Qed.
(** the time derivatives carry a factor 1/t, that is u^2 *)
Lemma late_dgz : late (fun u => u ^ 2 * dgz u) 0.
Proof.
  replace 0 with (9 / 2 * 0 + - / sqrt PI * (9 * 0 + (6 * 0 + 4 * 0))) by ring.
  apply (late_ext (fun u => 9 / 2 * erf u + - / sqrt PI * (9 * (u ^ 1 * exp (- u ^ 2)) + (6 * (u ^ 3 * exp (- u ^ 2)) + 4 * (u ^ 5 * exp (- u ^ 2)))))).
  - intros u Hu. unfold dgz. pose proof sqrt_PI_pos. field. lra.
  - apply late_plus; [apply late_scal, late_erf|]. apply late_scal. apply late_plus; [|apply late_plus]; apply late_scal, late_gauss.
Qed.
Lemma late_dgr : late (fun u => u ^ 2 * dgr u) 0.
Proof.
  exists 20. split; [lra|]. intros u Hu. rewrite Rminus_0_r. pose proof (ive_le1 0 (u ^ 2 / 2) ltac:(nra)) as A. pose proof (ive_le1 1 (u ^ 2 / 2) ltac:(nra)) as B.
  assert (E : u ^ 2 * dgr u = 2 * u ^ 2 * ((2 * u ^ 2 + u ^ 2 * u ^ 2 + 4) * ive 1 (u ^ 2 / 2) - (u ^ 2 + u ^ 2 * u ^ 2) * ive 0 (u ^ 2 / 2))). { unfold dgr. field. lra. }
  rewrite E. set (a := ive 0 _) in *. set (b := ive 1 _) in *. clearbody a b. rewrite Rabs_mult, (Rabs_right (2 * u ^ 2)) by nra.
  assert (H : 0 < u ^ 2 <= 1) by nra. assert (u ^ 2 <= u) by nra. set (w := u ^ 2) in *. clearbody w.
  assert (Q : Rabs ((2 * w + w * w + 4) * b - (w + w * w) * a) <= 9).
  { apply Rabs_le_between in A. apply Rabs_le_between in B. apply Rabs_le. assert (0 <= w * w <= 1) by nra.
    assert (- (2 * w + w * w + 4) <= (2 * w + w * w + 4) * b <= 2 * w + w * w + 4) by (split; nra).
    assert (- (w + w * w) <= (w + w * w) * a <= w + w * w) by (split; nra). lra. }
  pose proof (Rabs_pos ((2 * w + w * w + 4) * b - (w + w * w) * a)). nra.
Qed.
