(** Triple integrals over boxes: existence for Lipschitz functions, and
    differentiation under the integral sign.  Knows nothing about geoana. *)
From Coq Require Import Reals Lra Psatz.
From Coquelicot Require Import Coquelicot.
From Verif Require Import Vec3 Calculus Deriv Integral.
Open Scope R_scope.

(** ** existence *)
Definition clamp (a b x : R) : R := Rmax a (Rmin b x).
Lemma clamp_in a b x : a <= b -> a <= clamp a b x <= b.
Proof. intro H. unfold clamp. split; [apply Rmax_l|]. apply Rmax_lub; [exact H|apply Rmin_l]. Qed.
Lemma clamp_id a b x : a <= x <= b -> clamp a b x = x.
Proof. intros [A B]. unfold clamp. rewrite Rmin_right by lra. apply Rmax_right, A. Qed.
Lemma clamp_lip a b x y : Rabs (clamp a b x - clamp a b y) <= Rabs (x - y).
Proof. unfold clamp, Rmax, Rmin. repeat destruct Rle_dec; unfold Rabs; repeat destruct Rcase_abs; lra. Qed.

Lemma lip_continuous (f : R -> R) K x : (forall y, Rabs (f y - f x) <= K * Rabs (y - x)) -> continuous f x.
Proof.
  intros H. apply continuity_pt_filterlim. intros e He.
  assert (K1 : 0 < Rabs K + 1) by (pose proof (Rabs_pos K); lra).
  exists (e / (Rabs K + 1)). split; [apply Rdiv_lt_0_compat; lra|]. intros y [_ Y]. cbn in *. unfold R_dist in *.
  eapply Rle_lt_trans; [apply H|].
  apply Rle_lt_trans with ((Rabs K + 1) * Rabs (y - x)).
  { apply Rmult_le_compat_r; [apply Rabs_pos|]. pose proof (Rle_abs K); lra. }
  apply Rlt_le_trans with ((Rabs K + 1) * (e / (Rabs K + 1))).
  { apply Rmult_lt_compat_l; assumption. }
  right. field. lra.
Qed.
Lemma RInt_lip (f g : R -> R) c1 c2 I J d : c1 <= c2 -> is_RInt f c1 c2 I -> is_RInt g c1 c2 J ->
  (forall z, c1 <= z <= c2 -> Rabs (f z - g z) <= d) -> Rabs (I - J) <= (c2 - c1) * d.
Proof.
  intros H F G D.
  pose proof (is_RInt_minus _ _ _ _ _ _ F G) as M.
  apply Rabs_le. split.
  - assert (K := is_RInt_const c1 c2 (- d)).
    pose proof (is_RInt_le _ _ _ _ _ _ H K M) as L. cbv beta in L. unfold minus, plus, opp, scal in L; cbn in L. unfold mult in L; cbn in L.
    assert (X : (c2 - c1) * - d <= I + - J).
    { apply L. intros x X. specialize (D x). destruct (Rabs_le_between (f x - g x) d) as [Q _]. lra. }
    lra.
  - assert (K := is_RInt_const c1 c2 d).
    pose proof (is_RInt_le _ _ _ _ _ _ H M K) as L. cbv beta in L. unfold minus, plus, opp, scal in L; cbn in L. unfold mult in L; cbn in L.
    assert (X : I + - J <= (c2 - c1) * d).
    { apply L. intros x X. specialize (D x). destruct (Rabs_le_between (f x - g x) d) as [Q _]. lra. }
    lra.
Qed.

Lemma triple_exists (f : R -> R -> R -> R) a1 a2 b1 b2 c1 c2 K : a1 <= a2 -> b1 <= b2 -> c1 <= c2 -> 0 <= K ->
  (forall x y z x' y' z', a1 <= x <= a2 -> b1 <= y <= b2 -> c1 <= z <= c2 -> a1 <= x' <= a2 -> b1 <= y' <= b2 -> c1 <= z' <= c2 ->
     Rabs (f x y z - f x' y' z') <= K * (Rabs (x - x') + Rabs (y - y') + Rabs (z - z'))) ->
  exists I, is_triple_integral f a1 a2 b1 b2 c1 c2 I.
Proof.
  intros A B C P H.
  set (F x y z := f (clamp a1 a2 x) (clamp b1 b2 y) (clamp c1 c2 z)).
  assert (L : forall x y z x' y' z', Rabs (F x y z - F x' y' z') <= K * (Rabs (x - x') + Rabs (y - y') + Rabs (z - z'))).
  { intros. unfold F. eapply Rle_trans; [apply H; apply clamp_in; assumption|]. apply Rmult_le_compat_l; [exact P|].
    pose proof (clamp_lip a1 a2 x x'). pose proof (clamp_lip b1 b2 y y'). pose proof (clamp_lip c1 c2 z z'). lra. }
  assert (E1 : forall x y, ex_RInt (fun z => F x y z) c1 c2).
  { intros. apply (@ex_RInt_continuous R_CompleteNormedModule). intros z _. apply (lip_continuous _ K). intro z'.
    eapply Rle_trans; [apply L|]. rewrite !Rminus_eq_0, !Rabs_R0. right; ring. }
  set (g1 x y := RInt (fun z => F x y z) c1 c2).
  assert (I1 : forall x y, is_RInt (fun z => F x y z) c1 c2 (g1 x y)) by (intros; apply (@RInt_correct R_CompleteNormedModule), E1).
  assert (L1 : forall x y x' y', Rabs (g1 x y - g1 x' y') <= (c2 - c1) * (K * (Rabs (x - x') + Rabs (y - y')))).
  { intros. apply (RInt_lip _ _ _ _ _ _ _ C (I1 x y) (I1 x' y')). intros z _. eapply Rle_trans; [apply L|].
    rewrite Rminus_eq_0, Rabs_R0, Rplus_0_r. lra. }
  assert (E2 : forall x, ex_RInt (fun y => g1 x y) b1 b2).
  { intros. apply (@ex_RInt_continuous R_CompleteNormedModule). intros y _. apply (lip_continuous _ ((c2 - c1) * K)). intro y'.
    eapply Rle_trans; [apply L1|]. rewrite !Rminus_eq_0, !Rabs_R0. right; ring. }
  set (g2 x := RInt (fun y => g1 x y) b1 b2).
  assert (I2 : forall x, is_RInt (fun y => g1 x y) b1 b2 (g2 x)) by (intros; apply (@RInt_correct R_CompleteNormedModule), E2).
  assert (E3 : ex_RInt g2 a1 a2).
  { apply (@ex_RInt_continuous R_CompleteNormedModule). intros x _. apply (lip_continuous _ ((b2 - b1) * ((c2 - c1) * K))). intro x'.
    eapply Rle_trans; [apply (RInt_lip _ _ _ _ _ _ ((c2 - c1) * (K * Rabs (x' - x))) B (I2 x') (I2 x))|].
    - intros y _. eapply Rle_trans; [apply L1|]. rewrite Rminus_eq_0, Rabs_R0, Rplus_0_r. apply Rle_refl.
    - right; ring. }
  exists (RInt g2 a1 a2), g1, g2. split; [|split].
  - intros x y X Y. eapply is_RInt_ext_in; [exact C| |apply I1]. intros z Z. unfold F. rewrite !clamp_id by assumption. reflexivity.
  - intros x X. apply I2.
  - apply (@RInt_correct R_CompleteNormedModule), E3.
Qed.

(** ** linear combinations and bounds *)
Lemma triple_scal k f a1 a2 b1 b2 c1 c2 I : is_triple_integral f a1 a2 b1 b2 c1 c2 I ->
  is_triple_integral (fun x y z => k * f x y z) a1 a2 b1 b2 c1 c2 (k * I).
Proof.
  intros (f1 & f2 & F1 & F2 & F3). exists (fun x y => k * f1 x y), (fun x => k * f2 x). split; [|split].
  - intros x y X Y. exact (is_RInt_scal _ _ _ k _ (F1 x y X Y)).
  - intros x X. exact (is_RInt_scal _ _ _ k _ (F2 x X)).
  - exact (is_RInt_scal _ _ _ k _ F3).
Qed.
Lemma triple_lin k l f g a1 a2 b1 b2 c1 c2 I J :
  is_triple_integral f a1 a2 b1 b2 c1 c2 I -> is_triple_integral g a1 a2 b1 b2 c1 c2 J ->
  is_triple_integral (fun x y z => k * f x y z + l * g x y z) a1 a2 b1 b2 c1 c2 (k * I + l * J).
Proof.
  intros (f1 & f2 & F1 & F2 & F3) (g1 & g2 & G1 & G2 & G3).
  exists (fun x y => k * f1 x y + l * g1 x y), (fun x => k * f2 x + l * g2 x). split; [|split].
  - intros x y X Y. exact (is_RInt_plus _ _ _ _ _ _ (is_RInt_scal _ _ _ k _ (F1 x y X Y)) (is_RInt_scal _ _ _ l _ (G1 x y X Y))).
  - intros x X. exact (is_RInt_plus _ _ _ _ _ _ (is_RInt_scal _ _ _ k _ (F2 x X)) (is_RInt_scal _ _ _ l _ (G2 x X))).
  - exact (is_RInt_plus _ _ _ _ _ _ (is_RInt_scal _ _ _ k _ F3) (is_RInt_scal _ _ _ l _ G3)).
Qed.
Lemma triple_ext_in f g a1 a2 b1 b2 c1 c2 I : c1 <= c2 ->
  (forall x y z, a1 <= x <= a2 -> b1 <= y <= b2 -> c1 <= z <= c2 -> f x y z = g x y z) ->
  is_triple_integral f a1 a2 b1 b2 c1 c2 I -> is_triple_integral g a1 a2 b1 b2 c1 c2 I.
Proof.
  intros C E (f1 & f2 & F1 & F2 & F3). exists f1, f2. split; [|split; [exact F2|exact F3]].
  intros x y X Y. eapply is_RInt_ext_in; [exact C| |apply F1; eassumption]. intros z Z. apply E; assumption.
Qed.
Lemma triple_diff f g a1 a2 b1 b2 c1 c2 I J d : a1 <= a2 -> b1 <= b2 -> c1 <= c2 ->
  is_triple_integral f a1 a2 b1 b2 c1 c2 I -> is_triple_integral g a1 a2 b1 b2 c1 c2 J ->
  (forall x y z, a1 <= x <= a2 -> b1 <= y <= b2 -> c1 <= z <= c2 -> Rabs (f x y z - g x y z) <= d) ->
  Rabs (I - J) <= (a2 - a1) * (b2 - b1) * (c2 - c1) * d.
Proof.
  intros A B C (f1 & f2 & F1 & F2 & F3) (g1 & g2 & G1 & G2 & G3) H.
  rewrite !Rmult_assoc. apply (RInt_lip _ _ _ _ _ _ _ A F3 G3). intros x X.
  apply (RInt_lip _ _ _ _ _ _ _ B (F2 x X) (G2 x X)). intros y Y.
  apply (RInt_lip _ _ _ _ _ _ _ C (F1 x y X Y) (G1 x y X Y)). intros z Z. auto.
Qed.

(** ** differentiation under the integral sign *)
Lemma derive_quadratic (f : R -> R) t0 d e K : 0 < e ->
  (forall t, Rabs (t - t0) < e -> Rabs (f t - f t0 - d * (t - t0)) <= K * (t - t0) ^ 2) -> is_derive f t0 d.
Proof.
  intros He H. apply is_derive_Reals. intros eps Heps.
  assert (K1 : 0 < Rabs K + 1) by (pose proof (Rabs_pos K); lra).
  assert (P : 0 < Rmin e (eps / (Rabs K + 1))) by (apply Rmin_pos; [exact He|apply Rdiv_lt_0_compat; lra]).
  exists (mkposreal _ P). intros h Hh Y. cbn in Y.
  assert (Y1 : Rabs h < e) by (eapply Rlt_le_trans; [exact Y|apply Rmin_l]).
  assert (Y2 : Rabs h < eps / (Rabs K + 1)) by (eapply Rlt_le_trans; [exact Y|apply Rmin_r]).
  specialize (H (t0 + h)). replace (t0 + h - t0) with h in H by ring. specialize (H Y1).
  replace ((f (t0 + h) - f t0) / h - d) with ((f (t0 + h) - f t0 - d * h) / h) by (field; exact Hh).
  assert (Q : 0 < Rabs h) by (apply Rabs_pos_lt, Hh).
  unfold Rdiv. rewrite Rabs_mult, Rabs_Rinv by exact Hh.
  apply Rle_lt_trans with (K * h ^ 2 * / Rabs h).
  { apply Rmult_le_compat_r; [left; apply Rinv_0_lt_compat, Q|exact H]. }
  rewrite <- (pow2_abs h). replace (K * Rabs h ^ 2 * / Rabs h) with (K * Rabs h) by (field; lra).
  apply Rle_lt_trans with ((Rabs K + 1) * Rabs h).
  { apply Rmult_le_compat_r; [lra|]. pose proof (Rle_abs K); lra. }
  apply (Rmult_lt_compat_l (Rabs K + 1)) in Y2; [|exact K1].
  replace ((Rabs K + 1) * (eps / (Rabs K + 1))) with eps in Y2 by (field; lra). exact Y2.
Qed.
Lemma taylor_lip (f df : R -> R) t0 t e K : Rabs (t - t0) < e ->
  (forall s, Rabs (s - t0) < e -> is_derive f s (df s)) ->
  (forall s, Rabs (s - t0) < e -> Rabs (df s - df t0) <= K * Rabs (s - t0)) ->
  0 <= K -> Rabs (f t - f t0 - df t0 * (t - t0)) <= K * (t - t0) ^ 2.
Proof.
  intros H D L P.
  destruct (MVT_gen f t0 t df) as [c [C E]].
  - intros x X. apply D. revert X. unfold Rmin, Rmax. destruct Rle_dec; revert H; unfold Rabs; repeat destruct Rcase_abs; lra.
  - intros x X. apply derivable_continuous_pt. exists (df x). apply is_derive_Reals, D.
    revert X. unfold Rmin, Rmax. destruct Rle_dec; revert H; unfold Rabs; repeat destruct Rcase_abs; lra.
  - assert (Q : Rabs (c - t0) <= Rabs (t - t0)).
    { revert C. unfold Rmin, Rmax. destruct Rle_dec; unfold Rabs; repeat destruct Rcase_abs; lra. }
    rewrite E. replace (df c * (t - t0) - df t0 * (t - t0)) with ((df c - df t0) * (t - t0)) by ring.
    rewrite Rabs_mult, <- (pow2_abs (t - t0)). replace (K * Rabs (t - t0) ^ 2) with (K * Rabs (t - t0) * Rabs (t - t0)) by ring.
    apply Rmult_le_compat_r; [apply Rabs_pos|]. eapply Rle_trans; [apply L; lra|]. apply Rmult_le_compat_l; assumption.
Qed.
Lemma triple_derive (f df : R -> R -> R -> R -> R) (I : R -> R) J t0 e K a1 a2 b1 b2 c1 c2 :
  a1 <= a2 -> b1 <= b2 -> c1 <= c2 -> 0 < e -> 0 <= K ->
  (forall t, Rabs (t - t0) < e -> is_triple_integral (f t) a1 a2 b1 b2 c1 c2 (I t)) ->
  is_triple_integral (df t0) a1 a2 b1 b2 c1 c2 J ->
  (forall t x y z, Rabs (t - t0) < e -> a1 <= x <= a2 -> b1 <= y <= b2 -> c1 <= z <= c2 ->
     is_derive (fun s => f s x y z) t (df t x y z) /\ Rabs (df t x y z - df t0 x y z) <= K * Rabs (t - t0)) ->
  is_derive I t0 J.
Proof.
  intros A B C He HK HI HJ H.
  apply (derive_quadratic I t0 J e ((a2 - a1) * (b2 - b1) * (c2 - c1) * K) He).
  intros t T.
  replace (I t - I t0 - J * (t - t0)) with (I t - (1 * I t0 + (t - t0) * J)) by ring.
  rewrite Rmult_assoc. apply (triple_diff (f t) (fun x y z => 1 * f t0 x y z + (t - t0) * df t0 x y z)); try assumption.
  - apply HI, T.
  - apply triple_lin; [apply HI; rewrite Rminus_eq_0, Rabs_R0; exact He|exact HJ].
  - intros x y z X Y Z.
    replace (f t x y z - (1 * f t0 x y z + (t - t0) * df t0 x y z)) with (f t x y z - f t0 x y z - df t0 x y z * (t - t0)) by ring.
    apply (taylor_lip (fun s => f s x y z) (fun s => df s x y z) t0 t e K T); [| |exact HK].
    + intros s S0. apply H; assumption.
    + intros s S0. apply H; assumption.
Qed.
