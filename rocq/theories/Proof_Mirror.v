(** Nicholson's integral for I_1 K_1 - I_2 K_2 at large arguments (C139).  Generic mathematics. *)
From Coq Require Import Reals Lra Psatz.
From Coquelicot Require Import Coquelicot.
From Verif Require Import Vec3 Calculus Deriv Integral Cplx CplxTaylor SpecFun Spec_Fourier Spec_Hankel Spec_HalfSpace Proof_Fourier Proof_Hankel Proof_RTE6 Proof_RTE9 Proof_FDEM Proof_Bessel Proof_Bessel2 Proof_HalfSpace Proof_HalfSpace2 Proof_HalfSpace4.
Open Scope R_scope.

(** an improper integral is bounded by the integral of a bound *)
Lemma cint_bound F L (g : R -> R) (M : R) : is_cint F L -> is_RInt_gen g (at_right 0) inf M -> (forall t, 0 < t -> Cmod (F t) <= g t) -> Cmod L <= M.
Proof.
  intros [A B] G H.
  assert (Pr : forall p q, p * p + q * q = 1 -> p * Re L + q * Im L <= M).
  { intros p q U.
    assert (I : is_RInt_gen (fun t => p * Re (F t) + q * Im (F t)) (at_right 0) inf (p * Re L + q * Im L)).
    { exact (is_RInt_gen_plus _ _ _ _ (is_RInt_gen_scal _ p _ A) (is_RInt_gen_scal _ q _ B)). }
    eapply Rle_trans; [apply Rle_abs|]. change (norm (p * Re L + q * Im L) <= M).
    apply (RInt_gen_norm (V := R_CompleteNormedModule) (Fa := at_right 0) (Fb := inf) (fun t => p * Re (F t) + q * Im (F t)) g); [| |exact I|exact G].
    - apply (Filter_prod _ _ _ (fun x => x < 1) (fun y => 1 < y)).
      + exists (mkposreal 1 Rlt_0_1). intros y Hy _. unfold ball in Hy; cbn in Hy; unfold AbsRing_ball, abs, minus, plus, opp in Hy; cbn in Hy. apply Rabs_lt_between in Hy. lra.
      + exists 1. intros y Hy. exact Hy.
      + intros x y X Y. cbn. lra.
    - eapply filter_imp; [|exact pos_range]. intros [a b] Hp x Hx. cbn in *. assert (X : 0 < x) by (apply Hp; rewrite Rmin_left, Rmax_right; lra).
      eapply Rle_trans; [|apply H, X]. pose proof (Cmod_sqr (F x)) as C2. pose proof (Cmod_ge_0 (F x)). change (Rabs (p * Re (F x) + q * Im (F x)) <= Cmod (F x)).
      apply Rabs_le. assert ((p * Re (F x) + q * Im (F x)) * (p * Re (F x) + q * Im (F x)) <= Cmod (F x) * Cmod (F x)).
      { rewrite C2. pose proof (Rle_0_sqr (p * Im (F x) - q * Re (F x))) as Q. unfold Rsqr in Q. nra. }
      split; nra. }
  destruct (Req_dec (Cmod L) 0) as [Z|N].
  - rewrite Z. pose proof (Pr 1 0 ltac:(ring)) as P1. pose proof (Pr (-1) 0 ltac:(ring)) as P2. lra.
  - pose proof (Cmod_ge_0 L). pose proof (Cmod_sqr L) as C2. pose proof (Pr (Re L / Cmod L) (Im L / Cmod L)) as P1.
    replace (Re L / Cmod L * Re L + Im L / Cmod L * Im L) with ((Re L * Re L + Im L * Im L) / Cmod L) in P1 by (field; lra).
    rewrite <- C2 in P1. replace (Cmod L * Cmod L / Cmod L) with (Cmod L) in P1 by (field; lra). apply P1.
    replace (Re L / Cmod L * (Re L / Cmod L) + Im L / Cmod L * (Im L / Cmod L)) with ((Re L * Re L + Im L * Im L) / (Cmod L * Cmod L)) by (field; lra). rewrite <- C2. field. lra.
Qed.

(** ** primitives of J0 *)
Notation J0 s := (bessel0 (2 * s)).
Notation J1 s := (bessel1 (2 * s)).
Lemma two_pos : 0 < 2. Proof. lra. Qed.
Definition Fn (s : R) : R := FF 2 s.
Lemma D_Fn s : 0 < s -> is_derive Fn s (J1 s / s). Proof. intros P. apply (D_FF 2 two_pos s P). Qed.
Lemma D_J0 s : is_derive (fun s => J0 s) s (- (2 * J1 s)). Proof. apply D_J0l. Qed.
Lemma D_J1 s : 0 < s -> is_derive (fun s => J1 s) s (2 * J0 s - J1 s / s). Proof. intros P. apply D_J1l; lra. Qed.
Definition Qn (s : R) : R := 1 / 2 - BB 2 s.
Lemma D_Qn s : is_derive Qn s (- J0 s).
Proof. unfold Qn. eapply is_derive_eq; [apply D_minus; [apply D_const|apply D_BB]|]. ring. Qed.
Definition Q1 (s : R) : R := s * (1 - Fn s) / 2.
Lemma D_Q1 s : 0 < s -> is_derive Q1 s (Qn s).
Proof.
  intros P. unfold Q1. apply (D_ext (fun s => / 2 * (s * (1 - Fn s)))); [intros t; field|].
  eapply is_derive_eq; [apply D_scal, D_mult; [apply D_id|apply D_minus; [apply D_const|apply D_Fn, P]]|]. unfold Qn, Fn, FF. field. lra.
Qed.
(** |1 - Fn s| <= 1/s *)
Lemma Fn_near s : 0 < s -> Rabs (1 - Fn s) <= / s.
Proof.
  intros P.
  assert (I : forall t, s <= t -> Rabs ((Fn t + J0 t / (2 * t)) - (Fn s + J0 s / (2 * s))) <= / (2 * s)).
  { intros t T.
    assert (Dz : forall x, 0 < x -> is_derive (fun x => Fn x + J0 x / (2 * x)) x (- (J0 x / (2 * (x * x))))).
    { intros x X. eapply is_derive_eq; [apply D_plus; [apply D_Fn, X|apply D_div; [apply D_J0|apply D_scal, D_id|lra]]|]. cbv beta. field. lra. }
    assert (Mo : forall e, e = 1 \/ e = -1 -> e * ((Fn t + J0 t / (2 * t)) - (Fn s + J0 s / (2 * s))) + (/ (2 * t) - / (2 * s)) <= 0).
    { intros e He. destruct (Req_dec s t) as [->|N]; [lra|].
      assert (Dd : forall x, s <= x <= t -> is_derive (fun x => e * (Fn x + J0 x / (2 * x)) + / (2 * x)) x (e * - (J0 x / (2 * (x * x))) - / (2 * (x * x)))).
      { intros x X. eapply is_derive_eq; [apply D_plus; [apply D_scal, Dz; lra|apply D_inv; [apply D_scal, D_id|lra]]|]. cbv beta. field. lra. }
      destruct (MVT_gen (fun x => e * (Fn x + J0 x / (2 * x)) + / (2 * x)) s t (fun x => e * - (J0 x / (2 * (x * x))) - / (2 * (x * x)))) as [c [Hc Ec]].
      - intros x X. rewrite Rmin_left, Rmax_right in X by lra. apply Dd. lra.
      - intros x X. rewrite Rmin_left, Rmax_right in X by lra. eapply derive_continuity. apply Dd. lra.
      - rewrite Rmin_left, Rmax_right in Hc by lra. cbv beta in Ec. pose proof (J0_bound (2 * c)) as Bc. apply Rabs_le_between in Bc.
        assert (Ic : 0 < / (2 * (c * c))) by (apply Rinv_0_lt_compat; nra). unfold Rdiv in Ec at 3. 
        assert (e * - (J0 c * / (2 * (c * c))) - / (2 * (c * c)) <= 0) by (destruct He; subst e; nra). nra. }
    pose proof (Mo 1 (or_introl eq_refl)). pose proof (Mo (-1) (or_intror eq_refl)). assert (0 < / (2 * t)) by (apply Rinv_0_lt_compat; lra). apply Rabs_le. lra. }
  assert (Near : Rabs (1 - (Fn s + J0 s / (2 * s))) <= / (2 * s)).
  { apply Rnot_lt_le. intros Hlt. set (e := Rabs (1 - (Fn s + J0 s / (2 * s))) - / (2 * s)) in *. assert (E : 0 < e) by (unfold e; lra).
    set (T := Rmax (Rmax s 1) (Rsqr (2 * (2 + 2 * cc 2 + / 2 + 1) / e))). set (t := T + 1).
    assert (T1 : s <= t /\ 1 <= t /\ Rsqr (2 * (2 + 2 * cc 2 + / 2 + 1) / e) <= t).
    { unfold t, T. pose proof (Rmax_l (Rmax s 1) (Rsqr (2 * (2 + 2 * cc 2 + / 2 + 1) / e))). pose proof (Rmax_r (Rmax s 1) (Rsqr (2 * (2 + 2 * cc 2 + / 2 + 1) / e))). pose proof (Rmax_l s 1). pose proof (Rmax_r s 1). lra. }
    destruct T1 as (Ts & T1 & Tq). pose proof (cc_pos 2 two_pos) as Cp.
    pose proof (FF_far 2 two_pos t ltac:(lra) T1) as Ff. fold (Fn t) in Ff. pose proof (I t Ts) as It. pose proof (J0_bound (2 * t)) as Jb.
    assert (Sq : 0 < sqrt t) by (apply sqrt_lt_R0; lra). assert (St : sqrt t * sqrt t = t) by (apply sqrt_sqrt; lra). assert (S1 : 1 <= sqrt t) by nra.
    assert (W : 2 * (2 + 2 * cc 2 + / 2 + 1) / e <= sqrt t).
    { apply Rsqr_incr_0_var; [|lra]. unfold Rsqr at 2. rewrite St. exact Tq. }
    assert (W2 : (2 + 2 * cc 2 + / 2 + 1) / sqrt t <= e / 2).
    { apply (Rle_div_l _ _ (sqrt t) Sq). replace (2 * (2 + 2 * cc 2 + / 2 + 1) / e) with ((2 + 2 * cc 2 + / 2 + 1) * / (e / 2)) in W by (field; lra).
      apply (Rmult_le_compat_l (e / 2)) in W; [|lra]. replace (e / 2 * ((2 + 2 * cc 2 + / 2 + 1) * / (e / 2))) with (2 + 2 * cc 2 + / 2 + 1) in W by (field; lra). exact W. }
    assert (W3 : Rabs (J0 t / (2 * t)) <= 1 / sqrt t).
    { unfold Rdiv. rewrite Rabs_mult, (Rabs_right (/ (2 * t))) by (left; apply Rinv_0_lt_compat; lra). apply Rmult_le_compat; [apply Rabs_pos|left; apply Rinv_0_lt_compat; lra|exact Jb|]. apply Rinv_le_contravar; [lra|]. nra. }
    unfold Rdiv in W2. rewrite Rmult_plus_distr_r in W2. fold (Rdiv (2 + 2 * cc 2 + / 2) (sqrt t)) in W2. fold (Rdiv 1 (sqrt t)) in W2.
    assert (Rabs (1 - (Fn s + J0 s / (2 * s))) <= Rabs (Fn t - 1) + Rabs (J0 t / (2 * t)) + Rabs ((Fn t + J0 t / (2 * t)) - (Fn s + J0 s / (2 * s)))).
    { replace (1 - (Fn s + J0 s / (2 * s))) with (- (Fn t - 1) + (- (J0 t / (2 * t)) + ((Fn t + J0 t / (2 * t)) - (Fn s + J0 s / (2 * s))))) by ring.
      eapply Rle_trans; [apply Rabs_triang|]. rewrite Rabs_Ropp. rewrite Rplus_assoc. apply Rplus_le_compat_l. eapply Rle_trans; [apply Rabs_triang|]. rewrite Rabs_Ropp. lra. }
    unfold e in *. lra. }
  assert (W3 : Rabs (J0 s / (2 * s)) <= / (2 * s)).
  { unfold Rdiv. rewrite Rabs_mult, (Rabs_right (/ (2 * s))) by (left; apply Rinv_0_lt_compat; lra). pose proof (J0_bound (2 * s)). assert (0 < / (2 * s)) by (apply Rinv_0_lt_compat; lra). nra. }
  replace (1 - Fn s) with (1 - (Fn s + J0 s / (2 * s)) + J0 s / (2 * s)) by ring. eapply Rle_trans; [apply Rabs_triang|]. replace (/ s) with (/ (2 * s) + / (2 * s)) by (field; lra). lra.
Qed.
Lemma Q1_bound s : 0 < s -> Rabs (Q1 s) <= 1 / 2.
Proof.
  intros P. unfold Q1. replace (s * (1 - Fn s) / 2) with (/ 2 * s * (1 - Fn s)) by field. rewrite Rabs_mult, (Rabs_right (/ 2 * s)) by lra. pose proof (Fn_near s P) as N.
  apply (Rmult_le_compat_l (/ 2 * s)) in N; [|lra]. replace (/ 2 * s * / s) with (1 / 2) in N by (field; lra). exact N.
Qed.
Lemma Qn_bound s : 1 <= s -> Rabs (Qn s) <= 1.
Proof.
  intros P. replace (Qn s) with (/ 2 * (1 - Fn s) + - (/ 2 * J1 s)) by (unfold Qn, Fn, FF; field). eapply Rle_trans; [apply Rabs_triang|]. rewrite Rabs_Ropp, !Rabs_mult, (Rabs_right (/ 2)) by lra.
  pose proof (Fn_near s ltac:(lra)) as N. pose proof (J1_bound (2 * s)). assert (/ s <= 1) by (rewrite <- Rinv_1; apply Rinv_le_contravar; lra). lra.
Qed.
