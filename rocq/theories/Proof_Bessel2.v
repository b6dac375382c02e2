(** The integral of J1(x)/x over x > 0 is 1.  Generic mathematics. *)
From Coq Require Import Reals Lra Psatz.
From Coquelicot Require Import Coquelicot.
From Verif Require Import Vec3 Calculus Deriv Integral Cplx CplxTaylor SpecFun Spec_Fourier Spec_Hankel Proof_Fourier Proof_Hankel Proof_RTE6 Proof_RTE9 Proof_Bessel.
Open Scope R_scope.

Lemma D_J1l la t : la <> 0 -> t <> 0 -> is_derive (fun x => bessel1 (la * x)) t (la * bessel0 (la * t) - bessel1 (la * t) / t).
Proof.
  intros L T. replace (la * bessel0 (la * t) - bessel1 (la * t) / t) with (la * (bessel0 (la * t) - bessel1 (la * t) / (la * t))) by (field; split; assumption).
  apply (D_comp bessel1 (fun x => la * x)); [apply D_bessel1; now apply Rmult_integral_contrapositive_currified|]. eapply is_derive_eq; [der|ring].
Qed.
Lemma bessel1_0 : bessel1 0 = 0. Proof. pose proof (J1_small 0) as H. rewrite Rabs_R0 in H. pose proof (Rabs_pos (bessel1 0)). destruct (Req_dec (bessel1 0) 0) as [E|N]; [exact E|]. apply Rabs_pos_lt in N. lra. Qed.
Lemma bessel0_0 : bessel0 0 = 1. Proof. apply (proj1 bessel_lemma). Qed.
Lemma J1_cont x : continuity_pt bessel1 x.
Proof.
  destruct (Req_dec x 0) as [->|N].
  - intros e He. exists e. split; [exact He|]. intros y [_ Hy]. cbn in *. unfold R_dist in *. rewrite Rminus_0_r in Hy. rewrite bessel1_0, Rminus_0_r. pose proof (J1_small y). lra.
  - eapply derive_continuity, D_bessel1, N.
Qed.
Lemma J1l_cont la x : continuity_pt (fun t => bessel1 (la * t)) x.
Proof. apply (continuity_pt_comp (fun t => la * t) bessel1); [|apply J1_cont]. eapply derive_continuity. der. Qed.

Section One.
  Variable la : R.
  Hypothesis L : 0 < la.
  Definition BB (x : R) : R := RInt (fun r => bessel0 (la * r)) 0 x.
  Lemma D_BB x : is_derive BB x (bessel0 (la * x)).
  Proof.
    assert (Cc : forall t, continuous (fun r => bessel0 (la * r)) t) by (intros t; apply continuity_pt_filterlim; eapply derive_continuity, D_J0l).
    apply (is_derive_RInt (fun r => bessel0 (la * r)) BB 0 x); [|apply Cc].
    exists (mkposreal 1 Rlt_0_1). intros y _. apply (RInt_correct (V:=R_CompleteNormedModule)), ex_RInt_continuous. intros t _. apply Cc.
  Qed.
  Definition FF (x : R) : R := la * BB x - bessel1 (la * x).
  Lemma D_FF x : 0 < x -> is_derive FF x (bessel1 (la * x) / x).
  Proof.
    intros X. unfold FF. pose proof (D_BB x) as D. pose proof (D_J1l la x ltac:(lra) ltac:(lra)) as D1.
    eapply is_derive_eq; [apply D_minus; [apply D_scal, D|exact D1]|]. ring.
  Qed.
  Lemma FF_0 : FF 0 = 0. Proof. unfold FF, BB. rewrite RInt_point, !Rmult_0_r, bessel1_0. apply Rminus_0_r. Qed.
  Lemma FF_cont x : continuity_pt FF x.
  Proof. unfold FF. apply (continuity_pt_minus (fun x => la * BB x) (fun x => bessel1 (la * x))); [|apply J1l_cont]. apply (continuity_pt_scal BB). eapply derive_continuity, D_BB. Qed.

  Section Eps.
    Variable ep : R.
    Hypothesis E : 0 < ep.
    Lemma uu_real : uu (RtoC ep) la = RtoC (sqrt (la ^ 2 + ep ^ 2)).
    Proof.
      unfold uu. symmetry. apply csqrt_unique.
      - cbn. apply sqrt_lt_R0. nra.
      - rewrite <- !RtoC_mult, <- RtoC_plus. f_equal. rewrite sqrt_sqrt by nra. ring.
    Qed.
    Lemma real_prim : exists a : R -> R, a 0 = 0 /\ (forall t, is_derive a t (exp (- (ep * t)) * bessel0 (la * t))) /\ filterlim a inf (locally (/ sqrt (la ^ 2 + ep ^ 2))).
    Proof.
      destruct (laplace_prim (RtoC ep) E la) as (A & A0 & D & [Lm _]). exists (fun t => Re (A t)). split; [|split].
      - now rewrite A0.
      - intros t. eapply is_derive_eq; [exact (proj1 (D t))|].
        replace (- (RtoC t * RtoC ep))%C with (RtoC (- (ep * t))) by (rewrite RtoC_opp, RtoC_mult; ring).
        rewrite <- cexp_real || idtac. unfold cexp. cbn. rewrite sin_0, cos_0. ring.
      - replace (/ sqrt (la ^ 2 + ep ^ 2)) with (Re (/ uu (RtoC ep) la)%C); [exact Lm|]. rewrite uu_real, <- RtoC_inv; [reflexivity|].
        intros Z. pose proof (sqrt_lt_R0 (la ^ 2 + ep ^ 2)) as Hs. assert (0 < la ^ 2 + ep ^ 2) by nra. specialize (Hs H). lra.
    Qed.
    (** the integral of exp(-ep r) J1(la r)/r *)
    Definition MM (a : R -> R) (x : R) : R := (la + ep * ep / la) * a x + ep / la * (exp (- (ep * x)) * bessel0 (la * x) - 1) - exp (- (ep * x)) * bessel1 (la * x).
    Lemma D_MM a x : 0 < x -> is_derive a x (exp (- (ep * x)) * bessel0 (la * x)) -> is_derive (MM a) x (exp (- (ep * x)) * (bessel1 (la * x) / x)).
    Proof.
      intros X Da. unfold MM. pose proof (D_J0l la x) as D0. pose proof (D_J1l la x ltac:(lra) ltac:(lra)) as D1.
      assert (De : is_derive (fun x => exp (- (ep * x))) x (- ep * exp (- (ep * x)))) by (eapply is_derive_eq; [der|ring]).
      eapply is_derive_eq; [apply D_minus; [apply D_plus; [apply D_scal, Da|apply D_scal, D_minus; [apply D_mult; [exact De|exact D0]|apply D_const]]|apply D_mult; [exact De|exact D1]]|].
      cbv beta. field. split; lra.
    Qed.
    Lemma MM_cont a x : (forall t, is_derive a t (exp (- (ep * t)) * bessel0 (la * t))) -> continuity_pt (MM a) x.
    Proof.
      intros Da. unfold MM. assert (De : continuity_pt (fun x => exp (- (ep * x))) x) by (eapply derive_continuity; der).
      assert (D0 : continuity_pt (fun x => bessel0 (la * x)) x) by (eapply derive_continuity, D_J0l).
      apply (continuity_pt_minus (fun x => (la + ep * ep / la) * a x + ep / la * (exp (- (ep * x)) * bessel0 (la * x) - 1)) (fun x => exp (- (ep * x)) * bessel1 (la * x))).
      - apply (continuity_pt_plus (fun x => (la + ep * ep / la) * a x) (fun x => ep / la * (exp (- (ep * x)) * bessel0 (la * x) - 1))).
        + apply (continuity_pt_scal a). eapply derive_continuity, Da.
        + apply (continuity_pt_scal (fun x => exp (- (ep * x)) * bessel0 (la * x) - 1)).
          apply (continuity_pt_minus (fun x => exp (- (ep * x)) * bessel0 (la * x)) (fun _ => 1)); [|apply continuity_pt_const; intros ? ?; reflexivity].
          apply (continuity_pt_mult (fun x => exp (- (ep * x))) (fun x => bessel0 (la * x))); assumption.
      - apply (continuity_pt_mult (fun x => exp (- (ep * x))) (fun x => bessel1 (la * x))); [assumption|apply J1l_cont].
    Qed.
    Lemma MM_0 a : a 0 = 0 -> MM a 0 = 0.
    Proof. intros A. unfold MM. rewrite A, !Rmult_0_r, Ropp_0, exp_0, bessel0_0, bessel1_0. ring. Qed.
    Lemma near a x : a 0 = 0 -> (forall t, is_derive a t (exp (- (ep * t)) * bessel0 (la * t))) -> 0 < x -> Rabs (FF x - MM a x) <= ep * la * (x * x).
    Proof.
      intros A Da X. destruct (MVT_gen (fun t => FF t - MM a t) 0 x (fun t => bessel1 (la * t) / t - exp (- (ep * t)) * (bessel1 (la * t) / t))) as [c [Hc Ec]].
      - intros t Ht. rewrite Rmin_left, Rmax_right in Ht by lra. apply D_minus; [apply D_FF; lra|apply D_MM; [lra|apply Da]].
      - intros t Ht. apply (continuity_pt_minus FF (MM a)); [apply FF_cont|apply MM_cont, Da].
      - rewrite Rmin_left, Rmax_right in Hc by lra. rewrite FF_0, (MM_0 a A), !Rminus_0_r in Ec. rewrite Ec.
        destruct (Req_dec c 0) as [->|N].
        + rewrite Rmult_0_r, bessel1_0. unfold Rdiv. rewrite !Rmult_0_l, Rmult_0_r, Rminus_0_r, Rmult_0_l, Rabs_R0. assert (0 < ep * la) by nra. assert (0 < x * x) by nra. nra.
        + assert (P : 0 < c) by lra.
          replace (bessel1 (la * c) / c - exp (- (ep * c)) * (bessel1 (la * c) / c)) with ((1 - exp (- (ep * c))) * (bessel1 (la * c) / c)) by ring.
          rewrite !Rabs_mult, (Rabs_right x) by lra.
          assert (B1 : Rabs (bessel1 (la * c) / c) <= la).
          { unfold Rdiv. rewrite Rabs_mult, (Rabs_right (/ c)) by (left; now apply Rinv_0_lt_compat). apply (proj2 (Rle_div_l _ _ c P)).
            pose proof (J1_small (la * c)) as Hj. rewrite (Rabs_right (la * c)) in Hj by nra. exact Hj. }
          assert (B2 : Rabs (1 - exp (- (ep * c))) <= ep * c).
          { pose proof (exp_ineq1_le (- (ep * c))). assert (exp (- (ep * c)) <= 1). { rewrite <- exp_0. left. apply exp_increasing. nra. } rewrite Rabs_right; lra. }
          pose proof (Rabs_pos (bessel1 (la * c) / c)). pose proof (Rabs_pos (1 - exp (- (ep * c)))).
          assert (Rabs (1 - exp (- (ep * c))) * Rabs (bessel1 (la * c) / c) <= ep * c * la) by (apply Rmult_le_compat; lra).
          assert (ep * c * la <= ep * x * la) by (apply Rmult_le_compat_r; [lra|]; apply Rmult_le_compat_l; lra).
          replace (ep * la * (x * x)) with (ep * x * la * x) by ring. apply Rmult_le_compat_r; lra.
    Qed.
    Definition cc : R := bC / sqrt la.
    Lemma cc_pos : 0 <= cc. Proof. unfold cc. apply Rdiv_le_0_compat; [apply bC_pos|now apply sqrt_lt_R0]. Qed.
    Lemma slope_small x : / la <= x -> Rabs (exp (- (ep * x)) * (bessel1 (la * x) / x)) <= cc / (x * sqrt x).
    Proof.
      intros X. assert (P : 0 < / la) by now apply Rinv_0_lt_compat. assert (Px : 0 < x) by lra.
      assert (X1 : 1 <= la * x). { apply (Rmult_le_compat_l la) in X; [|lra]. rewrite Rinv_r in X by lra. exact X. }
      rewrite Rabs_mult, (Rabs_right (exp _)) by (left; apply exp_pos). pose proof (proj2 (J_decay (la * x) X1)) as J.
      assert (exp (- (ep * x)) <= 1). { rewrite <- exp_0. left. apply exp_increasing. nra. }
      unfold Rdiv at 1. rewrite Rabs_mult, (Rabs_right (/ x)) by (left; now apply Rinv_0_lt_compat).
      rewrite sqrt_mult in J by lra. pose proof (exp_pos (- (ep * x))). pose proof (Rabs_pos (bessel1 (la * x))). assert (0 < / x) by now apply Rinv_0_lt_compat.
      assert (0 < sqrt x) by now apply sqrt_lt_R0. assert (0 < sqrt la) by now apply sqrt_lt_R0.
      apply Rle_trans with (1 * (bC / (sqrt la * sqrt x) * / x)).
      - apply Rmult_le_compat; [lra|apply Rmult_le_pos; lra|lra|]. apply Rmult_le_compat_r; lra.
      - right. unfold cc. field. repeat split; lra.
    Qed.
    Lemma D_tail x : 0 < x -> is_derive (fun x => 2 * cc / sqrt x) x (- (cc / (x * sqrt x))).
    Proof.
      intros X. assert (P : 0 < sqrt x) by now apply sqrt_lt_R0. replace (cc / (x * sqrt x)) with (cc / (sqrt x * sqrt x * sqrt x)) by (rewrite sqrt_sqrt; [reflexivity|lra]).
      eapply is_derive_eq; [der; try lra|]. field. lra.
    Qed.
    Lemma tail a x y : (forall t, is_derive a t (exp (- (ep * t)) * bessel0 (la * t))) -> / la <= x -> x <= y -> Rabs (MM a y - MM a x) <= 2 * cc / sqrt x.
    Proof.
      intros Da X Y. assert (P : 0 < / la) by now apply Rinv_0_lt_compat. pose proof cc_pos as Cp.
      assert (Sy : 0 <= 2 * cc / sqrt y) by (apply Rdiv_le_0_compat; [lra|apply sqrt_lt_R0; lra]).
      destruct (Req_dec x y) as [->|N]; [rewrite Rminus_diag_eq, Rabs_R0 by reflexivity; exact Sy|].
      assert (M : forall s, s = 1 \/ s = -1 -> s * (MM a y - MM a x) + (2 * cc / sqrt y - 2 * cc / sqrt x) <= 0).
      { intros s Hs. destruct (MVT_gen (fun t => s * MM a t + 2 * cc / sqrt t) x y (fun t => s * (exp (- (ep * t)) * (bessel1 (la * t) / t)) + - (cc / (t * sqrt t)))) as [c [Hc Ec]].
        - intros t Ht. rewrite Rmin_left, Rmax_right in Ht by lra. apply D_plus; [apply D_scal, D_MM; [lra|apply Da]|apply D_tail; lra].
        - intros t Ht. rewrite Rmin_left, Rmax_right in Ht by lra. apply (continuity_pt_plus (fun t => s * MM a t) (fun t => 2 * cc / sqrt t)).
          + apply (continuity_pt_scal (MM a)), MM_cont, Da.
          + eapply derive_continuity, D_tail. lra.
        - rewrite Rmin_left, Rmax_right in Hc by lra. pose proof (slope_small c ltac:(lra)) as B.
          set (d := exp (- (ep * c)) * (bessel1 (la * c) / c)) in *. apply Rabs_le_between in B.
          assert (s * d + - (cc / (c * sqrt c)) <= 0) by (destruct Hs; subst s; lra). nra. }
      pose proof (M 1 (or_introl eq_refl)). pose proof (M (-1) (or_intror eq_refl)). apply Rabs_le. lra.
    Qed.
    Lemma MM_lim a : filterlim a inf (locally (/ sqrt (la ^ 2 + ep ^ 2))) -> filterlim (MM a) inf (locally ((sqrt (la ^ 2 + ep ^ 2) - ep) / la)).
    Proof.
      intros A. assert (H : 0 < la ^ 2 + ep ^ 2) by nra. assert (Hs : 0 < sqrt (la ^ 2 + ep ^ 2)) by now apply sqrt_lt_R0.
      assert (Z : forall g, (forall x, Rabs (g x) <= 1) -> filterlim (fun x => exp (- (ep * x)) * g x) inf (locally 0)).
      { intros g G. apply lim_abs; [apply Rbar_locally_filter|]. intros e He. apply (filter_imp (fun t => 0 < t /\ 1 < t /\ / ep / sqrt t < e)).
        - intros t (T & T1 & Te). rewrite Rminus_0_r, Rabs_mult, (Rabs_right (exp _)) by (left; apply exp_pos). pose proof (exp_decay ep t E ltac:(lra)). pose proof (exp_pos (- (ep * t))). pose proof (G t). pose proof (Rabs_pos (g t)). nra.
        - apply at_inf_sqrt; [exact He|left; now apply Rinv_0_lt_compat]. }
      replace ((sqrt (la ^ 2 + ep ^ 2) - ep) / la) with ((la + ep * ep / la) * / sqrt (la ^ 2 + ep ^ 2) + ep / la * (0 + -1) + -1 * 0).
      - unfold MM. apply (filterlim_ext (fun x => (la + ep * ep / la) * a x + ep / la * (exp (- (ep * x)) * bessel0 (la * x) + -1) + -1 * (exp (- (ep * x)) * bessel1 (la * x)))).
        { intros x. ring. }
        apply lim_plus; [apply Rbar_locally_filter|apply lim_plus; [apply Rbar_locally_filter|apply lim_scal; [apply Rbar_locally_filter|exact A]|]|].
        + apply lim_scal; [apply Rbar_locally_filter|]. apply lim_plus; [apply Rbar_locally_filter| |apply filterlim_const]. apply Z. intros x. apply J0_bound.
        + apply lim_scal; [apply Rbar_locally_filter|]. apply Z. intros x. apply J1_bound.
      - assert (Q : sqrt (la ^ 2 + ep ^ 2) * sqrt (la ^ 2 + ep ^ 2) = la ^ 2 + ep ^ 2) by (apply sqrt_sqrt; lra).
        replace (la + ep * ep / la) with (sqrt (la ^ 2 + ep ^ 2) * sqrt (la ^ 2 + ep ^ 2) / la) by (rewrite Q; field; lra). field. split; lra.
    Qed.
    Lemma far x : / la <= x -> Rabs (FF x - 1) <= ep * la * (x * x) + 2 * cc / sqrt x + ep / la.
    Proof.
      intros X. assert (P : 0 < / la) by now apply Rinv_0_lt_compat. destruct real_prim as (a & A0 & Da & A).
      pose proof (near a x A0 Da ltac:(lra)) as N. pose proof (MM_lim a A) as Lm. set (m := (sqrt (la ^ 2 + ep ^ 2) - ep) / la) in *.
      assert (T : Rabs (m - MM a x) <= 2 * cc / sqrt x).
      { apply (filterlim_le (F := inf) (fun y => Rabs (MM a y - MM a x)) (fun _ => 2 * cc / sqrt x) (Rabs (m - MM a x)) (2 * cc / sqrt x)).
        - exists x. intros y Hy. apply tail; [exact Da|exact X|lra].
        - eapply filterlim_comp; [|exact (filterlim_Rabs (m - MM a x))]. apply lim_plus; [apply Rbar_locally_filter|exact Lm|apply filterlim_const].
        - apply filterlim_const. }
      assert (Q : Rabs (m - 1) <= ep / la).
      { unfold m. replace ((sqrt (la ^ 2 + ep ^ 2) - ep) / la - 1) with ((sqrt (la ^ 2 + ep ^ 2) - ep - la) * / la) by (field; lra).
        rewrite Rabs_mult, (Rabs_right (/ la)) by lra. unfold Rdiv. apply Rmult_le_compat_r; [lra|].
        assert (sqrt (la ^ 2 + ep ^ 2) <= la + ep). { rewrite <- (sqrt_pow2 (la + ep)) by lra. apply sqrt_le_1_alt. nra. }
        assert (la <= sqrt (la ^ 2 + ep ^ 2)). { rewrite <- (sqrt_pow2 la) at 1 by lra. apply sqrt_le_1_alt. nra. }
        apply Rabs_le. lra. }
      apply Rabs_le_between in N. apply Rabs_le_between in T. apply Rabs_le_between in Q. apply Rabs_le. lra.
    Qed.
  End Eps.
  Lemma FF_far x : / la <= x -> 1 <= x -> Rabs (FF x - 1) <= (la + 2 * cc + / la) / sqrt x.
  Proof.
    intros X X1. assert (P : 0 < / la) by now apply Rinv_0_lt_compat. assert (E : 0 < / x ^ 3) by (apply Rinv_0_lt_compat, pow_lt; lra).
    pose proof (far (/ x ^ 3) E x X) as B. eapply Rle_trans; [exact B|].
    assert (S1 : 1 <= sqrt x) by (rewrite <- sqrt_1; apply sqrt_le_1_alt; lra). assert (S2 : sqrt x * sqrt x = x) by (apply sqrt_sqrt; lra).
    assert (Ix : / x <= / sqrt x) by (apply Rinv_le_contravar; nra).
    assert (Iy : / x ^ 3 <= / sqrt x). { apply Rinv_le_contravar; [lra|]. assert (x <= x * x) by nra. assert (x * x <= x ^ 3) by nra. nra. }
    replace (/ x ^ 3 * la * (x * x)) with (la * / x) by (field; lra). unfold Rdiv.
    replace ((la + 2 * cc + / la) * / sqrt x) with (la * / sqrt x + 2 * cc * / sqrt x + / sqrt x * / la) by ring.
    assert (la * / x <= la * / sqrt x) by (apply Rmult_le_compat_l; lra). assert (/ x ^ 3 * / la <= / sqrt x * / la) by (apply Rmult_le_compat_r; lra). lra.
  Qed.
  Lemma FF_lim : clim inf (fun x => RtoC (FF x)) (RtoC 1).
  Proof.
    assert (P : 0 < / la) by now apply Rinv_0_lt_compat. pose proof cc_pos.
    apply (clim_inf _ _ (la + 2 * cc + / la) (Rmax 1 (/ la))); [lra|]. intros x X Mx. pose proof (Rmax_l 1 (/ la)). pose proof (Rmax_r 1 (/ la)).
    rewrite <- RtoC_minus, Cmod_R. apply FF_far; lra.
  Qed.
  Lemma FF_lim0 : clim (at_right 0) (fun x => RtoC (FF x)) (RtoC 0).
  Proof.
    split; [|apply (filterlim_const (F := at_right 0) 0)]. cbn. apply (filterlim_filter_le_1 (F := locally 0)); [intros Q [e He]; exists e; intros y Hy _; now apply He|].
    pose proof (FF_cont 0) as H. apply continuity_pt_filterlim in H. rewrite FF_0 in H. exact H.
  Qed.
  Lemma int_J1_over : is_cint (fun r => RtoC (bessel1 (la * r) / r)) (RtoC 1).
  Proof.
    replace (RtoC 1) with (RtoC 1 - RtoC 0)%C by ring. apply (cint_FTC (fun x => RtoC (FF x))).
    - intros t T. apply CD_real, D_FF, T.
    - intros t T. eexists. apply CD_real. apply D_div; [apply D_J1l; lra|apply D_id|lra].
    - exact FF_lim0.
    - exact FF_lim.
  Qed.
End One.
