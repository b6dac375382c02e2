(** The basic transforms, by antiderivatives built from the complex error function. *)
From Coq Require Import Reals Lra Lia.
From Coquelicot Require Import Coquelicot.
From Verif Require Import Vec3 Calculus Deriv Integral Cplx CplxTaylor SpecFun Model_TDEM Proof_FDEM Cerf Spec_Fourier Proof_Fourier Proof_Fourier2.
Open Scope R_scope.

Definition E1 (a b t : R) : C := (RtoC 1 - cerf (zz a b t))%C.

Lemma near_one x y e : 0 < x -> 0 <= e -> cerf_near x y e -> Cmod (RtoC 1 - cerf (x, y))%C <= 2 / x ^ 2 + 2 * e.
Proof.
  intros Hx He [A B]. eapply Rle_trans; [apply Cmod_le_parts|].
  pose proof (erf_near_1 x Hx). pose proof (erf_lt_1 x) as [_ L]. pose proof PI2_1.
  assert (4 / PI <= 2) by (apply Rle_div_l; lra). assert (P : 0 < x ^ 2) by nra. pose proof (exp_inv (x ^ 2) P) as X. pose proof (exp_pos (- x ^ 2)).
  assert (1 - erf x <= 2 * exp (- x ^ 2)) by nra.
  replace (Re (RtoC 1 - cerf (x, y))%C) with (1 - Re (cerf (x, y))) by (cbn; unfold Re; ring).
  replace (Im (RtoC 1 - cerf (x, y))%C) with (- Im (cerf (x, y))) by (cbn; unfold Im; ring). rewrite Rabs_Ropp.
  assert (Rabs (1 - Re (cerf (x, y))) <= 2 / x ^ 2 + e); [|lra].
  replace (1 - Re (cerf (x, y))) with ((1 - erf x) + - (Re (cerf (x, y)) - erf x)) by ring. eapply Rle_trans; [apply Rabs_triang|].
  rewrite Rabs_Ropp, (Rabs_right (1 - erf x)) by lra. unfold Rdiv. lra.
Qed.

Section Limits.
  Variables a b : R.
  Hypothesis Ha : 0 < a.
  Hypothesis Hb : 0 < b.

  Lemma E1_0 : clim (at_right 0) (E1 a b) (RtoC 0).
  Proof.
    assert (A2 : 0 < a ^ 2) by nra. assert (0 < 8 / a ^ 2) by (apply Rdiv_lt_0_compat; lra).
    apply (clim_0_small _ _ (8 / a ^ 2 + 4 * b) 1); [lra|lra|]. intros t [Ht H1]. pose proof (sqrt_lt_R0 t Ht) as Hs. assert (Hss : sqrt t * sqrt t = t) by (apply sqrt_sqrt; lra).
    assert (S1 : sqrt t < 1) by (rewrite <- sqrt_1; apply sqrt_lt_1; lra).
    replace (E1 a b t - RtoC 0)%C with (RtoC 1 - cerf (zz a b t))%C by (unfold E1; ring). unfold zz.
    set (u := sqrt t) in *. assert (X : 0 < a / (2 * u)) by (apply Rdiv_lt_0_compat; lra). assert (Y : 0 < b * u) by nra.
    assert (Ex : exp ((b * u) ^ 2 - (a / (2 * u) + b * u) ^ 2) <= 1).
    { rewrite <- exp_0. left. apply exp_increasing. nra. }
    eapply Rle_trans; [apply near_one; [lra| |apply cerf_low; lra]|].
    - pose proof (exp_pos ((b * u) ^ 2 - (a / (2 * u) + b * u) ^ 2)). nra.
    - assert (Q : 2 / (a / (2 * u) + b * u) ^ 2 <= 8 / a ^ 2 * u).
      { apply Rle_trans with (2 / (a / (2 * u)) ^ 2).
        - unfold Rdiv at 1 3. apply Rmult_le_compat_l; [lra|]. apply Rinv_le_contravar; [nra|]. apply pow_incr. lra.
        - replace (2 / (a / (2 * u)) ^ 2) with (8 / a ^ 2 * (u * u)) by (field; lra). apply Rmult_le_compat_l; [lra|]. nra. }
      assert (2 * (b * u) * exp ((b * u) ^ 2 - (a / (2 * u) + b * u) ^ 2) <= 2 * (b * u)) by nra. lra.
  Qed.

  Lemma E2_0 : clim (at_right 0) (E1 a (- b)) (RtoC 0).
  Proof.
    assert (A2 : 0 < a ^ 2) by nra. assert (0 < 32 / a ^ 2) by (apply Rdiv_lt_0_compat; lra). pose proof (exp_pos (a * b)).
    assert (D0 : 0 < a / (4 * b)) by (apply Rdiv_lt_0_compat; lra).
    apply (clim_0_small _ _ (32 / a ^ 2 + 4 * (b * exp (a * b))) (Rmin 1 (a / (4 * b)))); [nra|apply Rmin_glb_lt; lra|].
    intros t [Ht H1]. pose proof (Rmin_l 1 (a / (4 * b))). pose proof (Rmin_r 1 (a / (4 * b))).
    pose proof (sqrt_lt_R0 t Ht) as Hs. assert (Hss : sqrt t * sqrt t = t) by (apply sqrt_sqrt; lra).
    assert (S1 : sqrt t < 1) by (rewrite <- sqrt_1; apply sqrt_lt_1; lra).
    replace (E1 a (- b) t - RtoC 0)%C with (RtoC 1 - cerf (zz a (- b) t))%C by (unfold E1; ring). unfold zz.
    set (u := sqrt t) in *. assert (X : 0 < a / (4 * u)) by (apply Rdiv_lt_0_compat; lra). assert (Y : 0 < b * u) by nra.
    assert (T : b * u <= a / (4 * u)).
    { apply (Rmult_le_reg_r (4 * u)); [lra|]. replace (a / (4 * u) * (4 * u)) with a by (field; lra). assert (t * (4 * b) < a) by (apply (proj2 (Rlt_div_r t a (4 * b) ltac:(lra))); lra). replace (b * u * (4 * u)) with (u * u * (4 * b)) by ring. rewrite Hss. lra. }
    replace (a / (2 * u) + - b * u) with (a / (4 * u) + (a / (4 * u) - b * u)) by (field; lra). replace (- b * u) with (- (b * u)) by ring.
    set (d := a / (4 * u) - b * u). assert (0 <= d) by (unfold d; lra).
    assert (Ex : exp ((b * u) ^ 2 - (a / (4 * u) + d) ^ 2) <= exp (a * b)).
    { left. apply exp_increasing. unfold d. assert (a * b = 4 * ((b * u) * (a / (4 * u)))) by (field; lra). nra. }
    eapply Rle_trans; [apply near_one; [lra| |apply cerf_below, cerf_low; lra]|].
    - pose proof (exp_pos ((b * u) ^ 2 - (a / (4 * u) + d) ^ 2)). nra.
    - assert (Q : 2 / (a / (4 * u) + d) ^ 2 <= 32 / a ^ 2 * u).
      { apply Rle_trans with (2 / (a / (4 * u)) ^ 2).
        - unfold Rdiv at 1 3. apply Rmult_le_compat_l; [lra|]. apply Rinv_le_contravar; [nra|]. apply pow_incr. lra.
        - replace (2 / (a / (4 * u)) ^ 2) with (32 / a ^ 2 * (u * u)) by (field; lra). apply Rmult_le_compat_l; [lra|]. nra. }
      assert (2 * (b * u) * exp ((b * u) ^ 2 - (a / (4 * u) + d) ^ 2) <= 2 * (b * u) * exp (a * b)) by (apply Rmult_le_compat_l; lra). lra.
  Qed.
End Limits.

Section LimitsInf.
  Variables a b : R.
  Hypothesis Ha : 0 <= a.
  Hypothesis Hb : 0 < b.

  Lemma E1_inf : clim inf (E1 a b) (RtoC 0).
  Proof.
    assert (B2 : 0 < b ^ 2) by nra. assert (0 < 2 / b ^ 2) by (apply Rdiv_lt_0_compat; lra). assert (0 < 4 / b) by (apply Rdiv_lt_0_compat; lra).
    apply (clim_inf _ _ (2 / b ^ 2 + 4 / b) 1); [lra|]. intros t Ht H1. pose proof (sqrt_lt_R0 t Ht) as Hs. assert (Hss : sqrt t * sqrt t = t) by (apply sqrt_sqrt; lra).
    assert (S1 : 1 < sqrt t) by (rewrite <- sqrt_1; apply sqrt_lt_1; lra).
    replace (E1 a b t - RtoC 0)%C with (RtoC 1 - cerf (zz a b t))%C by (unfold E1; ring). unfold zz.
    set (u := sqrt t) in *. assert (X : 0 <= a / (2 * u)) by (apply Rdiv_le_0_compat; lra). assert (Y : 0 < b * u) by nra.
    assert (Ex : exp ((b * u) ^ 2 - (a / (2 * u) + b * u) ^ 2) <= 1).
    { rewrite <- exp_0. destruct (Req_dec ((b * u) ^ 2 - (a / (2 * u) + b * u) ^ 2) 0) as [-> |N]; [lra|]. left. apply exp_increasing. nra. }
    eapply Rle_trans; [apply near_one; [lra| |apply cerf_up; lra]|].
    - apply Rdiv_le_0_compat; [|lra]. pose proof (exp_pos ((b * u) ^ 2 - (a / (2 * u) + b * u) ^ 2)). lra.
    - assert (Q : 2 / (a / (2 * u) + b * u) ^ 2 <= 2 / b ^ 2 / u).
      { apply Rle_trans with (2 / (b * u) ^ 2).
        - unfold Rdiv. apply Rmult_le_compat_l; [lra|]. apply Rinv_le_contravar; [nra|]. apply pow_incr. unfold Rdiv in X. lra.
        - replace (2 / (b * u) ^ 2) with (2 / b ^ 2 / u * / u) by (field; lra). assert (0 < 2 / b ^ 2 / u) by (apply Rdiv_lt_0_compat; lra).
          assert (/ u < 1) by (rewrite <- Rinv_1; apply Rinv_1_lt_contravar; lra). nra. }
      assert (Q2 : 2 * (2 * exp ((b * u) ^ 2 - (a / (2 * u) + b * u) ^ 2) / (b * u)) <= 4 / b / u).
      { replace (4 / b / u) with (2 * (2 * 1 / (b * u))) by (field; lra). apply Rmult_le_compat_l; [lra|]. unfold Rdiv. apply Rmult_le_compat_r; [left; apply Rinv_0_lt_compat; lra|].
        unfold Rdiv in Ex. lra. }
      replace ((2 / b ^ 2 + 4 / b) / u) with (2 / b ^ 2 / u + 4 / b / u) by (field; lra). lra.
  Qed.

  Lemma E2_inf : clim inf (E1 a (- b)) (RtoC 2).
  Proof.
    assert (B2 : 0 < b ^ 2) by nra. assert (0 < 8 / b ^ 2) by (apply Rdiv_lt_0_compat; lra). pose proof (exp_pos (a * b)).
    assert (0 < 4 * exp (a * b) / b) by (apply Rdiv_lt_0_compat; lra).
    apply (clim_inf _ _ (8 / b ^ 2 + 4 * exp (a * b) / b) (Rmax 1 (a / b))); [lra|]. intros t Ht HM. pose proof (Rmax_l 1 (a / b)). pose proof (Rmax_r 1 (a / b)).
    pose proof (sqrt_lt_R0 t Ht) as Hs. assert (Hss : sqrt t * sqrt t = t) by (apply sqrt_sqrt; lra).
    assert (S1 : 1 < sqrt t) by (rewrite <- sqrt_1; apply sqrt_lt_1; lra).
    replace (E1 a (- b) t - RtoC 2)%C with (- (RtoC 1 - cerf (- zz a (- b) t)))%C.
    2:{ unfold E1. rewrite cerf_opp. replace (RtoC 2) with (RtoC 1 + RtoC 1)%C by (rewrite <- RtoC_plus; f_equal; ring). ring. }
    rewrite Cmod_opp. replace (- zz a (- b) t)%C with ((b * sqrt t - a / (2 * sqrt t), b * sqrt t) : C) by (unfold zz; apply C_eq; cbn; field; lra).
    set (u := sqrt t) in *. assert (Y : 0 < b * u) by nra. assert (X : a / (2 * u) <= b * u / 2).
    { apply (Rmult_le_reg_r (2 * u)); [lra|]. replace (a / (2 * u) * (2 * u)) with a by (field; lra). assert (a < t * b) by (apply (proj1 (Rlt_div_l a t b ltac:(lra))); lra). replace (b * u / 2 * (2 * u)) with (u * u * b) by field. rewrite Hss. lra. }
    assert (X0 : 0 <= a / (2 * u)) by (apply Rdiv_le_0_compat; lra).
    set (x := b * u - a / (2 * u)). assert (Hx : b * u / 2 <= x) by (unfold x; lra).
    assert (Ex : exp ((b * u) ^ 2 - x ^ 2) <= exp (a * b)).
    { assert ((b * u) ^ 2 - x ^ 2 <= a * b).
      { unfold x. assert (a * b = 2 * ((b * u) * (a / (2 * u)))) by (field; lra). nra. }
      destruct (Req_dec ((b * u) ^ 2 - x ^ 2) (a * b)) as [-> |N]; [lra|]. left. apply exp_increasing. lra. }
    eapply Rle_trans; [apply near_one; [lra| |apply cerf_up; lra]|].
    - apply Rdiv_le_0_compat; [|lra]. pose proof (exp_pos ((b * u) ^ 2 - x ^ 2)). lra.
    - assert (Q : 2 / x ^ 2 <= 8 / b ^ 2 / u).
      { apply Rle_trans with (2 / (b * u / 2) ^ 2).
        - unfold Rdiv at 1 2. apply Rmult_le_compat_l; [lra|]. apply Rinv_le_contravar; [nra|]. apply pow_incr. lra.
        - replace (2 / (b * u / 2) ^ 2) with (8 / b ^ 2 / u * / u) by (field; lra). assert (0 < 8 / b ^ 2 / u) by (apply Rdiv_lt_0_compat; lra).
          assert (/ u < 1) by (rewrite <- Rinv_1; apply Rinv_1_lt_contravar; lra). nra. }
      assert (Q2 : 2 * (2 * exp ((b * u) ^ 2 - x ^ 2) / (b * u)) <= 4 * exp (a * b) / b / u).
      { replace (4 * exp (a * b) / b / u) with (2 * (2 * exp (a * b) / (b * u))) by (field; lra). apply Rmult_le_compat_l; [lra|]. unfold Rdiv. apply Rmult_le_compat_r; [left; apply Rinv_0_lt_compat; lra|lra]. }
      replace ((8 / b ^ 2 + 4 * exp (a * b) / b) / u) with (8 / b ^ 2 / u + 4 * exp (a * b) / b / u) by (field; lra). lra.
  Qed.
End LimitsInf.

(** for a = 0 the antiderivatives start at the origin of the complex plane *)
Lemma E1_0_a0 c : clim (at_right 0) (E1 0 c) (RtoC 1).
Proof.
  assert (Z : forall t, 0 < t -> (E1 0 c t - RtoC 1)%C = (- cerf (zz 0 c t))%C) by (intros; unfold E1; ring).
  set (d := Rabs c). pose proof (Rabs_pos c). fold d in H.
  apply (clim_0 _ _ (6 * d)); [lra|]. intros t Ht. rewrite Z by exact Ht. rewrite Cmod_opp. pose proof (sqrt_lt_R0 t Ht) as Hs.
  assert (N : forall x y, 0 <= y -> x ^ 2 = y ^ 2 -> cerf_near x y (2 * y)).
  { intros x y Hy E. pose proof (cerf_low x y Hy) as N. rewrite E, Rminus_eq_0, exp_0, Rmult_1_r in N. exact N. }
  assert (Er : forall x, Rabs (erf x) <= 2 * Rabs x).
  { intro x. assert (P : forall v, 0 <= v -> Rabs (erf v) <= 2 * v).
    - intros v Hv. replace (erf v) with (erf v - erf 0) by (rewrite erf_0; ring). replace (2 * v) with (2 * v - 2 * 0) by ring.
      apply (derive_compare erf (fun x => 2 / sqrt PI * exp (- x ^ 2)) (fun x => 2 * x) (fun _ => 2)); [exact Hv|intros; apply D_erf| |].
      + intros z _. eapply is_derive_eq; [apply D_scal, D_id|]. rchg. ring.
      + intros z _. pose proof two_root_pi. pose proof (exp_pos (- z ^ 2)). assert (exp (- z ^ 2) <= 1).
        { rewrite <- exp_0. destruct (Req_dec (z ^ 2) 0) as [-> |N0]; [rewrite Ropp_0; lra|left; apply exp_increasing; nra]. }
        rewrite Rabs_right by nra. nra.
    - unfold Rabs at 2. destruct (Rcase_abs x) as [L|L]; [|apply P; lra]. assert (O : erf (- x) = - erf x).
      { pose proof (cerf_real (- x)) as A. rewrite RtoC_opp, cerf_opp, cerf_real in A. apply (f_equal fst) in A. cbn in A. lra. }
      rewrite <- (Rabs_Ropp (erf x)), <- O. apply P. lra. }
  assert (NN : cerf_near (0 / (2 * sqrt t) + c * sqrt t) (c * sqrt t) (2 * (d * sqrt t))).
  { replace (0 / (2 * sqrt t) + c * sqrt t) with (c * sqrt t) by (field; lra). unfold d, Rabs. destruct (Rcase_abs c).
    - replace (c * sqrt t) with (- (- c * sqrt t)) at 2 by ring. apply cerf_below, N; [nra|ring].
    - apply N; [nra|ring]. }
  destruct NN as [A B]. unfold zz. eapply Rle_trans; [apply Cmod_le_parts|].
  assert (X : Rabs (erf (0 / (2 * sqrt t) + c * sqrt t)) <= 2 * (d * sqrt t)).
  { eapply Rle_trans; [apply Er|]. replace (0 / (2 * sqrt t) + c * sqrt t) with (c * sqrt t) by (field; lra). rewrite Rabs_mult, (Rabs_right (sqrt t)) by lra. fold d. lra. }
  set (z := cerf (0 / (2 * sqrt t) + c * sqrt t, c * sqrt t)) in *. set (e := erf (0 / (2 * sqrt t) + c * sqrt t)) in *.
  assert (Rabs (Re z) <= 2 * (d * sqrt t) + 2 * (d * sqrt t)).
  { replace (Re z) with ((Re z - e) + e) by ring. eapply Rle_trans; [apply Rabs_triang|]. lra. }
  lra.
Qed.
