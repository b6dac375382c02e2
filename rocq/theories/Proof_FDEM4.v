(** The harmonic loop helper functions and the dipole on a half-space (C64, C68). *)
From Coq Require Import Reals Lra List.
From Coquelicot Require Import Coquelicot.
From Verif Require Import Vec3 Calculus Deriv Cplx CplxTaylor Radial Numpy Model_Spatial Model_Static Model_FDEM
  Proof_Static2 Proof_FDEM Proof_FDEM2 Proof_FDEM3 Proof_Loop2.
Open Scope R_scope.

(** ** a small-argument bound *)
Lemma poly_bound (a b c d0 d1 d2 d3 : R) (u : C) : Cmod u <= 1 ->
  Cmod (RtoC a * (u * u * u) + RtoC b * (u * u * u * u) + RtoC c * (u * u * u * u * u)
        + (RtoC d0 + RtoC d1 * u + RtoC d2 * (u * u) + RtoC d3 * (u * u * u)) * e2 u)%C
  <= (Rabs a + Rabs b + Rabs c + 24 * (Rabs d0 + Rabs d1 + Rabs d2 + Rabs d3)) * (Cmod u * Cmod u * Cmod u).
Proof.
  intro H. pose proof (e2_bound u H) as E. pose proof (Cmod_ge_0 u) as P.
  set (m := Cmod u) in *.
  assert (A : Cmod (RtoC d0 + RtoC d1 * u + RtoC d2 * (u * u) + RtoC d3 * (u * u * u))%C <= Rabs d0 + Rabs d1 + Rabs d2 + Rabs d3).
  { eapply Rle_trans; [apply Cmod_triangle|]. apply Rplus_le_compat.
    - eapply Rle_trans; [apply Cmod_triangle|]. apply Rplus_le_compat.
      + eapply Rle_trans; [apply Cmod_triangle|]. apply Rplus_le_compat.
        * rewrite Cmod_R; lra.
        * rewrite Cmod_mult, Cmod_R. fold m. pose proof (Rabs_pos d1). nra.
      + rewrite !Cmod_mult, Cmod_R. fold m. pose proof (Rabs_pos d2). assert (m * m <= 1) by nra. nra.
    - rewrite !Cmod_mult, Cmod_R. fold m. pose proof (Rabs_pos d3). assert (m * m <= 1) by nra.
      assert (0 <= m * m) by nra. assert (m * m * m <= 1) by nra. nra. }
  assert (m3 : 0 <= m * m * m) by (apply Rmult_le_pos; nra).
  replace ((Rabs a + Rabs b + Rabs c + 24 * (Rabs d0 + Rabs d1 + Rabs d2 + Rabs d3)) * (m * m * m))
    with (Rabs a * (m * m * m) + Rabs b * (m * m * m) + Rabs c * (m * m * m)
          + (Rabs d0 + Rabs d1 + Rabs d2 + Rabs d3) * (24 * (m * m * m))) by ring.
  eapply Rle_trans; [apply Cmod_triangle|]. apply Rplus_le_compat.
  - eapply Rle_trans; [apply Cmod_triangle|]. apply Rplus_le_compat.
    + eapply Rle_trans; [apply Cmod_triangle|]. apply Rplus_le_compat.
      * rewrite !Cmod_mult, Cmod_R. fold m. lra.
      * rewrite !Cmod_mult, Cmod_R. fold m. pose proof (Rabs_pos b). apply Rmult_le_compat_l; [lra|]. nra.
    + rewrite !Cmod_mult, Cmod_R. fold m. pose proof (Rabs_pos c). apply Rmult_le_compat_l; [lra|].
      assert (m * m <= 1) by nra. replace (m * m * m * m * m) with ((m * m * m) * (m * m)) by ring. nra.
  - rewrite Cmod_mult. apply Rmult_le_compat; [apply Cmod_ge_0|apply Cmod_ge_0|exact A|exact E].
Qed.

Lemma RtoC_half : RtoC (/ 2) = (/ RtoC 2)%C.
Proof. apply RtoC_inv. lra. Qed.

Lemma two_neq : (1 + 1)%C <> 0%C.
Proof. rewrite <- C2. apply RtoC_neq; lra. Qed.

(** dividing a third-order quantity by u^2 *)
Lemma third_order (z u : C) (B : R) : u <> 0%C -> Cmod z <= B * (Cmod u * Cmod u * Cmod u) ->
  Cmod (z / (u * u))%C <= B * Cmod u.
Proof.
  intros N H. assert (0 < Cmod u) by (apply Cmod_gt_0, N).
  assert (U2 : (u * u)%C <> 0%C) by (apply Cmult_neq_0; exact N).
  rewrite Cmod_div by exact U2. rewrite Cmod_mult.
  apply Rle_div_l; [nra|]. lra.
Qed.

Ltac cabs := repeat match goal with |- context [Rabs ?x] => first [rewrite (Rabs_right x) by lra | rewrite (Rabs_left x) by lra] end.

(** P1: the horizontal loop and phi *)
Lemma P1_bound (u : C) : u <> 0%C -> Cmod u <= 1 ->
  Cmod ((3 - (3 + 3 * u + u * u) * cexp (- u)) / (u * u) - / RtoC 2)%C <= 170 * Cmod u.
Proof.
  intros N H.
  replace ((3 - (3 + 3 * u + u * u) * cexp (- u)) / (u * u) - / RtoC 2)%C
    with ((RtoC (- / 2) * (u * u * u) + RtoC (- / 2) * (u * u * u * u) + RtoC 0 * (u * u * u * u * u)
        + (RtoC (-3) + RtoC (-3) * u + RtoC (-1) * (u * u) + RtoC 0 * (u * u * u)) * e2 u) / (u * u))%C.
  - apply third_order; [exact N|]. eapply Rle_trans; [apply poly_bound, H|].
    apply Rmult_le_compat_r.
    + pose proof (Cmod_ge_0 u). apply Rmult_le_pos; nra.
    + rewrite Rabs_R0. cabs. lra.
  - rewrite cexp_e2. generalize (e2 u). intro e.
    assert (Cm3 : RtoC (-3) = (- (1 + 1 + 1))%C) by (ceq; ring).
    rewrite RtoC_opp, RtoC_half, Cm3. cnum.
    field. repeat split; first [exact N|exact two_neq].
Qed.

(** P2: the vertical field of a vertical dipole *)
Lemma P2_bound (u : C) : u <> 0%C -> Cmod u <= 1 ->
  Cmod ((9 - (9 + 9 * u + 4 * (u * u) + u * u * u) * cexp (- u)) / (u * u) - / RtoC 2)%C <= 555 * Cmod u.
Proof.
  intros N H.
  replace ((9 - (9 + 9 * u + 4 * (u * u) + u * u * u) * cexp (- u)) / (u * u) - / RtoC 2)%C
    with ((RtoC (- (3 * / 2)) * (u * u * u) + RtoC (-1) * (u * u * u * u) + RtoC (- / 2) * (u * u * u * u * u)
        + (RtoC (-9) + RtoC (-9) * u + RtoC (-4) * (u * u) + RtoC (-1) * (u * u * u)) * e2 u) / (u * u))%C.
  - apply third_order; [exact N|]. eapply Rle_trans; [apply poly_bound, H|].
    apply Rmult_le_compat_r.
    + pose proof (Cmod_ge_0 u). apply Rmult_le_pos; nra.
    + cabs. lra.
  - rewrite cexp_e2. generalize (e2 u). intro e.
    assert (Cm9 : RtoC (-9) = (- ((1 + 1 + 1) * (1 + 1 + 1)))%C) by (ceq; ring).
    assert (Cm4 : RtoC (-4) = (- (1 + 1 + 1 + 1))%C) by (ceq; ring).
    rewrite !RtoC_opp, RtoC_mult, RtoC_half, Cm9, Cm4. cnum.
    field. repeat split; first [exact N|exact two_neq].
Qed.

(** P3: the derivative of phi *)
Lemma P3_bound (u : C) : u <> 0%C -> Cmod u <= 1 ->
  Cmod ((2 * (u * u) - 12 + (u * u * u + 5 * (u * u) + 12 * u + 12) * cexp (- u)) / (u * u) - 1)%C <= 724 * Cmod u.
Proof.
  intros N H.
  replace ((2 * (u * u) - 12 + (u * u * u + 5 * (u * u) + 12 * u + 12) * cexp (- u)) / (u * u) - 1)%C
    with ((RtoC 2 * (u * u * u) + RtoC (3 * / 2) * (u * u * u * u) + RtoC (/ 2) * (u * u * u * u * u)
        + (RtoC 12 + RtoC 12 * u + RtoC 5 * (u * u) + RtoC 1 * (u * u * u)) * e2 u) / (u * u))%C.
  - apply third_order; [exact N|]. eapply Rle_trans; [apply poly_bound, H|].
    apply Rmult_le_compat_r.
    + pose proof (Cmod_ge_0 u). apply Rmult_le_pos; nra.
    + cabs. lra.
  - rewrite cexp_e2. generalize (e2 u). intro e.
    rewrite RtoC_mult, RtoC_half. cnum.
    field. repeat split; first [exact N|exact two_neq].
Qed.

(** ** C68 *)
Lemma iku (k : C) : (Ci * k * (Ci * k))%C = (- (k * k))%C.
Proof. replace (Ci * k * (Ci * k))%C with ((Ci * Ci) * (k * k))%C by ring. rewrite Ci2. ring. Qed.

Lemma loop_total_secondary f sg mu a I n :
  loop_hz f sg mu a I n false = (loop_hz f sg mu a I n true + RtoC (n * (I / 2 / a)))%C.
Proof. unfold loop_hz. cbv zeta. rewrite (RtoC_mult n (I / 2 / a)). ring. Qed.

Lemma Cmod_csqrt (z : C) : Cmod (csqrt z) * Cmod (csqrt z) = Cmod z.
Proof. rewrite <- Cmod_mult, csqrt_sq. reflexivity. Qed.

Lemma loop_secondary_bound f sg mu a I n : 0 < f -> 0 < sg -> 0 < mu -> 0 < a ->
  2 * PI * f * mu * sg * a ^ 2 <= 1 ->
  Cmod (loop_hz f sg mu a I n true) <= 170 * Rabs (n * I) * sqrt (2 * PI * f * mu * sg).
Proof.
  intros F S M A SM. pose proof PI_RGT_0 as P.
  unfold loop_hz. cbv zeta. set (w := 2 * PI * f) in *.
  assert (W : 0 < w) by (unfold w; nra).
  set (z := (- Ci * w * mu * sg)%C). set (k := csqrt z).
  assert (X : 0 < w * mu * sg) by (apply Rmult_lt_0_compat; [apply Rmult_lt_0_compat|]; assumption).
  assert (Z : Cmod z = w * mu * sg).
  { unfold z. rewrite !Cmod_mult, Cmod_opp, !Cmod_R.
    assert (Cmod Ci = 1) by (unfold Cmod, Ci; simpl; replace (0 * (0 * 1) + 1 * (1 * 1)) with 1 by ring; apply sqrt_1).
    rewrite H, !Rabs_right by lra. ring. }
  assert (K : Cmod k = sqrt (w * mu * sg)).
  { symmetry. apply sqrt_lem_1; [lra|apply Cmod_ge_0|]. unfold k. rewrite Cmod_csqrt. exact Z. }
  assert (K0 : k <> 0%C).
  { intro E. rewrite E, Cmod_0 in K. pose proof (sqrt_lt_R0 _ X). lra. }
  set (u := (Ci * k * a)%C).
  assert (U : Cmod u = sqrt (w * mu * sg) * a).
  { unfold u. rewrite !Cmod_mult, Cmod_R, K, (Rabs_right a) by lra.
    assert (Cmod Ci = 1) by (unfold Cmod, Ci; simpl; replace (0 * (0 * 1) + 1 * (1 * 1)) with 1 by ring; apply sqrt_1).
    rewrite H. ring. }
  assert (U1 : Cmod u <= 1).
  { rewrite U. apply Rsqr_incr_0_var; [|lra]. unfold Rsqr.
    replace (sqrt (w * mu * sg) * a * (sqrt (w * mu * sg) * a)) with (sqrt (w * mu * sg) * sqrt (w * mu * sg) * a ^ 2) by ring.
    rewrite sqrt_sqrt by lra. lra. }
  assert (CA : RtoC a <> 0%C) by (apply RtoC_neq; lra).
  assert (U0 : u <> 0%C).
  { unfold u. apply Cmult_neq_0; [apply Cmult_neq_0; [|exact K0]|exact CA].
    intro E. apply (f_equal Im) in E. simpl in E. lra. }
  assert (UU : (u * u)%C = (- (k * k) * (a * a))%C).
  { unfold u. replace (Ci * k * a * (Ci * k * a))%C with ((Ci * k * (Ci * k)) * (a * a))%C by ring. rewrite iku. ring. }
  match goal with |- Cmod (_ * ?h)%C <= _ => replace h with
    (RtoC I / RtoC a * ((3 - (3 + 3 * u + u * u) * cexp (- u)) / (u * u) - / RtoC 2))%C end.
  - rewrite !Cmod_mult, Cmod_R. rewrite Cmod_div by exact CA. rewrite !Cmod_R, (Rabs_right a) by lra.
    pose proof (P1_bound u U0 U1) as B. rewrite U in B.
    rewrite Rabs_mult. pose proof (Rabs_pos n). pose proof (Rabs_pos I).
    assert (0 <= Rabs I / a) by (apply Rdiv_le_0_compat; lra).
    replace (170 * (Rabs n * Rabs I) * sqrt (w * mu * sg)) with (Rabs n * (Rabs I / a * (170 * (sqrt (w * mu * sg) * a))))
      by (field; lra).
    apply Rmult_le_compat_l; [lra|]. apply Rmult_le_compat_l; [lra|]. exact B.
  - replace (- Ci * k * a)%C with (- u)%C by (unfold u; ring).
    replace (3 * Ci * k * a)%C with (3 * u)%C by (unfold u; ring).
    cbn [cpow]. replace (k * (k * 1) * (a * (a * 1)))%C with (- (u * u))%C by (rewrite UU; ring).
    replace (k * (k * 1) * (a * (a * (a * 1))))%C with (- (u * u) * a)%C by (rewrite UU; ring).
    rewrite RtoC_div, RtoC_div by lra. generalize (cexp (- u))%C. intro e. clearbody u.
    cnum. field. repeat split; try first [assumption|exact two_neq].
    intro E. apply (Cmult_neq_0 u u U0 U0). replace (u * u)%C with (- - (u * u))%C by ring. rewrite E. ring.
Qed.

Lemma loop_secondary_limit sg mu a I n : 0 < sg -> 0 < mu -> 0 < a ->
  forall eps, 0 < eps -> exists f0, 0 < f0 /\ forall f, 0 < f < f0 -> Cmod (loop_hz f sg mu a I n true) < eps.
Proof.
  intros S M A eps E. pose proof PI_RGT_0 as P.
  set (c := 2 * PI * mu * sg).
  assert (C0 : 0 < c) by (unfold c; apply Rmult_lt_0_compat; [apply Rmult_lt_0_compat; [lra|assumption]|assumption]).
  set (B := 170 * Rabs (n * I) + 1). assert (B0 : 0 < B) by (unfold B; pose proof (Rabs_pos (n * I)); lra).
  set (d := eps / B). assert (D : 0 < d) by (apply Rdiv_lt_0_compat; assumption).
  assert (CA : 0 < c * a ^ 2) by (apply Rmult_lt_0_compat; [assumption|apply pow_lt, A]).
  exists (Rmin (/ (c * a ^ 2)) (d * d / c)). split.
  - apply Rmin_pos; [apply Rinv_0_lt_compat; lra|]. apply Rdiv_lt_0_compat; nra.
  - intros f [F1 F2]. pose proof (Rlt_le_trans _ _ _ F2 (Rmin_l _ _)) as F3.
    pose proof (Rlt_le_trans _ _ _ F2 (Rmin_r _ _)) as F4.
    assert (Q : c * f < d * d).
    { apply (Rmult_lt_compat_l c) in F4; [|exact C0]. replace (c * (d * d / c)) with (d * d) in F4 by (field; lra). lra. }
    assert (T : sqrt (c * f) < d).
    { rewrite <- (sqrt_square d) by lra. apply sqrt_lt_1; nra. }
    eapply Rle_lt_trans; [apply loop_secondary_bound; try assumption|].
    + assert (G : f * (c * a ^ 2) < 1).
      { apply (Rmult_lt_compat_r (c * a ^ 2)) in F3; [|lra]. rewrite Rinv_l in F3 by lra. exact F3. }
      unfold c in G. replace (2 * PI * f * mu * sg * a ^ 2) with (f * (2 * PI * mu * sg * a ^ 2)) by ring. lra.
    + replace (2 * PI * f * mu * sg) with (c * f) by (unfold c; ring).
      pose proof (sqrt_pos (c * f)). pose proof (Rabs_pos (n * I)).
      apply Rle_lt_trans with (B * sqrt (c * f)); [unfold B; nra|].
      replace eps with (B * d) by (unfold d; field; lra). apply Rmult_lt_compat_l; assumption.
Qed.
