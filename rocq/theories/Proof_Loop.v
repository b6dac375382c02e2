(** C41-C43: circular current loop, in the loop's own cylindrical frame. *)
From Coq Require Import Reals Lra.
From Coquelicot Require Import Coquelicot.
From Verif Require Import Vec3 Calculus Deriv Integral Elliptic Periodic Model_Static.
Open Scope R_scope.

(** the formulas without the small radius branch *)
Definition xA (a C rho z : R) : R :=
  let b2 := (a + rho) ^ 2 + z ^ 2 in let m := 1 - ((a - rho) ^ 2 + z ^ 2) / b2 in
  C / (2 * rho * sqrt b2) * ((a ^ 2 + rho ^ 2 + z ^ 2) * ellipk m - b2 * ellipe m).
Definition xBr (a C rho z : R) : R :=
  let b2 := (a + rho) ^ 2 + z ^ 2 in let a2 := (a - rho) ^ 2 + z ^ 2 in let m := 1 - a2 / b2 in
  C * z / (2 * a2 * sqrt b2 * rho) * ((a ^ 2 + rho ^ 2 + z ^ 2) * ellipe m - a2 * ellipk m).

Lemma cl_A_phi_exact a C rho z : small_rho a rho z = false -> cl_A_phi a C rho z = xA a C rho z.
Proof. intro H. unfold cl_A_phi. rewrite H. reflexivity. Qed.
Lemma cl_B_rho_exact a C rho z : small_rho a rho z = false -> cl_B_rho a C rho z = xBr a C rho z.
Proof. intro H. unfold cl_B_rho. rewrite H. reflexivity. Qed.

Section Ring.
Variables a rho z : R.
Hypothesis Ha : 0 < a.
Hypothesis Hr : 0 < rho.
Hypothesis Off : 0 < (a - rho) ^ 2 + z ^ 2.
Let b2 := (a + rho) ^ 2 + z ^ 2.
Let a2 := (a - rho) ^ 2 + z ^ 2.
Let m := 1 - a2 / b2.

Lemma ring_b2 : 0 < b2. Proof. unfold b2. pose proof (pow2_ge_0 z). assert (0 < (a + rho) ^ 2) by (apply pow_lt; lra). lra. Qed.
Lemma ring_m : 0 < m < 1.
Proof.
  pose proof ring_b2 as B. assert (E : m = 4 * a * rho / b2) by (unfold m, a2, b2 in *; field; lra).
  split.
  - rewrite E. apply Rdiv_lt_0_compat; [|exact B]. apply Rmult_lt_0_compat; lra.
  - unfold m. assert (0 < a2 / b2) by (apply Rdiv_lt_0_compat; [exact Off|exact B]). lra.
Qed.
Lemma ring_m4 : m * b2 = 4 * a * rho. Proof. pose proof ring_b2. unfold m, a2, b2 in *. field. lra. Qed.
End Ring.

(** derivative of A_phi along a curve in the (rho, z) half plane *)
Lemma xA_curve a C (r z : R -> R) (t dr dz : R) : 0 < a -> 0 < r t -> 0 < (a - r t) ^ 2 + z t ^ 2 ->
  is_derive r t dr -> is_derive z t dz ->
  is_derive (fun u => xA a C (r u) (z u)) t
    ((cl_B_z a C (r t) (z t) - xA a C (r t) (z t) / r t) * dr - xBr a C (r t) (z t) * dz).
Proof.
  intros Ha Hr Off Dr Dz.
  pose proof (ring_b2 a (r t) (z t) Ha Hr) as B. pose proof (ring_m a (r t) (z t) Ha Hr Off) as [M0 M1].
  set (mf := fun u => 1 - ((a - r u) ^ 2 + z u ^ 2) / ((a + r u) ^ 2 + z u ^ 2)).
  assert (Dm : is_derive mf t (((2 * (a - r t) * dr - 2 * z t * dz) * ((a + r t) ^ 2 + z t ^ 2) + ((a - r t) ^ 2 + z t ^ 2) * (2 * (a + r t) * dr + 2 * z t * dz)) / (((a + r t) ^ 2 + z t ^ 2) * ((a + r t) ^ 2 + z t ^ 2)))).
  { unfold mf. eapply is_derive_eq; [der; lra|]. cbn [INR Init.Nat.pred]. field. lra. }
  pose proof (D_comp _ mf t _ _ (is_derive_ellipk (mf t) M1 (Rgt_not_eq _ _ M0)) Dm) as DK.
  pose proof (D_comp _ mf t _ _ (is_derive_ellipe (mf t) M1 (Rgt_not_eq _ _ M0)) Dm) as DE.
  change (fun t0 => RInt (fun t1 => / sqrt (1 - mf t0 * sin t1 ^ 2)) 0 (PI / 2)) with (fun t0 => ellipk (mf t0)) in DK.
  change (fun t0 => RInt (fun t1 => sqrt (1 - mf t0 * sin t1 ^ 2)) 0 (PI / 2)) with (fun t0 => ellipe (mf t0)) in DE.
  fold (ellipk (mf t)) in DK, DE. fold (ellipe (mf t)) in DK, DE.
  eapply is_derive_eq.
  { unfold xA. cbv zeta. fold (mf t).
    apply (D_ext (fun u => C / (2 * r u * sqrt ((a + r u) ^ 2 + z u ^ 2)) *
       ((a ^ 2 + r u ^ 2 + z u ^ 2) * ellipk (mf u) - ((a + r u) ^ 2 + z u ^ 2) * ellipe (mf u)))); [reflexivity|].
    der; first [exact B| idtac]. pose proof (sqrt_lt_R0 _ B). apply Rgt_not_eq. apply Rmult_lt_0_compat; lra. }
  unfold xA, xBr, cl_B_z. cbv zeta. fold (mf t).
  set (K := ellipk (mf t)). set (E := ellipe (mf t)). cbn [INR Init.Nat.pred].
  assert (EM : mf t = 4 * a * r t / ((a + r t) ^ 2 + z t ^ 2)) by (unfold mf; field; lra).
  assert (EM1 : 1 - mf t = ((a - r t) ^ 2 + z t ^ 2) / ((a + r t) ^ 2 + z t ^ 2)) by (unfold mf; field; lra).
  rewrite !EM1, !EM. clearbody K E. clear DK DE Dm EM EM1 M0 M1 mf.
  pose proof (sqrt_lt_R0 _ B) as S. pose proof (sqrt_sqrt _ (Rlt_le _ _ B)) as Q.
  set (w := sqrt ((a + r t) ^ 2 + z t ^ 2)) in *. clearbody w.
  replace ((a - r t) ^ 2 + z t ^ 2) with (w * w - 4 * a * r t) in * by (rewrite Q; ring).
  rewrite <- Q.
  assert (Z : z t ^ 2 = w * w - (a + r t) ^ 2) by (rewrite Q; ring).
  replace (a ^ 2 - r t ^ 2 - z t ^ 2) with (a ^ 2 - r t ^ 2 - (w * w - (a + r t) ^ 2)) by (rewrite Z; ring).
  rewrite !Z. set (rt := r t) in *. set (zt := z t) in *. clearbody rt zt.
  field. repeat split; lra.
Qed.

(** ** The integrals over the ring *)
Section RingInt.
Variables a rho z : R.
Hypothesis Ha : 0 < a.
Hypothesis Hr : 0 < rho.
Hypothesis Off : 0 < (a - rho) ^ 2 + z ^ 2.
Let b2 := (a + rho) ^ 2 + z ^ 2.
Let a2 := (a - rho) ^ 2 + z ^ 2.
Let m := 1 - a2 / b2.
Let w := sqrt b2.
Definition ring_d2 (a rho z c : R) : R := a ^ 2 + rho ^ 2 + z ^ 2 - 2 * a * rho * c.

Lemma ring_half t : sqrt (ring_d2 a rho z (2 * sin t ^ 2 - 1)) = w * sqrt (1 - m * sin t ^ 2).
Proof.
  pose proof (ring_b2 a rho z Ha Hr) as B. pose proof (ring_m4 a rho z Ha Hr) as E. fold b2 a2 in B, E.
  replace (1 - a2 / b2) with m in E by reflexivity.
  unfold w. rewrite <- sqrt_mult_alt by (apply Rlt_le, B). f_equal. unfold ring_d2.
  replace (b2 * (1 - m * sin t ^ 2)) with (b2 - m * b2 * sin t ^ 2) by ring. rewrite E. unfold b2. ring.
Qed.

Lemma ring_w : 0 < w /\ w * w = b2.
Proof. pose proof (ring_b2 a rho z Ha Hr) as B. split; [apply sqrt_lt_R0, B|apply sqrt_sqrt, Rlt_le, B]. Qed.

Let HM : 0 < m < 1 := ring_m a rho z Ha Hr Off.

Lemma ring_delta t : 0 < sqrt (1 - m * sin t ^ 2) /\ sqrt (1 - m * sin t ^ 2) * sqrt (1 - m * sin t ^ 2) = 1 - m * sin t ^ 2.
Proof. pose proof (delta_pos m t (proj2 HM)) as P. split; [apply sqrt_lt_R0, P|apply sqrt_sqrt, Rlt_le, P]. Qed.

Lemma int_cos_1 : is_RInt (fun t => cos t / sqrt (ring_d2 a rho z (cos t))) 0 (2 * PI)
  (4 / w * (2 * (ellipk m - ellipe m) / m - ellipk m)).
Proof.
  pose proof ring_w as [W0 W2]. assert (PIpos := PI_RGT_0).
  replace (4 / w * (2 * (ellipk m - ellipe m) / m - ellipk m)) with (4 * (/ w * (2 * (ellipk m - ellipe m) / m - ellipk m))) by (field; lra).
  apply (turn_even (fun c => c / sqrt (ring_d2 a rho z c))).
  assert (G := is_RInt_scal (V:=R_NormedModule) _ _ _ (/ w) _ (is_RInt_plus (V:=R_NormedModule) _ _ _ _ _ _
      (is_RInt_scal (V:=R_NormedModule) _ _ _ (2 / m - 1) _ (is_K m (proj2 HM)))
      (is_RInt_scal (V:=R_NormedModule) _ _ _ (- (2 / m)) _ (is_E m (proj2 HM))))).
  fold (ellipk m) (ellipe m) in G.
  eapply is_RInt_ext_in; [lra| |].
  2:{ match type of G with is_RInt _ _ _ ?v => match goal with |- is_RInt _ _ _ ?u => replace u with v; [exact G|] end end.
      unfold scal, plus; cbn. unfold mult; cbn. field. lra. }
  intros t _. unfold scal, plus; cbn [ModuleSpace.sort]. cbn -[pow]. unfold mult; cbn -[pow].
  rewrite ring_half. pose proof (ring_delta t) as [D0 D2]. set (dl := sqrt (1 - m * sin t ^ 2)) in *. clearbody dl.
  replace (sin t ^ 2) with ((1 - dl * dl) / m) by (rewrite D2; field; lra). field. lra.
Qed.

Lemma int_one_3 : is_RInt (fun t => / sqrt (ring_d2 a rho z (cos t)) ^ 3) 0 (2 * PI) (4 / w ^ 3 * (ellipe m / (1 - m))).
Proof.
  pose proof ring_w as [W0 W2]. assert (PIpos := PI_RGT_0).
  replace (4 / w ^ 3 * (ellipe m / (1 - m))) with (4 * (/ w ^ 3 * (ellipe m / (1 - m)))) by (field; lra).
  apply (turn_even (fun c => / sqrt (ring_d2 a rho z c) ^ 3)).
  assert (G := is_RInt_scal (V:=R_NormedModule) _ _ _ (/ w ^ 3) _ (int_d3 m (proj2 HM))).
  fold (ellipe m) in G. eapply is_RInt_ext_in; [lra| |exact G].
  intros t _. unfold scal; cbn -[pow]. unfold mult; cbn -[pow]. rewrite ring_half. pose proof (ring_delta t) as [D0 D2].
  set (dl := sqrt (1 - m * sin t ^ 2)) in *. field. lra.
Qed.

Lemma int_cos_3 : is_RInt (fun t => cos t / sqrt (ring_d2 a rho z (cos t)) ^ 3) 0 (2 * PI)
  (4 / w ^ 3 * (2 * (ellipe m / (1 - m) - ellipk m) / m - ellipe m / (1 - m))).
Proof.
  pose proof ring_w as [W0 W2]. assert (PIpos := PI_RGT_0).
  replace (4 / w ^ 3 * (2 * (ellipe m / (1 - m) - ellipk m) / m - ellipe m / (1 - m))) with (4 * (/ w ^ 3 * ((2 / m - 1) * (ellipe m / (1 - m)) + - (2 / m) * ellipk m))) by (field; lra).
  apply (turn_even (fun c => c / sqrt (ring_d2 a rho z c) ^ 3)).
  assert (G := is_RInt_scal (V:=R_NormedModule) _ _ _ (/ w ^ 3) _ (is_RInt_plus (V:=R_NormedModule) _ _ _ _ _ _
      (is_RInt_scal (V:=R_NormedModule) _ _ _ (2 / m - 1) _ (int_d3 m (proj2 HM)))
      (is_RInt_scal (V:=R_NormedModule) _ _ _ (- (2 / m)) _ (is_K m (proj2 HM))))).
  fold (ellipk m) (ellipe m) in G.
  eapply is_RInt_ext_in; [lra| |exact G].
  intros t _. unfold scal, plus; cbn -[pow]. unfold mult; cbn -[pow].
  rewrite ring_half. pose proof (ring_delta t) as [D0 D2]. set (dl := sqrt (1 - m * sin t ^ 2)) in *. clearbody dl.
  replace (sin t ^ 2) with ((1 - dl * dl) / m) by (rewrite D2; field; lra). field. lra.
Qed.

(** A_phi, B_rho and B_z as these integrals *)
Lemma xA_ring mu I : exists J, is_RInt (fun t => cos t / sqrt (ring_d2 a rho z (cos t))) 0 (2 * PI) J /\
  xA a (mu * I / PI) rho z = mu * I / (4 * PI) * (a * J).
Proof.
  eexists. split; [apply int_cos_1|]. pose proof ring_w as [W0 W2]. pose proof (ring_m4 a rho z Ha Hr) as E. fold b2 a2 in E. fold m in E.
  unfold xA. cbv zeta. fold b2 a2. fold m. fold w. assert (PIpos := PI_RGT_0).
  set (K := ellipk m). set (EE := ellipe m). clearbody K EE.
  replace m with (4 * a * rho / b2) by (rewrite <- E; field; unfold b2; pose proof (ring_b2 a rho z Ha Hr); lra).
  rewrite <- W2. replace (a ^ 2 + rho ^ 2 + z ^ 2) with (w * w - 2 * a * rho) by (rewrite W2; unfold b2; ring).
  field. repeat split; lra.
Qed.
Lemma one_minus_m : 1 - m = a2 / b2. Proof. unfold m. ring. Qed.
Lemma xBr_ring mu I : exists J, is_RInt (fun t => cos t / sqrt (ring_d2 a rho z (cos t)) ^ 3) 0 (2 * PI) J /\
  xBr a (mu * I / PI) rho z = mu * I / (4 * PI) * (a * z * J).
Proof.
  eexists. split; [apply int_cos_3|]. pose proof ring_w as [W0 W2]. pose proof (ring_m4 a rho z Ha Hr) as E. fold b2 a2 in E. fold m in E.
  unfold xBr. cbv zeta. fold b2 a2. fold m. fold w. assert (PIpos := PI_RGT_0).
  rewrite one_minus_m.
  set (K := ellipk m). set (EE := ellipe m). clearbody K EE.
  replace m with (4 * a * rho / b2) by (rewrite <- E; field; unfold b2; pose proof (ring_b2 a rho z Ha Hr); lra).
  assert (A2 : a2 = w * w - 4 * a * rho) by (rewrite W2; unfold a2, b2; ring).
  assert (0 < a2) by exact Off. rewrite A2 in *.
  rewrite <- W2. replace (a ^ 2 + rho ^ 2 + z ^ 2) with (w * w - 2 * a * rho) by (rewrite W2; unfold b2; ring).
  field. repeat split; lra.
Qed.
Lemma xBz_ring mu I : exists J J0, is_RInt (fun t => cos t / sqrt (ring_d2 a rho z (cos t)) ^ 3) 0 (2 * PI) J /\
  is_RInt (fun t => / sqrt (ring_d2 a rho z (cos t)) ^ 3) 0 (2 * PI) J0 /\
  cl_B_z a (mu * I / PI) rho z = mu * I / (4 * PI) * (a ^ 2 * J0 - a * rho * J).
Proof.
  eexists. eexists. split; [apply int_cos_3|]. split; [apply int_one_3|].
  pose proof ring_w as [W0 W2]. pose proof (ring_m4 a rho z Ha Hr) as E. fold b2 a2 in E. fold m in E.
  unfold cl_B_z. cbv zeta. fold b2 a2. fold m. fold w. assert (PIpos := PI_RGT_0).
  rewrite one_minus_m.
  set (K := ellipk m). set (EE := ellipe m). clearbody K EE.
  replace m with (4 * a * rho / b2) by (rewrite <- E; field; unfold b2; pose proof (ring_b2 a rho z Ha Hr); lra).
  assert (A2 : a2 = w * w - 4 * a * rho) by (rewrite W2; unfold a2, b2; ring).
  assert (0 < a2) by exact Off. rewrite A2 in *.
  rewrite <- W2. replace (a ^ 2 - rho ^ 2 - z ^ 2) with (2 * a ^ 2 + 2 * a * rho - w * w) by (rewrite W2; unfold b2; ring).
  field. repeat split; lra.
Qed.
End RingInt.
