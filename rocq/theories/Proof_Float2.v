(** Accuracy of the formulas without cancellation (C107). *)
From Coq Require Import ZArith Reals Lra Lia Psatz List.
From Verif Require Import Vec3 Numpy Model_Gravity Model_Static Model_Float Spec_Float Proof_Float.
Import ListNotations.
Open Scope R_scope.

Lemma near_eq k a b b' : near k a b -> b = b' -> near k a b'. Proof. intros H <-. exact H. Qed.
Lemma near_plus_sign k a b c d : 0 <= b * d -> near k a b -> near k c d -> near k (a + c) (b + d).
Proof.
  intros P A B. destruct (Rle_dec 0 b) as [Q|Q].
  - destruct (Rle_dec 0 d) as [S|S]; [apply near_plus; assumption|].
    assert (b = 0) by nra. subst b. destruct A as (x & -> & _). rewrite !Rmult_0_l, !Rplus_0_l. exact B.
  - assert (S : d <= 0) by nra. apply near_opp in A. apply near_opp in B.
    pose proof (near_plus k (- a) (- b) (- c) (- d) ltac:(lra) ltac:(lra) A B) as H. apply near_opp in H.
    replace (- (- a + - c)) with (a + c) in H by ring. replace (- (- b + - d)) with (b + d) in H by ring. exact H.
Qed.
(** a difference in which the subtrahend is at most half *)
Lemma near_minus k a b c d : (k <= 100)%nat -> 0 <= d -> 2 * d <= b -> near k a b -> near k c d -> near (3 * k + 4) (a - c) (b - d).
Proof.
  intros L P Q A B. apply near_within in A; [|lia]. apply near_within in B; [|lia]. unfold within in *. fold u in A, B.
  rewrite (Rabs_pos_eq b) in A by lra. rewrite (Rabs_pos_eq d) in B by lra. pose proof u_pos. pose proof (pos_INR k).
  assert (H1 : INR k <= 100) by (replace 100 with (INR 100) by (cbn; lra); apply le_INR; exact L).
  assert (W : within (3 * (INR k + 1)) (a - c) (b - d)).
  { unfold within. fold u. rewrite (Rabs_pos_eq (b - d)) by lra.
    replace (a - c - (b - d)) with ((a - b) - (c - d)) by ring.
    apply Rle_trans with (Rabs (a - b) + Rabs (c - d)); [unfold Rminus at 1; rewrite <- (Rabs_Ropp (c - d)); apply Rabs_triang|].
    assert (0 <= (INR k + 1) * u) by nra. nra. }
  replace (3 * k + 4)%nat with (S (3 * k + 3)) by lia. apply (within_near (3 * (INR k + 1))); [lra| |lra|exact W].
  rewrite plus_INR, mult_INR. cbn [INR]. lra.
Qed.

Lemma near_pow3 k a b : near k a b -> near (3 * k) (a ^ 3) (b ^ 3).
Proof. intros H. replace (3 * k)%nat with (k + (k + k))%nat by lia. replace (a ^ 3) with (a * (a * a)) by ring. replace (b ^ 3) with (b * (b * b)) by ring. auto using near_mult. Qed.

Lemma pow_near pow x k : good_pow pow -> near 9 (pow x k) (x ^ k).
Proof. intros H. apply (within_near 8); [lra|cbn; lra|lra|apply H]. Qed.

(** distances *)
Lemma near_diff p q : near 1 (vx (fdiff p q)) (vx (vsub p q)) /\ near 1 (vy (fdiff p q)) (vy (vsub p q)) /\ near 1 (vz (fdiff p q)) (vz (vsub p q)).
Proof. cbn. repeat split; apply near_fl. Qed.
Lemma sq_nonneg x : 0 <= x * x. Proof. nra. Qed.
Lemma near_dist p q : near 4 (fnorm (fdiff p q)) (vnorm (vsub p q)).
Proof.
  destruct (near_diff p q) as (A & B & D). unfold fnorm, vnorm, vnorm2.
  pose proof (near_round _ _ _ (near_mult _ _ _ _ _ _ A A)) as A2. pose proof (near_round _ _ _ (near_mult _ _ _ _ _ _ B B)) as B2.
  pose proof (near_round _ _ _ (near_mult _ _ _ _ _ _ D D)) as D2. cbn [Nat.add] in *.
  pose proof (near_round _ _ _ (near_plus 3 _ _ _ _ (sq_nonneg _) (sq_nonneg _) A2 B2)) as S1.
  assert (P : 0 <= vx (vsub p q) * vx (vsub p q) + vy (vsub p q) * vy (vsub p q)) by (apply Rplus_le_le_0_compat; apply sq_nonneg).
  pose proof (near_round _ _ _ (near_plus 4 _ _ _ _ P (sq_nonneg _) S1 (near_weaken 3 4 _ _ ltac:(lia) D2))) as S2.
  apply (near_round 3). apply near_sqrt; [apply Rplus_le_le_0_compat; [exact P|apply sq_nonneg]|]. apply (near_weaken 5); [lia|exact S2].
Qed.
Lemma near_sq k a b : near k a b -> near (S (k + k)) (fsq a) (b ^ 2).
Proof. intros H. unfold fsq. apply near_round. replace (b ^ 2) with (b * b) by ring. apply near_mult; exact H. Qed.

Lemma near_pi : near 1 fpi PI. Proof. apply near_fl. Qed.
Lemma near_G : near 1 fG G_newton. Proof. apply near_fl. Qed.

Ltac nr := first
  [ eassumption | apply near_pi | apply near_G | apply near_dist | apply near_refl
  | apply near_round; nr | apply near_mult; nr | apply near_div; nr | apply near_opp; nr | apply near_sq; nr ].

Definition vnear (k : nat) (a b : vec3) : Prop := near k (vx a) (vx b) /\ near k (vy a) (vy b) /\ near k (vz a) (vz b).
Lemma vnear_weaken j k a b : (j <= k)%nat -> vnear j a b -> vnear k a b.
Proof. intros L (A & B & D). repeat split; eapply near_weaken; eauto. Qed.
Lemma vnear_diff p q : vnear 1 (fdiff p q) (vsub p q). Proof. exact (near_diff p q). Qed.
Lemma vnear_div j k a b c d : vnear j a b -> near k c d -> vnear (S (j + k)) (fvdiv a c) (vdiv b d).
Proof. intros (A & B & D) E. repeat split; cbn; apply near_round, near_div; assumption. Qed.
Lemma vnear_scal j k a b c d : near j c d -> vnear k a b -> vnear (S (j + k)) (fvscal c a) (vscal d b).
Proof. intros E (A & B & D). repeat split; cbn; apply near_round, near_mult; assumption. Qed.
Lemma vnear_trans j k a b c : vnear j a b -> vnear k b c -> vnear (j + k) a c.
Proof. intros (A & B & D) (E & F & G). repeat split; eapply near_trans; eauto. Qed.
Lemma vnear_eq k a b b' : vnear k a b -> b = b' -> vnear k a b'. Proof. intros H <-. exact H. Qed.

(** point mass, for any nearby mass *)
Lemma near_pm_potential j m m' loc p : near j m m' -> near (7 + j) (fpm_potential m loc p) (pm_potential (PM m' loc) p).
Proof.
  intros H. unfold fpm_potential, pm_potential. cbn [pm_mass pm_loc].
  apply (near_weaken (S (S (1 + j) + 4))); [lia|]. apply near_round. apply near_div; [|apply near_dist]. apply near_round. apply near_mult; [apply near_G|exact H].
Qed.
Lemma near_pm_field j m m' loc p : near j m m' -> vnear (19 + j) (fpm_field m loc p) (pm_field (PM m' loc) p).
Proof.
  intros H. unfold fpm_field. cbv zeta.
  assert (C : near (S (1 + j)) (fl (- fG * m)) (- G_newton * m')) by (apply near_round, near_mult; [apply near_opp, near_G|exact H]).
  pose proof (vnear_div _ _ _ _ _ _ (vnear_scal _ _ _ _ _ _ C (vnear_div _ _ _ _ _ _ (vnear_diff p loc) (near_dist p loc))) (near_sq _ _ _ (near_dist p loc))) as V.
  cbn [Nat.add] in V. eapply vnear_eq; [eapply vnear_weaken; [|exact V]; lia|reflexivity].
Qed.

Lemma near_gs_mass pow radius rho loc : good_pow pow -> near 14 (fgs_mass pow radius rho) (gs_mass (GS radius rho loc)).
Proof.
  intros H. unfold fgs_mass, gs_mass. cbn [gs_radius gs_rho]. pose proof (pow_near pow radius 3 H) as P.
  assert (E : near (S (S (S (1 + 1) + 9) + 0)) (fl (fl (fl (fl (4 / 3) * fpi) * pow radius 3%nat) * rho)) (4 / 3 * PI * radius ^ 3 * rho)).
  { apply near_round, near_mult; [|apply near_refl]. apply near_round, near_mult; [|exact P]. apply near_round, near_mult; [apply near_fl|apply near_pi]. }
  exact E.
Qed.

(** the two formulas of the sphere at one point *)
Definition gs_inside (radius rho : R) (loc p : vec3) : R := G_newton * 2 / 3 * PI * rho * (3 * radius ^ 2 - vnorm (vsub p loc) ^ 2).
Definition gs_inside_field (radius rho : R) (loc p : vec3) : vec3 := vscal (- G_newton * 4 / 3 * PI * rho) (vsub p loc).
Lemma gs_potential_one radius rho loc p : gs_potential_grid (GS radius rho loc) [p] =
  Ok [if Rlt_dec radius (vnorm (vsub p loc)) then pm_potential (PM (gs_mass (GS radius rho loc)) loc) p else gs_inside radius rho loc p].
Proof.
  unfold gs_potential_grid, gs_as_point_mass, Rltb, gs_inside. cbn [map gs_loc gs_radius gs_rho]. destruct (Rlt_dec _ _); reflexivity.
Qed.
Lemma gs_field_one radius rho loc p : gs_field_grid (GS radius rho loc) [p] =
  Ok [if Rlt_dec radius (vnorm (vsub p loc)) then pm_field (PM (gs_mass (GS radius rho loc)) loc) p else gs_inside_field radius rho loc p].
Proof.
  unfold gs_field_grid, gs_as_point_mass, Rltb, gs_inside_field. cbn [map gs_loc gs_radius gs_rho]. destruct (Rlt_dec _ _); reflexivity.
Qed.

Lemma lt_div_le a x y : 0 < a -> x < y / a -> a * x <= y.
Proof. intros P H. apply Rmult_le_reg_r with (/ a); [apply Rinv_0_lt_compat, P|]. replace (a * x * / a) with x by (field; lra). unfold Rdiv in H. lra. Qed.
Lemma near_bounds k a b : 0 < b -> near k a b -> w ^ k * b <= a <= b / w ^ k.
Proof. intros P (x & -> & A & B). pose proof (wk_pos k). unfold Rdiv. split; nra. Qed.

Lemma w8 : / 2 <= w ^ 8. Proof. pose proof (bernoulli 8). pose proof u_small. cbn [INR] in *. lra. Qed.

(** on a thin shell around the surface the formulas agree *)
Lemma shell_potential radius rho loc p : 0 < radius -> w ^ 4 * radius <= vnorm (vsub p loc) <= radius / w ^ 4 ->
  near 8 (gs_inside radius rho loc p) (pm_potential (PM (gs_mass (GS radius rho loc)) loc) p) /\
  near 8 (pm_potential (PM (gs_mass (GS radius rho loc)) loc) p) (gs_inside radius rho loc p).
Proof.
  intros P [A B]. set (r := vnorm (vsub p loc)) in *. pose proof (wk_pos 4) as W4. pose proof (wk_pos 8) as W8. pose proof (wk_le1 4) as L4. pose proof w8 as H8.
  assert (R0 : 0 < r) by nra.
  assert (E8 : w ^ 8 = w ^ 4 * w ^ 4) by (rewrite <- pow_add; reflexivity).
  set (s := r / radius).
  assert (S1 : w ^ 4 <= s) by (unfold s; apply Rmult_le_reg_r with radius; [lra|]; replace (r / radius * radius) with r by (field; lra); exact A).
  assert (S2 : s <= / w ^ 4).
  { unfold s. apply Rmult_le_reg_r with radius; [lra|]. replace (r / radius * radius) with r by (field; lra). unfold Rdiv in B. lra. }
  assert (S0 : 0 < s) by lra.
  set (g := s * (3 - s * s) / 2).
  assert (I4 : / w ^ 4 * / w ^ 4 = / w ^ 8) by (rewrite E8; symmetry; apply Rinv_mult).
  assert (SS : s * s <= / w ^ 8) by (rewrite <- I4; apply Rmult_le_compat; lra).
  assert (T2 : / w ^ 8 <= 2) by (rewrite <- (Rinv_inv 2); apply Rinv_le_contravar; lra).
  assert (G1 : g <= 1).
  { assert (Z : 0 <= (1 - s) * (1 - s) * (s + 2)) by (apply Rmult_le_pos; [apply sq_nonneg|lra]).
    replace ((1 - s) * (1 - s) * (s + 2)) with (2 - 2 * g) in Z by (unfold g; field). lra. }
  assert (T1 : / w ^ 8 * w ^ 8 = 1) by (apply Rinv_l; lra).
  assert (T0 : 1 <= / w ^ 8) by (rewrite <- Rinv_1; apply Rinv_le_contravar; [lra|apply wk_le1]).
  assert (G0 : w ^ 8 <= g).
  { unfold g. destruct (Rle_dec 1 s) as [Z|Z].
    - set (t := / w ^ 8) in *. assert (Q : w ^ 8 <= (3 - t) / 2).
      { apply Rmult_le_reg_l with t; [lra|]. rewrite T1. assert (0 <= (t - 1) * (2 - t)) by (apply Rmult_le_pos; lra). nra. }
      apply Rle_trans with ((3 - s * s) / 2); [lra|]. assert (0 <= 3 - s * s) by lra. nra.
    - assert (2 <= 3 - s * s) by nra. apply Rle_trans with s; [|nra]. apply Rle_trans with (w ^ 4); [apply wk_mono; lia|exact S1]. }
  assert (GP : 0 < g) by lra.
  assert (E : gs_inside radius rho loc p = pm_potential (PM (gs_mass (GS radius rho loc)) loc) p * g).
  { unfold gs_inside, pm_potential, gs_mass, g, s. cbn [pm_mass pm_loc gs_radius gs_rho]. fold r. field. lra. }
  split.
  - exists g. split; [exact E|]. split; [exact G0|]. lra.
  - exists (/ g). split; [rewrite E; field; lra|]. split.
    + apply Rle_trans with 1; [apply wk_le1|]. rewrite <- Rinv_1. apply Rinv_le_contravar; lra.
    + apply Rinv_le_contravar; lra.
Qed.

Lemma near_inside pow radius rho loc p : good_pow pow -> 0 < radius -> vnorm (vsub p loc) <= radius / w ^ 4 ->
  near 42 (fl (fl (fl (fl (fl (fG * 2) / 3) * fpi) * rho) * fl (fl (3 * pow radius 2%nat) - fsq (fnorm (fdiff p loc))))) (gs_inside radius rho loc p).
Proof.
  intros H P B. unfold gs_inside. set (r := vnorm (vsub p loc)) in *.
  assert (R0 : 0 <= r) by apply sqrt_pos.
  pose proof (pow_near pow radius 2 H) as PN. pose proof (wk_pos 4). pose proof (wk_pos 8). pose proof w8 as H8.
  assert (F : near 6 (fl (fl (fl (fl (fG * 2) / 3) * fpi) * rho)) (G_newton * 2 / 3 * PI * rho)).
  { apply (near_weaken (S (S (S (S (1 + 0) + 0) + 1) + 0))); [lia|]. repeat first [apply near_round | apply near_mult | apply near_div | apply near_G | apply near_pi | apply near_refl]. }
  assert (D1 : near 10 (fl (3 * pow radius 2%nat)) (3 * radius ^ 2)) by (apply (near_round (0 + 9)), near_mult; [apply near_refl|exact PN]).
  assert (D2 : near 9 (fsq (fnorm (fdiff p loc))) (r ^ 2)) by (apply (near_sq 4), near_dist).
  assert (Q : 2 * r ^ 2 <= 3 * radius ^ 2).
  { assert (r * w ^ 4 <= radius) by (apply Rmult_le_reg_r with (/ w ^ 4); [apply Rinv_0_lt_compat; lra|]; rewrite Rmult_assoc, Rinv_r by lra; unfold Rdiv in B; lra).
    assert (E8 : w ^ 8 = w ^ 4 * w ^ 4) by (rewrite <- pow_add; reflexivity).
    assert (r * w ^ 4 * (r * w ^ 4) <= radius * radius) by (apply Rmult_le_compat; nra).
    pose proof (bernoulli 8). pose proof u_small. cbn [INR] in *. nra. }
  assert (D : near 35 (fl (fl (3 * pow radius 2%nat) - fsq (fnorm (fdiff p loc)))) (3 * radius ^ 2 - r ^ 2)).
  { apply near_round. apply (near_minus 10); [lia|nra|exact Q|exact D1|]. apply (near_weaken 9); [lia|exact D2]. }
  apply (near_round (6 + 35)), near_mult; assumption.
Qed.

Lemma sphere_potential_near pow radius rho loc p v : good_pow pow -> 0 < radius -> gs_potential_grid (GS radius rho loc) [p] = Ok [v] ->
  near 50 (fgs_potential pow radius rho loc p) v.
Proof.
  intros H P E. rewrite gs_potential_one in E. injection E as <-. unfold fgs_potential. cbv zeta.
  pose proof (near_dist p loc) as D. set (r := vnorm (vsub p loc)) in *. set (rf := fnorm (fdiff p loc)) in *.
  pose proof (near_gs_mass pow radius rho loc H) as M. pose proof (near_pm_potential 14 _ _ loc p M) as PM14. cbn [Nat.add] in PM14.
  pose proof (wk_pos 4) as W4.
  assert (RB : 0 < r -> w ^ 4 * r <= rf <= r / w ^ 4) by (intros R0; apply near_bounds; assumption).
  destruct (Rlt_dec radius rf) as [F|F]; destruct (Rlt_dec radius r) as [X|X].
  - apply (near_weaken 21); [lia|exact PM14].
  - apply (near_weaken (21 + 8)); [lia|]. eapply near_trans; [exact PM14|]. apply shell_potential; [exact P|]. fold r. split.
    + assert (R0 : 0 < r) by (destruct (Rle_lt_or_eq_dec 0 r (sqrt_pos _)) as [Z|Z]; [exact Z|]; exfalso; rewrite <- Z in D; destruct D as (x & D & _); rewrite Rmult_0_l in D; lra).
      destruct (RB R0) as [_ RB2]. apply lt_div_le; [exact W4|lra].
    + pose proof (wk_le1 4). apply Rle_trans with radius; [lra|]. unfold Rdiv. assert (1 <= / w ^ 4) by (rewrite <- Rinv_1; apply Rinv_le_contravar; lra). nra.
  - assert (R0 : 0 < r) by lra. destruct (RB R0) as [RB1 RB2].
    assert (U : r <= radius / w ^ 4).
    { apply Rmult_le_reg_r with (w ^ 4); [lra|]. replace (radius / w ^ 4 * w ^ 4) with radius by (unfold Rdiv; rewrite Rmult_assoc, Rinv_l, Rmult_1_r by lra; reflexivity). lra. }
    apply (near_weaken (42 + 8)); [lia|]. eapply near_trans; [exact (near_inside pow radius rho loc p H P U)|]. apply shell_potential; [exact P|]. fold r. split; [|exact U].
    pose proof (wk_le1 4). nra.
  - apply (near_weaken 42); [lia|]. apply near_inside; [exact H|exact P|]. fold r. pose proof (wk_le1 4).
    apply Rle_trans with radius; [lra|]. unfold Rdiv. assert (1 <= / w ^ 4) by (rewrite <- Rinv_1; apply Rinv_le_contravar; lra). nra.
Qed.

Lemma shell_field radius rho loc p : 0 < radius -> w ^ 4 * radius <= vnorm (vsub p loc) <= radius / w ^ 4 ->
  vnear 12 (gs_inside_field radius rho loc p) (pm_field (PM (gs_mass (GS radius rho loc)) loc) p) /\
  vnear 12 (pm_field (PM (gs_mass (GS radius rho loc)) loc) p) (gs_inside_field radius rho loc p).
Proof.
  intros P [A B]. pose proof (wk_pos 4) as W4. set (r := vnorm (vsub p loc)) in *.
  assert (R0 : 0 < r) by nra.
  assert (N : near 4 r radius).
  { exists (r / radius). split; [field; lra|]. split.
    - apply Rmult_le_reg_r with radius; [lra|]. replace (r / radius * radius) with r by (field; lra). exact A.
    - apply Rmult_le_reg_r with radius; [lra|]. replace (r / radius * radius) with r by (field; lra). unfold Rdiv in B. lra. }
  apply near_pow3 in N. cbn [Nat.mul Nat.add] in N. destruct N as (x & E & X). pose proof (wk_pos 12).
  assert (X0 : 0 < x) by lra.
  assert (EV : gs_inside_field radius rho loc p = vscal x (pm_field (PM (gs_mass (GS radius rho loc)) loc) p)).
  { unfold gs_inside_field, pm_field, gs_mass, vscal. cbn [pm_mass pm_loc gs_radius gs_rho vx vy vz vsub]. fold (vsub p loc). fold r.
    assert (K : forall d, - G_newton * 4 / 3 * PI * rho * d = x * (- G_newton * (4 / 3 * PI * radius ^ 3 * rho) * (d / r) / r ^ 2)).
    { intros d. replace (x * (- G_newton * (4 / 3 * PI * radius ^ 3 * rho) * (d / r) / r ^ 2)) with (- G_newton * (4 / 3 * PI * (radius ^ 3 * x) * rho) * d / r ^ 3) by (field; lra).
      rewrite <- E. field. lra. }
    f_equal; apply K. }
  rewrite EV. destruct (pm_field (PM (gs_mass (GS radius rho loc)) loc) p) as [a b c]. unfold vnear, vscal. cbn [vx vy vz].
  assert (Y : w ^ 12 <= / x <= / w ^ 12).
  { split; [rewrite <- (Rinv_inv (w ^ 12))|]; apply Rinv_le_contravar; lra. }
  split; repeat split; first [ exists x; split; [ring|exact X] | exists (/ x); split; [field; lra|exact Y] ].
Qed.

Lemma sphere_field_near pow radius rho loc p v : good_pow pow -> 0 < radius -> gs_field_grid (GS radius rho loc) [p] = Ok [v] ->
  vnear 50 (fgs_field pow radius rho loc p) v.
Proof.
  intros H P E. rewrite gs_field_one in E. injection E as <-. unfold fgs_field. cbv zeta.
  pose proof (near_dist p loc) as D. set (r := vnorm (vsub p loc)) in *. set (rf := fnorm (fdiff p loc)) in *.
  pose proof (near_gs_mass pow radius rho loc H) as M. pose proof (near_pm_field 14 _ _ loc p M) as PM14. cbn [Nat.add] in PM14.
  assert (IN : vnear 8 (fvscal (fl (fl (fl (fl (- fG * 4) / 3) * fpi) * rho)) (fdiff p loc)) (gs_inside_field radius rho loc p)).
  { unfold gs_inside_field.
    assert (F : near 6 (fl (fl (fl (fl (- fG * 4) / 3) * fpi) * rho)) (- G_newton * 4 / 3 * PI * rho)).
    { apply (near_weaken (S (S (S (S (1 + 0) + 0) + 1) + 0))); [lia|]. repeat first [apply near_round | apply near_mult | apply near_div | apply near_opp | apply near_G | apply near_pi | apply near_refl]. }
    exact (vnear_scal _ _ _ _ _ _ F (vnear_diff p loc)). }
  pose proof (wk_pos 4) as W4. pose proof (wk_le1 4) as L4.
  assert (RB : 0 < r -> w ^ 4 * r <= rf <= r / w ^ 4) by (intros R0; apply near_bounds; assumption).
  assert (I1 : 1 <= / w ^ 4) by (rewrite <- Rinv_1; apply Rinv_le_contravar; lra).
  destruct (Rlt_dec radius rf) as [F|F]; destruct (Rlt_dec radius r) as [X|X].
  - apply (vnear_weaken 33); [lia|exact PM14].
  - apply (vnear_weaken (33 + 12)); [lia|]. eapply vnear_trans; [exact PM14|]. apply shell_field; [exact P|]. fold r. split.
    + assert (R0 : 0 < r) by (destruct (Rle_lt_or_eq_dec 0 r (sqrt_pos _)) as [Z|Z]; [exact Z|]; exfalso; rewrite <- Z in D; destruct D as (x & D & _); rewrite Rmult_0_l in D; lra).
      destruct (RB R0) as [_ RB2]. apply lt_div_le; [exact W4|lra].
    + apply Rle_trans with radius; [lra|]. unfold Rdiv. nra.
  - assert (R0 : 0 < r) by lra. destruct (RB R0) as [RB1 RB2].
    assert (U : r <= radius / w ^ 4).
    { apply Rmult_le_reg_r with (w ^ 4); [lra|]. replace (radius / w ^ 4 * w ^ 4) with radius by (unfold Rdiv; rewrite Rmult_assoc, Rinv_l, Rmult_1_r by lra; reflexivity). lra. }
    apply (vnear_weaken (8 + 12)); [lia|]. eapply vnear_trans; [exact IN|]. apply shell_field; [exact P|]. fold r. split; [nra|exact U].
  - apply (vnear_weaken 8); [lia|exact IN].
Qed.

(** magnetic pole and point currents *)
Lemma pole_near moment mu loc o p : vnear 21 (fmp_B moment mu loc p) (mp_B (MD moment o loc mu) p).
Proof.
  unfold fmp_B, mp_B. cbn [md_moment md_mu md_loc]. cbv zeta.
  assert (C : near (S (1 + S (S (0 + 1) + 9))) (fl (fl (moment * mu) / fl (fl (4 * fpi) * fsq (fnorm (fdiff p loc))))) (moment * mu / (4 * PI * vnorm (vsub p loc) ^ 2))).
  { apply near_round, near_div; [apply near_fl|]. apply near_round, near_mult; [apply near_round, near_mult; [apply near_refl|apply near_pi]|]. apply (near_sq 4), near_dist. }
  exact (vnear_scal _ _ _ _ _ _ C (vnear_div _ _ _ _ _ _ (vnear_diff p loc) (near_dist p loc))).
Qed.
Lemma lc_one rho current loc p : pc_potential (point_current rho current loc) p = current / (4 * PI * (1 / rho) * vnorm (vsub p loc)).
Proof. reflexivity. Qed.
Lemma point_potential_near rho current loc p : near 10 (fpc_potential rho current loc p) (pc_potential (point_current rho current loc) p).
Proof.
  rewrite lc_one. unfold fpc_potential. apply (near_round (0 + S (S (S (0 + 1) + 1) + 4))). apply near_div; [apply near_refl|].
  apply near_round, near_mult; [|apply near_dist]. apply near_round, near_mult; [|apply near_fl]. apply near_round, near_mult; [apply near_refl|apply near_pi].
Qed.
Lemma point_E_near pow rho current loc p : good_pow pow -> vnear 29 (fpc_E pow rho current loc p) (pc_electric_field (point_current rho current loc) p).
Proof.
  intros H. unfold fpc_E. cbv zeta.
  assert (C : near 5 (fl (current / fl (fl (4 * fpi) * fl (1 / rho)))) (current / (4 * PI * (1 / rho)))).
  { apply (near_round (0 + S (S (0 + 1) + 1))), near_div; [apply near_refl|]. apply near_round, near_mult; [|apply near_fl]. apply near_round, near_mult; [apply near_refl|apply near_pi]. }
  assert (D : near 21 (pow (fnorm (fdiff p loc)) 3%nat) (vnorm (vsub p loc) ^ 3)).
  { apply (near_trans 9 12 _ (fnorm (fdiff p loc) ^ 3)); [apply pow_near, H|]. apply (near_pow3 4), near_dist. }
  pose proof (vnear_scal _ _ _ _ _ _ C (vnear_div _ _ _ _ _ _ (vnear_diff p loc) D)) as V. exact V.
Qed.
Lemma inv_nonneg x : 0 <= x -> 0 <= / x.
Proof. intros [H| <-]; [left; apply Rinv_0_lt_compat, H|rewrite Rinv_0; lra]. Qed.
Lemma half_space_near rho current loc p : near 11 (fhs_potential rho current loc p) (hs_V (HS rho current loc) p).
Proof.
  unfold fhs_potential, hs_V, hs_primary, hs_image. cbn [hs_rho hs_current hs_loc].
  apply near_round. apply near_plus_sign; [|apply point_potential_near|apply point_potential_near].
  rewrite !lc_one. set (a := vnorm _). set (b := vnorm _).
  assert (0 <= / a) by apply inv_nonneg, sqrt_pos.
  assert (0 <= / b) by apply inv_nonneg, sqrt_pos.
  unfold Rdiv. rewrite !Rinv_mult. set (c := / 4 * / PI * (/ 1 * / / rho)).
  replace (current * (c * / a) * (current * (c * / b))) with ((current * c) * (current * c) * (/ a * / b)) by ring.
  apply Rmult_le_pos; [apply sq_nonneg|]. apply Rmult_le_pos; assumption.
Qed.

Lemma vnear_within n k a b : (k <= 500)%nat -> INR k + 1 <= n -> vnear k a b -> each (within n) a b.
Proof.
  intros L M (A & B & D). assert (Q : forall a b, near k a b -> within n a b).
  { intros x y N. apply near_within in N; [|exact L]. unfold within in *. eapply Rle_trans; [exact N|]. apply Rmult_le_compat_r; [apply Rabs_pos|].
    apply Rmult_le_compat_r; [left; apply Rinv_0_lt_compat; lra|exact M]. }
  repeat split; apply Q; assumption.
Qed.
Lemma near_within' n k a b : (k <= 500)%nat -> INR k + 1 <= n -> near k a b -> within n a b.
Proof. intros L M N. exact (proj1 (vnear_within n k (V3 a 0 0) (V3 b 0 0) L M (conj N (conj (near_refl k 0) (near_refl k 0))))). Qed.
