(** The gravity of a distant prism in floating point (C134). *)
From Coq Require Import ZArith Reals Lra Lia Psatz.
From Flocq Require Import Core.
From Coquelicot Require Import Coquelicot.
From Verif Require Import Vec3 Calculus Numpy Model_Gravity Model_Prism Spec_Prism Spec_Interior Model_Float Model_Float4 Spec_Float Spec_Float2 Spec_Float3 Proof_Float Proof_Float2 Proof_Float3 Proof_Float5 Proof_Float9.
From Verif Require Import Spec_Far.
From Verif Require Props_Bounds Props_FarField.
Open Scope R_scope.

Section Distant.
  Variables (log arctan : R -> R) (d rho : R) (b : box) (p : vec3).
  Hypotheses (GL : float_log log) (GA : good_atan arctan) (D1 : 1 <= d) (O : ordered b) (F : beyond d b p) (P : 0 < rho) (S : 2 ^ 60 * volume b <= d ^ 3).
  Lemma d_out : outside b p. Proof. left; left. destruct F as (A & _). lra. Qed.
  Lemma d_box q : in_box b q -> (d <= vx q - vx p <= 2 * d) /\ (d <= vy q - vy p <= 2 * d) /\ (d <= vz q - vz p <= 2 * d).
  Proof. intros (X & Y & Z). destruct F as (A1 & A2 & A3 & A4 & A5 & A6). lra. Qed.
  Lemma d_near q : in_box b q -> d <= vnorm (vsub p q).
  Proof.
    intros Q. destruct (d_box q Q) as (X & Y & Z). unfold vnorm. rewrite <- (sqrt_Rsqr d) by lra. apply sqrt_le_1_alt. unfold vnorm2, vdot, vsub, Rsqr; cbn [vx vy vz].
    pose proof (pow2_ge_0 (vy p - vy q)). pose proof (pow2_ge_0 (vz p - vz q)). nra.
  Qed.
  Lemma d_far q : in_box b q -> vnorm (vsub p q) <= 4 * d.
  Proof.
    intros Q. destruct (d_box q Q) as (X & Y & Z). unfold vnorm. rewrite <- (sqrt_Rsqr (4 * d)) by lra. apply sqrt_le_1_alt. unfold vnorm2, vdot, vsub, Rsqr; cbn [vx vy vz].
    assert (W : forall a c, d <= a - c <= 2 * d -> (c - a) * (c - a) <= 2 * d * (2 * d)) by (intros a c H; replace ((c - a) * (c - a)) with ((a - c) * (a - c)) by ring; apply Rmult_le_compat; lra).
    pose proof (W _ _ X). pose proof (W _ _ Y). pose proof (W _ _ Z). nra.
  Qed.
  Lemma V0 : 0 < volume b.
  Proof. destruct O as (X & Y & Z). unfold volume. repeat apply Rmult_lt_0_compat; lra. Qed.
  Lemma G0 : 0 < G_newton * rho. Proof. apply Rmult_lt_0_compat; [unfold G_newton; lra|exact P]. Qed.
  Lemma small_2 : volume b / d ^ 2 <= d * / 2 ^ 60.
  Proof. apply Rmult_le_reg_r with (2 ^ 60 * d ^ 2); [nra|]. replace (volume b / d ^ 2 * (2 ^ 60 * d ^ 2)) with (2 ^ 60 * volume b) by (field; nra). replace (d * / 2 ^ 60 * (2 ^ 60 * d ^ 2)) with (d ^ 3) by (field; nra). exact S. Qed.
  Lemma small_3 : volume b / d ^ 3 <= / 2 ^ 60.
  Proof. assert (0 < d ^ 3) by (apply pow_lt; lra). apply Rmult_le_reg_r with (2 ^ 60 * d ^ 3); [nra|]. replace (volume b / d ^ 3 * (2 ^ 60 * d ^ 3)) with (2 ^ 60 * volume b) by (field; lra). replace (/ 2 ^ 60 * (2 ^ 60 * d ^ 3)) with (d ^ 3) by (field; lra). exact S. Qed.
  Lemma comp_bounds w : vnorm w = 1 -> (forall q, in_box b q -> d <= vdot w (vsub q p)) ->
    0 < vdot w (gravitational_field G_newton b rho p) <= G_newton * rho * (d * / 2 ^ 60).
  Proof.
    intros W H. pose proof V0. pose proof G0. split.
    - eapply Rlt_le_trans; [|apply (Props_Bounds.C124_field_attracts b rho p (4 * d) d w O ltac:(lra) d_far W ltac:(lra) H)].
      unfold prism_mass. replace (G_newton * (volume b * rho) * d) with (G_newton * rho * volume b * d) by ring.
      apply Rdiv_lt_0_compat; [apply Rmult_lt_0_compat; [apply Rmult_lt_0_compat; assumption|lra]|apply pow_lt; lra].
    - destruct (Props_Bounds.C124_upper_bounds b rho p d O d_out ltac:(lra) ltac:(lra) d_near) as (_ & B & _).
      eapply Rle_trans; [apply Rle_abs|]. eapply Rle_trans; [apply cauchy_schwarz|]. rewrite W, Rmult_1_l. eapply Rle_trans; [exact B|].
      unfold prism_mass. replace (G_newton * (volume b * rho) / d ^ 2) with (G_newton * rho * (volume b / d ^ 2)) by (field; nra). apply Rmult_le_compat_l; [lra|apply small_2].
  Qed.
  Lemma grad_bound w v : vnorm w = 1 -> vnorm v = 1 -> Rabs (vdot w (mvec (gravitational_gradient G_newton b rho p) v)) <= G_newton * rho * (2 * / 2 ^ 60).
  Proof.
    intros W Vv. pose proof V0. pose proof G0. destruct (Props_Bounds.C124_upper_bounds b rho p d O d_out ltac:(lra) ltac:(lra) d_near) as (_ & _ & B).
    eapply Rle_trans; [apply cauchy_schwarz|]. rewrite W, Rmult_1_l. eapply Rle_trans; [apply B|]. rewrite Vv, Rmult_1_r.
    assert (0 < d ^ 3) by (apply pow_lt; lra).
    unfold prism_mass. replace (2 * G_newton * (volume b * rho) / d ^ 3) with (G_newton * rho * (2 * (volume b / d ^ 3))) by (field; lra). apply Rmult_le_compat_l; [lra|]. pose proof small_3. lra.
  Qed.
  Lemma lost k v e g : grid k v -> g <= bpow radix2 k -> 0 < g -> e <> 0 -> Rabs e <= G_newton * rho * (g / 8) -> useless 7 (fl (fl (- fG * rho) * v)) e.
  Proof.
    intros Gv L Pg N B. split; [exact N|]. pose proof G0. destruct (grid_gap k v Gv) as [->|Q]; [left; rewrite Rmult_0_r; apply fl_id, float_0|right].
    pose proof (near_round 2 _ _ (near_mult 2 0 _ _ v v (near_K rho) (near_refl 0 v))) as M. apply near_abs in M; [|lia].
    rewrite (Rabs_mult (- G_newton * rho)) in M. replace (Rabs (- G_newton * rho)) with (G_newton * rho) in M by (rewrite <- (Rabs_Ropp (- G_newton * rho)); rewrite Rabs_pos_eq; lra).
    assert (G_newton * rho * g <= G_newton * rho * Rabs v) by (apply Rmult_le_compat_l; lra). assert (0 < G_newton * rho * g) by nra. lra.
  Qed.
  Lemma field_lost : let c := fgravitational_field log arctan b rho p in let x := gravitational_field G_newton b rho p in
    useless 7 (vx c) (vx x) /\ useless 7 (vy c) (vy x) /\ useless 7 (vz c) (vz x).
  Proof.
    intros c x. destruct (binade (d / 16) ltac:(lra)) as (e & E1 & E2).
    assert (K : d * / 2 ^ 57 <= bpow radix2 (e - 52)).
    { replace (e - 52)%Z with (e + 1 + -53)%Z by lia. rewrite bpow_plus, bpow_53. replace (d * / 2 ^ 57) with (d / 16 * / 2 ^ 53) by field. apply Rmult_le_compat_r; [left; apply Rinv_0_lt_compat; lra|lra]. }
    assert (Gr : forall cy, grid (e - 52) (feval_def_int b (fprism_fz log arctan) p cy)) by (intros cy; apply (far_sum_fz log arctan d); try assumption; replace (e - 52 + 52)%Z with e by lia; exact E1).
    assert (Pg : 0 < d * / 2 ^ 57) by (apply Rmult_lt_0_compat; [lra|apply Rinv_0_lt_compat; lra]).
    assert (T : forall w cy, vnorm w = 1 -> (forall q, in_box b q -> d <= vdot w (vsub q p)) -> useless 7 (fl (fl (- fG * rho) * feval_def_int b (fprism_fz log arctan) p cy)) (vdot w x)).
    { intros w cy W H. pose proof (comp_bounds w W H) as (B1 & B2). apply (lost (e - 52) _ _ (d * / 2 ^ 57)); [apply Gr|exact K|exact Pg|unfold x; lra|]. fold x in B1, B2. rewrite Rabs_pos_eq by lra. replace (d * / 2 ^ 57 / 8) with (d * / 2 ^ 60) by field. exact B2. }
    assert (N : forall w, vnorm2 w = 1 -> vnorm w = 1) by (intros w H; unfold vnorm; rewrite H; apply sqrt_1).
    assert (X : useless 7 (vx c) (vdot (V3 1 0 0) x)) by (apply (T (V3 1 0 0) 1%nat); [apply N; unfold vnorm2, vdot; cbn; ring|intros q Q; destruct (d_box q Q) as (A1 & A2 & A3); unfold vdot, vsub; cbn [vx vy vz]; lra]).
    assert (Y : useless 7 (vy c) (vdot (V3 0 1 0) x)) by (apply (T (V3 0 1 0) 2%nat); [apply N; unfold vnorm2, vdot; cbn; ring|intros q Q; destruct (d_box q Q) as (A1 & A2 & A3); unfold vdot, vsub; cbn [vx vy vz]; lra]).
    assert (Z : useless 7 (vz c) (vdot (V3 0 0 1) x)) by (apply (T (V3 0 0 1) 0%nat); [apply N; unfold vnorm2, vdot; cbn; ring|intros q Q; destruct (d_box q Q) as (A1 & A2 & A3); unfold vdot, vsub; cbn [vx vy vz]; lra]).
    replace (vdot (V3 1 0 0) x) with (vx x) in X by (unfold vdot; cbn [vx vy vz]; ring). replace (vdot (V3 0 1 0) x) with (vy x) in Y by (unfold vdot; cbn [vx vy vz]; ring). replace (vdot (V3 0 0 1) x) with (vz x) in Z by (unfold vdot; cbn [vx vy vz]; ring).
    repeat split; first [apply X|apply Y|apply Z].
  Qed.
  Lemma gradient_lost : let c := fgravitational_gradient log arctan b rho p in let x := gravitational_gradient G_newton b rho p in
    (vx (m0 x) <> 0 -> useless 7 (vx (m0 c)) (vx (m0 x))) /\ (vy (m1 x) <> 0 -> useless 7 (vy (m1 c)) (vy (m1 x))) /\ (vz (m2 x) <> 0 -> useless 7 (vz (m2 c)) (vz (m2 x))).
  Proof.
    intros c x.
    assert (T : forall w cy, vnorm2 w = 1 -> vdot w (mvec x w) <> 0 -> useless 7 (fl (fl (- fG * rho) * feval_def_int b (fprism_fzz arctan) p cy)) (vdot w (mvec x w))).
    { intros w cy W H. apply (lost (-56) _ _ (/ 2 ^ 56)); [apply (far_sum_fzz arctan d); assumption|right; cbn [bpow]; f_equal; change (Z.pow_pos radix2 56) with 72057594037927936%Z; lra|apply Rinv_0_lt_compat; lra|exact H|].
      assert (vnorm w = 1) by (unfold vnorm; rewrite W; apply sqrt_1). eapply Rle_trans; [apply grad_bound; assumption|]. pose proof G0. right. field. }
    assert (X := T (V3 1 0 0) 1%nat). assert (Y := T (V3 0 1 0) 2%nat). assert (Z := T (V3 0 0 1) 0%nat).
    replace (vdot (V3 1 0 0) (mvec x (V3 1 0 0))) with (vx (m0 x)) in X by (unfold vdot, mvec; cbn [vx vy vz]; unfold vdot; cbn [vx vy vz]; ring).
    replace (vdot (V3 0 1 0) (mvec x (V3 0 1 0))) with (vy (m1 x)) in Y by (unfold vdot, mvec; cbn [vx vy vz]; unfold vdot; cbn [vx vy vz]; ring).
    replace (vdot (V3 0 0 1) (mvec x (V3 0 0 1))) with (vz (m2 x)) in Z by (unfold vdot, mvec; cbn [vx vy vz]; unfold vdot; cbn [vx vy vz]; ring).
    repeat split; intros; first [apply X|apply Y|apply Z]; try assumption; unfold vnorm2, vdot; cbn [vx vy vz]; ring.
  Qed.
End Distant.

(** ** a concrete case *)
Lemma good_lib : float_log (fun t => fl (ln t)) /\ good_atan (fun t => fl (atan t)).
Proof.
  split; [intros t _|intros t]; (split; [apply fl_float|]); unfold within; (eapply Rle_trans; [apply fl_err|]); apply Rmult_le_compat_r; try apply Rabs_pos; fold u; pose proof u_pos; lra.
Qed.
Definition wb : box := Box (V3 0 0 0) (V3 1 1 1).
Definition wp : vec3 := V3 (- 2 ^ 20) (- 2 ^ 20) (1 - 2 ^ 21).
Lemma tol q : 0 <= q <= / 100 -> 12 * q ^ 2 / (1 - q) ^ 5 <= / 8.
Proof.
  intros Q. assert (L : 9 / 10 <= (1 - q) ^ 5). { apply Rle_trans with ((99 / 100) ^ 5); [lra|apply pow_incr; lra]. }
  apply Rmult_le_reg_r with ((1 - q) ^ 5); [lra|]. replace (12 * q ^ 2 / (1 - q) ^ 5 * (1 - q) ^ 5) with (12 * q ^ 2) by (field; lra). nra.
Qed.
Lemma wzz : vz (m2 (gravitational_gradient G_newton wb 1 wp)) <> 0.
Proof.
  assert (O : ordered wb) by (unfold ordered; cbn; lra).
  assert (E : vsub wp (location wb) = V3 (- (2 ^ 20 + / 2)) (- (2 ^ 20 + / 2)) (- (2 ^ 21 - / 2))) by (unfold wp, wb, location, vsub, vscal, vadd; cbn; f_equal; lra).
  set (v := vsub wp (location wb)) in *. set (r := vnorm v). assert (R0 : 0 <= r) by apply vnorm_nonneg.
  assert (R2 : r * r = vnorm2 v) by (unfold r, vnorm; apply sqrt_sqrt; unfold vnorm2, vdot; nra).
  assert (R3 : vnorm2 v = 2 * (2 ^ 20 + / 2) ^ 2 + (2 ^ 21 - / 2) ^ 2) by (rewrite E; unfold vnorm2, vdot; cbn [vx vy vz]; ring).
  assert (R1 : 2 ^ 20 <= r) by nra. set (a := half_diagonal wb).
  assert (A : 0 <= a <= 1).
  { unfold a, half_diagonal. pose proof (vnorm_nonneg (vsub (b_max wb) (b_min wb))) as N. assert (vnorm (vsub (b_max wb) (b_min wb)) * vnorm (vsub (b_max wb) (b_min wb)) = 3) by (unfold vnorm; rewrite sqrt_sqrt; unfold vnorm2, vdot, vsub, wb; cbn; lra). nra. }
  assert (Q : 0 <= a / r <= / 100).
  { split; [apply Rmult_le_pos; [lra|left; apply Rinv_0_lt_compat; lra]|]. apply Rmult_le_reg_r with r; [lra|]. replace (a / r * r) with a by (field; lra). lra. }
  destruct (Props_FarField.C112_far_field_is_a_point_mass wb 1 wp O) as (_ & H). { fold v r a. lra. }
  specialize (H (V3 0 0 1)). fold v r a in H. pose proof (tol _ Q) as T.
  set (x := mvec (gravitational_gradient G_newton wb 1 wp) (V3 0 0 1)) in *. set (s := PM (prism_mass wb 1) (location wb)) in *.
  set (y := mvec (pm_gradient s wp) (V3 0 0 1)) in *.
  assert (Xz : vz x = vz (m2 (gravitational_gradient G_newton wb 1 wp))) by (unfold x, mvec; cbn [vz]; unfold vdot; cbn [vx vy vz]; ring).
  rewrite <- Xz. set (c := G_newton * prism_mass wb 1 / r ^ 3).
  assert (C : 0 < c) by (unfold c, prism_mass, volume, wb, G_newton; cbn [b_min b_max vx vy vz]; apply Rdiv_lt_0_compat; [lra|apply pow_lt; lra]).
  set (n := V3 (vx v / r) (vy v / r) (vz v / r)).
  assert (Y : y = V3 (c * (3 * vx n * vz n)) (c * (3 * vy n * vz n)) (c * (3 * vz n * vz n - 1))).
  { unfold y, mvec, pm_gradient. fold s. change (pm_loc s) with (location wb). fold v. fold r. cbv zeta. cbn [m0 m1 m2]. fold n. unfold vdot at 1 2 3. cbn [vx vy vz]. change (pm_mass s) with (prism_mass wb 1). unfold c. f_equal; unfold n; cbn [vx vy vz]; field; lra. }
  assert (N1 : vx n * vx n + vy n * vy n + vz n * vz n = 1).
  { unfold n; cbn [vx vy vz]. replace (vx v / r * (vx v / r) + vy v / r * (vy v / r) + vz v / r * (vz v / r)) with (vnorm2 v / (r * r)) by (unfold vnorm2, vdot; field; lra). rewrite R2. field. rewrite <- R2. nra. }
  assert (N2 : 1 / 2 <= 3 * (vz n * vz n) - 1).
  { assert (vz n * vz n * (r * r) = vz v * vz v) by (unfold n; cbn [vz]; field; lra). rewrite R2, R3 in H0. rewrite E in H0. cbn [vz] in H0. nra. }
  assert (NY : vnorm y <= 2 * c).
  { unfold vnorm. rewrite <- (sqrt_Rsqr (2 * c)) by lra. apply sqrt_le_1_alt. rewrite Y. unfold vnorm2, vdot, Rsqr; cbn [vx vy vz].
    replace (c * (3 * vx n * vz n) * (c * (3 * vx n * vz n)) + c * (3 * vy n * vz n) * (c * (3 * vy n * vz n)) + c * (3 * vz n * vz n - 1) * (c * (3 * vz n * vz n - 1)))
      with (c * c * (9 * (vz n * vz n) * (vx n * vx n + vy n * vy n + vz n * vz n) - 6 * (vz n * vz n) + 1)) by ring.
    rewrite N1. assert (vz n * vz n <= 1) by (pose proof (Rle_0_sqr (vx n)); pose proof (Rle_0_sqr (vy n)); unfold Rsqr in *; lra). assert (0 < c * c) by nra. nra. }
  assert (Dz : Rabs (vz x - vz y) <= / 8 * (2 * c)).
  { apply Rle_trans with (vnorm (vsub x y)).
    - unfold vnorm. rewrite <- sqrt_Rsqr_abs. apply sqrt_le_1_alt. unfold vnorm2, vdot, vsub, Rsqr; cbn [vx vy vz]. pose proof (Rle_0_sqr (vx x - vx y)). pose proof (Rle_0_sqr (vy x - vy y)). unfold Rsqr in *. lra.
    - eapply Rle_trans; [exact H|]. pose proof (vnorm_nonneg y). apply Rmult_le_compat; try lra. apply Rmult_le_pos; [nra|]. left. apply Rinv_0_lt_compat, pow_lt. lra. }
  rewrite Y in Dz. cbn [vz] in Dz. intros Z0. rewrite Z0 in Dz. apply Rabs_le_between in Dz. nra.
Qed.
