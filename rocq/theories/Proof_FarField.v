(** Second order accuracy of the point source approximations of a prism (C112). *)
From Coq Require Import Reals Lra Psatz.
From Coquelicot Require Import Coquelicot.
From Verif Require Import Vec3 Calculus Deriv Integral TripleParam Model_Gravity Model_Static Model_Prism Spec_Prism Spec_Far Spec_Super
  Proof_Prism Proof_Prism2 Proof_Far Proof_Super Proof_Super2 Proof_Super4 Proof_Super5 Proof_LoopFar2.
Open Scope R_scope.

(** ** the mean of a function at two opposite points *)
Lemma mean_above (g g1 g2 : R -> R) K : (forall t, -1 <= t <= 1 -> is_derive g t (g1 t)) -> (forall t, -1 <= t <= 1 -> is_derive g1 t (g2 t)) ->
  (forall t, -1 <= t <= 1 -> g2 t <= K) -> 1 / 2 * (g 1 + g (-1)) - g 0 <= K / 2.
Proof.
  intros H1 H2 HK.
  destruct (MVT_cor2 (fun t => K * (t * t) - (g t + g (- t))) (fun t => 2 * K * t - (g1 t - g1 (- t))) 0 1) as (c & E & C); [lra| |].
  { intros c C. apply is_derive_Reals.
    assert (A : is_derive g c (g1 c)) by (apply H1; lra). assert (B : is_derive g (- c) (g1 (- c))) by (apply H1; lra).
    auto_derive.
    - split; [exists (g1 c); exact A|]. split; [exists (g1 (- c)); exact B|exact I].
    - replace (Derive (fun x => g x) c) with (g1 c) by (symmetry; apply is_derive_unique, A).
      replace (Derive (fun x => g x) (- c)) with (g1 (- c)) by (symmetry; apply is_derive_unique, B). ring. }
  destruct (MVT_cor2 g1 g2 (- c) c) as (e & F & D); [lra| |].
  { intros e D. apply is_derive_Reals, H2. lra. }
  assert (L : g2 e <= K) by (apply HK; clear - C D; lra). assert (G : g2 e * (c - - c) <= K * (2 * c)) by (replace (c - - c) with (2 * c) by ring; apply Rmult_le_compat_r; lra). rewrite <- F in G.
  cbv beta in E. rewrite Ropp_0 in E. replace (- (1)) with (-1) in E by ring. lra.
Qed.
Lemma mean_opposite (g g1 g2 : R -> R) K : (forall t, -1 <= t <= 1 -> is_derive g t (g1 t)) -> (forall t, -1 <= t <= 1 -> is_derive g1 t (g2 t)) ->
  (forall t, -1 <= t <= 1 -> Rabs (g2 t) <= K) -> Rabs (1 / 2 * (g 1 + g (-1)) - g 0) <= K / 2.
Proof.
  intros H1 H2 HK. assert (B : forall t, -1 <= t <= 1 -> - K <= g2 t <= K) by (intros t T; apply Rabs_le_between, HK, T).
  apply Rabs_le. split; [|apply (mean_above g g1 g2 K H1 H2); intros t T; apply B, T].
  pose proof (mean_above (fun t => - g t) (fun t => - g1 t) (fun t => - g2 t) K) as M. cbv beta in M.
  assert (E : 1 / 2 * (- g 1 + - g (-1)) - - g 0 <= K / 2).
  { apply M; intros t T; [apply (is_derive_opp g), H1, T|apply (is_derive_opp g1), H2, T|destruct (B t T); lra]. }
  lra.
Qed.

(** ** inequalities for unit vectors *)
Lemma third_bound be bs bw : (* be = e.s, bs = s.w, bw = e.w for unit e, s, w *)
  forall e s w, vdot e e = 1 -> vdot s s = 1 -> vdot w w = 1 -> be = vdot e s -> bs = vdot s w -> bw = vdot e w ->
  Rabs (6 * bs * be + 3 * bw - 15 * bw * be * be) <= 6.
Proof.
  intros e s w E S W -> -> ->. set (X := vadd (vscal (6 * vdot e s) s) (vscal (3 - 15 * vdot e s * vdot e s) e)).
  replace (6 * vdot s w * vdot e s + 3 * vdot e w - 15 * vdot e w * vdot e s * vdot e s) with (vdot X w)
    by (unfold X, vdot, vadd, vscal; cbn [vx vy vz]; ring).
  eapply Rle_trans; [apply cauchy_schwarz|].
  assert (NW : vnorm w = 1) by (apply vnorm_unique; [lra|]; rewrite vnorm2_dot; lra). rewrite NW, Rmult_1_r.
  assert (B : vdot e s * vdot e s <= 1).
  { pose proof (lagrange_identity e s) as L. rewrite !vnorm2_dot, E, S in L. pose proof (vnorm2_nonneg (vcross e s)) as P. rewrite vnorm2_dot in P. lra. }
  assert (Q : vnorm2 X = 9 - 18 * (vdot e s * vdot e s) + 45 * (vdot e s * vdot e s) * (vdot e s * vdot e s)).
  { rewrite vnorm2_dot. unfold X. set (b := vdot e s) in *.
    replace (vdot (vadd (vscal (6 * b) s) (vscal (3 - 15 * b * b) e)) (vadd (vscal (6 * b) s) (vscal (3 - 15 * b * b) e)))
      with (6 * b * (6 * b) * vdot s s + 2 * (6 * b) * (3 - 15 * b * b) * vdot e s + (3 - 15 * b * b) * (3 - 15 * b * b) * vdot e e)
      by (unfold vdot, vadd, vscal; cbn [vx vy vz]; ring). fold b. rewrite E, S. ring. }
  apply Rsqr_incr_0_var; [|lra]. unfold Rsqr. rewrite vnorm_sqr, Q. set (y := vdot e s * vdot e s) in *. assert (0 <= y) by apply Rle_0_sqr. nra.
Qed.
Definition four (be p mu : R) : R := 105 * (p * p) * (be * be) - 15 * (be * be + 4 * p * mu * be + p * p) + 3 * (1 + 2 * (mu * mu)).
Lemma four_bound be p mu : be * be <= 1 -> p * p <= 1 -> (mu - p * be) * (mu - p * be) <= (1 - p * p) * (1 - be * be) -> Rabs (four be p mu) <= 24.
Proof.
  intros B P D. set (x := 1 - p * p) in *. set (y := 1 - be * be) in *. set (d := mu - p * be) in *.
  assert (X0 : 0 <= x <= 1) by (unfold x; pose proof (Rle_0_sqr p) as Q; unfold Rsqr in Q; lra).
  assert (Y0 : 0 <= y <= 1) by (unfold y; pose proof (Rle_0_sqr be) as Q; unfold Rsqr in Q; lra).
  assert (E : four be p mu = 24 - 36 * (x + y) + 51 * (x * y) - 48 * (p * be) * d + 6 * (d * d)) by (unfold four, x, y, d; ring).
  assert (PB : (p * be) * (p * be) = 1 - (x + y) + x * y) by (unfold x, y; ring).
  set (h := p * be) in *. clearbody x y d h. rewrite E. clear E B P. apply Rabs_le. split.
  - assert (0 <= (6 * h - 4 * d) * (6 * h - 4 * d)) by apply Rle_0_sqr. assert (0 <= x * y) by (apply Rmult_le_pos; lra). nra.
  - set (q := sqrt (x * y)). assert (XY : 0 <= x * y) by (apply Rmult_le_pos; lra). assert (Q0 : 0 <= q) by apply sqrt_pos. assert (QQ : q * q = x * y) by (apply sqrt_sqrt, XY).
    assert (Q1 : q <= 1). { apply Rsqr_incr_0_var; [|lra]. unfold Rsqr. rewrite QQ. nra. }
    assert (Q2 : 2 * q <= x + y). { apply Rsqr_incr_0_var; [|lra]. unfold Rsqr. assert (0 <= (x - y) * (x - y)) by apply Rle_0_sqr. nra. }
    assert (HA : Rabs h <= 1 - q). { apply Rsqr_incr_0_var; [|lra]. rewrite <- Rsqr_abs. unfold Rsqr. nra. }
    assert (DA : Rabs d <= q). { apply Rsqr_incr_0_var; [|lra]. rewrite <- Rsqr_abs. unfold Rsqr. lra. }
    assert (HD : - (h * d) <= (1 - q) * q).
    { pose proof (Rle_abs (- (h * d))) as A. rewrite Rabs_Ropp, Rabs_mult in A. pose proof (Rmult_le_compat _ _ _ _ (Rabs_pos h) (Rabs_pos d) HA DA). lra. }
    nra.
Qed.
(** the quadratic form in [m], then the bilinear one *)
Definition bil (e s m w : vec3) : R :=
  6 * vdot s m * vdot s w + 3 * vdot m w * vdot s s
  - 15 * (2 * vdot s m * vdot e w * vdot e s + 2 * vdot s w * vdot e m * vdot e s + vdot e m * vdot e w * vdot s s + vdot m w * vdot e s * vdot e s)
  + 105 * vdot e m * vdot e w * (vdot e s * vdot e s).
Lemma bil_unit e s m : vdot e e = 1 -> vdot s s = 1 -> vdot m m = 1 -> Rabs (bil e s m m) <= 24.
Proof.
  intros E S M. replace (bil e s m m) with (four (vdot e s) (vdot e m) (vdot s m)).
  - assert (L : forall a b, vdot a a = 1 -> vdot b b = 1 -> vdot a b * vdot a b <= 1).
    { intros a b A B. pose proof (lagrange_identity a b) as L. rewrite !vnorm2_dot, A, B in L. pose proof (vnorm2_nonneg (vcross a b)) as P. rewrite vnorm2_dot in P. lra. }
    apply four_bound; [apply L; assumption|apply L; assumption|].
    (* Cauchy-Schwarz for the parts of s and m orthogonal to e *)
    set (b := vdot e s). set (c := vdot e m).
    pose proof (lagrange_identity (vsub m (vscal c e)) (vsub s (vscal b e))) as G. rewrite !vnorm2_dot in G.
    assert (G1 : vdot (vsub m (vscal c e)) (vsub s (vscal b e)) = vdot s m - c * b).
    { transitivity (vdot s m - b * vdot e m - c * vdot e s + c * b * vdot e e); [unfold vdot, vsub, vscal; cbn [vx vy vz]; ring|]. fold b c. rewrite E. ring. }
    assert (G2 : vdot (vsub m (vscal c e)) (vsub m (vscal c e)) = 1 - c * c).
    { transitivity (vdot m m - 2 * c * vdot e m + c * c * vdot e e); [unfold vdot, vsub, vscal; cbn [vx vy vz]; ring|]. fold c. rewrite E, M. ring. }
    assert (G3 : vdot (vsub s (vscal b e)) (vsub s (vscal b e)) = 1 - b * b).
    { transitivity (vdot s s - 2 * b * vdot e s + b * b * vdot e e); [unfold vdot, vsub, vscal; cbn [vx vy vz]; ring|]. fold b. rewrite E, S. ring. }
    rewrite G1, G2, G3 in G. pose proof (vnorm2_nonneg (vcross (vsub m (vscal c e)) (vsub s (vscal b e)))) as P. rewrite vnorm2_dot in P. lra.
  - unfold bil, four. rewrite S, M. ring.
Qed.
Lemma bil_scal k l j e s m w : bil e (vscal j s) (vscal k m) (vscal l w) = k * l * (j * j) * bil e s m w.
Proof. unfold bil, vdot, vscal; cbn [vx vy vz]. ring. Qed.
Lemma unit_of v : v <> vzero -> exists n, vdot n n = 1 /\ v = vscal (vnorm v) n.
Proof.
  intro H. pose proof (vnorm_pos v H) as P. exists (vscal (/ vnorm v) v). split.
  - transitivity (/ vnorm v * / vnorm v * vnorm2 v); [unfold vdot, vnorm2, vscal; cbn [vx vy vz]; ring|]. rewrite <- vnorm_sqr. field. lra.
  - unfold vscal. destruct v as [x y z]. cbn [vx vy vz]. apply vec3_eq; cbn [vx vy vz]; field; lra.
Qed.
Lemma vzero_dec v : v = vzero \/ v <> vzero.
Proof. destruct (Req_dec (vnorm v) 0) as [E|E]; [left; apply vnorm_eq0, E|right; intro H; apply E; rewrite H; apply vnorm_zero]. Qed.
Lemma quad_bound e s m : vdot e e = 1 -> Rabs (bil e s m m) <= 24 * vdot s s * vdot m m.
Proof.
  intros E.
  destruct (vzero_dec s) as [->|HS]. { unfold bil, vdot, vzero; cbn [vx vy vz]. replace (6 * _ * _ + _ - _ + _) with 0 by ring. rewrite Rabs_R0. lra. }
  destruct (vzero_dec m) as [->|HM]. { unfold bil, vdot, vzero; cbn [vx vy vz]. replace (6 * _ * _ + _ - _ + _) with 0 by ring. rewrite Rabs_R0. lra. }
  destruct (unit_of s HS) as (s' & S1 & S2). destruct (unit_of m HM) as (m' & M1 & M2). rewrite <- !vnorm2_dot, <- !vnorm_sqr.
  rewrite S2 at 1. rewrite M2 at 1. rewrite M2 at 2. rewrite bil_scal.
  pose proof (bil_unit e s' m' E S1 M1) as B. set (k := vnorm m) in *. set (j := vnorm s) in *.
  assert (0 <= k * k) by apply Rle_0_sqr. assert (0 <= j * j) by apply Rle_0_sqr.
  rewrite Rabs_mult, (Rabs_pos_eq (k * k * (j * j))) by (apply Rmult_le_pos; assumption).
  replace (24 * (j * j) * (k * k)) with (k * k * (j * j) * 24) by ring. apply Rmult_le_compat_l; [apply Rmult_le_pos; assumption|exact B].
Qed.
Lemma bil_bound e s m w : vdot e e = 1 -> vdot m m = 1 -> vdot w w = 1 -> Rabs (bil e s m w) <= 24 * vdot s s.
Proof.
  intros E M W. pose proof (quad_bound e s (vadd m w) E) as P. pose proof (quad_bound e s (vsub m w) E) as Q.
  assert (Z : vdot (vadd m w) (vadd m w) + vdot (vsub m w) (vsub m w) = 4).
  { transitivity (2 * vdot m m + 2 * vdot w w); [unfold vdot, vadd, vsub; cbn [vx vy vz]; ring|lra]. }
  assert (F : bil e s m w = (bil e s (vadd m w) (vadd m w) - bil e s (vsub m w) (vsub m w)) / 4) by (unfold bil, vdot, vadd, vsub; cbn [vx vy vz]; field).
  rewrite F. set (f := bil e s (vadd m w) (vadd m w)) in *. set (g := bil e s (vsub m w) (vsub m w)) in *.
  apply Rabs_le_between in P. apply Rabs_le_between in Q. apply Rabs_le.
  set (a := vdot (vadd m w) (vadd m w)) in *. set (c := vdot (vsub m w) (vsub m w)) in *. set (S := vdot s s) in *.
  assert (K : 24 * S * a + 24 * S * c = 96 * S) by (replace c with (4 - a) by lra; ring). lra.
Qed.
