(** Prisms seen from a distance, and their mirror images (C109). *)
From Coq Require Import Reals Lra Psatz.
From Coquelicot Require Import Coquelicot.
From Verif Require Import Vec3 Calculus Deriv Integral Model_Gravity Model_Prism Spec_Prism Spec_Far Proof_Prism Proof_Prism2 Proof_Prism3.
Open Scope R_scope.

(** ** triple integrals *)
Lemma triple_le f g a1 a2 b1 b2 c1 c2 I J : a1 <= a2 -> b1 <= b2 -> c1 <= c2 ->
  (forall x y z, a1 <= x <= a2 -> b1 <= y <= b2 -> c1 <= z <= c2 -> f x y z <= g x y z) ->
  is_triple_integral f a1 a2 b1 b2 c1 c2 I -> is_triple_integral g a1 a2 b1 b2 c1 c2 J -> I <= J.
Proof.
  intros A B D H (f1 & f2 & F1 & F2 & F3) (g1 & g2 & G1 & G2 & G3).
  refine (is_RInt_le _ _ _ _ _ _ A F3 G3 _). intros x X.
  refine (is_RInt_le _ _ _ _ _ _ B (F2 x _) (G2 x _) _); [lra|lra|]. intros y Y.
  refine (is_RInt_le _ _ _ _ _ _ D (F1 x y _ _) (G1 x y _ _) _); [lra|lra|lra|lra|]. intros z Z. apply H; lra.
Qed.
Lemma triple_unique f a1 a2 b1 b2 c1 c2 I J : a1 <= a2 -> b1 <= b2 -> c1 <= c2 ->
  is_triple_integral f a1 a2 b1 b2 c1 c2 I -> is_triple_integral f a1 a2 b1 b2 c1 c2 J -> I = J.
Proof. intros A B D H K. apply Rle_antisym; [refine (triple_le f f _ _ _ _ _ _ I J A B D _ H K)|refine (triple_le f f _ _ _ _ _ _ J I A B D _ K H)]; intros; lra. Qed.
Lemma triple_const k a1 a2 b1 b2 c1 c2 : is_triple_integral (fun _ _ _ => k) a1 a2 b1 b2 c1 c2 (k * ((a2 - a1) * (b2 - b1) * (c2 - c1))).
Proof.
  exists (fun _ _ => (c2 - c1) * k), (fun _ => (b2 - b1) * ((c2 - c1) * k)).
  split; [|split].
  - intros. apply (is_RInt_const c1 c2 k).
  - intros. apply (is_RInt_const b1 b2 ((c2 - c1) * k)).
  - replace (k * ((a2 - a1) * (b2 - b1) * (c2 - c1))) with ((a2 - a1) * ((b2 - b1) * ((c2 - c1) * k))) by ring.
    apply (is_RInt_const a1 a2 ((b2 - b1) * ((c2 - c1) * k))).
Qed.
Lemma triple_plus f g a1 a2 b1 b2 c1 c2 I J :
  is_triple_integral f a1 a2 b1 b2 c1 c2 I -> is_triple_integral g a1 a2 b1 b2 c1 c2 J ->
  is_triple_integral (fun x y z => f x y z + g x y z) a1 a2 b1 b2 c1 c2 (I + J).
Proof.
  intros (f1 & f2 & F1 & F2 & F3) (g1 & g2 & G1 & G2 & G3).
  exists (fun x y => f1 x y + g1 x y), (fun x => f2 x + g2 x). split; [|split].
  - intros x y X Y. exact (is_RInt_plus _ _ _ _ _ _ (F1 x y X Y) (G1 x y X Y)).
  - intros x X. exact (is_RInt_plus _ _ _ _ _ _ (F2 x X) (G2 x X)).
  - exact (is_RInt_plus _ _ _ _ _ _ F3 G3).
Qed.
(** reflected intervals *)
Lemma RInt_flip (f : R -> R) a b m (I : R) : is_RInt f a b I -> is_RInt (fun t => f (m - t)) (m - b) (m - a) I.
Proof.
  intros H. apply is_RInt_swap in H.
  assert (K : is_RInt f (-1 * (m - b) + m) (-1 * (m - a) + m) (opp I)) by (replace (-1 * (m - b) + m) with b by ring; replace (-1 * (m - a) + m) with a by ring; exact H).
  apply (is_RInt_comp_lin f (-1) m) in K. apply is_RInt_opp in K. rewrite opp_opp in K.
  eapply is_RInt_ext; [|exact K]. intros x _. cbn. unfold opp, scal; cbn. unfold mult; cbn. replace (-1 * x + m) with (m - x) by ring. ring.
Qed.
Lemma triple_flip_x f a1 a2 b1 b2 c1 c2 m I : is_triple_integral f a1 a2 b1 b2 c1 c2 I ->
  is_triple_integral (fun x y z => f (m - x) y z) (m - a2) (m - a1) b1 b2 c1 c2 I.
Proof.
  intros (f1 & f2 & F1 & F2 & F3). exists (fun x y => f1 (m - x) y), (fun x => f2 (m - x)). split; [|split].
  - intros. apply F1; lra.
  - intros. apply F2; lra.
  - apply RInt_flip, F3.
Qed.
Lemma triple_flip_y f a1 a2 b1 b2 c1 c2 m I : is_triple_integral f a1 a2 b1 b2 c1 c2 I ->
  is_triple_integral (fun x y z => f x (m - y) z) a1 a2 (m - b2) (m - b1) c1 c2 I.
Proof.
  intros (f1 & f2 & F1 & F2 & F3). exists (fun x y => f1 x (m - y)), f2. split; [|split].
  - intros. apply F1; lra.
  - intros. apply RInt_flip, F2; lra.
  - exact F3.
Qed.
Lemma triple_flip_z f a1 a2 b1 b2 c1 c2 m I : is_triple_integral f a1 a2 b1 b2 c1 c2 I ->
  is_triple_integral (fun x y z => f x y (m - z)) a1 a2 b1 b2 (m - c2) (m - c1) I.
Proof.
  intros (f1 & f2 & F1 & F2 & F3). exists f1, f2. split; [|split].
  - intros. apply RInt_flip, F1; lra.
  - exact F2.
  - exact F3.
Qed.
Lemma triple_ext f g a1 a2 b1 b2 c1 c2 I : (forall x y z, f x y z = g x y z) -> is_triple_integral f a1 a2 b1 b2 c1 c2 I -> is_triple_integral g a1 a2 b1 b2 c1 c2 I.
Proof.
  intros E (f1 & f2 & F1 & F2 & F3). exists f1, f2. split; [|split; [exact F2|exact F3]].
  intros x y X Y. eapply is_RInt_ext; [|apply F1; eassumption]. intros z _. apply E.
Qed.

(** ** the mean of the inverse distances to two opposite points *)
Lemma opposite_points d s a : 0 <= a -> vnorm s <= a -> a < vnorm d ->
  2 / sqrt (vnorm d ^ 2 + a ^ 2) <= 1 / vnorm (vsub d s) + 1 / vnorm (vadd d s) <= 2 * vnorm d / (vnorm d ^ 2 - a ^ 2).
Proof.
  intros A S D. set (r := vnorm d) in *. set (h := vnorm s) in *. set (x := vnorm (vsub d s)). set (y := vnorm (vadd d s)).
  assert (R2 : r * r = vnorm2 d) by (apply sqrt_sqrt; unfold vnorm2; nra).
  assert (H2 : h * h = vnorm2 s) by (apply sqrt_sqrt; unfold vnorm2; nra).
  assert (X2 : x * x = vnorm2 (vsub d s)) by (apply sqrt_sqrt; unfold vnorm2; nra).
  assert (Y2 : y * y = vnorm2 (vadd d s)) by (apply sqrt_sqrt; unfold vnorm2; nra).
  assert (X0 : 0 <= x) by apply sqrt_pos. assert (Y0 : 0 <= y) by apply sqrt_pos. assert (H0 : 0 <= h) by apply sqrt_pos.
  set (t := 2 * vdot d s).
  assert (XT : x * x = r * r + h * h - t) by (rewrite X2, R2, H2; unfold t, vnorm2, vdot, vsub; cbn [vx vy vz]; ring).
  assert (YT : y * y = r * r + h * h + t) by (rewrite Y2, R2, H2; unfold t, vnorm2, vdot, vadd; cbn [vx vy vz]; ring).
  assert (CS : t * t <= 4 * (r * r) * (h * h)).
  { unfold t. rewrite R2, H2. assert (E : vdot d s * vdot d s + vnorm2 (vcross d s) = vnorm2 d * vnorm2 s) by (unfold vdot, vnorm2, vcross; cbn [vx vy vz]; ring).
    assert (0 <= vnorm2 (vcross d s)) by (unfold vnorm2; nra). nra. }
  set (P := x * y). set (q := r * r - h * h). assert (Q0 : 0 < q) by (unfold q; nra).
  assert (PP : P * P >= q * q).
  { replace (P * P) with ((x * x) * (y * y)) by (unfold P; ring). rewrite XT, YT. unfold q. nra. }
  assert (P0 : 0 <= P) by (apply Rmult_le_pos; assumption).
  assert (PQ : q <= P) by nra. assert (PP0 : 0 < P) by lra.
  assert (XP : 0 < x) by (destruct X0 as [|E]; [assumption|]; exfalso; unfold P in PP0; rewrite <- E in PP0; lra).
  assert (YP : 0 < y) by (destruct Y0 as [|E]; [assumption|]; exfalso; unfold P in PP0; rewrite <- E in PP0; lra).
  assert (SUM : 1 / x + 1 / y = (x + y) / P) by (unfold P; field; lra).
  assert (XY2 : (x + y) * (x + y) = 2 * (r * r + h * h) + 2 * P) by (unfold P; nra).
  rewrite SUM. split.
  - set (w := sqrt (r ^ 2 + a ^ 2)). assert (W2 : w * w = r ^ 2 + a ^ 2) by (apply sqrt_sqrt; nra).
    assert (W0 : 0 < w) by (apply sqrt_lt_R0; nra).
    assert (HA : h * h <= a * a) by (apply Rmult_le_compat; lra).
    assert (PU : P <= w * w) by (assert (0 <= (x - y) * (x - y)) by nra; rewrite W2; unfold P; lra).
    assert (K : 2 * P <= (x + y) * w).
    { assert (4 * (P * P) <= (x + y) * w * ((x + y) * w)).
      { replace ((x + y) * w * ((x + y) * w)) with ((x + y) * (x + y) * (w * w)) by ring. assert (4 * P <= (x + y) * (x + y)) by (unfold P; nra).
        apply Rle_trans with (4 * P * (w * w)); [nra|]. apply Rmult_le_compat_r; nra. }
      apply Rnot_lt_le. intros N. assert (0 <= (x + y) * w) by (apply Rmult_le_pos; lra). nra. }
    apply Rmult_le_reg_r with (P * w); [apply Rmult_lt_0_compat; assumption|].
    replace (2 / w * (P * w)) with (2 * P) by (field; lra). replace ((x + y) / P * (P * w)) with ((x + y) * w) by (field; lra). exact K.
  - set (Q := r ^ 2 - a ^ 2). assert (QQ : 0 < Q <= q) by (unfold Q, q; nra).
    assert (K : (x + y) * q <= 2 * r * P).
    { assert ((x + y) * q * ((x + y) * q) <= 2 * r * P * (2 * r * P)).
      { replace ((x + y) * q * ((x + y) * q)) with ((x + y) * (x + y) * (q * q)) by ring. rewrite XY2.
        assert (E : 2 * (r * r + h * h) = 4 * (r * r) - 2 * q) by (unfold q; ring). rewrite E.
        replace (2 * r * P * (2 * r * P)) with (4 * (r * r) * (P * P)) by ring.
        assert (F : 4 * (r * r) * (P * P) - (4 * (r * r) - 2 * q + 2 * P) * (q * q) = (P - q) * (4 * (r * r) * (P + q) - 2 * (q * q))) by ring.
        assert (0 <= 4 * (r * r) * (P + q) - 2 * (q * q)) by (assert (q <= r * r) by (unfold q; nra); nra).
        assert (0 <= (P - q) * (4 * (r * r) * (P + q) - 2 * (q * q))) by (apply Rmult_le_pos; lra). lra. }
      apply Rnot_lt_le. intros N. assert (0 <= 2 * r * P) by (apply Rmult_le_pos; nra). nra. }
    apply Rle_trans with (2 * r / q).
    + apply Rmult_le_reg_r with (P * q); [apply Rmult_lt_0_compat; lra|].
      replace ((x + y) / P * (P * q)) with ((x + y) * q) by (field; lra). replace (2 * r / q * (P * q)) with (2 * r * P) by (field; lra). exact K.
    + unfold Rdiv. apply Rmult_le_compat_l; [lra|]. apply Rinv_le_contravar; lra.
Qed.

Lemma half_diagonal_bounds b x y z : vx (b_min b) <= x <= vx (b_max b) -> vy (b_min b) <= y <= vy (b_max b) -> vz (b_min b) <= z <= vz (b_max b) ->
  vnorm (vsub (V3 x y z) (location b)) <= half_diagonal b.
Proof.
  intros X Y Z. unfold half_diagonal. replace (vnorm (vsub (b_max b) (b_min b)) / 2) with (vnorm (vscal (1 / 2) (vsub (b_max b) (b_min b)))).
  - unfold vnorm. apply sqrt_le_1_alt. unfold vnorm2, location. cbn [vsub vadd vscal vx vy vz]. 
    assert (Q : forall l u v, l <= v <= u -> (v - 1 / 2 * (l + u)) * (v - 1 / 2 * (l + u)) <= 1 / 2 * (u - l) * (1 / 2 * (u - l))) by (intros; nra).
    pose proof (Q _ _ _ X). pose proof (Q _ _ _ Y). pose proof (Q _ _ _ Z). lra.
  - apply vnorm_unique.
    + pose proof (sqrt_pos (vnorm2 (vsub (b_max b) (b_min b)))). unfold vnorm. lra.
    + assert (E : vnorm (vsub (b_max b) (b_min b)) * vnorm (vsub (b_max b) (b_min b)) = vnorm2 (vsub (b_max b) (b_min b))) by (apply sqrt_sqrt; unfold vnorm2; nra).
      unfold Rdiv. rewrite <- Rmult_assoc. replace (vnorm (vsub (b_max b) (b_min b)) * / 2 * vnorm (vsub (b_max b) (b_min b)) * / 2) with (vnorm (vsub (b_max b) (b_min b)) * vnorm (vsub (b_max b) (b_min b)) / 4) by field.
      rewrite E. unfold vnorm2, vscal. cbn [vx vy vz]. field.
Qed.

(** ** the prism against its mass at the centre *)
Lemma far_outside b p : ordered b -> half_diagonal b < vnorm (vsub p (location b)) -> outside b p.
Proof.
  intros (A & B & D) H. unfold outside.
  destruct (Rlt_dec (vx p) (vx (b_min b))) as [?|X1]; [tauto|]. destruct (Rlt_dec (vx (b_max b)) (vx p)) as [?|X2]; [tauto|].
  destruct (Rlt_dec (vy p) (vy (b_min b))) as [?|Y1]; [tauto|]. destruct (Rlt_dec (vy (b_max b)) (vy p)) as [?|Y2]; [tauto|].
  destruct (Rlt_dec (vz p) (vz (b_min b))) as [?|Z1]; [tauto|]. destruct (Rlt_dec (vz (b_max b)) (vz p)) as [?|Z2]; [tauto|].
  exfalso. pose proof (half_diagonal_bounds b (vx p) (vy p) (vz p) ltac:(lra) ltac:(lra) ltac:(lra)) as K. destruct p as [x y z]. cbn [vx vy vz] in K. lra.
Qed.
Lemma half_diagonal_nonneg b : 0 <= half_diagonal b.
Proof. unfold half_diagonal. pose proof (sqrt_pos (vnorm2 (vsub (b_max b) (b_min b)))). unfold vnorm. lra. Qed.

Lemma far_potential G b rho p : ordered b -> half_diagonal b < vnorm (vsub p (location b)) -> 0 <= G * rho ->
  let r := vnorm (vsub p (location b)) in
  G * prism_mass b rho / sqrt (r ^ 2 + half_diagonal b ^ 2) <= gravitational_potential G b rho p <= G * prism_mass b rho * r / (r ^ 2 - half_diagonal b ^ 2).
Proof.
  intros O H K r. pose proof (far_outside b p O H) as U. destruct (prism_newton G b rho p O U) as (I & T & E). destruct O as (OX & OY & OZ).
  pose proof T as T2.
  apply (triple_flip_x _ _ _ _ _ _ _ (vx (b_min b) + vx (b_max b))) in T2.
  apply (triple_flip_y _ _ _ _ _ _ _ (vy (b_min b) + vy (b_max b))) in T2.
  apply (triple_flip_z _ _ _ _ _ _ _ (vz (b_min b) + vz (b_max b))) in T2.
  replace (vx (b_min b) + vx (b_max b) - vx (b_max b)) with (vx (b_min b)) in T2 by ring. replace (vx (b_min b) + vx (b_max b) - vx (b_min b)) with (vx (b_max b)) in T2 by ring.
  replace (vy (b_min b) + vy (b_max b) - vy (b_max b)) with (vy (b_min b)) in T2 by ring. replace (vy (b_min b) + vy (b_max b) - vy (b_min b)) with (vy (b_max b)) in T2 by ring.
  replace (vz (b_min b) + vz (b_max b) - vz (b_max b)) with (vz (b_min b)) in T2 by ring. replace (vz (b_min b) + vz (b_max b) - vz (b_min b)) with (vz (b_max b)) in T2 by ring.
  pose proof (triple_plus _ _ _ _ _ _ _ _ _ _ T T2) as S.
  assert (PT : forall x y z, vx (b_min b) <= x <= vx (b_max b) -> vy (b_min b) <= y <= vy (b_max b) -> vz (b_min b) <= z <= vz (b_max b) ->
    2 / sqrt (r ^ 2 + half_diagonal b ^ 2) <= 1 / vnorm (vsub p (V3 x y z)) + 1 / vnorm (vsub p (V3 (vx (b_min b) + vx (b_max b) - x) (vy (b_min b) + vy (b_max b) - y) (vz (b_min b) + vz (b_max b) - z)))
      <= 2 * r / (r ^ 2 - half_diagonal b ^ 2)).
  { intros x y z X Y Z. pose proof (opposite_points (vsub p (location b)) (vsub (V3 x y z) (location b)) (half_diagonal b) (half_diagonal_nonneg b) (half_diagonal_bounds b x y z X Y Z) H) as Q.
    replace (vsub (vsub p (location b)) (vsub (V3 x y z) (location b))) with (vsub p (V3 x y z)) in Q by (unfold vsub; cbn [vx vy vz]; f_equal; ring).
    replace (vadd (vsub p (location b)) (vsub (V3 x y z) (location b))) with (vsub p (V3 (vx (b_min b) + vx (b_max b) - x) (vy (b_min b) + vy (b_max b) - y) (vz (b_min b) + vz (b_max b) - z))) in Q
      by (unfold vsub, vadd, location, vscal; cbn [vx vy vz vadd]; f_equal; field).
    exact Q. }
  pose proof (triple_le _ _ _ _ _ _ _ _ _ _ (Rlt_le _ _ OX) (Rlt_le _ _ OY) (Rlt_le _ _ OZ) (fun x y z X Y Z => proj1 (PT x y z X Y Z)) (triple_const _ _ _ _ _ _ _) S) as L1.
  pose proof (triple_le _ _ _ _ _ _ _ _ _ _ (Rlt_le _ _ OX) (Rlt_le _ _ OY) (Rlt_le _ _ OZ) (fun x y z X Y Z => proj2 (PT x y z X Y Z)) S (triple_const _ _ _ _ _ _ _)) as L2.
  fold (volume b) in L1, L2. rewrite E. unfold prism_mass. unfold Rdiv in *.
  set (k1 := / sqrt _) in *. set (k2 := / (r ^ 2 - _)) in *. split.
  - replace (G * (volume b * rho) * k1) with (G * rho * (volume b * k1)) by ring. apply Rmult_le_compat_l; [exact K|lra].
  - replace (G * (volume b * rho) * r * k2) with (G * rho * (volume b * r * k2)) by ring. apply Rmult_le_compat_l; [exact K|lra].
Qed.

(** ** mirror images *)
Lemma ordered_mirror_x m b : ordered b -> ordered (mirror_box_x m b). Proof. intros (A & B & D). repeat split; cbn; lra. Qed.
Lemma ordered_mirror_y m b : ordered b -> ordered (mirror_box_y m b). Proof. intros (A & B & D). repeat split; cbn; lra. Qed.
Lemma ordered_mirror_z m b : ordered b -> ordered (mirror_box_z m b). Proof. intros (A & B & D). repeat split; cbn; lra. Qed.
Lemma outside_mirror_x m b p : outside b p -> outside (mirror_box_x m b) (mirror_x m p).
Proof. unfold outside, mirror_box_x, mirror_x; cbn [vx vy vz b_min b_max]. intros [[H|H]|[[H|H]|[H|H]]]; [left; right|left; left|right; left; left|right; left; right|right; right; left|right; right; right]; lra. Qed.
Lemma outside_mirror_y m b p : outside b p -> outside (mirror_box_y m b) (mirror_y m p).
Proof. unfold outside, mirror_box_y, mirror_y; cbn [vx vy vz b_min b_max]. intros [[H|H]|[[H|H]|[H|H]]]; [left; left|left; right|right; left; right|right; left; left|right; right; left|right; right; right]; lra. Qed.
Lemma outside_mirror_z m b p : outside b p -> outside (mirror_box_z m b) (mirror_z m p).
Proof. unfold outside, mirror_box_z, mirror_z; cbn [vx vy vz b_min b_max]. intros [[H|H]|[[H|H]|[H|H]]]; [left; left|left; right|right; left; left|right; left; right|right; right; right|right; right; left]; lra. Qed.

Lemma norm_mirror_x m p x y z : vnorm (vsub p (V3 (2 * m - x) y z)) = vnorm (vsub (mirror_x m p) (V3 x y z)).
Proof. unfold vnorm, vnorm2, mirror_x. cbn [vsub vx vy vz]. f_equal. ring. Qed.
Lemma norm_mirror_y m p x y z : vnorm (vsub p (V3 x (2 * m - y) z)) = vnorm (vsub (mirror_y m p) (V3 x y z)).
Proof. unfold vnorm, vnorm2, mirror_y. cbn [vsub vx vy vz]. f_equal. ring. Qed.
Lemma norm_mirror_z m p x y z : vnorm (vsub p (V3 x y (2 * m - z))) = vnorm (vsub (mirror_z m p) (V3 x y z)).
Proof. unfold vnorm, vnorm2, mirror_z. cbn [vsub vx vy vz]. f_equal. ring. Qed.

Lemma potential_mirror_x G m b rho p : ordered b -> outside b p -> gravitational_potential G (mirror_box_x m b) rho (mirror_x m p) = gravitational_potential G b rho p.
Proof.
  intros O U. destruct (prism_newton G b rho p O U) as (I & T & E). destruct (prism_newton G _ rho _ (ordered_mirror_x m b O) (outside_mirror_x m b p U)) as (J & S & F).
  rewrite E, F. f_equal. apply (triple_flip_x _ _ _ _ _ _ _ (2 * m)) in T. destruct (ordered_mirror_x m b O) as (OX & OY & OZ).
  eapply triple_unique; [apply Rlt_le, OX|apply Rlt_le, OY|apply Rlt_le, OZ|exact S|]. eapply triple_ext; [|exact T]. intros x y z. cbv beta. rewrite norm_mirror_x. reflexivity.
Qed.
Lemma potential_mirror_y G m b rho p : ordered b -> outside b p -> gravitational_potential G (mirror_box_y m b) rho (mirror_y m p) = gravitational_potential G b rho p.
Proof.
  intros O U. destruct (prism_newton G b rho p O U) as (I & T & E). destruct (prism_newton G _ rho _ (ordered_mirror_y m b O) (outside_mirror_y m b p U)) as (J & S & F).
  rewrite E, F. f_equal. apply (triple_flip_y _ _ _ _ _ _ _ (2 * m)) in T. destruct (ordered_mirror_y m b O) as (OX & OY & OZ).
  eapply triple_unique; [apply Rlt_le, OX|apply Rlt_le, OY|apply Rlt_le, OZ|exact S|]. eapply triple_ext; [|exact T]. intros x y z. cbv beta. rewrite norm_mirror_y. reflexivity.
Qed.
Lemma potential_mirror_z G m b rho p : ordered b -> outside b p -> gravitational_potential G (mirror_box_z m b) rho (mirror_z m p) = gravitational_potential G b rho p.
Proof.
  intros O U. destruct (prism_newton G b rho p O U) as (I & T & E). destruct (prism_newton G _ rho _ (ordered_mirror_z m b O) (outside_mirror_z m b p U)) as (J & S & F).
  rewrite E, F. f_equal. apply (triple_flip_z _ _ _ _ _ _ _ (2 * m)) in T. destruct (ordered_mirror_z m b O) as (OX & OY & OZ).
  eapply triple_unique; [apply Rlt_le, OX|apply Rlt_le, OY|apply Rlt_le, OZ|exact S|]. eapply triple_ext; [|exact T]. intros x y z. cbv beta. rewrite norm_mirror_z. reflexivity.
Qed.

(** gradients of mirrored functions *)
Lemma D_flip (f : R -> R) m x d : is_derive f (m - x) d -> is_derive (fun t => f (m - t)) x (- d).
Proof.
  intros H. assert (K : is_derive (fun t => m - t) x (-1)) by (auto_derive; [exact Logic.I|ring]).
  pose proof (is_derive_comp f (fun t => m - t) x d (-1) H K) as Q. eapply is_derive_eq; [exact Q|]. unfold scal; cbn; unfold mult; cbn. ring.
Qed.
Lemma grad_mirror_x f m p g : is_grad f (mirror_x m p) g -> is_grad (fun q => f (mirror_x m q)) p (V3 (- vx g) (vy g) (vz g)).
Proof. intros (A & B & D). split; [|split]; unfold is_dx, is_dy, is_dz, mirror_x in *; cbn [vx vy vz] in *; [apply (D_flip (fun t => f (V3 t (vy p) (vz p)))), A|exact B|exact D]. Qed.
Lemma grad_mirror_y f m p g : is_grad f (mirror_y m p) g -> is_grad (fun q => f (mirror_y m q)) p (V3 (vx g) (- vy g) (vz g)).
Proof. intros (A & B & D). split; [|split]; unfold is_dx, is_dy, is_dz, mirror_y in *; cbn [vx vy vz] in *; [exact A|apply (D_flip (fun t => f (V3 (vx p) t (vz p)))), B|exact D]. Qed.
Lemma grad_mirror_z f m p g : is_grad f (mirror_z m p) g -> is_grad (fun q => f (mirror_z m q)) p (V3 (vx g) (vy g) (- vz g)).
Proof. intros (A & B & D). split; [|split]; unfold is_dx, is_dy, is_dz, mirror_z in *; cbn [vx vy vz] in *; [exact A|exact B|apply (D_flip (fun t => f (V3 (vx p) (vy p) t))), D]. Qed.

Lemma coord_le v : Rabs (vx v) <= vnorm v /\ Rabs (vy v) <= vnorm v /\ Rabs (vz v) <= vnorm v.
Proof.
  unfold vnorm, vnorm2. rewrite <- !sqrt_Rsqr_abs. unfold Rsqr.
  split; [|split]; apply sqrt_le_1_alt; nra.
Qed.
Lemma near_half (f : vec3 -> R) c p : (forall q r, Rabs (f q - f r) <= vnorm (vsub q r)) -> f p < c -> near p (fun q => f q < c).
Proof.
  intros L H. exists (c - f p). split; [lra|]. intros q Q. pose proof (L q p) as K. pose proof (Rle_abs (f q - f p)). lra.
Qed.
Lemma outside_near b p : outside b p -> near p (outside b).
Proof.
  intros H.
  assert (LX : forall q r, Rabs (vx q - vx r) <= vnorm (vsub q r)) by (intros q r; exact (proj1 (coord_le (vsub q r)))).
  assert (LY : forall q r, Rabs (vy q - vy r) <= vnorm (vsub q r)) by (intros q r; exact (proj1 (proj2 (coord_le (vsub q r))))).
  assert (LZ : forall q r, Rabs (vz q - vz r) <= vnorm (vsub q r)) by (intros q r; exact (proj2 (proj2 (coord_le (vsub q r))))).
  assert (N : forall f : vec3 -> R, (forall q r, Rabs (f q - f r) <= vnorm (vsub q r)) -> forall q r, Rabs (- f q - - f r) <= vnorm (vsub q r)).
  { intros f L q r. replace (- f q - - f r) with (- (f q - f r)) by ring. rewrite Rabs_Ropp. apply L. }
  destruct H as [[H|H]|[[H|H]|[H|H]]].
  - eapply near_impl; [|apply (near_half vx _ p LX H)]. intros q Q. left; left; exact Q.
  - eapply near_impl; [|apply (near_half (fun q => - vx q) (- vx (b_max b)) p (N _ LX)); lra]. intros q Q. cbv beta in Q. left; right; lra.
  - eapply near_impl; [|apply (near_half vy _ p LY H)]. intros q Q. right; left; left; exact Q.
  - eapply near_impl; [|apply (near_half (fun q => - vy q) (- vy (b_max b)) p (N _ LY)); lra]. intros q Q. cbv beta in Q. right; left; right; lra.
  - eapply near_impl; [|apply (near_half vz _ p LZ H)]. intros q Q. right; right; left; exact Q.
  - eapply near_impl; [|apply (near_half (fun q => - vz q) (- vz (b_max b)) p (N _ LZ)); lra]. intros q Q. cbv beta in Q. right; right; right; lra.
Qed.

Lemma far_point_mass b rho p : ordered b -> half_diagonal b < vnorm (vsub p (location b)) -> 0 <= rho ->
  let r := vnorm (vsub p (location b)) in let a := half_diagonal b in
  Rabs (gravitational_potential G_newton b rho p - pm_potential (PM (prism_mass b rho) (location b)) p)
    <= a ^ 2 / (r ^ 2 - a ^ 2) * pm_potential (PM (prism_mass b rho) (location b)) p.
Proof.
  intros O H P r a.
  assert (GP : 0 <= G_newton * rho) by (apply Rmult_le_pos; [unfold G_newton; lra|exact P]).
  destruct (far_potential G_newton b rho p O H GP) as [L U]. fold r in L, U. fold a in L, U.
  unfold pm_potential. cbn [pm_mass pm_loc]. fold r. pose proof (half_diagonal_nonneg b) as A0. fold a in A0, H. fold r in H.
  assert (R0 : 0 < r) by lra. assert (D : 0 < r ^ 2 - a ^ 2) by nra.
  assert (VM : 0 <= G_newton * prism_mass b rho).
  { unfold prism_mass. replace (G_newton * (volume b * rho)) with (G_newton * rho * volume b) by ring. apply Rmult_le_pos; [exact GP|]. destruct O as (OX & OY & OZ). unfold volume. repeat apply Rmult_le_pos; lra. }
  set (K := G_newton * prism_mass b rho) in *. set (phi := gravitational_potential _ _ _ _) in *.
  set (w := sqrt (r ^ 2 + a ^ 2)) in *. assert (W2 : w * w = r ^ 2 + a ^ 2) by (apply sqrt_sqrt; nra). assert (W0 : 0 < w) by (apply sqrt_lt_R0; nra).
  apply Rabs_le. split.
  - apply Rle_trans with (K / w - K / r); [|lra].
    assert (E : 1 / r - 1 / w <= a ^ 2 / (r ^ 2 - a ^ 2) * (1 / r)).
    { assert (WU : w <= r + a ^ 2 / r).
      { apply Rnot_lt_le. intros N. assert (0 <= a ^ 2 / r) by (apply Rmult_le_pos; [nra|left; apply Rinv_0_lt_compat; lra]).
        assert ((r + a ^ 2 / r) * (r + a ^ 2 / r) < w * w) by nra. assert (r * (a ^ 2 / r) = a ^ 2) by (field; lra). nra. }
      assert (WR : r <= w) by nra.
      apply Rmult_le_reg_r with (r * w * (r ^ 2 - a ^ 2)); [apply Rmult_lt_0_compat; [nra|lra]|].
      replace ((1 / r - 1 / w) * (r * w * (r ^ 2 - a ^ 2))) with ((w - r) * (r ^ 2 - a ^ 2)) by (field; lra).
      replace (a ^ 2 / (r ^ 2 - a ^ 2) * (1 / r) * (r * w * (r ^ 2 - a ^ 2))) with (a ^ 2 * w) by (field; lra).
      assert ((w - r) * r <= a ^ 2) by (assert (r * (a ^ 2 / r) = a ^ 2) by (field; lra); nra).
      assert ((w - r) * (r ^ 2 - a ^ 2) <= (w - r) * (r * r)) by (apply Rmult_le_compat_l; nra). nra. }
    unfold Rdiv in *. nra.
  - apply Rle_trans with (K * r / (r ^ 2 - a ^ 2) - K / r); [lra|]. right. field. lra.
Qed.
