(** Second order accuracy of the point source approximations of a prism, continued (C112). *)
From Coq Require Import Reals Lra Psatz.
From Coquelicot Require Import Coquelicot.
From Verif Require Import Vec3 Calculus Deriv Integral TripleParam Model_Gravity Model_Static Model_Prism Spec_Prism Spec_Far Spec_Super
  Proof_Prism Proof_Prism2 Proof_Far Proof_Super Proof_Super2 Proof_Super4 Proof_Super5 Proof_LoopFar2 Proof_FarField.
Open Scope R_scope.

(** ** along a line *)
Section Line.
Variables d s m w : vec3.
Let u (t : R) : vec3 := vsub d (vscal t s).
Let W (t : R) : R := / vnorm (u t).
Lemma W_derive t : u t <> vzero -> is_derive W t (vdot (u t) s * W t ^ 3).
Proof.
  intro H. pose proof (vnorm2_pos _ H) as P. pose proof (vnorm_pos _ H) as Q. unfold W, vnorm in *.
  assert (A : is_derive (fun t => vnorm2 (u t)) t (-2 * vdot (u t) s)).
  { unfold u, vnorm2, vdot, vsub, vscal; cbn [vx vy vz]. auto_derive; [exact I|ring]. }
  assert (B : is_derive (fun x => / sqrt x) (vnorm2 (u t)) (- / 2 * (/ sqrt (vnorm2 (u t))) ^ 3)).
  { auto_derive; [split; [exact P|split; [lra|exact I]]|]. field. lra. }
  eapply is_derive_eq; [apply (is_derive_comp (fun x => / sqrt x) (fun t => vnorm2 (u t))); [exact B|exact A]|].
  unfold scal; cbn. unfold mult; cbn. field. lra.
Qed.
Ltac line H t := pose proof (W_derive t H) as HW; auto_derive;
  [exists (vdot (u t) s * W t ^ 3); exact HW |
   replace (Derive (fun x => W x) t) with (vdot (u t) s * W t ^ 3) by (symmetry; apply is_derive_unique, HW);
   unfold vdot, u, vsub, vscal; cbn [vx vy vz]; ring].
Let A (t : R) : R := vx m * (vx d - t * vx s) + vy m * (vy d - t * vy s) + vz m * (vz d - t * vz s).
Let B (t : R) : R := vx w * (vx d - t * vx s) + vy w * (vy d - t * vy s) + vz w * (vz d - t * vz s).
Let D (t : R) : R := vx s * (vx d - t * vx s) + vy s * (vy d - t * vy s) + vz s * (vz d - t * vz s).
Lemma f_first t : u t <> vzero -> is_derive (fun t => - B t * W t ^ 3) t (vdot s w * W t ^ 3 - 3 * B t * D t * W t ^ 5).
Proof. intro H. unfold B, D. pose proof (W_derive t H) as HW. auto_derive;
  [repeat split; try exact I; exists (vdot (u t) s * W t ^ 3); exact HW|].
   replace (Derive (fun x => W x) t) with (vdot (u t) s * W t ^ 3) by (symmetry; apply is_derive_unique, HW).
   set (W1 := W t). unfold vdot, u, vsub, vscal; cbn [vx vy vz]; ring. Qed.
Lemma f_second t : u t <> vzero -> is_derive (fun t => vdot s w * W t ^ 3 - 3 * B t * D t * W t ^ 5) t
  (6 * vdot s w * D t * W t ^ 5 + 3 * B t * vdot s s * W t ^ 5 - 15 * B t * D t * D t * W t ^ 7).
Proof. intro H. unfold B, D. pose proof (W_derive t H) as HW. auto_derive;
  [repeat split; try exact I; exists (vdot (u t) s * W t ^ 3); exact HW|].
   replace (Derive (fun x => W x) t) with (vdot (u t) s * W t ^ 3) by (symmetry; apply is_derive_unique, HW).
   set (W1 := W t). unfold vdot, u, vsub, vscal; cbn [vx vy vz]; ring. Qed.
Lemma g_first t : u t <> vzero -> is_derive (fun t => 3 * A t * B t * W t ^ 5 - vdot m w * W t ^ 3) t
  (- 3 * vdot s m * B t * W t ^ 5 - 3 * vdot s w * A t * W t ^ 5 + 15 * A t * B t * D t * W t ^ 7 - 3 * vdot m w * D t * W t ^ 5).
Proof. intro H. unfold A, B, D. pose proof (W_derive t H) as HW. auto_derive;
  [repeat split; try exact I; exists (vdot (u t) s * W t ^ 3); exact HW|].
   replace (Derive (fun x => W x) t) with (vdot (u t) s * W t ^ 3) by (symmetry; apply is_derive_unique, HW).
   set (W1 := W t). unfold vdot, u, vsub, vscal; cbn [vx vy vz]; ring. Qed.
Lemma g_second t : u t <> vzero -> is_derive (fun t => - 3 * vdot s m * B t * W t ^ 5 - 3 * vdot s w * A t * W t ^ 5 + 15 * A t * B t * D t * W t ^ 7 - 3 * vdot m w * D t * W t ^ 5) t
  (W t ^ 5 * (6 * vdot s m * vdot s w + 3 * vdot m w * vdot s s
     - 15 * W t ^ 2 * (2 * vdot s m * B t * D t + 2 * vdot s w * A t * D t + A t * B t * vdot s s + vdot m w * D t * D t) + 105 * W t ^ 4 * A t * B t * (D t * D t))).
Proof. intro H. unfold A, B, D. pose proof (W_derive t H) as HW. auto_derive;
  [repeat split; try exact I; exists (vdot (u t) s * W t ^ 3); exact HW|].
   replace (Derive (fun x => W x) t) with (vdot (u t) s * W t ^ 3) by (symmetry; apply is_derive_unique, HW).
   set (W1 := W t). unfold vdot, u, vsub, vscal; cbn [vx vy vz]; ring. Qed.

Variable rho : R.
Hypothesis rho_pos : 0 < rho.
Hypothesis apartu : forall t, -1 <= t <= 1 -> rho <= vnorm (u t).
Lemma u_nz t : -1 <= t <= 1 -> u t <> vzero.
Proof. intros T E. pose proof (apartu t T) as Q. rewrite E, vnorm_zero in Q. lra. Qed.
Lemma W_bound t n : -1 <= t <= 1 -> 0 <= W t ^ n <= (/ rho) ^ n.
Proof.
  intros T. pose proof (apartu t T) as Q. assert (P : 0 < vnorm (u t)) by lra. unfold W. split; [apply pow_le, Rlt_le, Rinv_0_lt_compat, P|].
  apply pow_incr. split; [apply Rlt_le, Rinv_0_lt_compat, P|apply Rinv_le_contravar; assumption].
Qed.
Lemma e_unit t : -1 <= t <= 1 -> vdot (vscal (W t) (u t)) (vscal (W t) (u t)) = 1.
Proof.
  intros T. pose proof (vnorm_pos _ (u_nz t T)) as P. transitivity (W t * W t * vnorm2 (u t)); [unfold vdot, vnorm2, vscal; cbn [vx vy vz]; ring|].
  rewrite <- vnorm_sqr. unfold W. field. lra.
Qed.
Lemma e_dot t v : vdot (vscal (W t) (u t)) v = W t * (vx v * (vx d - t * vx s) + vy v * (vy d - t * vy s) + vz v * (vz d - t * vz s)).
Proof. unfold vdot, u, vsub, vscal; cbn [vx vy vz]. ring. Qed.
Lemma f_mean : vdot w w = 1 -> Rabs (1 / 2 * (- B 1 * W 1 ^ 3 + - B (-1) * W (-1) ^ 3) - - B 0 * W 0 ^ 3) <= 6 * vdot s s * (/ rho) ^ 4 / 2.
Proof.
  intro HWn. apply (mean_opposite (fun t => - B t * W t ^ 3) _ _ _ (fun t T => f_first t (u_nz t T)) (fun t T => f_second t (u_nz t T))).
  intros t T. set (e := vscal (W t) (u t)). 
  assert (EW : vdot e w = W t * B t) by apply e_dot. assert (ES : vdot e s = W t * D t) by apply e_dot.
  replace (6 * vdot s w * D t * W t ^ 5 + 3 * B t * vdot s s * W t ^ 5 - 15 * B t * D t * D t * W t ^ 7)
    with (W t ^ 4 * (6 * vdot s w * vdot e s + 3 * vdot e w * vdot s s - 15 * vdot e w * vdot e s * vdot e s)) by (rewrite EW, ES; ring).
  destruct (W_bound t 4 T) as [P Q]. rewrite Rabs_mult, (Rabs_pos_eq _ P).
  assert (S0 : 0 <= vdot s s) by (rewrite <- vnorm2_dot; apply vnorm2_nonneg).
  replace (6 * vdot s s * (/ rho) ^ 4) with ((/ rho) ^ 4 * (6 * vdot s s)) by ring.
  apply Rmult_le_compat; [exact P|apply Rabs_pos|exact Q|].
  destruct (vzero_dec s) as [Z|Z].
  - rewrite Z. unfold vdot, vzero; cbn [vx vy vz]. replace (6 * _ * _ + _ - _) with 0 by ring. rewrite Rabs_R0. lra.
  - destruct (unit_of s Z) as (n & N & E). pose proof (third_bound _ _ _ e n w (e_unit t T) N HWn eq_refl eq_refl eq_refl) as TB.
    set (k := vnorm s) in *. assert (SS : vdot s s = k * k) by (rewrite <- vnorm2_dot, <- vnorm_sqr; reflexivity).
    assert (E1 : vdot s w = k * vdot n w) by (rewrite E at 1; unfold vdot, vscal; cbn [vx vy vz]; ring).
    assert (E2 : vdot e s = k * vdot e n) by (rewrite E at 1; unfold vdot, vscal; cbn [vx vy vz]; ring).
    rewrite SS, E1, E2. replace (6 * (k * vdot n w) * (k * vdot e n) + 3 * vdot e w * (k * k) - 15 * vdot e w * (k * vdot e n) * (k * vdot e n))
      with (k * k * (6 * vdot n w * vdot e n + 3 * vdot e w - 15 * vdot e w * vdot e n * vdot e n)) by ring.
    assert (KK : 0 <= k * k) by apply Rle_0_sqr. rewrite Rabs_mult, (Rabs_pos_eq _ KK). replace (6 * (k * k)) with (k * k * 6) by ring. apply Rmult_le_compat_l; assumption.
Qed.
Lemma g_mean : vdot m m = 1 -> vdot w w = 1 ->
  Rabs (1 / 2 * ((3 * A 1 * B 1 * W 1 ^ 5 - vdot m w * W 1 ^ 3) + (3 * A (-1) * B (-1) * W (-1) ^ 5 - vdot m w * W (-1) ^ 3)) - (3 * A 0 * B 0 * W 0 ^ 5 - vdot m w * W 0 ^ 3))
   <= 24 * vdot s s * (/ rho) ^ 5 / 2.
Proof.
  intros HM HWn. apply (mean_opposite (fun t => 3 * A t * B t * W t ^ 5 - vdot m w * W t ^ 3) _ _ _ (fun t T => g_first t (u_nz t T)) (fun t T => g_second t (u_nz t T))).
  intros t T. set (e := vscal (W t) (u t)).
  assert (EM : vdot e m = W t * A t) by apply e_dot. assert (EW : vdot e w = W t * B t) by apply e_dot. assert (ES : vdot e s = W t * D t) by apply e_dot.
  match goal with |- Rabs (_ * ?X) <= _ => replace X with (bil e s m w) by (unfold bil; rewrite EM, EW, ES; ring) end.
  destruct (W_bound t 5 T) as [P Q]. rewrite Rabs_mult, (Rabs_pos_eq _ P).
  replace (24 * vdot s s * (/ rho) ^ 5) with ((/ rho) ^ 5 * (24 * vdot s s)) by ring.
  apply Rmult_le_compat; [exact P|apply Rabs_pos|exact Q|]. apply bil_bound; [apply e_unit, T|assumption|assumption].
Qed.
End Line.

(** ** over the prism *)
Lemma box_mean (k : vec3 -> R) b p I K : ordered b -> box_integral (fun q => k (vsub p q)) b I ->
  (forall s, vnorm s <= half_diagonal b ->
     let d := vsub p (location b) in Rabs (1 / 2 * (k (vsub d (vscal 1 s)) + k (vsub d (vscal (-1) s))) - k (vsub d (vscal 0 s))) <= K) ->
  Rabs (I - volume b * k (vsub p (location b))) <= volume b * K.
Proof.
  intros (OX & OY & OZ) T HK. pose proof T as T2. unfold box_integral in T, T2.
  apply (triple_flip_x _ _ _ _ _ _ _ (vx (b_min b) + vx (b_max b))) in T2.
  apply (triple_flip_y _ _ _ _ _ _ _ (vy (b_min b) + vy (b_max b))) in T2.
  apply (triple_flip_z _ _ _ _ _ _ _ (vz (b_min b) + vz (b_max b))) in T2.
  replace (vx (b_min b) + vx (b_max b) - vx (b_max b)) with (vx (b_min b)) in T2 by ring. replace (vx (b_min b) + vx (b_max b) - vx (b_min b)) with (vx (b_max b)) in T2 by ring.
  replace (vy (b_min b) + vy (b_max b) - vy (b_max b)) with (vy (b_min b)) in T2 by ring. replace (vy (b_min b) + vy (b_max b) - vy (b_min b)) with (vy (b_max b)) in T2 by ring.
  replace (vz (b_min b) + vz (b_max b) - vz (b_max b)) with (vz (b_min b)) in T2 by ring. replace (vz (b_min b) + vz (b_max b) - vz (b_min b)) with (vz (b_max b)) in T2 by ring.
  pose proof (triple_lin (1 / 2) (1 / 2) _ _ _ _ _ _ _ _ _ _ T T2) as S.
  pose proof (triple_diff _ _ _ _ _ _ _ _ _ _ K (Rlt_le _ _ OX) (Rlt_le _ _ OY) (Rlt_le _ _ OZ) S
    (triple_const (k (vsub p (location b))) (vx (b_min b)) (vx (b_max b)) (vy (b_min b)) (vy (b_max b)) (vz (b_min b)) (vz (b_max b)))) as DD.
  fold (volume b) in DD. replace (I - volume b * k (vsub p (location b))) with (1 / 2 * I + 1 / 2 * I - k (vsub p (location b)) * volume b) by field. apply DD.
  intros x y z X Y Z. specialize (HK (vsub (V3 x y z) (location b)) (half_diagonal_bounds b x y z X Y Z)). cbv zeta in HK.
  replace (vsub (vsub p (location b)) (vscal 1 (vsub (V3 x y z) (location b)))) with (vsub p (V3 x y z)) in HK by (unfold vsub, vscal; cbn [vx vy vz]; f_equal; ring).
  replace (vsub (vsub p (location b)) (vscal (-1) (vsub (V3 x y z) (location b)))) with (vsub p (V3 (vx (b_min b) + vx (b_max b) - x) (vy (b_min b) + vy (b_max b) - y) (vz (b_min b) + vz (b_max b) - z))) in HK
    by (unfold vsub, vadd, location, vscal; cbn [vx vy vz vadd]; f_equal; field).
  replace (vsub (vsub p (location b)) (vscal 0 (vsub (V3 x y z) (location b)))) with (vsub p (location b)) in HK by (unfold vsub, vscal; cbn [vx vy vz]; f_equal; ring).
  cbv beta. eapply Rle_trans; [|exact HK]. right. f_equal. ring.
Qed.
Lemma line_apart (d s : vec3) a : vnorm s <= a -> forall t, -1 <= t <= 1 -> vnorm d - a <= vnorm (vsub d (vscal t s)).
Proof.
  intros S t T. pose proof (vnorm_triangle (vsub d (vscal t s)) (vscal t s)) as Q.
  replace (vadd (vsub d (vscal t s)) (vscal t s)) with d in Q by (apply vec3_eq; unfold vadd, vsub, vscal; cbn [vx vy vz]; ring).
  rewrite vnorm_scal in Q. assert (AT : Rabs t <= 1) by (apply Rabs_le; lra). pose proof (vnorm_nonneg s). pose proof (Rabs_pos t). assert (Rabs t * vnorm s <= 1 * vnorm s) by (apply Rmult_le_compat_r; assumption). lra.
Qed.
Lemma dot_sq s a : vnorm s <= a -> vdot s s <= a * a.
Proof. intro H. rewrite <- vnorm2_dot, <- vnorm_sqr. pose proof (vnorm_nonneg s). apply Rmult_le_compat; lra. Qed.
Lemma k1_mean b p w I : ordered b -> half_diagonal b < vnorm (vsub p (location b)) -> vdot w w = 1 ->
  box_integral (fun q => vdot (k1 (vsub p q)) w) b I ->
  let a := half_diagonal b in let r := vnorm (vsub p (location b)) in
  Rabs (I - volume b * vdot (k1 (vsub p (location b))) w) <= volume b * (3 * a ^ 2 * (/ (r - a)) ^ 4).
Proof.
  intros O H Wn T a r. assert (RA : 0 < r - a) by (unfold r, a; lra). apply (box_mean (fun u => vdot (k1 u) w) b p I _ O T). intros s Hs d.
  pose proof (f_mean d s w (r - a) RA (line_apart d s a Hs) Wn) as M. cbv zeta in M.
  eapply Rle_trans; [|apply Rle_trans with (1 := M)].
  - right. f_equal. unfold k1, vdot; cbn [vx vy vz]. unfold vsub, vscal; cbn [vx vy vz]. ring.
  - assert (0 <= (/ (r - a)) ^ 4) by (apply pow_le, Rlt_le, Rinv_0_lt_compat, RA). pose proof (dot_sq s a Hs) as Q.
    replace (6 * vdot s s * (/ (r - a)) ^ 4 / 2) with (3 * vdot s s * (/ (r - a)) ^ 4) by (generalize ((/ (r - a)) ^ 4); intro; field).
    apply Rmult_le_compat_r; [assumption|]. lra.
Qed.
Lemma k2_mean b p m w I : ordered b -> half_diagonal b < vnorm (vsub p (location b)) -> vdot m m = 1 -> vdot w w = 1 ->
  box_integral (fun q => vdot (mvec (k2 (vsub p q)) m) w) b I ->
  let a := half_diagonal b in let r := vnorm (vsub p (location b)) in
  Rabs (I - volume b * vdot (mvec (k2 (vsub p (location b))) m) w) <= volume b * (12 * a ^ 2 * (/ (r - a)) ^ 5).
Proof.
  intros O H Mn Wn T a r. assert (RA : 0 < r - a) by (unfold r, a; lra). apply (box_mean (fun u => vdot (mvec (k2 u) m) w) b p I _ O T). intros s Hs d.
  pose proof (g_mean d s m w (r - a) RA (line_apart d s a Hs) Mn Wn) as M. cbv zeta in M.
  eapply Rle_trans; [|apply Rle_trans with (1 := M)].
  - right. f_equal. unfold k2, mvec, vdot; cbn [vx vy vz m0 m1 m2]. unfold vsub, vscal; cbn [vx vy vz]. ring.
  - assert (0 <= (/ (r - a)) ^ 5) by (apply pow_le, Rlt_le, Rinv_0_lt_compat, RA). pose proof (dot_sq s a Hs) as Q.
    replace (24 * vdot s s * (/ (r - a)) ^ 5 / 2) with (12 * vdot s s * (/ (r - a)) ^ 5) by (generalize ((/ (r - a)) ^ 5); intro; field).
    apply Rmult_le_compat_r; [assumption|]. lra.
Qed.
