(** C118: inscribed polygons against the circular loop. *)
From Coq Require Import String Reals Lra Lia List.
From Coquelicot Require Import Coquelicot.
From Verif Require Import Vec3 Calculus Deriv Integral Numpy Model_Static Spec_Static Spec_Loop Spec_Wires Proof_Line Proof_Line2 Proof_Loop3 Proof_LoopFar2 Proof_LoopFar3 Proof_Wires Proof_Wires2.
Import ListNotations.
Open Scope R_scope.

(** *** Lipschitz bounds for the kernels *)
Section Lip.
Variables w1 w2 : vec3.
Variable m : R.
Hypothesis Hm : 0 < m.
Hypothesis H1 : m <= vnorm w1.
Hypothesis H2 : m <= vnorm w2.
Lemma lip_norm : Rabs (vnorm w1 - vnorm w2) <= vnorm (vsub w1 w2).
Proof.
  pose proof (vnorm_sub_ge w1 w2). pose proof (vnorm_sub_ge w2 w1) as K. rewrite vnorm_sub_sym in K. apply Rabs_le. lra.
Qed.
Lemma lip_inv : Rabs (/ vnorm w1 - / vnorm w2) <= vnorm (vsub w1 w2) / m ^ 2.
Proof.
  pose proof lip_norm as N. set (a := vnorm w1) in *. set (b := vnorm w2) in *. set (e := vnorm (vsub w1 w2)) in *.
  replace (/ a - / b) with (- (a - b) * / (a * b)) by (field; lra). rewrite Rabs_mult, Rabs_Ropp, (Rabs_pos_eq (/ (a * b))) by (apply Rlt_le, Rinv_0_lt_compat; nra).
  apply Rmult_le_compat; [apply Rabs_pos|apply Rlt_le, Rinv_0_lt_compat; nra|exact N|]. apply Rinv_le_contravar; [apply pow_lt, Hm|nra].
Qed.
Lemma lip_cube : vnorm (vsub (vscal (/ vnorm w1 ^ 3) w1) (vscal (/ vnorm w2 ^ 3) w2)) <= 4 * vnorm (vsub w1 w2) / m ^ 3.
Proof.
  pose proof lip_norm as N.
  replace (vsub (vscal (/ vnorm w1 ^ 3) w1) (vscal (/ vnorm w2 ^ 3) w2)) with (vadd (vscal (/ vnorm w1 ^ 3) (vsub w1 w2)) (vscal (/ vnorm w1 ^ 3 - / vnorm w2 ^ 3) w2))
    by (generalize (/ vnorm w1 ^ 3) (/ vnorm w2 ^ 3); intros x y; destruct w1, w2; vring).
  eapply Rle_trans; [apply vnorm_triangle|]. rewrite !vnorm_scal. set (a := vnorm w1) in *. set (b := vnorm w2) in *. set (e := vnorm (vsub w1 w2)) in *.
  assert (E0 : 0 <= e) by apply vnorm_nonneg. set (x := / a). set (y := / b).
  assert (X : 0 < x <= / m) by (split; [apply Rinv_0_lt_compat; lra|apply Rinv_le_contravar; lra]). assert (Y : 0 < y <= / m) by (split; [apply Rinv_0_lt_compat; lra|apply Rinv_le_contravar; lra]).
  set (k := / m) in *.
  replace (Rabs (/ a ^ 3)) with (x * x * x) by (rewrite Rabs_pos_eq by (apply Rlt_le, Rinv_0_lt_compat, pow_lt; lra); unfold x; field; lra).
  replace (/ a ^ 3 - / b ^ 3) with (- (a - b) * ((x * y * y + x * x * y + x * x * x) * y)) by (unfold x, y; field; lra).
  assert (P3 : forall p q s, 0 < p <= k -> 0 < q <= k -> 0 < s <= k -> 0 < p * q * s <= k * k * k).
  { intros p q s P Q S. assert (0 < p * q) by (apply Rmult_lt_0_compat; lra). split; [apply Rmult_lt_0_compat; lra|]. apply Rmult_le_compat; try lra. apply Rmult_le_compat; lra. }
  pose proof (P3 x x x X X X). pose proof (P3 x y y X Y Y). pose proof (P3 x x y X X Y).
  rewrite Rabs_mult, Rabs_Ropp, (Rabs_pos_eq (_ * y)) by (apply Rmult_le_pos; lra).
  replace (4 * e / m ^ 3) with (k * k * k * e + e * (3 * (k * k * k))) by (unfold k; field; lra). apply Rplus_le_compat; [apply Rmult_le_compat_r; lra|].
  replace (Rabs (a - b) * ((x * y * y + x * x * y + x * x * x) * y) * b) with (Rabs (a - b) * (x * y * y + x * x * y + x * x * x)) by (unfold y; field; lra).
  apply Rmult_le_compat; [apply Rabs_pos|lra|exact N|lra].
Qed.
End Lip.

Definition lipschitz (K : vec3 -> vec3 -> vec3) (p : vec3) (m C1 C2 : R) : Prop :=
  forall l1 l2 q1 q2, m <= vnorm (vsub p q1) -> m <= vnorm (vsub p q2) ->
    vnorm (vsub (K l1 q1) (K l2 q2)) <= C1 * vnorm (vsub l1 l2) + C2 * (vnorm l2 * vnorm (vsub q1 q2)).
Lemma sub_sub p q1 q2 : vnorm (vsub (vsub p q1) (vsub p q2)) = vnorm (vsub q1 q2).
Proof. rewrite <- vnorm_opp. f_equal. destruct p, q1, q2; vring. Qed.
Lemma bs_lip p m : 0 < m -> lipschitz (biot_savart p) p m (/ m ^ 2) (4 / m ^ 3).
Proof.
  intros Hm l1 l2 q1 q2 H1 H2. unfold biot_savart. pose proof (lip_cube _ _ m Hm H1 H2) as L. rewrite sub_sub in L.
  set (d := vnorm (vsub q1 q2)) in *. clearbody d. set (w1 := vsub p q1) in *. set (w2 := vsub p q2) in *.
  set (W1 := vscal (/ vnorm w1 ^ 3) w1) in *. set (W2 := vscal (/ vnorm w2 ^ 3) w2) in *.
  replace (vscal (/ vnorm w1 ^ 3) (vcross l1 w1)) with (vcross l1 W1) by (unfold W1; generalize (/ vnorm w1 ^ 3); intros k; destruct l1, w1; vring).
  replace (vscal (/ vnorm w2 ^ 3) (vcross l2 w2)) with (vcross l2 W2) by (unfold W2; generalize (/ vnorm w2 ^ 3); intros k; destruct l2, w2; vring).
  replace (vsub (vcross l1 W1) (vcross l2 W2)) with (vadd (vcross (vsub l1 l2) W1) (vcross l2 (vsub W1 W2))) by (destruct l1, l2, W1, W2; vring).
  eapply Rle_trans; [apply vnorm_triangle|]. pose proof (vnorm_cross_le (vsub l1 l2) W1) as A. pose proof (vnorm_cross_le l2 (vsub W1 W2)) as B.
  assert (N : vnorm W1 <= / m ^ 2).
  { unfold W1. rewrite vnorm_scal, Rabs_pos_eq by (apply Rlt_le, Rinv_0_lt_compat, pow_lt; lra). replace (/ vnorm w1 ^ 3 * vnorm w1) with (/ vnorm w1 ^ 2) by (field; lra).
    apply Rinv_le_contravar; [apply pow_lt, Hm|]. apply pow_incr. lra. }
  pose proof (vnorm_nonneg l2). pose proof (vnorm_nonneg (vsub l1 l2)). apply Rplus_le_compat.
  - eapply Rle_trans; [exact A|]. rewrite Rmult_comm. apply Rmult_le_compat_r; lra.
  - eapply Rle_trans; [exact B|]. replace (4 / m ^ 3 * (vnorm l2 * d)) with (vnorm l2 * (4 * d / m ^ 3)) by (field; lra). apply Rmult_le_compat_l; lra.
Qed.
Lemma dl_lip p m : 0 < m -> lipschitz (dl_over_r p) p m (/ m) (/ m ^ 2).
Proof.
  intros Hm l1 l2 q1 q2 H1 H2. unfold dl_over_r. pose proof (lip_inv _ _ m Hm H1 H2) as L. rewrite sub_sub in L.
  set (d := vnorm (vsub q1 q2)) in *. clearbody d. set (w1 := vsub p q1) in *. set (w2 := vsub p q2) in *.
  replace (vsub (vscal (/ vnorm w1) l1) (vscal (/ vnorm w2) l2)) with (vadd (vscal (/ vnorm w1) (vsub l1 l2)) (vscal (/ vnorm w1 - / vnorm w2) l2)) by (generalize (/ vnorm w1) (/ vnorm w2); intros x y; destruct l1, l2; vring).
  eapply Rle_trans; [apply vnorm_triangle|]. rewrite !vnorm_scal. pose proof (vnorm_nonneg l2). pose proof (vnorm_nonneg (vsub l1 l2)). apply Rplus_le_compat.
  - apply Rmult_le_compat_r; [assumption|]. rewrite Rabs_pos_eq by (apply Rlt_le, Rinv_0_lt_compat; lra). apply Rinv_le_contravar; lra.
  - replace (/ m ^ 2 * (vnorm l2 * d)) with (d / m ^ 2 * vnorm l2) by (field; lra). apply Rmult_le_compat_r; assumption.
Qed.

(** *** sine and cosine *)
Lemma mvt_le (f df : R -> R) x y : (forall t, is_derive f t (df t)) -> exists z, Rmin x y <= z <= Rmax x y /\ f y - f x = df z * (y - x).
Proof.
  intros D. destruct (MVT_gen f x y df) as (z & Hz & E); [intros; apply D| |exists z; split; assumption].
  intros t _. apply continuity_pt_filterlim, (ex_derive_continuous f). eexists. apply D.
Qed.
Lemma cos_lip x y : Rabs (cos y - cos x) <= Rabs (y - x).
Proof.
  destruct (mvt_le cos (fun t => - sin t) x y) as (z & _ & E); [intros; auto_derive; [exact I|ring]|]. rewrite E, Rabs_mult, Rabs_Ropp.
  pose proof (SIN_bound z) as S. assert (Rabs (sin z) <= 1) by (apply Rabs_le; lra). pose proof (Rabs_pos (y - x)). nra.
Qed.
Lemma sin_lip x y : Rabs (sin y - sin x) <= Rabs (y - x).
Proof.
  destruct (mvt_le sin cos x y) as (z & _ & E); [intros; auto_derive; [exact I|ring]|]. rewrite E, Rabs_mult.
  pose proof (COS_bound z) as S. assert (Rabs (cos z) <= 1) by (apply Rabs_le; lra). pose proof (Rabs_pos (y - x)). nra.
Qed.
Lemma cos_chord t h x : 0 <= h -> t <= x <= t + h -> Rabs (cos (t + h) - cos t + h * sin x) <= h ^ 2.
Proof.
  intros H X. destruct (mvt_le cos (fun t => - sin t) t (t + h)) as (z & Z & E); [intros; auto_derive; [exact I|ring]|]. rewrite Rmin_left, Rmax_right in Z by lra.
  rewrite E. replace (- sin z * (t + h - t) + h * sin x) with (h * (sin x - sin z)) by ring. rewrite Rabs_mult, (Rabs_pos_eq h) by exact H.
  pose proof (sin_lip z x) as S. assert (Rabs (x - z) <= h) by (apply Rabs_le; lra). replace (h ^ 2) with (h * h) by ring. apply Rmult_le_compat_l; lra.
Qed.
Lemma sin_chord t h x : 0 <= h -> t <= x <= t + h -> Rabs (sin (t + h) - sin t - h * cos x) <= h ^ 2.
Proof.
  intros H X. destruct (mvt_le sin cos t (t + h)) as (z & Z & E); [intros; auto_derive; [exact I|ring]|]. rewrite Rmin_left, Rmax_right in Z by lra.
  rewrite E. replace (cos z * (t + h - t) - h * cos x) with (h * (cos z - cos x)) by ring. rewrite Rabs_mult, (Rabs_pos_eq h) by exact H.
  pose proof (cos_lip x z) as S. assert (Rabs (z - x) <= h) by (apply Rabs_le; lra). replace (h ^ 2) with (h * h) by ring. apply Rmult_le_compat_l; lra.
Qed.

Section Poly.
Variables c u v p : vec3.
Variable a : R.
Hypothesis HO : orthonormal u v.
Hypothesis Ha : 0 < a.
Let q t := circle c u v a t.
Let dl t := circle_dl u v a t.

Lemma comb_le A B M : Rabs A <= M -> Rabs B <= M -> vnorm (vadd (vscal A u) (vscal B v)) <= 2 * M.
Proof.
  intros HA HB. destruct HO as (U & V & _). rewrite <- vnorm2_dot, vnorm2_pow in U, V. pose proof (vnorm_nonneg u). pose proof (vnorm_nonneg v).
  assert (vnorm u = 1) by nra. assert (vnorm v = 1) by nra. eapply Rle_trans; [apply vnorm_triangle|]. rewrite !vnorm_scal. nra.
Qed.
Lemma q_lip x y : vnorm (vsub (q y) (q x)) <= 2 * (a * Rabs (y - x)).
Proof.
  replace (vsub (q y) (q x)) with (vadd (vscal (a * (cos y - cos x)) u) (vscal (a * (sin y - sin x)) v)) by (unfold q, circle; destruct c, u, v; vring).
  apply comb_le; rewrite Rabs_mult, (Rabs_pos_eq a) by lra; (apply Rmult_le_compat_l; [lra|]); [apply cos_lip|apply sin_lip].
Qed.
Lemma dl_norm t : vnorm (dl t) <= 2 * a.
Proof.
  unfold dl, circle_dl. apply comb_le; rewrite ?Rabs_Ropp, Rabs_mult, (Rabs_pos_eq a) by lra.
  - pose proof (SIN_bound t). assert (Rabs (sin t) <= 1) by (apply Rabs_le; lra). nra.
  - pose proof (COS_bound t). assert (Rabs (cos t) <= 1) by (apply Rabs_le; lra). nra.
Qed.
Lemma dl_chord t h x : 0 <= h -> t <= x <= t + h -> vnorm (vsub (vsub (q (t + h)) (q t)) (vscal h (dl x))) <= 2 * (a * h ^ 2).
Proof.
  intros H X. replace (vsub (vsub (q (t + h)) (q t)) (vscal h (dl x))) with
    (vadd (vscal (a * (cos (t + h) - cos t + h * sin x)) u) (vscal (a * (sin (t + h) - sin t - h * cos x)) v)) by (unfold q, dl, circle, circle_dl; destruct c, u, v; vring).
  apply comb_le; rewrite Rabs_mult, (Rabs_pos_eq a) by lra; (apply Rmult_le_compat_l; [lra|]); [apply cos_chord|apply sin_chord]; assumption.
Qed.
Lemma on_chord t h s : 0 <= h -> 0 <= s <= 1 -> vnorm (vsub (on_seg (q t) (q (t + h)) s) (q (h * s + t))) <= 4 * (a * h).
Proof.
  intros H S. replace (vsub (on_seg (q t) (q (t + h)) s) (q (h * s + t))) with (vsub (vscal s (vsub (q (t + h)) (q t))) (vsub (q (h * s + t)) (q t)))
    by (unfold on_seg; destruct (q t), (q (t + h)), (q (h * s + t)); vring).
  eapply Rle_trans; [apply vnorm_sub_le|]. rewrite vnorm_scal, Rabs_pos_eq by lra. pose proof (q_lip t (t + h)) as A. pose proof (q_lip t (h * s + t)) as B.
  replace (t + h - t) with h in A by ring. replace (h * s + t - t) with (h * s) in B by ring. assert (0 <= h * s <= h) by nra. rewrite Rabs_pos_eq in A, B by lra.
  pose proof (vnorm_nonneg (vsub (q (t + h)) (q t))). assert (a * (h * s) <= a * h) by (apply Rmult_le_compat_l; lra). nra.
Qed.

Variable K : vec3 -> vec3 -> vec3.
Hypothesis HK : forall k l x, K (vscal k l) x = vscal k (K l x).
Variables delta C1 C2 : R.
Hypothesis Hd : 0 < delta.
Hypothesis Hoff : forall t, delta <= vnorm (vsub p (q t)).
Hypothesis HL : lipschitz K p (delta / 2) C1 C2.
Hypothesis HC : 0 <= C1 /\ 0 <= C2.

Lemma chord_off t h s : 0 <= h -> 8 * (a * h) <= delta -> 0 <= s <= 1 -> delta / 2 <= vnorm (vsub p (on_seg (q t) (q (t + h)) s)).
Proof.
  clear HL HC HK. intros H S Hs. pose proof (on_chord t h s H Hs) as A. pose proof (Hoff (h * s + t)) as B.
  pose proof (vnorm_sub_ge (vsub p (q (h * s + t))) (vsub (on_seg (q t) (q (t + h)) s) (q (h * s + t)))) as G.
  replace (vsub (vsub p (q (h * s + t))) (vsub (on_seg (q t) (q (t + h)) s) (q (h * s + t)))) with (vsub p (on_seg (q t) (q (t + h)) s)) in G
    by (destruct p, (q (h * s + t)), (on_seg (q t) (q (t + h)) s); vring). lra.
Qed.
Lemma chord_arc w t h V J : vnorm w = 1 -> 0 < h -> 8 * (a * h) <= delta ->
  is_vec_RInt (fun s => K (vsub (q (t + h)) (q t)) (on_seg (q t) (q (t + h)) s)) V ->
  is_RInt (fun x => vdot w (K (dl x) (q x))) t (t + h) J -> Rabs (vdot w V - J) <= h ^ 2 * (2 * a * C1 + 8 * a ^ 2 * C2).
Proof.
  intros Hw H S HV HJ. apply (vint_dot w) in HV.
  assert (HJ' : is_RInt (fun s => h * vdot w (K (dl (h * s + t)) (q (h * s + t)))) 0 1 J).
  { apply (is_RInt_comp_lin (fun x => vdot w (K (dl x) (q x))) h t 0 1 J). replace (h * 0 + t) with t by ring. replace (h * 1 + t) with (t + h) by ring. exact HJ. }
  pose proof (is_RInt_minus (V:=R_NormedModule) _ _ _ _ _ _ HV HJ') as D.
  replace (h ^ 2 * (2 * a * C1 + 8 * a ^ 2 * C2)) with ((1 - 0) * (h ^ 2 * (2 * a * C1 + 8 * a ^ 2 * C2))) by ring.
  refine (norm_RInt_le_const (V:=R_NormedModule) _ 0 1 _ _ ltac:(lra) _ D). intros s Hs.
  change (Rabs (vdot w (K (vsub (q (t + h)) (q t)) (on_seg (q t) (q (t + h)) s)) - h * vdot w (K (dl (h * s + t)) (q (h * s + t)))) <= h ^ 2 * (2 * a * C1 + 8 * a ^ 2 * C2)).
  replace (h * vdot w (K (dl (h * s + t)) (q (h * s + t)))) with (vdot w (K (vscal h (dl (h * s + t))) (q (h * s + t))))
    by (rewrite HK; generalize (K (dl (h * s + t)) (q (h * s + t))); intros x; destruct w, x; unfold vdot, vscal; cbn; ring).
  rewrite <- vdot_sub. eapply Rle_trans; [apply vdot_unit, Hw|].
  pose proof (Hoff (h * s + t)) as O1. eapply Rle_trans; [apply HL; [apply chord_off; lra|lra]|].
  assert (0 <= h * s <= h) by nra. pose proof (dl_chord t h (h * s + t) ltac:(lra) ltac:(lra)) as A. pose proof (on_chord t h s ltac:(lra) Hs) as B. pose proof (dl_norm (h * s + t)) as N.
  assert (N' : vnorm (vscal h (dl (h * s + t))) <= 2 * (a * h)) by (rewrite vnorm_scal, Rabs_pos_eq by lra; nra).
  replace (h ^ 2 * (2 * a * C1 + 8 * a ^ 2 * C2)) with (C1 * (2 * (a * h ^ 2)) + C2 * (2 * (a * h) * (4 * (a * h)))) by ring.
  destruct HC. apply Rplus_le_compat; (apply Rmult_le_compat_l; [assumption|]); [exact A|]. apply Rmult_le_compat; try apply vnorm_nonneg; assumption.
Qed.

Variable n : nat.
Hypothesis Hn : 8 * (a * (2 * PI / INR n)) <= delta.
Hypothesis Hn0 : (0 < n)%nat.
Let T k := 2 * PI * (INR k / INR n).
Let h := 2 * PI / INR n.
Lemma pn : 0 < INR n. Proof. apply lt_0_INR, Hn0. Qed.
Lemma T_S k : T (S k) = T k + h.
Proof. unfold T, h. rewrite S_INR. field. pose proof pn. lra. Qed.
Lemma h_pos : 0 < h. Proof. unfold h. pose proof PI_RGT_0. pose proof pn. apply Rdiv_lt_0_compat; lra. Qed.
Lemma T_0 : T 0 = 0. Proof. unfold T. cbn. field. pose proof pn. lra. Qed.
Lemma T_n : T n = 2 * PI. Proof. unfold T. field. pose proof pn. lra. Qed.
Lemma T_le i j : (i <= j)%nat -> T i <= T j.
Proof. intros L. induction L as [|j L IH]; [lra|]. rewrite T_S. pose proof h_pos. lra. Qed.

Lemma poly_arc w m : vnorm w = 1 -> forall j V J, (j + m <= n)%nat ->
  (forall x y, 0 <= x <= y -> y <= 2 * PI -> ex_RInt (fun x => vdot w (K (dl x) (q x))) x y) ->
  is_wire_integral K (map (fun k => q (T k)) (seq j (S m))) V -> is_RInt (fun x => vdot w (K (dl x) (q x))) (T j) (T (j + m)) J ->
  Rabs (vdot w V - J) <= INR m * (h ^ 2 * (2 * a * C1 + 8 * a ^ 2 * C2)).
Proof.
  intros Hw. induction m as [|m IH]; intros j V J L E HV HJ.
  - cbn in HV. subst V. rewrite Nat.add_0_r in HJ. pose proof (is_RInt_unique _ _ _ _ HJ) as U. rewrite RInt_point in U. rewrite <- U. cbn [INR].
    replace (vdot w vzero) with 0 by (destruct w; unfold vdot, vzero; cbn; ring). change (@zero R_CompleteNormedModule) with 0. rewrite Rminus_0_r, Rabs_R0. lra.
  - change (seq j (S (S m))) with (j :: S j :: seq (S (S j)) m) in HV. cbn [map] in HV. destruct HV as (v1 & v2 & H1 & H2 & ->). 
    change (q (T (S j)) :: map (fun k => q (T k)) (seq (S (S j)) m)) with (map (fun k => q (T k)) (seq (S j) (S m))) in H2.
    assert (L0 : 0 <= T j) by (rewrite <- T_0; apply T_le; lia). assert (L1 : T (S j) <= T (j + S m)) by (apply T_le; lia). assert (L2 : T (j + S m) <= 2 * PI) by (rewrite <- T_n; apply T_le; lia).
    pose proof (T_S j) as TS. pose proof h_pos as HP.
    destruct (E (T j) (T (S j)) ltac:(lra) ltac:(lra)) as [J1 HJ1]. destruct (E (T (S j)) (T (j + S m)) ltac:(lra) ltac:(lra)) as [J2 HJ2].
    pose proof (is_RInt_Chasles (V:=R_NormedModule) _ _ _ _ _ _ HJ1 HJ2) as HC'.
    assert (EJ : J = J1 + J2) by (pose proof (is_RInt_unique _ _ _ _ HJ) as U1; pose proof (is_RInt_unique _ _ _ _ HC') as U2; rewrite U1 in U2; exact U2). subst J.
    replace (j + S m)%nat with (S j + m)%nat in HJ2 by lia. specialize (IH (S j) v2 J2 ltac:(lia) E H2 HJ2).
    rewrite TS in H1, HJ1. pose proof (chord_arc w (T j) h v1 J1 Hw HP Hn H1 HJ1) as A.
    replace (vdot w (vadd v1 v2)) with (vdot w v1 + vdot w v2) by (destruct w, v1, v2; unfold vdot, vadd; cbn; ring).
    replace (vdot w v1 + vdot w v2 - (J1 + J2)) with ((vdot w v1 - J1) + (vdot w v2 - J2)) by ring. eapply Rle_trans; [apply Rabs_triang|]. rewrite S_INR. lra.
Qed.
Lemma poly_circle V W : is_wire_integral K (polygon c u v a n) V -> is_circle_integral K c u v a W ->
  vnorm (vsub V W) <= 4 * PI ^ 2 / INR n * (2 * a * C1 + 8 * a ^ 2 * C2).
Proof.
  intros HV (WX & WY & WZ). pose proof pn as P. destruct HC as [C1p C2p].
  assert (0 <= 2 * a * C1 + 8 * a ^ 2 * C2) by (apply Rplus_le_le_0_compat; apply Rmult_le_pos; try assumption; [lra|apply Rmult_le_pos; [lra|apply pow2_ge_0]]).
  apply dir_norm.
  - intros w Hw. rewrite vdot_sub. pose proof (dot_int w (fun t => K (dl t) (q t)) W WX WY WZ) as HW.
    replace (4 * PI ^ 2 / INR n * (2 * a * C1 + 8 * a ^ 2 * C2)) with (INR n * (h ^ 2 * (2 * a * C1 + 8 * a ^ 2 * C2))) by (unfold h; field; lra).
    apply (poly_arc w n Hw 0); [lia| | |].
    + intros x y X Y. assert (ex_RInt (fun t => vdot w (K (dl t) (q t))) 0 (2 * PI)) as E by (eexists; exact HW).
      apply (ex_RInt_Chasles_2 (V:=R_CompleteNormedModule) _ 0); [lra|]. apply (ex_RInt_Chasles_1 (V:=R_CompleteNormedModule) _ 0 y (2 * PI)); [lra|exact E].
    + exact HV.
    + change (0 + n)%nat with n. rewrite T_0, T_n. exact HW.
  - apply Rmult_le_pos; [|assumption]. apply Rmult_le_pos; [pose proof (pow2_ge_0 PI); lra|apply Rlt_le, Rinv_0_lt_compat, P].
Qed.
End Poly.
