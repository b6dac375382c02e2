(** C110: the line integrals around a distant circle. *)
From Coq Require Import String Reals List Lra.
From Coquelicot Require Import Coquelicot.
From Verif Require Import Vec3 Calculus Deriv Integral Periodic Numpy Model_Static Spec_Static Spec_Loop Proof_LoopFar.
Open Scope R_scope.

Lemma dir_norm X K : (forall w, vnorm w = 1 -> Rabs (vdot w X) <= K) -> 0 <= K -> vnorm X <= K.
Proof.
  intros H K0. pose proof (vnorm_nonneg X) as N. destruct (Req_dec (vnorm X) 0) as [Z|Z]; [lra|].
  assert (P : 0 < vnorm X) by lra. specialize (H (vscal (/ vnorm X) X)). rewrite vnorm_scal, Rabs_pos_eq in H by (apply Rlt_le, Rinv_0_lt_compat, P).
  rewrite Rinv_l in H by lra. specialize (H eq_refl).
  replace (vdot (vscal (/ vnorm X) X) X) with (vnorm X) in H; [rewrite Rabs_pos_eq in H; lra|].
  transitivity (/ vnorm X * vnorm2 X); [rewrite <- vnorm_sqr; field; lra|unfold vdot, vscal, vnorm2; cbn; ring].
Qed.
Lemma vnorm_cross_le a b : vnorm (vcross a b) <= vnorm a * vnorm b.
Proof.
  pose proof (vnorm_nonneg a). pose proof (vnorm_nonneg b). pose proof (vnorm_nonneg (vcross a b)).
  assert (vnorm (vcross a b) * vnorm (vcross a b) <= vnorm a * vnorm b * (vnorm a * vnorm b)).
  { rewrite vnorm_sqr. replace (vnorm a * vnorm b * (vnorm a * vnorm b)) with ((vnorm a * vnorm a) * (vnorm b * vnorm b)) by ring. rewrite !vnorm_sqr.
    pose proof (Rle_0_sqr (vdot a b)) as Q. unfold Rsqr in Q.
    assert (vnorm2 (vcross a b) + vdot a b * vdot a b = vnorm2 a * vnorm2 b) by (unfold vnorm2, vcross, vdot; cbn; ring). lra. }
  apply Rnot_lt_le. intros N. assert (0 <= vnorm a * vnorm b) by (apply Rmult_le_pos; assumption). nra.
Qed.

Section Circle.
Variables c u v p : vec3.
Variable a : R.
Hypothesis HO : orthonormal u v.
Let d := vsub p c.
Let r := vnorm d.
Let n := vcross u v.
Hypothesis Ha : 0 < a < r.
Let e := (a / r) ^ 2.
Let tau t := vadd (vscal (- sin t) u) (vscal (cos t) v).

Lemma cf_comb A B : vnorm2 (vadd (vscal A u) (vscal B v)) = A * A + B * B.
Proof.
  destruct HO as (U & V & W). transitivity (A * A * vdot u u + B * B * vdot v v + 2 * A * B * vdot u v); [unfold vnorm2, vdot, vadd, vscal; cbn; ring|].
  rewrite U, V, W. ring.
Qed.
Lemma cf_tau t : vnorm (tau t) = 1.
Proof. apply vnorm_unique; [lra|]. unfold tau. rewrite cf_comb. pose proof (sin2_cos2 t) as S. unfold Rsqr in S. lra. Qed.
Lemma cf_n : vnorm n = 1.
Proof.
  apply vnorm_unique; [lra|]. destruct HO as (U & V & W). unfold n. replace (vnorm2 (vcross u v)) with (vdot u u * vdot v v - vdot u v * vdot u v) by (unfold vnorm2, vdot, vcross; cbn; ring).
  rewrite U, V, W. ring.
Qed.
Lemma cf_bessel : vdot d u * vdot d u + vdot d v * vdot d v <= r * r.
Proof.
  destruct HO as (U & V & W). unfold r. rewrite vnorm_sqr.
  pose proof (vnorm2_nonneg (vsub d (vadd (vscal (vdot d u) u) (vscal (vdot d v) v)))) as N.
  replace (vnorm2 (vsub d (vadd (vscal (vdot d u) u) (vscal (vdot d v) v)))) with
    (vnorm2 d - 2 * (vdot d u * vdot d u + vdot d v * vdot d v) + vnorm2 (vadd (vscal (vdot d u) u) (vscal (vdot d v) v))) in N
    by (unfold vnorm2, vdot, vsub, vadd, vscal; cbn; ring).
  rewrite cf_comb in N. lra.
Qed.
Lemma cf_dist t : vnorm (vsub p (circle c u v a t)) = sqrt (r ^ 2 + a ^ 2 - 2 * a * (vdot d u * cos t + vdot d v * sin t)).
Proof.
  unfold vnorm. f_equal. replace (r ^ 2) with (r * r) by ring. unfold r. rewrite vnorm_sqr. pose proof (sin2_cos2 t) as S. unfold Rsqr in S.
  transitivity (vnorm2 d - 2 * a * (vdot d u * cos t + vdot d v * sin t) + vnorm2 (vadd (vscal (a * cos t) u) (vscal (a * sin t) v))).
  - unfold d, circle, vnorm2, vdot, vsub, vadd, vscal; cbn. ring.
  - rewrite cf_comb. replace (a * cos t * (a * cos t) + a * sin t * (a * sin t)) with (a ^ 2 * (sin t * sin t + cos t * cos t)) by ring. rewrite S. ring.
Qed.
Lemma dot_int (w : vec3) (F : R -> vec3) V :
  is_RInt (fun t => vx (F t)) 0 (2 * PI) (vx V) -> is_RInt (fun t => vy (F t)) 0 (2 * PI) (vy V) -> is_RInt (fun t => vz (F t)) 0 (2 * PI) (vz V) ->
  is_RInt (fun t => vdot w (F t)) 0 (2 * PI) (vdot w V).
Proof.
  intros X Y Z. apply (is_RInt_scal (V:=R_NormedModule) _ _ _ (vx w)) in X. apply (is_RInt_scal (V:=R_NormedModule) _ _ _ (vy w)) in Y. apply (is_RInt_scal (V:=R_NormedModule) _ _ _ (vz w)) in Z.
  exact (is_RInt_plus (V:=R_NormedModule) _ _ _ _ _ _ (is_RInt_plus (V:=R_NormedModule) _ _ _ _ _ _ X Y) Z).
Qed.
Lemma cf_e : 0 <= e < 1.
Proof. apply (rg_e r a). lra. Qed.

Lemma circle_first V : is_circle_integral (dl_over_r p) c u v a V ->
  vnorm (vsub V (vscal (PI * a ^ 2 / r ^ 3) (vcross n d))) <= PI * a ^ 2 / r ^ 2 * (3 * (e / (1 - e))).
Proof.
  intros (X & Y & Z). pose proof cf_e as E. assert (PIpos := PI_RGT_0). assert (R0 : 0 < r) by lra. apply dir_norm.
  - intros w Hw. pose proof (dot_int w _ _ X Y Z) as H. cbv beta in H.
    assert (H1 : is_RInt (fun t => (vdot w v * cos t - vdot w u * sin t) / sqrt (r ^ 2 + a ^ 2 - 2 * a * (vdot d u * cos t + vdot d v * sin t)) ^ 1) 0 (2 * PI) (/ a * vdot w V)).
    { apply (is_RInt_scal (V:=R_NormedModule) _ _ _ (/ a)) in H. eapply is_RInt_ext; [|exact H]. intros t _. unfold scal; cbn -[pow]. unfold mult; cbn -[pow].
      unfold dl_over_r. rewrite cf_dist. set (q := sqrt _). rewrite pow_1. unfold circle_dl, vdot, vscal, vadd; cbn. unfold Rdiv.
      generalize (/ q); intros k. field. lra. }
    assert (B : forall t, Rabs (vdot w v * cos t - vdot w u * sin t) <= 1).
    { intros t. replace (vdot w v * cos t - vdot w u * sin t) with (vdot w (tau t)) by (unfold tau, vdot, vadd, vscal; cbn; ring).
      eapply Rle_trans; [apply cauchy_schwarz|]. rewrite Hw, cf_tau. lra. }
    pose proof (far_first r a (vdot d u) (vdot d v) ltac:(lra) cf_bessel (vdot w u) (vdot w v) 1 _ B H1) as K.
    replace (vdot w (vsub V (vscal (PI * a ^ 2 / r ^ 3) (vcross n d)))) with (a * (/ a * vdot w V - PI * a * (vdot w v * vdot d u - vdot w u * vdot d v) / r ^ 3)).
    + rewrite Rabs_mult, (Rabs_pos_eq a) by lra. fold e in K. set (q := e / (1 - e)) in *.
      replace (PI * a ^ 2 / r ^ 2 * (3 * q)) with (a * (PI * 1 * (a / r ^ 2 * (3 * q)))) by (field; lra). apply Rmult_le_compat_l; [lra|exact K].
    + unfold n. generalize r R0. intros r' R0'. unfold vdot, vsub, vscal, vcross; cbn. field. lra.
  - assert (Q0 : 0 <= e / (1 - e)) by (apply Rmult_le_pos; [lra|apply Rlt_le, Rinv_0_lt_compat; lra]).
    apply Rmult_le_pos; [|lra]. apply Rmult_le_pos; [apply Rmult_le_pos; [lra|apply pow_le; lra]|apply Rlt_le, Rinv_0_lt_compat, pow_lt, R0].
Qed.

Lemma circle_third V : is_circle_integral (biot_savart p) c u v a V ->
  vnorm (vsub V (vscal (PI * a ^ 2 / r ^ 3) (vsub (vscal (3 * vdot n d / r ^ 2) d) n))) <= PI * a ^ 2 / r ^ 3 * (33 * (e / (1 - e) ^ 3)).
Proof.
  intros (X & Y & Z). pose proof cf_e as E. assert (PIpos := PI_RGT_0). assert (R0 : 0 < r) by lra. apply dir_norm.
  - intros w Hw. pose proof (dot_int w _ _ X Y Z) as H. cbv beta in H.
    set (al := vdot w (vcross u d)). set (be := vdot w (vcross v d)). set (ga := a * vdot w n).
    assert (H1 : is_RInt (fun t => (be * cos t - al * sin t + ga) / sqrt (r ^ 2 + a ^ 2 - 2 * a * (vdot d u * cos t + vdot d v * sin t)) ^ 3) 0 (2 * PI) (/ a * vdot w V)).
    { apply (is_RInt_scal (V:=R_NormedModule) _ _ _ (/ a)) in H. eapply is_RInt_ext; [|exact H]. intros t _. unfold scal; cbn -[pow]. unfold mult; cbn -[pow].
      unfold biot_savart. rewrite cf_dist. set (q := sqrt _). unfold Rdiv. generalize (/ q ^ 3). intros k. pose proof (sin2_cos2 t) as S. unfold Rsqr in S.
      transitivity (/ a * (k * (a * (be * cos t - al * sin t) + a * a * vdot w n * (sin t * sin t + cos t * cos t)))).
      - unfold al, be, n, d, circle_dl, circle, vdot, vsub, vcross, vscal, vadd; cbn. ring.
      - rewrite S. unfold ga. field. lra. }
    assert (B : forall t, Rabs (be * cos t - al * sin t) <= r).
    { intros t. replace (be * cos t - al * sin t) with (vdot w (vcross (tau t) d)) by (unfold al, be, tau, vdot, vcross, vadd, vscal; cbn; ring).
      eapply Rle_trans; [apply cauchy_schwarz|]. rewrite Hw. eapply Rle_trans; [apply Rmult_le_compat_l; [lra|apply vnorm_cross_le]|]. rewrite cf_tau. unfold r. lra. }
    pose proof (far_third r a (vdot d u) (vdot d v) ltac:(lra) cf_bessel al be ga r _ B H1) as K. fold e in K. set (q := e / (1 - e) ^ 3) in *.
    assert (Q0 : 0 <= q) by (apply Rmult_le_pos; [lra|apply Rlt_le, Rinv_0_lt_compat, pow_lt; lra]).
    assert (G : Rabs ga <= a).
    { unfold ga. rewrite Rabs_mult, (Rabs_pos_eq a) by lra. rewrite <- (Rmult_1_r a) at 2. apply Rmult_le_compat_l; [lra|].
      eapply Rle_trans; [apply cauchy_schwarz|]. rewrite Hw, cf_n. lra. }
    replace (vdot w (vsub V (vscal (PI * a ^ 2 / r ^ 3) (vsub (vscal (3 * vdot n d / r ^ 2) d) n))))
      with (a * (/ a * vdot w V - PI * (3 * a * (be * vdot d u - al * vdot d v) / r ^ 5 + 2 * ga / r ^ 3))).
    + rewrite Rabs_mult, (Rabs_pos_eq a) by lra.
      replace (PI * a ^ 2 / r ^ 3 * (33 * q)) with (a * (PI * (r * a * r * 20 + a * r ^ 2 * 13) / r ^ 5 * q)) by (field; lra).
      apply Rmult_le_compat_l; [lra|]. eapply Rle_trans; [exact K|]. apply Rmult_le_compat_r; [exact Q0|]. apply Rmult_le_compat_r; [apply Rlt_le, Rinv_0_lt_compat, pow_lt, R0|].
      apply Rmult_le_compat_l; [lra|]. apply Rplus_le_compat_l. apply Rmult_le_compat_r; [lra|]. apply Rmult_le_compat_r; [apply pow_le; lra|exact G].
    + assert (R2 : vdot d d = r * r) by (unfold r; rewrite vnorm_sqr; reflexivity).
      assert (I : be * vdot d u - al * vdot d v = vdot n d * vdot w d - vdot w n * (r * r)).
      { rewrite <- R2. unfold be, al, n, vdot, vcross; cbn. ring. }
      rewrite I. unfold ga. transitivity (vdot w V - PI * a ^ 2 / r ^ 3 * (3 * vdot n d / r ^ 2 * vdot w d - vdot w n)).
      * field. lra.
      * generalize (vdot n d). intros k. unfold vdot, vsub, vscal. cbn [vx vy vz]. unfold Rdiv. ring.
  - assert (Q0 : 0 <= e / (1 - e) ^ 3) by (apply Rmult_le_pos; [lra|apply Rlt_le, Rinv_0_lt_compat, pow_lt; lra]).
    apply Rmult_le_pos; [|lra]. apply Rmult_le_pos; [apply Rmult_le_pos; [lra|apply pow_le; lra]|apply Rlt_le, Rinv_0_lt_compat, pow_lt, R0].
Qed.
End Circle.
