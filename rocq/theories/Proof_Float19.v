(** rotation_matrix_from_normals in floating point (C143). *)
From Coq Require Import ZArith Reals Lra Lia Psatz.
From Flocq Require Import Core.
From Verif Require Import Vec3 Numpy Model_Spatial Model_Float Model_Float9 Spec_Float Spec_Float7
  Proof_Spatial Proof_Float Proof_Float2 Proof_Float3 Proof_Float9 Proof_Float13 Proof_Float14 Proof_Float18.
Open Scope R_scope.

(** the defect of a quaternion as a rotation from [m] to [n] *)
Definition qgap (a : vec3) (w : R) (m n : vec3) : R :=
  vdot a (vsub m n) * vdot a (vsub m n) + vnorm2 (vadd (vscal w (vsub m n)) (vcross a (vadd m n))).
Lemma gap_id a w m n : qgap a w m n = (vnorm2 m + vnorm2 n) * (vnorm2 a + w * w)
  - 2 * vdot n (vadd (vscal (w * w - vnorm2 a) m) (vadd (vscal (2 * vdot a m) a) (vscal (2 * w) (vcross a m)))).
Proof. destruct a, m, n. unfold qgap. vring. Qed.
Lemma vdot_scal k a b : vdot a (vscal k b) = k * vdot a b. Proof. destruct a, b; vring. Qed.
Lemma norm2_sub a b : vnorm2 (vsub a b) = vnorm2 a + vnorm2 b - 2 * vdot b a. Proof. destruct a, b; vring. Qed.
Lemma rot_n2 M v : is_rotation M -> vnorm2 (mvec M v) = vnorm2 v.
Proof. intros R. rewrite !vnorm2_dot. apply rotation_dot, R. Qed.
Lemma gap_rot a w m n M : vnorm2 m = 1 -> vnorm2 n = 1 -> is_rotation M ->
  (forall v, vscal (vnorm2 a + w * w) (mvec M v) = vadd (vscal (w * w - vnorm2 a) v) (vadd (vscal (2 * vdot a v) a) (vscal (2 * w) (vcross a v)))) ->
  vnorm2 (vsub (mvec M m) n) * (vnorm2 a + w * w) = qgap a w m n.
Proof.
  intros U V R F. rewrite gap_id, <- F, vdot_scal, norm2_sub, rot_n2, U, V by exact R. ring.
Qed.
Lemma gap_le a w m n : vnorm2 m = 1 -> vnorm2 n = 1 -> qgap a w m n <= 4 * (vnorm2 a + w * w).
Proof.
  intros U V. pose proof (vnorm2_nonneg a) as A0. assert (W0 : 0 <= w * w) by nra. destruct (Rle_lt_dec (vnorm2 a + w * w) 0) as [Z|P].
  - rewrite gap_id. assert (w = 0) by nra. assert (E : a = vzero). { destruct (Rle_lt_dec (vnorm2 a) 0) as [L|L]; [|lra]. apply vnorm_eq0. unfold vnorm. replace (vnorm2 a) with 0 by lra. apply sqrt_0. }
    subst. destruct m, n. vunf. lra.
  - destruct (quat_matrix_spec a w P) as (M & _ & R & F). rewrite <- (gap_rot a w m n M U V R F). apply Rmult_le_compat_r; [lra|].
    assert (T : vnorm (vsub (mvec M m) n) <= 2).
    { replace (vsub (mvec M m) n) with (vadd (mvec M m) (vopp n)) by (destruct (mvec M m), n; vring). eapply Rle_trans; [apply vnorm_triangle|].
      rewrite vnorm_opp, rotation_norm by exact R. unfold vnorm. rewrite U, V, sqrt_1. lra. }
    pose proof (vnorm_nonneg (vsub (mvec M m) n)). rewrite <- vnorm_sqr. nra.
Qed.
Lemma gap_shift a w m n : vnorm2 m = 1 -> vnorm2 n = 1 ->
  qgap a w m n = qgap (vsub a (vcross m n)) (w - (1 + vdot m n)) m n.
Proof.
  intros U V. unfold qgap. f_equal.
  - f_equal; destruct a, m, n; vunf; ring.
  - f_equal. assert (Z : vadd (vscal (1 + vdot m n) (vsub m n)) (vcross (vcross m n) (vadd m n)) = vzero).
    { replace (vadd (vscal (1 + vdot m n) (vsub m n)) (vcross (vcross m n) (vadd m n)))
        with (vadd (vscal (1 - vnorm2 n) m) (vscal (vnorm2 m - 1) n)) by (destruct m, n; vring).
      rewrite U, V. destruct m, n; vring. }
    transitivity (vsub (vadd (vscal w (vsub m n)) (vcross a (vadd m n))) vzero); [destruct a, m, n; vring|]. rewrite <- Z. destruct a, m, n; vring.
Qed.
(** a rotation is off by the error of its quaternion over the size of the exact one *)
Lemma quat_err a w m n d2 M : vnorm2 m = 1 -> vnorm2 n = 1 -> quat_matrix a w = Ok M -> 0 < vnorm2 a + w * w ->
  vnorm2 (vsub a (vcross m n)) + (w - (1 + vdot m n)) * (w - (1 + vdot m n)) <= d2 ->
  is_rotation M /\ vnorm2 (vsub (mvec M m) n) * vnorm2 (vadd m n) <= 16 * d2.
Proof.
  intros U V E P D. destruct (quat_matrix_spec a w P) as (M' & E' & R & F). rewrite E' in E. injection E as <-. split; [exact R|].
  pose proof (gap_rot a w m n M' U V R F) as G. rewrite gap_shift in G by assumption.
  set (da := vsub a (vcross m n)) in *. set (dw := w - (1 + vdot m n)) in *.
  pose proof (gap_le da dw m n U V) as L. set (e := vnorm2 (vsub (mvec M' m) n)) in *.
  assert (e0 : 0 <= e <= 4).
  { split; [apply vnorm2_nonneg|]. pose proof (gap_le a w m n U V) as L'. rewrite gap_shift in L' by assumption. fold da dw in L'. rewrite <- G in L'. apply (Rmult_le_reg_r (vnorm2 a + w * w)); lra. }
  assert (S : vnorm2 (vadd m n) <= 2 * (vnorm2 a + w * w) + 2 * (vnorm2 da + dw * dw)).
  { replace (vnorm2 (vadd m n)) with (vnorm2 (vcross m n) + (1 + vdot m n) * (1 + vdot m n)).
    - assert (H : forall x y, y * y <= 2 * (x * x) + 2 * ((x - y) * (x - y))) by (intros x y; pose proof (Rle_0_sqr (2 * x - y)) as Z; unfold Rsqr in Z; lra).
      pose proof (H w (1 + vdot m n)) as HW. fold dw in HW. pose proof (H (vx a) (vx (vcross m n))) as HX. pose proof (H (vy a) (vy (vcross m n))) as HY. pose proof (H (vz a) (vz (vcross m n))) as HZ.
      unfold da, vnorm2, vsub in *. cbn [vx vy vz] in *. lra.
    - pose proof (lagrange_identity m n) as L2. rewrite U, V in L2. replace (vnorm2 (vadd m n)) with (vnorm2 m + vnorm2 n + 2 * vdot m n) by (destruct m, n; vring). rewrite U, V. lra. }
  apply Rle_trans with (e * (2 * (vnorm2 a + w * w) + 2 * (vnorm2 da + dw * dw))); [apply Rmult_le_compat_l; [apply e0|exact S]|].
  assert (0 <= vnorm2 da + dw * dw) by (pose proof (vnorm2_nonneg da); nra). nra.
Qed.

Section Rot.
  Variables (nrm : vec3 -> R) (dot : vec3 -> vec3 -> R).
  Hypothesis GN : good_norm nrm.
  Hypothesis GD : good_dot dot.
  Lemma near_nrm v : near 9 (nrm v) (vnorm v). Proof. apply (within_near 8 8); [lra|cbn; lra|lra|apply GN]. Qed.
  Lemma unit_ae v : v <> vzero -> ae 11 1 (vx (fnormalised nrm v)) (vx (vunit v)) /\ ae 11 1 (vy (fnormalised nrm v)) (vy (vunit v)) /\ ae 11 1 (vz (fnormalised nrm v)) (vz (vunit v)).
  Proof.
    intros N. pose proof (vunit_norm2 v N) as U. unfold vnorm2 in U.
    assert (B : forall t, t * t <= 1 -> Rabs t <= 1) by (intros t T; apply Rabs_le; nra).
    assert (H : forall c, near 10 (fl (c / nrm v)) (c / vnorm v)).
    { intro c. apply near_round. replace 9%nat with (0 + 9)%nat by lia. apply near_div; [apply near_refl|apply near_nrm]. }
    repeat split; try (apply B; nra); refine (proj1 (ae_near 10 11 1 _ _ _ _ _ (H _))); try lia; try (rewrite INR_IZR_INZ; cbn; lra); apply B; unfold vunit in U; cbn [vx vy vz] in U; nra.
  Qed.
  Variables v0 v1 : vec3.
  Hypothesis N0 : v0 <> vzero. Hypothesis N1 : v1 <> vzero.
  Let m := vunit v0. Let n := vunit v1. Let a := fnormalised nrm v0. Let b := fnormalised nrm v1.
  Lemma prod_ae x x' y y' : ae 11 1 x x' -> ae 11 1 y y' -> ae 33 1 (x * y) (x' * y').
  Proof. intros A B. pose proof (ae_mul 11 11 1 1 _ _ _ _ ltac:(lra) ltac:(lra) A B) as H. replace (2 * 11 + 11) with 33 in H by ring. rewrite Rmult_1_l in H. exact H. Qed.
  Lemma comp_ae p p' q q' r r' s s' : ae 11 1 p p' -> ae 11 1 q q' -> ae 11 1 r r' -> ae 11 1 s s' ->
    Rabs (fl (fl (p * q) - fl (r * s)) - (p' * q' - r' * s')) <= 78 * u.
  Proof.
    intros P Q R S. assert (H : ae 39 2 (fl (fl (p * q) - fl (r * s))) (p' * q' - r' * s')).
    { replace 39 with (36 + 3) by ring. apply ae_round; [lra|]. replace 2 with (1 + 1) by ring. replace 36 with (33 + 3) by ring. apply ae_sub; (apply ae_round; [lra|]); apply prod_ae; assumption. }
    destruct H as [H _]. lra.
  Qed.
  Lemma axis_err : vnorm2 (vsub (fcross a b) (vcross m n)) <= 3 * (78 * u * (78 * u)).
  Proof.
    destruct (unit_ae v0 N0) as (A1 & A2 & A3), (unit_ae v1 N1) as (B1 & B2 & B3). fold a m in A1, A2, A3. fold b n in B1, B2, B3.
    pose proof (comp_ae _ _ _ _ _ _ _ _ A2 B3 A3 B2) as X. pose proof (comp_ae _ _ _ _ _ _ _ _ A3 B1 A1 B3) as Y. pose proof (comp_ae _ _ _ _ _ _ _ _ A1 B2 A2 B1) as Z.
    assert (Q : forall t c, Rabs t <= c -> t * t <= c * c) by (intros t c T; apply Rabs_le_inv in T; nra).
    apply Q in X, Y, Z. unfold vnorm2, vsub, fcross, vcross. cbn [vx vy vz]. lra.
  Qed.
  Lemma dot_err : Rabs (dot a b - vdot m n) <= 130 * u.
  Proof.
    destruct (unit_ae v0 N0) as (A1 & A2 & A3), (unit_ae v1 N1) as (B1 & B2 & B3). fold a m in A1, A2, A3. fold b n in B1, B2, B3.
    pose proof (prod_ae _ _ _ _ A1 B1) as X. pose proof (prod_ae _ _ _ _ A2 B2) as Y. pose proof (prod_ae _ _ _ _ A3 B3) as Z.
    pose proof (ae_mag 33 1 _ _ ltac:(lra) X) as MX. pose proof (ae_mag 33 1 _ _ ltac:(lra) Y) as MY. pose proof (ae_mag 33 1 _ _ ltac:(lra) Z) as MZ.
    destruct (ae_add _ _ _ _ _ _ _ (ae_add _ _ _ _ _ _ _ X Y) Z) as [S _]. pose proof (GD a b) as D. fold u in D. pose proof u_lt as U.
    replace (dot a b - vdot m n) with ((dot a b - vdot a b) + (vdot a b - vdot m n)) by ring. eapply Rle_trans; [apply Rabs_triang|].
    unfold vdot at 2 3. nra.
  Qed.
  Lemma w_err : Rabs (fl (1 + dot a b) - (1 + vdot m n)) <= 140 * u.
  Proof.
    pose proof dot_err as D. pose proof u_lt as U. pose proof (fl_err (1 + dot a b)) as F.
    assert (C : Rabs (vdot m n) <= 1). { eapply Rle_trans; [apply cauchy_schwarz|]. unfold vnorm, m, n. rewrite !vunit_norm2, sqrt_1 by assumption. lra. }
    assert (T : Rabs (1 + dot a b) <= 3).
    { replace (1 + dot a b) with (1 + vdot m n + (dot a b - vdot m n)) by ring. apply Rabs_le_inv in D. apply Rabs_le_inv in C. apply Rabs_le. lra. }
    replace (fl (1 + dot a b) - (1 + vdot m n)) with ((fl (1 + dot a b) - (1 + dot a b)) + (dot a b - vdot m n)) by ring.
    eapply Rle_trans; [apply Rabs_triang|]. nra.
  Qed.
  Lemma quat_d2 : vnorm2 (vsub (fcross a b) (vcross m n)) + (fl (1 + dot a b) - (1 + vdot m n)) * (fl (1 + dot a b) - (1 + vdot m n)) <= (200 * u) * (200 * u).
  Proof.
    pose proof axis_err as A. pose proof w_err as W. set (d := fl (1 + dot a b) - (1 + vdot m n)) in *. apply Rabs_le_inv in W.
    assert (d * d <= 140 * u * (140 * u)) by nra. pose proof u_lt. nra.
  Qed.
  Lemma float_comp : float (vx a) /\ float (vy a) /\ float (vz a).
  Proof. repeat split; apply fl_float. Qed.
  (** where the computed axis is below the tolerance the normals are parallel *)
  Lemma small_axis tol : 0 < tol <= / 2 ^ 60 -> nrm (fcross a b) < tol -> vnorm2 (vcross m n) <= (140 * u) * (140 * u).
  Proof.
    intros T L. pose proof u_lt as U. assert (TU : tol <= u / 100) by (unfold u; lra).
    pose proof (GN (fcross a b)) as G. unfold within in G. fold u in G. pose proof (vnorm_nonneg (fcross a b)) as V. rewrite (Rabs_pos_eq (vnorm (fcross a b))) in G by exact V. apply Rabs_le_inv in G.
    assert (S : vnorm (fcross a b) <= u / 50) by nra.
    assert (A : vnorm (vsub (fcross a b) (vcross m n)) <= 136 * u).
    { apply Rsqr_incr_0_var; [|lra]. unfold Rsqr. rewrite vnorm_sqr. eapply Rle_trans; [apply axis_err|]. nra. }
    assert (B : vnorm (vcross m n) <= 140 * u).
    { replace (vcross m n) with (vadd (fcross a b) (vopp (vsub (fcross a b) (vcross m n)))) by (destruct (fcross a b), (vcross m n); vring).
      eapply Rle_trans; [apply vnorm_triangle|]. rewrite vnorm_opp. lra. }
    rewrite <- vnorm_sqr. pose proof (vnorm_nonneg (vcross m n)). nra.
  Qed.
  Lemma trial_z : fcross a (V3 0 0 1) = V3 (vy a) (- vx a) 0.
  Proof.
    destruct float_comp as (X & Y & Z). unfold fcross. cbn [vx vy vz]. rewrite !Rmult_1_r, !Rmult_0_r, !fl0, (fl_id (vy a) Y), (fl_id (vx a) X), Rminus_0_r, Rminus_0_l, (fl_id (vy a) Y), fl_opp, (fl_id (vx a) X), Rminus_0_r, fl0. reflexivity.
  Qed.
  Lemma trial_y : fcross a (V3 0 1 0) = V3 (- vz a) 0 (vx a).
  Proof.
    destruct float_comp as (X & Y & Z). unfold fcross. cbn [vx vy vz]. rewrite !Rmult_1_r, !Rmult_0_r, !fl0, (fl_id (vz a) Z), (fl_id (vx a) X), !Rminus_0_r, Rminus_0_l, (fl_id (vx a) X), fl_opp, (fl_id (vz a) Z), fl0. reflexivity.
  Qed.
  Lemma nrm_pos v : 0 < nrm v -> 0 < vnorm2 v.
  Proof.
    intros H. apply vnorm2_pos. intros ->. pose proof (GN vzero) as G. unfold within in G. rewrite vnorm_zero, Rabs_R0, Rmult_0_r, Rminus_0_r in G. apply Rabs_le_inv in G. lra.
  Qed.
  Lemma second_trial tol : 0 < tol <= / 2 ^ 60 -> nrm (fcross a (V3 0 0 1)) <= tol -> 0 < vnorm2 (fcross a (V3 0 1 0)).
  Proof.
    intros T L. rewrite trial_z in L. rewrite trial_y. pose proof u_lt as U. assert (TU : tol <= u / 100) by (unfold u; lra).
    pose proof (GN (V3 (vy a) (- vx a) 0)) as G. unfold within in G. fold u in G. pose proof (vnorm_nonneg (V3 (vy a) (- vx a) 0)) as V. rewrite (Rabs_pos_eq (vnorm _)) in G by exact V. apply Rabs_le_inv in G.
    assert (S : vnorm (V3 (vy a) (- vx a) 0) <= u) by nra.
    assert (Q : vnorm2 (V3 (vy a) (- vx a) 0) <= u * u) by (rewrite <- vnorm_sqr; nra). unfold vnorm2 in *. cbn [vx vy vz] in *.
    destruct (unit_ae v0 N0) as ([A1 _] & [A2 _] & [A3 _]). fold a m in A1, A2, A3. apply Rabs_le_inv in A1, A2, A3.
    pose proof (vunit_norm2 v0 N0) as Un. fold m in Un. unfold vnorm2 in Un.
    destruct (Rle_lt_dec (- vz a * - vz a + 0 * 0 + vx a * vx a) 0) as [Z|Z]; [|exact Z]. exfalso.
    assert (vz a = 0) by nra. assert (vx a = 0) by nra. assert (- u <= vy a <= u) by nra.
    assert (vx m * vx m <= / 100) by nra. assert (vy m * vy m <= / 100) by nra. assert (vz m * vz m <= / 100) by nra. lra.
  Qed.
  Lemma unit_sum_diff : vnorm2 (vsub m n) * vnorm2 (vadd m n) = 4 * vnorm2 (vcross m n).
  Proof.
    pose proof (vunit_norm2 v0 N0) as U. pose proof (vunit_norm2 v1 N1) as V. fold m in U. fold n in V.
    replace (vnorm2 (vsub m n)) with (vnorm2 m + vnorm2 n - 2 * vdot m n) by (destruct m, n; vring).
    replace (vnorm2 (vadd m n)) with (vnorm2 m + vnorm2 n + 2 * vdot m n) by (destruct m, n; vring).
    pose proof (lagrange_identity m n) as L. rewrite U, V in *. lra.
  Qed.
  Lemma rot_ok tol : 0 < tol <= / 2 ^ 60 -> exists M, frotation_matrix nrm dot v0 v1 tol = Ok M /\ is_rotation M /\
    vnorm (vsub (mvec M m) n) * vnorm (vadd m n) <= 800 * u.
  Proof.
    intros T. pose proof u_lt as U. pose proof (vunit_norm2 v0 N0) as Um. pose proof (vunit_norm2 v1 N1) as Un. fold m in Um. fold n in Un.
    assert (K : forall M, vnorm2 (vsub (mvec M m) n) * vnorm2 (vadd m n) <= 16 * (200 * u * (200 * u)) -> vnorm (vsub (mvec M m) n) * vnorm (vadd m n) <= 800 * u).
    { intros M H. apply Rsqr_incr_0_var; [|lra]. unfold Rsqr. replace (vnorm (vsub (mvec M m) n) * vnorm (vadd m n) * (vnorm (vsub (mvec M m) n) * vnorm (vadd m n)))
        with ((vnorm (vsub (mvec M m) n) * vnorm (vsub (mvec M m) n)) * (vnorm (vadd m n) * vnorm (vadd m n))) by ring. rewrite !vnorm_sqr. lra. }
    unfold frotation_matrix. fold a b. cbv zeta. unfold Rltb. destruct (Rlt_dec (nrm (fcross a b)) tol) as [L|L].
    - pose proof (small_axis tol T L) as SA. destruct (Rlt_dec (dot a b) 0) as [D|D].
      + set (ax := if Rlt_dec tol (nrm (fcross a (V3 0 0 1))) then fcross a (V3 0 0 1) else fcross a (V3 0 1 0)).
        replace (if if Rlt_dec tol (nrm (fcross a (V3 0 0 1))) then true else false then fcross a (V3 0 0 1) else fcross a (V3 0 1 0)) with ax by (unfold ax; destruct (Rlt_dec _ _); reflexivity).
        assert (P : 0 < vnorm2 ax).
        { unfold ax. destruct (Rlt_dec tol (nrm (fcross a (V3 0 0 1)))) as [H|H]; [apply nrm_pos; lra|]. apply (second_trial tol T). lra. }
        destruct (quat_matrix_spec ax (fl (1 + dot a b))) as (M & E & R & _); [nra|]. exists M. split; [exact E|]. split; [exact R|]. apply K.
        assert (E4 : vnorm2 (vsub (mvec M m) n) <= 4).
        { assert (V : vnorm (vsub (mvec M m) n) <= 2).
          { replace (vsub (mvec M m) n) with (vadd (mvec M m) (vopp n)) by (destruct (mvec M m), n; vring). eapply Rle_trans; [apply vnorm_triangle|].
            rewrite vnorm_opp, rotation_norm by exact R. unfold vnorm. rewrite Um, Un, sqrt_1. lra. }
          pose proof (vnorm_nonneg (vsub (mvec M m) n)). rewrite <- vnorm_sqr. nra. }
        assert (S4 : vnorm2 (vadd m n) <= 4 * (140 * u * (140 * u))).
        { replace (vnorm2 (vadd m n)) with (vnorm2 m + vnorm2 n + 2 * vdot m n) by (destruct m, n; vring). pose proof (lagrange_identity m n) as LG. rewrite Um, Un in *.
          pose proof dot_err as DE. apply Rabs_le_inv in DE. set (c := vdot m n) in *. assert (c <= 130 * u) by lra. nra. }
        pose proof (vnorm2_nonneg (vadd m n)). pose proof (vnorm2_nonneg (vsub (mvec M m) n)). nra.
      + exists Vec3.mid. split; [reflexivity|]. split; [repeat split; try (apply mat3_eq); vunf; f_equal; try ring|].
        apply K. replace (mvec Vec3.mid m) with m by (destruct m; vring). rewrite unit_sum_diff. nra.
    - assert (P : 0 < vnorm2 (fcross a b)) by (apply nrm_pos; lra).
      destruct (quat_matrix_spec (fcross a b) (fl (1 + dot a b))) as (M & E & _ & _); [nra|]. exists M. split; [exact E|].
      destruct (quat_err _ _ m n _ M Um Un E ltac:(nra) quat_d2) as [R B]. split; [exact R|]. apply K, B.
  Qed.
End Rot.

(** literals *)
Lemma fl_lit (i k : Z) x : (2 ^ 52 < i < 2 ^ 53)%Z -> (0 <= k)%Z -> IZR i - / 2 < x * IZR (2 ^ k) < IZR i + / 2 -> fl x = IZR i / IZR (2 ^ k).
Proof.
  intros I K H. assert (KP : 0 < IZR (2 ^ k)) by (apply IZR_lt, Z.pow_pos_nonneg; lia).
  assert (B : bpow radix2 (- k) = / IZR (2 ^ k)). { rewrite bpow_opp. f_equal. rewrite <- IZR_Zpower by exact K. reflexivity. }
  assert (I1 : IZR (2 ^ 52) + 1 <= IZR i) by (rewrite <- plus_IZR; apply IZR_le; lia). assert (I2 : IZR i <= IZR (2 ^ 53) - 1) by (rewrite <- minus_IZR; apply IZR_le; lia).
  assert (E : x = x * IZR (2 ^ k) * bpow radix2 (- k)) by (rewrite B; field; lra).
  assert (MG : mag radix2 x = (53 - k)%Z :> Z).
  { apply mag_unique. replace (53 - k - 1)%Z with (52 + - k)%Z by lia. replace (53 - k)%Z with (53 + - k)%Z by lia. rewrite !bpow_plus.
    assert (XP : 0 < x * IZR (2 ^ k)) by lra. assert (0 < bpow radix2 (- k)) by apply bpow_gt_0. rewrite Rabs_pos_eq by (rewrite E; apply Rlt_le, Rmult_lt_0_compat; assumption).
    rewrite E. change (bpow radix2 52) with (IZR (2 ^ 52)). change (bpow radix2 53) with (IZR (2 ^ 53)). split; [apply Rmult_le_compat_r; lra|apply Rmult_lt_compat_r; lra]. }
  unfold fl, round, F2R, scaled_mantissa, cexp, fexp53, FLX_exp. cbn [Fnum Fexp]. rewrite MG. replace (53 - k - 53)%Z with (- k)%Z by lia. rewrite Z.opp_involutive.
  replace (bpow radix2 k) with (IZR (2 ^ k)) by (rewrite <- IZR_Zpower by exact K; reflexivity).
  rewrite (Znearest_imp _ _ i); [rewrite B; reflexivity|]. apply Rabs_lt. lra.
Qed.
