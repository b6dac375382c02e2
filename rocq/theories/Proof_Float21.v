(** Rotations to a coordinate axis in floating point (C143). *)
From Coq Require Import ZArith Reals Lra Lia Psatz.
From Flocq Require Import Core.
From Verif Require Import Vec3 Numpy Model_Spatial Model_Float Model_Float9 Spec_Float Spec_Float7
  Proof_Spatial Proof_Float Proof_Float2 Proof_Float3 Proof_Float9 Proof_Float13 Proof_Float14 Proof_Float18 Proof_Float19.
Open Scope R_scope.

Lemma vnorm_le a k : 0 <= k -> vnorm2 a <= k * k -> vnorm a <= k.
Proof. intros K H. unfold vnorm. rewrite <- (sqrt_square k K). apply sqrt_le_1_alt, H. Qed.
Lemma norm2_le a k : vnorm a <= k -> vnorm2 a <= k * k.
Proof. intros H. rewrite <- vnorm_sqr. pose proof (vnorm_nonneg a). nra. Qed.
Lemma cross_le a b : vnorm2 (vcross a b) <= vnorm2 a * vnorm2 b.
Proof. pose proof (lagrange_identity a b). nra. Qed.
Lemma dot_le2 a b : vdot a b * vdot a b <= vnorm2 a * vnorm2 b.
Proof. pose proof (lagrange_identity a b). pose proof (vnorm2_nonneg (vcross a b)). lra. Qed.
Lemma sum_le a b : vnorm2 (vadd a b) <= 2 * vnorm2 a + 2 * vnorm2 b.
Proof. destruct a as [a1 a2 a3], b as [b1 b2 b3]. vunf. pose proof (Rle_0_sqr (a1 - b1)). pose proof (Rle_0_sqr (a2 - b2)). pose proof (Rle_0_sqr (a3 - b3)). unfold Rsqr in *. lra. Qed.

Lemma sum_le2 a b : vnorm2 (vadd a b) <= 3 / 2 * vnorm2 a + 3 * vnorm2 b.
Proof. destruct a as [a1 a2 a3], b as [b1 b2 b3]. vunf. pose proof (Rle_0_sqr (a1 - 2 * b1)). pose proof (Rle_0_sqr (a2 - 2 * b2)). pose proof (Rle_0_sqr (a3 - 2 * b3)). unfold Rsqr in *. lra. Qed.

(** a half turn about an axis perpendicular to [a] *)
Lemma half_turn a t m n M : vnorm2 m = 1 -> vnorm2 n = 1 -> quat_matrix (vcross a t) 0 = Ok M -> 0 < vnorm2 (vcross a t) ->
  is_rotation M /\ vnorm2 (vsub (mvec M m) n) <= 3 * vnorm2 (vadd m n) + 8 * vnorm2 (vadd n a).
Proof.
  intros U V E P. assert (P' : 0 < vnorm2 (vcross a t) + 0 * 0) by lra. destruct (quat_matrix_spec _ 0 P') as (M' & E' & R & F). rewrite E' in E. injection E as <-. split; [exact R|].
  pose proof (gap_rot _ 0 m n M' U V R F) as G. set (x := vcross a t) in *. set (e := vnorm2 (vsub (mvec M' m) n)) in *.
  assert (D : vdot x (vsub m n) = vdot x (vadd (vadd m n) (vscal (- 2) (vadd n a)))) by (unfold x; destruct a, t, m, n; vring).
  pose proof (dot_le2 x (vadd (vadd m n) (vscal (- 2) (vadd n a)))) as D2. rewrite <- D in D2.
  pose proof (sum_le (vadd m n) (vscal (- 2) (vadd n a))) as S.
  assert (K4 : vnorm2 (vscal (- 2) (vadd n a)) = 4 * vnorm2 (vadd n a)) by (destruct n, a; vring). rewrite K4 in S.
  assert (C : vnorm2 (vadd (vscal 0 (vsub m n)) (vcross x (vadd m n))) <= vnorm2 x * vnorm2 (vadd m n)).
  { replace (vadd (vscal 0 (vsub m n)) (vcross x (vadd m n))) with (vcross x (vadd m n)) by (destruct x, m, n; vring). apply cross_le. }
  unfold qgap in G. apply (Rmult_le_reg_r (vnorm2 x)); [exact P|]. replace (vnorm2 x + 0 * 0) with (vnorm2 x) in G by ring. rewrite G.
  assert (vnorm2 x * vnorm2 (vadd (vadd m n) (vscal (- 2) (vadd n a))) <= vnorm2 x * (2 * vnorm2 (vadd m n) + 2 * (4 * vnorm2 (vadd n a)))) by (apply Rmult_le_compat_l; lra). lra.
Qed.

Section Core.
  Variables a m n : vec3.
  Hypothesis Um : vnorm2 m = 1. Hypothesis Un : vnorm2 n = 1.
  Hypothesis NA : vnorm2 (vsub a m) <= (20 * u) * (20 * u).
  Let c := vdot m n.
  Let sm := vnorm2 (vcross m n).
  Hypothesis ANTI : sm <= / 2 ^ 56 -> c < 0 -> vdot a n = - (1).
  Let w := fl (1 + vdot a n).
  Lemma U : 0 < u < / 1000000. Proof. exact u_lt. Qed.
  Lemma an_c : Rabs (vdot a n - c) <= 20 * u.
  Proof.
    pose proof U. replace (vdot a n - c) with (vdot (vsub a m) n) by (unfold c; destruct a, m, n; vring). pose proof (dot_le2 (vsub a m) n) as D. rewrite Un, Rmult_1_r in D.
    apply Rsqr_incr_0_var; [|lra]. unfold Rsqr. rewrite <- Rabs_mult, Rabs_pos_eq; nra.
  Qed.
  Lemma sm_c : sm = 1 - c * c. Proof. pose proof (lagrange_identity m n) as L. rewrite Um, Un in L. unfold sm, c. lra. Qed.
  Lemma c_b : - (1) <= c <= 1. Proof. pose proof sm_c. pose proof (vnorm2_nonneg (vcross m n)). fold sm in H0. nra. Qed.
  Lemma mn2 : vnorm2 (vadd m n) = 2 + 2 * c.
  Proof. replace (vnorm2 (vadd m n)) with (vnorm2 m + vnorm2 n + 2 * vdot m n) by (destruct m, n; vring). rewrite Um, Un. unfold c. ring. Qed.
  Lemma dax : vnorm2 (vsub (vcross a n) (vcross m n)) <= (20 * u) * (20 * u).
  Proof. replace (vsub (vcross a n) (vcross m n)) with (vcross (vsub a m) n) by (destruct a, m, n; vring). eapply Rle_trans; [apply cross_le|]. rewrite Un. lra. Qed.
  Lemma dw : Rabs (w - (1 + c)) <= 25 * u.
  Proof.
    pose proof U. pose proof an_c as A. pose proof c_b as C. pose proof (fl_err (1 + vdot a n)) as F. fold w in F. apply Rabs_le_inv in A.
    assert (Rabs (1 + vdot a n) <= 21 / 10) by (apply Rabs_le; lra).
    assert (F' : Rabs (w - (1 + vdot a n)) <= 2 * u * (21 / 10)) by (eapply Rle_trans; [exact F|]; nra). apply Rabs_le_inv in F'. apply Rabs_le. lra.
  Qed.
  Lemma small_sum : sm <= / 2 ^ 55 -> c < 0 -> vnorm2 (vadd m n) <= 2 * sm + 0.
  Proof. intros S N. pose proof sm_c. pose proof c_b. rewrite mn2. nra. Qed.
  (** the regular branch *)
  Lemma regular M : quat_matrix (vcross a n) w = Ok M -> 0 < vnorm2 (vcross a n) -> is_rotation M /\ vnorm2 (vsub (mvec M m) n) <= / 2 ^ 18 * / 2 ^ 18.
  Proof.
    intros E P. pose proof U as UU. assert (Uv : u = / 2 ^ 53) by reflexivity.
    destruct (Rle_lt_dec sm (/ 2 ^ 56)) as [S|S]; [destruct (Rlt_le_dec c 0) as [N|N]|].
    - assert (W : w = 0). { unfold w. rewrite (ANTI S N). replace (1 + - (1)) with 0 by ring. apply fl0. }
      rewrite W in E. destruct (half_turn a n m n M Um Un E P) as [R B]. split; [exact R|]. eapply Rle_trans; [exact B|].
      assert (L : vnorm2 (vadd m n) <= 2 * sm + 0) by (apply small_sum; [lra|exact N]).
      assert (K : vnorm2 (vadd n a) <= 2 * vnorm2 (vadd m n) + 2 * (20 * u * (20 * u))).
      { replace (vadd n a) with (vadd (vadd m n) (vsub a m)) by (destruct a, m, n; vring). eapply Rle_trans; [apply sum_le|]. lra. }
      rewrite Uv in K. lra.
    - assert (P' : 0 < vnorm2 (vcross a n) + w * w) by nra. destruct (quat_matrix_spec _ w P') as (M' & E' & R & F). rewrite E' in E. injection E as <-. split; [exact R|].
      pose proof (gap_rot _ w m n M' Um Un R F) as G. rewrite gap_shift in G by assumption. fold c in G. pose proof (gap_le (vsub (vcross a n) (vcross m n)) (w - (1 + c)) m n Um Un) as L. rewrite <- G in L.
      pose proof dax as DA. pose proof dw as DW. apply Rabs_le_inv in DW. assert (W1 : 999 / 1000 <= w) by lra. pose proof (vnorm2_nonneg (vsub (mvec M' m) n)) as E0.
      set (e := vnorm2 (vsub (mvec M' m) n)) in *. assert (D2 : (w - (1 + c)) * (w - (1 + c)) <= 25 * u * (25 * u)) by nra.
      assert (e * (99 / 100) <= e * (vnorm2 (vcross a n) + w * w)) by (apply Rmult_le_compat_l; [exact E0|nra]).
      assert (e * (99 / 100) <= 4 * (1025 * (u * u))) by lra. rewrite Uv in *. lra.
    - assert (P' : 0 < vnorm2 (vcross a n) + w * w) by nra. destruct (quat_matrix_spec _ w P') as (M' & E' & R & F). rewrite E' in E. injection E as <-. split; [exact R|].
      pose proof (gap_rot _ w m n M' Um Un R F) as G. rewrite gap_shift in G by assumption. fold c in G. pose proof (gap_le (vsub (vcross a n) (vcross m n)) (w - (1 + c)) m n Um Un) as L. rewrite <- G in L.
      pose proof dax as DA. pose proof dw as DW. apply Rabs_le_inv in DW. pose proof (vnorm2_nonneg (vsub (mvec M' m) n)) as E0.
      set (e := vnorm2 (vsub (mvec M' m) n)) in *. assert (D2 : (w - (1 + c)) * (w - (1 + c)) <= 25 * u * (25 * u)) by nra.
      assert (S2 : sm <= 3 / 2 * vnorm2 (vcross a n) + 3 * (20 * u * (20 * u))).
      { unfold sm. replace (vcross m n) with (vadd (vcross a n) (vscal (- (1)) (vsub (vcross a n) (vcross m n)))) by (destruct (vcross a n), (vcross m n); vring). eapply Rle_trans; [apply sum_le2|].
        replace (vnorm2 (vscal (- (1)) (vsub (vcross a n) (vcross m n)))) with (vnorm2 (vsub (vcross a n) (vcross m n))) by (destruct (vcross a n), (vcross m n); vring). lra. }
      assert (A2 : / 2 ^ 57 <= vnorm2 (vcross a n)) by (rewrite Uv in *; lra).
      assert (e * / 2 ^ 57 <= e * (vnorm2 (vcross a n) + w * w)) by (apply Rmult_le_compat_l; [exact E0|nra]).
      assert (e * / 2 ^ 57 <= 4 * (1025 * (u * u))) by lra. rewrite Uv in *. lra.
  Qed.
  (** the branch for opposite normals *)
  Lemma opposite t M : sm <= / 2 ^ 56 -> c < 0 -> quat_matrix (vcross a t) w = Ok M -> 0 < vnorm2 (vcross a t) -> is_rotation M /\ vnorm2 (vsub (mvec M m) n) <= / 2 ^ 18 * / 2 ^ 18.
  Proof.
    intros S N E P. assert (Uv : u = / 2 ^ 53) by reflexivity. assert (W : w = 0). { unfold w. rewrite (ANTI S N). replace (1 + - (1)) with 0 by ring. apply fl0. }
    rewrite W in E. destruct (half_turn a t m n M Um Un E P) as [R B]. split; [exact R|]. eapply Rle_trans; [exact B|].
    assert (L : vnorm2 (vadd m n) <= 2 * sm + 0) by (apply small_sum; [lra|exact N]).
    assert (K : vnorm2 (vadd n a) <= 2 * vnorm2 (vadd m n) + 2 * (20 * u * (20 * u))).
    { replace (vadd n a) with (vadd (vadd m n) (vsub a m)) by (destruct a, m, n; vring). eapply Rle_trans; [apply sum_le|]. lra. }
    rewrite Uv in K. lra.
  Qed.
  (** parallel normals *)
  Lemma parallel : sm <= / 2 ^ 56 -> 0 <= c -> vnorm2 (vsub m n) <= / 2 ^ 18 * / 2 ^ 18.
  Proof.
    intros S N. pose proof sm_c. pose proof c_b. replace (vnorm2 (vsub m n)) with (vnorm2 m + vnorm2 n - 2 * vdot m n) by (destruct m, n; vring). rewrite Um, Un. fold c. 
    assert (1 - c <= sm) by nra. lra.
  Qed.
End Core.
(** a small summand vanishes *)
Lemma absorb y s : float y -> 0 < y -> 0 <= s <= 3 / 4 * (y / 2 ^ 54) -> fl (y + s) = y.
Proof.
  intros F P S. destruct (binade y P) as (e & Y). pose proof (float_top e y F Y) as T. pose proof (bpow_gt_0 radix2 e) as B.
  rewrite bpow_plus in T, Y. change (bpow radix2 1) with 2 in T, Y. assert (Uv : u = / 2 ^ 53) by reflexivity.
  assert (H : bpow radix2 (e - 53) = bpow radix2 e / 2 ^ 53) by (unfold Z.sub; rewrite bpow_plus; unfold Rdiv; f_equal; change (bpow radix2 (- (53))) with (/ 9007199254740992); f_equal; ring).
  assert (L : s <= 3 / 4 * (bpow radix2 e / 2 ^ 53)) by lra.
  apply (fl_close e y); rewrite ?bpow_plus; change (bpow radix2 1) with 2; [exact F|exact Y|rewrite Uv in T; lra|].
  rewrite H. replace (y + s - y) with s by ring. rewrite Rabs_pos_eq; lra.
Qed.
Lemma sq_fl x : 0 <= fl (x * x) <= (1 + 2 * u) * (x ^ 2).
Proof. split; [apply fl_nonneg, sqr_nonneg|]. pose proof (fl_err (x * x)) as E. rewrite (Rabs_pos_eq (x * x)) in E by nra. apply Rabs_le_inv in E. lra. Qed.
Lemma sq_fl' x : (1 - 2 * u) * (x ^ 2) <= fl (x * x).
Proof. pose proof (fl_err (x * x)) as E. rewrite (Rabs_pos_eq (x * x)) in E by nra. apply Rabs_le_inv in E. lra. Qed.
Lemma fnorm_absorbs : absorbs fnorm.
Proof.
  intros x y z Fx Fy Fz. pose proof (sq_fl x) as X. pose proof (sq_fl y) as Y. pose proof (sq_fl z) as Z. pose proof u_lt as Ul. assert (Uv : u < / 1000) by lra. split; intro H.
  - unfold fnorm. cbn [vx vy vz]. rewrite <- (sqrt_square_abs z Fz). f_equal. f_equal. destruct (Req_dec z 0) as [->|N].
    + assert (x ^ 2 = 0) by nra. assert (y ^ 2 = 0) by nra. replace (x * x) with 0 by nra. replace (y * y) with 0 by nra. rewrite ?Rmult_0_l, ?fl0, ?Rplus_0_r, ?fl0, ?Rplus_0_r, ?fl0. reflexivity.
    + pose proof (sq_fl' z) as Z'. assert (Z0 : 0 < z ^ 2) by nra. rewrite Rplus_comm. apply absorb; [apply fl_float|nra|].
      pose proof (fl_err (fl (x * x) + fl (y * y))) as E. rewrite (Rabs_pos_eq (fl (x * x) + fl (y * y))) in E by lra. apply Rabs_le_inv in E. split; [apply fl_nonneg; lra|].
      assert (fl (x * x) + fl (y * y) <= (1 + 2 * u) * (z ^ 2 / 2 ^ 55)) by nra. assert (0 < z ^ 2 / 2 ^ 55) by lra. nra.
  - unfold fnorm. cbn [vx vy vz]. rewrite <- (sqrt_square_abs x Fx). f_equal. f_equal. destruct (Req_dec x 0) as [->|N].
    + assert (z ^ 2 = 0) by nra. assert (y ^ 2 = 0) by nra. replace (z * z) with 0 by nra. replace (y * y) with 0 by nra. rewrite ?Rmult_0_l, ?fl0, ?Rplus_0_r, ?fl0, ?Rplus_0_r, ?fl0. reflexivity.
    + pose proof (sq_fl' x) as X'. assert (X0 : 0 < x ^ 2) by nra. assert (0 < x ^ 2 / 2 ^ 55) by lra.
      assert (A : forall s, fl (s * s) <= (1 + 2 * u) * s ^ 2 -> 0 <= fl (s * s) -> s ^ 2 <= x ^ 2 / 2 ^ 55 -> fl (fl (x * x) + fl (s * s)) = fl (x * x)).
      { intros s S1 S2 S3. apply absorb; [apply fl_float|nra|]. split; [exact S2|]. nra. }
      rewrite (A y), (A z); try lra; nra.
Qed.
(** the dot product, summed from the left *)
Lemma left_dot_exact : exact_on_axes (fun a b => fl (fl (fl (vx a * vx b) + fl (vy a * vy b)) + fl (vz a * vz b))).
Proof.
  intros a X Z. cbn [vx vy vz]. rewrite !Rmult_0_r, !Rmult_1_r, !fl0, !Rplus_0_r, ?Rplus_0_l, ?fl0, ?Rplus_0_l, (fl_id _ X), (fl_id _ Z), ?(fl_id _ X), ?(fl_id _ Z). split; reflexivity.
Qed.

Section Axis.
  Variables (nrm : vec3 -> R) (dot : vec3 -> vec3 -> R).
  Hypothesis GN : good_norm nrm. Hypothesis AB : absorbs nrm. Hypothesis EX : exact_on_axes dot.
  Variable v0 : vec3. Hypothesis N0 : v0 <> vzero.
  Hypothesis F0 : float (vx v0) /\ float (vy v0) /\ float (vz v0).
  Let m := vunit v0. Let a := fnormalised nrm v0.
  Lemma na : vnorm2 (vsub a m) <= (20 * u) * (20 * u).
  Proof.
    destruct (unit_ae nrm GN v0 N0) as ([A1 _] & [A2 _] & [A3 _]). fold a m in A1, A2, A3. rewrite Rmult_1_r in A1, A2, A3. pose proof u_lt.
    assert (Q : forall t c, Rabs t <= c -> t * t <= c * c) by (intros t c T; apply Rabs_le_inv in T; nra). apply Q in A1, A2, A3. unfold vnorm2, vsub. cbn [vx vy vz]. nra.
  Qed.
  Lemma assemble n tol : n <> vzero -> vunit n = n -> fnormalised nrm n = n -> fcross a n = vcross a n -> dot a n = vdot a n ->
    (vnorm2 (vcross m n) <= / 2 ^ 56 -> vdot m n < 0 -> vdot a n = - (1)) -> 0 < tol <= / 2 ^ 60 ->
    exists M, frotation_matrix nrm dot v0 n tol = Ok M /\ is_rotation M /\ vnorm (vsub (mvec M m) n) <= / 2 ^ 18.
  Proof.
    intros Nn Vn Bn Cn Dn ANTI T. pose proof u_lt as Ul. pose proof (vunit_norm2 v0 N0) as Um. fold m in Um. pose proof (vunit_norm2 n Nn) as Un. rewrite Vn in Un.
    assert (K : forall M, is_rotation M /\ vnorm2 (vsub (mvec M m) n) <= / 2 ^ 18 * / 2 ^ 18 -> is_rotation M /\ vnorm (vsub (mvec M m) n) <= / 2 ^ 18) by (intros M [R H]; split; [exact R|]; apply vnorm_le; [lra|exact H]).
    assert (AC : Rabs (vdot a n - vdot m n) <= 20 * u) by (eapply an_c; try eassumption; apply na). apply Rabs_le_inv in AC. pose proof (sm_c m n Um Un) as SC. pose proof (c_b m n Um Un) as CB.
    unfold frotation_matrix. fold a. rewrite Bn, Cn, Dn. cbv zeta. unfold Rltb. destruct (Rlt_dec (nrm (vcross a n)) tol) as [L|L].
    - assert (SA : vnorm2 (vcross m n) <= / 2 ^ 56).
      { pose proof (small_axis nrm GN v0 n N0 Nn tol T) as SA. fold a m in SA. rewrite Bn, Cn, Vn in SA. specialize (SA L). assert (Uv : u = / 2 ^ 53) by reflexivity. rewrite Uv in SA. lra. }
      destruct (Rlt_dec (vdot a n) 0) as [D|D].
      + assert (C0 : vdot m n < 0) by nra.
        set (ax := if Rlt_dec tol (nrm (fcross a (V3 0 0 1))) then fcross a (V3 0 0 1) else fcross a (V3 0 1 0)).
        replace (if if Rlt_dec tol (nrm (fcross a (V3 0 0 1))) then true else false then fcross a (V3 0 0 1) else fcross a (V3 0 1 0)) with ax by (unfold ax; destruct (Rlt_dec _ _); reflexivity).
        assert (P : 0 < vnorm2 ax).
        { unfold ax. destruct (Rlt_dec tol (nrm (fcross a (V3 0 0 1)))) as [H|H]; [apply (nrm_pos nrm GN); lra|]. apply (second_trial nrm GN v0 N0 tol T). fold a. lra. }
        assert (X : exists t, ax = vcross a t).
        { unfold ax. destruct (Rlt_dec _ _); [exists (V3 0 0 1); unfold a; rewrite trial_z|exists (V3 0 1 0); unfold a; rewrite trial_y]; unfold vcross; cbn [vx vy vz]; f_equal; ring. }
        destruct X as [t X]. rewrite X in *. destruct (quat_matrix_spec (vcross a t) (fl (1 + vdot a n))) as (M & E & _ & _); [nra|]. exists M. split; [exact E|]. apply K.
        eapply opposite; try eassumption; apply na.
      + exists Vec3.mid. split; [reflexivity|]. apply K. split; [repeat split; try (apply mat3_eq); vunf; f_equal; try ring|].
        replace (mvec Vec3.mid m) with m by (destruct m; vring). assert (CP : 0 <= vdot m n); [|eapply (parallel a m n); try eassumption; apply na].
        destruct (Rlt_le_dec (vdot m n) 0) as [C|C]; [|exact C]. specialize (ANTI SA C). lra.
    - assert (P : 0 < vnorm2 (vcross a n)) by (apply (nrm_pos nrm GN); lra).
      destruct (quat_matrix_spec (vcross a n) (fl (1 + vdot a n))) as (M & E & _ & _); [nra|]. exists M. split; [exact E|]. apply K. eapply regular; try eassumption; apply na.
  Qed.
  Lemma nrm_z : nrm (V3 0 0 1) = 1.
  Proof. destruct (AB 0 0 1 float_0 float_0 (float_bpow 0)) as [H _]. rewrite H, Rabs_R1; lra. Qed.
  Lemma nrm_x : nrm (V3 1 0 0) = 1.
  Proof. destruct (AB 1 0 0 (float_bpow 0) float_0 float_0) as [_ H]. rewrite H, Rabs_R1; lra. Qed.
  Lemma fl1 : fl 1 = 1. Proof. apply fl_id, (float_bpow 0). Qed.
  Lemma minus_one t : t < 0 -> fl (t / Rabs t) = - (1).
  Proof. intros N. rewrite Rabs_left by exact N. replace (t / - t) with (- (1)) by (field; lra). rewrite fl_opp, fl1. reflexivity. Qed.
  Lemma to_z tol : 0 < tol <= / 2 ^ 60 -> exists M, frotation_matrix nrm dot v0 (V3 0 0 1) tol = Ok M /\ is_rotation M /\ vnorm (vsub (mvec M m) (V3 0 0 1)) <= / 2 ^ 18.
  Proof.
    assert (E1 : vnorm (V3 0 0 1) = 1) by (unfold vnorm, vnorm2; cbn [vx vy vz]; replace (0 * 0 + 0 * 0 + 1 * 1) with 1 by ring; apply sqrt_1).
    apply assemble.
    - intro Z; apply (f_equal vz) in Z; cbn in Z; lra.
    - unfold vunit. rewrite E1. cbn [vx vy vz]. f_equal; field.
    - unfold fnormalised. rewrite nrm_z. cbn [vx vy vz]. unfold Rdiv. rewrite Rinv_1, !Rmult_1_r, fl0, fl1. reflexivity.
    - unfold a. rewrite trial_z. unfold vcross; cbn [vx vy vz]; f_equal; ring.
    - destruct (EX a) as [H _]; [apply fl_float|apply fl_float|]. rewrite H. unfold vdot. cbn [vx vy vz]. ring.
    - pose proof (vnorm_pos v0 N0) as P. pose proof (vnorm_sqr v0) as Q. intros S C. unfold vdot in *. cbn [vx vy vz] in *.
      assert (Z : vz v0 < 0). { unfold m, vunit in C. cbn [vx vy vz] in C. destruct (Rlt_le_dec (vz v0) 0) as [Z|Z]; [exact Z|]. assert (0 <= vz v0 / vnorm v0) by (apply Rmult_le_pos; [exact Z|left; apply Rinv_0_lt_compat, P]). lra. }
      assert (H : nrm v0 = Rabs (vz v0)).
      { destruct v0 as [x y z]. cbn [vx vy vz] in *. destruct F0 as (Fx & Fy & Fz). apply AB; [assumption..|].
        assert (S' : (x ^ 2 + y ^ 2) / vnorm2 (V3 x y z) <= / 2 ^ 56).
        { eapply Rle_trans; [|exact S]. right. rewrite <- Q. unfold m, vunit, vcross, vnorm2. cbn [vx vy vz]. set (r := vnorm (V3 x y z)) in *. field. lra. }
        assert (V2 : 0 < vnorm2 (V3 x y z)) by nra. apply (Rmult_le_compat_r (vnorm2 (V3 x y z))) in S'; [|lra]. unfold Rdiv in S'. rewrite Rmult_assoc, Rinv_l, Rmult_1_r in S' by lra.
        unfold vnorm2 in S'. cbn [vx vy vz] in S'. pose proof (pow2_ge_0 x). pose proof (pow2_ge_0 z). lra. }
      unfold a, fnormalised. cbn [vx vy vz]. rewrite H, minus_one by exact Z. ring.
  Qed.
  Lemma to_x tol : 0 < tol <= / 2 ^ 60 -> exists M, frotation_matrix nrm dot v0 (V3 1 0 0) tol = Ok M /\ is_rotation M /\ vnorm (vsub (mvec M m) (V3 1 0 0)) <= / 2 ^ 18.
  Proof.
    assert (E1 : vnorm (V3 1 0 0) = 1) by (unfold vnorm, vnorm2; cbn [vx vy vz]; replace (1 * 1 + 0 * 0 + 0 * 0) with 1 by ring; apply sqrt_1).
    apply assemble.
    - intro Z; apply (f_equal vx) in Z; cbn in Z; lra.
    - unfold vunit. rewrite E1. cbn [vx vy vz]. f_equal; field.
    - unfold fnormalised. rewrite nrm_x. cbn [vx vy vz]. unfold Rdiv. rewrite Rinv_1, !Rmult_1_r, fl0, fl1. reflexivity.
    - unfold fcross, vcross. cbn [vx vy vz]. rewrite !Rmult_1_r, !Rmult_0_r, !fl0. unfold a, fnormalised. cbn [vx vy vz]. rewrite !flfl, !Rminus_0_r, !Rminus_0_l, fl_opp, !flfl, fl0. reflexivity.
    - destruct (EX a) as [_ H]; [apply fl_float|apply fl_float|]. rewrite H. unfold vdot. cbn [vx vy vz]. ring.
    - pose proof (vnorm_pos v0 N0) as P. pose proof (vnorm_sqr v0) as Q. intros S C. unfold vdot in *. cbn [vx vy vz] in *.
      assert (Z : vx v0 < 0). { unfold m, vunit in C. cbn [vx vy vz] in C. destruct (Rlt_le_dec (vx v0) 0) as [Z|Z]; [exact Z|]. assert (0 <= vx v0 / vnorm v0) by (apply Rmult_le_pos; [exact Z|left; apply Rinv_0_lt_compat, P]). lra. }
      assert (H : nrm v0 = Rabs (vx v0)).
      { destruct v0 as [x y z]. cbn [vx vy vz] in *. destruct F0 as (Fx & Fy & Fz). apply AB; [assumption..|].
        assert (S' : (y ^ 2 + z ^ 2) / vnorm2 (V3 x y z) <= / 2 ^ 56).
        { eapply Rle_trans; [|exact S]. right. rewrite <- Q. unfold m, vunit, vcross, vnorm2. cbn [vx vy vz]. set (r := vnorm (V3 x y z)) in *. field. lra. }
        assert (V2 : 0 < vnorm2 (V3 x y z)) by nra. apply (Rmult_le_compat_r (vnorm2 (V3 x y z))) in S'; [|lra]. unfold Rdiv in S'. rewrite Rmult_assoc, Rinv_l, Rmult_1_r in S' by lra.
        unfold vnorm2 in S'. cbn [vx vy vz] in S'. pose proof (pow2_ge_0 x). pose proof (pow2_ge_0 z). lra. }
      unfold a, fnormalised. cbn [vx vy vz]. rewrite H, minus_one by exact Z. ring.
  Qed.
End Axis.
