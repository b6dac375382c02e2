(** Proofs about geoana/spatial.py. *)
From Coq Require Import Reals Lra Lia List Bool Arith.
From Verif Require Import Vec3 Numpy Model_Spatial.
Import ListNotations.
Open Scope R_scope.

(** ** arctan2 *)
Lemma cos_atan_form t : cos (atan t) = / sqrt (1 + t * t).
Proof. rewrite cos_atan. unfold Rdiv. rewrite Rmult_1_l. reflexivity. Qed.
Lemma sin_atan_form t : sin (atan t) = t / sqrt (1 + t * t).
Proof. rewrite sin_atan. reflexivity. Qed.

Lemma sqrt_scale x t : 0 < x -> sqrt (x ^ 2 + (t * x) ^ 2) = x * sqrt (1 + t * t).
Proof.
  intro H. replace (x ^ 2 + (t * x) ^ 2) with ((x * x) * (1 + t * t)) by ring.
  rewrite sqrt_mult by nra. rewrite sqrt_square by lra. reflexivity.
Qed.

Lemma sqrt1_pos t : 0 < sqrt (1 + t * t).
Proof. apply sqrt_lt_R0; nra. Qed.

Lemma cos_shift_pi a : cos (a + PI) = - cos a /\ sin (a + PI) = - sin a.
Proof. split; [apply neg_cos | apply neg_sin]. Qed.
Lemma cos_shift_mpi a : cos (a - PI) = - cos a /\ sin (a - PI) = - sin a.
Proof.
  split.
  - rewrite cos_minus, cos_PI, sin_PI; ring.
  - rewrite sin_minus, cos_PI, sin_PI; ring.
Qed.

Lemma atan2_polar x y :
  sqrt (x ^ 2 + y ^ 2) * cos (atan2 y x) = x /\ sqrt (x ^ 2 + y ^ 2) * sin (atan2 y x) = y.
Proof.
  unfold atan2. destruct (Rlt_dec 0 x) as [P|P].
  - assert (E : y = (y / x) * x) by (field; lra).
    set (t := y / x) in *. clearbody t. subst y. rewrite sqrt_scale by lra.
    rewrite cos_atan_form, sin_atan_form. pose proof (sqrt1_pos t). split; field; lra.
  - destruct (Rlt_dec x 0) as [N|N].
    + assert (E : sqrt (x ^ 2 + y ^ 2) = (- x) * sqrt (1 + (y / x) * (y / x))).
      { rewrite <- sqrt_scale by lra. f_equal. field. lra. }
      rewrite E. pose proof (sqrt1_pos (y / x)) as S.
      destruct (Rle_dec 0 y).
      * destruct (cos_shift_pi (atan (y / x))) as [A B]. rewrite A, B, cos_atan_form, sin_atan_form. split; field; lra.
      * destruct (cos_shift_mpi (atan (y / x))) as [A B]. rewrite A, B, cos_atan_form, sin_atan_form. split; field; lra.
    + assert (x = 0) by lra. subst x.
      replace (0 ^ 2 + y ^ 2) with (y ^ 2) by ring.
      destruct (Rlt_dec 0 y).
      * rewrite sqrt_pow2 by lra. rewrite cos_PI2, sin_PI2. split; ring.
      * destruct (Rlt_dec y 0).
        -- replace (y ^ 2) with ((- y) ^ 2) by ring. rewrite sqrt_pow2 by lra. rewrite cos_neg, sin_neg, cos_PI2, sin_PI2. split; ring.
        -- assert (y = 0) by lra. subst. replace (0 ^ 2) with 0 by ring. rewrite sqrt_0. split; ring.
Qed.

Lemma atan2_range x y : - PI < atan2 y x <= PI.
Proof.
  pose proof PI_RGT_0. pose proof (atan_bound (y / x)) as [A B]. unfold atan2.
  destruct (Rlt_dec 0 x); [lra|]. destruct (Rlt_dec x 0) as [N|N].
  - destruct (Rle_dec 0 y) as [Y|Y].
    + assert (atan (y / x) <= 0).
      { rewrite <- atan_0. destruct (Req_dec y 0) as [->|Z]; [unfold Rdiv; rewrite Rmult_0_l; lra|].
        left. apply atan_increasing. unfold Rdiv. assert (/ x < 0) by (apply Rinv_lt_0_compat; exact N). nra. }
      lra.
    + assert (0 < atan (y / x)).
      { rewrite <- atan_0. apply atan_increasing. unfold Rdiv. assert (/ x < 0) by (apply Rinv_lt_0_compat; exact N). nra. }
      lra.
  - destruct (Rlt_dec 0 y); [lra|]. destruct (Rlt_dec y 0); lra.
Qed.

Lemma cos_one_small d : -2 * PI < d < 2 * PI -> cos d = 1 -> d = 0.
Proof.
  intros [A B] H. replace d with (2 * (d / 2)) in H by field. rewrite cos_2a_sin in H.
  assert (S : sin (d / 2) = 0) by nra.
  destruct (Rtotal_order d 0) as [L|[L|L]]; [|exact L|].
  - exfalso. assert (0 < sin (- (d / 2))) by (apply sin_gt_0; lra). rewrite sin_neg in *. lra.
  - exfalso. assert (0 < sin (d / 2)) by (apply sin_gt_0; lra). lra.
Qed.

Lemma angle_unique a b : - PI < a <= PI -> - PI < b <= PI -> cos a = cos b -> sin a = sin b -> a = b.
Proof.
  intros A B C S. assert (a - b = 0); [|lra]. apply cos_one_small; [lra|].
  rewrite cos_minus, C, S. pose proof (sin2_cos2 b) as Q. unfold Rsqr in Q. lra.
Qed.

Lemma polar_norm r phi : 0 <= r -> sqrt ((r * cos phi) ^ 2 + (r * sin phi) ^ 2) = r.
Proof.
  intro H. replace ((r * cos phi) ^ 2 + (r * sin phi) ^ 2) with (r * r).
  - apply sqrt_square; exact H.
  - pose proof (sin2_cos2 phi) as Q. unfold Rsqr in Q.
    replace ((r * cos phi) ^ 2 + (r * sin phi) ^ 2) with (r * r * (sin phi * sin phi + cos phi * cos phi)) by ring. rewrite Q; ring.
Qed.

Lemma atan2_unique r phi : 0 < r -> - PI < phi <= PI -> atan2 (r * sin phi) (r * cos phi) = phi.
Proof.
  intros H P. destruct (atan2_polar (r * cos phi) (r * sin phi)) as [A B].
  rewrite polar_norm in A, B by lra.
  apply angle_unique; [apply atan2_range|exact P| |].
  - apply Rmult_eq_reg_l with r; lra.
  - apply Rmult_eq_reg_l with r; lra.
Qed.

Lemma trig1 a : sin a * sin a + cos a * cos a = 1.
Proof. pose proof (sin2_cos2 a) as Q. exact Q. Qed.

(** ** cylindrical *)
Lemma cyl_round_trip_3 x y z : exists q, cartesian_to_cylindrical [x; y; z] = Ok q /\ cylindrical_to_cartesian q = Ok [x; y; z].
Proof.
  eexists; split; [reflexivity|]. cbn. destruct (atan2_polar x y) as [A B]. cbn in A, B. rewrite A, B. reflexivity.
Qed.
Lemma cyl_round_trip_2 x y : exists q, cartesian_to_cylindrical [x; y] = Ok q /\ cylindrical_to_cartesian q = Ok [x; y].
Proof.
  eexists; split; [reflexivity|]. cbn. destruct (atan2_polar x y) as [A B]. cbn in A, B. rewrite A, B. reflexivity.
Qed.
Lemma cyl_back_3 r phi z : 0 < r -> - PI < phi <= PI ->
  exists p, cylindrical_to_cartesian [r; phi; z] = Ok p /\ cartesian_to_cylindrical p = Ok [r; phi; z].
Proof.
  intros H P. eexists; split; [reflexivity|]. unfold cartesian_to_cylindrical. rewrite polar_norm by lra. rewrite atan2_unique by assumption. reflexivity.
Qed.
Lemma cyl_back_2 r phi : 0 < r -> - PI < phi <= PI ->
  exists p, cylindrical_to_cartesian [r; phi] = Ok p /\ cartesian_to_cylindrical p = Ok [r; phi].
Proof.
  intros H P. eexists; split; [reflexivity|]. unfold cartesian_to_cylindrical. rewrite polar_norm by lra. rewrite atan2_unique by assumption. reflexivity.
Qed.

Definition dotl (a b : list R) : R := fold_right Rplus 0 (map (fun p => fst p * snd p) (combine a b)).

Lemma cyl_vec_inverse x y z v0 v1 v2 :
  exists q u, cartesian_to_cylindrical [x; y; z] = Ok q /\ cartesian_to_cylindrical_vec [x; y; z] [v0; v1; v2] = Ok u /\
    cylindrical_to_cartesian_vec q u = Ok [v0; v1; v2].
Proof.
  eexists; eexists. split; [reflexivity|]. split; [reflexivity|]. cbn.
  set (t := atan2 y x). pose proof (trig1 t) as Q.
  f_equal. f_equal; [|f_equal].
  - transitivity (v0 * (sin t * sin t + cos t * cos t)); [ring|rewrite Q; ring].
  - transitivity (v1 * (sin t * sin t + cos t * cos t)); [ring|rewrite Q; ring].
Qed.

Lemma cyl_vec_inverse_back r phi z v0 v1 v2 : 0 < r -> - PI < phi <= PI ->
  exists p u, cylindrical_to_cartesian [r; phi; z] = Ok p /\ cylindrical_to_cartesian_vec [r; phi; z] [v0; v1; v2] = Ok u /\
    cartesian_to_cylindrical_vec p u = Ok [v0; v1; v2].
Proof.
  intros H P. eexists; eexists. split; [reflexivity|]. split; [reflexivity|].
  unfold cartesian_to_cylindrical_vec. rewrite atan2_unique by assumption. cbn.
  pose proof (trig1 phi) as Q. f_equal. f_equal; [|f_equal].
  - transitivity (v0 * (sin phi * sin phi + cos phi * cos phi)); [ring|rewrite Q; ring].
  - transitivity (v1 * (sin phi * sin phi + cos phi * cos phi)); [ring|rewrite Q; ring].
Qed.

Lemma cyl_vec_dot x y z a0 a1 a2 b0 b1 b2 :
  exists u v, cartesian_to_cylindrical_vec [x; y; z] [a0; a1; a2] = Ok u /\ cartesian_to_cylindrical_vec [x; y; z] [b0; b1; b2] = Ok v /\
    dotl u v = dotl [a0; a1; a2] [b0; b1; b2].
Proof.
  eexists; eexists. split; [reflexivity|]. split; [reflexivity|]. cbn.
  set (t := atan2 y x). pose proof (trig1 t) as Q.
  transitivity ((a0 * b0 + a1 * b1) * (sin t * sin t + cos t * cos t) + (a2 * b2 + 0)); [ring|rewrite Q; ring].
Qed.

Lemma cyl_vec_dot_back r phi z a0 a1 a2 b0 b1 b2 :
  exists u v, cylindrical_to_cartesian_vec [r; phi; z] [a0; a1; a2] = Ok u /\ cylindrical_to_cartesian_vec [r; phi; z] [b0; b1; b2] = Ok v /\
    dotl u v = dotl [a0; a1; a2] [b0; b1; b2].
Proof.
  eexists; eexists. split; [reflexivity|]. split; [reflexivity|]. cbn.
  pose proof (trig1 phi) as Q.
  transitivity ((a0 * b0 + a1 * b1) * (sin phi * sin phi + cos phi * cos phi) + (a2 * b2 + 0)); [ring|rewrite Q; ring].
Qed.

(** the radial unit vector becomes the direction (x, y, 0)/rho *)
Lemma cyl_radial_direction x y z : 0 < x ^ 2 + y ^ 2 ->
  exists q, cartesian_to_cylindrical [x; y; z] = Ok q /\
    cylindrical_to_cartesian_vec q [1; 0; 0] = Ok [x / sqrt (x ^ 2 + y ^ 2); y / sqrt (x ^ 2 + y ^ 2); 0] /\
    cylindrical_to_cartesian_vec q [0; 1; 0] = Ok [- (y / sqrt (x ^ 2 + y ^ 2)); x / sqrt (x ^ 2 + y ^ 2); 0].
Proof.
  intro H. eexists; split; [reflexivity|]. destruct (atan2_polar x y) as [A B].
  pose proof (sqrt_lt_R0 _ H) as S. cbn [cylindrical_to_cartesian_vec length Nat.eqb app].
  assert (C : cos (atan2 y x) = x / sqrt (x ^ 2 + y ^ 2)) by (rewrite <- A at 2; field; lra).
  assert (D : sin (atan2 y x) = y / sqrt (x ^ 2 + y ^ 2)) by (rewrite <- B at 2; field; lra).
  rewrite C, D. split; f_equal; (f_equal; [ring|f_equal; ring]).
Qed.

(** ** spherical positions *)
Lemma sqrt_pow_form x y : sqrt (x * x + y * y) = sqrt (x ^ 2 + y ^ 2).
Proof. f_equal; ring. Qed.

Lemma rho_norm x y z : sqrt (sqrt (x * x + y * y) ^ 2 + z ^ 2) = vnorm (V3 x y z).
Proof.
  unfold vnorm, vnorm2; cbn [vx vy vz]. f_equal.
  replace (sqrt (x * x + y * y) ^ 2) with (sqrt (x * x + y * y) * sqrt (x * x + y * y)) by ring. rewrite sqrt_sqrt by nra. ring.
Qed.

Lemma sph_round_trip p : spherical_to_cartesian (cartesian_to_spherical p) = p.
Proof.
  destruct p as [x y z]. unfold spherical_to_cartesian, cartesian_to_spherical; cbn [vx vy vz].
  set (rho := sqrt (x * x + y * y)).
  destruct (atan2_polar z rho) as [A B]. replace (z ^ 2 + rho ^ 2) with (rho ^ 2 + z ^ 2) in A, B by ring.
  unfold rho in A, B. rewrite rho_norm in A, B. fold rho in A, B.
  destruct (atan2_polar x y) as [C D]. rewrite <- sqrt_pow_form in C, D. fold rho in C, D.
  rewrite A, B, C, D. reflexivity.
Qed.

Lemma sph_back r phi theta : 0 < r -> - PI < phi <= PI -> 0 < theta < PI ->
  cartesian_to_spherical (spherical_to_cartesian (V3 r phi theta)) = V3 r phi theta.
Proof.
  intros H P [T1 T2]. unfold spherical_to_cartesian, cartesian_to_spherical; cbn [vx vy vz].
  assert (S : 0 < r * sin theta) by (apply Rmult_lt_0_compat; [exact H|apply sin_gt_0; assumption]).
  rewrite sqrt_pow_form, polar_norm by lra. rewrite !atan2_unique by (try assumption; lra).
  f_equal. apply vnorm_unique; [lra|]. unfold vnorm2; cbn [vx vy vz].
  pose proof (trig1 phi) as Q1. pose proof (trig1 theta) as Q2.
  transitivity (r * r * (sin theta * sin theta * (sin phi * sin phi + cos phi * cos phi) + cos theta * cos theta)); [rewrite Q1|ring].
  transitivity (r * r * (sin theta * sin theta + cos theta * cos theta)); [rewrite Q2|]; ring.
Qed.

Lemma atan2_nonneg_range y x : 0 <= y -> 0 <= atan2 y x <= PI.
Proof.
  intro H. destruct (atan2_range x y) as [A B]. split; [|exact B].
  destruct (atan2_polar x y) as [C D].
  destruct (Rle_dec 0 (atan2 y x)) as [L|L]; [exact L|exfalso].
  assert (S : 0 < sin (- atan2 y x)) by (apply sin_gt_0; lra). rewrite sin_neg in S.
  assert (Z : y = 0).
  { assert (0 <= sqrt (x ^ 2 + y ^ 2)) by apply sqrt_pos. nra. }
  assert (Z2 : 0 <= x \/ x < 0) by lra.
  subst y. unfold atan2 in L. destruct (Rlt_dec 0 x).
  - unfold Rdiv in L. rewrite Rmult_0_l, atan_0 in L. lra.
  - destruct (Rlt_dec x 0).
    + destruct (Rle_dec 0 0); [|lra]. unfold Rdiv in L. rewrite Rmult_0_l, atan_0 in L. pose proof PI_RGT_0; lra.
    + destruct (Rlt_dec 0 0); lra.
Qed.

Lemma sph_ranges p : let q := cartesian_to_spherical p in vx q = vnorm p /\ - PI < vy q <= PI /\ 0 <= vz q <= PI.
Proof.
  cbn. split; [reflexivity|]. split; [apply atan2_range|]. apply atan2_nonneg_range. apply sqrt_pos.
Qed.

(** ** spherical vectors: the textbook transforms *)
(** orthonormal frame of spherical coordinates at azimuth [phi], polar angle [theta] *)
Definition e_r (phi theta : R) : vec3 := V3 (sin theta * cos phi) (sin theta * sin phi) (cos theta).
Definition e_phi (phi theta : R) : vec3 := V3 (- sin phi) (cos phi) 0.
Definition e_theta (phi theta : R) : vec3 := V3 (cos theta * cos phi) (cos theta * sin phi) (- sin theta).

Lemma s2c_vec_correct_iff g vec :
  spherical_to_cartesian_vec g vec
  = vadd (vadd (vscal (vx vec) (e_r (vy g) (vz g))) (vscal (vy vec) (e_phi (vy g) (vz g)))) (vscal (vz vec) (e_theta (vy g) (vz g)))
  <-> vy vec = 0 \/ cos (vz g) = cos (vy g).
Proof.
  destruct g as [r phi theta], vec as [a b c]. unfold spherical_to_cartesian_vec, vadd, vscal, e_r, e_phi, e_theta; cbn [vx vy vz].
  split.
  - intro H. apply V3_inj in H. destruct H as [_ [H _]].
    assert (K : b * (cos theta - cos phi) = 0) by lra.
    apply Rmult_integral in K. destruct K; [left; assumption|right; lra].
  - intros H. assert (K : b * cos theta = b * cos phi) by (destruct H as [->| ->]; ring).
    veq; [ring| |ring]. rewrite K. ring.
Qed.

Lemma s2c_vec_refuted : exists g vec, vnorm vec = 1 /\ spherical_to_cartesian_vec g vec = vzero.
Proof.
  exists (V3 1 0 (PI / 2)), (V3 0 1 0). split.
  - apply vnorm_unique; [lra|]. unfold vnorm2; cbn; ring.
  - unfold spherical_to_cartesian_vec, vzero; cbn [vx vy vz]. rewrite sin_0, cos_PI2. veq; ring.
Qed.

Lemma c2s_vec_two_components g vec :
  let q := cartesian_to_spherical g in
  vx (cartesian_to_spherical_vec g vec) = vdot vec (e_r (vy q) (vz q)) /\
  vy (cartesian_to_spherical_vec g vec) = vdot vec (e_phi (vy q) (vz q)).
Proof. cbn. unfold vdot, e_r, e_phi; cbn [vx vy vz]. split; ring. Qed.

Lemma c2s_vec_equator g vec : vz g = 0 -> 0 < vx g * vx g + vy g * vy g ->
  let q := cartesian_to_spherical g in
  vz (cartesian_to_spherical_vec g vec) = vdot vec (e_theta (vy q) (vz q)).
Proof.
  intros Z H. cbn. rewrite Z.
  assert (C : cos (atan2 (sqrt (vx g * vx g + vy g * vy g)) 0) = 0).
  { unfold atan2. pose proof (sqrt_lt_R0 _ H). destruct (Rlt_dec 0 0); [lra|]. destruct (Rlt_dec 0 _); [|lra]. apply cos_PI2. }
  unfold vdot, e_theta; cbn [vx vy vz]. rewrite C. ring.
Qed.

Lemma c2s_at_101 : let q := cartesian_to_spherical (V3 1 0 1) in vy q = 0 /\ vz q = PI / 4.
Proof.
  cbn. unfold atan2. destruct (Rlt_dec 0 1); [|lra]. replace (0 / 1) with 0 by field. rewrite atan_0. split; [reflexivity|].
  replace (sqrt (1 * 1 + 0 * 0) / 1) with 1; [apply atan_1|]. replace (1 * 1 + 0 * 0) with 1 by ring. rewrite sqrt_1. field.
Qed.

Lemma c2s_vec_refuted : exists g vec, g <> vzero /\
  let q := cartesian_to_spherical g in
  vz (cartesian_to_spherical_vec g vec) <> vdot vec (e_theta (vy q) (vz q)) /\
  vnorm (cartesian_to_spherical_vec g vec) <> vnorm vec.
Proof.
  exists (V3 1 0 1), (V3 1 (PI / 2) 0). split; [intro E; injection E; intros; lra|].
  destruct c2s_at_101 as [A B]. cbv zeta in A, B. cbv zeta. rewrite A, B.
  assert (E : cartesian_to_spherical_vec (V3 1 0 1) (V3 1 (PI / 2) 0) = V3 (sin (PI / 4)) (PI / 2) (PI / 2 * cos (PI / 4))).
  { unfold cartesian_to_spherical_vec. cbn [vx vy vz].
    unfold cartesian_to_spherical in A, B; cbn [vx vy vz] in A, B. rewrite A, B, sin_0, cos_0.
    replace (-(1) * 0 + PI / 2 * 1) with (PI / 2) by ring. rewrite cos_PI2, sin_PI2. veq; ring. }
  rewrite E. unfold e_theta, vdot; cbn [vx vy vz]. rewrite sin_0, cos_0.
  assert (P : 3 < PI) by (pose proof PI2_3_2; lra).
  assert (C : 0 < cos (PI / 4)) by (apply cos_gt_0; pose proof PI_RGT_0; lra).
  assert (SC : sin (PI / 4) = cos (PI / 4)) by apply sin_cos_PI4.
  pose proof (trig1 (PI / 4)) as T. rewrite SC in T.
  split.
  - nra.
  - intro N. apply (f_equal (fun a => a * a)) in N. rewrite !vnorm_sqr in N. unfold vnorm2 in N; cbn [vx vy vz] in N. rewrite SC in N.
    assert (CC : cos (PI / 4) * cos (PI / 4) = / 2) by lra.
    assert (N' : / 2 + PI / 2 * (PI / 2) + (PI / 2) * (PI / 2) * (cos (PI / 4) * cos (PI / 4)) = 1 + PI / 2 * (PI / 2)) by (rewrite <- CC at 1; lra).
    rewrite CC in N'. nra.
Qed.

(** ** rotations *)
Definition qmat (x y z w : R) : mat3 :=
  M3 (V3 (x * x - y * y - z * z + w * w) (2 * (x * y - z * w)) (2 * (x * z + y * w)))
     (V3 (2 * (x * y + z * w)) (- x * x + y * y - z * z + w * w) (2 * (y * z - x * w)))
     (V3 (2 * (x * z - y * w)) (2 * (y * z + x * w)) (- x * x - y * y + z * z + w * w)).

Lemma qmat_rotation x y z w : x * x + y * y + z * z + w * w = 1 -> is_rotation (qmat x y z w).
Proof.
  intro H. assert (H2 : (x * x + y * y + z * z + w * w) * (x * x + y * y + z * z + w * w) = 1) by (rewrite H; ring).
  assert (H3 : (x * x + y * y + z * z + w * w) * (x * x + y * y + z * z + w * w) * (x * x + y * y + z * z + w * w) = 1) by (rewrite H2, H; ring).
  unfold is_rotation, qmat. split; [|split].
  - vunf. apply mat3_eq; cbn [m0 m1 m2]; apply vec3_eq; cbn [vx vy vz]; first [ring | rewrite <- H2; ring].
  - vunf. apply mat3_eq; cbn [m0 m1 m2]; apply vec3_eq; cbn [vx vy vz]; first [ring | rewrite <- H2; ring].
  - vunf. rewrite <- H3. ring.
Qed.

(** action of the quaternion matrix: [(w^2-|a|^2) v + 2 (a.v) a + 2 w a x v] over [|a|^2+w^2] *)
Lemma quat_matrix_spec a w : 0 < vnorm2 a + w * w ->
  exists M, quat_matrix a w = Ok M /\ is_rotation M /\
    forall v, vscal (vnorm2 a + w * w) (mvec M v)
              = vadd (vscal (w * w - vnorm2 a) v) (vadd (vscal (2 * vdot a v) a) (vscal (2 * w) (vcross a v))).
Proof.
  intro H. unfold quat_matrix. pose proof (sqrt_lt_R0 _ H) as S.
  pose proof (sqrt_sqrt (vnorm2 a + w * w) (Rlt_le _ _ H)) as Q.
  set (n := sqrt (vnorm2 a + w * w)) in *. destruct (Req_EM_T n 0) as [Z|_]; [lra|].
  cbv zeta. eexists; split; [reflexivity|].
  change (is_rotation (qmat (vx a / n) (vy a / n) (vz a / n) (w / n)) /\
   forall v, vscal (vnorm2 a + w * w) (mvec (qmat (vx a / n) (vy a / n) (vz a / n) (w / n)) v)
              = vadd (vscal (w * w - vnorm2 a) v) (vadd (vscal (2 * vdot a v) a) (vscal (2 * w) (vcross a v)))).
  split.
  - apply qmat_rotation. replace (_ + _) with ((vnorm2 a + w * w) / (n * n)) by (unfold vnorm2; field; lra).
    rewrite Q. field. lra.
  - intro v. rewrite <- Q. destruct a as [x y z], v as [u1 u2 u3]. unfold qmat. vunf. veq; field; lra.
Qed.

Lemma vunit_norm2 v : v <> vzero -> vnorm2 (vunit v) = 1.
Proof.
  intro H. pose proof (vnorm_pos v H) as P. pose proof (vnorm_sqr v) as Q.
  unfold vunit, vnorm2; cbn [vx vy vz].
  replace (_ + _) with (vnorm2 v / (vnorm v * vnorm v)) by (unfold vnorm2; field; lra).
  rewrite Q. field. pose proof (vnorm2_pos v H). lra.
Qed.

Lemma vunit_scal v : v <> vzero -> vunit v = vscal (/ vnorm v) v.
Proof. intro H. unfold vunit, vscal. veq; unfold Rdiv; ring. Qed.

Lemma vscal_cancel k u v : k <> 0 -> vscal k u = vscal k v -> u = v.
Proof.
  intros K E. destruct u, v. unfold vscal in E; cbn in E. apply V3_inj in E. destruct E as [A [B C]].
  f_equal; eapply Rmult_eq_reg_l; eassumption.
Qed.

Lemma rot_regular a b : vnorm2 a = 1 -> vnorm2 b = 1 -> 0 < vnorm (vcross a b) ->
  exists M, quat_matrix (vcross a b) (1 + vdot a b) = Ok M /\ is_rotation M /\ mvec M a = b.
Proof.
  intros A B H.
  pose proof (lagrange_identity a b) as L. rewrite A, B in L.
  pose proof (vnorm_sqr (vcross a b)) as N.
  set (c := vdot a b) in *.
  assert (P : 0 < vnorm2 (vcross a b)) by nra.
  assert (W : 0 < 1 + c) by nra.
  assert (S : vnorm2 (vcross a b) + (1 + c) * (1 + c) = 2 * (1 + c)) by lra.
  destruct (quat_matrix_spec (vcross a b) (1 + c)) as [M [E [R K]]]; [lra|].
  exists M. split; [exact E|]. split; [exact R|].
  specialize (K a). rewrite S in K.
  apply (vscal_cancel (2 * (1 + c))); [lra|]. rewrite K.
  assert (D : vdot (vcross a b) a = 0) by (destruct a, b; vring).
  assert (X : vcross (vcross a b) a = vsub b (vscal c a)).
  { transitivity (vsub (vscal (vnorm2 a) b) (vscal (vdot a b) a)); [destruct a, b; vring|].
    rewrite A. fold c. destruct a, b; vring. }
  rewrite D, X.
  replace ((1 + c) * (1 + c) - vnorm2 (vcross a b)) with (2 * c * (1 + c)) by lra.
  destruct a, b, (vcross _ _). vring.
Qed.

Lemma vnorm_sum_scaled u v s t : vdot u v = 0 -> vnorm2 (vadd (vscal s u) (vscal t v)) = s * s * vnorm2 u + t * t * vnorm2 v.
Proof. intro H. transitivity (s * s * vnorm2 u + t * t * vnorm2 v + 2 * s * t * vdot u v); [destruct u, v; vring|]. rewrite H; ring. Qed.

(** half-turn-like rotation about an axis [t] perpendicular to [a] *)
Lemma rot_flip a b t : vnorm2 a = 1 -> vnorm2 b = 1 -> vdot t a = 0 -> 0 < vnorm2 t -> 0 <= 1 + vdot a b ->
  exists M, quat_matrix t (1 + vdot a b) = Ok M /\ is_rotation M /\
    vnorm (vsub (mvec M a) b) <= 2 * (1 + vdot a b) / vnorm t + sqrt (2 * (1 + vdot a b)) /\
    (vdot a b = -1 -> mvec M a = b).
Proof.
  intros A B D P W. set (w := 1 + vdot a b) in *.
  destruct (quat_matrix_spec t w) as [M [E [R K]]]; [nra|].
  exists M. split; [exact E|]. split; [exact R|].
  specialize (K a). rewrite D in K.
  set (n2 := vnorm2 t + w * w) in *. assert (Hn : 0 < n2) by (unfold n2; nra).
  assert (K' : vscal n2 (vadd (mvec M a) a) = vadd (vscal (2 * w * w) a) (vscal (2 * w) (vcross t a))).
  { transitivity (vadd (vscal n2 (mvec M a)) (vscal n2 a)); [destruct a, (mvec M _); vring|].
    rewrite K. unfold n2. destruct a, t. vring. }
  assert (X2 : vnorm2 (vcross t a) = vnorm2 t).
  { pose proof (lagrange_identity t a) as L. rewrite D, A in L. lra. }
  assert (O : vdot a (vcross t a) = 0) by (destruct a, t; vring).
  assert (NN : n2 * n2 * vnorm2 (vadd (mvec M a) a) = 4 * w * w * n2).
  { transitivity (vnorm2 (vscal n2 (vadd (mvec M a) a))); [destruct (vadd _ _); vring|].
    rewrite K'. rewrite vnorm_sum_scaled by exact O. rewrite A, X2. unfold n2; ring. }
  assert (N2 : n2 * vnorm2 (vadd (mvec M a) a) = 4 * w * w) by (apply Rmult_eq_reg_l with n2; lra).
  assert (T0 : 0 < vnorm t) by (apply sqrt_lt_R0; exact P).
  assert (T2 : vnorm t * vnorm t = vnorm2 t) by apply vnorm_sqr.
  assert (B1 : vnorm (vadd (mvec M a) a) <= 2 * w / vnorm t).
  { apply Rsqr_incr_0_var; [|apply Rmult_le_pos; [lra|left; apply Rinv_0_lt_compat; exact T0]].
    unfold Rsqr. rewrite vnorm_sqr.
    replace (2 * w / vnorm t * (2 * w / vnorm t)) with (4 * w * w / vnorm2 t) by (rewrite <- T2; field; lra).
    apply Rmult_le_reg_l with (vnorm2 t); [exact P|].
    replace (vnorm2 t * (4 * w * w / vnorm2 t)) with (4 * w * w) by (field; lra).
    rewrite <- N2. apply Rmult_le_compat_r; [apply vnorm2_nonneg|]. unfold n2; nra. }
  assert (B2n : vnorm2 (vadd a b) = 2 * w).
  { transitivity (vnorm2 a + vnorm2 b + 2 * vdot a b); [destruct a, b; vring|]. rewrite A, B. unfold w; ring. }
  assert (B2 : vnorm (vadd a b) = sqrt (2 * w)) by (unfold vnorm; rewrite B2n; reflexivity).
  split.
  - pose proof (vnorm_triangle (vadd (mvec M a) a) (vopp (vadd a b))) as T. rewrite vnorm_opp in T.
    replace (vadd (vadd (mvec M a) a) (vopp (vadd a b))) with (vsub (mvec M a) b) in T by (destruct a, b, (mvec M _); vring).
    lra.
  - intro Z. assert (w0 : w = 0) by (unfold w; lra).
    rewrite w0 in N2, B2n.
    assert (vadd (mvec M a) a = vzero).
    { destruct (Rle_lt_dec (vnorm2 (vadd (mvec M a) a)) 0) as [L|L]; [|nra].
      apply vnorm_eq0. unfold vnorm. replace (vnorm2 (vadd (mvec M a) a)) with 0 by (pose proof (vnorm2_nonneg (vadd (mvec M a) a)); lra). apply sqrt_0. }
    assert (vadd a b = vzero).
    { apply vnorm_eq0. unfold vnorm. rewrite B2n. replace (2 * 0) with 0 by ring. apply sqrt_0. }
    destruct (mvec M a), a, b. unfold vadd, vzero in *; cbn in *.
    apply V3_inj in H, H0. f_equal; lra.
Qed.

Lemma trial_z_norm2 a : vnorm2 (vcross a (V3 0 0 1)) = vx a * vx a + vy a * vy a.
Proof. destruct a; vring. Qed.
Lemma trial_y_norm2 a : vnorm2 (vcross a (V3 0 1 0)) = vx a * vx a + vz a * vz a.
Proof. destruct a; vring. Qed.

(** the sine and cosine of the angle between unit vectors *)
Lemma cross_dot_unit a b : vnorm2 a = 1 -> vnorm2 b = 1 -> vnorm2 (vcross a b) + vdot a b * vdot a b = 1.
Proof. intros A B. rewrite lagrange_identity, A, B. ring. Qed.

Lemma rotation_matrix_v_ok u v tol : u <> vzero -> v <> vzero -> 0 < tol <= 1 / 2 ->
  exists M, rotation_matrix_v u v tol = Ok M /\ is_rotation M /\
    vnorm (vsub (mvec M (vunit u)) (vunit v)) <= 4 * tol /\
    (tol <= vnorm (vcross (vunit u) (vunit v)) \/ vcross (vunit u) (vunit v) = vzero -> mvec M (vunit u) = vunit v).
Proof.
  intros Hu Hv [T0 T1]. unfold rotation_matrix_v. cbv zeta.
  pose proof (vunit_norm2 u Hu) as A. pose proof (vunit_norm2 v Hv) as B.
  set (a := vunit u) in *. set (b := vunit v) in *.
  pose proof (cross_dot_unit a b A B) as L. pose proof (vnorm_sqr (vcross a b)) as N. pose proof (vnorm_nonneg (vcross a b)) as N0.
  destruct (Rltb (vnorm (vcross a b)) tol) eqn:E1.
  2:{ apply Rltb_false in E1. destruct (rot_regular a b A B) as [M [E [R K]]]; [lra|].
      exists M. split; [exact E|]. split; [exact R|]. split; [|intros _; exact K].
      rewrite K. replace (vsub b b) with vzero by (destruct b; vring). rewrite vnorm_zero. lra. }
  apply Rltb_true in E1.
  assert (C1 : vnorm2 (vcross a b) < tol * tol) by nra.
  assert (Cb : -1 <= vdot a b <= 1).
  { pose proof (vnorm2_nonneg (vcross a b)). split; nra. }
  destruct (Rltb (vdot a b) 0) eqn:E2.
  - apply Rltb_true in E2.
    assert (W : 0 <= 1 + vdot a b < tol * tol).
    { split; [lra|]. nra. }
    set (t := if Rltb tol (vnorm (vcross a (V3 0 0 1))) then vcross a (V3 0 0 1) else vcross a (V3 0 1 0)).
    assert (Ht : tol < vnorm t /\ vdot t a = 0).
    { unfold t. destruct (Rltb tol (vnorm (vcross a (V3 0 0 1)))) eqn:E3.
      - apply Rltb_true in E3. split; [exact E3|]. destruct a; vring.
      - apply Rltb_false in E3. split; [|destruct a; vring].
        pose proof (vnorm_sqr (vcross a (V3 0 0 1))) as Q. rewrite trial_z_norm2 in Q. pose proof (vnorm_nonneg (vcross a (V3 0 0 1))).
        pose proof (vnorm_sqr (vcross a (V3 0 1 0))) as Q'. rewrite trial_y_norm2 in Q'. pose proof (vnorm_nonneg (vcross a (V3 0 1 0))).
        unfold vnorm2 in A.
        assert (vx a * vx a + vy a * vy a <= tol * tol) by nra.
        assert (tol * tol <= 1 / 4) by nra.
        assert (tol * tol < vnorm (vcross a (V3 0 1 0)) * vnorm (vcross a (V3 0 1 0))) by nra.
        nra. }
    destruct Ht as [Ht Hd].
    assert (P : 0 < vnorm2 t) by (pose proof (vnorm_sqr t); nra).
    destruct (rot_flip a b t A B Hd P (proj1 W)) as [M [E [R [K1 K2]]]].
    exists M. split; [exact E|]. split; [exact R|]. split.
    + eapply Rle_trans; [exact K1|].
      assert (X1 : 2 * (1 + vdot a b) / vnorm t <= 2 * tol).
      { apply Rmult_le_reg_r with (vnorm t); [lra|]. replace (2 * (1 + vdot a b) / vnorm t * vnorm t) with (2 * (1 + vdot a b)) by (field; lra). nra. }
      assert (X2 : sqrt (2 * (1 + vdot a b)) <= 2 * tol).
      { apply Rsqr_incr_0_var; [|lra]. unfold Rsqr. rewrite sqrt_sqrt by lra. nra. }
      lra.
    + intros [Q|Q]; [lra|]. apply K2. rewrite Q in L. unfold vnorm2, vzero in L; cbn [vx vy vz] in L. nra.
  - apply Rltb_false in E2. exists mid. split; [reflexivity|]. split.
    { unfold is_rotation. repeat split; try (apply mat3_eq); vring. }
    assert (I : mvec mid a = a) by (destruct a; vring). rewrite I.
    assert (D2 : vnorm2 (vsub a b) = 2 * (1 - vdot a b)).
    { transitivity (vnorm2 a + vnorm2 b - 2 * vdot a b); [destruct a, b; vring|]. rewrite A, B; ring. }
    split.
    + apply Rsqr_incr_0_var; [|lra]. unfold Rsqr. rewrite vnorm_sqr, D2. nra.
    + intros [Q|Q]; [lra|]. rewrite Q in L. unfold vnorm2 at 1, vzero in L; cbn [vx vy vz] in L.
      assert (vdot a b = 1) by nra.
      assert (Z : vsub a b = vzero).
      { apply vnorm_eq0. unfold vnorm. rewrite D2, H. replace (2 * (1 - 1)) with 0 by ring. apply sqrt_0. }
      destruct a, b. unfold vsub, vzero in Z; cbn in Z. apply V3_inj in Z. f_equal; lra.
Qed.

Lemma default_tol_range : 0 < default_tol <= 1 / 2.
Proof.
  unfold default_tol. split; [apply Rinv_0_lt_compat, pow_lt; lra|].
  replace (1 / 2) with (/ 2) by field. apply Rinv_le_contravar; [lra|]. change 20%nat with (S 19). rewrite <- tech_pow_Rmult.
  assert (1 <= 10 ^ 19) by (apply pow_R1_Rle; lra). lra.
Qed.

(** ** rotate_points_from_normals *)
Lemma rotation_matrix_from_normals_ok v0 v1 tol :
  squeeze (a_shape v0) = [3%nat] -> squeeze (a_shape v1) = [3%nat] ->
  as_vec3 (a_data v0) <> vzero -> as_vec3 (a_data v1) <> vzero -> 0 < tol <= 1 / 2 ->
  exists M, rotation_matrix_from_normals v0 v1 tol = Ok M /\ is_rotation M /\
    vnorm (vsub (mvec M (vunit (as_vec3 (a_data v0)))) (vunit (as_vec3 (a_data v1)))) <= 4 * tol /\
    (tol <= vnorm (vcross (vunit (as_vec3 (a_data v0))) (vunit (as_vec3 (a_data v1)))) \/
     vcross (vunit (as_vec3 (a_data v0))) (vunit (as_vec3 (a_data v1))) = vzero ->
     mvec M (vunit (as_vec3 (a_data v0))) = vunit (as_vec3 (a_data v1))).
Proof.
  intros S0 S1 N0 N1 T. unfold rotation_matrix_from_normals. rewrite S0, S1. cbn [shape_is_3 negb].
  apply rotation_matrix_v_ok; assumption.
Qed.

Lemma rotation_matrix_rejects v0 v1 tol :
  squeeze (a_shape v0) <> [3%nat] \/ squeeze (a_shape v1) <> [3%nat] ->
  rotation_matrix_from_normals v0 v1 tol = Raise ValueError.
Proof.
  assert (H : forall s, s <> [3%nat] -> shape_is_3 s = false).
  { intros [|a [|b s]] N; try reflexivity.
    - destruct a as [|[|[|[|a]]]]; try reflexivity. exfalso; apply N; reflexivity.
    - destruct a as [|[|[|[|a]]]]; reflexivity. }
  unfold rotation_matrix_from_normals. intros [N|N].
  - rewrite (H _ N). reflexivity.
  - rewrite (H _ N). destruct (shape_is_3 (squeeze (a_shape v0))); reflexivity.
Qed.

Lemma rotate_points_ok xyz n0 n1 x0 :
  g_cols xyz = 3%nat ->
  squeeze (a_shape n0) = [3%nat] -> squeeze (a_shape n1) = [3%nat] ->
  as_vec3 (a_data n0) <> vzero -> as_vec3 (a_data n1) <> vzero ->
  exists pts, rotate_points_from_normals xyz n0 n1 x0 = Ok pts /\
    length pts = length (g_rows xyz) /\
    (forall i j, (i < length pts)%nat -> (j < length pts)%nat ->
       vnorm (vsub (nth i pts vzero) (nth j pts vzero)) =
       vnorm (vsub (as_vec3 (nth i (g_rows xyz) [])) (as_vec3 (nth j (g_rows xyz) [])))) /\
    (forall i, (i < length pts)%nat ->
       vnorm (vsub (nth i pts vzero) x0) = vnorm (vsub (as_vec3 (nth i (g_rows xyz) [])) x0)) /\
    (forall i, (i < length pts)%nat -> as_vec3 (nth i (g_rows xyz) []) = x0 -> nth i pts vzero = x0) /\
    (forall i, (i < length pts)%nat ->
       as_vec3 (nth i (g_rows xyz) []) = vadd x0 (vunit (as_vec3 (a_data n0))) ->
       vnorm (vsub (nth i pts vzero) (vadd x0 (vunit (as_vec3 (a_data n1))))) <= 4 * default_tol).
Proof.
  intros C S0 S1 N0 N1.
  destruct (rotation_matrix_from_normals_ok n0 n1 default_tol S0 S1 N0 N1 default_tol_range) as [M [E [R [K _]]]].
  unfold rotate_points_from_normals. rewrite E. cbn [rbind]. rewrite C. cbn [Nat.eqb negb].
  eexists. split; [reflexivity|].
  set (f := fun row => vadd (mvec M (vsub (as_vec3 row) x0)) x0).
  assert (Nth : forall i, (i < length (map f (g_rows xyz)))%nat -> nth i (map f (g_rows xyz)) vzero = f (nth i (g_rows xyz) [])).
  { intros i Hi. rewrite (nth_indep _ vzero (f [])) by exact Hi. apply map_nth. }
  split; [apply map_length|]. split; [|split; [|split]].
  - intros i j Hi Hj. rewrite (Nth i Hi), (Nth j Hj). unfold f.
    set (a := as_vec3 (nth i _ _)). set (b := as_vec3 (nth j _ _)).
    rewrite <- (rotation_norm M (vsub a b) R). f_equal.
    rewrite !mvec_sub. destruct (mvec M a), (mvec M b), (mvec M x0), x0; vring.
  - intros i Hi. rewrite (Nth i Hi). unfold f. set (a := as_vec3 (nth i _ _)).
    rewrite <- (rotation_norm M (vsub a x0) R). f_equal. destruct (mvec M (vsub a x0)), x0; vring.
  - intros i Hi Q. rewrite (Nth i Hi). unfold f. rewrite Q.
    replace (vsub x0 x0) with vzero by (destruct x0; vring).
    destruct M as [[] [] []], x0; vring.
  - intros i Hi Q. rewrite (Nth i Hi). unfold f. rewrite Q.
    replace (vsub (vadd x0 (vunit (as_vec3 (a_data n0)))) x0) with (vunit (as_vec3 (a_data n0))) by (destruct x0, (vunit _); vring).
    replace (vsub _ _) with (vsub (mvec M (vunit (as_vec3 (a_data n0)))) (vunit (as_vec3 (a_data n1)))).
    + exact K.
    + destruct (mvec M _), (vunit (as_vec3 (a_data n1))), x0; vring.
Qed.

Lemma rotate_points_rejects xyz n0 n1 x0 :
  g_cols xyz <> 3%nat -> forall e pts, rotate_points_from_normals xyz n0 n1 x0 <> Ok pts /\
  (rotation_matrix_from_normals n0 n1 default_tol <> Raise e -> forall M, rotation_matrix_from_normals n0 n1 default_tol = Ok M ->
     rotate_points_from_normals xyz n0 n1 x0 = Raise AssertionError).
Proof.
  intros C e pts. unfold rotate_points_from_normals. apply Nat.eqb_neq in C. rewrite C.
  destruct (rotation_matrix_from_normals n0 n1 default_tol); cbn; split; intros; congruence.
Qed.

(** ** distances *)
Definition row3 (row : list R) : Prop := length row = 3%nat.

Lemma row3_form row : row3 row -> exists a b c, row = [a; b; c].
Proof. destruct row as [|a [|b [|c [|]]]]; unfold row3; cbn; intros; try discriminate. eauto. Qed.

Lemma vector_distance_ok xyz origin : g_cols xyz = 3%nat -> length origin = 3%nat ->
  exists d, vector_distance xyz origin = Ok d /\ g_cols d = 3%nat /\
    map as_vec3 (g_rows d) = map (fun row => vsub (as_vec3 row) (as_vec3 origin)) (g_rows xyz).
Proof.
  intros A B. unfold vector_distance. rewrite A, B. cbn [Nat.eqb negb]. eexists. split; [reflexivity|]. split; [reflexivity|].
  cbn [g_rows]. rewrite map_map. apply map_ext. intro row. reflexivity.
Qed.

Lemma distance_ok xyz origin : g_cols xyz = 3%nat -> length origin = 3%nat ->
  distance xyz origin = Ok (map (fun row => vnorm (vsub (as_vec3 row) (as_vec3 origin))) (g_rows xyz)).
Proof.
  intros A B. unfold distance, vector_distance. rewrite A, B. cbn [Nat.eqb negb rbind]. f_equal.
  unfold vector_magnitude; cbn [g_rows]. rewrite map_map. apply map_ext. intro row.
  unfold vnorm, vnorm2; cbn. f_equal. unfold col. ring.
Qed.

Lemma vector_distance_rejects xyz origin :
  (g_cols xyz <> 3%nat -> vector_distance xyz origin = Raise AssertionError /\ distance xyz origin = Raise AssertionError) /\
  (g_cols xyz = 3%nat -> length origin <> 3%nat -> vector_distance xyz origin = Raise OtherError /\ distance xyz origin = Raise OtherError).
Proof.
  unfold distance, vector_distance. split.
  - intro H. apply Nat.eqb_neq in H. rewrite H. split; reflexivity.
  - intros H L. rewrite H. apply Nat.eqb_neq in L. rewrite L. split; reflexivity.
Qed.

Lemma vector_dot_ok xyz v : (3 <= g_cols xyz)%nat -> length v = 3%nat ->
  vector_dot xyz v = Ok (map (fun row => vdot (as_vec3 row) (as_vec3 v)) (g_rows xyz)).
Proof.
  intros A B. unfold vector_dot. rewrite B. cbn [Nat.eqb negb].
  rewrite (proj2 (Nat.ltb_ge _ _) A). f_equal. apply map_ext. intro row. unfold vdot, as_vec3, col; cbn. ring.
Qed.

Lemma metric_laws a b c :
  0 <= vnorm (vsub a b) /\ (vnorm (vsub a b) = 0 <-> a = b) /\ vnorm (vsub a b) = vnorm (vsub b a) /\
  vnorm (vsub a c) <= vnorm (vsub a b) + vnorm (vsub b c) /\
  (forall t, vnorm (vsub (vadd a t) (vadd b t)) = vnorm (vsub a b)).
Proof.
  repeat split.
  - apply vnorm_nonneg.
  - intro H. apply vnorm_eq0 in H. destruct a, b. unfold vsub, vzero in H; cbn in H. apply V3_inj in H. f_equal; lra.
  - intros ->. replace (vsub b b) with vzero by (destruct b; vring). apply vnorm_zero.
  - apply vnorm_sub_sym.
  - replace (vsub a c) with (vadd (vsub a b) (vsub b c)) by (destruct a, b, c; vring). apply vnorm_triangle.
  - intro t. f_equal. destruct a, b, t; vring.
Qed.

Lemma repeat_scalar_ok s dim :
  length (repeat_scalar s dim) = length s /\
  forall i, (i < length s)%nat -> nth i (repeat_scalar s dim) [] = repeat (nth i s 0) dim.
Proof.
  unfold repeat_scalar. split; [apply map_length|]. intros i Hi.
  set (f := fun s0 => map (fun one => one * s0) (repeat 1 dim)).
  rewrite (nth_indep _ [] (f 0)) by (rewrite map_length; exact Hi). rewrite map_nth. unfold f.
  clear. induction dim; cbn; [reflexivity|]. f_equal; [ring|exact IHdim].
Qed.

Lemma rot_witness_ok :
  let n0 := Arr [3%nat] [0; 0; 1] in let n1 := Arr [1%nat; 3%nat] [0; 0; -2] in
  squeeze (a_shape n0) = [3%nat] /\ squeeze (a_shape n1) = [3%nat] /\
  as_vec3 (a_data n0) <> vzero /\ as_vec3 (a_data n1) <> vzero /\
  vcross (vunit (as_vec3 (a_data n0))) (vunit (as_vec3 (a_data n1))) = vzero.
Proof.
  cbn. split; [reflexivity|]. split; [reflexivity|].
  split; [intro E; injection E; intros; lra|]. split; [intro E; injection E; intros; lra|].
  unfold vunit, as_vec3, vcross, vzero; cbn. veq; unfold Rdiv; ring.
Qed.

Lemma cyl_range x y z : exists r phi,
    cartesian_to_cylindrical [x; y; z] = Ok [r; phi; z] /\ 0 <= r /\ r * r = x * x + y * y /\ - PI < phi <= PI.
Proof.
  eexists; eexists. split; [reflexivity|]. split; [apply sqrt_pos|]. split; [|apply atan2_range].
  rewrite sqrt_sqrt by nra. ring.
Qed.

Lemma cyl_vec_isometry x y z a0 a1 a2 b0 b1 b2 :
  (exists u0 u1 u2 v0 v1 v2,
    cartesian_to_cylindrical_vec [x; y; z] [a0; a1; a2] = Ok [u0; u1; u2] /\
    cartesian_to_cylindrical_vec [x; y; z] [b0; b1; b2] = Ok [v0; v1; v2] /\
    u0 * v0 + u1 * v1 + u2 * v2 = a0 * b0 + a1 * b1 + a2 * b2) /\
  (exists u0 u1 u2 v0 v1 v2,
    cylindrical_to_cartesian_vec [x; y; z] [a0; a1; a2] = Ok [u0; u1; u2] /\
    cylindrical_to_cartesian_vec [x; y; z] [b0; b1; b2] = Ok [v0; v1; v2] /\
    u0 * v0 + u1 * v1 + u2 * v2 = a0 * b0 + a1 * b1 + a2 * b2).
Proof.
  split; do 6 eexists; (split; [reflexivity|]); (split; [reflexivity|]).
  - set (t := atan2 y x). pose proof (trig1 t) as Q.
    transitivity ((a0 * b0 + a1 * b1) * (sin t * sin t + cos t * cos t) + a2 * b2); [ring|rewrite Q; ring].
  - pose proof (trig1 y) as Q.
    transitivity ((a0 * b0 + a1 * b1) * (sin y * sin y + cos y * cos y) + a2 * b2); [ring|rewrite Q; ring].
Qed.

Lemma c2s_vec_partial g vec : let q := cartesian_to_spherical g in
    vx (cartesian_to_spherical_vec g vec) = vdot vec (e_r (vy q) (vz q)) /\
    vy (cartesian_to_spherical_vec g vec) = vdot vec (e_phi (vy q) (vz q)) /\
    (vz g = 0 -> 0 < vx g * vx g + vy g * vy g ->
       vz (cartesian_to_spherical_vec g vec) = vdot vec (e_theta (vy q) (vz q))).
Proof.
  intro q. destruct (c2s_vec_two_components g vec) as [A B]. split; [exact A|]. split; [exact B|].
  intros Z H. exact (c2s_vec_equator g vec Z H).
Qed.

Lemma c2s_vec_exact g vec : let q := cartesian_to_spherical g in
    let a := vdot vec (e_phi (vy q) (vz q)) in
    vx (cartesian_to_spherical_vec g vec) = vdot vec (e_r (vy q) (vz q)) /\
    vy (cartesian_to_spherical_vec g vec) = a /\
    (vz (cartesian_to_spherical_vec g vec) = vdot vec (e_theta (vy q) (vz q)) <->
     cos (vz q) = 0 \/ vx vec * cos a + vy vec * sin a = vx vec * cos (vy q) + vy vec * sin (vy q)).
Proof.
  intros q a. destruct (c2s_vec_two_components g vec) as [A B]. split; [exact A|]. split; [exact B|].
  subst a q. unfold cartesian_to_spherical, cartesian_to_spherical_vec, vdot, e_phi, e_theta; cbn [vx vy vz].
  set (p := atan2 (vy g) (vx g)). set (t := atan2 _ (vz g)).
  replace (vx vec * - sin p + vy vec * cos p + vz vec * 0) with (- vx vec * sin p + vy vec * cos p) by ring.
  set (a := - vx vec * sin p + vy vec * cos p). clearbody a p t. split.
  - intros E. assert (F : cos t * ((vx vec * cos a + vy vec * sin a) - (vx vec * cos p + vy vec * sin p)) = 0) by lra.
    apply Rmult_integral in F. destruct F; [left; assumption|right; lra].
  - intros [Z|E]; [rewrite Z; ring|].
    transitivity (cos t * (vx vec * cos a + vy vec * sin a) - vz vec * sin t); [ring|rewrite E; ring].
Qed.

Lemma frame_orthonormal phi theta :
    vdot (e_r phi theta) (e_r phi theta) = 1 /\ vdot (e_phi phi theta) (e_phi phi theta) = 1 /\
    vdot (e_theta phi theta) (e_theta phi theta) = 1 /\ vdot (e_r phi theta) (e_phi phi theta) = 0 /\
    vdot (e_r phi theta) (e_theta phi theta) = 0 /\ vdot (e_phi phi theta) (e_theta phi theta) = 0 /\
    (forall r, vscal r (e_r phi theta) = spherical_to_cartesian (V3 r phi theta)).
Proof.
  pose proof (trig1 phi) as P. pose proof (trig1 theta) as T.
  unfold vdot, e_r, e_phi, e_theta, vscal, spherical_to_cartesian; cbn [vx vy vz].
  repeat split; try (intro r; veq); try ring.
  - transitivity (sin theta * sin theta * (sin phi * sin phi + cos phi * cos phi) + cos theta * cos theta); [ring|rewrite P; lra].
  - lra.
  - transitivity (cos theta * cos theta * (sin phi * sin phi + cos phi * cos phi) + sin theta * sin theta); [ring|rewrite P; lra].
  - transitivity (cos theta * sin theta * (sin phi * sin phi + cos phi * cos phi) - sin theta * cos theta); [ring|rewrite P; ring].
Qed.

Lemma rotate_points_reject xyz n0 n1 x0 M :
  g_cols xyz <> 3%nat -> rotation_matrix_from_normals n0 n1 (/ 10 ^ 20) = Ok M ->
  rotate_points_from_normals xyz n0 n1 x0 = Raise AssertionError.
Proof.
  intros C E. unfold rotate_points_from_normals. change default_tol with (/ 10 ^ 20). rewrite E. cbn [rbind].
  apply Nat.eqb_neq in C. rewrite C. reflexivity.
Qed.

Lemma vector_dot_all xyz v : (3 <= g_cols xyz)%nat -> length v = 3%nat ->
  vector_dot xyz v = Ok (map (fun row => vdot (as_vec3 row) (as_vec3 v)) (g_rows xyz)) /\
  Forall (fun row => Rabs (vdot (as_vec3 row) (as_vec3 v)) <= vnorm (as_vec3 row) * vnorm (as_vec3 v)) (g_rows xyz).
Proof.
  intros A B. split; [apply vector_dot_ok; assumption|]. apply Forall_forall. intros row _. apply cauchy_schwarz.
Qed.

Lemma distance_witness : distance (Grid 3 [[3; 4; 0]]) [0; 0; 0] = Ok [5].
Proof.
  rewrite distance_ok by reflexivity. cbn. f_equal. f_equal. apply vnorm_unique; [lra|]. unfold vnorm2; cbn; ring.
Qed.
