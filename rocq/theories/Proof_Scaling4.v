(** Similitude: prisms. *)
From Coq Require Import Reals Lra Lia String List Bool.
From Coquelicot Require Import Coquelicot.
From Verif Require Import Vec3 Numpy Model_Prism Spec_Scaling Proof_Scaling Proof_Scaling2 Proof_Scaling3.
Import ListNotations.
Open Scope R_scope.

Lemma rad_gt_z x y z : x <> 0 \/ y <> 0 -> 0 < z + rad x y z.
Proof.
  intros H. assert (S : Rabs z < rad x y z).
  { unfold rad. rewrite <- sqrt_Rsqr_abs. apply sqrt_lt_1_alt. unfold Rsqr. split; [nra|]. destruct H as [H|H]; [assert (0 < x * x) by nra|assert (0 < y * y) by nra]; nra. }
  pose proof (Rle_abs (- z)). rewrite Rabs_Ropp in *. lra.
Qed.
Lemma rad_swap x y z : rad x y z = rad y z x /\ rad x y z = rad z x y.
Proof. unfold rad. split; f_equal; ring. Qed.
Lemma rad_gt_x x y z : y <> 0 \/ z <> 0 -> 0 < x + rad x y z.
Proof. intros H. rewrite (proj1 (rad_swap x y z)). apply rad_gt_z, H. Qed.
Lemma rad_gt_y x y z : z <> 0 \/ x <> 0 -> 0 < y + rad x y z.
Proof. intros H. rewrite (proj2 (rad_swap x y z)). apply rad_gt_z, H. Qed.

Section Scale.
Variable a : R.
Hypothesis A : 0 < a.
Notation sc := (vscal a).
Notation scale_box := (scale_box a).

Lemma rad_scale x y z : rad (a * x) (a * y) (a * z) = a * rad x y z.
Proof. unfold rad. replace (a * x * (a * x) + a * y * (a * y) + a * z * (a * z)) with (a ^ 2 * (x * x + y * y + z * z)) by ring. now apply sqrt_scale. Qed.
Lemma nz_scale x : nonzero (a * x) = nonzero x.
Proof. unfold nonzero. f_equal. rewrite <- (eqb_scale a A x 0). f_equal. ring. Qed.
Lemma nz_true x : nonzero x = true <-> x <> 0.
Proof. unfold nonzero, Reqb. destruct (Req_EM_T x 0); cbn; split; congruence. Qed.
Lemma nz_false x : nonzero x = false -> x = 0.
Proof. unfold nonzero, Reqb. destruct (Req_EM_T x 0); cbn; congruence. Qed.
Lemma at_scale x y z r : a * x * (a * y) / (a * z * (a * r)) = x * y / (z * r).
Proof. replace (a * x * (a * y)) with (a ^ 2 * (x * y)) by ring. replace (a * z * (a * r)) with (a ^ 2 * (z * r)) by ring. apply div_scale; exact A. Qed.
Lemma ltb_pos x : 0 < x -> Rltb 0 x = true.
Proof. intros H. unfold Rltb. destruct (Rlt_dec 0 x); [reflexivity|lra]. Qed.
Lemma log_scale x : 0 < x -> ln (a * x) = ln a + ln x.
Proof. intros X. apply ln_mult; [exact A|exact X]. Qed.

Lemma f_scale x y z : prism_f (a * x) (a * y) (a * z) = a ^ 2 * (prism_f x y z - ln a * (x * y + y * z + z * x)).
Proof.
  unfold prism_f. rewrite rad_scale, !nz_scale, !at_scale.
  assert (Z : forall b : bool, (b = true -> x <> 0 /\ y <> 0) -> True) by auto. clear Z.
  replace (a * z + a * rad x y z) with (a * (z + rad x y z)) by ring. replace (a * x + a * rad x y z) with (a * (x + rad x y z)) by ring. replace (a * y + a * rad x y z) with (a * (y + rad x y z)) by ring.
  destruct (nonzero x) eqn:X; [apply nz_true in X|apply nz_false in X; subst x]; (destruct (nonzero y) eqn:Y; [apply nz_true in Y|apply nz_false in Y; subst y]); (destruct (nonzero z) eqn:W; [apply nz_true in W|apply nz_false in W; subst z]); cbn [andb]; try ring.
  all: try (pose proof (rad_gt_z x y z (or_introl X))); try (pose proof (rad_gt_x x y z (or_introl Y))); try (pose proof (rad_gt_y x y z (or_introl W))).
  all: try (pose proof (rad_gt_z 0 y z (or_intror Y))); try (pose proof (rad_gt_x 0 y z (or_introl Y))); try (pose proof (rad_gt_x x 0 z (or_intror W))); try (pose proof (rad_gt_y x 0 z (or_introl W))); try (pose proof (rad_gt_z x y 0 (or_introl X))).
  all: rewrite ?ltb_pos by (try apply Rmult_lt_0_compat; assumption); rewrite ?log_scale by assumption; ring.
Qed.
Lemma fz_scale x y z : prism_fz (a * x) (a * y) (a * z) = a * (prism_fz x y z + ln a * (x + y)).
Proof.
  unfold prism_fz. rewrite rad_scale, !nz_scale, !at_scale.
  replace (a * x + a * rad x y z) with (a * (x + rad x y z)) by ring. replace (a * y + a * rad x y z) with (a * (y + rad x y z)) by ring.
  destruct (nonzero x) eqn:X; [apply nz_true in X|apply nz_false in X; subst x]; (destruct (nonzero y) eqn:Y; [apply nz_true in Y|apply nz_false in Y; subst y]).
  all: try (pose proof (rad_gt_x x y z (or_introl Y))); try (pose proof (rad_gt_y x y z (or_intror X))); try (pose proof (rad_gt_x 0 y z (or_introl Y))); try (pose proof (rad_gt_y x 0 z (or_intror X))).
  all: rewrite ?ltb_pos by (try apply Rmult_lt_0_compat; assumption); rewrite ?log_scale by assumption; destruct (nonzero z) eqn:W; try ring.
Qed.
Lemma fzz_scale x y z : prism_fzz (a * x) (a * y) (a * z) = prism_fzz x y z.
Proof. unfold prism_fzz. now rewrite rad_scale, nz_scale, at_scale. Qed.
Lemma third n d : a * n / (a * a * d) = / a * (n / d).
Proof. destruct (Req_dec d 0) as [->|D]; [unfold Rdiv; rewrite Rmult_0_r, Rinv_0; ring|field; split; lra]. Qed.
Lemma fxxy_scale x y z : prism_fxxy (a * x) (a * y) (a * z) = / a * prism_fxxy x y z.
Proof.
  unfold prism_fxxy. rewrite rad_scale, nz_scale. destruct (nonzero x); [|ring].
  replace (- (a * x) * (a * z)) with (a * (a * (- x * z))) by ring. replace ((a * x * (a * x) + a * y * (a * y)) * (a * rad x y z)) with (a * a * (a * ((x * x + y * y) * rad x y z))) by ring. rewrite third.
  f_equal. generalize ((x * x + y * y) * rad x y z). intros d. destruct (Req_dec d 0) as [->|D]; [unfold Rdiv; rewrite Rmult_0_r, Rinv_0; ring|field; split; lra].
Qed.
Lemma fxxz_scale x y z : prism_fxxz (a * x) (a * y) (a * z) = / a * prism_fxxz x y z.
Proof.
  unfold prism_fxxz. rewrite rad_scale, nz_scale. destruct (nonzero x); [|ring].
  replace (- (a * x) * (a * y)) with (a * (a * (- x * y))) by ring. replace ((a * x * (a * x) + a * z * (a * z)) * (a * rad x y z)) with (a * a * (a * ((x * x + z * z) * rad x y z))) by ring. rewrite third.
  f_equal. generalize ((x * x + z * z) * rad x y z). intros d. destruct (Req_dec d 0) as [->|D]; [unfold Rdiv; rewrite Rmult_0_r, Rinv_0; ring|field; split; lra].
Qed.
Lemma fxyz_scale x y z : prism_fxyz (a * x) (a * y) (a * z) = / a * prism_fxyz x y z.
Proof. unfold prism_fxyz. rewrite rad_scale, nz_scale. destruct (nonzero (rad x y z)); [|ring]. unfold Rdiv. rewrite Rinv_mult. ring. Qed.
Lemma fzzz_scale x y z : prism_fzzz (a * x) (a * y) (a * z) = / a * prism_fzzz x y z.
Proof.
  unfold prism_fzzz. rewrite rad_scale, nz_scale.
  replace (a * x * (a * x) + a * z * (a * z)) with (a * (a * (x * x + z * z))) by ring. replace (a * y * (a * y) + a * z * (a * z)) with (a * (a * (y * y + z * z))) by ring. rewrite !nz_scale.
  destruct (nonzero (rad x y z)) eqn:RR.
  - apply nz_true in RR. destruct (nonzero (x * x + z * z)) eqn:V1; [apply nz_true in V1|]; destruct (nonzero (y * y + z * z)) eqn:V2; try (apply nz_true in V2); field; repeat split; try lra; assumption.
  - apply nz_false in RR. assert (Z : x * x + y * y + z * z = 0) by (apply sqrt_eq_0; [nra|exact RR]).
    assert (x * x + z * z = 0) by nra. assert (y * y + z * z = 0) by nra. rewrite H, H0.
    assert (N : nonzero 0 = false) by (unfold nonzero, Reqb; destruct (Req_EM_T 0 0); [reflexivity|lra]). rewrite !N. ring.
Qed.

(** corner sums *)
Lemma corner_scale (F G : R -> R -> R -> R) k b p cyc :
  (forall x y z, F (a * x) (a * y) (a * z) = k * G x y z) -> eval_def_int (scale_box b) F (sc p) cyc = k * eval_def_int b G p cyc.
Proof.
  intros H. unfold eval_def_int, Spec_Scaling.scale_box. cbn [b_min b_max]. rewrite !sub_scale.
  assert (RT : forall n v, Nat.iter n rotate_axes (sc v) = sc (Nat.iter n rotate_axes v)).
  { induction n as [|n IH]; intros v; [reflexivity|]. cbn [Nat.iter nat_rect]. change (nat_rect (fun _ => vec3) (sc v) (fun _ => rotate_axes) n) with (Nat.iter n rotate_axes (sc v)). rewrite IH. reflexivity. }
  rewrite !RT. generalize (Nat.iter cyc rotate_axes (vsub (b_min b) p)) (Nat.iter cyc rotate_axes (vsub (b_max b) p)). intros u v.
  cbn [vscal vx vy vz]. rewrite !H. ring.
Qed.
Lemma corner_add (F G : R -> R -> R -> R) b p cyc : eval_def_int b (fun x y z => F x y z + G x y z) p cyc = eval_def_int b F p cyc + eval_def_int b G p cyc.
Proof. unfold eval_def_int. ring. Qed.
Lemma sum_f b p cyc : eval_def_int (scale_box b) prism_f (sc p) cyc = a ^ 2 * eval_def_int b prism_f p cyc.
Proof.
  rewrite (corner_scale prism_f (fun x y z => prism_f x y z - ln a * (x * y + y * z + z * x)) (a ^ 2)) by apply f_scale. f_equal. unfold eval_def_int. ring.
Qed.
Lemma sum_fz b p cyc : eval_def_int (scale_box b) prism_fz (sc p) cyc = a * eval_def_int b prism_fz p cyc.
Proof. rewrite (corner_scale prism_fz (fun x y z => prism_fz x y z + ln a * (x + y)) a) by apply fz_scale. f_equal. unfold eval_def_int. ring. Qed.
Lemma sum_fzz b p cyc : eval_def_int (scale_box b) prism_fzz (sc p) cyc = eval_def_int b prism_fzz p cyc.
Proof. rewrite (corner_scale prism_fzz prism_fzz 1) by (intros; rewrite fzz_scale; ring). ring. Qed.

(** along an edge direction *)
Lemma fzx_val x y z : prism_fzx x y z = if (nonzero x || nonzero z)%bool then - ln (y + rad x y z) else if Rltb y 0 then ln (-2 * y) else if Rltb 0 y then - ln (2 * y) else 0.
Proof.
  unfold prism_fzx. destruct (nonzero x || nonzero z)%bool eqn:E.
  - assert (H : z <> 0 \/ x <> 0) by (apply orb_true_iff in E; destruct E as [E|E]; apply nz_true in E; tauto). pose proof (rad_gt_y x y z H). unfold Reqb. destruct (Req_EM_T _ 0); [lra|reflexivity].
  - apply orb_false_iff in E. destruct E as (X & Z). apply nz_false in X, Z. subst x z. assert (RD : rad 0 y 0 = Rabs y) by (unfold rad; replace (0 * 0 + y * y + 0 * 0) with (Rsqr y) by (unfold Rsqr; ring); apply sqrt_Rsqr_abs). rewrite RD.
    unfold Rltb, Reqb. destruct (Rlt_dec y 0) as [L|L]; [rewrite Rabs_left by lra; destruct (Req_EM_T (y + - y) 0); [reflexivity|lra]|]. rewrite Rabs_pos_eq by lra.
    destruct (Rlt_dec 0 y); destruct (Req_EM_T (y + y) 0); try lra. do 2 f_equal. ring.
Qed.
Lemma fzy_fzx x y z : prism_fzy x y z = prism_fzx y x z.
Proof. unfold prism_fzy, prism_fzx. replace (rad y x z) with (rad x y z) by (unfold rad; f_equal; ring). reflexivity. Qed.
Lemma fzx_diff x y1 y2 z : ~ (x = 0 /\ z = 0 /\ y1 <= 0 <= y2) -> y1 < y2 ->
  prism_fzx (a * x) (a * y2) (a * z) - prism_fzx (a * x) (a * y1) (a * z) = prism_fzx x y2 z - prism_fzx x y1 z.
Proof.
  intros N L. rewrite !fzx_val, !nz_scale. destruct (nonzero x || nonzero z)%bool eqn:E.
  - assert (H : z <> 0 \/ x <> 0) by (apply orb_true_iff in E; destruct E as [E|E]; apply nz_true in E; tauto). rewrite !rad_scale, <- !Rmult_plus_distr_l, !log_scale by (apply rad_gt_y, H). ring.
  - apply orb_false_iff in E. destruct E as (X & Z). apply nz_false in X, Z. subst x z.
    assert (B1 : forall y, Rltb (a * y) 0 = Rltb y 0) by (intros y; rewrite <- (ltb_scale a A y 0); f_equal; ring). assert (B2 : forall y, Rltb 0 (a * y) = Rltb 0 y) by (intros y; rewrite <- (ltb_scale a A 0 y); f_equal; ring).
    rewrite !B1, !B2. replace (-2 * (a * y2)) with (a * (-2 * y2)) by ring. replace (-2 * (a * y1)) with (a * (-2 * y1)) by ring. replace (2 * (a * y2)) with (a * (2 * y2)) by ring. replace (2 * (a * y1)) with (a * (2 * y1)) by ring.
    unfold Rltb. destruct (Rlt_dec y2 0), (Rlt_dec y1 0); try lra; destruct (Rlt_dec 0 y1), (Rlt_dec 0 y2); try lra; try (exfalso; apply N; repeat split; lra); rewrite ?log_scale by lra; ring.
Qed.
Lemma fzx_edge_diff y1 y2 : y1 < 0 < y2 -> prism_fzx (a * 0) (a * y2) (a * 0) - prism_fzx (a * 0) (a * y1) (a * 0) = prism_fzx 0 y2 0 - prism_fzx 0 y1 0 - 2 * ln a.
Proof.
  intros L. rewrite !fzx_val, !nz_scale. assert (N : nonzero 0 = false) by (unfold nonzero, Reqb; destruct (Req_EM_T 0 0); [reflexivity|lra]). rewrite !N. cbn [orb].
  unfold Rltb. destruct (Rlt_dec (a * y2) 0), (Rlt_dec 0 (a * y2)), (Rlt_dec (a * y1) 0), (Rlt_dec y2 0), (Rlt_dec 0 y2), (Rlt_dec y1 0); try (exfalso; nra).
  replace (-2 * (a * y1)) with (a * (-2 * y1)) by ring. replace (2 * (a * y2)) with (a * (2 * y2)) by ring. rewrite !log_scale by lra. ring.
Qed.
Lemma sum_fzx0 b p : proper_box b -> ~ on_an_edge (b_min b) (b_max b) p -> eval_def_int (scale_box b) prism_fzx (sc p) 0 = eval_def_int b prism_fzx p 0.
Proof.
  intros (BX & BY & BZ) N. unfold eval_def_int, Spec_Scaling.scale_box. cbn [b_min b_max Nat.iter nat_rect]. rewrite !sub_scale. cbn [vscal vsub vx vy vz].
  set (x1 := vx (b_min b) - vx p) in *. set (x2 := vx (b_max b) - vx p) in *. set (y1 := vy (b_min b) - vy p) in *. set (y2 := vy (b_max b) - vy p) in *. set (z1 := vz (b_min b) - vz p) in *. set (z2 := vz (b_max b) - vz p) in *.
  assert (D : forall x z, (x = x1 \/ x = x2) -> (z = z1 \/ z = z2) -> prism_fzx (a * x) (a * y2) (a * z) - prism_fzx (a * x) (a * y1) (a * z) = prism_fzx x y2 z - prism_fzx x y1 z).
  { intros x z X Z. apply fzx_diff; [|unfold y1, y2; lra]. intros (E1 & E2 & E3). apply N. right. right. unfold x1, x2, y1, y2, z1, z2 in *. repeat split; lra. }
  pose proof (D x1 z1 (or_introl eq_refl) (or_introl eq_refl)). pose proof (D x1 z2 (or_introl eq_refl) (or_intror eq_refl)). pose proof (D x2 z1 (or_intror eq_refl) (or_introl eq_refl)). pose proof (D x2 z2 (or_intror eq_refl) (or_intror eq_refl)). lra.
Qed.
Lemma sum_fzx1 b p : proper_box b -> ~ on_an_edge (b_min b) (b_max b) p -> eval_def_int (scale_box b) prism_fzx (sc p) 1 = eval_def_int b prism_fzx p 1.
Proof.
  intros (BX & BY & BZ) N. unfold eval_def_int, Spec_Scaling.scale_box. cbn [b_min b_max Nat.iter nat_rect]. rewrite !sub_scale. unfold rotate_axes. cbn [vscal vsub vx vy vz].
  set (x1 := vx (b_min b) - vx p) in *. set (x2 := vx (b_max b) - vx p) in *. set (y1 := vy (b_min b) - vy p) in *. set (y2 := vy (b_max b) - vy p) in *. set (z1 := vz (b_min b) - vz p) in *. set (z2 := vz (b_max b) - vz p) in *.
  assert (D : forall x y, (x = x1 \/ x = x2) -> (y = y1 \/ y = y2) -> prism_fzx (a * y) (a * z2) (a * x) - prism_fzx (a * y) (a * z1) (a * x) = prism_fzx y z2 x - prism_fzx y z1 x).
  { intros x y X Y. apply fzx_diff; [|unfold z1, z2; lra]. intros (E1 & E2 & E3). apply N. left. unfold x1, x2, y1, y2, z1, z2 in *. repeat split; lra. }
  pose proof (D x1 y1 (or_introl eq_refl) (or_introl eq_refl)). pose proof (D x1 y2 (or_introl eq_refl) (or_intror eq_refl)). pose proof (D x2 y1 (or_intror eq_refl) (or_introl eq_refl)). pose proof (D x2 y2 (or_intror eq_refl) (or_intror eq_refl)). lra.
Qed.
Lemma sum_fzy0 b p : proper_box b -> ~ on_an_edge (b_min b) (b_max b) p -> eval_def_int (scale_box b) prism_fzy (sc p) 0 = eval_def_int b prism_fzy p 0.
Proof.
  intros (BX & BY & BZ) N. unfold eval_def_int, Spec_Scaling.scale_box. cbn [b_min b_max Nat.iter nat_rect]. rewrite !sub_scale. cbn [vscal vsub vx vy vz]. rewrite !fzy_fzx.
  set (x1 := vx (b_min b) - vx p) in *. set (x2 := vx (b_max b) - vx p) in *. set (y1 := vy (b_min b) - vy p) in *. set (y2 := vy (b_max b) - vy p) in *. set (z1 := vz (b_min b) - vz p) in *. set (z2 := vz (b_max b) - vz p) in *.
  assert (D : forall y z, (y = y1 \/ y = y2) -> (z = z1 \/ z = z2) -> prism_fzx (a * y) (a * x2) (a * z) - prism_fzx (a * y) (a * x1) (a * z) = prism_fzx y x2 z - prism_fzx y x1 z).
  { intros y z Y Z. apply fzx_diff; [|unfold x1, x2; lra]. intros (E1 & E2 & E3). apply N. right. left. unfold x1, x2, y1, y2, z1, z2 in *. repeat split; lra. }
  pose proof (D y1 z1 (or_introl eq_refl) (or_introl eq_refl)). pose proof (D y1 z2 (or_introl eq_refl) (or_intror eq_refl)). pose proof (D y2 z1 (or_intror eq_refl) (or_introl eq_refl)). pose proof (D y2 z2 (or_intror eq_refl) (or_intror eq_refl)). lra.
Qed.

Lemma grav_prism_scale G b rho p :
  gravitational_potential G (scale_box b) rho (sc p) = a ^ 2 * gravitational_potential G b rho p /\
  gravitational_field G (scale_box b) rho (sc p) = vscal a (gravitational_field G b rho p) /\
  (proper_box b -> ~ on_an_edge (b_min b) (b_max b) p -> gravitational_gradient G (scale_box b) rho (sc p) = gravitational_gradient G b rho p).
Proof.
  unfold gravitational_potential, gravitational_field, gravitational_gradient. rewrite !sum_f, !sum_fz, !sum_fzz. split; [ring|]. split; [apply vec3_eq; vunf; ring|].
  intros B N. now rewrite sum_fzx0, sum_fzx1, sum_fzy0.
Qed.
Lemma inside_scale b p : is_inside (scale_box b) (sc p) = is_inside b p.
Proof. unfold is_inside, Spec_Scaling.scale_box. cbn [b_min b_max vscal vx vy vz]. now rewrite !leb_scale. Qed.
Lemma mag_prism_scale b m p :
  scalar_potential (scale_box b) m (sc p) = a * scalar_potential b m p /\
  (proper_box b -> ~ on_an_edge (b_min b) (b_max b) p -> magnetic_field (scale_box b) m (sc p) = magnetic_field b m p) /\
  magnetic_field_gradient (scale_box b) m (sc p) = mscal (/ a) (magnetic_field_gradient b m p).
Proof.
  unfold scalar_potential, magnetic_field, magnetic_field_gradient. rewrite !sum_fz, !sum_fzz. split; [ring|]. split; [intros B N; now rewrite sum_fzx0, sum_fzx1, sum_fzy0|].
  rewrite !(corner_scale prism_fzzz prism_fzzz (/ a)) by apply fzzz_scale. rewrite !(corner_scale prism_fxxy prism_fxxy (/ a)) by apply fxxy_scale.
  rewrite !(corner_scale prism_fxxz prism_fxxz (/ a)) by apply fxxz_scale. rewrite !(corner_scale prism_fxyz prism_fxyz (/ a)) by apply fxyz_scale.
  apply mat3_eq; apply vec3_eq; unfold mscal; vunf; ring.
Qed.
Lemma mag_flux_scale mu_0 b m pts : proper_box b -> (forall p, In p pts -> ~ on_an_edge (b_min b) (b_max b) p) ->
  magnetic_flux_density mu_0 (scale_box b) m (map sc pts) = magnetic_flux_density mu_0 b m pts.
Proof.
  intros B N. unfold magnetic_flux_density. rewrite !map_map.
  replace (map (fun p => magnetic_field (scale_box b) m (sc p)) pts) with (map (magnetic_field b m) pts).
  - replace (map (fun p => is_inside (scale_box b) (sc p)) pts) with (map (is_inside b) pts); [reflexivity|]. apply map_ext. intros p. symmetry. apply inside_scale.
  - apply map_ext_in. intros p I. symmetry. apply (mag_prism_scale b m p); [exact B|]. apply N, I.
Qed.
End Scale.

(** on an edge the returned gradient depends on the unit of length *)
Lemma edge_unit_dependent : let b := Box (V3 0 0 0) (V3 1 1 1) in let p := V3 0 (1 / 2) 0 in
  vz (m0 (gravitational_gradient 1 (scale_box 2 b) 1 (vscal 2 p))) <> vz (m0 (gravitational_gradient 1 b 1 p)).
Proof.
  cbv zeta. unfold gravitational_gradient. cbn [m0 vscal vz vx vy]. intros E.
  assert (E' : eval_def_int (scale_box 2 (Box (V3 0 0 0) (V3 1 1 1))) prism_fzx (vscal 2 (V3 0 (1 / 2) 0)) 0 = eval_def_int (Box (V3 0 0 0) (V3 1 1 1)) prism_fzx (V3 0 (1 / 2) 0) 0) by (cbn [vscal vx vy vz]; lra). clear E.
  unfold eval_def_int, scale_box in E'. cbn [b_min b_max Nat.iter nat_rect] in E'. rewrite !sub_scale in E'. cbn [vscal vsub vx vy vz] in E'.
  assert (A : 0 < 2) by lra.
  pose proof (fzx_edge_diff 2 A (0 - 1 / 2) (1 - 1 / 2) ltac:(lra)) as D.
  replace (0 - 0) with 0 in E' by ring.
  pose proof (fzx_diff 2 A 0 (0 - 1 / 2) (1 - 1 / 2) (1 - 0) ltac:(lra) ltac:(lra)).
  pose proof (fzx_diff 2 A (1 - 0) (0 - 1 / 2) (1 - 1 / 2) 0 ltac:(lra) ltac:(lra)).
  pose proof (fzx_diff 2 A (1 - 0) (0 - 1 / 2) (1 - 1 / 2) (1 - 0) ltac:(lra) ltac:(lra)).
  pose proof (ln_lt_2). lra.
Qed.
