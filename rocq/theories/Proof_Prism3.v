(** Poisson equation, volume integral, cut additivity, edge limits of the prism. *)
From Coq Require Import Reals Lra Lia List Bool.
From Coquelicot Require Import Coquelicot.
From Verif Require Import Vec3 Calculus Deriv Numpy Integral Model_Prism Spec_Prism Proof_Prism Proof_Prism2.
Import ListNotations.
Open Scope R_scope.

(** ** the solid angle identity *)
Lemma solid_pos x y z : 0 < x -> 0 < y -> 0 < z -> Tk x y z + Tk y z x + Tk z x y = PI / 2.
Proof.
  intros Hx Hy Hz. unfold Tk. rewrite (rad_rot x y z), (rad_rot2 x y z).
  assert (N : nz3 x y z) by (repeat split; lra). pose proof (reg_rad _ _ _ (nz3_reg _ _ _ N)) as Hr.
  pose proof (rad_sqr x y z) as Q. set (r := rad x y z) in *. clearbody r.
  set (a := y * z / (x * r)). set (b := z * x / (y * r)). set (c := x * y / (z * r)).
  assert (Pxr : 0 < x * r) by nra. assert (Pyr : 0 < y * r) by nra. assert (Pzr : 0 < z * r) by nra.
  assert (Ha : 0 < a) by (apply Rdiv_lt_0_compat; nra).
  assert (Hb : 0 < b) by (apply Rdiv_lt_0_compat; nra).
  assert (Hc : 0 < c) by (apply Rdiv_lt_0_compat; nra).
  assert (Eab : a * b = z * z / (r * r)) by (unfold a, b; field; lra).
  assert (Lab : a * b < 1).
  { rewrite Eab. apply (Rmult_lt_reg_r (r * r)); [nra|]. unfold Rdiv. rewrite Rmult_assoc, Rinv_l by nra. nra. }
  assert (A1 : atan b = PI / 2 - atan (/ b)).
  { rewrite <- (atan_inv (/ b)) by (apply Rinv_0_lt_compat; exact Hb). rewrite Rinv_inv. reflexivity. }
  assert (A2 : atan a < atan (/ b)).
  { apply atan_increasing. apply (Rmult_lt_reg_r b); [exact Hb|]. rewrite Rinv_l; lra. }
  assert (P1 : 0 < atan a) by (rewrite <- atan_0; apply atan_increasing; exact Ha).
  assert (P2 : 0 < atan b) by (rewrite <- atan_0; apply atan_increasing; exact Hb).
  pose proof (atan_bound a) as Ba. pose proof (atan_bound b) as Bb.
  assert (C0 : forall t, - PI / 2 < t < PI / 2 -> cos t <> 0).
  { intros t Ht. apply Rgt_not_eq, cos_gt_0; lra. }
  assert (T : tan (atan a + atan b) = / c).
  { rewrite tan_plus.
    - rewrite !tan_atan.
      assert (E1 : a + b = z * (x * x + y * y) / (x * y * r)) by (unfold a, b; field; repeat split; lra).
      assert (E2 : 1 - a * b = (x * x + y * y) / (r * r)) by (rewrite Eab; field_simplify_eq; [ring [Q]|lra]).
      rewrite E1, E2. unfold c. field. repeat split; try lra; nra.
    - apply C0; lra.
    - apply C0; lra.
    - apply C0; lra.
    - rewrite !tan_atan. lra. }
  assert (S : atan a + atan b = atan (/ c)).
  { rewrite <- T. symmetry. apply atan_tan. lra. }
  rewrite S, (atan_inv c Hc). ring.
Qed.

Lemma solid_angle x y z : nz3 x y z -> Tk x y z + Tk y z x + Tk z x y = PI / 2 * (sign x * sign y * sign z).
Proof.
  intros [A [B C]].
  assert (O : forall x y z, Tk (- x) y z = - Tk x y z).
  { intros u v w. unfold Tk. rewrite <- atan_opp. f_equal.
    replace (rad (- u) v w) with (rad u v w) by (unfold rad; f_equal; ring).
    destruct (Req_dec (u * rad u v w) 0) as [E|E].
    - replace (- u * rad u v w) with 0 by nra. rewrite E. unfold Rdiv. rewrite Rinv_0. ring.
    - field. split; intro Z; apply E; rewrite Z; ring. }
  assert (O2 : forall x y z, Tk x (- y) z = - Tk x y z).
  { intros u v w. unfold Tk. rewrite <- atan_opp. f_equal.
    replace (rad u (- v) w) with (rad u v w) by (unfold rad; f_equal; ring). unfold Rdiv. ring. }
  assert (O3 : forall x y z, Tk x y (- z) = - Tk x y z).
  { intros u v w. unfold Tk. rewrite <- atan_opp. f_equal.
    replace (rad u v (- w)) with (rad u v w) by (unfold rad; f_equal; ring). unfold Rdiv. ring. }
  assert (P : forall x y z, 0 < x -> y <> 0 -> z <> 0 -> Tk x y z + Tk y z x + Tk z x y = PI / 2 * (sign x * sign y * sign z)).
  { clear - O O2 O3. intros x y z Hx Hy Hz. rewrite (sign_eq_1 x Hx).
    assert (Q : forall x y z, 0 < x -> 0 < y -> z <> 0 -> Tk x y z + Tk y z x + Tk z x y = PI / 2 * (1 * 1 * sign z)).
    { clear - O O2 O3. intros x y z Hx Hy Hz. destruct (Rlt_le_dec 0 z) as [Z|Z].
      - rewrite (sign_eq_1 z Z), solid_pos by assumption. ring.
      - assert (Z' : 0 < - z) by lra. rewrite (sign_eq_m1 z) by lra.
        pose proof (solid_pos x y (- z) Hx Hy Z') as S. rewrite O3, O2, O in S. lra. }
    destruct (Rlt_le_dec 0 y) as [Y|Y].
    - rewrite (sign_eq_1 y Y). apply Q; assumption.
    - rewrite (sign_eq_m1 y) by lra. pose proof (Q x (- y) z Hx ltac:(lra) Hz) as S. rewrite O2, O, O3 in S. lra. }
  destruct (Rlt_le_dec 0 x) as [X|X].
  - apply P; assumption.
  - rewrite (sign_eq_m1 x) by lra. pose proof (P (- x) y z ltac:(lra) B C) as S.
    rewrite O, O3, O2, (sign_eq_1 (- x)) in S by lra. lra.
Qed.

Lemma S3_solid b p : off_faces b p ->
  gxx b p + gyy b p + gzz b p
  = PI / 2 * ((sign (zx b p) - sign (ax b p)) * (sign (zy b p) - sign (ay b p)) * (sign (zz b p) - sign (az b p))).
Proof.
  intro H. unfold gxx, gyy, gzz.
  transitivity (S3 (fun x y z => PI / 2 * (sign x * sign y * sign z)) b p).
  - transitivity (S3 (fun x y z => Tk x y z + Tk y z x + Tk z x y) b p).
    + unfold S3, csum. ring.
    + apply S3_ext; [exact H|]. exact solid_angle.
  - unfold S3, csum. ring.
Qed.

Lemma trace_inside b p : inside b p -> gxx b p + gyy b p + gzz b p = 4 * PI.
Proof.
  intros (A & B & C). rewrite S3_solid.
  - unfold zx, ax, zy, ay, zz, az. rewrite (sign_eq_1 (vx (b_max b) - vx p)), (sign_eq_1 (vy (b_max b) - vy p)), (sign_eq_1 (vz (b_max b) - vz p)), (sign_eq_m1 (vx (b_min b) - vx p)), (sign_eq_m1 (vy (b_min b) - vy p)), (sign_eq_m1 (vz (b_min b) - vz p)) by lra. field.
  - unfold off_faces. repeat split; lra.
Qed.
Lemma trace_outside b p : ordered b -> off_faces b p -> outside b p -> gxx b p + gyy b p + gzz b p = 0.
Proof.
  intros (A & B & C) H O. rewrite (S3_solid b p H). unfold zx, ax, zy, ay, zz, az.
  destruct O as [[O|O]|[[O|O]|[O|O]]].
  - rewrite (sign_eq_1 (vx (b_max b) - vx p)), (sign_eq_1 (vx (b_min b) - vx p)) by lra. ring.
  - rewrite (sign_eq_m1 (vx (b_max b) - vx p)), (sign_eq_m1 (vx (b_min b) - vx p)) by lra. ring.
  - rewrite (sign_eq_1 (vy (b_max b) - vy p)), (sign_eq_1 (vy (b_min b) - vy p)) by lra. ring.
  - rewrite (sign_eq_m1 (vy (b_max b) - vy p)), (sign_eq_m1 (vy (b_min b) - vy p)) by lra. ring.
  - rewrite (sign_eq_1 (vz (b_max b) - vz p)), (sign_eq_1 (vz (b_min b) - vz p)) by lra. ring.
  - rewrite (sign_eq_m1 (vz (b_max b) - vz p)), (sign_eq_m1 (vz (b_min b) - vz p)) by lra. ring.
Qed.

(** ** volume integral *)
Lemma cont_of_D (f : R -> R) x d : is_derive f x d -> continuous f x.
Proof. intro H. apply (ex_derive_continuous f). exists d; exact H. Qed.

Lemma cont_Gk_x x y z : reg x y z -> continuous (fun t => Gk t y z) x.
Proof.
  intro H. destruct (Req_dec x 0) as [->|N].
  - pose proof (reg_rad _ _ _ H) as Hr. pose proof (rad_d1 _ _ _ Hr) as D. destruct H as (A & B & C).
    apply (continuous_ext (fun t => (y * ln (z + rad t y z) + z * ln (y + rad t y z)) - t * atan (y * z / (t * rad t y z)))).
    { intro t. unfold Gk. reflexivity. }
    apply (continuous_minus (fun t => y * ln (z + rad t y z) + z * ln (y + rad t y z)) (fun t => t * atan (y * z / (t * rad t y z)))).
    + eapply cont_of_D. der; assumption.
    + apply cont_t_atan_0.
  - eapply cont_of_D. apply dG_x; assumption.
Qed.

Lemma cont_Lk_y x y z : reg x y z -> continuous (fun t => Lk x t z) y.
Proof.
  intro H. pose proof (reg_rad _ _ _ H) as Hr. pose proof (rad_d2 _ _ _ Hr) as D. destruct H as (A & B & C).
  unfold Lk. eapply cont_of_D. der; assumption.
Qed.
Lemma cont_inv_rad x y z : reg x y z -> continuous (fun t => 1 / rad x y t) z.
Proof.
  intro H. pose proof (reg_rad _ _ _ H) as Hr. pose proof (rad_d3 _ _ _ Hr) as D.
  eapply cont_of_D. der; lra.
Qed.

Lemma newton_reg a1 a2 b1 b2 c1 c2 : a1 <= a2 -> b1 <= b2 -> c1 <= c2 ->
  (forall x y z, a1 <= x <= a2 -> b1 <= y <= b2 -> c1 <= z <= c2 -> reg x y z) ->
  is_triple_integral (fun x y z => 1 / rad x y z) a1 a2 b1 b2 c1 c2 (- csum F a1 a2 b1 b2 c1 c2).
Proof.
  intros Ha Hb Hc H.
  pose proof (triple_FTC_gen (fun x y z => - F x y z) Gk Lk (fun x y z => 1 / rad x y z) ext2 ext2 ext1 a1 a2 b1 b2 c1 c2 Ha Hb Hc) as K.
  assert (E : - csum F a1 a2 b1 b2 c1 c2 =
    (- F a2 b2 c2 - - F a2 b2 c1 - - F a2 b1 c2 + - F a2 b1 c1 - - F a1 b2 c2 + - F a1 b2 c1 + - F a1 b1 c2 - - F a1 b1 c1)).
  { unfold csum. ring. }
  rewrite E. apply K. intros x y z Hx Hy Hz. specialize (H x y z Hx Hy Hz).
  refine (conj _ (conj _ (conj _ (conj _ (conj _ _))))).
  - eapply is_derive_eq; [apply D_opp, dF_x, H|]. ring.
  - apply dG_y, H.
  - apply dL_z, H.
  - apply cont_Gk_x, H.
  - apply cont_Lk_y, H.
  - apply cont_inv_rad, H.
Qed.

(** reflection of the last axis *)
Lemma F_refl x y z : z <> 0 -> F x y (- z) = - F x y z - x * y * (ln (z + rad x y z) + ln (- z + rad x y z)).
Proof.
  intro N. unfold F. replace (rad x y (- z)) with (rad x y z) by (unfold rad; f_equal; ring).
  set (r := rad x y z).
  replace (y * - z / (x * r)) with (- (y * z / (x * r))) by (unfold Rdiv; ring).
  replace (- z * x / (y * r)) with (- (z * x / (y * r))) by (unfold Rdiv; ring).
  assert (E : x * y / (- z * r) = - (x * y / (z * r))).
  { unfold Rdiv. replace (- z * r) with (- (z * r)) by ring. rewrite Rinv_opp. ring. }
  rewrite E, !atan_opp. ring.
Qed.

Lemma log_pair x y z : x <> 0 \/ y <> 0 -> ln (z + rad x y z) + ln (- z + rad x y z) = ln (x * x + y * y).
Proof.
  intro H. pose proof (rad_sqr x y z) as Q.
  assert (P : 0 < x * x + y * y) by (destruct H; nra).
  assert (R0 : 0 <= rad x y z) by apply sqrt_pos.
  assert (B : z * z < rad x y z * rad x y z) by nra.
  assert (- rad x y z < z < rad x y z) by (split; nra).
  rewrite <- ln_mult by lra. f_equal. nra.
Qed.

Lemma csum_F_refl a1 a2 b1 b2 c1 c2 : c1 <> 0 -> c2 <> 0 ->
  csum F a1 a2 b1 b2 c1 c2 = csum F a1 a2 b1 b2 (- c2) (- c1).
Proof.
  intros H1 H2.
  assert (K : forall x y z, z <> 0 -> F x y (- z) = - F x y z - x * y * ln (x * x + y * y)).
  { intros x y z Hz. rewrite F_refl by exact Hz.
    destruct (Req_dec x 0) as [->|Hx]; [ring|]. rewrite log_pair by tauto. reflexivity. }
  unfold csum. rewrite !K by assumption. ring.
Qed.

Lemma rad_neg x y z : rad x y (- z) = rad x y z.
Proof. unfold rad; f_equal; ring. Qed.

Lemma is_RInt_refl (f : R -> R) a b I : is_RInt f (- b) (- a) I -> is_RInt (fun x => f (- x)) a b I.
Proof.
  intro H. apply is_RInt_swap in H.
  replace (- a) with (-1 * a + 0) in H by ring. replace (- b) with (-1 * b + 0) in H by ring.
  pose proof (is_RInt_comp_lin f (-1) 0 a b _ H) as K.
  apply is_RInt_opp in K. change (opp (opp I)) with (- - I) in K. rewrite Ropp_involutive in K.
  eapply is_RInt_ext; [|exact K]. intros x _. cbn beta. change (- (-1 * f (-1 * x + 0)) = f (- x)).
  replace (-1 * x + 0) with (- x) by ring. ring.
Qed.

Lemma triple_refl3 f a1 a2 b1 b2 c1 c2 I :
  is_triple_integral f a1 a2 b1 b2 (- c2) (- c1) I -> is_triple_integral (fun x y z => f x y (- z)) a1 a2 b1 b2 c1 c2 I.
Proof.
  intros [g1 [g2 [A [B C]]]]. exists g1, g2. split; [|split; assumption].
  intros x y Hx Hy. apply (is_RInt_refl (fun z => f x y z)), A; assumption.
Qed.
Lemma triple_refl2 f a1 a2 b1 b2 c1 c2 I : 
  is_triple_integral f a1 a2 (- b2) (- b1) c1 c2 I -> is_triple_integral (fun x y z => f x (- y) z) a1 a2 b1 b2 c1 c2 I.
Proof.
  intros [g1 [g2 [A [B C]]]]. exists (fun x y => g1 x (- y)), g2. split; [|split; [|assumption]].
  - intros x y Hx Hy. apply A; lra.
  - intros x Hx. apply (is_RInt_refl (fun y => g1 x y)), B, Hx.
Qed.
Lemma triple_refl1 f a1 a2 b1 b2 c1 c2 I : 
  is_triple_integral f (- a2) (- a1) b1 b2 c1 c2 I -> is_triple_integral (fun x y z => f (- x) y z) a1 a2 b1 b2 c1 c2 I.
Proof.
  intros [g1 [g2 [A [B C]]]]. exists (fun x y => g1 (- x) y), (fun x => g2 (- x)). split; [|split].
  - intros x y Hx Hy. apply A; lra.
  - intros x Hx. apply B; lra.
  - apply (is_RInt_refl g2), C.
Qed.

Lemma triple_ext f g a1 a2 b1 b2 c1 c2 I : (forall x y z, f x y z = g x y z) ->
  is_triple_integral f a1 a2 b1 b2 c1 c2 I -> is_triple_integral g a1 a2 b1 b2 c1 c2 I.
Proof.
  intros E [g1 [g2 [A [B C]]]]. exists g1, g2. split; [|split; assumption].
  intros x y Hx Hy. eapply is_RInt_ext; [|apply (A x y Hx Hy)]. intros z _. cbn beta. apply E.
Qed.

Lemma csumF_rot a1 a2 b1 b2 c1 c2 : csum F a1 a2 b1 b2 c1 c2 = csum F b1 b2 c1 c2 a1 a2.
Proof. unfold csum. rewrite (F_rot a2 b2 c2), (F_rot a2 b2 c1), (F_rot a2 b1 c2), (F_rot a2 b1 c1), (F_rot a1 b2 c2), (F_rot a1 b2 c1), (F_rot a1 b1 c2), (F_rot a1 b1 c1). ring. Qed.

Lemma newton a1 a2 b1 b2 c1 c2 : a1 <= a2 -> b1 <= b2 -> c1 <= c2 ->
  (0 < a1 \/ a2 < 0) \/ (0 < b1 \/ b2 < 0) \/ (0 < c1 \/ c2 < 0) ->
  is_triple_integral (fun x y z => 1 / rad x y z) a1 a2 b1 b2 c1 c2 (- csum F a1 a2 b1 b2 c1 c2).
Proof.
  intros Ha Hb Hc O.
  assert (Pos : forall a1 a2 b1 b2 c1 c2, a1 <= a2 -> b1 <= b2 -> c1 <= c2 -> 0 < a1 \/ 0 < b1 \/ 0 < c1 ->
    is_triple_integral (fun x y z => 1 / rad x y z) a1 a2 b1 b2 c1 c2 (- csum F a1 a2 b1 b2 c1 c2)).
  { clear. intros a1 a2 b1 b2 c1 c2 Ha Hb Hc O. apply newton_reg; try assumption.
    intros x y z Hx Hy Hz. apply reg_of_pos. destruct O as [O|[O|O]]; lra. }
  destruct O as [[O|O]|[[O|O]|[O|O]]]; try (apply Pos; try assumption; lra).
  - rewrite (csumF_rot a1), (csum_F_refl b1), <- csumF_rot by lra.
    apply (triple_ext (fun x y z => 1 / rad (- x) y z)); [intros; f_equal; unfold rad; f_equal; ring|].
    apply (triple_refl1 (fun x y z => 1 / rad x y z)). apply Pos; lra.
  - rewrite (csumF_rot a1), (csumF_rot b1), (csum_F_refl c1), <- csumF_rot, <- csumF_rot by lra.
    apply (triple_ext (fun x y z => 1 / rad x (- y) z)); [intros; f_equal; unfold rad; f_equal; ring|].
    apply (triple_refl2 (fun x y z => 1 / rad x y z)). apply Pos; lra.
  - rewrite csum_F_refl by lra.
    apply (triple_ext (fun x y z => 1 / rad x y (- z))); [intros; f_equal; unfold rad; f_equal; ring|].
    apply (triple_refl3 (fun x y z => 1 / rad x y z)). apply Pos; lra.
Qed.

(** ** C27 *)
Lemma prism_newton G b rho p : ordered b -> outside b p -> exists I,
  is_triple_integral (fun x y z => 1 / vnorm (vsub p (V3 x y z)))
    (vx (b_min b)) (vx (b_max b)) (vy (b_min b)) (vy (b_max b)) (vz (b_min b)) (vz (b_max b)) I /\
  gravitational_potential G b rho p = G * rho * I.
Proof.
  intros (A & B & C) O. exists (- csum F (ax b p) (zx b p) (ay b p) (zy b p) (az b p) (zz b p)). split.
  - apply (triple_ext (fun x y z => 1 / rad (x - vx p) (y - vy p) (z - vz p))).
    { intros x y z. f_equal. unfold rad, vnorm, vnorm2, vsub; cbn [vx vy vz]. f_equal. ring. }
    apply (is_triple_shift (fun x y z => 1 / rad x y z)). unfold ax, zx, ay, zy, az, zz.
    apply newton; [lra..|]. destruct O as [[O|O]|[[O|O]|[O|O]]]; lra.
  - unfold gravitational_potential. rewrite eval0.
    rewrite (csum_ext prism_f F) by (intros; apply prism_f_form). ring.
Qed.

(** ** C28, C29 *)
Lemma is_grad_scal k f p g : is_grad f p g -> is_grad (fun q => k * f q) p (vscal k g).
Proof.
  intros (A & B & C). split_grad.
  - apply (D_scal k (fun t => f (V3 t (vy p) (vz p)))), A.
  - apply (D_scal k (fun t => f (V3 (vx p) t (vz p)))), B.
  - apply (D_scal k (fun t => f (V3 (vx p) (vy p) t))), C.
Qed.
Lemma is_grad_plus f h p g g' : is_grad f p g -> is_grad h p g' -> is_grad (fun q => f q + h q) p (vadd g g').
Proof.
  intros (A & B & C) (A' & B' & C'). split_grad.
  - apply (D_plus (fun t => f (V3 t (vy p) (vz p))) (fun t => h (V3 t (vy p) (vz p)))); assumption.
  - apply (D_plus (fun t => f (V3 (vx p) t (vz p))) (fun t => h (V3 (vx p) t (vz p)))); assumption.
  - apply (D_plus (fun t => f (V3 (vx p) (vy p) t)) (fun t => h (V3 (vx p) (vy p) t))); assumption.
Qed.
Lemma is_jac_scal k F p J : is_jac F p J -> is_jac (fun q => vscal k (F q)) p (mscal k J).
Proof. intros (A & B & C). refine (conj _ (conj _ _)); [apply (is_grad_scal k _ p _ A)|apply (is_grad_scal k _ p _ B)|apply (is_grad_scal k _ p _ C)]. Qed.

Lemma is_grad_ext f g p d : (forall q, f q = g q) -> is_grad f p d -> is_grad g p d.
Proof. intros E (A & B & C). refine (conj _ (conj _ _)); (eapply D_ext; [|eassumption]); intro t; cbn beta; apply E. Qed.
Lemma is_jac_ext f g p d : (forall q, f q = g q) -> is_jac f p d -> is_jac g p d.
Proof. intros E (A & B & C). refine (conj _ (conj _ _)); (eapply is_grad_ext; [|eassumption]); intro t; cbn beta; rewrite E; reflexivity. Qed.

(** the tensor of second derivatives as a corner sum, near a point off the faces *)
Definition tens b p : mat3 := M3 (V3 (gxx b p) (gxy b p) (gxz b p)) (V3 (gxy b p) (gyy b p) (gyz b p)) (V3 (gxz b p) (gyz b p) (gzz b p)).

Lemma grav_field_grad G b rho p : off_faces b p -> is_grad (gravitational_potential G b rho) p (gravitational_field G b rho p).
Proof.
  intro H. unfold gravitational_field. cbv zeta. rewrite field_form. apply (is_grad_scal (- G * rho) (fun q => eval_def_int b prism_f q 0)), dF_grad, H.
Qed.

Lemma grav_gradient_form G b rho p : off_faces b p -> gravitational_gradient G b rho p = mscal (- G * rho) (tens b p).
Proof.
  intro H. destruct (tensor_forms b p H) as (A1 & A2 & A3 & A4 & A5 & A6).
  unfold gravitational_gradient. cbv zeta. rewrite A1, A2, A3, A4, A5, A6. reflexivity.
Qed.

Lemma grav_gradient_jac G b rho p : off_faces b p -> is_jac (gravitational_field G b rho) p (gravitational_gradient G b rho p).
Proof.
  intro H. rewrite (grav_gradient_form G b rho p H).
  apply (is_jac_ext (fun q => vscal (- G * rho) (fieldsum b q))).
  { intro q. unfold gravitational_field. cbv zeta. rewrite field_form. reflexivity. }
  apply is_jac_scal, field_jac, H.
Qed.

Lemma grav_gradient_sym G b rho p : msym (gravitational_gradient G b rho p).
Proof. unfold gravitational_gradient, msym, mtrans; cbv zeta; cbn [m0 m1 m2 vx vy vz vscal]. reflexivity. Qed.

Lemma inside_off b p : inside b p -> off_faces b p.
Proof. intros (A & B & C). unfold off_faces. repeat split; lra. Qed.

Lemma grav_trace_inside G b rho p : inside b p -> mtrace (gravitational_gradient G b rho p) = - (4 * PI * G * rho).
Proof.
  intro H. rewrite grav_gradient_form by (apply inside_off, H). pose proof (trace_inside b p H) as T.
  unfold mtrace, mscal, tens, vscal; cbn [m0 m1 m2 vx vy vz].
  transitivity (- G * rho * (gxx b p + gyy b p + gzz b p)); [ring|rewrite T; ring].
Qed.
Lemma grav_trace_outside G b rho p : ordered b -> off_faces b p -> outside b p -> mtrace (gravitational_gradient G b rho p) = 0.
Proof.
  intros Ho H O. rewrite grav_gradient_form by exact H. pose proof (trace_outside b p Ho H O) as T.
  unfold mtrace, mscal, tens, vscal; cbn [m0 m1 m2 vx vy vz].
  transitivity (- G * rho * (gxx b p + gyy b p + gzz b p)); [ring|rewrite T; ring].
Qed.

(** ** C30 *)
Lemma eval_cut b l r f p n : cut_into b l r -> eval_def_int b f p n = eval_def_int l f p n + eval_def_int r f p n.
Proof.
  intro C. revert f.
  assert (K : forall m f, (m < 3)%nat -> eval_def_int b f p m = eval_def_int l f p m + eval_def_int r f p m).
  { intros m f Hm. destruct m as [|[|[|m]]]; [| | |lia]; destruct C; rewrite ?eval0, ?eval1, ?eval2;
      unfold csum, ax, ay, az, zx, zy, zz; cbn [vx vy vz b_min b_max]; ring. }
  assert (R3 : forall bb f, eval_def_int bb f p n = eval_def_int bb f p (n mod 3)).
  { intros bb f. unfold eval_def_int.
    assert (I : forall m v, Nat.iter (3 * m) rotate_axes v = v).
    { induction m as [|m IH]; intro v; [reflexivity|]. replace (3 * S m)%nat with (S (S (S (3 * m)))) by lia.
      cbn [Nat.iter nat_rect]. unfold Nat.iter in IH. rewrite IH. destruct v; reflexivity. }
    assert (J : forall v, Nat.iter n rotate_axes v = Nat.iter (n mod 3) rotate_axes v).
    { intro v. transitivity (Nat.iter (n mod 3 + 3 * (n / 3)) rotate_axes v).
      { apply (f_equal (fun k => Nat.iter k rotate_axes v)). rewrite Nat.add_comm. apply Nat.div_mod. lia. }
      assert (Q : forall a c w, Nat.iter (a + c) rotate_axes w = Nat.iter a rotate_axes (Nat.iter c rotate_axes w)).
      { induction a as [|a IH]; intros; [reflexivity|]. cbn [Nat.add Nat.iter nat_rect]. unfold Nat.iter in IH. rewrite IH. reflexivity. }
      rewrite Q, I. reflexivity. }
    rewrite !J. reflexivity. }
  intro f. rewrite !R3. apply K, Nat.mod_upper_bound. lia.
Qed.

Lemma grav_cut G b l r rho p : cut_into b l r ->
  gravitational_potential G b rho p = gravitational_potential G l rho p + gravitational_potential G r rho p /\
  gravitational_field G b rho p = vadd (gravitational_field G l rho p) (gravitational_field G r rho p) /\
  gravitational_gradient G b rho p = madd (gravitational_gradient G l rho p) (gravitational_gradient G r rho p) /\
  prism_mass b rho = prism_mass l rho + prism_mass r rho.
Proof.
  intro C. refine (conj _ (conj _ (conj _ _))).
  - unfold gravitational_potential. rewrite (eval_cut b l r _ _ _ C). ring.
  - unfold gravitational_field. cbv zeta. rewrite !(eval_cut b l r _ _ _ C). unfold vadd, vscal; cbn [vx vy vz]. f_equal; ring.
  - unfold gravitational_gradient. cbv zeta. rewrite !(eval_cut b l r _ _ _ C). unfold madd, vadd, vscal; cbn [vx vy vz m0 m1 m2]. f_equal; f_equal; ring.
  - unfold prism_mass, volume. destruct C; cbn [vx vy vz b_min b_max]; ring.
Qed.

Lemma grav_linear G b k1 k2 rho1 rho2 p :
  gravitational_potential G b (k1 * rho1 + k2 * rho2) p = k1 * gravitational_potential G b rho1 p + k2 * gravitational_potential G b rho2 p /\
  gravitational_field G b (k1 * rho1 + k2 * rho2) p = vadd (vscal k1 (gravitational_field G b rho1 p)) (vscal k2 (gravitational_field G b rho2 p)) /\
  gravitational_gradient G b (k1 * rho1 + k2 * rho2) p = madd (mscal k1 (gravitational_gradient G b rho1 p)) (mscal k2 (gravitational_gradient G b rho2 p)) /\
  prism_mass b (k1 * rho1 + k2 * rho2) = k1 * prism_mass b rho1 + k2 * prism_mass b rho2.
Proof.
  refine (conj _ (conj _ (conj _ _))).
  - unfold gravitational_potential. ring.
  - unfold gravitational_field. cbv zeta. unfold vadd, vscal; cbn [vx vy vz]. f_equal; ring.
  - unfold gravitational_gradient. cbv zeta. unfold madd, mscal, vadd, vscal; cbn [vx vy vz m0 m1 m2]. f_equal; f_equal; ring.
  - unfold prism_mass. ring.
Qed.
