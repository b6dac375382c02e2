(** A prism seen from inside: the small cube about the point contributes nothing but a known share. *)
From Coq Require Import Reals Lra Lia String List.
From Coquelicot Require Import Coquelicot.
From Verif Require Import Vec3 Calculus Deriv Numpy Integral Model_Gravity Model_Static Model_Prism Spec_Prism Spec_Super Spec_Interior Proof_Prism Proof_Prism2 Proof_Prism3 Proof_Prism4 Proof_Super6 Proof_Jump.
Import ListNotations.
Open Scope R_scope.

Fixpoint vsum (l : list vec3) : vec3 := match l with [] => vzero | v :: r => vadd v (vsum r) end.
Fixpoint rsum (l : list R) : R := match l with [] => 0 | v :: r => v + rsum r end.
Fixpoint msum (l : list mat3) : mat3 := match l with [] => M3 vzero vzero vzero | v :: r => madd v (msum r) end.

Lemma eval_shell b f p n d : eval_def_int b f p n = eval_def_int (cube p d) f p n + rsum (map (fun c => eval_def_int c f p n) (shell b p d)).
Proof.
  destruct b as [[x0 y0 z0] [x1 y1 z1]], p as [x y z]. unfold cube, shell; cbn [vx vy vz b_min b_max map rsum].
  rewrite (eval_cut _ _ _ f _ n (cut_x x0 y0 z0 x1 y1 z1 (x - d))), (eval_cut _ _ _ f _ n (cut_x (x - d) y0 z0 x1 y1 z1 (x + d))).
  rewrite (eval_cut _ _ _ f _ n (cut_y (x - d) y0 z0 (x + d) y1 z1 (y - d))), (eval_cut _ _ _ f _ n (cut_y (x - d) (y - d) z0 (x + d) y1 z1 (y + d))).
  rewrite (eval_cut _ _ _ f _ n (cut_z (x - d) (y - d) z0 (x + d) (y + d) z1 (z - d))), (eval_cut _ _ _ f _ n (cut_z (x - d) (y - d) (z - d) (x + d) (y + d) z1 (z + d))). ring.
Qed.

(** *** the cube seen from its centre *)
Definition ctr (f : R -> R -> R -> R) (d : R) : R := csum f (- d) d (- d) d (- d) d.
Lemma eval_cube f p d : eval_def_int (cube p d) f p 0 = ctr f d /\ eval_def_int (cube p d) f p 1 = ctr (fun x y z => f y z x) d /\ eval_def_int (cube p d) f p 2 = ctr (fun x y z => f z x y) d.
Proof.
  rewrite eval0, eval1, eval2. unfold ctr, ax, ay, az, zx, zy, zz, cube; cbn [vx vy vz b_min b_max].
  replace (vx p - d - vx p) with (- d) by ring. replace (vy p - d - vy p) with (- d) by ring. replace (vz p - d - vz p) with (- d) by ring.
  replace (vx p + d - vx p) with d by ring. replace (vy p + d - vy p) with d by ring. replace (vz p + d - vz p) with d by ring. repeat split.
Qed.
Lemma ctr_even1 f d : (forall x y z, f (- x) y z = f x y z) -> ctr f d = 0.
Proof. intros H. unfold ctr, csum. rewrite !(H d). ring. Qed.
Lemma ctr_even2 f d : (forall x y z, f x (- y) z = f x y z) -> ctr f d = 0.
Proof. intros H. unfold ctr, csum. rewrite !(H _ d). ring. Qed.
Lemma ctr_even3 f d : (forall x y z, f x y (- z) = f x y z) -> ctr f d = 0.
Proof. intros H. unfold ctr, csum. rewrite !(H _ _ d). ring. Qed.
Lemma rad_n1 x y z : rad (- x) y z = rad x y z. Proof. unfold rad. f_equal. ring. Qed.
Lemma rad_n2 x y z : rad x (- y) z = rad x y z. Proof. unfold rad. f_equal. ring. Qed.
Lemma rad_n3 x y z : rad x y (- z) = rad x y z. Proof. unfold rad. f_equal. ring. Qed.
Lemma Gk_even x y z : Gk (- x) y z = Gk x y z.
Proof.
  unfold Gk. cbv zeta. rewrite rad_n1. replace (y * z / (- x * rad x y z)) with (- (y * z / (x * rad x y z))); [rewrite atan_opp; ring|].
  unfold Rdiv. rewrite Ropp_mult_distr_l_reverse, Rinv_opp. ring.
Qed.
Lemma Tk_odd1 x y z : Tk (- x) y z = - Tk x y z.
Proof. unfold Tk. rewrite rad_n1, <- atan_opp. f_equal. unfold Rdiv. rewrite Ropp_mult_distr_l_reverse, Rinv_opp. ring. Qed.
Lemma Tk_odd2 x y z : Tk x (- y) z = - Tk x y z.
Proof. unfold Tk. rewrite rad_n2, <- atan_opp. f_equal. unfold Rdiv. ring. Qed.
Lemma Tk_odd3 x y z : Tk x y (- z) = - Tk x y z.
Proof. unfold Tk. rewrite rad_n3, <- atan_opp. f_equal. unfold Rdiv. ring. Qed.
Lemma Tk_diag d : 0 < d -> Tk d d d = PI / 6.
Proof.
  intros D. unfold Tk, rad. replace (d * d + d * d + d * d) with (3 * (d * d)) by ring. rewrite sqrt_mult by nra. rewrite sqrt_square by lra.
  replace (d * d / (d * (sqrt 3 * d))) with (/ sqrt 3); [|assert (0 < sqrt 3) by (apply sqrt_lt_R0; lra); field; split; lra].
  rewrite <- atan_tan with (x := PI / 6) by (pose proof PI_RGT_0; lra). f_equal. rewrite tan_PI6. unfold Rdiv. ring.
Qed.
Lemma ctr_Tk d : 0 < d -> ctr (fun x y z => Tk x y z) d = 4 * PI / 3 /\ ctr (fun x y z => Tk y z x) d = 4 * PI / 3 /\ ctr (fun x y z => Tk z x y) d = 4 * PI / 3.
Proof. intros D. unfold ctr, csum. rewrite ?Tk_odd1, ?Tk_odd2, ?Tk_odd3, ?(Tk_diag d D). repeat split; field. Qed.
Lemma cube_apart p d : 0 < d -> apart_box (cube p d) p.
Proof. intros D. unfold apart_box, ax, ay, az, zx, zy, zz, cube; cbn [vx vy vz b_min b_max]. intros x y z X Y Z. unfold apart3. repeat split; left; lra. Qed.
Lemma Lk_n1 x y z : Lk (- x) y z = Lk x y z. Proof. unfold Lk. rewrite rad_n1. reflexivity. Qed.
Lemma Lk_n2 x y z : Lk x (- y) z = Lk x y z. Proof. unfold Lk. rewrite rad_n2. reflexivity. Qed.
Lemma S3_cube f p d : S3 f (cube p d) p = ctr f d.
Proof. destruct (eval_cube f p d) as [E _]. rewrite eval0 in E. exact E. Qed.
Lemma cube_T6 p d : 0 < d -> T6 (cube p d) p = mscal (4 * PI / 3) mid.
Proof.
  intros D. rewrite T6_G6 by (apply cube_apart, D). unfold G6, gxx, gyy, gzz, gxy, gxz, gyz. rewrite !S3_cube. destruct (ctr_Tk d D) as (E1 & E2 & E3). rewrite E1, E2, E3.
  rewrite (ctr_even1 (fun x y z => - Lk x y z) d) by (intros; rewrite Lk_n1; reflexivity). rewrite (ctr_even1 (fun x y z => - Lk x z y) d) by (intros; rewrite Lk_n1; reflexivity).
  rewrite (ctr_even2 (fun x y z => - Lk y z x) d) by (intros; rewrite Lk_n1; reflexivity).
  unfold mscal, mid, vscal; cbn [m0 m1 m2 vx vy vz]. f_equal; f_equal; ring.
Qed.
Lemma cube_fz p d : eval_def_int (cube p d) prism_fz p 0 = 0 /\ eval_def_int (cube p d) prism_fz p 1 = 0 /\ eval_def_int (cube p d) prism_fz p 2 = 0.
Proof.
  destruct (eval_cube prism_fz p d) as (E0 & E1 & E2). rewrite E0, E1, E2. split; [|split].
  - apply ctr_even3. intros. rewrite !prism_fz_form. apply Gk_even.
  - apply ctr_even1. intros. rewrite !prism_fz_form. apply Gk_even.
  - apply ctr_even2. intros. rewrite !prism_fz_form. apply Gk_even.
Qed.
(** the potential: the terms with ln d cancel *)
Lemma F_scale d x y z : 0 < d -> reg x y z -> F (d * x) (d * y) (d * z) = d ^ 2 * (F x y z - ln d * (x * y + y * z + z * x)).
Proof.
  intros D (A & B & C). unfold F. cbv zeta. assert (E : rad (d * x) (d * y) (d * z) = d * rad x y z).
  { unfold rad. replace (d * x * (d * x) + d * y * (d * y) + d * z * (d * z)) with ((d * d) * (x * x + y * y + z * z)) by ring. rewrite sqrt_mult by nra. rewrite sqrt_square by lra. reflexivity. }
  rewrite E, <- !Rmult_plus_distr_l, !ln_mult by lra.
  assert (Q : forall a b c, d * a * (d * b) / (d * c * (d * rad x y z)) = a * b / (c * rad x y z)).
  { intros a b c. unfold Rdiv. rewrite !Rinv_mult. replace (d * a * (d * b) * (/ d * / c * (/ d * / rad x y z))) with ((d * / d) * (d * / d) * (a * b * (/ c * / rad x y z))) by ring. rewrite Rinv_r by lra. ring. }
  rewrite !Q. ring.
Qed.
Lemma ctr_F d : 0 < d -> ctr F d = d ^ 2 * ctr F 1.
Proof.
  intros D. unfold ctr, csum. assert (E : forall a b c, (a = 1 \/ a = -1) -> (b = 1 \/ b = -1) -> (c = 1 \/ c = -1) -> F (d * a) (d * b) (d * c) = d ^ 2 * (F a b c - ln d * (a * b + b * c + c * a))).
  { intros a b c A B C. apply F_scale; [exact D|]. apply reg_of_nonzero; lra. }
  replace (- (1)) with (-1) by ring.
  pose proof (E 1 1 1) as K1. pose proof (E 1 1 (-1)) as K2. pose proof (E 1 (-1) 1) as K3. pose proof (E 1 (-1) (-1)) as K4.
  pose proof (E (-1) 1 1) as K5. pose proof (E (-1) 1 (-1)) as K6. pose proof (E (-1) (-1) 1) as K7. pose proof (E (-1) (-1) (-1)) as K8. clear E.
  replace (d * 1) with d in * by ring. replace (d * -1) with (- d) in * by ring.
  rewrite K1, K2, K3, K4, K5, K6, K7, K8 by tauto. ring.
Qed.
Definition cube_const : R := 12 * ln (2 + sqrt 3) - 2 * PI.
Lemma ctr_F1 : ctr F 1 = - cube_const.
Proof.
  assert (Q : 0 < sqrt 3) by (apply sqrt_lt_R0; lra). assert (Q2 : sqrt 3 * sqrt 3 = 3) by (apply sqrt_sqrt; lra). assert (Q1 : 1 < sqrt 3) by nra.
  assert (Rr : forall a b c, (a = 1 \/ a = -1) -> (b = 1 \/ b = -1) -> (c = 1 \/ c = -1) -> rad a b c = sqrt 3).
  { intros a b c A B C. unfold rad. f_equal. destruct A as [-> | ->], B as [-> | ->], C as [-> | ->]; ring. }
  assert (L : ln (1 + sqrt 3) = ln (2 + sqrt 3) + ln (-1 + sqrt 3)) by (rewrite <- ln_mult by lra; f_equal; lra).
  assert (E : forall a b c, (a = 1 \/ a = -1) -> (b = 1 \/ b = -1) -> (c = 1 \/ c = -1) ->
    F a b c = - (a * b * ln (c + sqrt 3)) - b * c * ln (a + sqrt 3) - c * a * ln (b + sqrt 3) + 1 / 2 * Tk a b c + 1 / 2 * Tk b c a + 1 / 2 * Tk c a b).
  { intros a b c A B C. unfold F, Tk. cbv zeta. rewrite (rad_rot a b c), (rad_rot2 a b c), (Rr a b c A B C). destruct A as [-> | ->], B as [-> | ->], C as [-> | ->]; ring. }
  unfold ctr, csum. replace (- (1)) with (-1) by ring. rewrite !E by tauto. replace (-1) with (- (1)) by ring. rewrite ?Tk_odd1, ?Tk_odd2, ?Tk_odd3, ?(Tk_diag 1 Rlt_0_1). replace (- (1)) with (-1) by ring. rewrite L. unfold cube_const. field.
Qed.

(** *** sums over the shell *)
Lemma boxes_sum f (V : box -> R) l : List.Forall (fun b => box_integral f b (V b)) l -> boxes_integral f l (rsum (map V l)).
Proof. induction 1 as [|b l H _ IH]; cbn [map rsum boxes_integral]; [reflexivity|]. exists (V b), (rsum (map V l)). auto. Qed.
Lemma shell_ok b p d : cube_within b p d -> List.Forall (fun c => ordered c /\ outside c p) (shell b p d).
Proof.
  destruct b as [[x0 y0 z0] [x1 y1 z1]], p as [x y z]. unfold cube_within, shell; cbn [vx vy vz b_min b_max]. intros (D & H1 & H2 & H3 & H4 & H5 & H6).
  repeat (apply Forall_cons; [unfold ordered, outside; cbn [vx vy vz b_min b_max]; lra|]). apply Forall_nil.
Qed.
Lemma shell_boxes (b : box) p d (f : vec3 -> R) (V : box -> R) : cube_within b p d -> (forall c, ordered c -> outside c p -> box_integral f c (V c)) -> boxes_integral f (shell b p d) (rsum (map V (shell b p d))).
Proof. intros W H. apply boxes_sum. eapply Forall_impl; [|apply (shell_ok b p d W)]. intros c [O U]. apply H; assumption. Qed.
Lemma rsum_lin {A} (f g h : A -> R) a b c l : rsum (map (fun x => a * f x + b * g x + c * h x) l) = a * rsum (map f l) + b * rsum (map g l) + c * rsum (map h l).
Proof. induction l as [|x l IH]; cbn [map rsum]; [ring|rewrite IH; ring]. Qed.
Lemma rsum_ext {A} (f g : A -> R) l : (forall x, f x = g x) -> rsum (map f l) = rsum (map g l).
Proof. intros H. f_equal. apply map_ext, H. Qed.
(** a method that is a combination of three corner sums *)
Lemma shell_lin b p d f1 n1 f2 n2 f3 n3 k1 k2 k3 (V : box -> R) : (forall c, V c = k1 * eval_def_int c f1 p n1 + k2 * eval_def_int c f2 p n2 + k3 * eval_def_int c f3 p n3) ->
  rsum (map V (shell b p d)) = V b - V (cube p d).
Proof.
  intros H. rewrite (rsum_ext V _ _ H), rsum_lin, !H. rewrite (eval_shell b f1 p n1 d), (eval_shell b f2 p n2 d), (eval_shell b f3 p n3 d). ring.
Qed.
Section In.
Variables (b : box) (p : vec3) (d : R).
Hypothesis W : cube_within b p d.
Let D : 0 < d. Proof. apply W. Qed.
Lemma in_boxes (f : vec3 -> R) (V : box -> R) J f1 n1 f2 n2 f3 n3 k1 k2 k3 : (forall c, ordered c -> outside c p -> box_integral f c (V c)) ->
  (forall c, V c = k1 * eval_def_int c f1 p n1 + k2 * eval_def_int c f2 p n2 + k3 * eval_def_int c f3 p n3) -> J = V b - V (cube p d) -> boxes_integral f (shell b p d) J.
Proof. intros H E ->. rewrite <- (shell_lin b p d f1 n1 f2 n2 f3 n3 k1 k2 k3 V E). apply shell_boxes; assumption. Qed.
Lemma cube_potential G rho : gravitational_potential G (cube p d) rho p = G * rho * (cube_const * d ^ 2).
Proof.
  unfold gravitational_potential. destruct (eval_cube prism_f p d) as [E _]. rewrite E. replace (ctr prism_f d) with (ctr F d) by (unfold ctr, csum; rewrite !prism_f_form; reflexivity).
  rewrite (ctr_F d D), ctr_F1. ring.
Qed.
Lemma cube_field G rho : gravitational_field G (cube p d) rho p = vzero.
Proof. unfold gravitational_field. cbv zeta. destruct (cube_fz p d) as (E0 & E1 & E2). rewrite E0, E1, E2. unfold vscal, vzero; cbn [vx vy vz]. f_equal; ring. Qed.
Lemma cube_gradient G rho : gravitational_gradient G (cube p d) rho p = mscal (- (4 / 3 * PI * G * rho)) mid.
Proof. rewrite grav_T6, (cube_T6 p d D). unfold mscal, mid, vscal; cbn [m0 m1 m2 vx vy vz]. f_equal; f_equal; field. Qed.
Lemma cube_scalar m : scalar_potential (cube p d) m p = 0.
Proof. unfold scalar_potential. cbv zeta. destruct (cube_fz p d) as (E0 & E1 & E2). rewrite E0, E1, E2. ring. Qed.
Lemma cube_H m : magnetic_field (cube p d) m p = vscal (- (1 / 3)) m.
Proof. rewrite mag_T6, (cube_T6 p d D). pose proof PI_RGT_0. destruct m as [x y z]. unfold mscal, mid, vscal, mvec, vdot; cbn [m0 m1 m2 vx vy vz]. f_equal; field; lra. Qed.

Lemma in_potential rho : boxes_integral (fun q => pm_potential (PM rho q) p) (shell b p d) (gravitational_potential G_newton b rho p - G_newton * rho * (cube_const * d ^ 2)).
Proof.
  apply (in_boxes _ (fun c => gravitational_potential G_newton c rho p) _ prism_f 0%nat prism_f 0%nat prism_f 0%nat (- G_newton * rho) 0 0).
  - intros c O U. exact (proj1 (gravity_super c rho p O U)).
  - intros c. unfold gravitational_potential. ring.
  - rewrite cube_potential. ring.
Qed.
Lemma in_field rho : boxes_vintegral (fun q => pm_field (PM rho q) p) (shell b p d) (gravitational_field G_newton b rho p).
Proof.
  assert (H : forall c, ordered c -> outside c p -> box_vintegral (fun q => pm_field (PM rho q) p) c (gravitational_field G_newton c rho p)) by (intros c O U; exact (proj1 (proj2 (gravity_super c rho p O U)))).
  refine (conj _ (conj _ _)).
  - apply (in_boxes _ (fun c => vx (gravitational_field G_newton c rho p)) _ prism_fz 1%nat prism_fz 0%nat prism_fz 0%nat (- G_newton * rho) 0 0); [intros c O U; apply (H c O U)|intros c; cbn; ring|rewrite cube_field; cbn [vzero vx vy vz]; ring].
  - apply (in_boxes _ (fun c => vy (gravitational_field G_newton c rho p)) _ prism_fz 2%nat prism_fz 0%nat prism_fz 0%nat (- G_newton * rho) 0 0); [intros c O U; apply (H c O U)|intros c; cbn; ring|rewrite cube_field; cbn [vzero vx vy vz]; ring].
  - apply (in_boxes _ (fun c => vz (gravitational_field G_newton c rho p)) _ prism_fz 0%nat prism_fz 0%nat prism_fz 0%nat (- G_newton * rho) 0 0); [intros c O U; apply (H c O U)|intros c; cbn; ring|rewrite cube_field; cbn [vzero vx vy vz]; ring].
Qed.
Lemma in_gradient rho : boxes_mintegral (fun q => pm_gradient (PM rho q) p) (shell b p d) (madd (gravitational_gradient G_newton b rho p) (mscal (4 / 3 * PI * G_newton * rho) mid)).
Proof.
  assert (H : forall c, ordered c -> outside c p -> box_mintegral (fun q => pm_gradient (PM rho q) p) c (gravitational_gradient G_newton c rho p)) by (intros c O U; exact (proj2 (proj2 (gravity_super c rho p O U)))).
  refine (conj (conj _ (conj _ _)) (conj (conj _ (conj _ _)) (conj _ (conj _ _)))).
  - apply (in_boxes _ (fun c => vx (m0 (gravitational_gradient G_newton c rho p))) _ prism_fzz 1%nat prism_fz 0%nat prism_fz 0%nat (- G_newton * rho) 0 0); [intros c O U; apply (H c O U)|intros c; cbn; ring|rewrite cube_gradient; cbn; ring].
  - apply (in_boxes _ (fun c => vy (m0 (gravitational_gradient G_newton c rho p))) _ prism_fzx 1%nat prism_fz 0%nat prism_fz 0%nat (- G_newton * rho) 0 0); [intros c O U; apply (H c O U)|intros c; cbn; ring|rewrite cube_gradient; cbn; ring].
  - apply (in_boxes _ (fun c => vz (m0 (gravitational_gradient G_newton c rho p))) _ prism_fzx 0%nat prism_fz 0%nat prism_fz 0%nat (- G_newton * rho) 0 0); [intros c O U; apply (H c O U)|intros c; cbn; ring|rewrite cube_gradient; cbn; ring].
  - apply (in_boxes _ (fun c => vx (m1 (gravitational_gradient G_newton c rho p))) _ prism_fzx 1%nat prism_fz 0%nat prism_fz 0%nat (- G_newton * rho) 0 0); [intros c O U; apply (H c O U)|intros c; cbn; ring|rewrite cube_gradient; cbn; ring].
  - apply (in_boxes _ (fun c => vy (m1 (gravitational_gradient G_newton c rho p))) _ prism_fzz 2%nat prism_fz 0%nat prism_fz 0%nat (- G_newton * rho) 0 0); [intros c O U; apply (H c O U)|intros c; cbn; ring|rewrite cube_gradient; cbn; ring].
  - apply (in_boxes _ (fun c => vz (m1 (gravitational_gradient G_newton c rho p))) _ prism_fzy 0%nat prism_fz 0%nat prism_fz 0%nat (- G_newton * rho) 0 0); [intros c O U; apply (H c O U)|intros c; cbn; ring|rewrite cube_gradient; cbn; ring].
  - apply (in_boxes _ (fun c => vx (m2 (gravitational_gradient G_newton c rho p))) _ prism_fzx 0%nat prism_fz 0%nat prism_fz 0%nat (- G_newton * rho) 0 0); [intros c O U; apply (H c O U)|intros c; cbn; ring|rewrite cube_gradient; cbn; ring].
  - apply (in_boxes _ (fun c => vy (m2 (gravitational_gradient G_newton c rho p))) _ prism_fzy 0%nat prism_fz 0%nat prism_fz 0%nat (- G_newton * rho) 0 0); [intros c O U; apply (H c O U)|intros c; cbn; ring|rewrite cube_gradient; cbn; ring].
  - apply (in_boxes _ (fun c => vz (m2 (gravitational_gradient G_newton c rho p))) _ prism_fzz 0%nat prism_fz 0%nat prism_fz 0%nat (- G_newton * rho) 0 0); [intros c O U; apply (H c O U)|intros c; cbn; ring|rewrite cube_gradient; cbn; ring].
Qed.
Lemma in_scalar k n : boxes_integral (fun q => - k * vdot n (vsub p q) / (4 * PI * vnorm (vsub p q) ^ 3)) (shell b p d) (scalar_potential b (vscal k n) p).
Proof.
  apply (in_boxes _ (fun c => scalar_potential c (vscal k n) p) _ prism_fz 1%nat prism_fz 2%nat prism_fz 0%nat (- 1 / (4 * PI) * (k * vx n)) (- 1 / (4 * PI) * (k * vy n)) (- 1 / (4 * PI) * (k * vz n))).
  - intros c O U. exact (proj1 (magnetic_super c k n 1 p O U)).
  - intros c. unfold scalar_potential, vscal; cbv zeta; cbn [vx vy vz]. ring.
  - rewrite cube_scalar. ring.
Qed.
Lemma in_H k n mu H : mu <> 0 -> (forall q, mdipole_field (MD k n q mu) "cartesian"%string p = Ok (H q)) -> boxes_vintegral H (shell b p d) (vadd (magnetic_field b (vscal k n) p) (vscal (1 / 3) (vscal k n))).
Proof.
  intros M E. assert (S : forall c, ordered c -> outside c p -> box_vintegral H c (magnetic_field c (vscal k n) p)) by (intros c O U; exact (proj1 (proj2 (magnetic_super c k n mu p O U)) H M E)).
  refine (conj _ (conj _ _)).
  - apply (in_boxes _ (fun c => vx (magnetic_field c (vscal k n) p)) _ prism_fzz 1%nat prism_fzx 1%nat prism_fzx 0%nat (- 1 / (4 * PI) * (k * vx n)) (- 1 / (4 * PI) * (k * vy n)) (- 1 / (4 * PI) * (k * vz n))); [intros c O U; apply (S c O U)|intros c; cbn; ring|rewrite cube_H; cbn; ring].
  - apply (in_boxes _ (fun c => vy (magnetic_field c (vscal k n) p)) _ prism_fzx 1%nat prism_fzz 2%nat prism_fzy 0%nat (- 1 / (4 * PI) * (k * vx n)) (- 1 / (4 * PI) * (k * vy n)) (- 1 / (4 * PI) * (k * vz n))); [intros c O U; apply (S c O U)|intros c; cbn; ring|rewrite cube_H; cbn; ring].
  - apply (in_boxes _ (fun c => vz (magnetic_field c (vscal k n) p)) _ prism_fzx 0%nat prism_fzy 0%nat prism_fzz 0%nat (- 1 / (4 * PI) * (k * vx n)) (- 1 / (4 * PI) * (k * vy n)) (- 1 / (4 * PI) * (k * vz n))); [intros c O U; apply (S c O U)|intros c; cbn; ring|rewrite cube_H; cbn; ring].
Qed.
End In.
