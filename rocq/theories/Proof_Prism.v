From Coq Require Import Reals Lra List Bool Lia.
From Coquelicot Require Import Coquelicot.
From Verif Require Import Vec3 Calculus Deriv Numpy Model_Prism.
Import ListNotations.
Open Scope R_scope.

(** ** masked updates are pointwise *)
Lemma mask_select_combine {A B} m (a : list A) (b : list B) :
  combine (mask_select m a) (mask_select m b) = mask_select m (combine a b).
Proof.
  revert a b; induction m as [|c m IH]; intros [|x a] [|y b]; cbn; try reflexivity.
  - destruct c; [reflexivity|]. destruct (mask_select m a); reflexivity.
  - destruct c; cbn; rewrite IH; reflexivity.
Qed.

Lemma masked_update_pt {P} (p : P -> bool) g pts h :
  masked_update p g pts (map h pts) = Ok (map (fun q => if p q then g (h q) q else h q) pts).
Proof.
  unfold masked_update. rewrite mask_select_combine.
  replace (combine (map h pts) pts) with (map (fun q => (h q, q)) pts)
    by (induction pts; cbn; congruence).
  rewrite mask_select_map, map_map. cbn [fst snd].
  apply (mask_assign_pointwise p (fun q => g (h q) q) h).
Qed.

Lemma zeros_map {P} (pts : list P) : zeros pts = map (fun _ => 0) pts.
Proof. apply map_repeat_const. Qed.

Ltac np_pt := rewrite zeros_map; repeat (rewrite masked_update_pt; cbn [rbind]); apply f_equal; apply map_ext; intros [x y z]; cbn [vx vy vz].

Lemma nonzero_true x : nonzero x = true <-> x <> 0.
Proof. unfold nonzero. rewrite negb_true_iff. apply Reqb_false. Qed.
Lemma nonzero_false x : nonzero x = false <-> x = 0.
Proof. unfold nonzero. rewrite negb_false_iff. apply Reqb_true. Qed.

Lemma ln_nonpos x : x <= 0 -> ln x = 0.
Proof. intro H. unfold ln. destruct (Rlt_dec 0 x) as [K|K]; [exfalso; lra|reflexivity]. Qed.

Lemma rad_sqr x y z : rad x y z * rad x y z = x * x + y * y + z * z.
Proof. apply sqrt_sqrt. nra. Qed.
Lemma rad_pos x y z : 0 <= rad x y z.
Proof. apply sqrt_pos. Qed.
Lemma rad_0 x y z : rad x y z = 0 -> x = 0 /\ y = 0 /\ z = 0.
Proof. intro H. pose proof (rad_sqr x y z) as Q. rewrite H in Q. repeat split; nra. Qed.
Lemma rad_abs x y z : - rad x y z <= x <= rad x y z /\ - rad x y z <= y <= rad x y z /\ - rad x y z <= z <= rad x y z.
Proof. pose proof (rad_sqr x y z). pose proof (rad_pos x y z). repeat split; nra. Qed.

(** ** closed form of the kernels over the reals: the guards only avoid 0*log(0) *)
Definition F (x y z : R) : R :=
  let r := rad x y z in
  - (x * y * ln (z + r)) - y * z * ln (x + r) - z * x * ln (y + r)
  + 1 / 2 * x * x * atan (y * z / (x * r)) + 1 / 2 * y * y * atan (z * x / (y * r)) + 1 / 2 * z * z * atan (x * y / (z * r)).

Lemma zdiv a : 0 / a = 0. Proof. unfold Rdiv; ring. Qed.

Ltac bcase t := let E := fresh "E" in destruct t eqn:E;
  [first [apply nonzero_true in E | apply Rltb_true in E | apply Reqb_true in E ] | first [apply nonzero_false in E | apply Rltb_false in E | apply Reqb_false in E]].

Lemma prism_f_form x y z : prism_f x y z = F x y z.
Proof.
  unfold prism_f, F. set (r := rad x y z).
  assert (A : (if (nonzero x && nonzero y)%bool then (if Rltb 0 (z + r) then 0 - x * y * ln (z + r) else 0) + 1 / 2 * x * x * atan (y * z / (x * r)) else 0)
              = - (x * y * ln (z + r)) + 1 / 2 * x * x * atan (y * z / (x * r))).
  { bcase (nonzero x); cbn [andb]; [|subst; ring]. bcase (nonzero y); [|subst; rewrite Rmult_0_l, zdiv, atan_0; ring].
    bcase (Rltb 0 (z + r)); [ring|rewrite ln_nonpos by lra; ring]. }
  rewrite A. clear A. set (v := - (x * y * ln (z + r)) + _).
  assert (A : forall v, (if (nonzero y && nonzero z)%bool then (if Rltb 0 (x + r) then v - y * z * ln (x + r) else v) + 1 / 2 * y * y * atan (z * x / (y * r)) else v)
              = v - (y * z * ln (x + r)) + 1 / 2 * y * y * atan (z * x / (y * r))).
  { clear. intro v. bcase (nonzero y); cbn [andb]; [|subst; ring]. bcase (nonzero z); [|subst; rewrite Rmult_0_l, zdiv, atan_0; ring].
    bcase (Rltb 0 (x + r)); [ring|rewrite ln_nonpos by lra; ring]. }
  rewrite A. clear A. set (w := v - _ + _).
  assert (A : forall v, (if (nonzero z && nonzero x)%bool then (if Rltb 0 (y + r) then v - z * x * ln (y + r) else v) + 1 / 2 * z * z * atan (x * y / (z * r)) else v)
              = v - (z * x * ln (y + r)) + 1 / 2 * z * z * atan (x * y / (z * r))).
  { clear. intro v. bcase (nonzero z); cbn [andb]; [|subst; ring]. bcase (nonzero x); [|subst; rewrite Rmult_0_l, zdiv, atan_0; ring].
    bcase (Rltb 0 (y + r)); [ring|rewrite ln_nonpos by lra; ring]. }
  rewrite A. unfold w, v. ring.
Qed.

(** the z-derivative kernel with its last argument first *)
Definition Gk (x y z : R) : R :=
  let r := rad x y z in y * ln (z + r) + z * ln (y + r) - x * atan (y * z / (x * r)).

Lemma rad_rot x y z : rad y z x = rad x y z.
Proof. unfold rad; f_equal; ring. Qed.
Lemma rad_rot2 x y z : rad z x y = rad x y z.
Proof. unfold rad; f_equal; ring. Qed.
Lemma rad_swap x y z : rad y x z = rad x y z.
Proof. unfold rad; f_equal; ring. Qed.
Lemma rad_swap2 x y z : rad x z y = rad x y z.
Proof. unfold rad; f_equal; ring. Qed.

Lemma prism_fz_form x y z : prism_fz x y z = Gk z x y.
Proof.
  unfold prism_fz, Gk. rewrite (rad_rot2 x y z). set (r := rad x y z).
  assert (A : (if nonzero x then (if Rltb 0 (y + r) then 0 + x * ln (y + r) else 0) else 0) = x * ln (y + r)).
  { bcase (nonzero x); [|subst; ring]. bcase (Rltb 0 (y + r)); [ring|rewrite ln_nonpos by lra; ring]. }
  rewrite A.
  assert (B : forall v, (if nonzero y then (if Rltb 0 (x + r) then v + y * ln (x + r) else v) else v) = v + y * ln (x + r)).
  { intro v. bcase (nonzero y); [|subst; ring]. bcase (Rltb 0 (x + r)); [ring|rewrite ln_nonpos by lra; ring]. }
  rewrite B. bcase (nonzero z); [|subst]; ring.
Qed.

(** ** C17: the two implementations agree *)
Ltac bools := repeat match goal with
  | |- context[nonzero ?a] => bcase (nonzero a)
  | |- context[Rltb ?a ?b] => bcase (Rltb a b)
  | |- context[Reqb ?a ?b] => bcase (Reqb a b)
  end; cbn [andb].

Lemma np_f_agrees pts : np_prism_f pts = Ok (map (fun p => prism_f (vx p) (vy p) (vz p)) pts).
Proof.
  unfold np_prism_f. np_pt. rewrite prism_f_form. unfold F, PR; cbn [vx vy vz]. set (r := rad x y z).
  rewrite (Rmult_comm z x).
  assert (A : forall a b t v, (if (nonzero a && nonzero b && Rltb 0 t)%bool then v - a * b * ln t else v) = v - a * b * ln t).
  { intros a b t v. bcase (nonzero a); cbn [andb]; [|subst; ring]. bcase (nonzero b); cbn [andb]; [|subst; ring].
    bcase (Rltb 0 t); [ring|rewrite ln_nonpos by lra; ring]. }
  assert (B : forall a t v, (if nonzero a then v + 1 / 2 * a * a * t else v) = v + 1 / 2 * a * a * t).
  { intros a t v. bcase (nonzero a); [ring|subst; ring]. }
  rewrite !A, !B. ring.
Qed.

Lemma np_fz_agrees pts : np_prism_fz pts = Ok (map (fun p => prism_fz (vx p) (vy p) (vz p)) pts).
Proof.
  unfold np_prism_fz. np_pt. unfold prism_fz, PR; cbn [vx vy vz]. set (r := rad x y z).
  bcase (nonzero x); bcase (nonzero y); bcase (nonzero z); cbn [andb]; reflexivity.
Qed.

Lemma np_fzz_agrees pts : np_prism_fzz pts = Ok (map (fun p => prism_fzz (vx p) (vy p) (vz p)) pts).
Proof. unfold np_prism_fzz. np_pt; reflexivity. Qed.

Lemma np_fzx_agrees pts : np_prism_fzx pts = Ok (map (fun p => prism_fzx (vx p) (vy p) (vz p)) pts).
Proof.
  unfold np_prism_fzx. np_pt. unfold prism_fzx, PR; cbn [vx vy vz]. set (r := rad x y z).
  unfold nonzero. bcase (Reqb (y + r) 0); cbn [negb andb]; [|reflexivity]. bcase (Rltb y 0); [reflexivity|congruence].
Qed.

Lemma np_fzy_agrees pts : np_prism_fzy pts = Ok (map (fun p => prism_fzy (vx p) (vy p) (vz p)) pts).
Proof.
  unfold np_prism_fzy. np_pt. unfold prism_fzy, PR; cbn [vx vy vz]. set (r := rad x y z).
  unfold nonzero. bcase (Reqb (x + r) 0); cbn [negb andb]; [|reflexivity]. bcase (Rltb x 0); [reflexivity|congruence].
Qed.

Lemma np_fzzz_agrees pts : np_prism_fzzz pts = Ok (map (fun p => prism_fzzz (vx p) (vy p) (vz p)) pts).
Proof.
  unfold np_prism_fzzz. np_pt. unfold prism_fzzz, PR; cbn [vx vy vz]. set (r := rad x y z).
  bcase (nonzero (x * x + z * z)); [|reflexivity]. rewrite Rplus_0_l. reflexivity.
Qed.

Lemma np_fxxy_agrees pts : np_prism_fxxy pts = Ok (map (fun p => prism_fxxy (vx p) (vy p) (vz p)) pts).
Proof.
  unfold np_prism_fxxy. np_pt. unfold prism_fxxy, PR; cbn [vx vy vz].
  bcase (nonzero x).
  - assert (x * x + y * y <> 0) by nra.
    assert (rad x y z <> 0) by (intro Q; apply rad_0 in Q; tauto).
    rewrite (proj2 (nonzero_true _) H), (proj2 (nonzero_true _) H0). field. split; assumption.
  - subst. bcase (nonzero (0 * 0 + y * y)); bcase (nonzero (rad 0 y z)); try (unfold Rdiv; ring).
    exfalso. apply rad_0 in E0. nra.
Qed.

Lemma np_fxxz_agrees pts : np_prism_fxxz pts = Ok (map (fun p => prism_fxxz (vx p) (vy p) (vz p)) pts).
Proof.
  unfold np_prism_fxxz. np_pt. unfold prism_fxxz, PR; cbn [vx vy vz].
  bcase (nonzero x).
  - assert (x * x + z * z <> 0) by nra.
    assert (rad x y z <> 0) by (intro Q; apply rad_0 in Q; tauto).
    rewrite (proj2 (nonzero_true _) H), (proj2 (nonzero_true _) H0). field. split; assumption.
  - subst. bcase (nonzero (0 * 0 + z * z)); bcase (nonzero (rad 0 y z)); try (unfold Rdiv; ring).
    exfalso. apply rad_0 in E0. nra.
Qed.

Lemma np_fxyz_agrees pts : np_prism_fxyz pts = Ok (map (fun p => prism_fxyz (vx p) (vy p) (vz p)) pts).
Proof. unfold np_prism_fxyz. np_pt; reflexivity. Qed.
