(** Calculus of the prism kernels. *)
From Coq Require Import Reals Lra List Bool Lia.
From Coquelicot Require Import Coquelicot.
From Verif Require Import Vec3 Calculus Deriv Numpy Model_Prism Spec_Prism Proof_Prism.
Import ListNotations.
Open Scope R_scope.

Definition reg (x y z : R) : Prop :=
  0 < x + rad x y z /\ 0 < y + rad x y z /\ 0 < z + rad x y z.

Lemma reg_rad x y z : reg x y z -> 0 < rad x y z.
Proof.
  intros [H _]. pose proof (rad_pos x y z). destruct (Req_dec (rad x y z) 0) as [E|E]; [|lra].
  destruct (rad_0 _ _ _ E) as [X _]. lra.
Qed.

Lemma reg_of_pos x y z : 0 < x \/ 0 < y \/ 0 < z -> reg x y z.
Proof.
  intro H. pose proof (rad_sqr x y z) as Q. pose proof (rad_pos x y z) as P.
  assert (0 < rad x y z) by (destruct H as [H|[H|H]]; nra).
  unfold reg. destruct H as [H|[H|H]]; repeat split; nra.
Qed.

Lemma reg_of_nonzero x y z : x <> 0 -> y <> 0 -> z <> 0 -> reg x y z.
Proof.
  intros. pose proof (rad_sqr x y z) as Q. pose proof (rad_pos x y z) as P.
  assert (0 < x * x) by nra. assert (0 < y * y) by nra. assert (0 < z * z) by nra.
  assert (0 < rad x y z) by nra.
  unfold reg. repeat split; nra.
Qed.

Lemma reg_rot x y z : reg x y z -> reg y z x.
Proof. unfold reg. rewrite (rad_rot x y z). tauto. Qed.
Lemma reg_rot2 x y z : reg x y z -> reg z x y.
Proof. unfold reg. rewrite (rad_rot2 x y z). tauto. Qed.
Lemma reg_swap2 x y z : reg x y z -> reg x z y.
Proof. unfold reg. rewrite (rad_swap2 x y z). tauto. Qed.

Lemma rad_d1 x y z : 0 < rad x y z -> is_derive (fun t => rad t y z) x (x / rad x y z).
Proof.
  intro H. pose proof (rad_sqr x y z) as Q. unfold rad in *. eapply is_derive_eq; [der; nra|]. field; lra.
Qed.
Lemma rad_d2 x y z : 0 < rad x y z -> is_derive (fun t => rad x t z) y (y / rad x y z).
Proof.
  intro H. pose proof (rad_sqr x y z) as Q. unfold rad in *. eapply is_derive_eq; [der; nra|]. field; lra.
Qed.
Lemma rad_d3 x y z : 0 < rad x y z -> is_derive (fun t => rad x y t) z (z / rad x y z).
Proof.
  intro H. pose proof (rad_sqr x y z) as Q. unfold rad in *. eapply is_derive_eq; [der; nra|]. field; lra.
Qed.

(** bounded function times a factor vanishing at 0 *)
Lemma atan_abs t : Rabs (atan t) <= 2.
Proof. pose proof (atan_bound t). pose proof PI_4. pose proof PI_RGT_0. apply Rabs_le; lra. Qed.

Lemma D_sq_atan_0 (g : R -> R) : is_derive (fun t => 1 / 2 * t * t * atan (g t)) 0 0.
Proof.
  apply is_derive_Reals. intros eps He. exists (mkposreal eps He). cbn. intros h Hh Hl.
  replace ((1 / 2 * (0 + h) * (0 + h) * atan (g (0 + h)) - 1 / 2 * 0 * 0 * atan (g 0)) / h - 0)
    with (1 / 2 * h * atan (g (0 + h))) by (rewrite !Rplus_0_l; field; exact Hh).
  rewrite !Rabs_mult. rewrite (Rabs_pos_eq (1 / 2)) by lra. pose proof (atan_abs (g (0 + h))). pose proof (Rabs_pos h).
  pose proof (Rabs_pos (atan (g (0 + h)))).
  assert (Rabs h * Rabs (atan (g (0 + h))) <= Rabs h * 2) by (apply Rmult_le_compat_l; lra).
  lra.
Qed.

Lemma cont_t_atan_0 (g : R -> R) : continuous (fun t => t * atan (g t)) 0.
Proof.
  apply continuity_pt_filterlim, continuity_pt_locally. intros eps.
  assert (P : 0 < eps / 2) by (pose proof (cond_pos eps); lra).
  exists (mkposreal _ P). intros y Hy. change (Rabs (y - 0) < eps / 2) in Hy. rewrite Rminus_0_r in Hy.
  rewrite Rmult_0_l, Rminus_0_r, Rabs_mult. pose proof (atan_abs (g y)). pose proof (Rabs_pos y).
  pose proof (Rabs_pos (atan (g y))).
  assert (Rabs y * Rabs (atan (g y)) <= Rabs y * 2) by (apply Rmult_le_compat_l; lra). lra.
Qed.

(** setup: name r, with r^2 as a rewriting rule *)
Ltac setr x y z H :=
  let Q := fresh "Hr2" in
  pose proof (reg_rad x y z H) as Hrp;
  assert (Q : rad x y z ^ 2 = x ^ 2 + y ^ 2 + z ^ 2) by (pose proof (rad_sqr x y z); nra).

(** terms of F *)
Lemma dF_t0 x y z : reg x y z ->
  is_derive (fun t => 1 / 2 * t * t * atan (y * z / (t * rad t y z))) x
    (x * atan (y * z / (x * rad x y z))
     - 1 / 2 * x * x * (y * z * (rad x y z * rad x y z + x * x) / (rad x y z * (x * x + y * y) * (x * x + z * z)))).
Proof.
  intro H. destruct (Req_dec x 0) as [->|N].
  - eapply is_derive_eq; [apply (D_sq_atan_0 (fun t => y * z / (t * rad t y z)))|]. ring.
  - setr x y z H. pose proof (rad_d1 x y z Hrp) as D. eapply is_derive_eq.
    + der. apply Rmult_integral_contrapositive; split; lra.
    + cbn beta. set (r := rad x y z) in *. clearbody r.
      set (A := atan _). 
      assert (x * x + y * y <> 0) by nra. assert (x * x + z * z <> 0) by nra.
      assert (E : 1 + y * z / (x * r) * (y * z / (x * r)) = (x * x + y * y) * (x * x + z * z) / (x * x * (r * r))).
      { field_simplify_eq; [ring [Hr2]|split; lra]. }
      rewrite E. field_simplify_eq; [ring|repeat split; lra].
Qed.

Lemma dF_t1 x y z : reg x y z ->
  is_derive (fun t => 1 / 2 * y * y * atan (z * t / (y * rad t y z))) x
    (1 / 2 * (y * y * y * z / (rad x y z * (x * x + y * y)))).
Proof.
  intro H. destruct (Req_dec y 0) as [->|N].
  - apply (D_ext (fun _ => 0)); [intro; ring|].
    eapply is_derive_eq; [apply D_const|]. unfold Rdiv; ring.
  - setr x y z H. pose proof (rad_d1 x y z Hrp) as D. eapply is_derive_eq.
    + der. apply Rmult_integral_contrapositive; split; lra.
    + cbn beta. set (r := rad x y z) in *. clearbody r.
      assert (x * x + y * y <> 0) by nra. assert (y * y + z * z <> 0) by nra.
      assert (E : 1 + z * x / (y * r) * (z * x / (y * r)) = (x * x + y * y) * (y * y + z * z) / (y * y * (r * r))).
      { field_simplify_eq; [ring [Hr2]|split; lra]. }
      rewrite E. field_simplify_eq; [ring [Hr2]|repeat split; lra].
Qed.

Lemma dF_t2 x y z : reg x y z ->
  is_derive (fun t => 1 / 2 * z * z * atan (t * y / (z * rad t y z))) x
    (1 / 2 * (z * z * z * y / (rad x y z * (x * x + z * z)))).
Proof.
  intro H. pose proof (dF_t1 x z y (reg_swap2 _ _ _ H)) as D. rewrite (rad_swap2 x y z) in D.
  eapply D_ext; [|exact D]. intro t. cbn beta. rewrite (rad_swap2 t y z). rewrite (Rmult_comm y t). reflexivity.
Qed.

Definition ext2 (x y : R) : R := x * x * y / (x * x + y * y).

Lemma dF_x x y z : reg x y z -> is_derive (fun t => F t y z) x (- Gk x y z - ext2 x y - ext2 x z).
Proof.
  intro H. pose proof (dF_t0 x y z H) as D0. pose proof (dF_t1 x y z H) as D1. pose proof (dF_t2 x y z H) as D2.
  setr x y z H. pose proof (rad_d1 x y z Hrp) as D. destruct H as [H1 [H2 H3]].
  unfold F. cbv zeta. eapply is_derive_eq.
  - apply (D_plus (fun t => - (t * y * ln (z + rad t y z)) - y * z * ln (t + rad t y z) - z * t * ln (y + rad t y z)
       + 1 / 2 * t * t * atan (y * z / (t * rad t y z)) + 1 / 2 * y * y * atan (z * t / (y * rad t y z)))
       (fun t => 1 / 2 * z * z * atan (t * y / (z * rad t y z)))); [|exact D2].
    apply (D_plus (fun t => - (t * y * ln (z + rad t y z)) - y * z * ln (t + rad t y z) - z * t * ln (y + rad t y z)
       + 1 / 2 * t * t * atan (y * z / (t * rad t y z))) (fun t => 1 / 2 * y * y * atan (z * t / (y * rad t y z)))); [|exact D1].
    apply (D_plus (fun t => - (t * y * ln (z + rad t y z)) - y * z * ln (t + rad t y z) - z * t * ln (y + rad t y z))
       (fun t => 1 / 2 * t * t * atan (y * z / (t * rad t y z)))); [|exact D0].
    der; assumption.
  - cbn beta. unfold Gk, ext2. set (r := rad x y z) in *. clearbody r. clear D D0 D1 D2.
    set (A := atan _). set (L1 := ln _). set (L2 := ln (x + r)). set (L3 := ln _). clearbody A L1 L2 L3.
    destruct (Req_dec x 0) as [->|N].
    + destruct (Req_dec y 0) as [->|Ny]; [|destruct (Req_dec z 0) as [->|Nz]].
      * unfold Rdiv; ring.
      * unfold Rdiv; ring.
      * field_simplify_eq; [ring [Hr2]|repeat split; try lra; nra].
    + assert (x * x + y * y <> 0) by nra. assert (x * x + z * z <> 0) by nra.
      field_simplify_eq; [ring [Hr2]|repeat split; lra].
Qed.

Definition ext1 (x y : R) : R := if Req_EM_T x 0 then 1 else y * y / (x * x + y * y).

(** the arctangent kernel with its last argument first *)
Definition Tk (x y z : R) : R := atan (y * z / (x * rad x y z)).
Lemma Gk_eq x y z : Gk x y z = y * ln (z + rad x y z) + z * ln (y + rad x y z) - x * Tk x y z.
Proof. reflexivity. Qed.

Lemma Tden x y z r : x <> 0 -> r <> 0 -> r ^ 2 = x ^ 2 + y ^ 2 + z ^ 2 ->
  1 + y * z / (x * r) * (y * z / (x * r)) = (x * x + y * y) * (x * x + z * z) / (x * x * (r * r)).
Proof. intros N Nr Hr2. field_simplify_eq; [ring [Hr2]|split; assumption]. Qed.

Lemma dT_x x y z : x <> 0 -> reg x y z ->
  is_derive (fun t => Tk t y z) x (- (y * z / rad x y z * (1 / (x * x + y * y) + 1 / (x * x + z * z)))).
Proof.
  intros N H. setr x y z H. pose proof (rad_d1 x y z Hrp) as D. unfold Tk. eapply is_derive_eq.
  - der. apply Rmult_integral_contrapositive; split; lra.
  - cbn beta. set (r := rad x y z) in *. clearbody r.
    assert (x * x + y * y <> 0) by nra. assert (x * x + z * z <> 0) by nra.
    rewrite (Tden x y z r) by (lra || exact Hr2). field_simplify_eq; [ring [Hr2]|repeat split; lra].
Qed.

Lemma dT_y x y z : x <> 0 -> reg x y z ->
  is_derive (fun t => Tk x t z) y (z * x / (rad x y z * (x * x + y * y))).
Proof.
  intros N H. setr x y z H. pose proof (rad_d2 x y z Hrp) as D. unfold Tk. eapply is_derive_eq.
  - der. apply Rmult_integral_contrapositive; split; lra.
  - cbn beta. set (r := rad x y z) in *. clearbody r.
    assert (x * x + y * y <> 0) by nra. assert (x * x + z * z <> 0) by nra.
    rewrite (Tden x y z r) by (lra || exact Hr2). field_simplify_eq; [ring [Hr2]|repeat split; lra].
Qed.

Lemma Tk_sym x y z : Tk x y z = Tk x z y.
Proof. unfold Tk. rewrite (rad_swap2 x y z). f_equal. f_equal. ring. Qed.

Lemma dT_z x y z : x <> 0 -> reg x y z ->
  is_derive (fun t => Tk x y t) z (y * x / (rad x y z * (x * x + z * z))).
Proof.
  intros N H. pose proof (dT_y x z y N (reg_swap2 _ _ _ H)) as D. rewrite (rad_swap2 x y z) in D.
  eapply D_ext; [|exact D]. intro t. apply Tk_sym.
Qed.

Lemma dG_x x y z : x <> 0 -> reg x y z ->
  is_derive (fun t => Gk t y z) x (- Tk x y z + x * y / (x * x + y * y) + x * z / (x * x + z * z)).
Proof.
  intros N H. pose proof (dT_x x y z N H) as DT. setr x y z H. pose proof (rad_d1 x y z Hrp) as D. destruct H as [H1 [H2 H3]].
  apply (D_ext (fun t => y * ln (z + rad t y z) + z * ln (y + rad t y z) - t * Tk t y z)); [intro; reflexivity|].
  eapply is_derive_eq; [der; assumption|]. cbn beta. set (T := Tk x y z). clearbody T.
  set (r := rad x y z) in *. clearbody r. clear D DT.
  assert (x * x + y * y <> 0) by nra. assert (x * x + z * z <> 0) by nra.
  field_simplify_eq; [ring [Hr2]|repeat split; lra].
Qed.

Lemma dG_y x y z : reg x y z -> is_derive (fun t => Gk x t z) y (ln (z + rad x y z) + ext1 x y).
Proof.
  intros H. unfold ext1. destruct (Req_EM_T x 0) as [->|N].
  - setr 0 y z H. pose proof (rad_d2 0 y z Hrp) as D. destruct H as [H1 [H2 H3]].
    apply (D_ext (fun t => t * ln (z + rad 0 t z) + z * ln (t + rad 0 t z))); [intro; unfold Gk; ring|].
    eapply is_derive_eq; [der; assumption|]. cbn beta.
    set (r := rad 0 y z) in *. clearbody r. clear D.
    set (L := ln _). clearbody L.
    assert (Q : y ^ 2 = r ^ 2 - z ^ 2) by (rewrite Hr2; ring).
    field_simplify_eq; [ring [Q]|repeat split; lra].
  - pose proof (dT_y x y z N H) as DT. setr x y z H. pose proof (rad_d2 x y z Hrp) as D. destruct H as [H1 [H2 H3]].
    apply (D_ext (fun t => t * ln (z + rad x t z) + z * ln (t + rad x t z) - x * Tk x t z)); [intro; reflexivity|].
    eapply is_derive_eq; [der; assumption|]. cbn beta.
    set (r := rad x y z) in *. clearbody r. clear D DT. set (L := ln _). clearbody L.
    assert (x * x + y * y <> 0) by nra.
    field_simplify_eq; [ring [Hr2]|repeat split; lra].
Qed.

Lemma Gk_sym x y z : Gk x y z = Gk x z y.
Proof. rewrite !Gk_eq, (Tk_sym x z y), (rad_swap2 x y z). ring. Qed.

Lemma dG_z x y z : reg x y z -> is_derive (fun t => Gk x y t) z (ln (y + rad x y z) + ext1 x z).
Proof.
  intro H. pose proof (dG_y x z y (reg_swap2 _ _ _ H)) as D. rewrite (rad_swap2 x y z) in D.
  eapply D_ext; [|exact D]. intro t. apply Gk_sym.
Qed.

(** the log kernel *)
Definition Lk (x y z : R) : R := ln (z + rad x y z).

Lemma dL_z x y z : reg x y z -> is_derive (fun t => Lk x y t) z (1 / rad x y z).
Proof.
  intro H. setr x y z H. pose proof (rad_d3 x y z Hrp) as D. destruct H as [H1 [H2 H3]].
  unfold Lk. eapply is_derive_eq; [der; assumption|]. cbn beta. field. split; lra.
Qed.

Lemma dL_x x y z : x <> 0 -> reg x y z ->
  is_derive (fun t => Lk t y z) x (x / (x * x + y * y) - x * z / ((x * x + y * y) * rad x y z)).
Proof.
  intros N H. setr x y z H. pose proof (rad_d1 x y z Hrp) as D. destruct H as [H1 [H2 H3]].
  unfold Lk. eapply is_derive_eq; [der; assumption|]. cbn beta.
  set (r := rad x y z) in *. clearbody r. assert (x * x + y * y <> 0) by nra.
  field_simplify_eq; [ring [Hr2]|repeat split; lra].
Qed.

(** ** permutation symmetry *)
Lemma F_rot x y z : F y z x = F x y z.
Proof. unfold F. rewrite (rad_rot x y z). ring. Qed.
Lemma F_rot2 x y z : F z x y = F x y z.
Proof. unfold F. rewrite (rad_rot2 x y z). ring. Qed.
Lemma F_swap x y z : F y x z = F x y z.
Proof.
  unfold F. rewrite (rad_swap x y z). rewrite (Rmult_comm x z), (Rmult_comm z y), (Rmult_comm y x). ring.
Qed.

(** ** corner sums *)
Definition csum (f : R -> R -> R -> R) (a1 a2 b1 b2 c1 c2 : R) : R :=
  f a2 b2 c2 - f a2 b2 c1 - f a2 b1 c2 + f a2 b1 c1 - f a1 b2 c2 + f a1 b2 c1 + f a1 b1 c2 - f a1 b1 c1.

Definition ax (b : box) (p : vec3) := vx (b_min b) - vx p.
Definition ay (b : box) (p : vec3) := vy (b_min b) - vy p.
Definition az (b : box) (p : vec3) := vz (b_min b) - vz p.
Definition zx (b : box) (p : vec3) := vx (b_max b) - vx p.
Definition zy (b : box) (p : vec3) := vy (b_max b) - vy p.
Definition zz (b : box) (p : vec3) := vz (b_max b) - vz p.

Lemma eval0 b f p : eval_def_int b f p 0 = csum f (ax b p) (zx b p) (ay b p) (zy b p) (az b p) (zz b p).
Proof. reflexivity. Qed.
Lemma eval1 b f p : eval_def_int b f p 1 = csum (fun x y z => f y z x) (ax b p) (zx b p) (ay b p) (zy b p) (az b p) (zz b p).
Proof. unfold eval_def_int, csum, ax, ay, az, zx, zy, zz; cbn. ring. Qed.
Lemma eval2 b f p : eval_def_int b f p 2 = csum (fun x y z => f z x y) (ax b p) (zx b p) (ay b p) (zy b p) (az b p) (zz b p).
Proof. unfold eval_def_int, csum, ax, ay, az, zx, zy, zz; cbn. ring. Qed.

Lemma csum_ext f g a1 a2 b1 b2 c1 c2 :
  (forall x y z, (x = a1 \/ x = a2) -> (y = b1 \/ y = b2) -> (z = c1 \/ z = c2) -> f x y z = g x y z) ->
  csum f a1 a2 b1 b2 c1 c2 = csum g a1 a2 b1 b2 c1 c2.
Proof. intro H. unfold csum. rewrite !H by tauto. reflexivity. Qed.

Lemma D_csum1 (f f' : R -> R -> R -> R) a1 a2 b1 b2 c1 c2 t :
  (forall x y z, (x = a1 - t \/ x = a2 - t) -> (y = b1 \/ y = b2) -> (z = c1 \/ z = c2) -> is_derive (fun s => f s y z) x (f' x y z)) ->
  is_derive (fun t => csum f (a1 - t) (a2 - t) b1 b2 c1 c2) t (- csum f' (a1 - t) (a2 - t) b1 b2 c1 c2).
Proof.
  intro H. unfold csum.
  assert (K : forall a y z, (a = a1 \/ a = a2) -> (y = b1 \/ y = b2) -> (z = c1 \/ z = c2) ->
     is_derive (fun s => f (a - s) y z) t (- f' (a - t) y z)).
  { intros a y z Ha Hy Hz. eapply is_derive_eq; [apply (D_comp (fun s => f s y z) (fun s => a - s)); [apply H; [|exact Hy|exact Hz]; destruct Ha; subst; auto|der]|]. ring. }
  assert (K111 := K a1 b1 c1 ltac:(auto) ltac:(auto) ltac:(auto)).
  assert (K112 := K a1 b1 c2 ltac:(auto) ltac:(auto) ltac:(auto)).
  assert (K121 := K a1 b2 c1 ltac:(auto) ltac:(auto) ltac:(auto)).
  assert (K122 := K a1 b2 c2 ltac:(auto) ltac:(auto) ltac:(auto)).
  assert (K211 := K a2 b1 c1 ltac:(auto) ltac:(auto) ltac:(auto)).
  assert (K212 := K a2 b1 c2 ltac:(auto) ltac:(auto) ltac:(auto)).
  assert (K221 := K a2 b2 c1 ltac:(auto) ltac:(auto) ltac:(auto)).
  assert (K222 := K a2 b2 c2 ltac:(auto) ltac:(auto) ltac:(auto)).
  clear K H. eapply is_derive_eq; [der|]. ring.
Qed.

Lemma csum_rot f a1 a2 b1 b2 c1 c2 : csum f a1 a2 b1 b2 c1 c2 = csum (fun x y z => f z x y) b1 b2 c1 c2 a1 a2.
Proof. unfold csum. ring. Qed.
Lemma csum_rot2 f a1 a2 b1 b2 c1 c2 : csum f a1 a2 b1 b2 c1 c2 = csum (fun x y z => f y z x) c1 c2 a1 a2 b1 b2.
Proof. unfold csum. ring. Qed.

Lemma D_csum2 (f f' : R -> R -> R -> R) a1 a2 b1 b2 c1 c2 t :
  (forall x y z, (x = a1 \/ x = a2) -> (y = b1 - t \/ y = b2 - t) -> (z = c1 \/ z = c2) -> is_derive (fun s => f x s z) y (f' x y z)) ->
  is_derive (fun t => csum f a1 a2 (b1 - t) (b2 - t) c1 c2) t (- csum f' a1 a2 (b1 - t) (b2 - t) c1 c2).
Proof.
  intro H. rewrite csum_rot.
  apply (D_ext (fun t => csum (fun x y z => f z x y) (b1 - t) (b2 - t) c1 c2 a1 a2)); [intro; symmetry; apply csum_rot|].
  apply (D_csum1 (fun x y z => f z x y) (fun x y z => f' z x y)). intros; apply H; assumption.
Qed.

Lemma D_csum3 (f f' : R -> R -> R -> R) a1 a2 b1 b2 c1 c2 t :
  (forall x y z, (x = a1 \/ x = a2) -> (y = b1 \/ y = b2) -> (z = c1 - t \/ z = c2 - t) -> is_derive (fun s => f x y s) z (f' x y z)) ->
  is_derive (fun t => csum f a1 a2 b1 b2 (c1 - t) (c2 - t)) t (- csum f' a1 a2 b1 b2 (c1 - t) (c2 - t)).
Proof.
  intro H. rewrite csum_rot2.
  apply (D_ext (fun t => csum (fun x y z => f y z x) (c1 - t) (c2 - t) a1 a2 b1 b2)); [intro; symmetry; apply csum_rot2|].
  apply (D_csum1 (fun x y z => f y z x) (fun x y z => f' y z x)). intros; apply H; assumption.
Qed.

(** what does not depend on all three variables cancels *)
Lemma csum_cancel f h1 h2 h3 a1 a2 b1 b2 c1 c2 :
  csum (fun x y z => f x y z + h1 x y + h2 y z + h3 x z) a1 a2 b1 b2 c1 c2 = csum f a1 a2 b1 b2 c1 c2.
Proof. unfold csum. ring. Qed.
Lemma csum_opp f a1 a2 b1 b2 c1 c2 : csum (fun x y z => - f x y z) a1 a2 b1 b2 c1 c2 = - csum f a1 a2 b1 b2 c1 c2.
Proof. unfold csum. ring. Qed.

Definition fieldsum (b : box) (p : vec3) : vec3 :=
  let s f := csum f (ax b p) (zx b p) (ay b p) (zy b p) (az b p) (zz b p) in
  V3 (s (fun x y z => Gk x y z)) (s (fun x y z => Gk y z x)) (s (fun x y z => Gk z x y)).

Lemma field_form b p : V3 (eval_def_int b prism_fz p 1) (eval_def_int b prism_fz p 2) (eval_def_int b prism_fz p 0) = fieldsum b p.
Proof.
  rewrite eval0, eval1, eval2. unfold fieldsum. cbv zeta. f_equal; apply csum_ext; intros; rewrite prism_fz_form; reflexivity.
Qed.

Ltac offs H := destruct H as [? [? [? [? [? ?]]]]].
Ltac corner_nz := repeat match goal with HH : _ \/ _ |- _ => destruct HH as [HH|HH] end; subst; lra.

Lemma dF_grad b p : off_faces b p ->
  is_grad (fun q => eval_def_int b prism_f q 0) p (fieldsum b p).
Proof.
  intro H. offs H. unfold is_grad, is_dx, is_dy, is_dz, fieldsum; cbn [vx vy vz].
  assert (E : forall q, eval_def_int b prism_f q 0 = csum F (ax b q) (zx b q) (ay b q) (zy b q) (az b q) (zz b q)).
  { intro q. rewrite eval0. apply csum_ext. intros. apply prism_f_form. }
  destruct p as [x y z]; cbn [vx vy vz] in *. unfold ax, ay, az, zx, zy, zz in *; cbn [vx vy vz] in *.
  refine (conj _ (conj _ _)).
  - apply (D_ext (fun t => csum F (vx (b_min b) - t) (vx (b_max b) - t) (vy (b_min b) - y) (vy (b_max b) - y) (vz (b_min b) - z) (vz (b_max b) - z)));
      [intro t; rewrite E; reflexivity|].
    eapply is_derive_eq.
    + apply (D_csum1 F (fun x y z => - Gk x y z - ext2 x y - ext2 x z)).
      intros. apply dF_x. apply reg_of_nonzero; corner_nz.
    + rewrite <- csum_opp. rewrite <- (csum_cancel Gk ext2 (fun _ _ => 0) (fun x z => ext2 x z)). apply csum_ext; intros; ring.
  - apply (D_ext (fun t => csum F (vx (b_min b) - x) (vx (b_max b) - x) (vy (b_min b) - t) (vy (b_max b) - t) (vz (b_min b) - z) (vz (b_max b) - z)));
      [intro t; rewrite E; reflexivity|].
    eapply is_derive_eq.
    + apply (D_csum2 F (fun x y z => - Gk y z x - ext2 y z - ext2 y x)).
      intros x0 y0 z0 ? ? ?. apply (D_ext (fun s => F s z0 x0)); [intro; apply F_rot|]. apply dF_x. apply reg_of_nonzero; corner_nz.
    + rewrite <- csum_opp. rewrite <- (csum_cancel (fun x y z => Gk y z x) (fun x y => ext2 y x) ext2 (fun _ _ => 0)). apply csum_ext; intros; ring.
  - apply (D_ext (fun t => csum F (vx (b_min b) - x) (vx (b_max b) - x) (vy (b_min b) - y) (vy (b_max b) - y) (vz (b_min b) - t) (vz (b_max b) - t)));
      [intro t; rewrite E; reflexivity|].
    eapply is_derive_eq.
    + apply (D_csum3 F (fun x y z => - Gk z x y - ext2 z x - ext2 z y)).
      intros x0 y0 z0 ? ? ?. apply (D_ext (fun s => F s x0 y0)); [intro; apply F_rot2|]. apply dF_x. apply reg_of_nonzero; corner_nz.
    + rewrite <- csum_opp. rewrite <- (csum_cancel (fun x y z => Gk z x y) (fun _ _ => 0) (fun y z => ext2 z y) (fun x z => ext2 z x)). apply csum_ext; intros; ring.
Qed.

(** ** derivatives of a corner sum with respect to the observation point *)
Definition S3 (f : R -> R -> R -> R) (b : box) (p : vec3) : R :=
  csum f (ax b p) (zx b p) (ay b p) (zy b p) (az b p) (zz b p).

Notation nz3 := off_planes (only parsing).

Lemma S3_ext f g b p : off_faces b p -> (forall x y z, nz3 x y z -> f x y z = g x y z) -> S3 f b p = S3 g b p.
Proof.
  intros H E. offs H. destruct p as [x y z]; cbn [vx vy vz] in *. apply csum_ext.
  unfold ax, ay, az, zx, zy, zz; cbn [vx vy vz]. intros. apply E. repeat split; corner_nz.
Qed.

Lemma D_S1 (f g : R -> R -> R -> R) h1 h2 h3 b p : off_faces b p ->
  (forall x y z, nz3 x y z -> is_derive (fun s => f s y z) x (- (g x y z + h1 x y + h2 y z + h3 x z))) ->
  is_derive (fun t => S3 f b (V3 t (vy p) (vz p))) (vx p) (S3 g b p).
Proof.
  intros H E. offs H. destruct p as [x y z]; cbn [vx vy vz] in *. unfold S3, ax, ay, az, zx, zy, zz; cbn [vx vy vz].
  eapply is_derive_eq.
  - apply (D_csum1 f (fun x y z => - (g x y z + h1 x y + h2 y z + h3 x z))). intros. apply E. repeat split; corner_nz.
  - rewrite <- csum_opp, <- (csum_cancel g h1 h2 h3). apply csum_ext; intros; ring.
Qed.
Lemma D_S2 (f g : R -> R -> R -> R) h1 h2 h3 b p : off_faces b p ->
  (forall x y z, nz3 x y z -> is_derive (fun s => f x s z) y (- (g x y z + h1 x y + h2 y z + h3 x z))) ->
  is_derive (fun t => S3 f b (V3 (vx p) t (vz p))) (vy p) (S3 g b p).
Proof.
  intros H E. offs H. destruct p as [x y z]; cbn [vx vy vz] in *. unfold S3, ax, ay, az, zx, zy, zz; cbn [vx vy vz].
  eapply is_derive_eq.
  - apply (D_csum2 f (fun x y z => - (g x y z + h1 x y + h2 y z + h3 x z))). intros. apply E. repeat split; corner_nz.
  - rewrite <- csum_opp, <- (csum_cancel g h1 h2 h3). apply csum_ext; intros; ring.
Qed.
Lemma D_S3 (f g : R -> R -> R -> R) h1 h2 h3 b p : off_faces b p ->
  (forall x y z, nz3 x y z -> is_derive (fun s => f x y s) z (- (g x y z + h1 x y + h2 y z + h3 x z))) ->
  is_derive (fun t => S3 f b (V3 (vx p) (vy p) t)) (vz p) (S3 g b p).
Proof.
  intros H E. offs H. destruct p as [x y z]; cbn [vx vy vz] in *. unfold S3, ax, ay, az, zx, zy, zz; cbn [vx vy vz].
  eapply is_derive_eq.
  - apply (D_csum3 f (fun x y z => - (g x y z + h1 x y + h2 y z + h3 x z))). intros. apply E. repeat split; corner_nz.
  - rewrite <- csum_opp, <- (csum_cancel g h1 h2 h3). apply csum_ext; intros; ring.
Qed.

Lemma nz3_reg x y z : nz3 x y z -> reg x y z.
Proof. intros [A [B C]]. apply reg_of_nonzero; assumption. Qed.

(** kernels at corners off the face planes *)
Lemma fzz_form x y z : nz3 x y z -> prism_fzz x y z = Tk z x y.
Proof.
  intros [A [B C]]. unfold prism_fzz, Tk. rewrite (proj2 (nonzero_true z) C), (rad_rot2 x y z). reflexivity.
Qed.
Lemma fzx_form x y z : nz3 x y z -> prism_fzx x y z = - Lk x z y.
Proof.
  intro H. apply nz3_reg in H. destruct H as [A [B C]]. unfold prism_fzx, Lk. rewrite (rad_swap2 x y z).
  rewrite (proj2 (Reqb_false _ _)) by lra. reflexivity.
Qed.
Lemma fzy_form x y z : nz3 x y z -> prism_fzy x y z = - Lk y z x.
Proof.
  intro H. apply nz3_reg in H. destruct H as [A [B C]]. unfold prism_fzy, Lk. rewrite (rad_rot x y z).
  rewrite (proj2 (Reqb_false _ _)) by lra. reflexivity.
Qed.
Lemma fzzz_form x y z : nz3 x y z -> prism_fzzz x y z = x * y / rad x y z * (1 / (z * z + x * x) + 1 / (z * z + y * y)).
Proof.
  intro H. pose proof (reg_rad _ _ _ (nz3_reg _ _ _ H)). destruct H as [A [B C]]. unfold prism_fzzz.
  assert (0 < x * x) by nra. assert (0 < y * y) by nra. assert (0 < z * z) by nra.
  rewrite !(proj2 (nonzero_true _)) by lra. field. repeat split; lra.
Qed.
Lemma fxxy_form x y z : nz3 x y z -> prism_fxxy x y z = - (x * z / ((x * x + y * y) * rad x y z)).
Proof.
  intros H. pose proof (reg_rad _ _ _ (nz3_reg _ _ _ H)). destruct H as [A [B C]]. unfold prism_fxxy. rewrite (proj2 (nonzero_true x) A).
  field. split; [lra|nra].
Qed.
Lemma fxxz_form x y z : nz3 x y z -> prism_fxxz x y z = - (x * y / ((x * x + z * z) * rad x y z)).
Proof.
  intros H. pose proof (reg_rad _ _ _ (nz3_reg _ _ _ H)). destruct H as [A [B C]]. unfold prism_fxxz. rewrite (proj2 (nonzero_true x) A).
  field. split; [lra|nra].
Qed.
Lemma fxyz_form x y z : nz3 x y z -> prism_fxyz x y z = 1 / rad x y z.
Proof.
  intros H. pose proof (reg_rad _ _ _ (nz3_reg _ _ _ H)). unfold prism_fxyz. rewrite (proj2 (nonzero_true _)) by lra. reflexivity.
Qed.

Definition O2 (_ _ : R) : R := 0.
Lemma nz_rot x y z : nz3 x y z -> nz3 y z x. Proof. unfold off_planes; tauto. Qed.
Lemma nz_rot2 x y z : nz3 x y z -> nz3 z x y. Proof. unfold off_planes; tauto. Qed.
Lemma nz_swap2 x y z : nz3 x y z -> nz3 x z y. Proof. unfold off_planes; tauto. Qed.
Lemma nz_swap x y z : nz3 x y z -> nz3 y x z. Proof. unfold off_planes; tauto. Qed.

(** the six second derivatives as corner sums *)
Definition gxx b p := S3 (fun x y z => Tk x y z) b p.
Definition gyy b p := S3 (fun x y z => Tk y z x) b p.
Definition gzz b p := S3 (fun x y z => Tk z x y) b p.
Definition gxy b p := S3 (fun x y z => - Lk x y z) b p.
Definition gxz b p := S3 (fun x y z => - Lk x z y) b p.
Definition gyz b p := S3 (fun x y z => - Lk y z x) b p.

Lemma tensor_forms b p : off_faces b p ->
  eval_def_int b prism_fzz p 1 = gxx b p /\ eval_def_int b prism_fzx p 1 = gxy b p /\
  eval_def_int b prism_fzx p 0 = gxz b p /\ eval_def_int b prism_fzz p 2 = gyy b p /\
  eval_def_int b prism_fzy p 0 = gyz b p /\ eval_def_int b prism_fzz p 0 = gzz b p.
Proof.
  intro H. rewrite !eval0, !eval1, !eval2. unfold gxx, gxy, gxz, gyy, gyz, gzz.
  refine (conj _ (conj _ (conj _ (conj _ (conj _ _))))); apply (S3_ext _ _ b p H); intros x y z N.
  - apply fzz_form, nz_rot, N.
  - rewrite fzx_form by (apply nz_rot, N). unfold Lk. rewrite (rad_swap x y z). reflexivity.
  - apply fzx_form, N.
  - apply fzz_form, nz_rot2, N.
  - apply fzy_form, N.
  - apply fzz_form, N.
Qed.

Lemma Lk_eq x y z : ln (z + rad x y z) = Lk x y z. Proof. reflexivity. Qed.
Lemma Lk_swap x y z : Lk y x z = Lk x y z. Proof. unfold Lk. rewrite (rad_swap x y z). reflexivity. Qed.

Definition hxy (x y : R) := - (x * y / (x * x + y * y)).

Lemma field_jac b p : off_faces b p ->
  is_jac (fieldsum b) p (M3 (V3 (gxx b p) (gxy b p) (gxz b p)) (V3 (gxy b p) (gyy b p) (gyz b p)) (V3 (gxz b p) (gyz b p) (gzz b p))).
Proof.
  intro H. split_jac; unfold gxx, gxy, gxz, gyy, gyz, gzz.
  - (* xx *) apply (D_S1 Gk Tk hxy O2 hxy b p H). intros x y z N. eapply is_derive_eq; [apply dG_x; [apply N|apply nz3_reg, N]|]. unfold hxy, O2; ring.
  - (* xy *) apply (D_S2 Gk (fun x y z => - Lk x y z) (fun x y => - ext1 x y) O2 O2 b p H). intros x y z N.
    eapply is_derive_eq; [apply dG_y, nz3_reg, N|]. rewrite Lk_eq; unfold O2; ring.
  - (* xz *) apply (D_S3 Gk (fun x y z => - Lk x z y) O2 O2 (fun x z => - ext1 x z) b p H). intros x y z N.
    eapply is_derive_eq; [apply dG_z, nz3_reg, N|]. unfold Lk; rewrite (rad_swap2 x y z); unfold O2; ring.
  - (* yx *) apply (D_S1 (fun x y z => Gk y z x) (fun x y z => - Lk x y z) (fun x y => - ext1 y x) O2 O2 b p H). intros x y z N.
    eapply is_derive_eq; [apply dG_z, nz3_reg, nz_rot, N|]. unfold Lk; rewrite (rad_rot x y z); unfold O2; ring.
  - (* yy *) apply (D_S2 (fun x y z => Gk y z x) (fun x y z => Tk y z x) (fun x y => hxy y x) hxy O2 b p H). intros x y z N.
    eapply is_derive_eq; [apply dG_x; [apply N|apply nz3_reg, nz_rot, N]|]. unfold hxy, O2; ring.
  - (* yz *) apply (D_S3 (fun x y z => Gk y z x) (fun x y z => - Lk y z x) O2 (fun y z => - ext1 y z) O2 b p H). intros x y z N.
    eapply is_derive_eq; [apply dG_y, nz3_reg, nz_rot, N|]. rewrite Lk_eq; unfold O2; ring.
  - (* zx *) apply (D_S1 (fun x y z => Gk z x y) (fun x y z => - Lk x z y) O2 O2 (fun x z => - ext1 z x) b p H). intros x y z N.
    eapply is_derive_eq; [apply dG_y, nz3_reg, nz_rot2, N|]. rewrite Lk_eq, (Lk_swap x z y); unfold O2; ring.
  - (* zy *) apply (D_S2 (fun x y z => Gk z x y) (fun x y z => - Lk y z x) O2 (fun y z => - ext1 z y) O2 b p H). intros x y z N.
    eapply is_derive_eq; [apply dG_z, nz3_reg, nz_rot2, N|]. unfold Lk; rewrite (rad_rot2 x y z), (rad_rot x y z); unfold O2; ring.
  - (* zz *) apply (D_S3 (fun x y z => Gk z x y) (fun x y z => Tk z x y) O2 (fun y z => hxy z y) (fun x z => hxy z x) b p H). intros x y z N.
    eapply is_derive_eq; [apply dG_x; [apply N|apply nz3_reg, nz_rot2, N]|]. unfold hxy, O2; ring.
Qed.

(** ** third derivatives *)
Definition t_xxx (x y z : R) := y * z / rad x y z * (1 / (x * x + y * y) + 1 / (x * x + z * z)).
Definition t_xxy (x y z : R) := - (x * z / ((x * x + y * y) * rad x y z)).

(* Each entry as a function of the corner in the order (x,y,z) *)
Definition gxxx b p := S3 (fun x y z => t_xxx x y z) b p.
Definition gyyy b p := S3 (fun x y z => t_xxx y z x) b p.
Definition gzzz b p := S3 (fun x y z => t_xxx z x y) b p.
Definition gxxy b p := S3 (fun x y z => t_xxy x y z) b p.
Definition gxxz b p := S3 (fun x y z => t_xxy x z y) b p.
Definition gyyx b p := S3 (fun x y z => t_xxy y x z) b p.
Definition gyyz b p := S3 (fun x y z => t_xxy y z x) b p.
Definition gzzx b p := S3 (fun x y z => t_xxy z x y) b p.
Definition gzzy b p := S3 (fun x y z => t_xxy z y x) b p.
Definition gxyz b p := S3 (fun x y z => 1 / rad x y z) b p.

Lemma rad_213 x y z : rad z y x = rad x y z.
Proof. unfold rad; f_equal; ring. Qed.

Lemma third_forms b p : off_faces b p ->
  eval_def_int b prism_fzzz p 1 = gxxx b p /\ eval_def_int b prism_fxxy p 0 = gxxy b p /\
  eval_def_int b prism_fxxz p 0 = gxxz b p /\ eval_def_int b prism_fxxz p 1 = gyyx b p /\
  eval_def_int b prism_fxyz p 0 = gxyz b p /\ eval_def_int b prism_fxxy p 2 = gzzx b p /\
  eval_def_int b prism_fzzz p 2 = gyyy b p /\ eval_def_int b prism_fxxy p 1 = gyyz b p /\
  eval_def_int b prism_fxxz p 2 = gzzy b p /\ eval_def_int b prism_fzzz p 0 = gzzz b p.
Proof.
  intro H. rewrite !eval0, !eval1, !eval2.
  unfold gxxx, gxxy, gxxz, gyyx, gxyz, gzzx, gyyy, gyyz, gzzy, gzzz, t_xxx, t_xxy.
  do 9 (refine (conj _ _); [apply (S3_ext _ _ b p H); intros x y z N;
    rewrite ?fzzz_form, ?fxxy_form, ?fxxz_form, ?fxyz_form by (unfold off_planes in *; tauto);
    rewrite ?(rad_rot x y z), ?(rad_rot2 x y z), ?(rad_swap x y z), ?(rad_swap2 x y z), ?(rad_213 x y z);
    first [reflexivity | ring]|]).
  apply (S3_ext _ _ b p H); intros x y z N.
  rewrite fzzz_form by exact N. rewrite (rad_rot2 x y z). reflexivity.
Qed.

(** derivative of the two kernels in the three slots *)
Lemma dT1 x y z : nz3 x y z -> is_derive (fun t => Tk t y z) x (- t_xxx x y z).
Proof. intro N. apply dT_x; [apply N|apply nz3_reg, N]. Qed.
Lemma dT2 x y z : nz3 x y z -> is_derive (fun t => Tk x t z) y (- t_xxy x y z).
Proof.
  intro N. eapply is_derive_eq; [apply dT_y; [apply N|apply nz3_reg, N]|]. unfold t_xxy.
  pose proof (reg_rad _ _ _ (nz3_reg _ _ _ N)). destruct N as [A [B C]]. field; repeat split; first [lra|nra].
Qed.
Lemma dT3 x y z : nz3 x y z -> is_derive (fun t => Tk x y t) z (- t_xxy x z y).
Proof.
  intro N. eapply is_derive_eq; [apply dT_z; [apply N|apply nz3_reg, N]|]. unfold t_xxy. rewrite (rad_swap2 x y z).
  pose proof (reg_rad _ _ _ (nz3_reg _ _ _ N)). destruct N as [A [B C]]. field; repeat split; first [lra|nra].
Qed.
Definition hl (x y : R) := x / (x * x + y * y).
Lemma dL1 x y z : nz3 x y z -> is_derive (fun t => - Lk t y z) x (- (t_xxy x y z + hl x y)).
Proof.
  intro N. eapply is_derive_eq; [apply D_opp; apply dL_x; [apply N|apply nz3_reg, N]|]. unfold t_xxy, hl. ring.
Qed.
Lemma dL2 x y z : nz3 x y z -> is_derive (fun t => - Lk x t z) y (- (t_xxy y x z + hl y x)).
Proof.
  intro N. eapply D_ext; [|apply (dL1 y x z (nz_swap _ _ _ N))]. intro t. cbn beta. rewrite Lk_swap. reflexivity.
Qed.
Lemma dL3 x y z : nz3 x y z -> is_derive (fun t => - Lk x y t) z (- (1 / rad x y z)).
Proof. intro N. apply D_opp, dL_z, nz3_reg, N. Qed.

Ltac slot L := let x := fresh "x" in let y := fresh "y" in let z := fresh "z" in let N := fresh "N" in
  intros x y z N; eapply is_derive_eq; [apply L; unfold off_planes in *; tauto|];
  rewrite ?(rad_rot x y z), ?(rad_rot2 x y z), ?(rad_swap x y z), ?(rad_swap2 x y z), ?(rad_213 x y z); unfold O2; ring.

Lemma tensor_jac b p : off_faces b p ->
  is_grad (gxx b) p (V3 (gxxx b p) (gxxy b p) (gxxz b p)) /\
  is_grad (gxy b) p (V3 (gxxy b p) (gyyx b p) (gxyz b p)) /\
  is_grad (gxz b) p (V3 (gxxz b p) (gxyz b p) (gzzx b p)) /\
  is_grad (gyy b) p (V3 (gyyx b p) (gyyy b p) (gyyz b p)) /\
  is_grad (gyz b) p (V3 (gxyz b p) (gyyz b p) (gzzy b p)) /\
  is_grad (gzz b) p (V3 (gzzx b p) (gzzy b p) (gzzz b p)).
Proof.
  intro H. refine (conj _ (conj _ (conj _ (conj _ (conj _ _))))); split_grad.
  - apply (D_S1 _ _ O2 O2 O2 b p H). slot dT1.
  - apply (D_S2 _ _ O2 O2 O2 b p H). slot dT2.
  - apply (D_S3 _ _ O2 O2 O2 b p H). slot dT3.
  - apply (D_S1 _ _ hl O2 O2 b p H). slot dL1.
  - apply (D_S2 _ _ (fun x y => hl y x) O2 O2 b p H). slot dL2.
  - apply (D_S3 _ _ O2 O2 O2 b p H). slot dL3.
  - apply (D_S1 _ _ O2 O2 hl b p H). slot dL1.
  - apply (D_S2 _ (fun x y z => 1 / rad x y z) O2 O2 O2 b p H). slot dL3.
  - apply (D_S3 _ _ O2 O2 (fun x z => hl z x) b p H). slot dL2.
  - apply (D_S1 _ _ O2 O2 O2 b p H). slot dT3.
  - apply (D_S2 _ _ O2 O2 O2 b p H). slot dT1.
  - apply (D_S3 _ _ O2 O2 O2 b p H). slot dT2.
  - apply (D_S1 _ (fun x y z => 1 / rad x y z) O2 O2 O2 b p H). slot dL3.
  - apply (D_S2 _ _ O2 hl O2 b p H). slot dL1.
  - apply (D_S3 _ _ O2 (fun y z => hl z y) O2 b p H). slot dL2.
  - apply (D_S1 _ _ O2 O2 O2 b p H). slot dT2.
  - apply (D_S2 _ _ O2 O2 O2 b p H). slot dT3.
  - apply (D_S3 _ _ O2 O2 O2 b p H). slot dT1.
Qed.
