(** Three-vectors, 3x3 matrices and elementary algebra over the reals.
    Generic mathematics: nothing here models geoana code. *)
From Coq Require Import Reals Lra Lia List.
Import ListNotations.
Open Scope R_scope.

Record vec3 : Type := V3 { vx : R; vy : R; vz : R }.

Definition vzero : vec3 := V3 0 0 0.
Definition vadd (a b : vec3) : vec3 := V3 (vx a + vx b) (vy a + vy b) (vz a + vz b).
Definition vsub (a b : vec3) : vec3 := V3 (vx a - vx b) (vy a - vy b) (vz a - vz b).
Definition vopp (a : vec3) : vec3 := V3 (- vx a) (- vy a) (- vz a).
Definition vscal (k : R) (a : vec3) : vec3 := V3 (k * vx a) (k * vy a) (k * vz a).
Definition vdot (a b : vec3) : R := vx a * vx b + vy a * vy b + vz a * vz b.
Definition vcross (a b : vec3) : vec3 :=
  V3 (vy a * vz b - vz a * vy b) (vz a * vx b - vx a * vz b) (vx a * vy b - vy a * vx b).
Definition vnorm2 (a : vec3) : R := vx a * vx a + vy a * vy a + vz a * vz a.
Definition vnorm (a : vec3) : R := sqrt (vnorm2 a).

(** rows of a matrix *)
Record mat3 : Type := M3 { m0 : vec3; m1 : vec3; m2 : vec3 }.

Definition mvec (m : mat3) (v : vec3) : vec3 := V3 (vdot (m0 m) v) (vdot (m1 m) v) (vdot (m2 m) v).
Definition mtrans (m : mat3) : mat3 :=
  M3 (V3 (vx (m0 m)) (vx (m1 m)) (vx (m2 m)))
     (V3 (vy (m0 m)) (vy (m1 m)) (vy (m2 m)))
     (V3 (vz (m0 m)) (vz (m1 m)) (vz (m2 m))).
Definition mmul (a b : mat3) : mat3 :=
  let bt := mtrans b in
  M3 (V3 (vdot (m0 a) (m0 bt)) (vdot (m0 a) (m1 bt)) (vdot (m0 a) (m2 bt)))
     (V3 (vdot (m1 a) (m0 bt)) (vdot (m1 a) (m1 bt)) (vdot (m1 a) (m2 bt)))
     (V3 (vdot (m2 a) (m0 bt)) (vdot (m2 a) (m1 bt)) (vdot (m2 a) (m2 bt))).
Definition mid : mat3 := M3 (V3 1 0 0) (V3 0 1 0) (V3 0 0 1).
Definition mdet (m : mat3) : R := vdot (m0 m) (vcross (m1 m) (m2 m)).
Definition mscal (k : R) (m : mat3) : mat3 := M3 (vscal k (m0 m)) (vscal k (m1 m)) (vscal k (m2 m)).
Definition madd (a b : mat3) : mat3 := M3 (vadd (m0 a) (m0 b)) (vadd (m1 a) (m1 b)) (vadd (m2 a) (m2 b)).
Definition mtrace (m : mat3) : R := vx (m0 m) + vy (m1 m) + vz (m2 m).
Definition msym (m : mat3) : Prop := mtrans m = m.

(** a proper rotation: orthogonal with determinant one *)
Definition is_rotation (m : mat3) : Prop :=
  mmul (mtrans m) m = mid /\ mmul m (mtrans m) = mid /\ mdet m = 1.

Lemma vec3_eq (a b : vec3) : vx a = vx b -> vy a = vy b -> vz a = vz b -> a = b.
Proof. destruct a, b; simpl; intros; subst; reflexivity. Qed.

Lemma mat3_eq (a b : mat3) : m0 a = m0 b -> m1 a = m1 b -> m2 a = m2 b -> a = b.
Proof. destruct a, b; simpl; intros; subst; reflexivity. Qed.

Lemma V3_inj a b c a' b' c' : V3 a b c = V3 a' b' c' -> a = a' /\ b = b' /\ c = c'.
Proof. intro H; injection H; auto. Qed.

Ltac vunf := cbv [vadd vsub vopp vscal vdot vcross vnorm2 mvec mmul mtrans mid
                  mdet mscal madd mtrace vzero vx vy vz m0 m1 m2].
Ltac vring := vunf; try apply vec3_eq; simpl; ring.
Ltac veq := apply vec3_eq; simpl.

Lemma vnorm2_nonneg a : 0 <= vnorm2 a.
Proof. unfold vnorm2; nra. Qed.

Lemma vnorm_nonneg a : 0 <= vnorm a.
Proof. apply sqrt_pos. Qed.

Lemma vnorm_sqr a : vnorm a * vnorm a = vnorm2 a.
Proof. apply sqrt_sqrt, vnorm2_nonneg. Qed.

Lemma vnorm2_dot a : vnorm2 a = vdot a a.
Proof. reflexivity. Qed.

Lemma vnorm2_pos a : a <> vzero -> 0 < vnorm2 a.
Proof.
  intro H. destruct (Rle_lt_dec (vnorm2 a) 0) as [L|L]; [|exact L].
  exfalso; apply H. unfold vnorm2 in L. destruct a as [x y z]; simpl in *.
  assert (x = 0) by nra. assert (y = 0) by nra. assert (z = 0) by nra.
  subst; reflexivity.
Qed.

Lemma vnorm_pos a : a <> vzero -> 0 < vnorm a.
Proof. intro H; apply sqrt_lt_R0, vnorm2_pos, H. Qed.

Lemma vnorm_zero : vnorm vzero = 0.
Proof. unfold vnorm, vnorm2, vzero; simpl. replace (0*0+0*0+0*0) with 0 by ring. apply sqrt_0. Qed.

Lemma vnorm_eq0 a : vnorm a = 0 -> a = vzero.
Proof.
  intro H. destruct (Req_dec (vx a) 0) as [X|X], (Req_dec (vy a) 0) as [Y|Y], (Req_dec (vz a) 0) as [Z|Z];
  try (exfalso; pose proof (vnorm_sqr a) as Q; rewrite H in Q; unfold vnorm2 in Q;
       assert (0 < vx a * vx a \/ 0 < vy a * vy a \/ 0 < vz a * vz a) by
         (first [left; nra | right; left; nra | right; right; nra]); nra).
  destruct a; simpl in *; subst; reflexivity.
Qed.

Lemma vnorm_unique a n : 0 <= n -> n * n = vnorm2 a -> vnorm a = n.
Proof. intros Hn E. unfold vnorm. rewrite <- E. apply sqrt_square; exact Hn. Qed.

Lemma vnorm_scal k a : vnorm (vscal k a) = Rabs k * vnorm a.
Proof.
  apply vnorm_unique.
  - apply Rmult_le_pos; [apply Rabs_pos | apply vnorm_nonneg].
  - replace (Rabs k * vnorm a * (Rabs k * vnorm a)) with ((Rabs k * Rabs k) * (vnorm a * vnorm a)) by ring.
    rewrite vnorm_sqr. rewrite <- Rabs_mult, (Rabs_pos_eq (k * k)) by nra. vring.
Qed.

Lemma vnorm_opp a : vnorm (vopp a) = vnorm a.
Proof. unfold vnorm; f_equal; vring. Qed.

Lemma vnorm_sub_sym a b : vnorm (vsub a b) = vnorm (vsub b a).
Proof. unfold vnorm; f_equal; vring. Qed.

Lemma cauchy_schwarz a b : Rabs (vdot a b) <= vnorm a * vnorm b.
Proof.
  apply Rsqr_incr_0_var; [| apply Rmult_le_pos; apply vnorm_nonneg].
  rewrite <- Rsqr_abs. unfold Rsqr.
  replace (vnorm a * vnorm b * (vnorm a * vnorm b)) with ((vnorm a * vnorm a) * (vnorm b * vnorm b)) by ring.
  rewrite !vnorm_sqr. unfold vdot, vnorm2.
  destruct a as [a1 a2 a3], b as [b1 b2 b3]; simpl.
  assert (0 <= (a1*b2-a2*b1)*(a1*b2-a2*b1) + (a1*b3-a3*b1)*(a1*b3-a3*b1) + (a2*b3-a3*b2)*(a2*b3-a3*b2)).
  { repeat apply Rplus_le_le_0_compat; apply Rle_0_sqr. }
  lra.
Qed.

Lemma vnorm_triangle a b : vnorm (vadd a b) <= vnorm a + vnorm b.
Proof.
  apply Rsqr_incr_0_var; [| apply Rplus_le_le_0_compat; apply vnorm_nonneg].
  unfold Rsqr. rewrite vnorm_sqr.
  replace ((vnorm a + vnorm b) * (vnorm a + vnorm b))
    with (vnorm a * vnorm a + vnorm b * vnorm b + 2 * (vnorm a * vnorm b)) by ring.
  rewrite !vnorm_sqr.
  pose proof (cauchy_schwarz a b) as H. pose proof (Rle_abs (vdot a b)) as H'.
  unfold vnorm2, vdot, vadd in *; simpl in *. lra.
Qed.

Lemma lagrange_identity a b : vnorm2 (vcross a b) + vdot a b * vdot a b = vnorm2 a * vnorm2 b.
Proof. destruct a, b; vring. Qed.

Lemma rotation_norm m v : is_rotation m -> vnorm (mvec m v) = vnorm v.
Proof.
  intros [H _]. unfold vnorm; f_equal.
  assert (E : vnorm2 (mvec m v) = vdot v (mvec (mmul (mtrans m) m) v)) by (destruct m as [[] [] []], v; vring).
  rewrite E, H. destruct v; vring.
Qed.

Lemma rotation_dot m u v : is_rotation m -> vdot (mvec m u) (mvec m v) = vdot u v.
Proof.
  intros [H _].
  assert (E : vdot (mvec m u) (mvec m v) = vdot u (mvec (mmul (mtrans m) m) v)) by (destruct m as [[] [] []], u, v; vring).
  rewrite E, H. destruct u, v; vring.
Qed.

Lemma mvec_sub m u v : mvec m (vsub u v) = vsub (mvec m u) (mvec m v).
Proof. destruct m as [[] [] []], u, v; vring. Qed.
Lemma mvec_add m u v : mvec m (vadd u v) = vadd (mvec m u) (mvec m v).
Proof. destruct m as [[] [] []], u, v; vring. Qed.
Lemma mvec_scal m k v : mvec m (vscal k v) = vscal k (mvec m v).
Proof. destruct m as [[] [] []], v; vring. Qed.
