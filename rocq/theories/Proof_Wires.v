(** C118: expansions of the kernels of the wire integrals far from the wire. *)
From Coq Require Import Reals Lra Lia List.
From Coquelicot Require Import Coquelicot.
From Verif Require Import Vec3 Calculus Deriv Integral Numpy Model_Static Spec_Static Spec_Wires Proof_Line Proof_Line2 Proof_LoopFar2.
Import ListNotations.
Open Scope R_scope.

(** *** scalars: rho = |d - t| against r = |d| *)
Section Scalar.
Variables r rho a : R.
Hypothesis Hr : 0 < r.
Hypothesis Hrho : r / 2 <= rho.
Hypothesis Hd : Rabs (rho - r) <= a.

Let z := r / rho.
Lemma sc_z : 0 < z <= 2.
Proof. unfold z. split; [apply Rdiv_lt_0_compat; lra|]. apply Rmult_le_reg_r with rho; [lra|]. unfold Rdiv. rewrite Rmult_assoc, Rinv_l; lra. Qed.
Lemma sc_rho : rho = r / z.
Proof. unfold z. field. lra. Qed.
Lemma sc_sq : (rho - r) ^ 2 <= a ^ 2.
Proof. rewrite <- (pow2_abs (rho - r)). apply pow_incr. split; [apply Rabs_pos|exact Hd]. Qed.

Lemma sc_inv1 : Rabs (/ rho - / r + (rho ^ 2 - r ^ 2) / (2 * r ^ 3)) <= 5 / 2 * a ^ 2 / r ^ 3.
Proof.
  pose proof sc_z as Z. pose proof sc_sq as S.
  replace (/ rho - / r + (rho ^ 2 - r ^ 2) / (2 * r ^ 3)) with ((rho - r) ^ 2 * ((1 + 2 * z) * / (2 * r ^ 3))) by (unfold z; field; lra).
  assert (K : 0 < / (2 * r ^ 3)) by (apply Rinv_0_lt_compat; apply Rmult_lt_0_compat; [lra|apply pow_lt, Hr]).
  set (k := / (2 * r ^ 3)) in *. pose proof (pow2_ge_0 (rho - r)).
  rewrite Rabs_pos_eq by (apply Rmult_le_pos; [lra|apply Rmult_le_pos; lra]).
  replace (5 / 2 * a ^ 2 / r ^ 3) with (a ^ 2 * (5 * k)) by (unfold k; field; lra).
  apply Rmult_le_compat; try lra; [apply Rmult_le_pos; lra|apply Rmult_le_compat_r; lra].
Qed.
Lemma sc_inv3 : Rabs (/ rho ^ 3 - / r ^ 3 + 3 * (rho ^ 2 - r ^ 2) / (2 * r ^ 5)) <= 47 / 2 * a ^ 2 / r ^ 5.
Proof.
  pose proof sc_z as Z. pose proof sc_sq as S.
  replace (/ rho ^ 3 - / r ^ 3 + 3 * (rho ^ 2 - r ^ 2) / (2 * r ^ 5)) with ((rho - r) ^ 2 * ((3 + 6 * z + 4 * z ^ 2 + 2 * z ^ 3) * / (2 * r ^ 5))) by (unfold z; field; lra).
  assert (K : 0 < / (2 * r ^ 5)) by (apply Rinv_0_lt_compat; apply Rmult_lt_0_compat; [lra|apply pow_lt, Hr]).
  set (k := / (2 * r ^ 5)) in *. pose proof (pow2_ge_0 (rho - r)).
  assert (0 <= z ^ 2 <= 2 ^ 2) by (split; [apply pow_le|apply pow_incr]; lra).
  assert (0 <= z ^ 3 <= 2 ^ 3) by (split; [apply pow_le|apply pow_incr]; lra).
  rewrite Rabs_pos_eq by (apply Rmult_le_pos; [lra|apply Rmult_le_pos; lra]).
  replace (47 / 2 * a ^ 2 / r ^ 5) with (a ^ 2 * (47 * k)) by (unfold k; field; lra).
  apply Rmult_le_compat; try lra; [apply Rmult_le_pos; lra|apply Rmult_le_compat_r; lra].
Qed.
Hypothesis Hrho2 : rho <= 3 / 2 * r.
Lemma sc_inv3b : Rabs (/ rho ^ 3 - / r ^ 3 + 3 * (rho ^ 2 - r ^ 2) / (2 * r ^ 5) - 15 * (rho ^ 2 - r ^ 2) ^ 2 / (8 * r ^ 7)) <= 41 * a ^ 3 / r ^ 6.
Proof.
  pose proof sc_z as Z.
  replace (/ rho ^ 3 - / r ^ 3 + 3 * (rho ^ 2 - r ^ 2) / (2 * r ^ 5) - 15 * (rho ^ 2 - r ^ 2) ^ 2 / (8 * r ^ 7)) with
    (- ((rho - r) ^ 3 * ((15 * (rho / r) + 45 + 48 * z + 24 * z ^ 2 + 8 * z ^ 3) * / (8 * r ^ 6)))) by (unfold z; field; lra).
  assert (K : 0 < / (8 * r ^ 6)) by (apply Rinv_0_lt_compat; apply Rmult_lt_0_compat; [lra|apply pow_lt, Hr]).
  set (k := / (8 * r ^ 6)) in *.
  assert (0 <= z ^ 2 <= 2 ^ 2) by (split; [apply pow_le|apply pow_incr]; lra).
  assert (0 <= z ^ 3 <= 2 ^ 3) by (split; [apply pow_le|apply pow_incr]; lra).
  assert (Y : 0 <= rho / r <= 3 / 2).
  { split; [apply Rlt_le, Rdiv_lt_0_compat; lra|]. apply Rmult_le_reg_r with r; [lra|]. unfold Rdiv. rewrite Rmult_assoc, Rinv_l; lra. }
  rewrite Rabs_Ropp, Rabs_mult, <- RPow_abs, (Rabs_pos_eq (_ * k)) by (apply Rmult_le_pos; lra).
  replace (41 * a ^ 3 / r ^ 6) with (a ^ 3 * (328 * k)) by (unfold k; field; lra).
  apply Rmult_le_compat; [apply pow_le, Rabs_pos|apply Rmult_le_pos; lra|apply pow_incr; split; [apply Rabs_pos|exact Hd]|apply Rmult_le_compat_r; lra].
Qed.
End Scalar.

(** *** vectors *)
Lemma vnorm_sub_ge a b : vnorm a - vnorm b <= vnorm (vsub a b).
Proof. pose proof (vnorm_triangle (vsub a b) b) as T. replace (vadd (vsub a b) b) with a in T by (destruct a, b; vring). lra. Qed.
Lemma vnorm_sub_le a b : vnorm (vsub a b) <= vnorm a + vnorm b.
Proof. replace (vsub a b) with (vadd a (vopp b)) by (destruct a, b; vring). rewrite <- (vnorm_opp b). apply vnorm_triangle. Qed.
Lemma vnorm_diff a b : Rabs (vnorm (vsub a b) - vnorm a) <= vnorm b.
Proof. pose proof (vnorm_sub_ge a b). pose proof (vnorm_sub_le a b). apply Rabs_le. lra. Qed.
Lemma vnorm2_pow v : vnorm2 v = vnorm v ^ 2.
Proof. rewrite <- vnorm_sqr. ring. Qed.
Lemma diff_sq d t : vnorm (vsub d t) ^ 2 - vnorm d ^ 2 = - 2 * vdot d t + vnorm t ^ 2.
Proof. rewrite <- !vnorm2_pow. destruct d, t. unfold vnorm2, vsub, vdot; cbn. ring. Qed.

Section Kernel.
Variables d t : vec3.
Variable a : R.
Let r := vnorm d.
Let rho := vnorm (vsub d t).
Hypothesis Ha : vnorm t <= a.
Hypothesis Hr : 2 * a <= r.
Hypothesis Hp : 0 < r.

Lemma kr_a : 0 <= a. Proof. pose proof (vnorm_nonneg t). lra. Qed.
Lemma kr_rho : r / 2 <= rho <= 3 / 2 * r.
Proof. pose proof (vnorm_sub_ge d t). pose proof (vnorm_sub_le d t). unfold rho, r in *. lra. Qed.
Lemma kr_diff : Rabs (rho - r) <= a.
Proof. eapply Rle_trans; [apply vnorm_diff|exact Ha]. Qed.
Lemma kr_dot : Rabs (vdot d t) <= r * a.
Proof. eapply Rle_trans; [apply cauchy_schwarz|]. apply Rmult_le_compat_l; [apply vnorm_nonneg|exact Ha]. Qed.
Lemma kr_t2 : 0 <= vnorm t ^ 2 <= a ^ 2.
Proof. split; [apply pow2_ge_0|apply pow_incr; split; [apply vnorm_nonneg|exact Ha]]. Qed.
Lemma kr_inv n : 0 < / r ^ n. Proof. apply Rinv_0_lt_compat, pow_lt, Hp. Qed.

Lemma kr_1 : Rabs (/ rho - / r - vdot d t / r ^ 3) <= 3 * a ^ 2 / r ^ 3.
Proof.
  pose proof (sc_inv1 r rho a Hp (proj1 kr_rho) kr_diff) as I. pose proof (diff_sq d t) as E. fold r rho in E. rewrite E in I.
  pose proof kr_t2 as T. pose proof (kr_inv 3) as K.
  replace (/ rho - / r - vdot d t / r ^ 3) with ((/ rho - / r + (-2 * vdot d t + vnorm t ^ 2) / (2 * r ^ 3)) - vnorm t ^ 2 / 2 * / r ^ 3) by (field; split; [lra|pose proof kr_rho; lra]).
  eapply Rle_trans; [apply Rabs_triang|]. rewrite Rabs_Ropp, (Rabs_pos_eq (_ * / r ^ 3)) by (apply Rmult_le_pos; lra).
  apply Rle_trans with (5 / 2 * a ^ 2 / r ^ 3 + a ^ 2 / 2 * / r ^ 3); [|right; field; lra].
  apply Rplus_le_compat; [exact I|apply Rmult_le_compat_r; lra].
Qed.
Lemma kr_3 : Rabs (/ rho ^ 3 - / r ^ 3 - 3 * vdot d t / r ^ 5) <= 25 * a ^ 2 / r ^ 5.
Proof.
  pose proof (sc_inv3 r rho a Hp (proj1 kr_rho) kr_diff) as I. pose proof (diff_sq d t) as E. fold r rho in E. rewrite E in I.
  pose proof kr_t2 as T. pose proof (kr_inv 5) as K.
  replace (/ rho ^ 3 - / r ^ 3 - 3 * vdot d t / r ^ 5) with ((/ rho ^ 3 - / r ^ 3 + 3 * (-2 * vdot d t + vnorm t ^ 2) / (2 * r ^ 5)) - 3 * vnorm t ^ 2 / 2 * / r ^ 5) by (field; split; [lra|pose proof kr_rho; lra]).
  eapply Rle_trans; [apply Rabs_triang|]. rewrite Rabs_Ropp, (Rabs_pos_eq (_ * / r ^ 5)) by (apply Rmult_le_pos; lra).
  apply Rle_trans with (47 / 2 * a ^ 2 / r ^ 5 + 3 * a ^ 2 / 2 * / r ^ 5); [|right; field; lra].
  apply Rplus_le_compat; [exact I|apply Rmult_le_compat_r; lra].
Qed.
(** with the even second-order term *)
Definition even2 (d t : vec3) : R := (15 * vdot d t ^ 2 / vnorm d ^ 2 - 3 * vnorm t ^ 2) / 2.
Lemma kr_even : Rabs (even2 d t) <= 9 * a ^ 2.
Proof.
  pose proof kr_t2 as T. pose proof kr_dot as D. unfold even2. fold r.
  assert (X : 0 <= vdot d t ^ 2 / r ^ 2 <= a ^ 2).
  { pose proof (kr_inv 2) as K. split; [apply Rmult_le_pos; [apply pow2_ge_0|lra]|]. apply Rle_trans with ((r * a) ^ 2 * / r ^ 2); [|right; field; lra].
    apply Rmult_le_compat_r; [lra|]. rewrite <- (pow2_abs (vdot d t)). apply pow_incr. split; [apply Rabs_pos|exact D]. }
  replace (15 * vdot d t ^ 2 / r ^ 2) with (15 * (vdot d t ^ 2 / r ^ 2)) by (field; lra). apply Rabs_le. lra.
Qed.
Lemma kr_3b : Rabs (/ rho ^ 3 - / r ^ 3 - 3 * vdot d t / r ^ 5 - even2 d t / r ^ 5) <= 50 * a ^ 3 / r ^ 6.
Proof.
  pose proof kr_rho as Q. pose proof (sc_inv3b r rho a Hp (proj1 Q) kr_diff (proj2 Q)) as I. pose proof (diff_sq d t) as E. fold r rho in E. rewrite E in I.
  pose proof kr_t2 as T. pose proof (kr_inv 6) as K. pose proof kr_dot as D. pose proof kr_a as A0.
  replace (/ rho ^ 3 - / r ^ 3 - 3 * vdot d t / r ^ 5 - even2 d t / r ^ 5) with
    ((/ rho ^ 3 - / r ^ 3 + 3 * (-2 * vdot d t + vnorm t ^ 2) / (2 * r ^ 5) - 15 * (-2 * vdot d t + vnorm t ^ 2) ^ 2 / (8 * r ^ 7))
     + (15 / 8 * (vnorm t ^ 2 * (vnorm t ^ 2 / r)) - 15 / 2 * (vdot d t / r * vnorm t ^ 2)) * / r ^ 6) by (unfold even2; fold r; field; split; lra).
  eapply Rle_trans; [apply Rabs_triang|]. rewrite (Rabs_mult _ (/ r ^ 6)), (Rabs_pos_eq (/ r ^ 6)) by lra.
  assert (X1 : Rabs (vdot d t / r) <= a).
  { unfold Rdiv. rewrite Rabs_mult, (Rabs_pos_eq (/ r)) by (apply Rlt_le, Rinv_0_lt_compat, Hp). apply Rmult_le_reg_r with r; [exact Hp|]. rewrite Rmult_assoc, Rinv_l by lra. lra. }
  assert (X2 : 0 <= vnorm t ^ 2 / r <= a / 2).
  { split; [apply Rmult_le_pos; [lra|apply Rlt_le, Rinv_0_lt_compat, Hp]|]. apply Rmult_le_reg_r with r; [exact Hp|]. unfold Rdiv at 1. rewrite Rmult_assoc, Rinv_l by lra. nra. }
  apply Rle_trans with (41 * a ^ 3 / r ^ 6 + (15 / 8 * (a ^ 2 * (a / 2)) + 15 / 2 * (a * a ^ 2)) * / r ^ 6).
  - apply Rplus_le_compat; [exact I|]. apply Rmult_le_compat_r; [lra|]. eapply Rle_trans; [apply Rabs_triang|]. rewrite Rabs_Ropp. apply Rplus_le_compat.
    + rewrite Rabs_pos_eq by (apply Rmult_le_pos; [lra|apply Rmult_le_pos; lra]). apply Rmult_le_compat_l; [lra|]. apply Rmult_le_compat; lra.
    + rewrite Rabs_mult, (Rabs_pos_eq (15 / 2)) by lra. apply Rmult_le_compat_l; [lra|]. rewrite Rabs_mult, (Rabs_pos_eq (vnorm t ^ 2)) by lra. apply Rmult_le_compat; try lra. apply Rabs_pos.
  - assert (0 <= a ^ 3) by (apply pow_le, A0). replace (41 * a ^ 3 / r ^ 6) with (41 * a ^ 3 * / r ^ 6) by reflexivity. rewrite <- Rmult_plus_distr_r. unfold Rdiv at 3. apply Rmult_le_compat_r; [lra|].
    replace (a ^ 2 * (a / 2)) with (a ^ 3 / 2) by field. replace (a * a ^ 2) with (a ^ 3) by ring. lra.
Qed.

Lemma kr_B l : vnorm (vsub (vscal (/ rho ^ 3) (vcross l (vsub d t)))
    (vadd (vscal (/ r ^ 3) (vsub (vcross l d) (vcross l t))) (vscal (3 * vdot d t / r ^ 5) (vcross l d)))) <= 41 * a ^ 2 / r ^ 4 * vnorm l.
Proof.
  replace (vsub _ _) with (vsub (vscal (/ rho ^ 3 - / r ^ 3 - 3 * vdot d t / r ^ 5) (vcross l (vsub d t))) (vscal (3 * vdot d t / r ^ 5) (vcross l t)))
    by (generalize (/ rho ^ 3) (/ r ^ 3) (3 * vdot d t / r ^ 5); intros k1 k2 k3; destruct l, d, t; vring).
  eapply Rle_trans; [apply vnorm_sub_le|]. rewrite !vnorm_scal. pose proof kr_3 as K3. pose proof kr_rho as Q. pose proof kr_dot as D. pose proof kr_a as A0.
  pose proof (vnorm_cross_le l (vsub d t)) as C1. pose proof (vnorm_cross_le l t) as C2. fold rho in C1. pose proof (vnorm_nonneg l) as L0. pose proof (kr_inv 4) as I4. pose proof (kr_inv 5) as I5.
  apply Rle_trans with (25 * a ^ 2 / r ^ 5 * (vnorm l * (3 / 2 * r)) + 3 * (r * a) / r ^ 5 * (vnorm l * a)).
  - apply Rplus_le_compat.
    + apply Rmult_le_compat; [apply Rabs_pos|apply vnorm_nonneg|exact K3|]. eapply Rle_trans; [exact C1|]. apply Rmult_le_compat_l; lra.
    + apply Rmult_le_compat; [apply Rabs_pos|apply vnorm_nonneg| |].
      * unfold Rdiv. rewrite !Rabs_mult, (Rabs_pos_eq 3), (Rabs_pos_eq (/ r ^ 5)) by lra. apply Rmult_le_compat_r; [lra|]. apply Rmult_le_compat_l; lra.
      * eapply Rle_trans; [exact C2|]. apply Rmult_le_compat_l; lra.
  - replace (25 * a ^ 2 / r ^ 5 * (vnorm l * (3 / 2 * r)) + 3 * (r * a) / r ^ 5 * (vnorm l * a)) with (81 / 2 * (a ^ 2 * / r ^ 4 * vnorm l)) by (field; lra).
    replace (41 * a ^ 2 / r ^ 4 * vnorm l) with (41 * (a ^ 2 * / r ^ 4 * vnorm l)) by (field; lra).
    apply Rmult_le_compat_r; [|lra]. apply Rmult_le_pos; [|exact L0]. apply Rmult_le_pos; [apply pow2_ge_0|lra].
Qed.
Lemma kr_A l : vnorm (vsub (vscal (/ rho) l) (vscal (/ r + vdot d t / r ^ 3) l)) <= 3 * a ^ 2 / r ^ 3 * vnorm l.
Proof.
  replace (vsub _ _) with (vscal (/ rho - / r - vdot d t / r ^ 3) l) by (generalize (/ rho) (/ r) (vdot d t / r ^ 3); intros k1 k2 k3; destruct l; vring).
  rewrite vnorm_scal. apply Rmult_le_compat_r; [apply vnorm_nonneg|exact kr_1].
Qed.
(** the field of a point current *)
Lemma kr_E : vnorm (vsub (vscal (/ rho ^ 3) (vsub d t))
    (vadd (vadd (vscal (/ r ^ 3 + even2 d t / r ^ 5) d) (vscal (3 * vdot d t / r ^ 5) d)) (vsub (vscal (- / r ^ 3) t) (vscal (3 * vdot d t / r ^ 5) t)))) <= 84 * a ^ 3 / r ^ 5.
Proof.
  replace (vsub _ _) with (vsub (vscal (/ rho ^ 3 - / r ^ 3 - 3 * vdot d t / r ^ 5 - even2 d t / r ^ 5) (vsub d t)) (vscal (even2 d t / r ^ 5) t))
    by (generalize (/ rho ^ 3) (/ r ^ 3) (3 * vdot d t / r ^ 5) (even2 d t / r ^ 5); intros k1 k2 k3 k4; destruct d, t; vring).
  eapply Rle_trans; [apply vnorm_sub_le|]. rewrite !vnorm_scal. pose proof kr_3b as K3. pose proof kr_rho as Q. pose proof kr_even as D. pose proof kr_a as A0. pose proof (kr_inv 5) as I5.
  apply Rle_trans with (50 * a ^ 3 / r ^ 6 * (3 / 2 * r) + 9 * a ^ 2 / r ^ 5 * a).
  - apply Rplus_le_compat.
    + apply Rmult_le_compat; [apply Rabs_pos|apply vnorm_nonneg|exact K3|]. fold rho. lra.
    + apply Rmult_le_compat; [apply Rabs_pos|apply vnorm_nonneg| |exact Ha]. unfold Rdiv. rewrite Rabs_mult, (Rabs_pos_eq (/ r ^ 5)) by lra. apply Rmult_le_compat_r; lra.
  - right. field. lra.
Qed.
End Kernel.
