(** Proofs about em/static: dipole, pole, coordinate option. *)
From Coq Require Import Reals Lra List Bool String Ascii.
From Coquelicot Require Import Coquelicot.
From Verif Require Import Vec3 Numpy Calculus Deriv Model_Spatial Proof_Spatial Proof_Gravity Model_Static.
Import ListNotations.
Open Scope R_scope.

(** differentiate the nine components, leaving the Jacobian as unknowns *)
Ltac open_jac := refine (ex_intro _ (M3 (V3 _ _ _) (V3 _ _ _) (V3 _ _ _)) _); split; [split_jac|].

Lemma PI_nz : PI <> 0. Proof. pose proof PI_RGT_0; lra. Qed.

Lemma nz_4pi r n : 0 < r -> 4 * PI * r ^ n <> 0.
Proof. intro H. pose proof PI_RGT_0. pose proof (pow_lt r n H). apply Rgt_not_eq. apply Rmult_lt_0_compat; lra. Qed.
Lemma nz_pow r n : 0 < r -> r ^ n <> 0.
Proof. intro H. pose proof (pow_lt r n H). lra. Qed.

Ltac side H := pose proof (vnorm_pos _ H); first [lra | apply nz_4pi; lra | apply nz_pow; lra | idtac].

(** [c = f(x,y,z,r)] with r the norm and PI abstract *)
Ltac norm_field' H :=
  let r := fresh "r" in
  let Hr := fresh "Hr" in
  let Hp := fresh "Hp" in
  pose proof PI_RGT_0;
  match type of H with
  | V3 ?x ?y ?z <> vzero =>
      pose proof (vnorm_pos _ H) as Hp;
      assert (Hr : vnorm (V3 x y z) ^ 2 = x ^ 2 + y ^ 2 + z ^ 2)
        by (rewrite pow_2, vnorm_sqr; unfold vnorm2; simpl; ring);
      set (r := vnorm (V3 x y z)) in *; clearbody r;
      let pi := fresh "pi" in set (pi := PI) in *; clearbody pi;
      first [ solve [field; repeat split; lra]
            | field_simplify_eq; [ ring [Hr] | repeat split; lra ] ]
  end.

Section Dip.
Variables (m mu : R) (o : vec3).
Definition A0 (v : vec3) : vec3 := vscal (m * mu / (4 * PI * vnorm v ^ 2)) (vcross o (vdiv v (vnorm v))).
Definition B0 (v : vec3) : vec3 := vscal (m * mu / (4 * PI * vnorm v ^ 3))
    (vsub (vscal (3 * vdot (vdiv v (vnorm v)) o) (vdiv v (vnorm v))) o).

Ltac unf := unfold A0, B0, vscal, vcross, vdiv, vsub, vdot; cbn [vx vy vz].

Lemma dip_curlA v : v <> vzero -> is_curl A0 v (B0 v).
Proof.
  intro H. destruct v as [x y z], o as [ox oy oz].
  pose proof (norm_dx x y z H). pose proof (norm_dy x y z H). pose proof (norm_dz x y z H).
  unfold is_curl, A0, B0. unf. open_jac.
  1-9: der; side H.
  unfold curl_of; cbn [vx vy vz m0 m1 m2 INR pred]. apply vec3_eq; cbn [vx vy vz]; norm_field' H.
Qed.
Lemma dip_divA v : v <> vzero -> is_div A0 v 0.
Proof.
  intro H. destruct v as [x y z], o as [ox oy oz].
  pose proof (norm_dx x y z H). pose proof (norm_dy x y z H). pose proof (norm_dz x y z H).
  unfold is_div, A0. unf. open_jac.
  1-9: der; side H.
  unfold mtrace; cbn [vx vy vz m0 m1 m2 INR pred]. norm_field' H.
Qed.
Lemma dip_divB v : v <> vzero -> is_div B0 v 0.
Proof.
  intro H. destruct v as [x y z], o as [ox oy oz].
  pose proof (norm_dx x y z H). pose proof (norm_dy x y z H). pose proof (norm_dz x y z H).
  unfold is_div, B0. unf. open_jac.
  1-9: der; side H.
  unfold mtrace; cbn [vx vy vz m0 m1 m2 INR pred]. norm_field' H.
Qed.
Lemma dip_curlB v : v <> vzero -> is_curl B0 v vzero.
Proof.
  intro H. destruct v as [x y z], o as [ox oy oz].
  pose proof (norm_dx x y z H). pose proof (norm_dy x y z H). pose proof (norm_dz x y z H).
  unfold is_curl, B0. unf. open_jac.
  1-9: der; side H.
  unfold curl_of, vzero; cbn [vx vy vz m0 m1 m2 INR pred]. apply vec3_eq; cbn [vx vy vz]; norm_field' H.
Qed.
End Dip.
