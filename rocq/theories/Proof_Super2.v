(** Prisms as superpositions of point masses and dipoles (C111). *)
From Coq Require Import Reals Lra Psatz.
From Coquelicot Require Import Coquelicot.
From Verif Require Import Vec3 Calculus Deriv Integral TripleParam Model_Gravity Model_Static Model_Prism Spec_Prism Spec_Super
  Proof_Prism Proof_Prism2 Proof_Prism3 Proof_Prism4 Proof_Far Proof_Super.
Open Scope R_scope.

(** ** the kernels 1/|u|, its gradient and its Hessian *)
Definition k0 (u : vec3) : R := 1 / vnorm u.
Definition k1 (u : vec3) : vec3 := let w := / vnorm u in V3 (- vx u * w ^ 3) (- vy u * w ^ 3) (- vz u * w ^ 3).
Definition k2 (u : vec3) : mat3 := let w := / vnorm u in
  let e d a b := 3 * a * b * w ^ 5 - d * w ^ 3 in
  M3 (V3 (e 1 (vx u) (vx u)) (e 0 (vx u) (vy u)) (e 0 (vx u) (vz u)))
     (V3 (e 0 (vy u) (vx u)) (e 1 (vy u) (vy u)) (e 0 (vy u) (vz u)))
     (V3 (e 0 (vz u) (vx u)) (e 0 (vz u) (vy u)) (e 1 (vz u) (vz u))).
Lemma k1_grad u : u <> vzero -> is_grad k0 u (k1 u).
Proof.
  intro H. pose proof (vnorm_pos _ H) as P. unfold k0, k1. destruct u as [x y z].
  pose proof (norm_dx x y z H). pose proof (norm_dy x y z H). pose proof (norm_dz x y z H).
  split_grad; (eapply is_derive_eq; [der; lra|field; lra]).
Qed.
Lemma k2_jac u : u <> vzero -> is_jac k1 u (k2 u).
Proof.
  intro H. pose proof (vnorm_pos _ H) as P. unfold k2, k1. destruct u as [x y z].
  pose proof (norm_dx x y z H). pose proof (norm_dy x y z H). pose proof (norm_dz x y z H).
  split_jac; (eapply is_derive_eq; [der; lra|cbn [INR pred]; field; lra]).
Qed.
Ltac nices := repeat first [apply nice_mult | apply nice_plus | apply nice_const | apply nice_inv | apply (proj1 nice_coord) | apply (proj1 (proj2 nice_coord)) | apply (proj2 (proj2 nice_coord))].
Lemma k1_nice : vnice k1.
Proof.
  refine (conj _ (conj _ _)).
  - apply (nice_ext (fun u => -1 * vx u * (/ vnorm u * (/ vnorm u * / vnorm u)))); [intro u; cbn; ring|nices].
  - apply (nice_ext (fun u => -1 * vy u * (/ vnorm u * (/ vnorm u * / vnorm u)))); [intro u; cbn; ring|nices].
  - apply (nice_ext (fun u => -1 * vz u * (/ vnorm u * (/ vnorm u * / vnorm u)))); [intro u; cbn; ring|nices].
Qed.
Lemma k2_nice : vnice (fun u => m0 (k2 u)) /\ vnice (fun u => m1 (k2 u)) /\ vnice (fun u => m2 (k2 u)).
Proof.
  assert (A : forall d f g, nice f -> nice g -> nice (fun u => 3 * f u * g u * (/ vnorm u) ^ 5 - d * (/ vnorm u) ^ 3)).
  { intros d f g F G.
    apply (nice_ext (fun u => 3 * f u * g u * (/ vnorm u * (/ vnorm u * (/ vnorm u * (/ vnorm u * / vnorm u)))) + (- d) * (/ vnorm u * (/ vnorm u * / vnorm u)))); [intro u; ring|].
    apply nice_plus; [|nices]. apply nice_mult; [|nices]. apply nice_mult; [|exact G]. apply nice_mult; [nices|exact F]. }
  destruct nice_coord as (X & Y & Z).
  refine (conj (conj _ (conj _ _)) (conj (conj _ (conj _ _)) (conj _ (conj _ _)))); cbn [k2 m0 m1 m2 vx vy vz];
    (apply (A _ _ _); assumption).
Qed.

(** ** the prism *)
Lemma ordered_weak b : ordered b -> weak_ordered b.
Proof. intros (A & B & C). split; [|split]; lra. Qed.
Lemma box_scal k f b I : box_integral f b I -> box_integral (fun q => k * f q) b (k * I).
Proof. apply triple_scal. Qed.
Lemma box_ext f g b I : (forall q, f q = g q) -> box_integral f b I -> box_integral g b I.
Proof. intros E. apply triple_ext. intros. apply E. Qed.
Lemma box_unique f b I J : ordered b -> box_integral f b I -> box_integral f b J -> I = J.
Proof. intros (A & B & C). apply triple_unique; lra. Qed.
(** the potential, by C27 *)
Lemma pot_integral G rho b p : ordered b -> outside b p -> box_integral (fun q => G * rho * k0 (vsub p q)) b (gravitational_potential G b rho p).
Proof. intros O Q. destruct (prism_newton G b rho p O Q) as [I [H E]]. rewrite E. apply box_scal. exact H. Qed.
Lemma field_integral G rho b p : ordered b -> outside b p -> off_faces b p ->
  box_vintegral (fun q => vscal (G * rho) (k1 (vsub p q))) b (gravitational_field G b rho p).
Proof.
  intros O Q F.
  destruct (integral_grad (fun u => G * rho * k0 u) (fun u => vscal (G * rho) (k1 u)) b p (gravitational_potential G b rho)) as [J [HJ D]].
  - apply ordered_weak, O.
  - exact Q.
  - destruct k1_nice as (X & Y & Z). refine (conj _ (conj _ _)); cbn [vscal vx vy vz]; (apply nice_mult; [apply nice_const|assumption]).
  - intros u U. apply (is_grad_scal (G * rho)), k1_grad, U.
  - eapply near_impl; [|apply outside_near, Q]. intros p' Q'. apply pot_integral; assumption.
  - rewrite (is_grad_unique _ _ _ _ (grav_field_grad G b rho p F) D). exact HJ.
Qed.
Lemma gradient_integral G rho b p : ordered b -> outside b p -> off_faces b p ->
  box_mintegral (fun q => mscal (G * rho) (k2 (vsub p q))) b (gravitational_gradient G b rho p).
Proof.
  intros O Q F.
  assert (N : near p (fun p' => outside b p' /\ off_faces b p')) by (apply near_and; [apply outside_near, Q|apply off_faces_near, F]).
  destruct (grav_gradient_jac G b rho p F) as (JX & JY & JZ).
  assert (S0 : forall (F0 : vec3 -> vec3), vnice F0 -> vnice (fun u => vscal (G * rho) (F0 u))).
  { intros F0 (X & Y & Z). refine (conj _ (conj _ _)); cbn [vscal vx vy vz]; (apply nice_mult; [apply nice_const|assumption]). }
  destruct k2_nice as (X & Y & Z).
  refine (conj _ (conj _ _)).
  - destruct (integral_grad (fun u => G * rho * vx (k1 u)) (fun u => vscal (G * rho) (m0 (k2 u))) b p (fun q => vx (gravitational_field G b rho q))) as [J [HJ D]];
      [apply ordered_weak, O|exact Q|apply S0, X| | |].
    + intros u U. apply (is_grad_scal (G * rho)). apply (proj1 (k2_jac u U)).
    + eapply near_impl; [|exact N]. intros p' [A B]. apply (proj1 (field_integral G rho b p' O A B)).
    + rewrite (is_grad_unique _ _ _ _ JX D). exact HJ.
  - destruct (integral_grad (fun u => G * rho * vy (k1 u)) (fun u => vscal (G * rho) (m1 (k2 u))) b p (fun q => vy (gravitational_field G b rho q))) as [J [HJ D]];
      [apply ordered_weak, O|exact Q|apply S0, Y| | |].
    + intros u U. apply (is_grad_scal (G * rho)). apply (proj1 (proj2 (k2_jac u U))).
    + eapply near_impl; [|exact N]. intros p' [A B]. apply (proj1 (proj2 (field_integral G rho b p' O A B))).
    + rewrite (is_grad_unique _ _ _ _ JY D). exact HJ.
  - destruct (integral_grad (fun u => G * rho * vz (k1 u)) (fun u => vscal (G * rho) (m2 (k2 u))) b p (fun q => vz (gravitational_field G b rho q))) as [J [HJ D]];
      [apply ordered_weak, O|exact Q|apply S0, Z| | |].
    + intros u U. apply (is_grad_scal (G * rho)). apply (proj2 (proj2 (k2_jac u U))).
    + eapply near_impl; [|exact N]. intros p' [A B]. apply (proj2 (proj2 (field_integral G rho b p' O A B))).
    + rewrite (is_grad_unique _ _ _ _ JZ D). exact HJ.
Qed.
