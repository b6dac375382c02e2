(** Mirror images of prisms: the fields (C109). *)
From Coq Require Import Reals Lra Psatz.
From Coquelicot Require Import Coquelicot.
From Verif Require Import Vec3 Calculus Deriv Integral Model_Gravity Model_Prism Spec_Prism Spec_Far Proof_Prism Proof_Prism2 Proof_Prism3 Proof_Far Proof_Super5.
Open Scope R_scope.

Lemma field_mirror_x G m b rho p : ordered b -> outside b p ->
  gravitational_field G (mirror_box_x m b) rho (mirror_x m p) = let g := gravitational_field G b rho p in V3 (- vx g) (vy g) (vz g).
Proof.
  intros O U. pose proof (grav_field_grad_all G b rho p O U) as A. pose proof (grav_field_grad_all G _ rho _ (ordered_mirror_x m b O) (outside_mirror_x m b p U)) as B.
  apply (grad_mirror_x (gravitational_potential G (mirror_box_x m b) rho)) in B.
  apply (is_grad_ext_near _ (gravitational_potential G b rho)) in B; [|eapply near_impl; [|apply (outside_near b p U)]; intros q Q; apply potential_mirror_x; assumption].
  pose proof (is_grad_unique _ _ _ _ A B) as E. cbv zeta. rewrite E. apply vec3_eq; cbn [vx vy vz]; ring.
Qed.
Lemma field_mirror_y G m b rho p : ordered b -> outside b p ->
  gravitational_field G (mirror_box_y m b) rho (mirror_y m p) = let g := gravitational_field G b rho p in V3 (vx g) (- vy g) (vz g).
Proof.
  intros O U. pose proof (grav_field_grad_all G b rho p O U) as A. pose proof (grav_field_grad_all G _ rho _ (ordered_mirror_y m b O) (outside_mirror_y m b p U)) as B.
  apply (grad_mirror_y (gravitational_potential G (mirror_box_y m b) rho)) in B.
  apply (is_grad_ext_near _ (gravitational_potential G b rho)) in B; [|eapply near_impl; [|apply (outside_near b p U)]; intros q Q; apply potential_mirror_y; assumption].
  pose proof (is_grad_unique _ _ _ _ A B) as E. cbv zeta. rewrite E. apply vec3_eq; cbn [vx vy vz]; ring.
Qed.
Lemma field_mirror_z G m b rho p : ordered b -> outside b p ->
  gravitational_field G (mirror_box_z m b) rho (mirror_z m p) = let g := gravitational_field G b rho p in V3 (vx g) (vy g) (- vz g).
Proof.
  intros O U. pose proof (grav_field_grad_all G b rho p O U) as A. pose proof (grav_field_grad_all G _ rho _ (ordered_mirror_z m b O) (outside_mirror_z m b p U)) as B.
  apply (grad_mirror_z (gravitational_potential G (mirror_box_z m b) rho)) in B.
  apply (is_grad_ext_near _ (gravitational_potential G b rho)) in B; [|eapply near_impl; [|apply (outside_near b p U)]; intros q Q; apply potential_mirror_z; assumption].
  pose proof (is_grad_unique _ _ _ _ A B) as E. cbv zeta. rewrite E. apply vec3_eq; cbn [vx vy vz]; ring.
Qed.

(** through the centre *)
Lemma mirror_all b : mirror_box_z (vz (location b)) (mirror_box_y (vy (location b)) (mirror_box_x (vx (location b)) b)) = b.
Proof. destruct b as [[a b c] [d e f]]. unfold mirror_box_x, mirror_box_y, mirror_box_z, location. cbn [vx vy vz b_min b_max vscal vadd]. f_equal; f_equal; field. Qed.
Lemma opposite_mirrors b p : mirror_z (vz (location b)) (mirror_y (vy (location b)) (mirror_x (vx (location b)) p)) = opposite (location b) p.
Proof. unfold mirror_x, mirror_y, mirror_z, opposite, vsub, vscal. cbn [vx vy vz]. reflexivity. Qed.
Lemma potential_opposite G b rho p : ordered b -> outside b p -> gravitational_potential G b rho (opposite (location b) p) = gravitational_potential G b rho p.
Proof.
  intros O U. rewrite <- opposite_mirrors. set (c := location b). rewrite <- (mirror_all b) at 1. fold c.
  rewrite potential_mirror_z; [|apply ordered_mirror_y, ordered_mirror_x, O|apply outside_mirror_y, outside_mirror_x, U].
  rewrite potential_mirror_y; [|apply ordered_mirror_x, O|apply outside_mirror_x, U]. apply potential_mirror_x; assumption.
Qed.
Lemma field_opposite G b rho p : ordered b -> outside b p -> gravitational_field G b rho (opposite (location b) p) = vscal (-1) (gravitational_field G b rho p).
Proof.
  intros O U. rewrite <- opposite_mirrors. set (c := location b). rewrite <- (mirror_all b) at 1. fold c.
  rewrite field_mirror_z; [|apply ordered_mirror_y, ordered_mirror_x, O|apply outside_mirror_y, outside_mirror_x, U].
  rewrite field_mirror_y; [|apply ordered_mirror_x, O|apply outside_mirror_x, U]. rewrite field_mirror_x by assumption.
  cbv zeta. unfold vscal. cbn [vx vy vz]. f_equal; ring.
Qed.
