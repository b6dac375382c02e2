(** Point masses and dipoles inside a prism (C111). *)
From Coq Require Import Reals Lra Psatz List String.
From Coquelicot Require Import Coquelicot.
From Verif Require Import Vec3 Numpy Calculus Deriv Integral Model_Gravity Model_Static Model_Prism Spec_Prism Spec_Super
  Proof_Prism Proof_Prism2 Proof_Prism3 Proof_Prism4 Proof_Far Proof_Super Proof_Super2 Proof_Super4 Proof_Super5.
Import ListNotations.
Open Scope R_scope.

Lemma pow_inv_all x n : (/ x) ^ n = / x ^ n.
Proof. apply pow_inv. Qed.
Lemma pm_potential_k0 rho q p : pm_potential (PM rho q) p = G_newton * rho * k0 (vsub p q).
Proof. unfold pm_potential, k0, Rdiv; cbn. ring. Qed.
Lemma pm_field_k1 rho q p : pm_field (PM rho q) p = vscal (G_newton * rho) (k1 (vsub p q)).
Proof.
  unfold pm_field, k1, Rdiv, vscal. cbv zeta. cbn [pm_mass pm_loc vx vy vz]. generalize (vsub p q). intro u. rewrite <- pow_inv.
  apply vec3_eq; cbn [vx vy vz]; ring.
Qed.
Lemma pm_gradient_k2 rho q p : pm_gradient (PM rho q) p = mscal (G_newton * rho) (k2 (vsub p q)).
Proof.
  unfold pm_gradient, k2, Rdiv, mscal, vscal; cbv zeta; cbn [pm_mass pm_loc vx vy vz m0 m1 m2]. rewrite <- pow_inv.
  f_equal; apply vec3_eq; cbn [vx vy vz]; ring.
Qed.
Lemma md_B_k2 k n q mu p : md_B (MD k n q mu) p = vscal mu (vscal (1 / (4 * PI)) (mvec (k2 (vsub p q)) (vscal k n))).
Proof.
  unfold md_B, k2, Rdiv, mvec, vdiv, vscal, vdot, vcross; cbv zeta; cbn [md_moment md_orient md_loc md_mu vx vy vz m0 m1 m2 vsub].
  rewrite !Rinv_mult. rewrite <- pow_inv. generalize (vsub p q). intro u.
  apply vec3_eq; unfold vsub; cbn [vx vy vz]; unfold Rdiv; ring.
Qed.
Lemma md_H_k2 k n q mu p H : mu <> 0 -> mdipole_field (MD k n q mu) "cartesian" p = Ok H -> H = vscal (1 / (4 * PI)) (mvec (k2 (vsub p q)) (vscal k n)).
Proof.
  intros M E. unfold mdipole_field, mdipole_flux_density, with_coordinates in E. cbn in E. injection E as <-.
  change (vdiv (md_B (MD k n q mu) p) mu = vscal (1 / (4 * PI)) (mvec (k2 (vsub p q)) (vscal k n))).
  rewrite md_B_k2. set (h := vscal (1 / (4 * PI)) _). unfold vdiv, vscal; cbn [vx vy vz]. apply vec3_eq; cbn [vx vy vz]; field; exact M.
Qed.
Lemma outside_not_inside b p : outside b p -> is_inside b p = false.
Proof.
  intro O. destruct (is_inside b p) eqn:E; [|reflexivity]. exfalso. unfold is_inside in E.
  repeat (apply andb_prop in E; destruct E as [E ?]). repeat match goal with H : andb _ _ = true |- _ => apply andb_prop in H; destruct H end.
  repeat match goal with H : Rleb _ _ = true |- _ => apply Rleb_true in H end. unfold outside in O. lra.
Qed.
Lemma flux_outside mu b m p : outside b p -> magnetic_flux_density mu b m [p] = Ok [vscal mu (magnetic_field b m p)].
Proof. intro O. unfold magnetic_flux_density. cbn [map]. rewrite (outside_not_inside _ _ O). reflexivity. Qed.
Lemma vscal_integral c f b I : box_vintegral f b I -> box_vintegral (fun q => vscal c (f q)) b (vscal c I).
Proof. intros (X & Y & Z). refine (conj _ (conj _ _)); apply box_scal; assumption. Qed.
Lemma vext f g b I : (forall q, f q = g q) -> box_vintegral f b I -> box_vintegral g b I.
Proof. intros E (X & Y & Z). refine (conj _ (conj _ _)); (eapply box_ext; [|eassumption]); intro q; cbv beta; rewrite E; reflexivity. Qed.

Lemma gravity_super b rho p : ordered b -> outside b p ->
  box_integral (fun q => pm_potential (PM rho q) p) b (gravitational_potential G_newton b rho p) /\
  box_vintegral (fun q => pm_field (PM rho q) p) b (gravitational_field G_newton b rho p) /\
  box_mintegral (fun q => pm_gradient (PM rho q) p) b (gravitational_gradient G_newton b rho p).
Proof.
  intros O Q. split; [|split].
  - eapply box_ext; [|apply pot_integral; assumption]. intro q. symmetry. apply pm_potential_k0.
  - eapply vext; [|apply field_integral_all; assumption]. intro q. symmetry. apply pm_field_k1.
  - destruct (gradient_integral_all G_newton rho b p O Q) as (X & Y & Z).
    refine (conj _ (conj _ _)); (eapply vext; [|eassumption]); intro q; rewrite pm_gradient_k2; reflexivity.
Qed.
Lemma magnetic_super b k n mu p : ordered b -> outside b p ->
  box_integral (fun q => - k * vdot n (vsub p q) / (4 * PI * vnorm (vsub p q) ^ 3)) b (scalar_potential b (vscal k n) p) /\
  (forall H, mu <> 0 -> (forall q, mdipole_field (MD k n q mu) "cartesian" p = Ok (H q)) -> box_vintegral H b (magnetic_field b (vscal k n) p)) /\
  (forall B, (forall q, mdipole_flux_density (MD k n q mu) "cartesian" p = Ok (B q)) ->
     exists F, magnetic_flux_density mu b (vscal k n) [p] = Ok [F] /\ box_vintegral B b F).
Proof.
  intros O Q. split; [|split].
  - eapply box_ext; [|apply scalar_integral; assumption]. intro q. unfold k1, vdot, Rdiv; cbn [vscal vx vy vz]. rewrite !Rinv_mult, <- pow_inv. ring.
  - intros H M E. eapply vext; [|apply H_integral; assumption]. intro q. symmetry. eapply md_H_k2; [exact M|apply E].
  - intros B E. exists (vscal mu (magnetic_field b (vscal k n) p)). split; [apply flux_outside, Q|].
    eapply vext; [|apply vscal_integral, H_integral; assumption]. intro q. specialize (E q). cbn in E. injection E as E. rewrite <- E, <- md_B_k2. reflexivity.
Qed.
