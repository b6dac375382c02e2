(** Potential, field and gradient of a homogeneous ball as integrals over its points. *)
From Coq Require Import Reals Lra Psatz List.
From Coquelicot Require Import Coquelicot.
From Verif Require Import Vec3 Numpy Calculus Deriv Integral Model_Gravity Proof_Gravity Spec_Flux Proof_Flux Proof_Power Spec_Ball Proof_Ball.
Import ListNotations.
Open Scope R_scope.

Ltac req := match goal with |- ?a = ?b => change (@eq R a b) end.

Lemma frame_polar e1 e2 e3 v w : frame e1 e2 e3 -> vdot e1 v * vdot e1 w + vdot e2 v * vdot e2 w + vdot e3 v * vdot e3 w = vdot v w.
Proof.
  intros F. pose proof (frame_parseval e1 e2 e3 v F) as A. pose proof (frame_parseval e1 e2 e3 w F) as B. pose proof (frame_parseval e1 e2 e3 (vadd v w) F) as C.
  rewrite !(fun e => ltac:(destruct e, v, w; vring) : vdot e (vadd v w) = vdot e v + vdot e w) in C.
  assert (E : vnorm2 (vadd v w) = vnorm2 v + vnorm2 w + 2 * vdot v w) by (destruct v, w; vring). nra.
Qed.

(** ** integrals over the polar angle *)
Lemma int_inv d s : 0 < d -> 0 < s -> is_RInt (fun t => sin t / qq d s t) 0 PI (2 / Rmax d s).
Proof.
  intros D S. pose proof (shell_int d s (fun x => x) (fun _ => 1) D S) as K.
  assert (H : forall x, Rabs (d - s) <= x <= d + s -> is_derive (fun x => x) x 1 /\ continuous (fun _ : R => 1) x).
  { intros x _. split; [exact (is_derive_id (K := R_AbsRing) x)|apply continuous_const]. }
  specialize (K H). replace (2 / Rmax d s) with ((d + s - Rabs (d - s)) / (d * s)).
  - eapply is_RInt_ext; [|exact K]. intros t T. rewrite Rmin_left, Rmax_right in T by (pose proof PI_RGT_0; lra). cbn beta; req. pose proof (qq_pos d s t D S T). field. lra.
  - unfold Rmax, Rabs. destruct (Rle_dec d s), (Rcase_abs (d - s)); try lra; try (field; lra). assert (d = s) by lra. subst. field. lra.
Qed.
Definition half_step (d s : R) : R := if Rlt_dec s d then 2 / d ^ 2 else if Rlt_dec d s then 0 else 1 / d ^ 2.
Lemma int_radial d s : 0 < d -> 0 < s -> is_RInt (fun t => (d - s * cos t) / qq d s t ^ 3 * sin t) 0 PI (half_step d s).
Proof.
  intros D S. assert (CD : forall t, d - s * cos t = (d ^ 2 - s ^ 2 + qq d s t ^ 2) / (2 * d)) by (intros; rewrite qq_sq by assumption; field; lra).
  destruct (Req_dec d s) as [E|N].
  - pose proof (shell_int d s (fun x => x / (2 * d)) (fun _ => 1 / (2 * d)) D S) as K.
    assert (H : forall x, Rabs (d - s) <= x <= d + s -> is_derive (fun x => x / (2 * d)) x (1 / (2 * d)) /\ continuous (fun _ : R => 1 / (2 * d)) x).
    { intros x _. split; [|apply continuous_const]. eapply is_derive_eq; [der; lra|field; lra]. }
    specialize (K H). replace (half_step d s) with (((d + s) / (2 * d) - Rabs (d - s) / (2 * d)) / (d * s)).
    + eapply is_RInt_ext; [|exact K]. intros t T. rewrite Rmin_left, Rmax_right in T by (pose proof PI_RGT_0; lra). cbn beta; req. pose proof (qq_pos d s t D S T).
      rewrite CD, <- E. rewrite <- E in H0. field. lra.
    + unfold half_step. subst s. replace (d - d) with 0 by ring. rewrite Rabs_R0. destruct (Rlt_dec d d); [lra|]. field. lra.
  - assert (A0 : 0 < Rabs (d - s)) by (apply Rabs_pos_lt; lra).
    pose proof (shell_int d s (fun x => (x - (d ^ 2 - s ^ 2) / x) / (2 * d)) (fun x => (1 + (d ^ 2 - s ^ 2) / x ^ 2) / (2 * d)) D S) as K.
    assert (H : forall x, Rabs (d - s) <= x <= d + s -> is_derive (fun x => (x - (d ^ 2 - s ^ 2) / x) / (2 * d)) x ((1 + (d ^ 2 - s ^ 2) / x ^ 2) / (2 * d)) /\
      continuous (fun x : R => (1 + (d ^ 2 - s ^ 2) / x ^ 2) / (2 * d)) x).
    { intros x X. assert (0 < x) by lra. split; [eapply is_derive_eq; [der; lra|field; lra]|].
      apply (ex_derive_continuous (fun x : R => (1 + (d ^ 2 - s ^ 2) / x ^ 2) / (2 * d))). eexists. der; try lra. nra. }
    specialize (K H). match type of K with is_RInt _ _ _ ?v => replace (half_step d s) with v end.
    + eapply is_RInt_ext; [|exact K]. intros t T. rewrite Rmin_left, Rmax_right in T by (pose proof PI_RGT_0; lra). cbn beta; req. pose proof (qq_pos d s t D S T).
      rewrite CD. field. lra.
    + unfold half_step, Rabs. destruct (Rcase_abs (d - s)); destruct (Rlt_dec s d); try destruct (Rlt_dec d s); try lra; field; repeat split; lra.
Qed.
Lemma int_curv d s : 0 < s -> s < d ->
  is_RInt (fun t => (1 / qq d s t ^ 3 - 3 * (s * sin t) ^ 2 / (2 * qq d s t ^ 5)) * sin t) 0 PI (2 / d ^ 3).
Proof.
  intros S L. assert (D : 0 < d) by lra. assert (A0 : Rabs (d - s) = d - s) by (apply Rabs_pos_eq; lra).
  set (A := d ^ 2 + s ^ 2).
  set (P := fun x : R => - 1 / x + s ^ 2 / (2 * x ^ 3) + 3 / (8 * d ^ 2) * (- A ^ 2 / (3 * x ^ 3) + 2 * A / x + x)).
  set (P' := fun x : R => 1 / x ^ 2 - 3 / 2 * s ^ 2 / x ^ 4 + 3 / (8 * d ^ 2) * (A ^ 2 / x ^ 4 - 2 * A / x ^ 2 + 1)).
  assert (H : forall x, Rabs (d - s) <= x <= d + s -> is_derive P x (P' x) /\ continuous P' x).
  { intros x X. assert (0 < x) by lra. assert (0 < x ^ 2) by (apply pow_lt; lra). assert (0 < x ^ 3) by (apply pow_lt; lra). assert (0 < x ^ 4) by (apply pow_lt; lra).
    assert (0 < d ^ 2) by (apply pow_lt; lra). split.
    - unfold P, P'. eapply is_derive_eq; [der; repeat split; lra|]. cbn [INR pow Init.Nat.pred]. field. lra.
    - apply (ex_derive_continuous P'). unfold P'. eexists. der; repeat split; lra. }
  pose proof (shell_int d s P P' D S H) as K.
  match type of K with is_RInt _ _ _ ?v => replace (2 / d ^ 3) with v end.
  - eapply is_RInt_ext; [|exact K]. intros t T. rewrite Rmin_left, Rmax_right in T by (pose proof PI_RGT_0; lra). cbn beta; req. pose proof (qq_pos d s t D S T) as Q.
    assert (E : (s * sin t) ^ 2 = s ^ 2 - (A - qq d s t ^ 2) ^ 2 / (4 * d ^ 2)).
    { rewrite qq_sq by assumption. unfold A. pose proof (sin2_cos2 t) as SC. unfold Rsqr in SC.
      replace ((s * sin t) ^ 2) with (s ^ 2 * (sin t * sin t)) by ring. replace (sin t * sin t) with (1 - cos t * cos t) by lra. field. lra. }
    rewrite E. unfold P'. field. lra.
  - rewrite A0. unfold P, A. field. repeat split; lra.
Qed.

(** ** shells *)
Section Shell.
  Variables (e1 e2 e3 c : vec3) (rho : R).
  Hypothesis F : frame e1 e2 e3.

  Lemma qq_zero s t : 0 < s -> qq 0 s t = s.
  Proof. intros S. unfold qq. replace (0 ^ 2 + s ^ 2 - 2 * 0 * s * cos t) with (s * s) by ring. apply sqrt_square. lra. Qed.
  Lemma int_sin : is_RInt sin 0 PI 2.
  Proof.
    replace 2 with (- cos PI - - cos 0) by (rewrite cos_PI, cos_0; ring). apply (FTC (fun t => - cos t) sin); [pose proof PI_RGT_0; lra| |].
    - intros t _. eapply is_derive_eq; [der; exact I|]. ring.
    - intros t _. apply (ex_derive_continuous sin). eexists. exact (is_derive_sin t).
  Qed.

  Lemma shell_potential d s : 0 <= d -> 0 < s ->
    sphere_integral e1 e2 e3 c s (fun y => pm_potential (PM rho y) (along c d e3)) (4 * PI * G_newton * rho * s ^ 2 / Rmax d s).
  Proof.
    intros D S. eapply (shell_gen e1 e2 e3 c s _ (fun t => G_newton * rho / qq d s t) (fun _ => 0) (fun _ => 0) (fun _ => 0) (fun _ => 0) (fun _ => 0)).
    - intros t p _. unfold pm_potential. cbn [pm_mass pm_loc]. rewrite shell_dist by exact F. ring.
    - destruct D as [D|<-].
      + pose proof (is_RInt_scal _ _ _ (2 * PI * G_newton * rho * s ^ 2) _ (int_inv d s D S)) as K.
        replace (4 * PI * G_newton * rho * s ^ 2 / Rmax d s) with (scal (2 * PI * G_newton * rho * s ^ 2) (2 / Rmax d s)) by (cbn; unfold Rdiv; ring).
        eapply is_RInt_ext; [|exact K]. intros t _. cbn; req. unfold Rdiv. ring.
      + pose proof (is_RInt_scal _ _ _ (2 * PI * G_newton * rho * s) _ int_sin) as K.
        replace (4 * PI * G_newton * rho * s ^ 2 / Rmax 0 s) with (scal (2 * PI * G_newton * rho * s) 2) by (rewrite Rmax_right by lra; cbn; field; lra).
        eapply is_RInt_ext; [|exact K]. intros t _. cbn beta. rewrite qq_zero by exact S. cbn; req. field. lra.
  Qed.

  (** a component of the attraction *)
  Definition comp (pr : vec3 -> R) : Prop := pr = vx \/ pr = vy \/ pr = vz.
  Lemma comp_lin pr a b d v u w : comp pr -> pr (vsub (vscal a v) (vadd (vscal b u) (vscal d w))) = a * pr v - b * pr u - d * pr w.
  Proof. intros [->|[->| ->]]; vunf; ring. Qed.
  Lemma field_comp pr s p : comp pr -> pr (pm_field s p) = - G_newton * pm_mass s * (pr (vsub p (pm_loc s)) / vnorm (vsub p (pm_loc s))) / vnorm (vsub p (pm_loc s)) ^ 2.
  Proof. intros [->|[->| ->]]; reflexivity. Qed.

  Definition hstep (d s : R) : R := if Req_EM_T d 0 then 0 else half_step d s.
  Lemma shell_field pr d s : comp pr -> 0 <= d -> 0 < s ->
    sphere_integral e1 e2 e3 c s (fun y => pr (pm_field (PM rho y) (along c d e3))) (- 2 * PI * G_newton * rho * s ^ 2 * hstep d s * pr e3).
  Proof.
    intros Pr D S.
    eapply (shell_gen e1 e2 e3 c s _ (fun t => - G_newton * rho * ((d - s * cos t) * pr e3) / qq d s t ^ 3)
      (fun t => G_newton * rho * (s * sin t * pr e1) / qq d s t ^ 3) (fun t => G_newton * rho * (s * sin t * pr e2) / qq d s t ^ 3) (fun _ => 0) (fun _ => 0) (fun _ => 0)).
    - intros t p T. rewrite field_comp by exact Pr. cbn [pm_mass pm_loc]. rewrite shell_dist by exact F. rewrite shell_vec, comp_lin by exact Pr.
      assert (Q : 0 < qq d s t). { destruct D as [D|<-]; [apply qq_pos; assumption|rewrite qq_zero; assumption]. } field. lra.
    - unfold hstep. destruct (Req_EM_T d 0) as [->|N].
      + replace (-2 * PI * G_newton * rho * s ^ 2 * 0 * pr e3) with (scal (2 * PI * G_newton * rho * pr e3) 0) by (cbn; ring).
        assert (K : is_RInt (fun t => cos t * sin t) 0 PI 0).
        { replace 0 with (sin PI ^ 2 / 2 - sin 0 ^ 2 / 2) at 2 by (rewrite sin_PI, sin_0; field). apply (FTC (fun t => sin t ^ 2 / 2)); [pose proof PI_RGT_0; lra| |].
          - intros t _. eapply is_derive_eq; [der; dok|]. change (INR 2) with (1 + 1). cbn [Init.Nat.pred pow]. field.
          - intros t _. apply (ex_derive_continuous (fun t => cos t * sin t)). eexists. der; dok. }
        eapply is_RInt_ext; [|exact (is_RInt_scal _ _ _ (2 * PI * G_newton * rho * pr e3) _ K)]. intros t _. cbn beta. rewrite qq_zero by exact S. cbn; req. field. lra.
      + assert (D0 : 0 < d) by lra.
        replace (-2 * PI * G_newton * rho * s ^ 2 * half_step d s * pr e3) with (scal (-2 * PI * G_newton * rho * s ^ 2 * pr e3) (half_step d s)) by (cbn; ring).
        eapply is_RInt_ext; [|exact (is_RInt_scal _ _ _ (-2 * PI * G_newton * rho * s ^ 2 * pr e3) _ (int_radial d s D0 S))].
        intros t _. cbn; req. unfold Rdiv. ring.
  Qed.

  (** an entry of the gradient tensor, outside the shell *)
  Definition entry (pr qr : vec3 -> R) (dl : R) (s : point_mass) (p : vec3) : R :=
    - G_newton * pm_mass s * (dl - 3 * (pr (vsub p (pm_loc s)) / vnorm (vsub p (pm_loc s))) * (qr (vsub p (pm_loc s)) / vnorm (vsub p (pm_loc s)))) / vnorm (vsub p (pm_loc s)) ^ 3.
  Lemma shell_entry pr qr dl d s : comp pr -> comp qr -> pr e1 * qr e1 + pr e2 * qr e2 + pr e3 * qr e3 = dl -> 0 < s -> s < d ->
    sphere_integral e1 e2 e3 c s (fun y => entry pr qr dl (PM rho y) (along c d e3)) (- 4 * PI * G_newton * rho * s ^ 2 * (dl - 3 * pr e3 * qr e3) / d ^ 3).
  Proof.
    intros Pr Qr De S L. assert (D : 0 < d) by lra.
    eapply (shell_gen e1 e2 e3 c s _
      (fun t => - G_newton * rho * (dl / qq d s t ^ 3 - 3 * (d - s * cos t) ^ 2 * pr e3 * qr e3 / qq d s t ^ 5))
      (fun t => - G_newton * rho * (3 * (d - s * cos t) * (s * sin t) * (pr e3 * qr e1 + pr e1 * qr e3) / qq d s t ^ 5))
      (fun t => - G_newton * rho * (3 * (d - s * cos t) * (s * sin t) * (pr e3 * qr e2 + pr e2 * qr e3) / qq d s t ^ 5))
      (fun t => G_newton * rho * (3 * (s * sin t) ^ 2 * pr e1 * qr e1 / qq d s t ^ 5))
      (fun t => G_newton * rho * (3 * (s * sin t) ^ 2 * pr e2 * qr e2 / qq d s t ^ 5))
      (fun t => G_newton * rho * (3 * (s * sin t) ^ 2 * (pr e1 * qr e2 + pr e2 * qr e1) / qq d s t ^ 5))).
    - intros t p T. unfold entry. cbn [pm_mass pm_loc]. rewrite shell_dist by exact F. rewrite shell_vec, !comp_lin by assumption.
      pose proof (qq_pos d s t D S T) as Q. field. lra.
    - replace (-4 * PI * G_newton * rho * s ^ 2 * (dl - 3 * pr e3 * qr e3) / d ^ 3) with (scal (-2 * PI * G_newton * rho * s ^ 2 * (dl - 3 * pr e3 * qr e3)) (2 / d ^ 3)) by (cbn; field; lra).
      eapply is_RInt_ext; [|exact (is_RInt_scal _ _ _ _ _ (int_curv d s S L))].
      intros t T. rewrite Rmin_left, Rmax_right in T by (pose proof PI_RGT_0; lra). cbn beta; req. pose proof (qq_pos d s t D S T) as Q.
      assert (E : (d - s * cos t) ^ 2 = qq d s t ^ 2 - (s * sin t) ^ 2).
      { rewrite qq_sq by assumption. pose proof (sin2_cos2 t) as SC. unfold Rsqr in SC. replace ((s * sin t) ^ 2) with (s ^ 2 * (sin t * sin t)) by ring. replace (sin t * sin t) with (1 - cos t * cos t) by lra. ring. }
      assert (De' : pr e1 * qr e1 = dl - pr e2 * qr e2 - pr e3 * qr e3) by lra. match goal with |- scal ?a ?b = ?r => change (a * b = r) end. rewrite E.
      replace (G_newton * rho * (3 * (s * sin t) ^ 2 * pr e1 * qr e1 / qq d s t ^ 5)) with (G_newton * rho * (3 * (s * sin t) ^ 2 * (pr e1 * qr e1) / qq d s t ^ 5)) by (unfold Rdiv; ring).
      rewrite De'. field. lra.
  Qed.
End Shell.
