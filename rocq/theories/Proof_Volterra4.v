(** Okada's closed form is Volterra's integral (C130). *)
From Coq Require Import Reals Lra Psatz.
From Coquelicot Require Import Coquelicot.
From Verif Require Import Vec3 Calculus Deriv Integral Spec_Oksar Spec_Volterra Proof_Volterra Proof_Volterra2 Proof_Volterra3.
Open Scope R_scope.

Lemma slip_work (S : mat3) a b sd cd U1 U2 : vdot (V3 U1 (U2 * cd) (U2 * sd)) (mvec (mscal a S) (V3 0 b cd)) =
  a * (U1 * vdot (V3 1 0 0) (mvec S (V3 0 b cd)) + U2 * vdot (V3 0 cd sd) (mvec S (V3 0 b cd))).
Proof. destruct S as [[s1 s2 s3] [s4 s5 s6] [s7 s8 s9]]. unfold vdot, mvec, mscal, vscal, vdot; cbn [vx vy vz m0 m1 m2]. ring. Qed.

Definition vec_of (c : R) (u : R * R * R) : vec3 := V3 (c * fst3 u) (c * snd3 u) (c * trd3 u).

Lemma okada_is_volterra lambda mu sd cd X Y al1 al2 aw1 aw2 U1 U2 tp : mu <> 0 -> lambda + mu <> 0 -> sd * sd + cd * cd = 1 ->
  sd < 0 -> Y <> 0 -> al1 <= al2 -> 0 <= aw1 -> aw1 <= aw2 -> tp <> 0 ->
  is_dislocation lambda mu sd cd al1 al2 aw1 aw2 U1 U2 (V3 X Y 0)
    (vec_of (tp / (2 * PI)) (okada tp (mu / (lambda + mu)) sd cd (X, Y) al1 al2 aw1 aw2 U1 U2)).
Proof.
  intros M LM U S Y0 A B0 B T0 j. pose proof PI_RGT_0 as PP. set (q := Y * sd). set (p := Y * cd).
  assert (Q : q <> 0) by (unfold q; apply Rmult_integral_contrapositive_currified; lra).
  assert (D : forall t, aw1 <= t <= aw2 -> (p - t) * sd - q * cd = - t * sd) by (intros t _; unfold p, q; ring).
  assert (D0 : forall t, aw1 <= t <= aw2 -> 0 <= (p - t) * sd - q * cd) by (intros t H; rewrite (D t H); nra).
  assert (E : forall s t, aw1 <= t <= aw2 -> vsub (V3 s (t * cd) (t * sd)) (V3 X Y 0) = at_point sd cd q (X - s) (p - t)).
  { intros s t _. unfold vsub, at_point, p, q; cbn [vx vy vz]. assert (S2 : sd * sd = 1 - cd * cd) by lra. apply f_equal3; ring [S2]. }
  pose (W := fun x e => / (2 * PI) * (U1 * work1 lambda mu sd cd q j x e + U2 * work2 lambda mu sd cd q j x e)).
  pose (G := fun x e => / (2 * PI) * (U1 * along1 lambda mu sd cd q j x e + U2 * along2 lambda mu sd cd q j x e)).
  pose (F := fun x e => / (2 * PI) * (U1 * closed1 lambda mu sd cd q j x e + U2 * closed2 lambda mu sd cd q j x e)).
  exists (fun s t => W (X - s) (p - t)). split.
  - intros s t _ H. rewrite (E s t H).
    assert (Z : vz (at_point sd cd q (X - s) (p - t)) <= 0) by (pose proof (D0 t H); unfold at_point; cbn [vz]; lra).
    assert (N : at_point sd cd q (X - s) (p - t) <> vzero).
    { intros V. pose proof (at_norm sd cd q U (X - s) (p - t)) as R1. pose proof (rr_pos q Q (X - s) (p - t)) as R2. rewrite V in R1. unfold vnorm, vnorm2, vzero in R1; cbn [vx vy vz] in R1.
      replace (0 * 0 + 0 * 0 + 0 * 0) with 0 in R1 by ring. rewrite sqrt_0 in R1. lra. }
    exists (jac_load lambda mu j (at_point sd cd q (X - s) (p - t))). split; [apply load_jac; assumption|].
    unfold traction. rewrite load_stress by assumption. rewrite slip_work. reflexivity.
  - replace (comp j _) with (- chinnery F X p al1 al2 aw1 aw2).
    + apply (double_FTC F G W); [exact A|exact B| | | |].
      * intros x t H. pose proof (dip1 lambda mu sd cd q U Q j x (p - t) (D0 t H)). pose proof (dip2 lambda mu sd cd q U Q j x (p - t) (D0 t H)).
        unfold F, G. eapply is_derive_eq; [der|]. ring.
      * intros x t H. pose proof (along_cont lambda mu sd cd q Q j true x (p - t) (D0 t H)) as C1. pose proof (along_cont lambda mu sd cd q Q j false x (p - t) (D0 t H)) as C2. cbv iota in C1, C2.
        unfold G. apply (continuous_scal_r (V := R_NormedModule)), (continuous_plus (V := R_NormedModule)); apply (continuous_scal_r (V := R_NormedModule)); assumption.
      * intros x t H. pose proof (slope1 lambda mu sd cd q U Q x (p - t) (D0 t H) j). pose proof (slope2 lambda mu sd cd q U Q x (p - t) (D0 t H) j).
        unfold W, G. eapply is_derive_eq; [der|]. ring.
      * intros x t H. pose proof (work_cont lambda mu sd cd q U Q x (p - t) (D0 t H) j true) as C1. pose proof (work_cont lambda mu sd cd q U Q x (p - t) (D0 t H) j false) as C2. cbv iota in C1, C2.
        unfold W. apply (continuous_scal_r (V := R_NormedModule)), (continuous_plus (V := R_NormedModule)); apply (continuous_scal_r (V := R_NormedModule)); assumption.
    + unfold F, chinnery, okada, vec_of, closed1, closed2; fold p q; destruct j; cbn [comp vx vy vz fst3 snd3 trd3 fst snd].
      all: unfold chinnery; field; lra.
Qed.
