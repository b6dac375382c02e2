(** C120: the prism's potential and field at every point of space, the faces, edges and corners included.
    C121: what happens to the gradient and to the magnetic field across a face. *)
From Coq Require Import Reals Lra List.
From Coquelicot Require Import Coquelicot.
From Verif Require Import Vec3 Calculus Deriv Numpy Model_Prism Spec_Prism Spec_Jump Proof_Prism4 Proof_PrismC Proof_Jump.
Import ListNotations.
Open Scope R_scope.

(** *** C120 *)
Theorem C120_potential_and_field_are_continuous G b rho p :
  is_cont (gravitational_potential G b rho) p /\ is_cont (fun q => vx (gravitational_field G b rho q)) p /\
  is_cont (fun q => vy (gravitational_field G b rho q)) p /\ is_cont (fun q => vz (gravitational_field G b rho q)) p.
Proof. apply grav_cont. Qed.

Theorem C120_field_is_gradient_everywhere G b rho p : is_grad (gravitational_potential G b rho) p (gravitational_field G b rho p).
Proof. apply grav_grad_everywhere. Qed.

Theorem C120_magnetic_scalar_potential_is_continuous b m p : is_cont (scalar_potential b m) p.
Proof. apply scalar_cont. Qed.

(** *** C121 *)
Theorem C121_gradient_jump G b rho p n : ordered b -> on_face b p n ->
  exists Ti To, mlimit_at (inside b) (gravitational_gradient G b rho) p Ti /\ mlimit_at (outside b) (gravitational_gradient G b rho) p To /\
    To = madd Ti (mscal (4 * PI * G * rho) (dyad n)) /\ gravitational_gradient G b rho p = mscal (1 / 2) (madd Ti To).
Proof.
  intros O F. exists (grav_side G b rho p n 1), (grav_side G b rho p n (-1)). split; [|split; [|split]].
  - apply grav_limit; [exact F|exact O|left; split; reflexivity].
  - apply grav_limit; [exact F|exact O|right; split; reflexivity].
  - unfold grav_side, mscal, madd, dyad, vscal, vadd; cbn [m0 m1 m2 vx vy vz]. f_equal; f_equal; ring.
  - unfold grav_side. destruct (gravitational_gradient G b rho p) as [[a1 a2 a3] [b1 b2 b3] [c1 c2 c3]]. unfold mscal, madd, dyad, vscal, vadd; cbn [m0 m1 m2 vx vy vz]. f_equal; f_equal; field.
Qed.

Theorem C121_magnetic_field_jump b m p n : ordered b -> on_face b p n ->
  exists Hi Ho, vlimit_at (inside b) (magnetic_field b m) p Hi /\ vlimit_at (outside b) (magnetic_field b m) p Ho /\
    Ho = vadd Hi (vscal (vdot n m) n) /\ magnetic_field b m p = vscal (1 / 2) (vadd Hi Ho).
Proof.
  intros O F. exists (mag_side b m p n 1), (mag_side b m p n (-1)). split; [|split; [|split]].
  - apply mag_limit; [exact F|exact O|left; split; reflexivity].
  - apply mag_limit; [exact F|exact O|right; split; reflexivity].
  - unfold mag_side, vscal, vadd, vsub; cbn [vx vy vz]. f_equal; field.
  - unfold mag_side. destruct (magnetic_field b m p) as [a1 a2 a3]. unfold vscal, vadd, vsub; cbn [vx vy vz]. f_equal; field.
Qed.

(** [B q] is the value [magnetic_flux_density] returns for the point [q] *)
Theorem C121_flux_density_at_a_face mu0 b m p n : ordered b -> on_face b p n ->
  exists B Bi Bo, (forall pts, magnetic_flux_density mu0 b m pts = Ok (map B pts)) /\
    vlimit_at (inside b) B p Bi /\ vlimit_at (outside b) B p Bo /\
    vdot n Bi = vdot n Bo /\ vcross n (vsub Bo Bi) = vscal (- mu0) (vcross n m) /\
    vdot n (B p) = vdot n Bi + mu0 * vdot n m / 2.
Proof.
  intros O F. exists (flux_at mu0 b m), (vscal mu0 (vadd (mag_side b m p n 1) m)), (vscal mu0 (mag_side b m p n (-1))).
  split; [apply flux_map|split; [apply flux_in; assumption|split; [apply flux_out; assumption|]]]. rewrite (flux_face mu0 b m p n F O). pose proof (face_unit b p n F) as U. unfold mag_side.
  destruct (magnetic_field b m p) as [h1 h2 h3], m as [q1 q2 q3], n as [n1 n2 n3]. unfold vdot in U; cbn [vx vy vz] in U.
  unfold vdot, vcross, vscal, vadd, vsub; cbn [vx vy vz]. set (d := n1 * q1 + n2 * q2 + n3 * q3).
  split; [|split].
  - replace (n1 * (mu0 * (h1 - 1 / 2 * d * n1 + q1)) + n2 * (mu0 * (h2 - 1 / 2 * d * n2 + q2)) + n3 * (mu0 * (h3 - 1 / 2 * d * n3 + q3)))
      with (mu0 * (n1 * h1 + n2 * h2 + n3 * h3 + d - 1 / 2 * d * (n1 * n1 + n2 * n2 + n3 * n3))) by (unfold d; ring).
    replace (n1 * (mu0 * (h1 - -1 / 2 * d * n1)) + n2 * (mu0 * (h2 - -1 / 2 * d * n2)) + n3 * (mu0 * (h3 - -1 / 2 * d * n3)))
      with (mu0 * (n1 * h1 + n2 * h2 + n3 * h3 - -1 / 2 * d * (n1 * n1 + n2 * n2 + n3 * n3))) by ring. rewrite U. field.
  - f_equal; field.
  - replace (n1 * (mu0 * (h1 - 1 / 2 * d * n1 + q1)) + n2 * (mu0 * (h2 - 1 / 2 * d * n2 + q2)) + n3 * (mu0 * (h3 - 1 / 2 * d * n3 + q3)))
      with (mu0 * (n1 * h1 + n2 * h2 + n3 * h3 + d - 1 / 2 * d * (n1 * n1 + n2 * n2 + n3 * n3))) by (unfold d; ring). rewrite U. unfold d. field.
Qed.

(** the one-sided limits are limits: both sides of a face come arbitrarily close to each of its points *)
Theorem C121_both_sides_are_near b p n : ordered b -> on_face b p n -> forall d, 0 < d ->
  (exists q, inside b q /\ vnorm (vsub q p) < d) /\ (exists q, outside b q /\ vnorm (vsub q p) < d).
Proof. intros O F. apply (both_sides b p n F O). Qed.

(** FINDING: the normal component of the returned B is not continuous at the points of a face *)
Theorem C121_normal_flux_is_continuous_refuted mu0 b m p n : ordered b -> on_face b p n -> mu0 * vdot n m <> 0 ->
  forall B, (forall pts, magnetic_flux_density mu0 b m pts = Ok (map B pts)) -> ~ is_cont (fun q => vdot n (B q)) p.
Proof.
  intros O F N B HB C. destruct (C121_flux_density_at_a_face mu0 b m p n O F) as (B' & Bi & Bo & HB' & Li & _ & _ & _ & V).
  assert (E : forall q, B' q = B q). { intros q. pose proof (HB [q]) as K. rewrite HB' in K. cbn [map] in K. congruence. }
  pose proof (lim_dot _ n _ _ _ Li) as L1. pose proof (lim_cont (inside b) _ _ C) as L2. cbv beta in L2.
  assert (L3 : limit_at (inside b) (fun q => vdot n (B' q)) p (vdot n (B p))).
  { apply (lim_eq' _ (fun q => vdot n (B q)) _ p (vdot n (B p)) (vdot n (B p))); [intros q; cbv beta; rewrite E; reflexivity|reflexivity|exact L2]. }
  pose proof (lim_unique _ _ _ _ _ (fun d Hd => proj1 (both_sides b p n F O d Hd)) L1 L3) as K. rewrite <- E, V in K. apply N. lra.
Qed.

(** a unit cube, the centre of its top face, a vertical magnetization; a corner of the same cube *)
Example C121_witness :
  let b := Box (V3 0 0 0) (V3 1 1 1) in let p := V3 (1 / 2) (1 / 2) 1 in
  ordered b /\ on_face b p (V3 0 0 1) /\ 1 * vdot (V3 0 0 1) (V3 0 0 2) <> 0 /\ b_min b = V3 0 0 0.
Proof.
  cbv zeta. unfold ordered, on_face, vdot; cbn [b_min b_max vx vy vz]. split; [lra|split; [|split; [lra|reflexivity]]]. right; right. split; [lra|split; [lra|]]. left. split; reflexivity.
Qed.
(** the theorems of C120 at a corner of that cube, which lies on three of the faces' planes *)
Example C120_witness G rho : let b := Box (V3 0 0 0) (V3 1 1 1) in
  is_grad (gravitational_potential G b rho) (V3 0 0 0) (gravitational_field G b rho (V3 0 0 0)) /\ ~ off_faces b (V3 0 0 0).
Proof. cbv zeta. split; [apply C120_field_is_gradient_everywhere|]. unfold off_faces; cbn [b_min b_max vx vy vz]. intros (A & _). apply A. reflexivity. Qed.
Print Assumptions C120_potential_and_field_are_continuous.
Print Assumptions C120_field_is_gradient_everywhere.
Print Assumptions C120_magnetic_scalar_potential_is_continuous.
Print Assumptions C121_gradient_jump.
Print Assumptions C121_magnetic_field_jump.
Print Assumptions C121_flux_density_at_a_face.
Print Assumptions C121_both_sides_are_near.
Print Assumptions C121_normal_flux_is_continuous_refuted.
