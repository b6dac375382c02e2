(** C145: the static magnetic dipole and the gravity gradient of a point mass in floating point. *)
From Coq Require Import ZArith Reals Lra Lia Psatz List.
From Flocq Require Import Core.
From Verif Require Import Vec3 Numpy Model_Gravity Model_Static Model_Float Model_Float9 Model_Float11 Spec_Float Spec_Float7
  Proof_Spatial Proof_Float Proof_Float2 Proof_Float3 Proof_Float9 Proof_Float14 Proof_Float23 Proof_Float24.
Import ListNotations.
Open Scope R_scope.

(** C145: the flux density of a dipole is accurate as a vector, relatively to its own length, at every station, also where components vanish *)
Theorem C145_dipole_flux_density pow dot s p : good_pow pow -> good_dot dot -> p <> md_loc s ->
  vnorm (vsub (fmd_B pow dot s p) (md_B s p)) <= 920 * / 2 ^ 53 * vnorm (md_B s p).
Proof. intros GP GD OFF. apply (B_error pow dot GP GD (md_loc s) p OFF s eq_refl). Qed.

(** the vector potential is accurate relatively to its largest value at that distance *)
Theorem C145_dipole_vector_potential s p : p <> md_loc s ->
  vnorm (vsub (fmd_A s p) (md_A s p)) <= 160 * / 2 ^ 53 * (Rabs (md_moment s * md_mu s) * vnorm (md_orient s) / (4 * PI * vnorm (vsub p (md_loc s)) ^ 2)).
Proof.
  intros OFF. eapply Rle_trans; [apply (A_error (md_loc s) p OFF s eq_refl)|]. fold u. right. f_equal.
  pose proof PI_RGT_0 as P. pose proof (Rr_pos (md_loc s) p OFF) as Q. assert (0 < vnorm (vsub p (md_loc s)) ^ 2) by (apply pow_lt, Q).
  unfold Rdiv. rewrite Rabs_mult, (Rabs_pos_eq (/ _)) by (left; apply Rinv_0_lt_compat; nra). ring.
Qed.

(** every entry of the gravity gradient of a point mass is within 310 units of roundoff of G m / r^3 *)
Theorem C145_point_mass_gradient pow mass loc p row col : good_pow pow -> p <> loc -> In row [m0; m1; m2] -> In col [vx; vy; vz] ->
  Rabs (col (row (fpm_gradient pow mass loc p)) - col (row (pm_gradient (PM mass loc) p))) <= 310 * / 2 ^ 53 * (G_newton * Rabs mass / vnorm (vsub p loc) ^ 3).
Proof.
  intros GP OFF IR IC. destruct (near_rh loc p) as (A & B & C). pose proof (comp_le (vdiv (vsub p loc) (vnorm (vsub p loc)))) as (X & Y & Z).
  rewrite (RH_norm loc p OFF) in X, Y, Z. unfold vdiv in *. cbn [vx vy vz] in *.
  assert (Z1 : 0 = 0 \/ 0 = 1) by (left; reflexivity). assert (Z2 : 1 = 0 \/ 1 = 1) by (right; reflexivity).
  destruct IR as [<-|[<-|[<-|[]]]], IC as [<-|[<-|[<-|[]]]]; unfold fpm_gradient, pm_gradient; cbv zeta; cbn [m0 m1 m2 vx vy vz pm_loc pm_mass];
    apply (grad_entry pow GP loc p OFF); assumption.
Qed.

(** FINDING: on the cone where an entry of the exact gradient vanishes the computed one need not, so entries are not accurate relatively
    to themselves: at (3, 3, 3) the whole diagonal is zero and the first computed entry is not, for every mass but zero *)
Theorem C145_vanishing_entry_refuted pow mass : good_pow pow -> mass <> 0 ->
  vx (m0 (pm_gradient (PM mass (V3 0 0 0)) (V3 3 3 3))) = 0 /\ vx (m0 (fpm_gradient pow mass (V3 0 0 0) (V3 3 3 3))) <> 0.
Proof.
  intros GP M. split; [|apply vanishing; assumption]. unfold pm_gradient. cbv zeta. cbn [m0 vx vy vz pm_loc pm_mass]. replace (vsub (V3 3 3 3) (V3 0 0 0)) with (V3 3 3 3) by (unfold vsub; cbn [vx vy vz]; f_equal; ring). cbn [vx vy vz].
  pose proof (vnorm_sqr (V3 3 3 3)) as Q. set (r := vnorm (V3 3 3 3)) in *. unfold vnorm2 in Q. cbn [vx vy vz] in Q.
  assert (H : r <> 0) by (intros H; rewrite H in Q; lra). replace (1 - 3 * (3 / r) * (3 / r)) with ((r * r - 27) / (r * r)) by (field; exact H). rewrite Q. unfold Rdiv. ring.
Qed.

(** FINDING: the computed tensor need not be symmetric.  A correctly rounded cube and a unit mass at the origin, station (2, 5, 3) *)
Theorem C145_symmetry_refuted pow : (forall x, pow x 3%nat = fl (x ^ 3)) ->
  vy (m0 (pm_gradient (PM 1 (V3 0 0 0)) (V3 2 5 3))) = vx (m1 (pm_gradient (PM 1 (V3 0 0 0)) (V3 2 5 3))) /\
  vy (m0 (fpm_gradient pow 1 (V3 0 0 0) (V3 2 5 3))) <> vx (m1 (fpm_gradient pow 1 (V3 0 0 0) (V3 2 5 3))).
Proof. intros CP. split; [|apply asymmetric, CP]. unfold pm_gradient. cbv zeta. cbn [m0 m1 vx vy vz]. unfold Rdiv. ring. Qed.

(** correctly rounded libraries, a station off a dipole and off a mass *)
Example C145_witness : good_pow (fun x k => fl (x ^ k)) /\ good_dot (fun a b => fl (vdot a b)) /\ V3 3 3 3 <> V3 0 0 0 /\
  (forall x, (fun x k => fl (x ^ k)) x 3%nat = fl (x ^ 3)).
Proof.
  split; [|split; [|split; [|reflexivity]]].
  - intros x k. apply (near_within' 8 1); [lia|cbn; lra|apply near_fl].
  - intros a b. eapply Rle_trans; [apply fl_err|]. fold u. pose proof u_lt as U. unfold vdot.
    pose proof (Rabs_triang (vx a * vx b + vy a * vy b) (vz a * vz b)). pose proof (Rabs_triang (vx a * vx b) (vy a * vy b)).
    pose proof (Rabs_pos (vx a * vx b)). pose proof (Rabs_pos (vy a * vy b)). pose proof (Rabs_pos (vz a * vz b)). nra.
  - intros E. apply V3_inj in E. lra.
Qed.
Print Assumptions C145_dipole_flux_density.
Print Assumptions C145_dipole_vector_potential.
Print Assumptions C145_point_mass_gradient.
Print Assumptions C145_vanishing_entry_refuted.
Print Assumptions C145_symmetry_refuted.
