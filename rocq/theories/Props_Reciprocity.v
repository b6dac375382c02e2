(** C95: exchanging transmitter and receiver does not change the reading. *)
From Coq Require Import Reals Lra List String.
From Coquelicot Require Import Coquelicot.
From Verif Require Import Vec3 Cplx Numpy Model_Static Model_Gravity Model_FDEM Model_TDEM Spec_FDEM Proof_Reciprocity Proof_Reciprocity2.
Import ListNotations.
Open Scope R_scope.

(** ** The field of the first source along the second, weighted with the strength of the second, is the
    field of the second along the first, weighted with the strength of the first *)
Theorem C95_harmonic_electric_dipoles med I1 l1 o1 c1 I2 l2 o2 c2 :
  (RtoC (I2 * l2) * cvdot (ed_E (ED med I1 l1 o1 c1) c2) o2 = RtoC (I1 * l1) * cvdot (ed_E (ED med I2 l2 o2 c2) c1) o1)%C.
Proof. exact (ed_reciprocal o1 o2 c1 c2 med I1 l1 I2 l2). Qed.

Theorem C95_harmonic_magnetic_dipoles med m1 o1 c1 m2 o2 c2 :
  (RtoC m2 * cvdot (mf_H (MDF med m1 o1 c1) c2) o2 = RtoC m1 * cvdot (mf_H (MDF med m2 o2 c2) c1) o1)%C.
Proof. exact (mf_reciprocal o1 o2 c1 c2 med m1 m2). Qed.

(** an electric and a magnetic dipole: the electromotive force one induces in the other *)
Theorem C95_harmonic_electric_and_magnetic_dipole med I l o1 c1 m o2 c2 :
  (RtoC (I * l) * cvdot (mf_E (MDF med m o2 c2) c1) o1 = - (Ci * fd_omega med * fd_mu med * m) * cvdot (ed_H (ED med I l o1 c1) c2) o2)%C.
Proof. exact (ed_mf_reciprocal o1 o2 c1 c2 med I l m). Qed.

Theorem C95_transient_electric_dipoles med I1 l1 o1 c1 I2 l2 o2 c2 :
  (I2 * l2) * vdot (te_E (TED med I1 l1 o1 c1) c2) o2 = (I1 * l1) * vdot (te_E (TED med I2 l2 o2 c2) c1) o1.
Proof. exact (te_reciprocal o1 o2 c1 c2 med I1 l1 I2 l2). Qed.

Theorem C95_static_magnetic_dipoles mu m1 o1 c1 m2 o2 c2 : exists b1 b2,
  mdipole_flux_density (MD m1 o1 c1 mu) "cartesian" c2 = Ok b1 /\ mdipole_flux_density (MD m2 o2 c2 mu) "cartesian" c1 = Ok b2 /\
  m2 * vdot b1 o2 = m1 * vdot b2 o1.
Proof. exact (md_reciprocal o1 o2 c1 c2 mu m1 m2). Qed.

Theorem C95_point_currents rho I1 c1 I2 c2 :
  I2 * pc_potential (point_current rho I1 c1) c2 = I1 * pc_potential (point_current rho I2 c2) c1.
Proof. exact (pc_reciprocal c1 c2 rho I1 I2). Qed.

Theorem C95_half_space_electrodes rho I1 c1 I2 c2 : vz c1 <= 0 -> vz c2 <= 0 -> exists v1 v2,
  hs_potential (HS rho I1 c1) [c2] = Ok [v1] /\ hs_potential (HS rho I2 c2) [c1] = Ok [v2] /\ I2 * v1 = I1 * v2.
Proof. exact (hs_reciprocal c1 c2 rho I1 I2). Qed.

(** four electrodes: injecting between a and b and reading between m and n, or the other way round *)
Theorem C95_four_electrodes rho I a b m n : vz a <= 0 -> vz b <= 0 -> vz m <= 0 -> vz n <= 0 -> exists v,
  dh_potential (DHS rho I a b) [m] (Some [n]) = Ok [v] /\ dh_potential (DHS rho I m n) [a] (Some [b]) = Ok [v].
Proof. exact (dh_reciprocal rho I a b m n). Qed.

(** two loops on a half-space, in any orientation, total or secondary field, whatever scipy's Bessel functions return *)
Theorem C95_magnetic_dipoles_half_space iv kv mu_0 md m1 o1 c1 m2 o2 c2 sec : beside c2 c1 ->
  (RtoC m2 * cvdot (mh_H iv kv mu_0 (MH md m1 o1 c1) sec c2) o2 = RtoC m1 * cvdot (mh_H iv kv mu_0 (MH md m2 o2 c2) sec c1) o1)%C.
Proof. exact (mh_exchange iv kv mu_0 md m1 o1 c1 m2 o2 c2 sec). Qed.

(** the force of one mass on the other is opposite to the force of the other on the one *)
Theorem C95_point_masses m1 c1 m2 c2 :
  m2 * pm_potential (PM m1 c1) c2 = m1 * pm_potential (PM m2 c2) c1 /\
  vscal m2 (pm_field (PM m1 c1) c2) = vopp (vscal m1 (pm_field (PM m2 c2) c1)).
Proof. exact (pm_reciprocal c1 c2 m1 m2). Qed.

(** ** Concrete cases: a dipole array at depth, and two coils three metres apart *)
Example C95_witness_array : let a := V3 0 0 0 in let b := V3 4 0 (-1) in let m := V3 1 2 0 in let n := V3 2 5 (-3) in
  vz a <= 0 /\ vz b <= 0 /\ vz m <= 0 /\ vz n <= 0 /\ a <> m /\ b <> n.
Proof. cbn. repeat split; try lra; intro E; apply V3_inj in E; lra. Qed.
Example C95_witness_coils : beside (V3 3 0 0) (V3 0 0 0).
Proof. left. cbn. lra. Qed.
Print Assumptions C95_harmonic_electric_dipoles.
Print Assumptions C95_harmonic_magnetic_dipoles.
Print Assumptions C95_harmonic_electric_and_magnetic_dipole.
Print Assumptions C95_transient_electric_dipoles.
Print Assumptions C95_static_magnetic_dipoles.
Print Assumptions C95_point_currents.
Print Assumptions C95_half_space_electrodes.
Print Assumptions C95_four_electrodes.
Print Assumptions C95_magnetic_dipoles_half_space.
Print Assumptions C95_point_masses.
