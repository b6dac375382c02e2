(** Vocabulary of C106: the secondary field of the layered dipole as a digital Hankel transform. *)
From Coq Require Import Reals List.
From Coquelicot Require Import Coquelicot.
From Verif Require Import Vec3 Cplx Model_RTE Model_Layered Spec_Layered.
Import ListNotations.
Open Scope R_scope.

(** horizontal distance of a receiver [p] from a source [s] *)
Definition horizontally (s p : vec3) : R := sqrt ((vx p - vx s) ^ 2 + (vy p - vy s) ^ 2).

(** g 0 + ... + g (n - 1) *)
Fixpoint csum (n : nat) (g : nat -> C) : C := match n with O => RtoC 0 | S m => (csum m g + g m)%C end.

(** a digital filter with n nodes b_i and weights w0_i, w1_i replaces
      int_0^oo k0(la) J0(la rho) + k1(la) J1(la rho) d la
    by (1/rho) sum_i k0(b_i/rho) w0_i + k1(b_i/rho) w1_i *)
Definition whole (flt : hankel) : Prop := length (hf_j0 flt) = length (hf_base flt) /\ length (hf_j1 flt) = length (hf_base flt).
Definition filtered (flt : hankel) (rho : R) (k0 k1 : R -> C) : C :=
  (RtoC (/ rho) * csum (length (hf_base flt)) (fun i =>
     k0 (nth i (hf_base flt) 0%R / rho)%R * RtoC (nth i (hf_j0 flt) 0%R)
     + k1 (nth i (hf_base flt) 0%R / rho)%R * RtoC (nth i (hf_j1 flt) 0%R)))%C.

(** the Bessel functions J0 and J1, by Bessel's integrals *)
Definition bessel0 (x : R) : R := RInt (fun t => cos (x * sin t)) 0 PI / PI.
Definition bessel1 (x : R) : R := RInt (fun t => sin t * sin (x * sin t)) 0 PI / PI.

(** the cylindrical wave of wavenumber [la] that left a source in [s], was reflected at z = 0 and arrives in [p] *)
Definition reflected_wave (la : R) (s p : vec3) : R := exp (- la * (vz p + vz s)) * bessel0 (la * horizontally s p).

(** the factors of J0 and J1 in the field of a dipole [o] at horizontal offset (dx, dy) *)
Definition kernel0 (o : vec3) (dx dy la : R) : vec3 :=
  let rho2 := dx ^ 2 + dy ^ 2 in let od := vx o * dx + vy o * dy in
  V3 (la ^ 2 * od * dx / rho2) (la ^ 2 * od * dy / rho2) (la ^ 2 * vz o).
Definition kernel1 (o : vec3) (dx dy la : R) : vec3 :=
  let rho2 := dx ^ 2 + dy ^ 2 in let rho := sqrt rho2 in let od := vx o * dx + vy o * dy in
  V3 (la / rho * (vx o - 2 * od * dx / rho2) + la ^ 2 * vz o * dx / rho)
     (la / rho * (vy o - 2 * od * dy / rho2) + la ^ 2 * vz o * dy / rho)
     (- la ^ 2 * od / rho).

(** the layers of an object at its frequency number [f]: complex conductivities and permeabilities *)
Definition layer_sigmas (s : layered) (f : nat) : list C := map (fun l => hat s l f) (seq 0 (n_layer s)).
Definition layer_mus (s : layered) (f : nat) : list C := map (fun l => pvalue (ly_mu s) l f) (seq 0 (n_layer s)).
