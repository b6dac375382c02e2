(** Vocabulary of the statements about the depth the layered reflection coefficient sees to. *)
From Coq Require Import Reals List.
From Coquelicot Require Import Coquelicot.
From Verif Require Import Model_Layered.
Import ListNotations.
Open Scope R_scope.

(** a ground of real conductivities, top to bottom, without displacement currents: the last one is the basement *)
Definition earth (sigma thicknesses : list R) : Prop :=
  length sigma = (length thicknesses + 1)%nat /\
  (forall s, In s sigma -> 0 <= s) /\ (forall h, In h thicknesses -> 0 <= h).
(** a pack of layers, each with its thickness *)
Definition pack (sigma thicknesses : list R) : Prop :=
  length sigma = length thicknesses /\
  (forall s, In s sigma -> 0 <= s) /\ (forall h, In h thicknesses -> 0 <= h).
(** the depth of the bottom of a pack *)
Definition depth (thicknesses : list R) : R := fold_right Rplus 0 thicknesses.
(** the arguments of rTE_forward: conductivities as complex numbers, every layer with the permeability of the air *)
Definition conductivities (sigma : list R) : list C := map RtoC sigma.
Definition nonmagnetic (mu_0 : R) (sigma : list R) : list C := map (fun _ => RtoC mu_0) sigma.
(** g 0 + ... + g (n - 1) *)
Fixpoint rsum (n : nat) (g : nat -> R) : R := match n with O => 0 | S m => rsum m g + g m end.
(** a layered dipole object over such a ground, displacement currents switched off *)
Definition over (mu_0 : R) (s : layered) (sigma thicknesses : list R) : Prop :=
  ly_quasistatic s = true /\ ly_sigma s = P1 (conductivities sigma) /\ ly_mu s = P1 (nonmagnetic mu_0 sigma) /\
  ly_thickness s = thicknesses.
(** the same dipole at the same frequencies *)
Definition same_survey (a b : layered) : Prop :=
  ly_frequency a = ly_frequency b /\ ly_location a = ly_location b /\ ly_orientation a = ly_orientation b /\ ly_moment a = ly_moment b.
