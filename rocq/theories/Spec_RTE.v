(** Vocabulary of the statements about the layered reflection coefficient. *)
From Coq Require Import Reals List.
From Coquelicot Require Import Coquelicot.
From Verif Require Import Cplx.
Import ListNotations.
Open Scope R_scope.

(** one layer, at angular frequency [omega] and wavenumber [lamb]: positive real permeability;
    it conducts, or it is an insulator in which the wave of this wavenumber is evanescent *)
Definition layer_ok (omega lamb : R) (s m : C) : Prop :=
  exists r, 0 < r /\ m = RtoC r /\ (0 < Re s \/ Re s = 0 /\ omega * r * Im s < lamb ^ 2).
(** positive real permeability, no gain, displacement currents below the cut-off of this wavenumber
    (any real conductivity >= 0 qualifies when [lamb <> 0]) *)
Definition slow_layer (omega lamb : R) (s m : C) : Prop :=
  exists r, 0 < r /\ m = RtoC r /\ 0 <= Re s /\ omega * r * Im s < lamb ^ 2.

(** a stack: one sigma and one mu per layer, one non-negative thickness less *)
Definition stack (good : C -> C -> Prop) (sigma mu : list C) (thicknesses : list R) : Prop :=
  length sigma = (length thicknesses + 1)%nat /\ Forall2 good sigma mu /\ List.Forall (Rle 0) thicknesses.
Definition ground (frequency lamb : R) := stack (layer_ok (2 * PI * frequency) lamb).
Definition slow_ground (frequency lamb : R) := stack (slow_layer (2 * PI * frequency) lamb).

(** sum_k a_k b_k *)
Fixpoint csum2 (a b : list C) : C :=
  match a, b with x :: a', y :: b' => (x * y + csum2 a' b')%C | _, _ => RtoC 0 end.

(** [d] lists the derivatives at [x] of the entries of the array-valued curve [c] *)
Definition is_curve (c : R -> list C) (x : R) (d : list C) : Prop :=
  (forall t, length (c t) = length d) /\
  forall k, (k < length d)%nat -> is_cderive (fun t => nth k (c t) (RtoC 0)) x (nth k d (RtoC 0)).
Definition is_rcurve (c : R -> list R) (x : R) (d : list R) : Prop :=
  (forall t, length (c t) = length d) /\
  forall k, (k < length d)%nat -> is_derive (fun t => nth k (c t) 0) x (nth k d 0).
