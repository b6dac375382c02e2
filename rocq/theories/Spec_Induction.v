(** Vocabulary of the statements about weak induction in a layered ground. *)
From Coq Require Import Reals List.
From Coquelicot Require Import Coquelicot.
From Verif Require Import Cplx.
Import ListNotations.
Open Scope R_scope.

(** what a wave of wavenumber lamb sees of a ground when induction is weak: each conductivity, weighted by the share
    e^{-2 lamb top} - e^{-2 lamb bottom} of its layer; the basement has no bottom.  [z] is the depth of the first layer's top. *)
Fixpoint cumulative (lamb z : R) (sigma thicknesses : list R) : R :=
  match sigma, thicknesses with
  | s :: sigma', h :: thicknesses' =>
      s * (exp (- 2 * lamb * z) - exp (- 2 * lamb * (z + h))) + cumulative lamb (z + h) sigma' thicknesses'
  | s :: _, [] => s * exp (- 2 * lamb * z)
  | [], _ => 0
  end.
(** the linear response of the ground at frequency f: - i omega mu_0 / (2 lamb)^2 times that average *)
Definition linear_response (mu_0 f lamb : R) (sigma thicknesses : list R) : C :=
  (RtoC (2 * PI * f * mu_0 / (2 * lamb) ^ 2 * cumulative lamb 0 sigma thicknesses) * - Ci)%C.
(** the induction number of a conductivity *)
Definition induction (mu_0 f lamb sigma : R) : R := 2 * PI * f * mu_0 * sigma / (2 * lamb) ^ 2.
(** a magnetic, conducting ground: real conductivities >= 0, permeabilities > 0, thicknesses >= 0 *)
Definition magnetic (sigma mu thicknesses : list R) : Prop :=
  length sigma = (length thicknesses + 1)%nat /\ length mu = (length thicknesses + 1)%nat /\
  List.Forall (Rle 0) sigma /\ List.Forall (Rlt 0) mu /\ List.Forall (Rle 0) thicknesses.
