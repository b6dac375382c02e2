(** Vocabulary of C140: what a library does with values too small for a float. *)
From Coq Require Import Reals.
From Coquelicot Require Import Coquelicot.
From Verif Require Import Cplx Spec_Fourier Model_Special.
Open Scope R_scope.

(** no information is left: exactly zero, or not a number *)
Definition lost (a : flt) : Prop := a = Fin 0 \/ a = NaN.
Definition clost (a : fc) : Prop := lost (fst a) /\ lost (snd a).

(** K is the value of the modified Bessel function of the second kind of order n at z: the integral of
    exp(- z cosh t) cosh(n t) over t > 0 (DLMF 10.32.9) *)
Definition is_macdonald (n : nat) (z K : C) : Prop :=
  is_cint (fun t => cexp (- (z * RtoC (cosh t))) * RtoC (cosh (INR n * t)))%C K.

(** the library returns zero (or gives up) where both parts of K_n are below half the smallest positive float 2^-1074 *)
Definition kv_underflows (kv : nat -> fc -> fc) : Prop :=
  forall n z K, is_macdonald n z K -> Rabs (Re K) < / 2 ^ 1075 -> Rabs (Im K) < / 2 ^ 1075 -> clost (kv n (Fin (Re z), Fin (Im z))).
