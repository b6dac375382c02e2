(** Vocabulary of C142: the library's cube of a complex number. *)
From Coq Require Import Reals.
From Coquelicot Require Import Coquelicot.
From Verif Require Import Spec_Float.
Open Scope R_scope.

(** both parts of the library's cube of h - ih, which is -2 h^3 - 2i h^3, are accurate to 4 units in the last place *)
Definition good_cube (cube : C -> C) : Prop :=
  forall h, within 8 (fst (cube (h, - h))) (- (2 * h ^ 3)) /\ within 8 (snd (cube (h, - h))) (- (2 * h ^ 3)).
