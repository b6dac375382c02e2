(** What evaluating a method on arrays means. *)
From Coq Require Import Reals List Arith.
From Verif Require Import Vec3 Numpy Model_Utils Model_Arrays.
Import ListNotations.
Open Scope nat_scope.

(** [ix] is an index of an array of shape [s] *)
Definition index_of (s ix : list nat) : Prop := Forall2 (fun n i => i < n) s ix.

(** The call returns an array of shape axis.shape + xyz.shape whose entry [i, j, c] is component c
    of the value at axis[i] (a frequency or a time) and at the point xyz[j]. *)
Definition is_grid_of {A V : Type} (entry : V -> nat -> A) (value : R -> vec3 -> V) (axis xyz : nd R) (out : result (nd A)) : Prop :=
  exists e, out = Ok e /\ shape e = shape axis ++ shape xyz /\
  forall i j c, index_of (shape axis) i -> index_of (removelast (shape xyz)) j -> c < 3 ->
    get e (i ++ j ++ [c]) = entry (value (get axis i) (vec_at xyz j)) c.
