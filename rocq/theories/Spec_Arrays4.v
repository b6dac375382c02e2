(** What a squeezed array of values is. *)
From Coq Require Import Reals List Arith.
From Coquelicot Require Import Coquelicot.
From Verif Require Import Vec3 Cplx Numpy Model_Utils Model_FDEM Model_Arrays Spec_Arrays.
Import ListNotations.
Open Scope nat_scope.

(** the entries of an index that belong to axes of another length than one *)
Definition drop_unit_axes (s ix : list nat) : list nat := map snd (filter (fun p => negb (fst p =? 1)) (combine s ix)).
(** The call returns an array whose shape is frequencies + points + (3,) without its ones; its
    entry at the index [i, j, c], less the entries on those axes, is component c of the value of
    frequency i and point j. *)
Definition squeezed_grid {A V} (entry : V -> nat -> A) (value : list nat -> list nat -> V) (frequencies points : list nat) (out : result (nd A)) : Prop :=
  let full := frequencies ++ points ++ [3] in
  exists e, out = Ok e /\ shape e = filter (fun n => negb (n =? 1)) full /\
  forall i j c, index_of frequencies i -> index_of points j -> c < 3 -> get e (drop_unit_axes full (i ++ j ++ [c])) = entry (value i j) c.
(** the point (x, y) of an array of points *)
Definition plane_point (xy : nd R) (j : list nat) : vec3 := V3 (get xy (j ++ [0])) (get xy (j ++ [1])) 0%R.
