(** What the [field] modes of the spheres mean on an array of points. *)
From Coq Require Import String Reals List.
From Verif Require Import Vec3 Numpy Model_Utils Model_Static Model_Gravity Model_Arrays Model_Arrays3 Spec_Arrays Spec_Arrays2.
Import ListNotations.

(** the value a routine returns for one point *)
Definition one_value {A} (o : result (fields A)) : result A :=
  match o with Ok (One [v]) => Ok v | Ok _ => Raise ValueError | Raise e => Raise e end.
Definition one_mode (field : string) : Prop := field = "total"%string \/ field = "primary"%string \/ field = "secondary"%string.
(** [per f a e]: the array [e] has, for every point of [a], the value [f] of that point.  In the
    modes total, primary and secondary the method returns one array; otherwise it returns three,
    which are those of the three modes. *)
Definition modes_per_point {A} (per : (vec3 -> result A) -> nd R -> nd R -> Prop)
    (f : list vec3 -> string -> result (fields A)) (a : nd R) (out : string -> result nd_fields) : Prop :=
  forall field,
  (one_mode field /\ exists e, out field = Ok (OneA e) /\ per (fun p => one_value (f [p] field)) a e) \/
  (~ one_mode field /\ exists t p s, out field = Ok (ThreeA t p s) /\
     per (fun q => one_value (f [q] "total"%string)) a t /\ per (fun q => one_value (f [q] "primary"%string)) a p /\
     per (fun q => one_value (f [q] "secondary"%string)) a s).
Definition per_vector (f : vec3 -> result vec3) (a e : nd R) : Prop := one_vector_per_point f a (Ok e).
Definition per_number (f : vec3 -> result R) (a e : nd R) : Prop :=
  shape e = removelast (shape a) /\ forall j, index_of (removelast (shape a)) j -> f (vec_at a j) = Ok (get e j).
(** an entry per point, of any kind *)
Definition one_block_per_point {A} (value : vec3 -> A) (xyz : nd R) (out : result (nd A)) : Prop :=
  exists e, out = Ok e /\ shape e = removelast (shape xyz) /\
  forall j, index_of (removelast (shape xyz)) j -> get e j = value (vec_at xyz j).
