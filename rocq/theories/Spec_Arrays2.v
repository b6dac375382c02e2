(** What evaluating a static method on an array of points means. *)
From Coq Require Import Reals List Arith.
From Verif Require Import Vec3 Numpy Model_Utils Model_Static Model_Arrays Spec_Arrays.
Import ListNotations.
Open Scope nat_scope.

(** The call returns one number per point: the array has shape xyz.shape[:-1] and its entry [j] is
    the value at the point xyz[j]. *)
Definition one_number_per_point (value : vec3 -> R) (xyz : nd R) (out : result (nd R)) : Prop :=
  exists e, out = Ok e /\ shape e = removelast (shape xyz) /\
  forall j, index_of (removelast (shape xyz)) j -> get e j = value (vec_at xyz j).

(** The call returns one vector per point: the array has the shape of xyz, and its row [j] is what
    the one-point evaluation returns at xyz[j] (which does not raise). *)
Definition one_vector_per_point (value : vec3 -> result vec3) (xyz : nd R) (out : result (nd R)) : Prop :=
  exists e, out = Ok e /\ shape e = shape xyz /\
  forall j, index_of (removelast (shape xyz)) j -> value (vec_at xyz j) = Ok (vec_at e j).

(** The call returns one 3 x 3 matrix per point. *)
Definition entry (m : mat3) (p q : nat) : R := component (match p with O => m0 m | 1 => m1 m | _ => m2 m end) q.
Definition one_matrix_per_point (value : vec3 -> mat3) (xyz : nd R) (out : result (nd R)) : Prop :=
  exists e, out = Ok e /\ shape e = shape xyz ++ [3] /\
  forall j p q, index_of (removelast (shape xyz)) j -> p < 3 -> q < 3 -> get e (j ++ [p; q]) = entry (value (vec_at xyz j)) p q.

(** The row a[j] of an array, as the list of its entries *)
Definition row_at (a : nd R) (j : list nat) : list R := map (fun c => get a (j ++ [c])) (seq 0 (last (shape a) 0)).
(** The result has rows of width [w], and every row is what the one-row function returns for the
    corresponding row (which does not raise). *)
Definition row_by_row (f : list R -> result (list R)) (a : nd R) (w : nat) (out : result (nd R)) : Prop :=
  exists e, out = Ok e /\ shape e = removelast (shape a) ++ [w] /\
  forall j, index_of (removelast (shape a)) j -> f (row_at a j) = Ok (row_at e j).
Definition row_by_row2 (f : list R -> list R -> result (list R)) (a b : nd R) (w : nat) (out : result (nd R)) : Prop :=
  exists e, out = Ok e /\ shape e = removelast (shape a) ++ [w] /\
  forall j, index_of (removelast (shape a)) j -> f (row_at a j) (row_at b j) = Ok (row_at e j).

(** The call returns, for every time and every point, one vector: the array has shape
    time.shape + xy.shape[:-1] + (3,) and its row [i, j] is the value at time[i] and at the row xy[j]. *)
Definition rows_per_time (value : R -> list R -> result vec3) (time xy : nd R) (out : result (nd R)) : Prop :=
  exists e, out = Ok e /\ shape e = shape time ++ removelast (shape xy) ++ [3] /\
  forall i j, index_of (shape time) i -> index_of (removelast (shape xy)) j -> value (get time i) (row_at xy j) = Ok (vec_at e (i ++ j)).

(** The current dipole over the half-space: the current enters at one electrode and leaves at the other *)
Definition dh_V (s : dhsp) (p : vec3) : R := (hs_V (dh_sa s) p - hs_V (dh_sb s) p)%R.
Definition dh_E (s : dhsp) (p : vec3) : vec3 := vsub (hs_E (dh_sa s) p) (hs_E (dh_sb s) p).
(** every point of the array is at or below the surface *)
Definition all_below (xyz : nd R) : Prop := forall j, index_of (removelast (shape xyz)) j -> (vz (vec_at xyz j) <= 0)%R.

(** A method whose only exception does not depend on the points: it raises the same for every point
    and for the array, or returns one vector per point. *)
Definition per_point_or_raises (value : vec3 -> result vec3) (xyz : nd R) (out : result (nd R)) : Prop :=
  (exists e, out = Raise e /\ forall p, value p = Raise e) \/ one_vector_per_point value xyz out.
(** The same for a method whose vectors may have non-finite entries ([None]): a point where the
    one-point evaluation is finite has that vector, any other has a row without a finite entry. *)
Definition finite_or_nan_per_point (value : vec3 -> result (option vec3)) (xyz : nd R) (out : result (nd (option R))) : Prop :=
  (exists e, out = Raise e /\ forall p, value p = Raise e) \/
  exists e, out = Ok e /\ shape e = shape xyz /\
  forall j, index_of (removelast (shape xyz)) j ->
  match value (vec_at xyz j) with
  | Ok (Some v) => forall c, c < 3 -> get e (j ++ [c]) = Some (component v c)
  | Ok None => forall c, c < 3 -> get e (j ++ [c]) = None
  | Raise _ => False
  end.
