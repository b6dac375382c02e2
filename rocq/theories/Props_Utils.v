(** Properties C08-C12 (geoana/utils.py). *)
From Coq Require Import List Bool Arith String.
From Verif Require Import Numpy Model_Utils Proof_Utils.
Import ListNotations.
Open Scope nat_scope.

(** C08. [pos_F s ix] is i0 + n0*(i1 + n1*(i2 + ...)); [inside s ix] says that
    [ix] is an index of shape [s]. *)
Theorem C08_mkvc_column_major :
  forall (A : Type) (d : A) (a : nd A) (n : nat), 1 <= n <= 3 ->
  exists v, mkvc d (ArgNdarray a) n = Ok (Some v) /\ mkvc d (ArgMatrix a) n = Ok (Some v) /\
    shape v = size (shape a) :: repeat 1 (n - 1) /\
    forall ix, inside (shape a) ix -> get v (pos_F (shape a) ix :: repeat 0 (n - 1)) = get a ix.
Proof. exact @mkvc_ok. Qed.

Theorem C08_mkvc_every_entry_once :
  forall s : list nat,
  (forall ix, inside s ix -> pos_F s ix < size s) /\
  (forall ix jx, inside s ix -> inside s jx -> pos_F s ix = pos_F s jx -> ix = jx) /\
  (forall k, k < size s -> exists ix, inside s ix /\ pos_F s ix = k).
Proof. exact mkvc_bijection. Qed.

Theorem C08_mkvc_rejects_non_arrays :
  forall (A : Type) (d : A) (n : nat), mkvc d ArgOther n = Raise AssertionError.
Proof. exact @mkvc_other. Qed.

Example C08_witness : inside [3; 2] [2; 1] /\ pos_F [3; 2] [2; 1] = 5 /\ size [3; 2] = 6.
Proof. repeat split; repeat constructor. Qed.

(** C09 *)
Theorem C09_ndgrid_two_axes :
  forall (A : Type) (d : A) (l1 l2 : list A) (args : ndgrid_args A),
  args = ArgsSep [ArgNdarray (of_list d l1); ArgNdarray (of_list d l2)] \/
  args = ArgsList [ArgNdarray (of_list d l1); ArgNdarray (of_list d l2)] ->
  exists rows, ndgrid d args true = Ok (GridRows rows) /\
    List.length rows = List.length l1 * List.length l2 /\
    forall i1 i2, i1 < List.length l1 -> i2 < List.length l2 ->
      nth (i1 + List.length l1 * i2) rows [] = [nth i1 l1 d; nth i2 l2 d].
Proof. exact @ndgrid_2_rows. Qed.

Theorem C09_ndgrid_three_axes :
  forall (A : Type) (d : A) (l1 l2 l3 : list A) (args : ndgrid_args A),
  args = ArgsSep [ArgNdarray (of_list d l1); ArgNdarray (of_list d l2); ArgNdarray (of_list d l3)] \/
  args = ArgsList [ArgNdarray (of_list d l1); ArgNdarray (of_list d l2); ArgNdarray (of_list d l3)] ->
  exists rows, ndgrid d args true = Ok (GridRows rows) /\
    List.length rows = List.length l1 * List.length l2 * List.length l3 /\
    forall i1 i2 i3, i1 < List.length l1 -> i2 < List.length l2 -> i3 < List.length l3 ->
      nth (i1 + List.length l1 * (i2 + List.length l2 * i3)) rows [] = [nth i1 l1 d; nth i2 l2 d; nth i3 l3 d].
Proof. exact @ndgrid_3_rows. Qed.

Theorem C09_ndgrid_two_axes_arrays :
  forall (A : Type) (d : A) (l1 l2 : list A),
  exists X Y, ndgrid d (ArgsSep [ArgNdarray (of_list d l1); ArgNdarray (of_list d l2)]) false = Ok (GridArrays [X; Y]) /\
    shape X = [List.length l1; List.length l2] /\ shape Y = [List.length l1; List.length l2] /\
    forall i1 i2, i1 < List.length l1 -> i2 < List.length l2 ->
      get X [i1; i2] = nth i1 l1 d /\ get Y [i1; i2] = nth i2 l2 d.
Proof. exact @ndgrid_2_arrays. Qed.

Theorem C09_ndgrid_three_axes_arrays :
  forall (A : Type) (d : A) (l1 l2 l3 : list A),
  let s := [List.length l1; List.length l2; List.length l3] in
  exists X Y Z, ndgrid d (ArgsSep [ArgNdarray (of_list d l1); ArgNdarray (of_list d l2); ArgNdarray (of_list d l3)]) false
      = Ok (GridArrays [X; Y; Z]) /\
    shape X = s /\ shape Y = s /\ shape Z = s /\
    forall i1 i2 i3, i1 < List.length l1 -> i2 < List.length l2 -> i3 < List.length l3 ->
      get X [i1; i2; i3] = nth i1 l1 d /\ get Y [i1; i2; i3] = nth i2 l2 d /\ get Z [i1; i2; i3] = nth i3 l3 d.
Proof. exact @ndgrid_3_arrays. Qed.

Theorem C09_ndgrid_one_axis :
  forall (A : Type) (d : A) (x : nd A) (v : bool),
  ndgrid d (ArgsSep [ArgNdarray x]) v = Ok (GridArray x) /\ ndgrid d (ArgsList [ArgNdarray x]) v = Ok (GridArray x).
Proof. exact @ndgrid_1. Qed.

Example C09_witness :
  ndgrid 0 (ArgsSep [ArgNdarray (of_list 0 [1; 2; 3]); ArgNdarray (of_list 0 [1; 2])]) true
  = Ok (GridRows [[1; 1]; [2; 1]; [3; 1]; [1; 2]; [2; 2]; [3; 2]]).
Proof. reflexivity. Qed.

(** C10 *)
Theorem C10_check_xyz_dim_array :
  forall (A : Type) (a : nd A) (dim : nat),
  (forall s, shape a = s ++ [dim] -> check_xyz_dim (XyzArray a) dim = Ok a) /\
  (forall s k, shape a = s ++ [k] -> k <> dim -> check_xyz_dim (XyzArray a) dim = Raise ValueError) /\
  (shape a = [] -> check_xyz_dim (XyzArray a) dim = Raise IndexError).
Proof. exact @check_array. Qed.

Theorem C10_check_xyz_dim_tuple :
  forall (A : Type) (l : list (nd A)) (s : list nat) (dim : nat),
  l <> [] -> (forall a, In a l -> shape a = s) ->
  (List.length l = dim -> exists r, check_xyz_dim (XyzTuple l) dim = Ok r /\ shape r = s ++ [dim] /\
     forall j ix, j < dim -> List.length ix = List.length s ->
       exists a, nth_error l j = Some a /\ get r (ix ++ [j]) = get a ix) /\
  (List.length l <> dim -> check_xyz_dim (XyzTuple l) dim = Raise ValueError).
Proof. exact @check_tuple. Qed.

Theorem C10_check_xyz_dim_empty_tuple : forall A dim, check_xyz_dim (A := A) (XyzTuple []) dim = Raise ValueError.
Proof. reflexivity. Qed.
Theorem C10_check_xyz_dim_tuple_of_unequal_shapes :
  forall (A : Type) (l : list (nd A)) (a b : nd A) (dim : nat),
  In a l -> In b l -> shape a <> shape b -> check_xyz_dim (XyzTuple l) dim = Raise ValueError.
Proof. exact @check_tuple_mismatch. Qed.

Example C10_witness :
  let l := [of_list 0 [1; 2]; of_list 0 [3; 4]; of_list 0 [5; 6]] in
  l <> [] /\ (forall a, In a l -> shape a = [2]) /\ List.length l = 3.
Proof. cbn. split; [discriminate|]. split; [intros a [<-|[<-|[<-|[]]]]; reflexivity|reflexivity]. Qed.

(** C11 *)
Theorem C11_append_ndim_shape :
  forall (A : Type) (a : nd A) (n : nat), shape (append_ndim a n) = shape a ++ repeat 1 n.
Proof. exact @append_shape. Qed.

Theorem C11_append_ndim_entries :
  forall (A : Type) (a : nd A) (n : nat) (ix : list nat), get (append_ndim a n) (ix ++ repeat 0 n) = get a ix.
Proof. exact @append_get. Qed.

Theorem C11_append_ndim_broadcast :
  forall (A B C : Type) (op : A -> B -> C) (a : nd A) (b : nd B),
  exists r, broadcast_op op (append_ndim a (List.length (shape b))) b = Ok r /\
    shape r = shape a ++ shape b /\
    forall i j, inside (shape a) i -> inside (shape b) j -> get r (i ++ j) = op (get a i) (get b j).
Proof. exact @append_broadcast. Qed.

Example C11_witness : inside (shape (of_list 0 [7; 8])) [1] /\ inside (shape (newaxis (of_list 0 [7; 8; 9]))) [2; 0].
Proof. split; repeat constructor. Qed.

(** C12 *)
Theorem C12_requires_present :
  forall (W Args V : Type) (print : list string -> W -> W) (none : V) (mods : list (string * modval))
         (name : string) (f : pyfun W Args V),
  (forall k m, In (k, m) mods -> m <> MFalse) -> requires print none mods name f = f.
Proof. exact @requires_present. Qed.

Theorem C12_requires_absent :
  forall (W Args V : Type) (print : list string -> W -> W) (none : V) (mods : list (string * modval))
         (name : string) (f g : pyfun W Args V) (k : string),
  In (k, MFalse) mods ->
  requires print none mods name f = requires print none mods name g /\
  exists missing, In k missing /\ (forall x, In x missing <-> In (x, MFalse) mods) /\
    forall args w, requires print none mods name f args w = (Ok none, print [name] (print missing w)).
Proof. exact @requires_absent. Qed.

Example C12_witness : In ("matplotlib"%string, MFalse) [("numpy"%string, MLoaded); ("matplotlib"%string, MFalse)].
Proof. right; left; reflexivity. Qed.

Print Assumptions C08_mkvc_column_major.
Print Assumptions C08_mkvc_every_entry_once.
Print Assumptions C09_ndgrid_two_axes.
Print Assumptions C09_ndgrid_three_axes.
Print Assumptions C09_ndgrid_three_axes_arrays.
Print Assumptions C10_check_xyz_dim_tuple.
Print Assumptions C11_append_ndim_broadcast.
Print Assumptions C12_requires_present.
Print Assumptions C12_requires_absent.
Print Assumptions C08_mkvc_rejects_non_arrays.
Print Assumptions C09_ndgrid_two_axes_arrays.
Print Assumptions C09_ndgrid_one_axis.
Print Assumptions C10_check_xyz_dim_array.
Print Assumptions C10_check_xyz_dim_tuple_of_unequal_shapes.
Print Assumptions C11_append_ndim_shape.
Print Assumptions C11_append_ndim_entries.
Print Assumptions C10_check_xyz_dim_empty_tuple.
