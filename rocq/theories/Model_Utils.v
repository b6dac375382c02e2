(** Model of geoana/utils.py.  Arrays are n-dimensional: a shape and an entry for
    every index; only indices inside the shape are meaningful. *)
From Coq Require Import List Bool Arith String.
From Verif Require Import Numpy.
Import ListNotations.
Open Scope nat_scope.

Section Arrays.
Context {A : Type}.

Record nd : Type := ND { shape : list nat; get : list nat -> A }.

Definition size (s : list nat) : nat := fold_right Nat.mul 1 s.

(** indices of a shape, the first axis varying fastest (numpy order='F') *)
Fixpoint indices_F (s : list nat) : list (list nat) :=
  match s with
  | [] => [[]]
  | n :: s' => flat_map (fun tl => map (fun i => i :: tl) (seq 0 n)) (indices_F s')
  end.

(** ndarray.flatten(order='F') *)
Definition flatten_F (a : nd) : list A := map (get a) (indices_F (shape a)).

(** a 1-d array from a list; entries outside read as the default [d] *)
Definition of_list (d : A) (l : list A) : nd :=
  ND [List.length l] (fun ix => match ix with [i] => nth i l d | _ => d end).

(** [arr[..., None]] : one trailing axis of length 1 *)
Definition newaxis (a : nd) : nd := ND (shape a ++ [1]) (fun ix => get a (removelast ix)).

(** utils.py l.207-210 *)
Definition append_ndim (a : nd) (ndim : nat) : nd := Nat.iter ndim newaxis a.

(** What a user can pass where an array is expected *)
Inductive arr_arg : Type :=
| ArgNdarray (a : nd)
| ArgMatrix (a : nd)       (* numpy.matrix *)
| ArgOther.                (* anything else, e.g. a list or a float *)

(** utils.py l.80-90; n_dims outside 1..3 falls through and returns None *)
Definition mkvc (d : A) (x : arr_arg) (n_dims : nat) : result (option nd) :=
  match x with
  | ArgOther => Raise AssertionError
  | ArgNdarray a | ArgMatrix a =>
      let v := of_list d (flatten_F a) in
      match n_dims with
      | 1 => Ok (Some v)
      | 2 => Ok (Some (newaxis v))
      | 3 => Ok (Some (newaxis (newaxis v)))
      | _ => Ok None
      end
  end.

(** ** numpy broadcasting (library semantics) *)
Fixpoint bshape_rev (s t : list nat) : option (list nat) :=
  match s, t with
  | [], t => Some t
  | s, [] => Some s
  | a :: s', b :: t' =>
      match bshape_rev s' t' with
      | None => None
      | Some u => if Nat.eqb a b then Some (a :: u)
                  else if Nat.eqb a 1 then Some (b :: u)
                  else if Nat.eqb b 1 then Some (a :: u)
                  else None
      end
  end.
Definition bshape (s t : list nat) : option (list nat) := option_map (@rev nat) (bshape_rev (rev s) (rev t)).

(** the index of the source array read by index [ix] of the broadcast result *)
Fixpoint bindex_rev (s ix : list nat) : list nat :=
  match s, ix with
  | n :: s', i :: ix' => (if Nat.eqb n 1 then 0 else i) :: bindex_rev s' ix'
  | _, _ => []
  end.
Definition bindex (s ix : list nat) : list nat := rev (bindex_rev (rev s) (rev ix)).
Definition broadcast_to (out : list nat) (a : nd) : nd := ND out (fun ix => get a (bindex (shape a) ix)).

Definition broadcast_arrays2 (a b : nd) : result (nd * nd) :=
  match bshape (shape a) (shape b) with
  | None => Raise ValueError
  | Some s => Ok (broadcast_to s a, broadcast_to s b)
  end.
Definition broadcast_arrays3 (a b c : nd) : result (nd * nd * nd) :=
  match bshape (shape a) (shape b) with
  | None => Raise ValueError
  | Some s => match bshape s (shape c) with
              | None => Raise ValueError
              | Some t => Ok (broadcast_to t a, broadcast_to t b, broadcast_to t c)
              end
  end.

(** np.c_ on 1-d arrays of equal length: rows *)
Definition c_2 (x y : list A) : list (list A) := map (fun p => [fst p; snd p]) (combine x y).
Definition c_3 (x y z : list A) : list (list A) :=
  map (fun p => [fst (fst p); snd (fst p); snd p]) (combine (combine x y) z).

Inductive ndgrid_out : Type :=
| GridNone                          (* falls through: None *)
| GridArray (a : nd)                (* one input: returned unchanged *)
| GridRows (rows : list (list A))   (* vector=True: a 2-d array *)
| GridArrays (l : list nd).         (* vector=False: a tuple of arrays *)

(** what comes after [ndgrid(]: one list of arrays or separate arrays *)
Inductive ndgrid_args : Type := ArgsList (l : list arr_arg) | ArgsSep (l : list arr_arg).

Fixpoint all_ndarrays (l : list arr_arg) : result (list nd) :=
  match l with
  | [] => Ok []
  | ArgNdarray a :: l' | ArgMatrix a :: l' => rmap (cons a) (all_ndarrays l')
  | ArgOther :: _ => Raise AssertionError
  end.

(** utils.py l.128-161 ([kwargs] only holds [vector], a bool) *)
Definition ndgrid (d : A) (args : ndgrid_args) (vector : bool) : result ndgrid_out :=
  do xin <- match args with
            | ArgsList l => all_ndarrays l
            | ArgsSep [] => Raise IndexError
            | ArgsSep l => all_ndarrays l
            end;
  match xin with
  | [x1] => Ok (GridArray x1)
  | [x1; x2] =>
      let v2 := of_list d (flatten_F x2) in
      let v1 := newaxis (of_list d (flatten_F x1)) in
      do XY <- broadcast_arrays2 v2 v1;
      if vector then
        let X2 := flatten_F (fst XY) in
        let X1 := flatten_F (snd XY) in
        Ok (GridRows (c_2 X1 X2))
      else Ok (GridArrays [snd XY; fst XY])
  | [x1; x2; x3] =>
      let v3 := of_list d (flatten_F x3) in
      let v2 := newaxis (of_list d (flatten_F x2)) in
      let v1 := newaxis (newaxis (of_list d (flatten_F x1))) in
      do XYZ <- broadcast_arrays3 v3 v2 v1;
      if vector then
        let X3 := flatten_F (fst (fst XYZ)) in
        let X2 := flatten_F (snd (fst XYZ)) in
        let X1 := flatten_F (snd XYZ) in
        Ok (GridRows (c_3 X1 X2 X3))
      else Ok (GridArrays [snd XYZ; snd (fst XYZ); fst (fst XYZ)])
  | _ => Ok GridNone
  end.

(** ** check_xyz_dim *)
(** [xyz]: a tuple of arrays, an array (or something np.asarray turns into a float
    array), or something np.asarray(dtype=float) rejects with exception [e] *)
Inductive xyz_arg : Type :=
| XyzTuple (l : list nd)
| XyzArray (a : nd)
| XyzBad (e : exn).

Definition shape_eqb (s t : list nat) : bool := if list_eq_dec Nat.eq_dec s t then true else false.

(** np.stack(arrays, axis=-1) *)
Definition stack_last (l : list nd) : result nd :=
  match l with
  | [] => Raise ValueError
  | a :: _ =>
      if forallb (fun b => shape_eqb (shape b) (shape a)) l
      then Ok (ND (shape a ++ [List.length l])
                  (fun ix => get (nth (last ix 0) l a) (removelast ix)))
      else Raise ValueError
  end.

(** utils.py l.184-191; the last axis of a 0-d array is an IndexError *)
Definition check_xyz_dim (xyz : xyz_arg) (dim : nat) : result nd :=
  do a <- match xyz with
          | XyzTuple l => stack_last l
          | XyzArray a => Ok a
          | XyzBad e => Raise e
          end;
  match rev (shape a) with
  | [] => Raise IndexError
  | k :: _ => if negb (Nat.eqb k dim) then Raise ValueError else Ok a
  end.
End Arrays.
Arguments nd : clear implicits.
Arguments arr_arg : clear implicits.
Arguments xyz_arg : clear implicits.
Arguments ndgrid_out : clear implicits.
Arguments ndgrid_args : clear implicits.

(** elementwise binary operation with broadcasting *)
Definition broadcast_op {A B C : Type} (op : A -> B -> C) (a : nd A) (b : nd B) : result (nd C) :=
  match bshape (shape a) (shape b) with
  | None => Raise ValueError
  | Some s => Ok (ND s (fun ix => op (get a (bindex (shape a) ix)) (get b (bindex (shape b) ix))))
  end.

(** ** requires *)
(** A module entry is the object [False] or something else. *)
Inductive modval : Type := MFalse | MLoaded.
Definition modval_is_false (m : modval) : bool := match m with MFalse => true | MLoaded => false end.

(** A Python function: it acts on a world and returns a value (or raises). *)
Definition pyfun (W Args V : Type) : Type := Args -> W -> result V * W.

(** utils.py l.234-252; [print] is the effect of printing a line, [none] is None,
    [name] is function.__name__; a line is the list of its variable parts *)
Definition requires {W Args V : Type} (print : list string -> W -> W) (none : V)
    (modules : list (string * modval)) (name : string) (f : pyfun W Args V) : pyfun W Args V :=
  let missing := map fst (filter (fun kv => modval_is_false (snd kv)) modules) in
  match missing with
  | [] => f
  | _ => fun _ w => (Ok none, print [name] (print missing w))
  end.
