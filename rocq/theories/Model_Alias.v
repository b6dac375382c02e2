(** Which array an attribute refers to after an assignment: heap model for the
    setters that store arrays.  Simplifications: only accepted assignments of finite
    vectors are followed (rejections are in Model_Setters.v); shapes and views that
    keep the data (np.squeeze, np.atleast_2d) are identified with the array itself,
    since they share its buffer; np.float64 arrays are writeable. *)
From Coq Require Import Reals List Bool Arith String.
Import ListNotations.
Open Scope string_scope.
Open Scope R_scope.

(** what the caller passes: their own float64 array (a buffer), or anything that
    np.asarray(.., dtype=float) has to convert (list, tuple, integer array, scalar) *)
Inductive cval : Type := CFloatArr (l : nat) | CConverted (data : list R).

(** buffers; [next] is the first unused one; attributes hold buffer numbers *)
Record state : Type := mkst { heap : nat -> list R; next : nat; attr : string -> option nat }.

Definition hset (h : nat -> list R) (l : nat) (d : list R) : nat -> list R :=
  fun l' => if Nat.eqb l' l then d else h l'.
Definition aset (f : string -> option nat) (k : string) (l : nat) : string -> option nat :=
  fun k' => if String.eqb k' k then Some l else f k'.

(** a new array *)
Definition alloc (s : state) (d : list R) : state * nat :=
  (mkst (hset (heap s) (next s) d) (S (next s)) (attr s), next s).
(** numpy np.asarray(v, dtype=float): the very array when it is already float64 *)
Definition np_asarray (s : state) (v : cval) : state * nat :=
  match v with CFloatArr l => (s, l) | CConverted d => alloc s d end.
(** numpy np.atleast_1d(v).astype(float): always a new array *)
Definition np_astype (s : state) (v : cval) : state * nat :=
  match v with CFloatArr l => alloc s (heap s l) | CConverted d => alloc s d end.
Definition store (s : state) (k : string) (l : nat) : state :=
  mkst (heap s) (next s) (aset (attr s) k l).
Definition norm2 (d : list R) : R := sqrt (fold_right Rplus 0 (map (fun x => x * x) d)).
Definition scaled (d : list R) : list R := map (fun x => x / norm2 d) d.

(** how the setter of an array attribute treats its argument *)
Inductive mode : Type :=
| Keeps        (* asarray, stored as it is:
                  em/base.py l.170-183 (location), l.474-488 (nodes); gravity.py l.86-100 (location);
                  shapes.py l.56-70, l.83-97 (min_location, max_location); em/static/freespace.py l.46-63
                  (magnetization); em/fdem/base.py l.205-225 (frequency); em/tdem/base.py l.163-183 (time) *)
| Normalises   (* asarray, then [var /= norm] in place:
                  em/base.py l.196-224; em/fdem/wholespace.py l.975-1003; em/tdem/wholespace.py l.652-680 *)
| Copies.      (* astype: em/static/sphere.py l.109-121, l.134-147, l.619-632, l.645-658;
                  em/static/halfspace.py l.98-122, l.419-438, l.451-470 *)

(** [obj.k = v] *)
Definition assign (m : mode) (k : string) (v : cval) (s : state) : state :=
  match m with
  | Keeps => let (s1, l) := np_asarray s v in store s1 k l
  | Normalises => let (s1, l) := np_asarray s v in
      store (mkst (hset (heap s1) l (scaled (heap s1 l))) (next s1) (attr s1)) k l
  | Copies => let (s1, l) := np_astype s v in store s1 k l
  end.
(** em/static/wholespace.py l.1113-1125: [self.nodes[0] = vec] writes into the stored
    (n,3) array *)
Definition assign_point_location (v : list R) (s : state) : state :=
  match attr s "nodes" with
  | Some l => mkst (hset (heap s) l (v ++ skipn 3 (heap s l))%list) (next s) (attr s)
  | None => s
  end.
(** the caller overwrites one of their own arrays: a[...] = d *)
Definition caller_writes (l : nat) (d : list R) (s : state) : state :=
  mkst (hset (heap s) l d) (next s) (attr s).
(** what the attribute reads *)
Definition reads_attr (s : state) (k : string) : option (list R) :=
  match attr s k with Some l => Some (heap s l) | None => None end.
(** em/base.py l.153: the default [location=np.r_[0.,0.,0.]] is evaluated once, when the
    module is imported, so every dipole built without a location receives the same array;
    [k] names the location attribute of the new object, [dflt] is that array *)
Definition new_dipole_default_location (k : string) (dflt : nat) (s : state) : state :=
  assign Keeps k (CFloatArr dflt) s.

(** a program: assignments and writes by the caller to arrays that exist already *)
Inductive step : Type := Assign (m : mode) (k : string) (v : cval) | Write (l : nat) (d : list R).
Definition do_step (x : step) (s : state) : state :=
  match x with Assign m k v => assign m k v s | Write l d => caller_writes l d s end.
Fixpoint run (p : list step) (s : state) : state :=
  match p with [] => s | x :: r => run r (do_step x s) end.
