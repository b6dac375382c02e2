(** In-place writes through the arrays that getters return, and the half-space electrode facade, on the heap of Model_Alias. *)
From Coq Require Import Reals List Bool Arith String.
From Verif Require Import Model_Alias.
Import ListNotations.
Open Scope string_scope.
Open Scope R_scope.

(** [obj.k] returns the stored array itself (e.g. em/fdem/base.py l.194-203: [return self._frequency]): a buffer *)
Definition getter (s : state) (k : string) : option nat := attr s k.
(** replace entry [i] *)
Fixpoint put (d : list R) (i : nat) (x : R) : list R :=
  match d, i with
  | [], _ => []
  | _ :: d', O => x :: d'
  | y :: d', S j => y :: put d' j x
  end.
(** [a[i] = x] on an array the caller can reach *)
Definition item_write (l i : nat) (x : R) (s : state) : state := mkst (hset (heap s) l (put (heap s l) i x)) (next s) (attr s).
(** [obj.k[i] = x] *)
Definition poke (k : string) (i : nat) (x : R) (s : state) : state :=
  match getter s k with Some l => item_write l i x s | None => s end.

(** em/fdem/base.py l.205-219, em/tdem/base.py l.163-178: assignment with its check, for a 1-d argument; [None]: ValueError *)
Definition contents (s : state) (v : cval) : list R := match v with CFloatArr l => heap s l | CConverted d => d end.
Definition set_samples (k : string) (v : cval) (s : state) : option state :=
  if existsb (fun x => if Rlt_dec x 0 then true else false) (contents s v) then None else Some (assign Keeps k v s).

(** em/static/halfspace.py l.29-40: the two electrodes own (1,3) node arrays *)
Definition pnodes : string := "_primary.nodes".
Definition inodes : string := "_image.nodes".
(** [vec[-1] *= -1] for a vector of three numbers, l.124 *)
Definition flip_z (d : list R) : list R := match d with [x; y; z] => [x; y; - z] | _ => d end.
(** em/static/wholespace.py l.1125: [self.nodes[0] = vec] copies the three numbers *)
Definition write_nodes (k : string) (d : list R) (s : state) : state :=
  match attr s k with Some l => mkst (hset (heap s) l d) (next s) (attr s) | None => s end.
(** em/static/halfspace.py l.102-125 for three finite numbers; [None]: the ValueError of a location above the surface *)
Definition hs_set_location (v : cval) (s : state) : option state :=
  if Rlt_dec 0 (nth 2 (contents s v) 0) then None else
  let (s1, l) := np_astype s v in
  let s2 := store s1 "_location" l in
  let s3 := write_nodes pnodes (heap s2 l) s2 in
  let (s4, l') := alloc s3 (heap s3 l) in
  let s5 := mkst (hset (heap s4) l' (flip_z (heap s4 l'))) (next s4) (attr s4) in
  Some (write_nodes inodes (heap s5 l') s5).

(** what the caller can do with arrays: write a whole array, write an entry of one, write an entry through an attribute of the object *)
Inductive mutation : Type := MWrite (l : nat) (d : list R) | MItem (l i : nat) (x : R) | MPoke (k : string) (i : nat) (x : R).
Definition mutate (m : mutation) (s : state) : state :=
  match m with MWrite l d => caller_writes l d s | MItem l i x => item_write l i x s | MPoke k i x => poke k i x s end.
Fixpoint mutates (ms : list mutation) (s : state) : state := match ms with [] => s | m :: r => mutates r (mutate m s) end.
