(** Specification vocabulary for C35. *)
From Coq Require Import Reals List Bool Arith String.
From Verif Require Import Model_Alias.
Import ListNotations.
Open Scope R_scope.

(** the caller only touches arrays they own, numbered below n *)
Definition callers (n : nat) (x : step) : Prop :=
  match x with Assign _ _ (CFloatArr l) => (l < n)%nat | Assign _ _ _ => True | Write l _ => (l < n)%nat end.
(** no float64 array is handed to a setter that keeps it *)
Definition no_float_array_kept (x : step) : Prop :=
  match x with Assign m _ (CFloatArr _) => m = Copies | _ => True end.
(** contents of the caller's arrays if only the caller writes to them *)
Fixpoint only_caller_writes (p : list step) (h : nat -> list R) : nat -> list R :=
  match p with
  | [] => h
  | Write l d :: r => only_caller_writes r (hset h l d)
  | Assign _ _ _ :: r => only_caller_writes r h
  end.
Definition value_now (h : nat -> list R) (v : cval) : list R :=
  match v with CFloatArr l => h l | CConverted d => d end.
Definition stored_value (m : mode) (d : list R) : list R :=
  match m with Normalises => scaled d | _ => d end.
(** value attribute k should read: the value it was given last, as it was at that moment *)
Fixpoint last_assigned (p : list step) (k : string) (h : nat -> list R) (cur : option (list R)) : option (list R) :=
  match p with
  | [] => cur
  | Write l d :: r => last_assigned r k (hset h l d) cur
  | Assign m k' v :: r =>
      last_assigned r k h (if String.eqb k k' then Some (stored_value m (value_now h v)) else cur)
  end.
