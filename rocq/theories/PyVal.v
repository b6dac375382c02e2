(** Python/numpy values as seen by attribute setters: floats with inf and nan,
    arrays as (shape, C-order data), conversion functions [float], [np.asarray],
    [np.squeeze], [np.atleast_1d/2d]; objects as attribute dictionaries with a
    state-and-exception monad.  In this monad an exception keeps every write made
    before it, as in Python.  External library semantics (trusted base, DESIGN.md);
    rounding and overflow are not modelled (finite floats are exact reals), and
    the two signed zeros are identified. *)
From Coq Require Import Reals Lra List Bool Arith ZArith String.
From Verif Require Import Numpy.
Import ListNotations.
Open Scope R_scope.

(** ** Floats *)
Inductive fl : Type := Fin (r : R) | PInf | NInf | NaN.

Definition fle (a b : fl) : bool :=
  match a, b with
  | NaN, _ | _, NaN => false
  | Fin x, Fin y => Rleb x y
  | NInf, _ => true
  | _, PInf => true
  | _, _ => false
  end.
Definition flt (a b : fl) : bool :=
  match a, b with
  | NaN, _ | _, NaN => false
  | Fin x, Fin y => Rltb x y
  | NInf, NInf => false
  | NInf, _ => true
  | PInf, _ => false
  | Fin _, PInf => true
  | Fin _, NInf => false
  end.
Definition feq (a b : fl) : bool :=
  match a, b with
  | Fin x, Fin y => Reqb x y
  | PInf, PInf => true
  | NInf, NInf => true
  | _, _ => false
  end.
Definition fneg (a : fl) : fl :=
  match a with Fin x => Fin (- x) | PInf => NInf | NInf => PInf | NaN => NaN end.
Definition fadd (a b : fl) : fl :=
  match a, b with
  | Fin x, Fin y => Fin (x + y)
  | NaN, _ | _, NaN => NaN
  | PInf, NInf | NInf, PInf => NaN
  | PInf, _ | _, PInf => PInf
  | NInf, _ | _, NInf => NInf
  end.
Definition fsub (a b : fl) : fl := fadd a (fneg b).
(** infinity of the sign of x, nan for 0 *)
Definition sgninf (x : R) : fl := if Rltb 0 x then PInf else if Rltb x 0 then NInf else NaN.
Definition fmul (a b : fl) : fl :=
  match a, b with
  | Fin x, Fin y => Fin (x * y)
  | NaN, _ | _, NaN => NaN
  | PInf, Fin y | Fin y, PInf => sgninf y
  | NInf, Fin y | Fin y, NInf => fneg (sgninf y)
  | PInf, PInf | NInf, NInf => PInf
  | PInf, NInf | NInf, PInf => NInf
  end.
(** numpy division (never raises) *)
Definition fdiv_np (a b : fl) : fl :=
  match a, b with
  | NaN, _ | _, NaN => NaN
  | Fin x, Fin y => if Reqb y 0 then sgninf x else Fin (x / y)
  | Fin _, _ => Fin 0
  | PInf, Fin y => if Rltb y 0 then NInf else PInf
  | NInf, Fin y => if Rltb y 0 then PInf else NInf
  | _, _ => NaN
  end.
(** Python float division: ZeroDivisionError for a zero divisor *)
Definition fdiv_py (a b : fl) : result fl :=
  match b with
  | Fin y => if Reqb y 0 then Raise ZeroDivisionError else Ok (fdiv_np a b)
  | _ => Ok (fdiv_np a b)
  end.
Definition fsqrt (a : fl) : fl :=
  match a with
  | Fin x => if Rltb x 0 then NaN else Fin (sqrt x)
  | PInf => PInf | NInf => NaN | NaN => NaN
  end.
(** x ** 3 *)
Definition fpow3 (a : fl) : fl := fmul (fmul a a) a.

(** ** Arrays *)
Record arr : Type := mkarr { ashape : list nat; adata : list fl }.
Definition prodn (l : list nat) : nat := fold_right Nat.mul 1%nat l.
(** numpy invariant: as many entries as the shape says *)
Definition wf_arr (a : arr) : Prop := List.length (adata a) = prodn (ashape a).
Definition vec3 (x y z : fl) : arr := mkarr [3%nat] [x; y; z].

Definition squeeze (a : arr) : arr :=
  mkarr (filter (fun n => negb (Nat.eqb n 1)) (ashape a)) (adata a).
Definition atleast_1d (a : arr) : arr :=
  match ashape a with [] => mkarr [1%nat] (adata a) | _ => a end.
Definition atleast_2d (a : arr) : arr :=
  match ashape a with
  | [] => mkarr [1%nat; 1%nat] (adata a)
  | [n] => mkarr [1%nat; n] (adata a)
  | _ => a
  end.
Definition ndim (a : arr) : nat := List.length (ashape a).
(** len(a) for an array of at least one dimension *)
Definition alen (a : arr) : nat := hd 0%nat (ashape a).
Definition amap (f : fl -> fl) (a : arr) : arr := mkarr (ashape a) (map f (adata a)).
Definition shape_is (a : arr) (s : list nat) : bool :=
  if list_eq_dec Nat.eq_dec (ashape a) s then true else false.
(** the last entry along the last axis, a[..., -1], as a list *)
Fixpoint every_nth (k : nat) (i : nat) (l : list fl) : list fl :=
  match l with
  | [] => []
  | x :: r => if Nat.eqb i 0 then x :: every_nth k (k - 1) r else every_nth k (i - 1) r
  end.
Definition last_axis_last (a : arr) : list fl :=
  let k := last (ashape a) 0%nat in every_nth k (k - 1) (adata a).
(** np.linalg.norm of a vector *)
Definition fnorm (l : list fl) : fl :=
  fsqrt (fold_right fadd (Fin 0) (map (fun x => fmul x x) l)).

(** ** Values *)
Inductive pyval : Type :=
| PNone
| PNum (x : fl)                 (* Python int, float, bool *)
| PStr (s : string)
| PArr (a : arr)                (* numpy array or numpy scalar (0-d) *)
| PSeq (c : result arr)         (* list or tuple; c = its conversion by np.asarray *)
| PDate (d : Z)                 (* a datetime instance *)
| POther (e : exn).             (* any other object; conversions raise e *)

Definition wf_val (v : pyval) : Prop :=
  match v with
  | PArr a => wf_arr a
  | PSeq (Ok a) => wf_arr a
  | _ => True
  end.

(** external conversions the setters call *)
Record pyext : Type := mkpyext {
  parse_float : string -> option fl;      (* float("...") *)
  to_str : pyval -> result string;        (* str(v) *)
  to_int : pyval -> result Z;             (* int(v) *)
  to_ints : pyval -> result (list Z);     (* [int(x) for x in v] *)
  to_date : pyval -> result Z             (* _date_time_from_json(v) *)
}.

Definition float_ (py : pyext) (v : pyval) : result fl :=
  match v with
  | PNum x => Ok x
  | PStr s => match parse_float py s with Some x => Ok x | None => Raise ValueError end
  | PArr a => match adata a with [x] => Ok x | _ => Raise TypeError end
  | PNone | PSeq _ | PDate _ => Raise TypeError
  | POther e => Raise e
  end.

(** np.asarray(v, dtype=float); None converts to nan *)
Definition asarray (py : pyext) (v : pyval) : result arr :=
  match v with
  | PNone => Ok (mkarr [] [NaN])
  | PNum x => Ok (mkarr [] [x])
  | PStr s => match parse_float py s with
              | Some x => Ok (mkarr [] [x]) | None => Raise ValueError end
  | PArr a => Ok a
  | PSeq c => c
  | PDate _ => Raise TypeError
  | POther e => Raise e
  end.

(** np.atleast_1d(v).astype(float) *)
Definition atleast_1d_float (py : pyext) (v : pyval) : result arr :=
  rmap atleast_1d (asarray py v).

(** 1 / v in Python *)
Definition one_over (py : pyext) (v : pyval) : result pyval :=
  match v with
  | PNum x => rmap PNum (fdiv_py (Fin 1) x)
  | PArr a => Ok (PArr (amap (fdiv_np (Fin 1)) a))
  | PNone | PStr _ | PSeq _ | PDate _ => Raise TypeError
  | POther e => Raise e
  end.

Definition is_str (v : pyval) : option string :=
  match v with PStr s => Some s | _ => None end.
Definition is_none (v : pyval) : bool := match v with PNone => true | _ => false end.

(** s.upper() (ASCII) *)
Definition upper_ascii (c : Ascii.ascii) : Ascii.ascii :=
  let n := Ascii.nat_of_ascii c in
  if Nat.leb 97 n && Nat.leb n 122 then Ascii.ascii_of_nat (n - 32) else c.
Fixpoint upper (s : string) : string :=
  match s with EmptyString => EmptyString | String c r => String (upper_ascii c) (upper r) end.

(** ** Objects: attribute dictionaries *)
Inductive aval : Type :=
| AFlt (x : fl) | AArr (a : arr) | AStr (s : string) | AInt (z : Z) | AInts (l : list Z)
| ADate (d : Z) | APy (v : pyval).

Definition obj : Type := string -> option aval.
Definition empty_obj : obj := fun _ => None.
Definition upd (o : obj) (k : string) (v : aval) : obj :=
  fun k' => if String.eqb k' k then Some v else o k'.

Definition M (A : Type) : Type := obj -> obj * result A.
Definition ret {A} (a : A) : M A := fun o => (o, Ok a).
Definition raise {A} (e : exn) : M A := fun o => (o, Raise e).
Definition bind {A B} (m : M A) (f : A -> M B) : M B :=
  fun o => match m o with
           | (o', Ok a) => f a o'
           | (o', Raise e) => (o', Raise e)
           end.
Notation "x <-- m ;; k" := (bind m (fun x => k)) (at level 100, m at next level, right associativity).
Notation "m1 ;; m2" := (bind m1 (fun _ => m2)) (at level 100, right associativity).

Definition lift {A} (r : result A) : M A := fun o => (o, r).
(** try: m  except: raise e *)
Definition try_raise {A} (m : M A) (e : exn) : M A :=
  fun o => match m o with (o', Ok a) => (o', Ok a) | (o', Raise _) => (o', Raise e) end.
(** self._k ; AttributeError when missing *)
Definition read (k : string) : M aval :=
  fun o => match o k with Some v => (o, Ok v) | None => (o, Raise AttributeError) end.
(** self._k = v *)
Definition write (k : string) (v : aval) : M unit := fun o => (upd o k v, Ok tt).
Definition check (b : bool) (e : exn) : M unit := if b then raise e else ret tt.
(** typed reads (the code applies float/array operations to what it stored) *)
Definition as_flt (v : aval) : M fl := match v with AFlt x => ret x | _ => raise OtherError end.
Definition as_arr (v : aval) : M arr := match v with AArr x => ret x | _ => raise OtherError end.
Definition read_flt (k : string) : M fl := v <-- read k ;; as_flt v.
Definition read_arr (k : string) : M arr := v <-- read k ;; as_arr v.

(** A property: its name, getter and optional setter; the string argument is the
    name prefix of the (sub-)object the property belongs to. *)
Record prop : Type := mkprop {
  pname : string;
  pget : string -> M aval;
  pset : option (string -> pyval -> M unit)
}.
Definition cls : Type := list prop.

(** attribute lookup: first match, so a subclass lists its own properties first *)
Fixpoint lookup (c : cls) (a : string) : option prop :=
  match c with
  | [] => None
  | q :: r => if String.eqb (pname q) a then Some q else lookup r a
  end.
Definition getattr (c : cls) (p a : string) : M aval :=
  match lookup c a with Some q => pget q p | None => raise AttributeError end.
(** [obj.a = v]; names that are not properties of the class are outside the model *)
Definition setattr (c : cls) (p a : string) (v : pyval) : M unit :=
  match lookup c a with
  | Some q => match pset q with Some f => f p v | None => raise AttributeError end
  | None => raise AttributeError
  end.

(** A user's history of assignments; a rejected one raises and the user carries on *)
Definition history : Type := list (string * pyval).
Fixpoint run_history (c : cls) (h : history) (o : obj) : obj :=
  match h with
  | [] => o
  | (a, v) :: r => run_history c r (fst (setattr c EmptyString a v o))
  end.
(** what reading an attribute gives in state o *)
Definition reads (c : cls) (o : obj) (a : string) : result aval :=
  snd (getattr c EmptyString a o).
