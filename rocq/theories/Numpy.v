(** Model of the small part of Python/numpy semantics the code relies on:
    exceptions as values, boolean comparison of reals, boolean masks.
    (External library semantics: part of the trusted base, see DESIGN.md.) *)
From Coq Require Import Reals Lra List Bool Arith Lia.
Import ListNotations.
Open Scope R_scope.

(** ** Exceptions *)
Inductive exn : Type :=
| TypeError | ValueError | AttributeError | NameError | IndexError
| ZeroDivisionError | AssertionError | KeyError | OtherError.

Inductive result (A : Type) : Type :=
| Ok (a : A)
| Raise (e : exn).
Arguments Ok {A} a.
Arguments Raise {A} e.

Definition rbind {A B} (r : result A) (f : A -> result B) : result B :=
  match r with Ok a => f a | Raise e => Raise e end.
Definition rmap {A B} (f : A -> B) (r : result A) : result B :=
  match r with Ok a => Ok (f a) | Raise e => Raise e end.
Notation "'do' x <- r ; k" := (rbind r (fun x => k)) (at level 200, x name, r at level 100, k at level 200).

(** ** Comparisons on exact reals *)
Definition Rltb (x y : R) : bool := if Rlt_dec x y then true else false.
Definition Rleb (x y : R) : bool := if Rle_dec x y then true else false.
Definition Reqb (x y : R) : bool := if Req_EM_T x y then true else false.

Lemma Rltb_true x y : Rltb x y = true <-> x < y.
Proof. unfold Rltb; destruct (Rlt_dec x y); split; intros; try easy. Qed.
Lemma Rltb_false x y : Rltb x y = false <-> y <= x.
Proof. unfold Rltb; destruct (Rlt_dec x y); split; intros; try easy; lra. Qed.
Lemma Rleb_true x y : Rleb x y = true <-> x <= y.
Proof. unfold Rleb; destruct (Rle_dec x y); split; intros; try easy. Qed.
Lemma Rleb_false x y : Rleb x y = false <-> y < x.
Proof. unfold Rleb; destruct (Rle_dec x y); split; intros; try easy; lra. Qed.
Lemma Reqb_true x y : Reqb x y = true <-> x = y.
Proof. unfold Reqb; destruct (Req_EM_T x y); split; intros; try easy. Qed.
Lemma Reqb_false x y : Reqb x y = false <-> x <> y.
Proof. unfold Reqb; destruct (Req_EM_T x y); split; intros; try easy. Qed.

(** ** Boolean masks on (C-order ravelled) arrays: [a[mask]] and [a[mask] = vals] *)
Fixpoint mask_select {A} (m : list bool) (a : list A) : list A :=
  match m, a with
  | b :: m', x :: a' => if b then x :: mask_select m' a' else mask_select m' a'
  | _, _ => []
  end.

(** [a[mask] = vals]: numpy raises ValueError when the number of values differs
    from the number of True entries (scalar broadcasting is [mask_fill]) *)
Fixpoint mask_assign {A} (m : list bool) (a vals : list A) : result (list A) :=
  match m, a with
  | b :: m', x :: a' =>
      if b then
        match vals with
        | v :: vals' => rmap (cons v) (mask_assign m' a' vals')
        | [] => Raise ValueError
        end
      else rmap (cons x) (mask_assign m' a' vals)
  | [], [] => match vals with [] => Ok [] | _ => Raise ValueError end
  | _, _ => Raise IndexError
  end.

(** [a[mask] = scalar] *)
Fixpoint mask_fill {A} (m : list bool) (a : list A) (v : A) : result (list A) :=
  match m, a with
  | b :: m', x :: a' => rmap (cons (if b then v else x)) (mask_fill m' a' v)
  | [], [] => Ok []
  | _, _ => Raise IndexError
  end.

(** Pointwise semantics of a masked update [a[mask] = f(b[mask])] *)
Lemma mask_assign_pointwise {A B : Type} (p : B -> bool) (f : B -> A) (g : B -> A) (xs : list B) :
  mask_assign (map p xs) (map g xs) (map f (mask_select (map p xs) xs))
  = Ok (map (fun x => if p x then f x else g x) xs).
Proof.
  induction xs as [|x xs IH]; simpl; [reflexivity|].
  destruct (p x); simpl; rewrite IH; reflexivity.
Qed.

(** ... where the selected operand is itself computed from [xs] *)
Lemma mask_select_map {A B : Type} (m : list bool) (h : B -> A) (xs : list B) :
  mask_select m (map h xs) = map h (mask_select m xs).
Proof.
  revert m; induction xs as [|x xs IH]; intros [|b m]; simpl; try reflexivity.
  destruct b; simpl; rewrite IH; reflexivity.
Qed.

Lemma mask_fill_pointwise {A B : Type} (p : B -> bool) (v : A) (g : B -> A) (xs : list B) :
  mask_fill (map p xs) (map g xs) v = Ok (map (fun x => if p x then v else g x) xs).
Proof.
  induction xs as [|x xs IH]; simpl; [reflexivity|].
  rewrite IH; reflexivity.
Qed.

Lemma map_repeat_const {A B : Type} (c : A) (xs : list B) : repeat c (length xs) = map (fun _ => c) xs.
Proof. induction xs; simpl; [reflexivity | f_equal; exact IHxs]. Qed.

(** the value a vectorised routine returns at a single point ([d] if it raises) *)
Definition eval1 {P A : Type} (d : A) (f : list P -> result (list A)) (p : P) : A :=
  match f [p] with Ok [a] => a | _ => d end.
