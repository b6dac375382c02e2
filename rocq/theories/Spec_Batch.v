(** What "an array evaluation is the evaluation of its points" means. *)
From Coq Require Import String List.
From Verif Require Import Numpy Model_Static.
Import ListNotations.

(** A returned array has one entry for every point, in the order of the points, and each is what
    the routine returns for that point alone; if the routine raises, it raises the same for some
    point alone. *)
Definition pointwise {P A : Type} (f : list P -> result (list A)) : Prop :=
  forall xs, xs <> [] ->
  match f xs with
  | Ok vs => Forall2 (fun p v => f [p] = Ok [v]) xs vs
  | Raise e => exists p, In p xs /\ f [p] = Raise e
  end.

(** The same for the sphere routines, which return one array or the three arrays total, primary
    and secondary, depending on [field]. *)
Definition pointwise_fields {P A : Type} (f : list P -> string -> result (fields A)) : Prop :=
  forall xs field,
  match f xs field with
  | Ok (One vs) => Forall2 (fun q v => f [q] field = Ok (One [v])) xs vs
  | Ok (Three t p s) =>
      Forall2 (fun q v => exists b c, f [q] field = Ok (Three [v] b c)) xs t /\
      Forall2 (fun q v => exists a c, f [q] field = Ok (Three a [v] c)) xs p /\
      Forall2 (fun q v => exists a b, f [q] field = Ok (Three a b [v])) xs s
  | Raise _ => False
  end.
