(** Vocabulary of C133. *)
From Coq Require Import Reals List String.
From Verif Require Import Model_Alias Model_Alias2.
Open Scope R_scope.

(** the two electrodes own their node arrays, buffers [lp] and [li]; no other attribute refers to them *)
Definition facade (lp li : nat) (s : state) : Prop :=
  attr s pnodes = Some lp /\ attr s inodes = Some li /\ lp <> li /\ (lp < next s)%nat /\ (li < next s)%nat /\
  (forall k l, attr s k = Some l -> k <> pnodes -> k <> inodes -> l <> lp /\ l <> li).
(** the caller never touches the private node arrays *)
Definition reaches (lp li : nat) (m : mutation) : Prop :=
  match m with MWrite l _ | MItem l _ _ => l <> lp /\ l <> li | MPoke k _ _ => k <> pnodes /\ k <> inodes end.

