(** Proofs for C105, second part: the classes. *)
From Coq Require Import Reals Lra Lia List Bool Arith ZArith String.
From Verif Require Import Numpy PyVal Model_Setters Spec_Setters Spec_Contracts Proof_Setters Proof_Setters2 Proof_Contracts Model_Construct Spec_Construct Proof_Construct.
Import ListNotations.
Open Scope string_scope.
Open Scope R_scope.

Lemma sane_of k : sane (init_of k).
Proof.
  destruct k; repeat split; try discriminate; try reflexivity; try (intros a I; cbn in I; cbn; tauto).
Qed.
Lemma first_of k : first_names (init_of k) = positional k.
Proof. destruct k; reflexivity. Qed.
Fixpoint nodupb (l : list string) : bool := match l with [] => true | a :: r => negb (mem a r) && nodupb r end.
Lemma nodupb_ok l : nodupb l = true -> NoDup l.
Proof.
  induction l as [|a l IH]; simpl; [constructor|]. intros H. apply andb_true_iff in H as [H1 H2].
  apply negb_true_iff, mem_not in H1. constructor; auto.
Qed.
Lemma nodup_of k : NoDup (wnames (init_of k)).
Proof. apply nodupb_ok. destruct k; reflexivity. Qed.
Definition subset (l1 l2 : list string) : bool := forallb (fun a => mem a l2) l1.
Lemma subset_ok l1 l2 : subset l1 l2 = true -> forall a, In a l1 -> In a l2.
Proof. intros H a I. unfold subset in H. rewrite forallb_forall in H. now apply mem_In, H. Qed.
Lemma in_keys (A : Type) a (l : list (string * A)) : In a (map fst l) <-> exists d, In (a, d) l.
Proof.
  rewrite in_map_iff. split.
  - intros [[b d] [E I]]. simpl in E. subst. now exists d.
  - intros [d I]. now exists (a, d).
Qed.
Lemma accepted_of k a : In a (accepted (init_of k)) <-> exists d, In (a, d) (arguments k).
Proof.
  rewrite <- in_keys. split; apply subset_ok; destruct k; reflexivity.
Qed.
Lemma written_of k a : (exists d, In (a, d) (arguments k)) <-> In a (wnames (init_of k)).
Proof.
  rewrite <- in_keys. split; apply subset_ok; destruct k; reflexivity.
Qed.
Definition fill (k : class) (g : getter) (a : string) (d : argument) : option pyval :=
  let default := match d with Default v => Some v | _ => None end in
  match g a with
  | Some v => if (is_none v && none_is_default k a)%bool then default else Some v
  | None => default
  end.
Lemma value_of k g a d : In (a, d) (arguments k) -> value (init_of k) g a = fill k g a d.
Proof.
  intros I. destruct k; cbn in I;
  repeat (match type of I with _ \/ _ => destruct I as [I|I]; [inversion I; subst; clear I|] end); try contradiction;
  lazy -[Rmult Rdiv Rinv PI IZR sqrt Rplus];
  match goal with |- context [g ?x] => destruct (g x) as [[]|]; reflexivity end.
Qed.
Lemma complete_of k g : complete (init_of k) g <-> forall a, In (a, Required) (arguments k) -> g a <> None.
Proof.
  split.
  - intros C a I. destruct k; cbn in I;
    repeat (match type of I with _ \/ _ => destruct I as [I|I]; [first [discriminate I|inversion I; subst; clear I]|] end); try contradiction;
    match goal with |- g ?x <> None => first
      [ apply (proj1 C x); cbn; tauto
      | let H := fresh in pose proof (proj1 (proj2 C) x (or_introl eq_refl)) as H; lazy -[not Rmult Rdiv Rinv PI IZR sqrt Rplus] in H;
        destruct (g x); congruence
      | let H := fresh in pose proof (proj1 (proj2 (proj2 C)) x (or_introl eq_refl)) as H; lazy -[not Rmult Rdiv Rinv PI IZR sqrt Rplus] in H;
        destruct (g x); congruence ] end.
  - intros C. destruct k;
    repeat match goal with |- complete _ _ => split | |- True => exact I end;
    intros a J; cbn in J;
    repeat (match type of J with _ \/ _ => destruct J as [J|J]; [first [discriminate J|inversion J; subst; clear J]|] end); try contradiction;
    lazy -[not Rmult Rdiv Rinv PI IZR sqrt Rplus];
    match goal with |- context [g ?x] =>
      let H := fresh in assert (H : g x <> None) by (apply C; cbn; tauto); destruct (g x); congruence end.
Qed.
(** no later assignment disturbs what an earlier one stored *)
Lemma after_in a b l : In b (after_name a l) -> In b l.
Proof. induction l as [|c l IH]; simpl; [tauto|]. destruct (String.eqb c a); [tauto|]. tauto. Qed.
Lemma after_neq a b l : NoDup l -> In b (after_name a l) -> b <> a.
Proof.
  induction l as [|c l IH]; simpl; [tauto|]. intros N I. inversion N as [|? ? P Q]; subst.
  destruct (String.eqb c a) eqn:E; [|now apply IH]. apply String.eqb_eq in E. subst c. intros ->. contradiction.
Qed.
Lemma names_known k b : In b (wnames (init_of k)) ->
  (exists r, In (b, r) (rules_of (kind_of k))) \/ (k = CSphere /\ b = "mass") \/ (k = COksar /\ b = "depth_bottom").
Proof.
  intros I. rewrite <- in_keys.
  destruct k; first [ left; revert b I; apply subset_ok; reflexivity | idtac ].
  - cbn in I. cbn. intuition.
  - cbn in I. cbn. intuition.
Qed.
Lemma not_disturbed k a r b : In (a, r) (rules_of (kind_of k)) -> In b (after_name a (wnames (init_of k))) ->
  ~ depends_on (kind_of k) a b.
Proof.
  intros I J D. assert (I' : mem a (map fst (rules_of (kind_of k))) = true).
  { apply mem_In, in_keys. now exists r. }
  apply mem_In in J. clear I.
  destruct D as [[-> ->]|[[K [-> D]]|[[-> D]|[[-> D]|[K [-> ->]]]]]].
  - destruct k; discriminate J.
  - destruct k; discriminate.
  - destruct D as [-> | ->]; destruct k; discriminate J.
  - destruct k; discriminate I'.
  - destruct k; discriminate J.
Qed.
Lemma settled py k a r b : In (a, r) (rules_of (kind_of k)) -> In b (after_name a (wnames (init_of k))) ->
  harmless py (kind_of k) b a.
Proof.
  intros I J. pose proof (after_neq a b _ (nodup_of k) J) as N.
  destruct (names_known k b (after_in _ _ _ J)) as [[q Q]|[[-> ->]|[-> ->]]].
  - apply rule_harmless with (r := q); [exact Q|congruence|]. now apply not_disturbed with (r := r).
  - apply mass_harmless; [congruence|]. intros ->. cbn in J. intuition discriminate.
  - apply bottom_harmless. congruence.
Qed.
