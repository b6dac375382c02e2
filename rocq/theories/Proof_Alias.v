(** Aliasing between the caller's arrays and the attributes (C35). *)
From Coq Require Import Reals Lra Lia List Bool Arith String.
From Verif Require Import Model_Alias Spec_Alias.
Import ListNotations.
Open Scope string_scope.
Open Scope R_scope.

Definition ok_state (n : nat) (s : state) : Prop :=
  (n <= next s)%nat /\ forall k l, attr s k = Some l -> (n <= l < next s)%nat.

Lemma hset_same h l d : hset h l d l = d.
Proof. unfold hset. rewrite Nat.eqb_refl. reflexivity. Qed.
Lemma hset_other h l d l' : l' <> l -> hset h l d l' = h l'.
Proof. unfold hset. intros N. apply Nat.eqb_neq in N. rewrite N. reflexivity. Qed.

Lemma assign_fresh n m k v s : ok_state n s -> callers n (Assign m k v) -> no_float_array_kept (Assign m k v) ->
  ok_state n (assign m k v s) /\
  (forall l, (l < n)%nat -> heap (assign m k v s) l = heap s l) /\
  (forall k', reads_attr (assign m k v s) k' =
     if String.eqb k' k then Some (stored_value m (value_now (heap s) v)) else reads_attr s k').
Proof.
  intros (N&A) C F.
  assert (B : exists d, assign m k v s = mkst (hset (hset (heap s) (next s) (value_now (heap s) v)) (next s) d) (S (next s)) (aset (attr s) k (next s))
     /\ d = stored_value m (value_now (heap s) v) \/
     assign m k v s = mkst (hset (heap s) (next s) d) (S (next s)) (aset (attr s) k (next s)) /\ d = stored_value m (value_now (heap s) v)).
  { destruct v as [l|d]; destruct m; simpl in F; try discriminate; simpl; eexists; first [right; split; reflexivity|left; split; [reflexivity|]].
    rewrite hset_same. reflexivity. }
  destruct B as (d&B).
  assert (Bh : forall l, heap (assign m k v s) l = if Nat.eqb l (next s) then stored_value m (value_now (heap s) v) else heap s l).
  { intros l. destruct B as [[-> ->]|[-> ->]]; simpl; unfold hset; destruct (Nat.eqb l (next s)); reflexivity. }
  assert (Ba : attr (assign m k v s) = aset (attr s) k (next s)) by (destruct B as [[-> _]|[-> _]]; reflexivity).
  assert (Bn : next (assign m k v s) = S (next s)) by (destruct B as [[-> _]|[-> _]]; reflexivity).
  split; [|split].
  - split; [lia|]. intros k' l. rewrite Ba, Bn. unfold aset. destruct (String.eqb k' k).
    + intros E; injection E as <-. lia.
    + intros E; apply A in E. lia.
  - intros l L. rewrite Bh. destruct (Nat.eqb_spec l (next s)); [lia|auto].
  - intros k'. unfold reads_attr. rewrite Ba. unfold aset. destruct (String.eqb k' k).
    + rewrite Bh, Nat.eqb_refl. reflexivity.
    + destruct (attr s k') as [l|] eqn:E; auto. apply A in E. rewrite Bh. destruct (Nat.eqb_spec l (next s)); [lia|auto].
Qed.
Lemma write_ok n l d s : ok_state n s -> (l < n)%nat ->
  ok_state n (caller_writes l d s) /\ (forall k, reads_attr (caller_writes l d s) k = reads_attr s k).
Proof.
  intros (N&A) L. split; [split; simpl; auto|]. intros k. unfold reads_attr; simpl.
  destruct (attr s k) as [l'|] eqn:E; auto. apply A in E. rewrite hset_other; auto. lia.
Qed.

Lemma last_assigned_ext n p : Forall (callers n) p -> forall k h h' cur, (forall l, (l < n)%nat -> h l = h' l) ->
  last_assigned p k h cur = last_assigned p k h' cur.
Proof.
  induction 1 as [|x r C F IH]; intros k h h' cur E; simpl; auto.
  destruct x as [m k' v|l d]; simpl in C.
  - replace (value_now h v) with (value_now h' v); [apply IH; auto|]. destruct v; simpl; auto. symmetry; auto.
  - apply IH. intros l' L. unfold hset. destruct (Nat.eqb l' l); auto.
Qed.
Lemma only_caller_ext n p : Forall (callers n) p -> forall h h', (forall l, (l < n)%nat -> h l = h' l) ->
  forall l, (l < n)%nat -> only_caller_writes p h l = only_caller_writes p h' l.
Proof.
  induction 1 as [|x r C F IH]; intros h h' E l L; simpl; auto.
  destruct x as [m k' v|l' d]; simpl in C; apply IH; auto. intros l2 L2. unfold hset. destruct (Nat.eqb l2 l'); auto.
Qed.

Lemma safe_run n p : Forall (callers n) p -> Forall no_float_array_kept p -> forall s, ok_state n s ->
  (forall l, (l < n)%nat -> heap (run p s) l = only_caller_writes p (heap s) l) /\
  (forall k, reads_attr (run p s) k = last_assigned p k (heap s) (reads_attr s k)).
Proof.
  induction 1 as [|x r C F IH]; intros K s O; simpl; auto.
  inversion K as [|? ? K1 K2]; subst. destruct x as [m k v|l d]; simpl.
  - destruct (assign_fresh n m k v s O C K1) as (O'&H'&R'). destruct (IH K2 _ O') as (I1&I2). split.
    + intros l L. rewrite I1; auto. eapply only_caller_ext; eauto.
    + intros k'. rewrite I2, R'. rewrite (last_assigned_ext n r F k' _ (heap s)); auto.
  - destruct (write_ok n l d s O C) as (O'&R'). destruct (IH K2 _ O') as (I1&I2). split.
    + intros l' L. rewrite I1; auto.
    + intros k'. rewrite I2, R'. reflexivity.
Qed.

(** ** Aliasing *)
Lemma keeps_alias m k l d s : m <> Copies ->
  reads_attr (caller_writes l d (assign m k (CFloatArr l) s)) k = Some d.
Proof.
  intros N. destruct m; [| |congruence]; unfold reads_attr, caller_writes, assign, store, aset; simpl;
  rewrite String.eqb_refl, hset_same; reflexivity.
Qed.
Lemma copies_alias k l d s : (l < next s)%nat ->
  reads_attr (caller_writes l d (assign Copies k (CFloatArr l) s)) k = Some (heap s l).
Proof.
  intros N. unfold reads_attr, caller_writes, assign, store, aset; simpl.
  rewrite String.eqb_refl, hset_other by lia. rewrite hset_same. reflexivity.
Qed.
Lemma normalises_in_place k l s : heap (assign Normalises k (CFloatArr l) s) l = scaled (heap s l).
Proof. unfold assign; simpl. rewrite hset_same. reflexivity. Qed.
Definition s0 : state := mkst (fun _ => [3; 0; 4]) 1 (fun _ => None).
Lemma scaled_345 : scaled [3; 0; 4] = [3 / 5; 0; 4 / 5].
Proof.
  assert (E : norm2 [3; 0; 4] = 5).
  { unfold norm2. simpl. replace (3 * 3 + (0 * 0 + (4 * 4 + 0))) with (5 * 5) by ring. apply sqrt_square; lra. }
  unfold scaled. rewrite E. simpl. repeat f_equal. field.
Qed.
Lemma orientation_mutates : exists s l, (l < next s)%nat /\ heap s l = [3; 0; 4] /\
  heap (assign Normalises "orientation" (CFloatArr l) s) l = [3 / 5; 0; 4 / 5].
Proof. exists s0, 0%nat. repeat split; auto. rewrite normalises_in_place. apply scaled_345. Qed.
Lemma same_array : exists s l, heap s l = [3; 0; 4] /\
  reads_attr (assign Normalises "orientation" (CFloatArr l) (assign Keeps "location" (CFloatArr l) s)) "location" = Some [3 / 5; 0; 4 / 5].
Proof.
  exists s0, 0%nat. split; auto. unfold reads_attr, assign, store, aset. simpl. rewrite hset_same. f_equal. apply scaled_345.
Qed.
Lemma shared_default dflt d k1 k2 s : k1 <> k2 ->
  let s2 := new_dipole_default_location k2 dflt (new_dipole_default_location k1 dflt s) in
  (* [dipole1.location[...] = d] *)
  forall l, attr s2 k1 = Some l -> reads_attr (caller_writes l d s2) k2 = Some d.
Proof.
  intros N s2 l E. unfold s2, new_dipole_default_location, assign, store, aset, reads_attr, caller_writes in *. simpl in *.
  destruct (String.eqb_spec k1 k2); [congruence|]. rewrite String.eqb_refl in E. injection E as <-.
  rewrite String.eqb_refl, hset_same. reflexivity.
Qed.
Lemma point_location_writes_nodes l v s : List.length (heap s l) = 3%nat -> List.length v = 3%nat ->
  heap (assign_point_location v (assign Keeps "nodes" (CFloatArr l) s)) l = v.
Proof.
  intros L V. unfold assign_point_location, assign, store, aset. simpl. rewrite hset_same.
  destruct (heap s l) as [|a [|b [|c [|]]]]; try discriminate. simpl. apply app_nil_r.
Qed.
