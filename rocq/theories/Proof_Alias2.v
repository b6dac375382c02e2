(** In-place writes through getters (C133). *)
From Coq Require Import Reals List Bool Arith String Lra Lia.
From Verif Require Import Model_Alias Model_Alias2 Spec_Alias2 Proof_Alias.
Import ListNotations.
Open Scope string_scope.
Open Scope R_scope.

Lemma put_same d i x : (i < List.length d)%nat -> nth i (put d i x) 0 = x.
Proof. revert i. induction d as [|y d IH]; intros [|i] H; simpl in *; try lia; [reflexivity|apply IH; lia]. Qed.
Lemma put_length d i x : List.length (put d i x) = List.length d.
Proof. revert i. induction d as [|y d IH]; intros [|i]; simpl; auto. Qed.
Lemma put_other d i j x : i <> j -> nth j (put d i x) 0 = nth j d 0.
Proof. revert i j. induction d as [|y d IH]; intros [|i] [|j] H; simpl; auto; try lia. Qed.

Lemma samples_poked k v s s' i x : set_samples k v s = Some s' -> (i < List.length (contents s v))%nat ->
  reads_attr (poke k i x s') k = Some (put (contents s v) i x).
Proof.
  unfold set_samples. destruct (existsb _ _); [discriminate|]. intros E L. injection E as <-. unfold poke, getter, reads_attr.
  destruct v as [l|d]; cbn; unfold aset; rewrite String.eqb_refl; cbn; unfold aset; rewrite String.eqb_refl; rewrite ?hset_same; reflexivity.
Qed.

Lemma set_location_spec lp li v s s' : facade lp li s -> (forall l, v = CFloatArr l -> (l < next s)%nat /\ l <> lp /\ l <> li) -> hs_set_location v s = Some s' ->
  facade lp li s' /\ heap s' lp = contents s v /\ heap s' li = flip_z (contents s v) /\ reads_attr s' "_location" = Some (contents s v) /\ nth 2 (contents s v) 0 <= 0.
Proof.
  intros (P & Im & D & Lp & Li & O) V. unfold hs_set_location. destruct (Rlt_dec 0 (nth 2 (contents s v) 0)) as [G|G]; [discriminate|].
  assert (A : np_astype s v = alloc s (contents s v)) by (destruct v; reflexivity). rewrite A. unfold alloc, store, write_nodes, pnodes, inodes, aset in *. cbn [heap next attr].
  cbn. rewrite P. cbn. rewrite Im. cbn. intros E. injection E as <-. unfold reads_attr. cbn [heap next attr].
  assert (K : forall k, String.eqb k "_location" = true \/ String.eqb k "_location" = false) by (intros k; destruct (String.eqb k "_location"); auto).
  split; [|split; [|split; [|split]]].
  - unfold facade. cbn [heap next attr]. cbn. unfold pnodes, inodes. cbn. split; [exact P|]. split; [exact Im|]. split; [exact D|]. split; [lia|]. split; [lia|].
    intros k l E N1 N2. destruct (String.eqb k "_location"); [injection E as <-; lia|apply (O k); auto].
  - rewrite hset_other by lia. rewrite hset_other by lia. rewrite hset_other by lia. rewrite hset_same, hset_same. reflexivity.
  - rewrite hset_same. rewrite hset_same. rewrite hset_same. rewrite hset_other by lia. now rewrite hset_same.
  - cbn. rewrite hset_other by lia. rewrite hset_other by lia. rewrite hset_other by lia. rewrite hset_other by lia. now rewrite hset_same.
  - lra.
Qed.
Lemma mutate_facade lp li m s : facade lp li s -> reaches lp li m -> facade lp li (mutate m s) /\ heap (mutate m s) lp = heap s lp /\ heap (mutate m s) li = heap s li.
Proof.
  intros (P & Im & D & Lp & Li & O) W. destruct m as [l d|l i x|k i x]; cbn [mutate reaches] in *.
  - destruct W. unfold caller_writes, facade. cbn [heap next attr]. rewrite !hset_other by auto. repeat split; auto; eapply O; eauto.
  - destruct W. unfold item_write, facade. cbn [heap next attr]. rewrite !hset_other by auto. repeat split; auto; eapply O; eauto.
  - destruct W as [N1 N2]. unfold poke, getter. destruct (attr s k) as [l|] eqn:E; [|unfold facade; repeat split; auto; eapply O; eauto].
    destruct (O k l E N1 N2). unfold item_write, facade. cbn [heap next attr]. rewrite !hset_other by auto. repeat split; auto; eapply O; eauto.
Qed.
Lemma mutates_facade lp li ms : forall s, facade lp li s -> Forall (reaches lp li) ms -> facade lp li (mutates ms s) /\ heap (mutates ms s) lp = heap s lp /\ heap (mutates ms s) li = heap s li.
Proof.
  induction ms as [|m ms IH]; intros s F W; [auto|]. inversion W as [|? ? W1 W2]; subst. destruct (mutate_facade lp li m s F W1) as (F1 & A & B).
  cbn [mutates]. destruct (IH _ F1 W2) as (F2 & A2 & B2). rewrite A2, B2. auto.
Qed.
