(** C133: arrays handed out by attributes. *)
From Coq Require Import Reals List Bool Arith String Lra Lia.
From Verif Require Import Model_Alias Model_Alias2 Spec_Alias2 Proof_Alias Proof_Alias2.
Import ListNotations.
Open Scope string_scope.
Open Scope R_scope.

(** C133: whatever the caller does with the array passed as location, with any other array, or through the attributes of the object,
    the two electrodes of a half-space source stay at the assigned location and its mirror image *)
Theorem C133_electrodes_cannot_be_moved lp li v s s' ms :
  facade lp li s -> (forall l, v = CFloatArr l -> (l < next s)%nat /\ l <> lp /\ l <> li) ->
  hs_set_location v s = Some s' -> Forall (reaches lp li) ms ->
  reads_attr (mutates ms s') pnodes = Some (contents s v) /\ reads_attr (mutates ms s') inodes = Some (flip_z (contents s v)).
Proof.
  intros F V E W. destruct (set_location_spec lp li v s s' F V E) as (F' & A & B & _). destruct (mutates_facade lp li ms s' F' W) as ((P & I & _) & A2 & B2).
  unfold reads_attr. rewrite P, I, A2, B2, A, B. auto.
Qed.

(** C133, FINDING: [source.location[i] = x] is accepted, above the surface too, changes the location that is reported and moves no electrode *)
Theorem C133_reported_location_refuted lp li v s s' i x :
  facade lp li s -> (forall l, v = CFloatArr l -> (l < next s)%nat /\ l <> lp /\ l <> li) ->
  hs_set_location v s = Some s' -> List.length (contents s v) = 3%nat -> (i < 3)%nat -> x <> nth i (contents s v) 0 ->
  exists reported, reads_attr (poke "_location" i x s') "_location" = Some reported /\ nth i reported 0 = x /\
  reads_attr (poke "_location" i x s') pnodes = Some (contents s v) /\ reported <> contents s v.
Proof.
  intros F V E L I N. destruct (set_location_spec lp li v s s' F V E) as (F' & A & B & R & _).
  assert (W : reaches lp li (MPoke "_location" i x)) by (split; discriminate). destruct (mutate_facade lp li _ s' F' W) as ((P & _) & A2 & _). cbn [mutate] in *.
  exists (put (contents s v) i x). split; [|split; [|split]].
  - unfold reads_attr, poke, getter in *. destruct (attr s' "_location") as [l|] eqn:K; [|discriminate]. cbn. rewrite K, hset_same. injection R as ->. reflexivity.
  - apply put_same. lia.
  - unfold reads_attr. rewrite P, A2, A. reflexivity.
  - intros Q. apply N. assert (H : nth i (put (contents s v) i x) 0 = x) by (apply put_same; lia). rewrite Q in H. now symmetry.
Qed.

(** C133, FINDING: frequencies and times are checked when they are assigned, not when [obj.frequency[i] = x] overwrites them:
    every object that accepted samples can hold negative ones afterwards *)
Theorem C133_samples_stay_valid_refuted k v s s' i x :
  set_samples k v s = Some s' -> (i < List.length (contents s v))%nat -> x < 0 ->
  exists d, reads_attr (poke k i x s') k = Some d /\ nth i d 0 < 0 /\ set_samples k (CConverted d) s = None.
Proof.
  intros E L X. exists (put (contents s v) i x). split; [apply (samples_poked k v s); assumption|]. rewrite put_same by exact L. split; [exact X|].
  unfold set_samples. cbn [contents]. assert (Q : existsb (fun y => if Rlt_dec y 0 then true else false) (put (contents s v) i x) = true); [|now rewrite Q].
  apply existsb_exists. exists x. split; [|destruct (Rlt_dec x 0); [reflexivity|contradiction]].
  rewrite <- (put_same (contents s v) i x L) at 1. apply nth_In. now rewrite put_length.
Qed.

Example C133_witness : let s := mkst (fun _ => [0; 0; 0]) 2 (fun k => if String.eqb k pnodes then Some 0%nat else if String.eqb k inodes then Some 1%nat else None) in
  facade 0 1 s /\ (exists s', hs_set_location (CConverted [1; 2; -3]) s = Some s') /\ (exists s', set_samples "_frequency" (CConverted [1; 10]) s = Some s') /\
  Forall (reaches 0 1) [MPoke "_location" 2 5; MWrite 7 [1]].
Proof.
  cbv zeta. split; [|split; [|split]].
  - unfold facade, pnodes, inodes. cbn. repeat split; auto; destruct (String.eqb k "_primary.nodes") eqn:A; try (apply String.eqb_eq in A; contradiction); destruct (String.eqb k "_image.nodes") eqn:B; try (apply String.eqb_eq in B; contradiction); discriminate.
  - unfold hs_set_location. cbn [contents nth]. destruct (Rlt_dec 0 (-3)) as [H|_]; [lra|]. eexists. reflexivity.
  - unfold set_samples. cbn. destruct (Rlt_dec 1 0) as [H|_]; [lra|]. destruct (Rlt_dec 10 0) as [H|_]; [lra|]. eexists. reflexivity.
  - repeat constructor; try discriminate; lia.
Qed.
Print Assumptions C133_electrodes_cannot_be_moved.
Print Assumptions C133_reported_location_refuted.
Print Assumptions C133_samples_stay_valid_refuted.
