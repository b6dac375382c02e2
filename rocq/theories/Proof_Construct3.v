(** Proofs for C105, third part: calls. *)
From Coq Require Import Reals Lra Lia List Bool Arith ZArith String.
From Verif Require Import Numpy PyVal Model_Setters Spec_Setters Spec_Contracts Proof_Setters Proof_Setters2 Proof_Contracts Model_Construct Spec_Construct Proof_Construct Proof_Construct2.
Import ListNotations.
Open Scope string_scope.
Open Scope R_scope.

Lemma good_of k pos kw : good_call (init_of k) pos kw <-> well_formed_call k pos kw.
Proof.
  pose proof (first_of k) as F. pose proof (accepted_of k) as A. pose proof (complete_of k) as C.
  assert (E : exists sg vk n b o p s af, init_of k = Init sg vk n b o p s af) by (destruct k; do 8 eexists; reflexivity).
  destruct E as [sg [vk [n [b [o [p [s [af E]]]]]]]]. rewrite E in *. cbn [first_names] in F.
  unfold good_call, well_formed_call. rewrite F. rewrite C.
  split; intros [H1 [H2 [H3 H4]]]; (split; [exact H1|]; split; [exact H2|]; split; [|exact H4]); intros a I; now apply A, H3.
Qed.
Lemma value_in i : forall g a v, value i g a = Some v -> In a (wnames i).
Proof.
  induction i as [| |sg vk n bf op p s IH af]; intros g a v; [discriminate|discriminate|]. cbn [value wnames].
  rewrite !in_app_iff. destruct (mem a bf) eqn:E1; [intros; left; now apply mem_In|].
  destruct (mem a op) eqn:E2; [intros; right; left; now apply mem_In|].
  destruct (mem a af) eqn:E3; [intros; right; right; right; now apply mem_In|].
  intros H. right; right; left. now apply IH in H.
Qed.
Lemma default_wf k a v : In (a, Default v) (arguments k) -> wf_val v.
Proof.
  intros I. destruct k; cbn in I;
  repeat (match type of I with _ \/ _ => destruct I as [I|I]; [first [discriminate I|inversion I; subst; clear I; first [exact Logic.I|reflexivity]]|] end);
  contradiction.
Qed.
Lemma get_wf l pos kw a v : genuine pos kw -> call_get l pos kw a = Some v -> wf_val v.
Proof.
  intros [P K]. unfold call_get. destruct (position_of a l pos) as [w|] eqn:E.
  - intros [= <-]. revert pos P E. induction l as [|b l IH]; intros [|u pos] P; simpl; try discriminate.
    inversion P as [|? ? Wu Wr]; subst. destruct (String.eqb b a); [now intros [= <-]|]. now apply IH.
  - clear E P. induction kw as [|[b u] kw IH]; simpl; [discriminate|]. inversion K as [|? ? Wu Wr]; subst.
    destruct (String.eqb b a); [now intros [= <-]|]. now apply IH.
Qed.
Definition args_of (k : class) (pos : list pyval) (kw : kwargs) : getter := call_get (positional k) pos kw.
Definition final (k : class) (pos : list pyval) (kw : kwargs) : getter := value (init_of k) (args_of k pos kw).
Lemma final_supplied k pos kw a d : In (a, d) (arguments k) -> final k pos kw a = supplied k pos kw a d.
Proof. intros I. unfold final. rewrite (value_of k _ a d I). reflexivity. Qed.
Lemma final_wf k pos kw : genuine pos kw -> forall a v, final k pos kw a = Some v -> wf_val v.
Proof.
  intros G a v H. destruct (proj2 (written_of k a) (value_in _ _ _ _ H)) as [d I].
  rewrite (final_supplied k pos kw a d I) in H. unfold supplied in H.
  change (written k pos kw a) with (call_get (positional k) pos kw a) in H.
  destruct (call_get (positional k) pos kw a) as [w|] eqn:E.
  - destruct (is_none w && none_is_default k a); [|inversion H; subst; now apply (get_wf (positional k) pos kw a)].
    destruct d; try discriminate. inversion H; subst. now apply (default_wf k a).
  - destruct d; try discriminate. inversion H; subst. now apply (default_wf k a).
Qed.
Lemma final_check_state k o o' : final_check k o = (o', Ok tt) -> o' = o.
Proof.
  destruct k; cbn [final_check];
  try (intros H; inversion H; reflexivity);
  unfold read_arr, read, as_arr, bind, check, raise, ret;
  repeat (match goal with |- context [match ?o ?x with Some _ => _ | None => _ end] => destruct (o x) as [[]|]; try discriminate end);
  destruct (_ : bool); intros H; inversion H; reflexivity.
Qed.
Lemma call_ok py k pos kw o : call py k pos kw = (o, Ok tt) ->
  well_formed_call k pos kw /\
  assign_seq (cls_of py (kind_of k)) (pick (final k pos kw) (wnames (init_of k))) empty_obj = (o, Ok tt) /\
  final_check k o = (o, Ok tt).
Proof.
  unfold call, bind. destruct (run_init (cls_of py (kind_of k)) (init_of k) pos kw empty_obj) as [o1 [[]|e]] eqn:Rn; [|discriminate].
  intros F. pose proof (final_check_state k o1 o F) as ->.
  pose proof (run_ok _ _ _ _ _ _ (sane_of k) Rn) as G.
  rewrite (run_good _ _ _ _ (sane_of k) G) in Rn. rewrite first_of, (plan_pick _ _ (nodup_of k)) in Rn.
  split; [now apply good_of|]. split; [exact Rn|exact F].
Qed.
Definition assigned (py : pyext) (k : class) (pos : list pyval) (kw : kwargs) (o : obj) : Prop :=
  assign_seq (cls_of py (kind_of k)) (pick (final k pos kw) (wnames (init_of k))) empty_obj = (o, Ok tt).
Lemma run_stores py k pos kw o a d r v : genuine pos kw -> assigned py k pos kw o ->
  In (a, d) (arguments k) -> In (a, r) (rules_of (kind_of k)) -> supplied k pos kw a d = Some v ->
  exists x, demands py r v (Stored x) /\ (~ misread (kind_of k) a -> reads (cls_of py (kind_of k)) o a = Ok x).
Proof.
  intros G H I Rr Sv.
  apply (seq_stored py (kind_of k) (final k pos kw) a r v (wnames (init_of k)) empty_obj o).
  - now apply final_wf.
  - exact H.
  - apply written_of. now exists d.
  - exact Rr.
  - intros b J. now apply settled with (r := r).
  - now rewrite (final_supplied k pos kw a d I).
Qed.
Lemma call_stores py k pos kw o a d r v : genuine pos kw -> call py k pos kw = (o, Ok tt) ->
  In (a, d) (arguments k) -> In (a, r) (rules_of (kind_of k)) -> supplied k pos kw a d = Some v ->
  exists x, demands py r v (Stored x) /\ (~ misread (kind_of k) a -> reads (cls_of py (kind_of k)) o a = Ok x).
Proof. intros G H. apply call_ok in H as [_ [H _]]. now apply run_stores. Qed.
Lemma vector3_stored py v x : wf_val v -> demands py (Vector 3 ValueError) v (Stored x) -> exists p q r, x = AArr (vec3 p q r).
Proof.
  intros W [[e [_ D]]|[[a [A [Sh D]]]|[a [_ [_ D]]]]]; try discriminate D. inversion D. subst x.
  destruct (shape3_data py v a W A Sh) as [p [q [r E]]]. exists p, q, r. now rewrite E.
Qed.
Lemma corners py k pos kw o a : In k [CPrism; CMagneticPrism] -> In a ["min_location"; "max_location"] ->
  genuine pos kw -> well_formed_call k pos kw -> assigned py k pos kw o ->
  exists p q r, reads (cls_of py (kind_of k)) o a = Ok (AArr (vec3 p q r)).
Proof.
  intros Ik Ia G WF H. assert (I : In (a, Required) (arguments k)).
  { destruct Ik as [<-|[<-|[]]]; destruct Ia as [<-|[<-|[]]]; cbn; tauto. }
  assert (Rr : In (a, Vector 3 ValueError) (rules_of (kind_of k))).
  { destruct Ik as [<-|[<-|[]]]; destruct Ia as [<-|[<-|[]]]; cbn; tauto. }
  destruct (supplied k pos kw a Required) as [v|] eqn:Sv.
  - destruct (run_stores py k pos kw o a Required _ v G H I Rr Sv) as [x [D Rd]].
    assert (W : wf_val v). { rewrite <- (final_supplied k pos kw a Required I) in Sv. now apply (final_wf k pos kw G a). }
    destruct (vector3_stored py v x W D) as [p [q [r ->]]]. exists p, q, r. apply Rd.
    destruct Ik as [<-|[<-|[]]]; unfold misread; intros [[M _]|[M _]]; discriminate M.
  - exfalso. destruct WF as [_ [_ [_ Rq]]]. apply (Rq a I).
    unfold supplied in Sv. destruct (written k pos kw a) as [w|] eqn:Ew; [|reflexivity].
    exfalso. destruct Ik as [<-|[<-|[]]]; destruct Ia as [<-|[<-|[]]]; cbn in Sv; rewrite andb_false_r in Sv; discriminate Sv.
Qed.
Lemma prism_check py k o x1 y1 z1 x2 y2 z2 : In k [CPrism; CMagneticPrism] ->
  reads (cls_of py (kind_of k)) o "min_location" = Ok (AArr (vec3 x1 y1 z1)) ->
  reads (cls_of py (kind_of k)) o "max_location" = Ok (AArr (vec3 x2 y2 z2)) ->
  final_check k o = (if (fle x2 x1 || (fle y2 y1 || (fle z2 z1 || false)))%bool then (o, Raise ValueError) else (o, Ok tt)).
Proof.
  intros Ik E1 E2.
  assert (R1 : o "_min_location" = Some (AArr (vec3 x1 y1 z1))).
  { destruct Ik as [<-|[<-|[]]]; change (snd (read "_min_location" o) = Ok (AArr (vec3 x1 y1 z1))) in E1; unfold read in E1;
    destruct (o "_min_location"); simpl in E1; congruence. }
  assert (R2 : o "_max_location" = Some (AArr (vec3 x2 y2 z2))).
  { destruct Ik as [<-|[<-|[]]]; change (snd (read "_max_location" o) = Ok (AArr (vec3 x2 y2 z2))) in E2; unfold read in E2;
    destruct (o "_max_location"); simpl in E2; congruence. }
  destruct Ik as [<-|[<-|[]]]; cbn [final_check]; unfold read_arr, read, as_arr, bind; rewrite R2; cbv beta iota; 
  unfold ret at 1; rewrite R1; cbv beta iota; unfold ret, check; cbn [vec3 adata combine existsb fst snd];
  destruct (fle x2 x1 || (fle y2 y1 || (fle z2 z1 || false)))%bool; reflexivity.
Qed.
Lemma surface_location py pos kw o : genuine pos kw -> assigned py CFdemHalfSpace pos kw o ->
  exists p q r, reads (cls_of py (kind_of CFdemHalfSpace)) o "location" = Ok (AArr (vec3 p q r)) /\
    final_check CFdemHalfSpace o = (if feq r (Fin 0) then (o, Ok tt) else (o, Raise ValueError)).
Proof.
  intros G H.
  assert (I : In ("location", point3 0 0 0) (arguments CFdemHalfSpace)) by (cbn; tauto).
  assert (Rr : In ("location", Vector 3 ValueError) (rules_of (kind_of CFdemHalfSpace))) by (cbn; tauto).
  assert (Sv : exists v, supplied CFdemHalfSpace pos kw "location" (point3 0 0 0) = Some v).
  { unfold supplied. destruct (written CFdemHalfSpace pos kw "location"); [|eexists; reflexivity].
    cbn. rewrite andb_false_r. eauto. }
  destruct Sv as [v Sv]. destruct (run_stores py _ pos kw o _ _ _ v G H I Rr Sv) as [x [D Rd]].
  assert (W : wf_val v). { rewrite <- (final_supplied _ pos kw _ _ I) in Sv. now apply (final_wf _ pos kw G _ v Sv). }
  destruct (vector3_stored py v x W D) as [p [q [r ->]]].
  assert (E : reads (cls_of py (kind_of CFdemHalfSpace)) o "location" = Ok (AArr (vec3 p q r))).
  { apply Rd. unfold misread; intros [[M _]|[M _]]; discriminate M. }
  exists p, q, r. split; [exact E|]. change (snd (read "_location" o) = Ok (AArr (vec3 p q r))) in E. unfold read in E.
  assert (R1 : o "_location" = Some (AArr (vec3 p q r))) by (destruct (o "_location"); simpl in E; congruence).
  cbn [final_check]. unfold read_arr, read, as_arr, bind. rewrite R1. unfold check, ret.
  cbn [vec3 adata nth]. now destruct (feq r (Fin 0)).
Qed.
Lemma final_check_iff py k pos kw o : genuine pos kw -> well_formed_call k pos kw -> assigned py k pos kw o ->
  (geometry_ok py k o /\ final_check k o = (o, Ok tt)) \/ (~ geometry_ok py k o /\ final_check k o = (o, Raise ValueError)).
Proof.
  intros G WF H.
  assert (Cn : In k [CPrism; CMagneticPrism] -> (geometry_ok py k o /\ final_check k o = (o, Ok tt)) \/ (~ geometry_ok py k o /\ final_check k o = (o, Raise ValueError))).
  { intros Ik. destruct (corners py k pos kw o "min_location" Ik) as [x1 [y1 [z1 E1]]]; [now left|assumption..|].
    destruct (corners py k pos kw o "max_location" Ik) as [x2 [y2 [z2 E2]]]; [right; now left|assumption..|].
    rewrite (prism_check py k o x1 y1 z1 x2 y2 z2 Ik E1 E2).
    assert (Gm : geometry_ok py k o <-> fle x2 x1 = false /\ fle y2 y1 = false /\ fle z2 z1 = false).
    { assert (Gm' : geometry_ok py k o <-> exists x1 y1 z1 x2 y2 z2,
        reads (cls_of py (kind_of k)) o "min_location" = Ok (AArr (vec3 x1 y1 z1)) /\
        reads (cls_of py (kind_of k)) o "max_location" = Ok (AArr (vec3 x2 y2 z2)) /\
        fle x2 x1 = false /\ fle y2 y1 = false /\ fle z2 z1 = false) by (destruct Ik as [<-|[<-|[]]]; reflexivity).
      rewrite Gm'. split.
      - intros [a1 [b1 [c1 [a2 [b2 [c2 [Q1 [Q2 F]]]]]]]]. rewrite E1 in Q1. rewrite E2 in Q2. inversion Q1. inversion Q2. now subst.
      - intros F. exists x1, y1, z1, x2, y2, z2. tauto. }
    rewrite Gm. destruct (fle x2 x1), (fle y2 y1), (fle z2 z1); simpl; try (right; split; [intros [? [? ?]]; discriminate|reflexivity]).
    left. repeat split; reflexivity. }
  destruct k; try (apply Cn; cbn; tauto); try (left; split; [exact I|reflexivity]).
  destruct (surface_location py pos kw o G H) as [p [q [r [E F]]]]. rewrite F. cbn [geometry_ok]. rewrite E.
  destruct (feq r (Fin 0)) eqn:Z.
  - left. apply feq_zero in Z. subst r. split; [now exists p, q|reflexivity].
  - right. split; [|reflexivity]. intros [p' [q' Q]]. inversion Q. subst. simpl in Z. rewrite (proj2 (Reqb_true 0 0) eq_refl) in Z. discriminate Z.
Qed.
Lemma call_geometry py k pos kw o : genuine pos kw -> call py k pos kw = (o, Ok tt) -> geometry_ok py k o.
Proof.
  intros G H. pose proof (call_ok py k pos kw o H) as [WF [A F]].
  destruct (final_check_iff py k pos kw o G WF A) as [[Q _]|[_ Q]]; [exact Q|]. rewrite F in Q. discriminate Q.
Qed.
(** acceptance *)
Definition regular (k : class) : Prop := k <> CSphere /\ k <> COksar.
Definition acceptable (py : pyext) (k : class) (pos : list pyval) (kw : kwargs) : Prop :=
  forall a d r v, In (a, d) (arguments k) -> In (a, r) (rules_of (kind_of k)) -> supplied k pos kw a d = Some v ->
  exists x, demands py r v (Stored x).
Lemma acceptable_set py k pos kw : regular k -> acceptable py k pos kw ->
  forall a v, In a (wnames (init_of k)) -> final k pos kw a = Some v ->
  forall o, exists s, setattr (cls_of py (kind_of k)) "" a v o = (s, Ok tt).
Proof.
  intros [N1 N2] A a v I H o. destruct (proj2 (written_of k a) I) as [d Id].
  destruct (names_known k a I) as [[r Rr]|[[E _]|[E _]]]; [|contradiction|contradiction].
  rewrite (final_supplied k pos kw a d Id) in H. destruct (A a d r v Id Rr H) as [x D].
  pose proof (contract_lemma py (kind_of k) a r v o (Stored x) Rr D) as C. simpl in C. destruct C as [s [C _]]. eauto.
Qed.
Lemma acceptable_run py k pos kw : regular k -> well_formed_call k pos kw -> acceptable py k pos kw ->
  exists o, assigned py k pos kw o /\ run_init (cls_of py (kind_of k)) (init_of k) pos kw empty_obj = (o, Ok tt).
Proof.
  intros Rg W A.
  destruct (seq_accepts (cls_of py (kind_of k)) (final k pos kw) (wnames (init_of k)) empty_obj (acceptable_set py k pos kw Rg A)) as [o H].
  exists o. split; [exact H|].
  rewrite (run_good _ _ _ _ (sane_of k) (proj2 (good_of k pos kw) W)). rewrite first_of, (plan_pick _ _ (nodup_of k)). exact H.
Qed.
Lemma call_accepts py k pos kw : regular k -> genuine pos kw -> well_formed_call k pos kw -> acceptable py k pos kw ->
  (geometry_ok py k (fst (call py k pos kw)) /\ snd (call py k pos kw) = Ok tt) \/
  (~ geometry_ok py k (fst (call py k pos kw)) /\ snd (call py k pos kw) = Raise ValueError).
Proof.
  intros Rg G W A. destruct (acceptable_run py k pos kw Rg W A) as [o [H Rn]].
  unfold call, bind. rewrite Rn. destruct (final_check_iff py k pos kw o G W H) as [[Q ->]|[Q ->]]; [left|right]; now split.
Qed.
Lemma bad_call_raises py k pos kw : ~ well_formed_call k pos kw -> exists e, snd (call py k pos kw) = Raise e.
Proof.
  intros N. destruct (call py k pos kw) as [o [[]|e]] eqn:E; [|now exists e].
  apply call_ok in E as [W _]. contradiction.
Qed.
Lemma bad_call_type_error py k pos kw : regular k -> ~ well_formed_call k pos kw -> acceptable py k pos kw ->
  snd (call py k pos kw) = Raise TypeError.
Proof.
  intros Rg N A. unfold call, bind.
  destruct (run_type_error (cls_of py (kind_of k)) (init_of k) pos kw empty_obj) as [E|E].
  - intros a v I. rewrite first_of, (plan_pick _ _ (nodup_of k)) in I. unfold pick in I. apply in_flat_map in I as [b [I J]].
    destruct (value (init_of k) (call_get (positional k) pos kw) b) as [w|] eqn:E; [|contradiction].
    destruct J as [J|[]]. inversion J. subst. apply (acceptable_set py k pos kw Rg A a v I E).
  - exfalso. apply N. destruct (run_init (cls_of py (kind_of k)) (init_of k) pos kw empty_obj) as [o [[]|e]] eqn:Rn; [|discriminate E].
    apply good_of. exact (run_ok _ _ _ _ _ _ (sane_of k) Rn).
  - destruct (run_init (cls_of py (kind_of k)) (init_of k) pos kw empty_obj) as [o [[]|e]]; [discriminate E|exact E].
Qed.
