(** What the setters of the layered model accept. *)
From Coq Require Import String Reals Lra Lia List Arith Bool.
From Coquelicot Require Import Coquelicot.
From Verif Require Import Vec3 Cplx Numpy Model_RTE Model_Layered Spec_Layered Proof_Layered Proof_Layered3.
Import ListNotations.
Open Scope R_scope.

Lemma In_entries {A} r c (a : nat -> nat -> A) x : In x (entries r c a) <-> exists i j, (i < r)%nat /\ (j < c)%nat /\ x = a i j.
Proof.
  unfold entries. rewrite in_flat_map. split.
  - intros (i & Hi & H). apply in_map_iff in H. destruct H as (j & <- & Hj). apply in_seq in Hi, Hj. exists i, j. repeat split; lia.
  - intros (i & j & Hi & Hj & ->). exists i. split; [apply in_seq; lia|]. apply in_map_iff. exists j. split; [reflexivity|apply in_seq; lia].
Qed.
Lemma existsb_out {A} (f : A -> bool) (ok : A -> Prop) l : (forall x, f x = true <-> ~ ok x) -> (forall x, f x = false <-> ok x) ->
  (existsb f l = true <-> exists x, In x l /\ ~ ok x) /\ (existsb f l = false <-> forall x, In x l -> ok x).
Proof.
  intros T F. split.
  - rewrite existsb_exists. split; intros (x & H & E); exists x; (split; [exact H|apply T, E]).
  - split.
    + intros H x Hx. apply F. destruct (f x) eqn:E; [|reflexivity]. rewrite <- H. symmetry. apply existsb_exists. now exists x.
    + intro H. destruct (existsb f l) eqn:E; [|reflexivity]. apply existsb_exists in E. destruct E as (x & Hx & E). apply T in E. destruct E. now apply H.
Qed.

(** a test of all entries, then a test of the shape *)
Lemma two_tests {A B} (ok : A -> Prop) (stored : B -> Prop) (v : value A) (f : A -> bool) l (out : result B) :
  (forall x, f x = true <-> ~ ok x) -> (forall x, f x = false <-> ok x) -> (forall x, contains v x <-> In x l) ->
  (forall p, out = Ok p <-> stored p) -> (out = Raise ValueError -> False) -> (out = Raise TypeError <-> forall p, ~ stored p) ->
  validates ok stored v (if existsb f l then Raise ValueError else out).
Proof.
  intros T F L O V Ty. destruct (existsb_out f ok l T F) as [E1 E2]. unfold validates. destruct (existsb f l) eqn:E.
  - destruct (proj1 E1 eq_refl) as (x & Hx & N). assert (K : contains v x) by (apply L, Hx). split; [|split].
    + intro p. split; [discriminate|]. intros [H _]. destruct N. now apply H.
    + split; [|reflexivity]. intros _. now exists x.
    + split; [discriminate|]. intros [H _]. destruct N. now apply H.
  - assert (K : forall x, contains v x -> ok x) by (intros x Hx; apply (proj1 E2 eq_refl), L, Hx). split; [|split].
    + intro p. rewrite O. tauto.
    + split; [intro H; now apply V in H|]. intros (x & Hx & N). destruct N. now apply K.
    + rewrite Ty. tauto.
Qed.

Lemma Rltb_t x y : Rltb x y = true <-> ~ y <= x.
Proof. unfold Rltb. destruct (Rlt_dec x y); split; intro H; try lra; try discriminate; try reflexivity. Qed.
Lemma Rltb_f x y : Rltb x y = false <-> y <= x.
Proof. unfold Rltb. destruct (Rlt_dec x y); split; intro H; try lra; try discriminate; try reflexivity. Qed.
Lemma Rleb_t x y : Rleb x y = true <-> ~ y < x.
Proof. unfold Rleb. destruct (Rle_dec x y); split; intro H; try lra; try discriminate; try reflexivity. Qed.
Lemma Rleb_f x y : Rleb x y = false <-> y < x.
Proof. unfold Rleb. destruct (Rle_dec x y); split; intro H; try lra; try discriminate; try reflexivity. Qed.

Lemma frequency_validates v : validates (fun x => 0 <= x) (row_of v) v (new_frequency v).
Proof.
  destruct v as [x|l|r c a|l|]; cbn [new_frequency].
  5: { split; [|split]; cbn; (intro p; split; [discriminate|intros [_ []]]) || (split; [discriminate|intros (x & [] & _)]) || tauto. }
  - replace (Rltb x 0) with (existsb (fun x => Rltb x 0) [x]) by (cbn; destruct (Rltb x 0); reflexivity).
    apply two_tests; [intro; apply Rltb_t|intro; apply Rltb_f|cbn; intro; intuition congruence|cbn; intro p; split; intro H; [injection H; congruence|congruence]|discriminate|].
    split; [discriminate|]. intro H. destruct (H [x]). reflexivity.
  - apply two_tests; [intro; apply Rltb_t|intro; apply Rltb_f|cbn; reflexivity|cbn; intro p; split; intro H; [injection H; congruence|congruence]|discriminate|].
    split; [discriminate|]. intro H. destruct (H l). reflexivity.
  - apply two_tests; [intro; apply Rltb_t|intro; apply Rltb_f|cbn; intro x; symmetry; apply In_entries|cbn; intro p; split; [discriminate|tauto]|discriminate|cbn; tauto].
  - apply two_tests; [intro; apply Rltb_t|intro; apply Rltb_f|cbn; reflexivity|cbn; intro p; split; [discriminate|tauto]|discriminate|cbn; tauto].
Qed.

Lemma property_validates (bad : R -> bool) (good : R -> Prop) nl nf v : (forall x, bad x = true <-> ~ good x) -> (forall x, bad x = false <-> good x) -> (0 < nl)%nat ->
  validates (physical good) (array_of nl nf v) v (new_property bad nl nf v).
Proof.
  intros T F NL. set (f := fun z : C => (Rltb (Im z) 0 || bad (Re z))%bool).
  assert (R1 : forall l, (existsb (fun z => Rltb (Im z) 0) l || existsb (fun z => bad (Re z)) l)%bool = existsb f l).
  { induction l as [|z l IH]; [reflexivity|]. cbn [existsb]. rewrite <- IH. unfold f. destruct (Rltb (Im z) 0), (bad (Re z)), (existsb (fun z => Rltb (Im z) 0) l); reflexivity. }
  assert (FT : forall z, f z = true <-> ~ physical good z).
  { intro z. unfold f, physical. rewrite orb_true_iff, Rltb_t, T. destruct (Rle_dec 0 (Im z)); [|tauto]. tauto. }
  assert (FF : forall z, f z = false <-> physical good z).
  { intro z. unfold f, physical. rewrite orb_false_iff, Rltb_f, F. tauto. }
  destruct v as [z|l|r c a|l|]; cbn [new_property]; rewrite ?R1.
  5: { split; [|split]; cbn; (intro p; split; [discriminate|intros [_ []]]) || (split; [discriminate|intros (x & [] & _)]) || tauto. }
  - apply two_tests; [exact FT|exact FF| |cbn; intro p; split; intro H; [injection H; congruence|congruence]|discriminate|].
    + cbn. intro x. split; [intros ->; destruct nl; [lia|left; reflexivity]|apply repeat_spec].
    + split; [discriminate|]. intro H. destruct (H (P1 (repeat z nl))). reflexivity.
  - apply two_tests; [exact FT|exact FF|cbn; reflexivity| | |]; destruct (Nat.eqb_spec (length l) nl) as [E|E]; cbn.
    + intro p. split; [intro H; injection H; intros <-; now split|intros [-> _]; reflexivity].
    + intro p. split; [discriminate|intros [_ H]; contradiction].
    + discriminate.
    + discriminate.
    + split; [discriminate|]. intro H. destruct (H (P1 l)). now split.
    + split; [intros _ p [_ H]; contradiction|reflexivity].
  - apply two_tests; [exact FT|exact FF|cbn; intro x; symmetry; apply In_entries| | |]; destruct (Nat.eqb_spec r nl) as [E|E], (Nat.eqb_spec c nf) as [E'|E']; cbn;
      try discriminate; try (intro p; split; [discriminate|intros (_ & ? & ?); contradiction]); try (split; [intros _ p (_ & ? & ?); contradiction|reflexivity]).
    + intro p. split; [intro H; injection H; intros <-; now split|intros [-> _]; reflexivity].
    + split; [discriminate|]. intro H. destruct (H (P2 (A2 r c a))). now split.
  - apply two_tests; [exact FT|exact FF|cbn; reflexivity|cbn; intro p; split; [discriminate|tauto]|discriminate|cbn; tauto].
Qed.

Lemma sigma_validates nl nf v : (0 < nl)%nat -> validates (physical (fun x => 0 < x)) (array_of nl nf v) v (new_sigma nl nf v).
Proof. apply property_validates; intro; [apply Rleb_t|apply Rleb_f]. Qed.
Lemma mu_validates mu_0 nl nf v : (0 < nl)%nat -> validates (physical (fun x => mu_0 <= x)) (array_of nl nf v) v (new_mu mu_0 nl nf v).
Proof. apply property_validates; intro; [apply Rltb_t|apply Rltb_f]. Qed.
Lemma epsilon_validates e_0 nl nf v : (0 < nl)%nat -> validates (physical (fun x => e_0 <= x)) (array_of nl nf v) v (new_epsilon e_0 nl nf v).
Proof. apply property_validates; intro; [apply Rltb_t|apply Rltb_f]. Qed.

Lemma rmap_validates {A B D} (ok : A -> Prop) (stored : B -> Prop) (v : value A) (out : result B) (f : B -> D) :
  validates ok stored v out -> validates ok (fun d => exists p, stored p /\ d = f p) v (rmap f out).
Proof.
  intros (H1 & H2 & H3). split; [|split].
  - intro d. split.
    + destruct out as [p|e] eqn:E; [|discriminate]. cbn. intro H. injection H as <-. destruct (proj1 (H1 p) eq_refl) as [K1 K2]. split; [exact K1|]. now exists p.
    + intros (K & p & S & ->). rewrite (proj2 (H1 p) (conj K S)). reflexivity.
  - rewrite <- H2. destruct out; cbn; split; intro H; congruence.
  - split.
    + intro H. assert (E : out = Raise TypeError) by (destruct out; cbn in H; congruence). destruct (proj1 H3 E) as [K1 K2]. split; [exact K1|]. intros d (p & S & _). exact (K2 p S).
    + intros [K1 K2]. rewrite (proj2 H3); [reflexivity|]. split; [exact K1|]. intros p S. exact (K2 (f p) (ex_intro _ p (conj S eq_refl))).
Qed.
Section Assign.
  Variables (mu_0 e_0 : R) (s : layered).
  Lemma nl_pos0 : (0 < n_layer s)%nat. Proof. unfold n_layer. lia. Qed.
  Lemma set_frequency_lemma v : validates (fun x => 0 <= x) (fun s' => exists l, row_of v l /\ s' = with_frequency s l) v (assign mu_0 e_0 s (Set_frequency v)).
  Proof. cbn [assign]. apply rmap_validates, frequency_validates. Qed.
  Lemma set_thickness_lemma v : validates (fun x => 0 <= x) (fun s' => exists l, row_of v l /\ s' = with_thickness s l) v (assign mu_0 e_0 s (Set_thickness (Some v))).
  Proof. cbn [assign]. apply rmap_validates, frequency_validates. Qed.
  Lemma set_sigma_lemma v : validates (physical (fun x => 0 < x)) (fun s' => exists p, array_of (n_layer s) (n_frequency s) v p /\ s' = with_sigma s p) v (assign mu_0 e_0 s (Set_sigma v)).
  Proof. cbn [assign]. apply rmap_validates, sigma_validates, nl_pos0. Qed.
  Lemma set_mu_lemma v : validates (physical (fun x => mu_0 <= x)) (fun s' => exists p, array_of (n_layer s) (n_frequency s) v p /\ s' = with_mu s p) v (assign mu_0 e_0 s (Set_mu v)).
  Proof. cbn [assign]. apply rmap_validates, mu_validates, nl_pos0. Qed.
  Lemma set_epsilon_lemma v : validates (physical (fun x => e_0 <= x)) (fun s' => exists p, array_of (n_layer s) (n_frequency s) v p /\ s' = with_epsilon s p) v (assign mu_0 e_0 s (Set_epsilon v)).
  Proof. cbn [assign]. apply rmap_validates, epsilon_validates, nl_pos0. Qed.
End Assign.

(** ** histories *)
Lemma frequency_stored v l : new_frequency v = Ok l -> forall x, In x l -> 0 <= x.
Proof.
  intros H. destruct (frequency_validates v) as [V _]. destruct (proj1 (V l) H) as [A B].
  intros x Hx. apply A. destruct v; cbn in *; subst; cbn in *; try tauto. destruct Hx as [->|[]]. reflexivity.
Qed.
Lemma thickness_stored v l : new_thickness v = Ok l -> forall x, In x l -> 0 <= x.
Proof. destruct v as [v|]; [apply frequency_stored|]. cbn. intro H. injection H. intros <- x []. Qed.
Lemma array_contains nl nf v p z : array_of nl nf v p -> pcontains p z -> contains v z.
Proof.
  destruct v as [x|l|r c a|l|]; cbn; try tauto.
  - intros -> H. now apply repeat_spec in H.
  - intros [-> _] H. exact H.
  - intros (-> & _) H. exact H.
Qed.
Lemma property_stored bad good nl nf v p : (forall x, bad x = true <-> ~ good x) -> (forall x, bad x = false <-> good x) -> (0 < nl)%nat -> new_property bad nl nf v = Ok p -> forall z, pcontains p z -> physical good z.
Proof.
  intros T F NL H. destruct (property_validates bad good nl nf v T F NL) as [V _]. destruct (proj1 (V p) H) as [A B].
  intros z Hz. apply A. exact (array_contains _ _ _ _ _ B Hz).
Qed.
Section H.
  Variables mu_0 e_0 : R.
  Lemma nl_pos s : (0 < n_layer s)%nat. Proof. unfold n_layer. lia. Qed.
  Lemma after_admissible s a : admissible mu_0 e_0 s -> admissible mu_0 e_0 (after mu_0 e_0 s a).
  Proof.
    intros (A & B & D & E & F). unfold after.
    destruct a as [v|v|v|v|v|b|p|o|m]; cbn [assign rmap]; try (split; [|split; [|split; [|split]]]; assumption).
    - destruct (new_frequency v) as [l|] eqn:Q; cbn [rmap]; (split; [|split; [|split; [|split]]]); try assumption. cbn. exact (frequency_stored _ _ Q).
    - destruct (new_thickness v) as [l|] eqn:Q; cbn [rmap]; (split; [|split; [|split; [|split]]]); try assumption. cbn. exact (thickness_stored _ _ Q).
    - destruct (new_sigma (n_layer s) (n_frequency s) v) as [p|] eqn:Q; cbn [rmap]; (split; [|split; [|split; [|split]]]); try assumption.
      cbn [ly_sigma]. exact (property_stored _ (fun x => 0 < x) _ _ _ _ (fun x => Rleb_t x 0) (fun x => Rleb_f x 0) (nl_pos s) Q).
    - destruct (new_mu mu_0 (n_layer s) (n_frequency s) v) as [p|] eqn:Q; cbn [rmap]; (split; [|split; [|split; [|split]]]); try assumption.
      cbn [ly_mu]. exact (property_stored _ (fun x => mu_0 <= x) _ _ _ _ (fun x => Rltb_t x mu_0) (fun x => Rltb_f x mu_0) (nl_pos s) Q).
    - destruct (new_epsilon e_0 (n_layer s) (n_frequency s) v) as [p|] eqn:Q; cbn [rmap]; (split; [|split; [|split; [|split]]]); try assumption.
      cbn [ly_epsilon]. exact (property_stored _ (fun x => e_0 <= x) _ _ _ _ (fun x => Rltb_t x e_0) (fun x => Rltb_f x e_0) (nl_pos s) Q).
  Qed.
  Lemma history_admissible l : forall s, admissible mu_0 e_0 s -> admissible mu_0 e_0 (history mu_0 e_0 s l).
  Proof. induction l as [|a l IH]; intros s H; [exact H|]. cbn. apply IH, after_admissible, H. Qed.
  Lemma construct_admissible fr th sg m e q loc o mom s : construct mu_0 e_0 fr th sg m e q loc o mom = Ok s -> admissible mu_0 e_0 s.
  Proof.
    unfold construct, rbind.
    destruct (new_thickness th) as [t|] eqn:Q1; [|discriminate]. destruct (new_frequency fr) as [f|] eqn:Q2; [|discriminate].
    destruct (new_sigma (length t + 1) (length f) sg) as [a|] eqn:Q3; [|discriminate]. destruct (new_mu mu_0 (length t + 1) (length f) m) as [b|] eqn:Q4; [|discriminate].
    destruct (new_epsilon e_0 (length t + 1) (length f) e) as [c|] eqn:Q5; [|discriminate]. destruct (Rltb (vz loc) 0); [discriminate|].
    intro H. injection H. intros <-. assert (NL : (0 < length t + 1)%nat) by lia. split; [|split; [|split; [|split]]]; cbn [ly_frequency ly_thickness ly_sigma ly_mu ly_epsilon].
    - exact (frequency_stored _ _ Q2).
    - exact (thickness_stored _ _ Q1).
    - exact (property_stored _ (fun x => 0 < x) _ _ _ _ (fun x => Rleb_t x 0) (fun x => Rleb_f x 0) NL Q3).
    - exact (property_stored _ (fun x => mu_0 <= x) _ _ _ _ (fun x => Rltb_t x mu_0) (fun x => Rltb_f x mu_0) NL Q4).
    - exact (property_stored _ (fun x => e_0 <= x) _ _ _ _ (fun x => Rltb_t x e_0) (fun x => Rltb_f x e_0) NL Q5).
  Qed.
End H.
