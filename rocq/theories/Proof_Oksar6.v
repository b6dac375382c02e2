(** Proofs about Oksar's properties: C76. *)
From Coq Require Import String Reals List Bool Arith ZArith Lra Lia.
From Verif Require Import Numpy PyVal Model_Setters Spec_Setters Proof_Setters Proof_Setters2 Proof_Setters3 Proof_Setters4.
From Verif Require Import Model_Oksar Spec_Oksar Proof_Oksar Proof_Oksar3.
Import ListNotations.
Open Scope string_scope.
Open Scope R_scope.

Definition no_loc (o : obj) : Prop := o "_location" = None.
Lemma no_loc_step py a v o : no_loc o -> no_loc (fst (setattr (cls_of py KOksar) "" a v o)).
Proof.
  intros I. by_attr; try exact I; try setter_case; try exact I; unfold no_loc, upd in *; simpl; try exact I;
  decompose [ex and] P; subst; try exact I.
Qed.
Lemma no_loc_created py o : created py KOksar o -> no_loc o.
Proof. intros C. inversion C; subst. run_init. dec_all. unfold no_loc, upd in *; simpl in *. reflexivity. Qed.
Lemma no_loc_history py o h : created py KOksar o -> wf_history h -> no_loc (run_history (cls_of py KOksar) h o).
Proof. intros C W. apply history_inv; auto. intros; apply no_loc_step; auto. apply (no_loc_created py); auto. Qed.
Lemma C76_V_lemma py o h : created py KOksar o -> wf_history h ->
  reads (cls_of py KOksar) (run_history (cls_of py KOksar) h o) "V" = Raise AttributeError.
Proof.
  intros C W. pose proof (no_loc_history py o h C W) as N. set (s := run_history _ _ _) in *. clearbody s.
  unfold reads, getattr; simpl. unfold get_plain, read; simpl. rewrite N. reflexivity.
Qed.
Lemma bind_attr {A} (m : M aval) (f : aval -> M A) o :
  fst (m o) = o -> (snd (m o) = Raise AttributeError \/ exists x, snd (m o) = Ok x) ->
  (forall x, snd (m o) = Ok x -> snd (f x o) = Raise AttributeError) -> snd (bind m f o) = Raise AttributeError.
Proof.
  unfold bind. destruct (m o) as [o' r]; simpl. intros -> [->|(x & ->)] H; [reflexivity|]. apply H. reflexivity.
Qed.
Lemma plain_shape k o : fst (get_plain k "" o) = o /\ (snd (get_plain k "" o) = Raise AttributeError \/ exists x, snd (get_plain k "" o) = Ok x).
Proof. unfold get_plain, read; simpl. destruct (o k) eqn:E; simpl; split; eauto. Qed.
Lemma bind_V {A} (m : M aval) (f : aval -> M A) o : snd (m o) = Raise AttributeError -> snd (bind m f o) = Raise AttributeError.
Proof. unfold bind. destruct (m o) as [o' r]; simpl. intros ->. reflexivity. Qed.
Section History.
Variables (py : pyext) (o : obj) (h : history).
Hypothesis C : created py KOksar o.
Hypothesis W : wf_history h.
Let s := run_history (cls_of py KOksar) h o.
Lemma V_raises : snd (getattr (Oksar py) "" "V" s) = Raise AttributeError.
Proof. exact (C76_V_lemma py o h C W). Qed.
Lemma C76_grid_lemma compute : snd (simulation_grid py compute s) = Raise AttributeError.
Proof.
  unfold simulation_grid.
  apply bind_attr; [apply (plain_shape "_shape")|apply (plain_shape "_shape")|intros x1 _].
  apply bind_attr; [apply (plain_shape "_O")|apply (plain_shape "_O")|intros x2 _].
  apply bind_attr; [apply (plain_shape "_U")|apply (plain_shape "_U")|intros x3 _].
  apply bind_V. exact V_raises.
Qed.
Lemma C76_displacement_lemma compute rest : snd (displacement_vector py compute rest s) = Raise AttributeError.
Proof.
  unfold displacement_vector. pose proof (C76_grid_lemma compute) as G. unfold bind.
  destruct (simulation_grid py compute s) as [o' r]; simpl in *. rewrite G. reflexivity.
Qed.
Lemma C76_plot_lemma rest : snd (plot_displacement py rest s) = Raise AttributeError.
Proof.
  unfold plot_displacement.
  apply bind_attr; [apply (plain_shape "_U")|apply (plain_shape "_U")|intros x3 _].
  apply bind_attr; [apply (plain_shape "_shape")|apply (plain_shape "_shape")|intros x1 _].
  apply bind_attr; [apply (plain_shape "_O")|apply (plain_shape "_O")|intros x2 _].
  apply bind_V. exact V_raises.
Qed.
End History.

(** ** the grid, were V readable *)
Lemma linspace01_length n : List.length (linspace01 n) = n.
Proof. destruct n as [|[|n]]; [reflexivity|reflexivity|]. unfold linspace01. now rewrite map_length, seq_length. Qed.
Lemma linspace01_nth n i : (i < n)%nat -> nth i (linspace01 n) 0 = fraction i n.
Proof.
  intros H. unfold fraction. destruct n as [|[|n]]; [lia| |].
  - replace i with 0%nat by lia. simpl. unfold Rdiv. ring.
  - unfold linspace01. rewrite (nth_indep _ _ (INR 0 / INR (S n))) by (now rewrite map_length, seq_length).
    rewrite (map_nth (fun k => INR k / INR (S n))). rewrite seq_nth by exact H.
    replace (S (S n) - 1)%nat with (S n) by lia. reflexivity.
Qed.
Lemma flat_map_length {A B} (f : A -> list B) l k : (forall x, List.length (f x) = k) -> List.length (flat_map f l) = (List.length l * k)%nat.
Proof. intros H. induction l as [|x l IH]; [reflexivity|]. simpl. rewrite app_length, H, IH. reflexivity. Qed.
Lemma flat_map_nth {A B} (f : A -> list B) l k d e : (forall x, List.length (f x) = k) -> forall j i, (j < List.length l)%nat -> (i < k)%nat ->
  nth (j * k + i) (flat_map f l) e = nth i (f (nth j l d)) e.
Proof.
  intros H. induction l as [|x l IH]; intros j i Hj Hi; [simpl in Hj; lia|]. simpl flat_map.
  destruct j as [|j].
  - simpl. rewrite app_nth1 by (rewrite H; exact Hi). reflexivity.
  - rewrite app_nth2 by (rewrite H; simpl; lia). rewrite H. replace (S j * k + i - k)%nat with (j * k + i)%nat by (simpl; lia).
    simpl nth at 2. apply IH; [simpl in Hj; lia|exact Hi].
Qed.
Lemma grid_length O U V n0 n1 : List.length (grid O U V n0 n1) = (n1 * n0)%nat.
Proof. unfold grid. rewrite (flat_map_length _ _ n0), linspace01_length; [reflexivity|]. intros t. now rewrite map_length, linspace01_length. Qed.
Lemma grid_nth O U V n0 n1 i j : (i < n0)%nat -> (j < n1)%nat ->
  nth (j * n0 + i) (grid O U V n0 n1) (0, 0) =
  (fst O + (fst U * fraction i n0 + snd U * fraction j n1), snd O + (fst V * fraction i n0 + snd V * fraction j n1)).
Proof.
  intros Hi Hj. unfold grid. rewrite (flat_map_nth _ _ n0 0); [|intros t; now rewrite map_length, linspace01_length|rewrite linspace01_length; exact Hj|exact Hi].
  rewrite (linspace01_nth n1 j Hj). set (t := fraction j n1).
  rewrite (nth_indep _ _ ((fun s => (fst O + (fst U * s + snd U * t), snd O + (fst V * s + snd V * t))) 0)) by (now rewrite map_length, linspace01_length).
  rewrite (map_nth (fun s => (fst O + (fst U * s + snd U * t), snd O + (fst V * s + snd V * t)))), (linspace01_nth n0 i Hi). reflexivity.
Qed.
Lemma C76_grid_iff_lemma O U V n0 n1 : (2 <= n0)%nat -> (2 <= n1)%nat ->
  List.length (grid O U V n0 n1) = (n0 * n1)%nat /\
  ((forall i j, (i < n0)%nat -> (j < n1)%nat ->
     nth (j * n0 + i) (grid O U V n0 n1) (0, 0) = along O U V (fraction i n0) (fraction j n1)) <-> snd U = fst V).
Proof.
  intros H0 H1. split; [rewrite grid_length; lia|]. split.
  - intros H. specialize (H 0%nat (n1 - 1)%nat ltac:(lia) ltac:(lia)). rewrite grid_nth in H by lia.
    unfold along in H. assert (F : fraction 0 n0 = 0) by (unfold fraction, Rdiv; simpl; ring).
    assert (G : fraction (n1 - 1) n1 = 1) by (unfold fraction; apply Rinv_r; apply not_0_INR; lia).
    rewrite F, G in H. injection H as H _. lra.
  - intros E i j Hi Hj. rewrite grid_nth by assumption. unfold along. rewrite E. apply f_equal2; ring.
Qed.

(** ** the displacement, were the grid available *)
Lemma C76_size_lemma f vec : f_slip f <> 0 -> List.length vec <> 1%nat -> List.length vec <> 3%nat ->
  exists e, displacement f vec = Raise e.
Proof.
  intros S L1 L3. unfold displacement. cbv zeta.
  match goal with |- exists e, rbind (dc3d3 ?a ?b ?c ?d ?e ?f ?g ?h ?i) _ = _ => destruct (C81_size_lemma a b c d e f g h i) as (x & ->) end.
  - set (r := (f_rake f + 90) * pl8). assert (Q := sin2_cos2 r). unfold Rsqr in Q.
    destruct (Req_EM_T (sin r) 0) as [Z|Z]; [right|left].
    + rewrite Z in Q. apply Rmult_integral_contrapositive_currified; [exact S|]. intros E. rewrite E in Q. lra.
    + apply Rmult_integral_contrapositive_currified; [lra|exact Z].
  - now rewrite map_length.
  - now rewrite map_length.
  - exists x. reflexivity.
Qed.
(** no slip: an array of shape (3,) whatever the number of points *)
Lemma corner_noslip alp3 sd cd al1 al2 aw1 aw2 al minus l l' u : corner alp3 sd cd al1 al2 aw1 aw2 0 0 al minus (Vec 0 0 0) l = Ok (l', u) -> u = Vec 0 0 0.
Proof.
  unfold corner. destruct l as [|s0 r] eqn:El; [discriminate|]. rewrite <- El in *. cbv zeta. clear El.
  repeat match goal with |- context [if existsb ?f ?x then _ else _] => destruct (existsb f x); [discriminate|] end.
  replace (Reqb 0 0) with true by (symmetry; apply Reqb_true; reflexivity). cbn [rbind map_disp rot_du].
  destruct minus; cbn [map_disp neg3 add_disp rbind]; intros E; injection E as _ <-; f_equal; ring.
Qed.
Lemma dc3d3_noslip alpha B dip al1 al2 aw1 aw2 u : dc3d3 alpha B dip al1 al2 aw1 aw2 0 0 = Ok u -> u = Vec 0 0 0.
Proof.
  unfold dc3d3. destruct (dip_consts dip) as [sd cd]. cbv zeta. intros H.
  match type of H with rbind ?c _ = _ => destruct c as [[l1 u1]|] eqn:E1; [|discriminate] end.
  apply corner_noslip in E1. subst u1. cbn [rbind fst snd] in H.
  match type of H with rbind ?c _ = _ => destruct c as [[l2 u2]|] eqn:E2; [|discriminate] end.
  apply corner_noslip in E2. subst u2. cbn [rbind fst snd] in H.
  match type of H with rbind ?c _ = _ => destruct c as [[l3 u3]|] eqn:E3; [|discriminate] end.
  apply corner_noslip in E3. subst u3. cbn [rbind fst snd] in H.
  match type of H with rbind ?c _ = _ => destruct c as [[l4 u4]|] eqn:E4; [|discriminate] end.
  apply corner_noslip in E4. subst u4. cbn [rbind fst snd] in H. congruence.
Qed.
Lemma C76_noslip_lemma f vec v : f_slip f = 0 -> displacement f vec = Ok v -> v = Out1 (0, 0, 0).
Proof.
  intros S. unfold displacement. cbv zeta. rewrite S.
  match goal with |- rbind (dc3d3 ?a ?b ?c ?d ?e ?f ?g ?h ?i) _ = _ -> _ => replace h with 0 by ring; replace i with 0 by ring; destruct (dc3d3 a b c d e f g 0 0) as [u|] eqn:E; [|discriminate] end.
  apply dc3d3_noslip in E. subst u. cbn [rbind finish]. intros E. injection E as <-. f_equal. apply f_equal2; [apply f_equal2|]; ring.
Qed.
(** three points: the vertical displacements returned are the three components at the last point *)
Lemma C76_three_lemma f vec m rows : List.length m = 3%nat ->
  (forall alpha P dip al1 al2 aw1 aw2 d1 d2 u, dc3d3 alpha P dip al1 al2 aw1 aw2 d1 d2 = Ok u ->
     P = map (fun p : R * R => let c := cos ((f_strike f + 90) * pl8) in let s := sin ((f_strike f + 90) * pl8) in
        (c * (- fst (f_center f) + fst p) - s * (- snd (f_center f) + snd p),
         c * (- snd (f_center f) + snd p) + s * (- fst (f_center f) + fst p))) vec -> u = Mat m) ->
  displacement f vec = Ok (OutN rows) ->
  map snd rows = (let '(x, y, z) := nth 2 m (0, 0, 0) in [x; y; z]).
Proof.
  intros L H. unfold displacement. cbv zeta in *.
  match goal with |- rbind ?d _ = _ -> _ => destruct d as [u|] eqn:E; [|discriminate] end.
  apply H in E; [|reflexivity]. subst u. destruct m as [|[[a0 b0] c0] [|[[a1 b1] c1] [|[[a2 b2] c2] [|? ?]]]]; try discriminate.
  cbn. intros E. injection E as <-. reflexivity.
Qed.
