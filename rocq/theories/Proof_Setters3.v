From Coq Require Import Reals Lra Lia List Bool Arith ZArith Ascii String.
From Verif Require Import Numpy PyVal Spec_Setters Model_Setters Proof_Setters Proof_Setters2.
Import ListNotations.
Open Scope string_scope.
Open Scope R_scope.

(** ** C36: vectors of shape (3,) *)
Definition vec_at (k : string) (o : obj) : Prop := exists x, o k = Some x /\ is_vec3 x.

Lemma set_vec3_val py v x : wf_val v ->
  (exists a, asarray py v = Ok a /\ ashape (squeeze a) = [3%nat] /\ x = AArr (squeeze a)) -> is_vec3 x.
Proof.
  intros W (a&E&S&->). apply wf_vec3; auto. apply wf_squeeze. eapply asarray_wf; eauto.
Qed.
Lemma orient_val v x : wf_val v ->
  (exists a, x = AArr a /\ ashape a = [3%nat] /\ (wf_val v -> wf_arr a)) -> is_vec3 x.
Proof. intros W (a&->&S&F). apply wf_vec3; auto. Qed.

Lemma wf_default_loc v d : wf_val v -> wf_arr d -> wf_val (default_loc v d).
Proof. unfold default_loc; destruct v; simpl; auto. Qed.

(** (class, attribute) pairs and the key holding the vector *)
Definition vec_key (k : kind) (a : string) : option string :=
  match k with
  | KBaseDipole | KBaseElectricDipole | KBaseMagneticDipole | KMagneticDipoleWholeSpace
  | KCircularLoopWholeSpace | KFdemElectricDipole | KFdemMagneticDipole | KTdemElectricDipole
  | KTdemMagneticDipole =>
      if String.eqb a "location" then Some "_location"
      else if String.eqb a "orientation" then Some "_orientation" else None
  | KPointMass | KSphere => if String.eqb a "location" then Some "_location" else None
  | KBasePrism | KPrism =>
      if String.eqb a "min_location" then Some "_min_location"
      else if String.eqb a "max_location" then Some "_max_location" else None
  | KMagneticPrism =>
      if String.eqb a "min_location" then Some "_min_location"
      else if String.eqb a "max_location" then Some "_max_location"
      else if String.eqb a "magnetization" then Some "_magnetization" else None
  | _ => None
  end.

Lemma vec_key_reads py k a key o x : vec_key k a = Some key -> o key = Some x ->
  reads (cls_of py k) o a = Ok x.
Proof.
  intros V E. unfold vec_key in V.
  destruct k; try discriminate;
  repeat match type of V with
  | (if String.eqb ?a ?s then _ else _) = _ => destruct (String.eqb_spec a s); [subst a; injection V as <-|]
  end; try discriminate; unfold reads, getattr; simpl; unfold get_plain, read; simpl; rewrite E; reflexivity.
Qed.

Lemma vec_step py k a key b v o : vec_key k a = Some key -> wf_val v -> vec_at key o ->
  vec_at key (fst (setattr (cls_of py k) "" b v o)).
Proof.
  intros V W I. unfold vec_key in V.
  destruct k; try discriminate;
  repeat match type of V with
  | (if String.eqb ?a ?s then _ else _) = _ => destruct (String.eqb a s); [injection V as <-|]
  end; try discriminate;
  by_attr; try exact I; try setter_case; try exact I; unfold vec_at, upd; simpl; try exact I;
  eexists; split; try reflexivity; eauto using set_vec3_val, orient_val.
Qed.

Lemma vec_created py k a key o : created py k o -> vec_key k a = Some key -> vec_at key o.
Proof.
  intros C V. destruct C; simpl in V; try discriminate;
  repeat match type of V with
  | (if String.eqb ?a ?s then _ else _) = _ => destruct (String.eqb a s); [injection V as <-|]
  end; try discriminate; run_init; 
  repeat match goal with H : Forall wf_val (_ :: _) |- _ => inversion H; clear H; subst end;
  unfold vec_at, upd; simpl; eexists; split; try reflexivity;
  first [ eapply orient_val; [|eassumption]; assumption
        | eapply set_vec3_val; [|eassumption]; 
          first [assumption | apply wf_default_loc; [assumption|reflexivity] ] ].
Qed.

Lemma C36_lemma py k a key o h : created py k o -> wf_history h -> vec_key k a = Some key ->
  exists x y z, reads (cls_of py k) (run_history (cls_of py k) h o) a = Ok (AArr (vec3 x y z)).
Proof.
  intros C W V.
  assert (I : vec_at key (run_history (cls_of py k) h o)).
  { apply history_inv; auto. intros; eapply vec_step; eauto. eapply vec_created; eauto. }
  destruct I as (x&E&(x1&x2&x3&->)). exists x1, x2, x3. eapply vec_key_reads; eauto.
Qed.

(** ** C37 *)
Definition nodes_ok (o : obj) : Prop :=
  exists a n, o "_nodes" = Some (AArr a) /\ ashape a = [n; 3%nat] /\ List.length (adata a) = (n * 3)%nat.

Lemma wf_nodes a n : wf_arr a -> ashape a = [n; 3%nat] -> List.length (adata a) = (n * 3)%nat.
Proof. unfold wf_arr; intros W S; rewrite W, S; simpl; lia. Qed.

Lemma atleast_1d_len a : wf_arr a -> ashape (atleast_1d a) = [3%nat] -> List.length (adata a) = 3%nat.
Proof.
  destruct a as [s d]; unfold wf_arr, atleast_1d; simpl; intros W S; destruct s; simpl in *; [discriminate|].
  injection S as -> ->. simpl in W; lia.
Qed.

Lemma nodes_step py k b v o : In k line_kinds -> wf_val v -> nodes_ok o ->
  nodes_ok (fst (setattr (cls_of py k) "" b v o)).
Proof.
  intros Hk W I. by_kind Hk; by_attr; try exact I; try setter_case; try exact I;
  unfold nodes_ok, upd; simpl; try exact I.
  all: try (destruct P as (a'&n&E&->&S&Wf); exists (atleast_2d a'), n; repeat split; auto; apply wf_nodes; auto; fail).
  destruct P as (a'&nodes&E&S&EN&L&->). simpl in EN.
  destruct I as (a0&n&E0&S0&L0). rewrite EN in E0; injection E0 as <-.
  eexists; exists n; split; [reflexivity|]. cbn [ashape adata]. split; auto.
  rewrite app_length, skipn_length, L0, (atleast_1d_len a'); auto; [|eapply asarray_wf; eauto].
  unfold alen in L. rewrite S0 in L; simpl in L. lia.
Qed.

Lemma nodes_created py k o : created py k o -> In k line_kinds -> nodes_ok o.
Proof.
  intros C Hk. destruct C; simpl in Hk; try (exfalso; intuition discriminate); clear Hk; run_init; dec_all;
  unfold nodes_ok, upd; simpl; do 2 eexists; split; try reflexivity; split; eauto; apply wf_nodes; eauto.
  match goal with H : wf_val (default_loc _ _) -> _ |- _ => apply H; apply wf_default_loc; [assumption|reflexivity] end.
Qed.

Lemma reads_line py k o : In k line_kinds ->
  reads (cls_of py k) o "nodes" = snd (get_plain "_nodes" "" o) /\
  reads (cls_of py k) o "n_segments" = snd (line_get_n_segments "" o) .
Proof. intros Hk. by_kind Hk; split; reflexivity. Qed.

Lemma C37_lemma py k o h : created py k o -> In k line_kinds -> wf_history h ->
  exists n data, List.length data = (n * 3)%nat /\
    reads (cls_of py k) (run_history (cls_of py k) h o) "nodes" = Ok (AArr (mkarr [n; 3%nat] data)) /\
    reads (cls_of py k) (run_history (cls_of py k) h o) "n_segments" = Ok (AInt (Z.of_nat n - 1)).
Proof.
  intros C Hk W.
  assert (I : nodes_ok (run_history (cls_of py k) h o)).
  { apply history_inv; auto. intros; apply nodes_step; auto. eapply nodes_created; eauto. }
  destruct I as (a&n&E&S&L). exists n, (adata a). split; auto.
  destruct (reads_line py k (run_history (cls_of py k) h o) Hk) as (->&->).
  rewrite (get_plain_eq _ _ _ E). destruct a as [s d]; simpl in S; subst s. split; [reflexivity|].
  unfold line_get_n_segments. sbind. simpl. rewrite E. reflexivity.
Qed.

Lemma C37_single_lemma py k o v a x y z : In k line_kinds -> asarray py v = Ok a -> a = vec3 x y z ->
  snd (setattr (cls_of py k) "" "nodes" v o) = Ok tt /\
  reads (cls_of py k) (fst (setattr (cls_of py k) "" "nodes" v o)) "nodes"
    = Ok (AArr (mkarr [1%nat; 3%nat] [x; y; z])) /\
  reads (cls_of py k) (fst (setattr (cls_of py k) "" "nodes" v o)) "n_segments" = Ok (AInt 0).
Proof.
  intros Hk A ->.
  assert (E : setattr (cls_of py k) "" "nodes" v o = line_set_nodes py "" v o) by (by_kind Hk; reflexivity).
  assert (E2 : line_set_nodes py "" v o = (upd o "_nodes" (AArr (mkarr [1%nat; 3%nat] [x; y; z])), Ok tt)).
  { unfold line_set_nodes. sbind. rewrite A. reflexivity. }
  rewrite E, E2. split; [reflexivity|]. simpl fst.
  destruct (reads_line py k (upd o "_nodes" (AArr (mkarr [1%nat; 3%nat] [x; y; z]))) Hk) as (->&->).
  split; reflexivity.
Qed.

(** accepted shapes: exactly a single point (3,) or (n,3) *)
Lemma C37_accept_lemma py k o v : In k line_kinds ->
  (snd (setattr (cls_of py k) "" "nodes" v o) = Ok tt <->
   exists a, asarray py v = Ok a /\ (ashape a = [3%nat] \/ exists n, ashape a = [n; 3%nat])).
Proof.
  intros Hk.
  assert (E : setattr (cls_of py k) "" "nodes" v o = line_set_nodes py "" v o) by (by_kind Hk; reflexivity).
  rewrite E. unfold line_set_nodes. sbind. split.
  - destruct (asarray py v) as [a|] eqn:A; [|discriminate]. intros H; exists a; split; auto. revert H.
    destruct a as [s d]; unfold atleast_2d, ndim; cbn [ashape].
    destruct s as [|n [|m [|q r]]]; cbn [ashape nth List.length Nat.eqb negb orb snd]; try discriminate.
    + destruct (Nat.eqb_spec n 3); [subst; auto|discriminate].
    + destruct (Nat.eqb_spec m 3); [subst; eauto|discriminate].
    + rewrite orb_true_r; discriminate.
  - intros (a&->&H). destruct a as [s d]; cbn [ashape] in H.
    destruct H as [->|(n&->)]; reflexivity.
Qed.
