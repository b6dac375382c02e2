(** Proofs for C105. *)
From Coq Require Import Reals Lra Lia List Bool Arith ZArith String.
From Verif Require Import Numpy PyVal Model_Setters Spec_Setters Spec_Contracts Proof_Setters Proof_Setters2 Proof_Contracts Model_Construct Spec_Construct.
Import ListNotations.
Open Scope string_scope.
Open Scope R_scope.

(** ** the assignments a call makes, as one list *)
Definition getter : Type := string -> option pyval.
Fixpoint assign_seq (c : cls) (l : list (string * pyval)) : M unit :=
  match l with
  | [] => ret tt
  | (a, v) :: r => setattr c "" a v ;; assign_seq c r
  end.
Definition pick (get : getter) (l : list string) : list (string * pyval) :=
  flat_map (fun a => match get a with Some v => [(a, v)] | None => [] end) l.
Fixpoint sig_value (sg : signature) (get : getter) (a : string) : option pyval :=
  match sg with
  | [] => None
  | p :: r => if String.eqb (fst p) a then match get (fst p) with Some v => Some v | None => snd p end else sig_value r get a
  end.
Definition none_value (if_none : kwargs) (a : string) (v : option pyval) : option pyval :=
  match v with
  | Some v => Some (if is_none v then match kw_get if_none a with Some d => d | None => v end else v)
  | None => None
  end.
Definition vals_of (sg : signature) (if_none : kwargs) (get : getter) : getter :=
  fun a => none_value if_none a (sig_value sg get a).
Definition rest_of (sg : signature) (get : getter) : getter :=
  fun a => if mem a (names sg) then None else get a.
Definition next_get (sg : signature) (if_none : kwargs) (optional pass : list string) (get : getter) : getter :=
  fun a => match (if mem a pass then vals_of sg if_none get a else None) with
           | Some v => Some v
           | None => if mem a optional then None else rest_of sg get a
           end.
Fixpoint plan (i : init) (get : getter) : list (string * pyval) :=
  match i with
  | Object | NoSuper => []
  | Init sg varkw if_none before optional pass super after =>
      (pick (vals_of sg if_none get) before ++ pick (rest_of sg get) optional ++
       plan super (next_get sg if_none optional pass get) ++ pick (vals_of sg if_none get) after)%list
  end.
Fixpoint accepted (i : init) : list string :=
  match i with
  | Object | NoSuper => []
  | Init sg varkw if_none before optional pass super after =>
      (names sg ++ (if varkw then optional ++ accepted super else []))%list
  end.
Fixpoint complete (i : init) (get : getter) : Prop :=
  match i with
  | Object | NoSuper => True
  | Init sg varkw if_none before optional pass super after =>
      (forall a, In (a, None) sg -> get a <> None) /\ complete super (next_get sg if_none optional pass get)
  end.
Fixpoint sane (i : init) : Prop :=
  match i with
  | Object | NoSuper => True
  | Init sg varkw if_none before optional pass super after =>
      (varkw = true -> super <> NoSuper) /\ (varkw = false -> optional = []) /\
      (forall a, In a pass -> In a (accepted super)) /\ sane super
  end.

Lemma mem_In a l : mem a l = true <-> In a l.
Proof.
  unfold mem. rewrite existsb_exists. split.
  - intros [b [I E]]. apply String.eqb_eq in E. now subst.
  - intros I. exists a. split; [assumption|apply String.eqb_refl].
Qed.
Lemma mem_not a l : mem a l = false <-> ~ In a l.
Proof. rewrite <- mem_In. now destruct (mem a l). Qed.
Lemma kw_get_app k1 k2 a : kw_get (k1 ++ k2)%list a = match kw_get k1 a with Some v => Some v | None => kw_get k2 a end.
Proof. induction k1 as [|[b v] r IH]; [reflexivity|]. simpl. now destruct (String.eqb b a). Qed.
Lemma kw_get_filter f kw a : (forall p, f p = f (fst p, PNone)) ->
  kw_get (filter f kw) a = if f (a, PNone) then kw_get kw a else None.
Proof.
  intros F. induction kw as [|[b v] r IH]; [now destruct (f (a, PNone))|]. simpl. rewrite (F (b, v)). simpl.
  destruct (String.eqb b a) eqn:E.
  - apply String.eqb_eq in E. subst b. destruct (f (a, PNone)) eqn:Fa; simpl; [now rewrite String.eqb_refl|assumption].
  - destruct (f (b, PNone)); simpl; rewrite ?E; assumption.
Qed.
Lemma kw_get_None kw a : kw_get kw a = None <-> ~ In a (map fst kw).
Proof.
  induction kw as [|[b v] r IH]; simpl; [tauto|]. destruct (String.eqb b a) eqn:E.
  - apply String.eqb_eq in E. split; [discriminate|tauto].
  - apply String.eqb_neq in E. rewrite IH. tauto.
Qed.
Lemma kw_get_replace n l a : kw_get (map (replace_none n) l) a = none_value n a (kw_get l a).
Proof.
  induction l as [|[b v] r IH]; [reflexivity|]. simpl. destruct (String.eqb b a) eqn:E; [|assumption].
  apply String.eqb_eq in E. now subst.
Qed.
Lemma keys_replace n l : map fst (map (replace_none n) l) = map fst l.
Proof. rewrite map_map. reflexivity. Qed.
Lemma all_values_spec given sg : 
  (forall vals, all_values given sg = Ok vals -> (forall a, kw_get vals a = sig_value sg (kw_get given) a) /\
     (forall a, In (a, None) sg -> kw_get given a <> None) /\ map fst vals = names sg) /\
  ((forall a, In (a, None) sg -> kw_get given a <> None) -> exists vals, all_values given sg = Ok vals) /\
  (forall e, all_values given sg = Raise e -> e = TypeError).
Proof.
  induction sg as [|[a d] r [IH1 [IH2 IH3]]].
  { split; [|split]; simpl.
    - intros vals [= <-]. split; [reflexivity|]. split; [tauto|reflexivity].
    - eauto.
    - discriminate. }
  simpl. unfold param_value. simpl. split; [|split].
  - intros vals. destruct (kw_get given a) as [v|] eqn:G.
    + destruct (all_values given r) as [l|] eqn:A; [|discriminate]. intros [= <-]. destruct (IH1 l eq_refl) as [K [N Q]].
      split; [|split].
      * intros b. simpl. destruct (String.eqb a b) eqn:E; [|apply K]. reflexivity.
      * intros b [H|H]; [inversion H; subst; congruence|now apply N].
      * simpl. now rewrite Q.
    + destruct d as [d|]; [|discriminate]. destruct (all_values given r) as [l|] eqn:A; [|discriminate].
      intros [= <-]. destruct (IH1 l eq_refl) as [K [N Q]].
      split; [|split].
      * intros b. simpl. destruct (String.eqb a b) eqn:E; [|apply K]. reflexivity.
      * intros b [H|H]; [inversion H|now apply N].
      * simpl. now rewrite Q.
  - intros N. destruct IH2 as [l A]; [intros b I; apply N; now right|]. rewrite A.
    destruct (kw_get given a) as [v|] eqn:G; [eauto|]. destruct d as [d|]; [eauto|].
    exfalso. apply (N a); [now left|assumption].
  - intros e. destruct (kw_get given a) as [v|] eqn:G.
    + destruct (all_values given r) as [l|x] eqn:A; [discriminate|]. intros [= <-]. now apply IH3.
    + destruct d as [d|]; [|now intros [= <-]]. destruct (all_values given r) as [l|x] eqn:A; [discriminate|].
      intros [= <-]. now apply IH3.
Qed.
Lemma by_position_spec l pos :
  (forall given, by_position l pos = Ok given ->
     (List.length pos <= List.length l)%nat /\ (forall a, kw_get given a = position_of a l pos)) /\
  ((List.length pos <= List.length l)%nat -> exists given, by_position l pos = Ok given) /\
  (forall e, by_position l pos = Raise e -> e = TypeError).
Proof.
  revert pos. induction l as [|b l IH]; intros [|v pos]; simpl.
  - split; [|split]; [intros g [= <-]; split; [lia|reflexivity]|eauto|discriminate].
  - split; [|split]; [discriminate|lia|congruence].
  - split; [|split]; [intros g [= <-]; split; [lia|reflexivity]|eauto|discriminate].
  - destruct (IH pos) as [I1 [I2 I3]]. split; [|split].
    + intros g. destruct (by_position l pos) as [g'|] eqn:B; [|discriminate]. simpl. intros [= <-].
      destruct (I1 g' eq_refl) as [L K]. split; [lia|]. intros a. simpl. now rewrite K.
    + intros L. destruct I2 as [g B]; [lia|]. rewrite B. simpl. eauto.
    + intros e. destruct (by_position l pos) as [g'|x] eqn:B; [discriminate|]. simpl. intros [= <-]. now apply I3.
Qed.

(** binding, in the terms of the specification *)
Definition call_get (l : list string) (pos : list pyval) (kw : kwargs) : getter :=
  fun a => match position_of a l pos with Some v => Some v | None => kw_get kw a end.
Definition bindable (sg : signature) (varkw : bool) (pos : list pyval) (kw : kwargs) : Prop :=
  (List.length pos <= List.length (names sg))%nat /\
  (forall a, In a (map fst kw) -> position_of a (names sg) pos = None) /\
  (varkw = false -> forall a, In a (map fst kw) -> In a (names sg)) /\
  (forall a, In (a, None) sg -> call_get (names sg) pos kw a <> None).
Definition bound_to (sg : signature) (pos : list pyval) (kw : kwargs) (b : kwargs * kwargs) : Prop :=
  (forall a, kw_get (fst b) a = sig_value sg (call_get (names sg) pos kw) a) /\
  map fst (fst b) = names sg /\
  snd b = filter (fun p => negb (mem (fst p) (names sg))) kw.
Lemma sig_value_ext sg g1 g2 a : (forall a, g1 a = g2 a) -> sig_value sg g1 a = sig_value sg g2 a.
Proof. intros E. induction sg as [|[b d] r IH]; simpl; [reflexivity|]. now rewrite E, IH. Qed.
Lemma bind_spec sg varkw pos kw :
  (forall b, bind_args sg varkw pos kw = Ok b -> bindable sg varkw pos kw /\ bound_to sg pos kw b) /\
  (bindable sg varkw pos kw -> exists b, bind_args sg varkw pos kw = Ok b) /\
  (forall e, bind_args sg varkw pos kw = Raise e -> e = TypeError).
Proof.
  unfold bind_args, bindable, bound_to. destruct (by_position_spec (names sg) pos) as [P1 [P2 P3]].
  destruct (by_position (names sg) pos) as [given|x] eqn:B.
  2:{ split; [|split]; [discriminate| |intros e [= <-]; now apply P3].
      intros [L _]. destruct (P2 L) as [g G]. discriminate G. }
  destruct (P1 given eq_refl) as [L K]. clear P1 P2 P3.
  assert (G : forall a, kw_get (given ++ kw)%list a = call_get (names sg) pos kw a).
  { intros a. rewrite kw_get_app. unfold call_get. now rewrite K. }
  destruct (existsb (fun p => mem (fst p) (map fst given)) kw) eqn:D.
  { split; [|split]; [discriminate| |congruence].
    intros [_ [N _]]. apply existsb_exists in D as [p [I M]]. exfalso. apply mem_In in M.
    destruct (kw_get given (fst p)) eqn:Q.
    - rewrite K, N in Q; [discriminate|]. now apply in_map.
    - now apply kw_get_None in Q. }
  assert (Dup : forall a, In a (map fst kw) -> position_of a (names sg) pos = None).
  { intros a I. rewrite <- K. apply kw_get_None. intros J. apply in_map_iff in I as [p [<- I]].
    assert (existsb (fun p => mem (fst p) (map fst given)) kw = true); [|congruence].
    apply existsb_exists. exists p. split; [assumption|]. now apply mem_In. }
  set (rest := filter (fun p => negb (mem (fst p) (names sg))) kw).
  assert (Rst : rest = [] <-> (forall a, In a (map fst kw) -> In a (names sg))).
  { unfold rest. clear. induction kw as [|[b v] r IH]; simpl; [intuition|].
    destruct (mem b (names sg)) eqn:M; simpl.
    - rewrite IH. apply mem_In in M. intuition; subst; auto.
    - split; [discriminate|]. intros H. apply mem_not in M. exfalso. apply M, H. now left. }
  destruct (all_values_spec (given ++ kw)%list sg) as [A1 [A2 A3]].
  destruct (negb varkw && negb (Nat.eqb (List.length rest) 0)) eqn:V.
  { apply andb_true_iff in V as [V1 V2]. apply negb_true_iff in V1. apply negb_true_iff, Nat.eqb_neq in V2.
    split; [|split]; [discriminate| |congruence]. intros [_ [_ [U _]]]. specialize (U V1). apply Rst in U.
    rewrite U in V2. simpl in V2. lia. }
  assert (U : varkw = false -> forall a, In a (map fst kw) -> In a (names sg)).
  { intros ->. simpl in V. apply Rst. apply negb_false_iff, Nat.eqb_eq in V. now apply List.length_zero_iff_nil. }
  destruct (all_values (given ++ kw)%list sg) as [vals|x] eqn:A.
  - destruct (A1 vals eq_refl) as [Q1 [Q2 Q3]]. split; [|split]; [|eauto|discriminate].
    intros b [= <-]. split.
    + split; [exact L|]. split; [exact Dup|]. split; [exact U|]. intros a I. rewrite <- G. now apply Q2.
    + split; [|split; [exact Q3|reflexivity]]. intros a. simpl. rewrite Q1. now apply sig_value_ext.
  - split; [|split]; [discriminate| |intros e [= <-]; now apply A3].
    intros [_ [_ [_ N]]]. destruct A2 as [vals Q]; [|discriminate Q]. intros a I. rewrite G. now apply N.
Qed.

(** ** plans *)
Lemma pick_ext g1 g2 l : (forall a, g1 a = g2 a) -> pick g1 l = pick g2 l.
Proof. intros E. unfold pick. induction l as [|a l IH]; simpl; [reflexivity|]. now rewrite E, IH. Qed.
Lemma vals_ext sg n g1 g2 : (forall a, g1 a = g2 a) -> forall a, vals_of sg n g1 a = vals_of sg n g2 a.
Proof. intros E a. unfold vals_of. now rewrite (sig_value_ext sg g1 g2). Qed.
Lemma rest_ext sg g1 g2 : (forall a, g1 a = g2 a) -> forall a, rest_of sg g1 a = rest_of sg g2 a.
Proof. intros E a. unfold rest_of. now rewrite E. Qed.
Lemma next_ext sg n o p g1 g2 : (forall a, g1 a = g2 a) -> forall a, next_get sg n o p g1 a = next_get sg n o p g2 a.
Proof. intros E a. unfold next_get. now rewrite (vals_ext sg n g1 g2 E), (rest_ext sg g1 g2 E). Qed.
Lemma plan_ext i : forall g1 g2, (forall a, g1 a = g2 a) -> plan i g1 = plan i g2.
Proof.
  induction i as [| |sg vk n b op p s IH af]; intros g1 g2 E; [reflexivity|reflexivity|]. simpl.
  rewrite (pick_ext _ _ b (vals_ext sg n g1 g2 E)), (pick_ext _ _ af (vals_ext sg n g1 g2 E)), (pick_ext _ _ op (rest_ext sg g1 g2 E)).
  now rewrite (IH _ _ (next_ext sg n op p g1 g2 E)).
Qed.
Lemma complete_ext i : forall g1 g2, (forall a, g1 a = g2 a) -> complete i g1 -> complete i g2.
Proof.
  induction i as [| |sg vk n b op p s IH af]; intros g1 g2 E; [easy|easy|]. simpl. intros [C1 C2]. split.
  - intros a I. rewrite <- E. now apply C1.
  - eapply IH; [|exact C2]. now apply next_ext.
Qed.
Lemma assign_seq_app c l1 l2 o : assign_seq c (l1 ++ l2)%list o = (assign_seq c l1 ;; assign_seq c l2) o.
Proof.
  revert o. induction l1 as [|[a v] r IH]; intros o; [reflexivity|]. simpl. unfold bind in *.
  destruct (setattr c "" a v o) as [o' [t|e]]; [apply IH|reflexivity].
Qed.
Lemma assign_all_seq c l vals o : assign_all c l vals o = assign_seq c (pick (kw_get vals) l) o.
Proof.
  revert o. induction l as [|a l IH]; intros o; [reflexivity|]. simpl. unfold pick. simpl.
  destruct (kw_get vals a) as [v|] eqn:K; simpl; [|apply IH].
  unfold bind. destruct (setattr c "" a v o) as [o' [t|e]]; [apply IH|reflexivity].
Qed.
Definition good_call (i : init) (pos : list pyval) (kw : kwargs) : Prop :=
  match i with
  | Object => pos = [] /\ kw = []
  | NoSuper => True
  | Init sg varkw _ _ _ _ _ _ =>
      (List.length pos <= List.length (names sg))%nat /\
      (forall a, In a (map fst kw) -> position_of a (names sg) pos = None) /\
      (forall a, In a (map fst kw) -> In a (accepted i)) /\
      complete i (call_get (names sg) pos kw)
  end.
Definition first_names (i : init) : list string := match i with Init sg _ _ _ _ _ _ _ => names sg | _ => [] end.
Lemma position_not a l pos : ~ In a l -> position_of a l pos = None.
Proof.
  revert pos. induction l as [|b l IH]; intros [|v pos] N; simpl; try reflexivity.
  destruct (String.eqb b a) eqn:E; [|apply IH; intros H; apply N; now right].
  apply String.eqb_eq in E. exfalso. apply N. now left.
Qed.
Lemma call_get_nil l kw a : call_get l [] kw a = kw_get kw a.
Proof. unfold call_get. now destruct l. Qed.
Lemma next_kw sg n op p pos kw b : bound_to sg pos kw b ->
  forall a, kw_get (keep p (map (replace_none n) (fst b)) ++ drop op (snd b))%list a
    = next_get sg n op p (call_get (names sg) pos kw) a.
Proof.
  intros [V [N Rs]] a. rewrite kw_get_app. unfold keep, drop, next_get.
  rewrite kw_get_filter by reflexivity. rewrite kw_get_filter by reflexivity. simpl.
  rewrite kw_get_replace, V, Rs. rewrite kw_get_filter by reflexivity. simpl. fold (vals_of sg n (call_get (names sg) pos kw) a).
  assert (Q : forall x, (if negb (mem a (names sg)) then kw_get kw a else None) = x ->
    rest_of sg (call_get (names sg) pos kw) a = x).
  { intros x <-. unfold rest_of. destruct (mem a (names sg)) eqn:M; [reflexivity|]. simpl. unfold call_get.
    apply mem_not in M. now rewrite position_not. }
  rewrite (Q _ eq_refl). destruct (mem a p), (mem a op); reflexivity.
Qed.
Lemma rest_kw sg pos kw b : bound_to sg pos kw b -> forall a, kw_get (snd b) a = rest_of sg (call_get (names sg) pos kw) a.
Proof.
  intros [_ [_ ->]] a. rewrite kw_get_filter by reflexivity. simpl. unfold rest_of. destruct (mem a (names sg)) eqn:M; [reflexivity|].
  simpl. unfold call_get. apply mem_not in M. now rewrite position_not.
Qed.
Lemma vals_kw sg n pos kw b : bound_to sg pos kw b ->
  forall a, kw_get (map (replace_none n) (fst b)) a = vals_of sg n (call_get (names sg) pos kw) a.
Proof. intros [V _] a. rewrite kw_get_replace, V. reflexivity. Qed.
Lemma keys_filter (f : string -> bool) (kw : kwargs) a :
  In a (map fst (filter (fun p => f (fst p)) kw)) <-> In a (map fst kw) /\ f a = true.
Proof.
  rewrite !in_map_iff. split.
  - intros [p [<- H]]. apply filter_In in H as [H F]. split; [now exists p|assumption].
  - intros [[p [<- H]] F]. exists p. split; [reflexivity|]. apply filter_In. now split.
Qed.
Lemma next_keys sg n op p pos kw b a : bound_to sg pos kw b ->
  In a (map fst (keep p (map (replace_none n) (fst b)) ++ drop op (snd b))%list) <->
  (In a p /\ In a (names sg)) \/ (In a (map fst kw) /\ ~ In a (names sg) /\ ~ In a op).
Proof.
  intros [_ [N Rs]]. rewrite map_app, in_app_iff. unfold keep, drop.
  rewrite (keys_filter (fun a => mem a p)), (keys_filter (fun a => negb (mem a op))), Rs, (keys_filter (fun a => negb (mem a (names sg)))).
  rewrite keys_replace, N, !negb_true_iff, !mem_not, mem_In. tauto.
Qed.
Lemma keys_nil (kw : kwargs) : (forall a, ~ In a (map fst kw)) -> kw = [].
Proof. destruct kw as [|[a v] r]; [reflexivity|]. intros H. exfalso. apply (H a). now left. Qed.
Lemma run_good c i : forall pos kw, sane i -> good_call i pos kw ->
  forall o, run_init c i pos kw o = assign_seq c (plan i (call_get (first_names i) pos kw)) o.
Proof.
  induction i as [| |sg vk n bf op p s IH af]; intros pos kw S G o.
  - destruct G as [-> ->]. reflexivity.
  - reflexivity.
  - destruct G as [L [D [A C]]]. destruct S as [S1 [S2 [S3 S4]]]. cbn [first_names].
    destruct (bind_spec sg vk pos kw) as [_ [B _]]. destruct B as [b B].
    { split; [exact L|]. split; [exact D|]. split; [|apply C].
      intros -> a I. specialize (A a I). simpl in A. now rewrite app_nil_r in A. }
    destruct (bind_spec sg vk pos kw) as [B1 _]. destruct (B1 b B) as [_ Bd]. clear B1.
    cbn [run_init]. unfold bind at 1, lift. rewrite B. cbv beta iota.
    assert (P : plan (Init sg vk n bf op p s af) (call_get (names sg) pos kw) =
      (pick (kw_get (map (replace_none n) (fst b))) bf ++ pick (kw_get (snd b)) op ++
       plan s (kw_get (keep p (map (replace_none n) (fst b)) ++ drop op (snd b))%list) ++
       pick (kw_get (map (replace_none n) (fst b))) af)%list).
    { cbn [plan]. rewrite (pick_ext _ _ bf (vals_kw sg n pos kw b Bd)), (pick_ext _ _ af (vals_kw sg n pos kw b Bd)),
        (pick_ext _ _ op (rest_kw sg pos kw b Bd)). now rewrite (plan_ext s _ _ (next_kw sg n op p pos kw b Bd)). }
    rewrite P. rewrite assign_seq_app. unfold bind at 1. symmetry. unfold bind at 1. rewrite assign_all_seq.
    destruct (assign_seq c (pick _ bf) o) as [o1 [t|e]]; [|reflexivity].
    rewrite assign_seq_app. unfold bind. rewrite assign_all_seq.
    destruct (assign_seq c (pick _ op) o1) as [o2 [t'|e]]; [|reflexivity].
    rewrite assign_seq_app. unfold bind. rewrite IH.
    + rewrite (plan_ext s _ _ (call_get_nil (first_names s) (keep p (map (replace_none n) (fst b)) ++ drop op (snd b))%list)).
      destruct (assign_seq c (plan s _) o2) as [o3 [t''|e]]; [|reflexivity]. now rewrite assign_all_seq.
    + exact S4.
    + assert (K : forall a, In a (map fst (keep p (map (replace_none n) (fst b)) ++ drop op (snd b))%list) -> s = NoSuper \/ In a (accepted s)).
      { intros a I. apply (next_keys sg n op p pos kw b a Bd) in I as [[I _]|[I [N1 N2]]]; [right; now apply S3|].
        specialize (A a I). simpl in A. apply in_app_iff in A as [A|A]; [contradiction|].
        destruct vk; [|contradiction]. apply in_app_iff in A as [A|A]; [contradiction|]. now right. }
      destruct s as [| |sg' vk' n' bf' op' p' s' af'].
      * split; [reflexivity|]. apply keys_nil. intros a I. apply K in I as [I|I]; [discriminate|exact I].
      * exact I.
      * split; [simpl; lia|]. split; [intros; now destruct (names sg')|].
        split; [intros a I; apply K in I as [I|I]; [discriminate|exact I]|].
        destruct C as [_ C]. eapply complete_ext; [|exact C]. intros a. rewrite call_get_nil. symmetry. now apply next_kw.
Qed.
Lemma run_ok c i : forall pos kw o o', sane i -> run_init c i pos kw o = (o', Ok tt) -> good_call i pos kw.
Proof.
  induction i as [| |sg vk n bf op p s IH af]; intros pos kw o o' S H.
  - simpl in H. destruct pos, kw; simpl; try (split; reflexivity); discriminate H.
  - exact I.
  - destruct S as [S1 [S2 [S3 S4]]]. cbn [run_init] in H. unfold bind at 1, lift in H.
    destruct (bind_args sg vk pos kw) as [b|] eqn:B; [|discriminate H]. cbv beta iota in H.
    destruct (bind_spec sg vk pos kw) as [B1 _]. destruct (B1 b B) as [[L [D [U N]]] Bd]. clear B1.
    unfold bind at 1 in H. destruct (assign_all c bf _ o) as [o1 [t|e]]; [|discriminate H].
    unfold bind at 1 in H. destruct (assign_all c op _ o1) as [o2 [t'|e]]; [|discriminate H].
    unfold bind at 1 in H. destruct (run_init c s [] _ o2) as [o3 [[]|e]] eqn:Rn; [|discriminate H].
    specialize (IH _ _ _ _ S4 Rn). split; [exact L|]. split; [exact D|]. split.
    + intros a I. simpl. apply in_app_iff. destruct (in_dec string_dec a (names sg)) as [Y|Y]; [now left|right].
      destruct vk; [|exfalso; apply Y; now apply U]. apply in_app_iff. destruct (in_dec string_dec a op) as [Z|Z]; [now left|right].
      assert (K : In a (map fst (keep p (map (replace_none n) (fst b)) ++ drop op (snd b))%list)).
      { apply (next_keys sg n op p pos kw b a Bd). tauto. }
      destruct s as [| |sg' vk' n' bf' op' p' s' af'].
      * destruct IH as [_ E]. rewrite E in K. contradiction.
      * exfalso. now apply S1.
      * destruct IH as [_ [_ [A _]]]. now apply A.
    + split; [exact N|]. destruct s as [| |sg' vk' n' bf' op' p' s' af']; try exact I.
      destruct IH as [_ [_ [_ C]]]. eapply complete_ext; [|exact C]. intros a. rewrite call_get_nil. now apply next_kw.
Qed.

(** ** the plan is one pass over the attribute names *)
Fixpoint wnames (i : init) : list string :=
  match i with
  | Object | NoSuper => []
  | Init sg varkw if_none before optional pass super after => (before ++ optional ++ wnames super ++ after)%list
  end.
Fixpoint value (i : init) (get : getter) (a : string) : option pyval :=
  match i with
  | Object | NoSuper => None
  | Init sg varkw if_none before optional pass super after =>
      if mem a before then vals_of sg if_none get a
      else if mem a optional then rest_of sg get a
      else if mem a after then vals_of sg if_none get a
      else value super (next_get sg if_none optional pass get) a
  end.
Lemma pick_app g l1 l2 : pick g (l1 ++ l2)%list = (pick g l1 ++ pick g l2)%list.
Proof. apply flat_map_app. Qed.
Lemma pick_ext_in g1 g2 l : (forall a, In a l -> g1 a = g2 a) -> pick g1 l = pick g2 l.
Proof.
  unfold pick. induction l as [|a l IH]; intros E; [reflexivity|]. simpl. rewrite (E a (or_introl eq_refl)).
  now rewrite IH by (intros b I; apply E; now right).
Qed.
Lemma nodup_app (A : Type) (l1 l2 : list A) a : NoDup (l1 ++ l2)%list -> In a l1 -> In a l2 -> False.
Proof.
  induction l1 as [|b l IH]; simpl; [contradiction|]. intros N [->|I] J; inversion N as [|? ? P Q]; subst.
  - apply P. apply in_app_iff. now right.
  - now apply IH.
Qed.
Lemma nodup_r (A : Type) (l1 l2 : list A) : NoDup (l1 ++ l2)%list -> NoDup l2.
Proof. induction l1; simpl; [tauto|]. intros N. inversion N. auto. Qed.
Lemma nodup_l (A : Type) (l1 l2 : list A) : NoDup (l1 ++ l2)%list -> NoDup l1.
Proof.
  induction l1 as [|a l IH]; simpl; [constructor|]. intros N. inversion N as [|? ? P Q]; subst. constructor; [|auto].
  intros I. apply P. apply in_app_iff. now left.
Qed.
Lemma plan_pick i : forall g, NoDup (wnames i) -> plan i g = pick (value i g) (wnames i).
Proof.
  induction i as [| |sg vk n bf op p s IH af]; intros g N; [reflexivity|reflexivity|].
  cbn [wnames] in N. cbn [plan wnames]. rewrite !pick_app.
  pose proof (nodup_r _ _ _ N) as N1. pose proof (nodup_r _ _ _ N1) as N2. pose proof (nodup_l _ _ _ N2) as N3.
  rewrite (IH _ N3). f_equal; [|f_equal; [|f_equal]]; apply pick_ext_in; intros a I; cbn [value].
  - now rewrite (proj2 (mem_In a bf) I).
  - rewrite (proj2 (mem_not a bf)).
    + now rewrite (proj2 (mem_In a op) I).
    + intros J. apply (nodup_app _ _ _ a N J). apply in_app_iff. now left.
  - rewrite (proj2 (mem_not a bf)), (proj2 (mem_not a op)), (proj2 (mem_not a af)); [reflexivity| | |].
    + intros J. exact (nodup_app _ _ _ a N2 I J).
    + intros J. apply (nodup_app _ _ _ a N1 J). apply in_app_iff. now left.
    + intros J. apply (nodup_app _ _ _ a N J). apply in_app_iff. right. apply in_app_iff. now left.
  - rewrite (proj2 (mem_not a bf)), (proj2 (mem_not a op)), (proj2 (mem_In a af) I); [reflexivity| |].
    + intros J. apply (nodup_app _ _ _ a N1 J). apply in_app_iff. now right.
    + intros J. apply (nodup_app _ _ _ a N J). apply in_app_iff. right. apply in_app_iff. now right.
Qed.

(** ** running the assignments *)
Definition harmless (py : pyext) (k : kind) (a b : string) : Prop :=
  forall v o s, wf_val v -> setattr (cls_of py k) "" a v o = (s, Ok tt) ->
  reads (cls_of py k) s b = reads (cls_of py k) o b.
Lemma rule_harmless py k a r b : In (a, r) (rules_of k) -> b <> a -> ~ depends_on k b a -> harmless py k a b.
Proof.
  intros I N D v o s W H. destruct (every_rule_has_an_outcome py r v W) as [out Q].
  pose proof (contract_lemma py k a r v o out I Q) as C. destruct out as [x|e]; simpl in C.
  - destruct C as [s' [E [_ F]]]. rewrite H in E. inversion E. subst. now apply F.
  - rewrite H in C. discriminate C.
Qed.
Lemma mass_harmless py b : b <> "mass" -> b <> "rho" -> harmless py KSphere "mass" b.
Proof.
  intros N1 N2 v o s W H. change (setattr (cls_of py KSphere) "" "mass" v o) with (sphere_set_mass py "" v o) in H.
  assert (E : exists x, s = upd o "_rho" x).
  { revert H. unfold sphere_set_mass, read_flt, as_flt, read, write, try_raise, check, raise, lift, bind, ret.
    change ("" ++ "_radius") with "_radius". change ("" ++ "_rho") with "_rho".
    destruct (float_ py v); [|discriminate]. destruct (o "_radius") as [[]|]; try discriminate.
    destruct (fdiv_py _ _); [|discriminate].
    intros E; inversion E; eexists; reflexivity. }
  destruct E as [x ->]. unfold reads, getattr. destruct (lookup (cls_of py KSphere) b) as [q|] eqn:L; [|reflexivity].
  apply lookup_In in L as [I <-]. cbn in I. repeat destruct I as [<-|I]; try contradiction; try (exfalso; apply N1; reflexivity);
  try (exfalso; apply N2; reflexivity); apply plain_same; reflexivity.
Qed.
Lemma bottom_harmless py b : b <> "depth_bottom" -> harmless py KOksar "depth_bottom" b.
Proof.
  intros N v o s W H. change (setattr (cls_of py KOksar) "" "depth_bottom" v o) with (ok_set_depth_bottom py "" v o) in H.
  assert (E : exists x, s = upd o "_depth_bottom" x).
  { revert H. unfold ok_set_depth_bottom, read_flt, as_flt, read, write, try_raise, check, raise, lift, bind, ret.
    change ("" ++ "_depth_top") with "_depth_top". change ("" ++ "_depth_bottom") with "_depth_bottom".
    destruct (float_ py v); [|discriminate]. destruct (o "_depth_top") as [[]|]; try discriminate.
    destruct (flt _ _); [discriminate|].
    intros E; inversion E; eexists; reflexivity. }
  destruct E as [x ->]. unfold reads, getattr. destruct (lookup (cls_of py KOksar) b) as [q|] eqn:L; [|reflexivity].
  apply lookup_In in L as [I <-]. cbn in I. repeat destruct I as [<-|I]; try contradiction; try (exfalso; apply N; reflexivity);
  apply plain_same; reflexivity.
Qed.
Fixpoint after_name (a : string) (l : list string) : list string :=
  match l with [] => [] | b :: r => if String.eqb b a then r else after_name a r end.
Lemma seq_frame py k val b : forall W o o', (forall a v, val a = Some v -> wf_val v) ->
  assign_seq (cls_of py k) (pick val W) o = (o', Ok tt) -> (forall a, In a W -> harmless py k a b) ->
  reads (cls_of py k) o' b = reads (cls_of py k) o b.
Proof.
  induction W as [|a W IH]; intros o o' V H F; [inversion H; reflexivity|].
  unfold pick in H. simpl in H. fold (pick val W) in H. destruct (val a) as [v|] eqn:E; simpl in H.
  - unfold bind in H. destruct (setattr (cls_of py k) "" a v o) as [o1 [[]|e]] eqn:S; [|discriminate H].
    rewrite (IH o1 o' V H) by (intros; apply F; now right). apply (F a (or_introl eq_refl) v); [now apply (V a)|exact S].
  - apply (IH o o' V H). intros; apply F; now right.
Qed.
Lemma seq_stored py k val a r v : forall W o o', (forall a v, val a = Some v -> wf_val v) ->
  assign_seq (cls_of py k) (pick val W) o = (o', Ok tt) -> In a W -> In (a, r) (rules_of k) ->
  (forall b, In b (after_name a W) -> harmless py k b a) -> val a = Some v ->
  exists x, demands py r v (Stored x) /\ (~ misread k a -> reads (cls_of py k) o' a = Ok x).
Proof.
  induction W as [|b W IH]; intros o o' V H I Rr F E; [contradiction|].
  unfold pick in H. simpl in H. fold (pick val W) in H. simpl in F. destruct (String.eqb b a) eqn:Q.
  - apply String.eqb_eq in Q. subst b. rewrite E in H. simpl in H. unfold bind in H.
    destruct (setattr (cls_of py k) "" a v o) as [o1 [[]|e]] eqn:S; [|discriminate H].
    destruct (every_rule_has_an_outcome py r v (V a v E)) as [out D].
    pose proof (contract_lemma py k a r v o out Rr D) as C. destruct out as [x|e]; simpl in C.
    + destruct C as [s [C1 [C2 _]]]. rewrite S in C1. inversion C1. subst s. exists x. split; [exact D|]. intros M.
      rewrite (seq_frame py k val a W o1 o' V H F). now apply C2.
    + rewrite S in C. discriminate C.
  - apply String.eqb_neq in Q. destruct I as [I|I]; [contradiction|].
    destruct (val b) as [w|] eqn:Eb; simpl in H.
    + unfold bind in H. destruct (setattr (cls_of py k) "" b w o) as [o1 [[]|e]] eqn:S; [|discriminate H].
      now apply (IH o1 o' V H I Rr F).
    + now apply (IH o o' V H I Rr F).
Qed.
Lemma seq_accepts c val : forall W o, (forall a v, In a W -> val a = Some v -> forall o, exists s, setattr c "" a v o = (s, Ok tt)) ->
  exists o', assign_seq c (pick val W) o = (o', Ok tt).
Proof.
  induction W as [|a W IH]; intros o A; [eexists; reflexivity|]. unfold pick. simpl. fold (pick val W).
  destruct (val a) as [v|] eqn:E; simpl.
  - destruct (A a v (or_introl eq_refl) E o) as [s S]. unfold bind. rewrite S. apply IH. intros; apply A with (v := v0); [now right|assumption].
  - apply IH. intros; eapply A; [now right|eassumption].
Qed.
(** otherwise the failure is one of binding *)
Lemma run_type_error c i : forall pos kw o, 
  (forall a v, In (a, v) (plan i (call_get (first_names i) pos kw)) -> forall o, exists s, setattr c "" a v o = (s, Ok tt)) ->
  snd (run_init c i pos kw o) = Ok tt \/ snd (run_init c i pos kw o) = Raise TypeError.
Proof.
  assert (SA : forall l o, (forall a v, In (a, v) l -> forall o, exists s, setattr c "" a v o = (s, Ok tt)) ->
    exists o', assign_seq c l o = (o', Ok tt)).
  { induction l as [|[a v] l IHl]; intros o H; [eexists; reflexivity|]. simpl. unfold bind.
    destruct (H a v (or_introl eq_refl) o) as [s ->]. apply IHl. intros; apply H; now right. }
  induction i as [| |sg vk n bf op p s IH af]; intros pos kw o A.
  - simpl. destruct pos, kw; simpl; auto.
  - now left.
  - cbn [run_init]. unfold bind at 1 3, lift. destruct (bind_spec sg vk pos kw) as [B1 [_ B3]].
    destruct (bind_args sg vk pos kw) as [b|e] eqn:B; [|right; simpl; f_equal; now apply B3].
    destruct (B1 b eq_refl) as [_ Bd]. clear B1 B3. cbv beta iota. cbn [first_names plan] in A.
    assert (A1 : forall l, (forall q, In q (pick (vals_of sg n (call_get (names sg) pos kw)) l) -> In q (plan (Init sg vk n bf op p s af) (call_get (names sg) pos kw))) ->
      forall o, exists o', assign_all c l (map (replace_none n) (fst b)) o = (o', Ok tt)).
    { intros l Hl o1. rewrite assign_all_seq, (pick_ext _ _ l (vals_kw sg n pos kw b Bd)). apply SA. intros a v I. apply A, Hl, I. }
    assert (A2 : forall o, exists o', assign_all c op (snd b) o = (o', Ok tt)).
    { intros o1. rewrite assign_all_seq, (pick_ext _ _ op (rest_kw sg pos kw b Bd)). apply SA. intros a v I. apply A.
      apply in_app_iff. right. apply in_app_iff. now left. }
    unfold bind. destruct (A1 bf) with (o := o) as [o1 ->]. { intros q I. cbn [plan]. apply in_app_iff. now left. }
    destruct (A2 o1) as [o2 ->].
    specialize (IH [] (keep p (map (replace_none n) (fst b)) ++ drop op (snd b))%list o2).
    destruct IH as [IH|IH].
    { intros a v I. apply A. apply in_app_iff. right. apply in_app_iff. right. apply in_app_iff. left.
      rewrite (plan_ext s _ _ (call_get_nil (first_names s) _)) in I.
      now rewrite (plan_ext s _ _ (next_kw sg n op p pos kw b Bd)) in I. }
    + destruct (run_init c s [] _ o2) as [o3 [t|e]]; [|discriminate IH].
      destruct (A1 af) with (o := o3) as [o4 ->]; [|now left].
      intros q I. cbn [plan]. repeat (apply in_app_iff; right). exact I.
    + destruct (run_init c s [] _ o2) as [o3 [t|e]]; [discriminate IH|]. right. exact IH.
Qed.
