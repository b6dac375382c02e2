(** Proofs for C104 (assignment contracts). *)
From Coq Require Import Reals Lra Lia List Bool Arith ZArith String.
From Verif Require Import Numpy PyVal Model_Setters Spec_Setters Spec_Contracts Proof_Setters Proof_Setters2.
Import ListNotations.
Open Scope string_scope.
Open Scope R_scope.

Definition effect (key : string) (out : outcome) (o : obj) : obj * result unit :=
  match out with
  | Refused e => (o, Raise e)
  | Stored x => (upd o key x, Ok tt)
  end.

(** ** the boolean tests against the ranges *)
Lemma le0_range x : le0 x = true <-> ~ positive_or_nan x.
Proof.
  split.
  - intros E [->|[->|[r [-> Hr]]]]; try discriminate E.
    unfold le0, fle in E. apply Rleb_true in E. lra.
  - intros H. destruct (le0 x) eqn:E; [reflexivity|]. destruct H. now apply fle0_false.
Qed.
Lemma lt0_range x : lt0 x = true <-> ~ nonneg_or_nan x.
Proof.
  split.
  - intros E [->|[->|[r [-> Hr]]]]; try discriminate E.
    unfold lt0, flt in E. apply Rltb_true in E. lra.
  - intros H. destruct (lt0 x) eqn:E; [reflexivity|]. destruct H. now apply flt0_false.
Qed.
Lemma never_range x : never x = true <-> ~ in_range AnyNumber x.
Proof. unfold never. simpl. split; [discriminate|tauto]. Qed.
Lemma outside_range lo hi x : outside_rng lo hi x = true <-> ~ within_or_nan lo hi x.
Proof.
  split.
  - intros E [->|[r [-> Hr]]]; try discriminate E.
    unfold outside_rng, flt in E. apply orb_true_iff in E as [E|E]; apply Rltb_true in E; lra.
  - intros H. destruct (outside_rng lo hi x) eqn:E; [reflexivity|]. destruct H. now apply outside_false.
Qed.
Lemma bad_false (bad : fl -> bool) g x : (forall x, bad x = true <-> ~ in_range g x) -> in_range g x -> bad x = false.
Proof. intros B H. destruct (bad x) eqn:E; [|reflexivity]. apply B in E. contradiction. Qed.

Ltac outcomes := repeat match goal with
  | H : _ \/ _ |- _ => destruct H
  | H : exists _, _ |- _ => destruct H
  | H : _ /\ _ |- _ => destruct H
  end; subst.

Lemma number_rule py key bad g v out o : (forall x, bad x = true <-> ~ in_range g x) ->
  demands py (Number g) v out -> set_float py key bad "" v o = effect key out o.
Proof.
  intros B D. unfold set_float. cbn [demands] in D. outcomes; sbind; rewrite H; [reflexivity| |].
  - rewrite (bad_false bad g) by assumption. reflexivity.
  - rewrite (proj2 (B x)) by assumption. reflexivity.
Qed.
Lemma bare_number_rule py key bad g v out o : (forall x, bad x = true <-> ~ in_range g x) ->
  demands py (BareNumber g) v out -> set_float_raw py key bad "" v o = effect key out o.
Proof.
  intros B D. unfold set_float_raw. cbn [demands] in D. outcomes; sbind; rewrite H; [reflexivity| |].
  - rewrite (bad_false bad g) by assumption. reflexivity.
  - rewrite (proj2 (B x)) by assumption. reflexivity.
Qed.
Lemma shape_is_false a s : ashape a <> s -> shape_is a s = false.
Proof. intros H. destruct (shape_is a s) eqn:E; [|reflexivity]. apply shape_is_true in E. contradiction. Qed.
Lemma vector_rule py key n e v out o :
  demands py (Vector n e) v out -> set_vec py key [n] e "" v o = effect key out o.
Proof.
  intros D. unfold set_vec. cbn [demands] in D. outcomes; sbind; rewrite H; [reflexivity| |].
  - rewrite (proj2 (shape_is_true _ _)) by assumption. reflexivity.
  - rewrite shape_is_false by assumption. reflexivity.
Qed.
Lemma first_axis_rule py key v out o :
  demands py FirstAxis3 v out -> set_len3 py key "" v o = effect key out o.
Proof.
  intros D. unfold set_len3. cbn [demands] in D. outcomes; sbind; unfold atleast_1d_float, rmap; rewrite H; [reflexivity| |].
  - destruct x as [s d]. simpl in H0. subst s. reflexivity.
  - destruct x as [[|n s] d]; simpl in H0 |- *; [reflexivity|]. unfold alen. simpl.
    destruct n as [|[|[|[|n]]]]; try reflexivity. now destruct (H0 s).
Qed.
Lemma existsb_lt0 l : existsb lt0 l = true <-> exists x, In x l /\ ~ nonneg_or_nan x.
Proof.
  rewrite existsb_exists. split; intros [x [I B]]; exists x; split; try assumption; now apply lt0_range.
Qed.
Lemma existsb_lt0_false l : (forall x, In x l -> nonneg_or_nan x) -> existsb lt0 l = false.
Proof.
  intros H. destruct (existsb lt0 l) eqn:E; [|reflexivity]. apply existsb_lt0 in E as [x [I B]].
  now destruct (B (H x I)).
Qed.
Lemma samples_rule py key v out o :
  demands py Samples v out -> set_samples py key "" v o = effect key out o.
Proof.
  intros D. unfold set_samples. cbn [demands] in D. outcomes; sbind; rewrite H; [reflexivity| | |].
  - rewrite existsb_lt0_false by assumption. destruct (Nat.ltb_spec 1 (ndim x)); [lia|]. reflexivity.
  - replace (existsb lt0 (adata x)) with true; [reflexivity|]. symmetry. apply existsb_lt0. now exists x0.
  - rewrite existsb_lt0_false by assumption. destruct (Nat.ltb_spec 1 (ndim x)); [|lia]. reflexivity.
Qed.
Lemma nodes_rule py v out o :
  demands py Nodes v out -> line_set_nodes py "" v o = effect "_nodes" out o.
Proof.
  intros D. unfold line_set_nodes. cbn [demands] in D. outcomes; sbind; rewrite H; [reflexivity| | |].
  - destruct x as [s d]. simpl in H0. subst s. reflexivity.
  - destruct x as [s d]. simpl in H0. subst s. reflexivity.
  - destruct x as [s d]. simpl in H0, H1 |- *. destruct s as [|n [|m [|w s]]]; simpl.
    + reflexivity.
    + unfold ndim. simpl. destruct n as [|[|[|[|n]]]]; try reflexivity. now destruct H0.
    + unfold ndim. simpl. destruct m as [|[|[|[|m]]]]; try reflexivity. now destruct (H1 n).
    + unfold ndim. simpl. rewrite orb_true_r. reflexivity.
Qed.
Lemma text_rule py key v out o : demands py Text v out -> set_str py key "" v o = effect key out o.
Proof. intros D. unfold set_str. cbn [demands] in D. outcomes; sbind; rewrite H; reflexivity. Qed.
Lemma array_rule py v out o : demands py Array v out -> int_set_data py "" v o = effect "_data" out o.
Proof. intros D. unfold int_set_data. cbn [demands] in D. outcomes; sbind; rewrite H; reflexivity. Qed.
Lemma integer_rule py v out o : demands py Integer v out -> int_set_zone py "" v o = effect "_location_UTM_zone" out o.
Proof. intros D. unfold int_set_zone. cbn [demands] in D. outcomes; sbind; rewrite H; reflexivity. Qed.
Lemma two_false (l : list Z) : List.length l <> 2%nat -> Nat.eqb (List.length l) 2 = false.
Proof. apply Nat.eqb_neq. Qed.
Lemma pair_rule py v out o : demands py (PairOfIntegers ValueError) v out -> int_set_shape py "" v o = effect "_shape" out o.
Proof.
  intros D. unfold int_set_shape. cbn [demands] in D. outcomes; sbind; rewrite H; try reflexivity.
  rewrite two_false by assumption. reflexivity.
Qed.
Lemma pair_rule2 py v out o : demands py (PairOfIntegers TypeError) v out -> ok_set_shape py "" v o = effect "_shape" out o.
Proof.
  intros D. unfold ok_set_shape. cbn [demands] in D. outcomes; sbind; rewrite H; try reflexivity.
  rewrite two_false by assumption. reflexivity.
Qed.
Lemma not_date py key v o : (forall d, v <> PDate d) ->
  set_date py key "" v o = (d <-- try_raise (lift (to_date py v)) TypeError ;; write ("" ++ key) (ADate d)) o.
Proof. intros H. destruct v; try reflexivity. now destruct (H d). Qed.
Lemma date_rule py key v out o : demands py Date v out -> set_date py key "" v o = effect key out o.
Proof.
  intros D. cbn [demands] in D. outcomes; [reflexivity| |]; rewrite not_date by assumption; sbind; rewrite H0; reflexivity.
Qed.
Lemma anything_rule py v out o : demands py Anything v out -> set_quasistatic "" v o = effect "quasistatic" out o.
Proof. simpl. intros ->. reflexivity. Qed.
Lemma axis_upper s :
  axis_of s = if String.eqb (upper s) "X" then Some (vec3 (Fin 1) (Fin 0) (Fin 0))
              else if String.eqb (upper s) "Y" then Some (vec3 (Fin 0) (Fin 1) (Fin 0))
              else if String.eqb (upper s) "Z" then Some (vec3 (Fin 0) (Fin 0) (Fin 1)) else None.
Proof.
  unfold axis_of.
  destruct (String.eqb_spec (upper s) "X") as [E|NX].
  { apply upper_X in E as [->| ->]; reflexivity. }
  destruct (String.eqb_spec (upper s) "Y") as [E|NY].
  { apply upper_Y in E as [->| ->]; reflexivity. }
  destruct (String.eqb_spec (upper s) "Z") as [E|NZ].
  { apply upper_Z in E as [->| ->]; reflexivity. }
  destruct (String.eqb_spec s "X") as [->|]; [now destruct NX|].
  destruct (String.eqb_spec s "x") as [->|]; [now destruct NX|].
  destruct (String.eqb_spec s "Y") as [->|]; [now destruct NY|].
  destruct (String.eqb_spec s "y") as [->|]; [now destruct NY|].
  destruct (String.eqb_spec s "Z") as [->|]; [now destruct NZ|].
  destruct (String.eqb_spec s "z") as [->|]; [now destruct NZ|].
  reflexivity.
Qed.
Lemma horizontal_upper s :
  horizontal_axis_of s = if String.eqb (upper s) "X" then Some (vec3 (Fin 1) (Fin 0) (Fin 0))
              else if String.eqb (upper s) "Y" then Some (vec3 (Fin 0) (Fin 1) (Fin 0)) else None.
Proof.
  unfold horizontal_axis_of.
  destruct (String.eqb_spec s "Z") as [->|Z1]; [reflexivity|].
  destruct (String.eqb_spec s "z") as [->|Z2]; [reflexivity|]. simpl.
  rewrite axis_upper.
  destruct (String.eqb_spec (upper s) "Z") as [E|NZ].
  { apply upper_Z in E as [->| ->]; contradiction. }
  reflexivity.
Qed.
Lemma not_str v : (forall s, v <> PStr s) -> is_str v = None.
Proof. intros H. destruct v; try reflexivity. now destruct (H s). Qed.
Lemma direction_rule py v out o :
  demands py Direction v out -> dip_set_orientation py "" v o = effect "_orientation" out o.
Proof.
  intros D. unfold dip_set_orientation. cbn [demands] in D. outcomes; cbn [is_str].
  - rewrite axis_upper in H0. destruct (String.eqb (upper x) "X"); [inversion H0; reflexivity|].
    destruct (String.eqb (upper x) "Y"); [inversion H0; reflexivity|].
    destruct (String.eqb (upper x) "Z"); [inversion H0; reflexivity|discriminate].
  - rewrite axis_upper in H0. destruct (String.eqb (upper x) "X"); [discriminate|].
    destruct (String.eqb (upper x) "Y"); [discriminate|].
    destruct (String.eqb (upper x) "Z"); [discriminate|reflexivity].
  - rewrite (not_str _ H). sbind. rewrite H0. reflexivity.
  - rewrite (not_str _ H). sbind. rewrite H0. rewrite (proj2 (shape_is_true _ _)) by assumption. reflexivity.
  - rewrite (not_str _ H). sbind. rewrite H0. rewrite shape_is_false by assumption. reflexivity.
Qed.
Lemma feq_zero z : feq z (Fin 0) = true <-> z = Fin 0.
Proof.
  destruct z; simpl; split; intros H; try discriminate; try (inversion H; fail).
  - apply Reqb_true in H. now subst.
  - inversion H. now apply Reqb_true.
Qed.
Lemma plane_rule py v out o :
  demands py PlaneDirection v out -> pw_set_orientation py "" v o = effect "_orientation" out o.
Proof.
  intros D. unfold pw_set_orientation. cbn [demands] in D. outcomes; cbn [is_str].
  - rewrite horizontal_upper in H0. destruct (String.eqb (upper x) "X"); [inversion H0; reflexivity|].
    destruct (String.eqb (upper x) "Y"); [inversion H0; reflexivity|discriminate].
  - rewrite horizontal_upper in H0. destruct (String.eqb (upper x) "X"); [discriminate|].
    destruct (String.eqb (upper x) "Y"); [discriminate|reflexivity].
  - rewrite (not_str _ H). sbind. rewrite H0. reflexivity.
  - rewrite (not_str _ H). sbind. rewrite H0. cbv zeta. rewrite H1. simpl. 
    rewrite (proj2 (Reqb_true 0 0) eq_refl). reflexivity.
  - rewrite (not_str _ H). sbind. rewrite H0. cbv zeta. rewrite H1. simpl.
    destruct (feq x2 (Fin 0)) eqn:E; [apply feq_zero in E; contradiction|]. reflexivity.
  - rewrite (not_str _ H). sbind. rewrite H0. rewrite shape_is_false by (rewrite H1; discriminate).
    unfold ndim. rewrite H1. reflexivity.
  - rewrite (not_str _ H). sbind. rewrite H0. rewrite shape_is_false by assumption. unfold ndim.
    destruct (ashape (squeeze x)); [contradiction|]. reflexivity.
Qed.

(** ** every rule has an outcome *)
Lemma range_dec g x : in_range g x \/ ~ in_range g x.
Proof.
  destruct g; simpl; [now left| | |].
  - destruct (le0 x) eqn:E; [right; now apply le0_range|left; now apply fle0_false].
  - destruct (lt0 x) eqn:E; [right; now apply lt0_range|left; now apply flt0_false].
  - destruct (outside_rng lo hi x) eqn:E; [right; now apply outside_range|left; now apply outside_false].
Qed.
Lemma shape_dec (s t : list nat) : s = t \/ s <> t.
Proof. destruct (list_eq_dec Nat.eq_dec s t); auto. Qed.
Lemma shape3_data py v a : wf_val v -> asarray py v = Ok a -> ashape (squeeze a) = [3%nat] ->
  exists x y z, squeeze a = vec3 x y z.
Proof.
  intros W E Sh. destruct (wf_vec3 (squeeze a)) as [x [y [z H]]].
  - apply wf_squeeze. eapply asarray_wf; eauto.
  - exact Sh.
  - exists x, y, z. congruence.
Qed.
Lemma str_dec v : (exists s, v = PStr s) \/ (forall s, v <> PStr s).
Proof. destruct v; try (right; intros; discriminate). left; eauto. Qed.
Lemma every_rule_has_an_outcome py r v : wf_val v -> exists out, demands py r v out.
Proof.
  intros W. destruct r; simpl.
  - destruct (float_ py v) as [x|e]; [|eauto 8]. destruct (range_dec r x); eauto 12.
  - destruct (float_ py v) as [x|e]; [|eauto 8]. destruct (range_dec r x); eauto 12.
  - destruct (asarray py v) as [a|x]; [|eauto 8]. destruct (shape_dec (ashape (squeeze a)) [n]); eauto 12.
  - destruct (asarray py v) as [a|x]; [|eauto 8].
    destruct (ashape a) as [|n s] eqn:E.
    + eexists. right; right. exists a. split; [reflexivity|]. split; [|reflexivity]. intros rest H. rewrite E in H. discriminate.
    + destruct (Nat.eq_dec n 3) as [->|N].
      * eexists. right; left. exists a, s. auto.
      * eexists. right; right. exists a. split; [reflexivity|]. split; [|reflexivity]. intros rest H. rewrite E in H. congruence.
  - destruct (asarray py v) as [a|x]; [|eauto 8].
    destruct (existsb lt0 (adata a)) eqn:E.
    + apply existsb_lt0 in E as [x [I B]]. eexists. right; right; left. exists a, x. eauto.
    + assert (forall x, In x (adata a) -> nonneg_or_nan x) as Hx.
      { intros x I. destruct (range_dec NonNegative x) as [H|H]; [exact H|]. exfalso.
        assert (existsb lt0 (adata a) = true) by (apply existsb_lt0; exists x; split; assumption). congruence. }
      destruct (le_gt_dec (ndim a) 1).
      * eexists. right; left. exists a. auto.
      * eexists. right; right; right. exists a. auto.
  - destruct (asarray py v) as [a|x]; [|eauto 8].
    destruct (shape_dec (ashape a) [3%nat]); [eauto 12|].
    destruct (ashape a) as [|n [|m [|w s]]] eqn:E.
    1,2,4: eexists; right; right; right; exists a; rewrite E; split; [reflexivity|split; [assumption|split; [intros; discriminate|reflexivity]]].
    destruct (Nat.eq_dec m 3) as [->|N].
    + eexists. right; left. exists a, n. auto.
    + eexists. right; right; right. exists a. rewrite E. split; [reflexivity|]. split; [assumption|]. split; [|reflexivity]. intros n0 H0. congruence.
  - destruct (str_dec v) as [[s ->]|NS].
    + destruct (axis_of s) as [a|] eqn:E; [eauto 12|]. eexists. right; left. eauto.
    + destruct (asarray py v) as [a|x] eqn:E.
      * destruct (shape_dec (ashape (squeeze a)) [3%nat]).
        -- eexists. right; right. split; [exact NS|]. right; left. exists a. auto.
        -- eexists. right; right. split; [exact NS|]. right; right. exists a. auto.
      * eexists. right; right. split; [exact NS|]. left. eauto.
  - destruct (str_dec v) as [[s ->]|NS].
    + destruct (horizontal_axis_of s) as [a|] eqn:E; [eauto 12|]. eexists. right; left. eauto.
    + destruct (asarray py v) as [a|x] eqn:E.
      * destruct (shape_dec (ashape (squeeze a)) [3%nat]) as [H3|H3].
        -- destruct (shape3_data py v a W E H3) as [x [y [z Ez]]].
           destruct (feq z (Fin 0)) eqn:Z.
           ++ apply feq_zero in Z. eexists. right; right. split; [exact NS|]. right; left. exists a, x, y, z. auto.
           ++ eexists. right; right. split; [exact NS|]. right; right; left. exists a, x, y, z.
              split; [reflexivity|]. split; [exact Ez|]. split; [|reflexivity]. intros H. apply feq_zero in H. congruence.
        -- destruct (shape_dec (ashape (squeeze a)) []) as [H0|H0].
           ++ eexists. right; right. split; [exact NS|]. right; right; right; left. exists a. auto.
           ++ eexists. right; right. split; [exact NS|]. right; right; right; right. exists a. auto.
      * eexists. right; right. split; [exact NS|]. left. eauto.
  - eauto.
  - destruct (asarray py v) as [a|x]; eauto 8.
  - destruct (to_str py v) as [a|x]; eauto 8.
  - destruct (to_int py v) as [a|x]; eauto 8.
  - destruct (to_ints py v) as [l|x]; [|eauto 8]. destruct l as [|m [|n [|w l]]].
    3: eauto 12.
    all: eexists; right; right; eexists; split; [reflexivity|split; [simpl; lia|reflexivity]].
  - assert (ND : (exists d, v = PDate d) \/ (forall d, v <> PDate d)) by (destruct v; try (right; intros; discriminate); left; eauto).
    destruct ND as [[d ->]|ND]; [eauto|]. destruct (to_date py v) as [d|x]; eauto 12.
Qed.

(** ** from the setter's effect to the outcome *)
Definition untouched (py : pyext) (k : kind) (a key : string) : Prop :=
  forall o x q, In q (cls_of py k) -> pname q <> a -> ~ depends_on k (pname q) a ->
  snd (pget q "" (upd o key x)) = snd (pget q "" o).
Lemma outcome_from_effect py k a v o out key f :
  lookup (cls_of py k) a = Some f ->
  (exists s, pset f = Some s /\ s "" v o = effect key out o) ->
  (~ misread k a -> forall x o, snd (pget f "" (upd o key x)) = Ok x) ->
  untouched py k a key ->
  assignment_has py k a v o out.
Proof.
  intros L [s [P E]] G U. destruct out as [x|e]; simpl.
  - exists (upd o key x). split; [|split].
    + unfold setattr. rewrite L, P. exact E.
    + intros M. unfold reads, getattr. rewrite L. now apply G.
    + intros b Hb Hd. unfold reads, getattr. destruct (lookup (cls_of py k) b) as [q|] eqn:Lb; [|reflexivity].
      apply lookup_In in Lb as [I N]. subst b. now apply U.
  - unfold setattr. rewrite L, P. exact E.
Qed.
Ltac rule_tac :=
  first [ apply number_rule with (g := Positive); [exact le0_range|]
        | apply number_rule with (g := NonNegative); [exact lt0_range|]
        | apply number_rule with (g := AnyNumber); [exact never_range|]
        | match goal with D : demands _ (Number (Between ?lo ?hi)) _ _ |- _ => apply number_rule with (g := Between lo hi); [exact (outside_range lo hi)|] end
        | apply bare_number_rule with (g := Positive); [exact le0_range|]
        | apply bare_number_rule with (g := NonNegative); [exact lt0_range|]
        | apply bare_number_rule with (g := AnyNumber); [exact never_range|]
        | apply vector_rule | apply first_axis_rule | apply samples_rule | apply nodes_rule
        | apply direction_rule | apply plane_rule | eapply anything_rule | apply array_rule
        | apply text_rule | apply integer_rule | apply pair_rule | apply pair_rule2 | apply date_rule ];
  eassumption.
Lemma untouched_each py k a key :
  List.Forall (fun q => pname q <> a -> ~ depends_on k (pname q) a ->
     forall o x, snd (pget q "" (upd o key x)) = snd (pget q "" o)) (cls_of py k) -> untouched py k a key.
Proof. intros F o x q I N D. rewrite List.Forall_forall in F. now apply F. Qed.
Ltac same_read :=
  intros; first [ reflexivity |
  cbv [str_attr flt_attr vec2_attr pget get_plain em_get_rho sphere_get_mass prism_get_volume line_get_n_segments pc_get_location
       read_flt read_arr bind read as_flt as_arr ret raise lift check upd append String.eqb Ascii.eqb Bool.eqb];
  repeat (first [ match goal with |- context [match ?o ?k with Some _ => _ | None => _ end] => is_var o; destruct (o k) end
                | match goal with |- context [match ?a with AFlt _ => _ | _ => _ end] => is_var a; destruct a end
                | match goal with |- context [match fdiv_py ?a ?b with Ok _ => _ | _ => _ end] => destruct (fdiv_py a b) end
                | match goal with |- context [if ?b then _ else _] => destruct b end ]; try reflexivity) ].
Lemma plain_same key key' : String.eqb key' key = false ->
  forall o x, snd (get_plain key' "" (upd o key x)) = snd (get_plain key' "" o).
Proof.
  intros E o x. unfold get_plain, read. change ("" ++ key') with key'. unfold upd. rewrite E.
  now destruct (o key').
Qed.
Ltac untouched_tac :=
  apply untouched_each;
  repeat (apply List.Forall_cons;
    [ let N := fresh "N" in let D := fresh "D" in intros N D;
      first [ exfalso; apply N; reflexivity | apply plain_same; reflexivity | same_read; fail | exfalso; apply D; cbv; tauto ]|]);
  apply List.Forall_nil.
Ltac contract_tac D :=
  eapply outcome_from_effect;
  [ reflexivity
  | eexists; split; [reflexivity|]; cbv beta; rule_tac
  | let M := fresh "M" in intros M x0 o0;
    first [ reflexivity | exfalso; apply M; cbv; tauto ]
  | untouched_tac ].
Lemma contract_lemma py k a r v o out :
  In (a, r) (rules_of k) -> demands py r v out -> assignment_has py k a v o out.
Proof.
  intros I D. destruct k; simpl in I;
  repeat (match type of I with _ \/ _ => destruct I as [I|I]; [inversion I; subst; clear I; contract_tac D|] end);
  contradiction.
Qed.

(** ** the table leaves nothing out *)
Lemma table_lemma py k a f : facade k = false -> lookup (cls_of py k) a = Some f ->
  (exists r, In (a, r) (rules_of k)) \/ In a (read_only k) \/ In a (dependent k).
Proof.
  intros F L. apply lookup_In in L as [I <-].
  assert (H : List.Forall (fun q => (exists r, In (pname q, r) (rules_of k)) \/ In (pname q) (read_only k) \/ In (pname q) (dependent k)) (cls_of py k)).
  { clear I. destruct k; try discriminate F;
    repeat (apply List.Forall_cons;
      [ first [ right; left; cbv; tauto | right; right; cbv; tauto
              | left; eexists; cbn [pname str_attr flt_attr vec2_attr]; repeat (first [left; reflexivity|right]) ] |]);
    apply List.Forall_nil. }
  rewrite List.Forall_forall in H. now apply H.
Qed.
Lemma read_only_lemma py k a v o : In a (read_only k) ->
  setattr (cls_of py k) "" a v o = (o, Raise AttributeError).
Proof.
  intros I. destruct k; simpl in I; try contradiction; destruct I as [<-|[]]; reflexivity.
Qed.

(** ** attributes that depend on others *)
Lemma rho_not_number py k v e o : In k em_kinds -> float_ py v = Raise e ->
  setattr (cls_of py k) "" "rho" v o = (o, Raise TypeError).
Proof.
  intros Hk H. rewrite setattr_rho by assumption. unfold em_set_rho. sbind. rewrite H. reflexivity.
Qed.
Lemma mass_not_number py v e o : float_ py v = Raise e ->
  setattr (cls_of py KSphere) "" "mass" v o = (o, Raise TypeError).
Proof.
  intros H. change (setattr (cls_of py KSphere) "" "mass" v o) with (sphere_set_mass py "" v o).
  unfold sphere_set_mass. sbind. rewrite H. reflexivity.
Qed.
Lemma mass_zero_radius py v m o : float_ py v = Ok m -> reads (cls_of py KSphere) o "radius" = Ok (AFlt (Fin 0)) ->
  setattr (cls_of py KSphere) "" "mass" v o = (o, Raise ZeroDivisionError).
Proof.
  intros H R0. change (setattr (cls_of py KSphere) "" "mass" v o) with (sphere_set_mass py "" v o).
  change (snd (read "_radius" o) = Ok (AFlt (Fin 0))) in R0.
  unfold sphere_set_mass. unfold read_flt. sbind. rewrite H. cbn [append].
  change ("" ++ "_radius") with "_radius". destruct (o "_radius"); [|discriminate R0]. simpl in R0. inversion R0. subst.
  simpl. unfold fdiv_py. rewrite (proj2 (Reqb_true _ _)); [reflexivity|]. ring.
Qed.
Lemma depth_bottom_cases py v o top : reads (cls_of py KOksar) o "depth_top" = Ok (AFlt top) ->
  (forall e, float_ py v = Raise e -> setattr (cls_of py KOksar) "" "depth_bottom" v o = (o, Raise TypeError)) /\
  (forall x, float_ py v = Ok x -> flt x top = true -> setattr (cls_of py KOksar) "" "depth_bottom" v o = (o, Raise ValueError)) /\
  (forall x, float_ py v = Ok x -> flt x top = false ->
     snd (setattr (cls_of py KOksar) "" "depth_bottom" v o) = Ok tt /\
     reads (cls_of py KOksar) (fst (setattr (cls_of py KOksar) "" "depth_bottom" v o)) "depth_bottom" = Ok (AFlt x)).
Proof.
  intros T. change (snd (read "_depth_top" o) = Ok (AFlt top)) in T. unfold read in T.
  destruct (o "_depth_top") as [t|] eqn:E; [|discriminate T]. simpl in T. inversion T. subst t.
  assert (R : forall b, setattr (cls_of py KOksar) "" "depth_bottom" b o = ok_set_depth_bottom py "" b o) by reflexivity.
  rewrite R. unfold ok_set_depth_bottom, read_flt, read. sbind. change ("" ++ "_depth_top") with "_depth_top".
  split; [|split].
  - intros e H. rewrite H. reflexivity.
  - intros x H L. rewrite H, E, L. reflexivity.
  - intros x H L. rewrite H, E, L. split; reflexivity.
Qed.

(** ** the half-space electrodes refuse before they change anything *)
Lemma electrode_refuses py k a v o :
  (k = KPointCurrentHalfSpace /\ In a ["current"; "rho"; "location"]) \/
  (k = KDipoleHalfSpace /\ In a ["current"; "rho"; "location_a"; "location_b"]) ->
  (In a ["current"; "rho"] -> forall e, float_ py v = Raise e ->
     setattr (cls_of py k) "" a v o = (o, Raise TypeError)) /\
  (a = "rho" -> forall x, float_ py v = Ok x -> ~ positive_or_nan x ->
     setattr (cls_of py k) "" a v o = (o, Raise ValueError)) /\
  (~ In a ["current"; "rho"] ->
     (forall e, asarray py v = Raise e -> setattr (cls_of py k) "" a v o = (o, Raise TypeError)) /\
     (forall r, asarray py v = Ok r -> (forall rest, ashape r <> 3%nat :: rest) ->
        setattr (cls_of py k) "" a v o = (o, Raise ValueError)) /\
     (forall x y z, asarray py v = Ok (vec3 x y (Fin z)) -> 0 < z ->
        setattr (cls_of py k) "" a v o = (o, Raise ValueError))).
Proof.
  assert (Bad : forall r, (forall rest, ashape r <> 3%nat :: rest) -> Nat.eqb (alen (atleast_1d r)) 3 = false).
  { intros [[|n s] d] H; simpl in H; [reflexivity|]. unfold alen. simpl.
    destruct n as [|[|[|[|n]]]]; try reflexivity. now destruct (H s). }
  assert (Up : forall x y z, 0 < z -> existsb (fun w => flt (Fin 0) w) (last_axis_last (atleast_1d (vec3 x y (Fin z)))) = true).
  { intros x y z H. simpl. rewrite (proj2 (Rltb_true 0 z)) by exact H. reflexivity. }
  assert (Curr : forall e, float_ py v = Raise e ->
     hs_set_current py "" v o = (o, Raise TypeError) /\ dhs_set_current py "" v o = (o, Raise TypeError) /\
     hs_set_rho py "" v o = (o, Raise TypeError) /\ dhs_set_rho py "" v o = (o, Raise TypeError)).
  { intros e H. unfold hs_set_current, dhs_set_current, hs_set_rho, dhs_set_rho. sbind. rewrite H. auto. }
  assert (Rho : forall x, float_ py v = Ok x -> ~ positive_or_nan x ->
     hs_set_rho py "" v o = (o, Raise ValueError) /\ dhs_set_rho py "" v o = (o, Raise ValueError)).
  { intros x H B. unfold hs_set_rho, dhs_set_rho. sbind. rewrite H. rewrite (proj2 (le0_range x) B). auto. }
  assert (Loc : forall key sub,
     (forall e, asarray py v = Raise e -> hs_set_location py "" v o = (o, Raise TypeError) /\ dhs_set_loc py key sub "" v o = (o, Raise TypeError)) /\
     (forall r, asarray py v = Ok r -> (forall rest, ashape r <> 3%nat :: rest) ->
        hs_set_location py "" v o = (o, Raise ValueError) /\ dhs_set_loc py key sub "" v o = (o, Raise ValueError)) /\
     (forall x y z, asarray py v = Ok (vec3 x y (Fin z)) -> 0 < z ->
        hs_set_location py "" v o = (o, Raise ValueError) /\ dhs_set_loc py key sub "" v o = (o, Raise ValueError))).
  { intros key sub. unfold hs_set_location, dhs_set_loc. sbind. unfold atleast_1d_float, rmap.
    split; [|split].
    - intros e H. rewrite H. auto.
    - intros r H N. rewrite H. rewrite (Bad r N). auto.
    - intros x y z H P. rewrite H. rewrite Up by assumption. simpl. auto. }
  intros [[-> I]|[-> I]]; simpl in I;
  repeat (destruct I as [<-|I];
   [ split; [|split];
     [ intros I e H; try (exfalso; simpl in I; intuition discriminate); destruct (Curr e H) as (C1 & C2 & C3 & C4); assumption
     | intros E x H B; try discriminate E; destruct (Rho x H B) as [R1 R2]; assumption
     | intros N; try (exfalso; apply N; simpl; tauto);
       first [ destruct (Loc "_location_a" suba) as (L1 & L2 & L3); split; [|split];
         [ intros e H; apply (L1 e H) | intros r H M; apply (L2 r H M) | intros x y z H P; apply (L3 x y z H P) ]
       | destruct (Loc "_location_b" subb) as (L1 & L2 & L3); split; [|split];
         [ intros e H; apply (L1 e H) | intros r H M; apply (L2 r H M) | intros x y z H P; apply (L3 x y z H P) ] ] ] |]);
  contradiction.
Qed.
