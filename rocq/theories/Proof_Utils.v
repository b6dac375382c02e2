From Coq Require Import List Bool Arith String Lia.
From Verif Require Import Numpy Model_Utils.
Import ListNotations.
Open Scope nat_scope.

(** ** column-major position of an index *)
Fixpoint pos_F (s ix : list nat) : nat :=
  match s, ix with
  | n :: s', i :: ix' => i + n * pos_F s' ix'
  | _, _ => 0
  end.
Definition inside (s ix : list nat) : Prop := Forall2 (fun n i => i < n) s ix.

Lemma indices_F_length s : List.length (indices_F s) = size s.
Proof.
  induction s as [|n s IH]; [reflexivity|]. cbn [indices_F size fold_right]. fold (size s). rewrite <- IH. clear IH.
  induction (indices_F s) as [|t l IH]; cbn; [lia|]. rewrite app_length, map_length, seq_length, IH. lia.
Qed.

Lemma nth_error_flat_map_const {X Y} (f : X -> list Y) n (l : list X) i j x :
  (forall y, List.length (f y) = n) -> nth_error l j = Some x -> i < n ->
  nth_error (flat_map f l) (i + n * j) = nth_error (f x) i.
Proof.
  intro L. revert j. induction l as [|y l IH]; intros [|j] E Hi; cbn in *; try discriminate.
  - injection E as ->. rewrite nth_error_app1; [f_equal; lia|]. rewrite L; lia.
  - rewrite nth_error_app2; rewrite L; [|lia]. replace (i + n * S j - n) with (i + n * j) by lia. apply IH; assumption.
Qed.

Lemma nth_error_seq n i : i < n -> nth_error (seq 0 n) i = Some i.
Proof.
  intro H. rewrite (nth_error_nth' _ 0) by (rewrite seq_length; exact H). rewrite seq_nth by exact H. reflexivity.
Qed.

Lemma indices_F_at s ix : inside s ix -> nth_error (indices_F s) (pos_F s ix) = Some ix.
Proof.
  intro H. induction H as [|n i s ix Hi H IH]; [reflexivity|]. cbn [indices_F pos_F].
  rewrite (nth_error_flat_map_const _ n _ i _ ix); [| intro; rewrite map_length, seq_length; reflexivity | exact IH | exact Hi].
  rewrite nth_error_map, (nth_error_seq n i Hi). reflexivity.
Qed.

Lemma pos_F_lt s ix : inside s ix -> pos_F s ix < size s.
Proof.
  intro H. rewrite <- indices_F_length. apply nth_error_Some. rewrite (indices_F_at s ix H). discriminate.
Qed.

Lemma pos_F_onto s k : k < size s -> exists ix, inside s ix /\ pos_F s ix = k.
Proof.
  revert k. induction s as [|n s IH]; intros k Hk.
  - exists []. split; [constructor|cbn in *; lia].
  - cbn in Hk. fold (size s) in Hk. assert (n <> 0) by lia.
    destruct (IH (k / n)) as [ix [I E]]. { apply Nat.div_lt_upper_bound; lia. }
    exists (k mod n :: ix). split.
    + constructor; [apply Nat.mod_upper_bound; assumption|exact I].
    + cbn. rewrite E. pose proof (Nat.div_mod k n H). lia.
Qed.

Lemma pos_F_inj s ix jx : inside s ix -> inside s jx -> pos_F s ix = pos_F s jx -> ix = jx.
Proof.
  intros H K E. pose proof (indices_F_at s ix H) as A. rewrite E, (indices_F_at s jx K) in A. congruence.
Qed.

Lemma flatten_F_length {A} (a : nd A) : List.length (flatten_F a) = size (shape a).
Proof. unfold flatten_F. rewrite map_length. apply indices_F_length. Qed.

Lemma flatten_F_at {A} (a : nd A) d ix : inside (shape a) ix -> nth (pos_F (shape a) ix) (flatten_F a) d = get a ix.
Proof.
  intro H. apply nth_error_nth. unfold flatten_F. rewrite nth_error_map, (indices_F_at _ _ H). reflexivity.
Qed.

Lemma mkvc_ok {A} (d : A) (a : nd A) (n : nat) :
  1 <= n <= 3 ->
  exists v, mkvc d (ArgNdarray a) n = Ok (Some v) /\ mkvc d (ArgMatrix a) n = Ok (Some v) /\
    shape v = size (shape a) :: repeat 1 (n - 1) /\
    forall ix, inside (shape a) ix -> get v (pos_F (shape a) ix :: repeat 0 (n - 1)) = get a ix.
Proof.
  intro H. assert (n = 1 \/ n = 2 \/ n = 3) as [-> | [-> | ->]] by lia; eexists;
    (split; [reflexivity|]; split; [reflexivity|]; split;
     [cbn; rewrite flatten_F_length; reflexivity | intros ix I; cbn; apply flatten_F_at; exact I]).
Qed.

Lemma mkvc_bijection s :
  (forall ix, inside s ix -> pos_F s ix < size s) /\
  (forall ix jx, inside s ix -> inside s jx -> pos_F s ix = pos_F s jx -> ix = jx) /\
  (forall k, k < size s -> exists ix, inside s ix /\ pos_F s ix = k).
Proof. split; [exact (pos_F_lt s)|]. split; [exact (pos_F_inj s)|exact (pos_F_onto s)]. Qed.

Lemma mkvc_other {A} (d : A) n : mkvc d ArgOther n = Raise AssertionError.
Proof. reflexivity. Qed.
Lemma mkvc_dims {A} (d : A) a n : n = 0 \/ 3 < n -> mkvc d (ArgNdarray a) n = Ok None.
Proof. intros [->|H]; [reflexivity|]. destruct n as [|[|[|[|n]]]]; try lia. reflexivity. Qed.

Lemma nth_map {X Y} (f : X -> Y) l i e x : i < List.length l -> nth i (map f l) e = f (nth i l x).
Proof. intro H. rewrite (nth_indep _ e (f x)) by (rewrite map_length; exact H). apply map_nth. Qed.

(** ** ndgrid *)
Lemma combine_nth_gen {X Y} (l : list X) (l' : list Y) n x y :
  List.length l = List.length l' -> nth n (combine l l') (x, y) = (nth n l x, nth n l' y).
Proof. apply combine_nth. Qed.

Lemma bshape_2 n1 n2 : bshape [n2] [n1; 1] = Some [n1; n2].
Proof.
  unfold bshape; cbn. destruct (Nat.eqb n2 1) eqn:E; [apply Nat.eqb_eq in E; subst; reflexivity|reflexivity].
Qed.

Lemma bshape_3a n2 n3 : bshape [n3] [n2; 1] = Some [n2; n3]. Proof. apply bshape_2. Qed.
Lemma bshape_3b n1 n2 n3 : bshape [n2; n3] [n1; 1; 1] = Some [n1; n2; n3].
Proof.
  unfold bshape; cbn.
  destruct (Nat.eqb n2 1) eqn:E2; destruct (Nat.eqb n3 1) eqn:E3; cbn;
    try (apply Nat.eqb_eq in E2; subst); try (apply Nat.eqb_eq in E3; subst); reflexivity.
Qed.

Ltac bidx := unfold bindex; cbn;
  repeat match goal with |- context[if Nat.eqb ?a 1 then _ else _] => destruct (Nat.eqb_spec a 1); subst end.

(** entries of the broadcast arrays *)
Lemma grid2_entries {A} (d : A) (l1 l2 : list A) i1 i2 :
  i1 < List.length l1 -> i2 < List.length l2 ->
  let v2 := of_list d l2 in let v1 := newaxis (of_list d l1) in
  get (broadcast_to [List.length l1; List.length l2] v1) [i1; i2] = nth i1 l1 d /\
  get (broadcast_to [List.length l1; List.length l2] v2) [i1; i2] = nth i2 l2 d.
Proof.
  intros H1 H2. cbn. split.
  - unfold bindex; cbn. destruct (Nat.eqb_spec (List.length l1) 1); cbn; f_equal; lia.
  - unfold bindex; cbn. destruct (Nat.eqb_spec (List.length l2) 1); cbn; f_equal; lia.
Qed.

Lemma grid3_entries {A} (d : A) (l1 l2 l3 : list A) i1 i2 i3 :
  i1 < List.length l1 -> i2 < List.length l2 -> i3 < List.length l3 ->
  let v3 := of_list d l3 in let v2 := newaxis (of_list d l2) in let v1 := newaxis (newaxis (of_list d l1)) in
  let s := [List.length l1; List.length l2; List.length l3] in
  get (broadcast_to s v1) [i1; i2; i3] = nth i1 l1 d /\
  get (broadcast_to s v2) [i1; i2; i3] = nth i2 l2 d /\
  get (broadcast_to s v3) [i1; i2; i3] = nth i3 l3 d.
Proof.
  intros H1 H2 H3. cbn. repeat split; unfold bindex; cbn.
  - destruct (Nat.eqb_spec (List.length l1) 1); cbn; f_equal; lia.
  - destruct (Nat.eqb_spec (List.length l2) 1); cbn; f_equal; lia.
  - destruct (Nat.eqb_spec (List.length l3) 1); cbn; f_equal; lia.
Qed.

Lemma ndgrid_1 {A} (d : A) x v : ndgrid d (ArgsSep [ArgNdarray x]) v = Ok (GridArray x) /\
  ndgrid d (ArgsList [ArgNdarray x]) v = Ok (GridArray x).
Proof. split; reflexivity. Qed.

Lemma ndgrid_2_rows {A} (d : A) (l1 l2 : list A) args :
  args = ArgsSep [ArgNdarray (of_list d l1); ArgNdarray (of_list d l2)] \/
  args = ArgsList [ArgNdarray (of_list d l1); ArgNdarray (of_list d l2)] ->
  exists rows, ndgrid d args true = Ok (GridRows rows) /\
    List.length rows = List.length l1 * List.length l2 /\
    forall i1 i2, i1 < List.length l1 -> i2 < List.length l2 ->
      nth (i1 + List.length l1 * i2) rows [] = [nth i1 l1 d; nth i2 l2 d].
Proof.
  intro HA.
  assert (F : forall l : list A, flatten_F (of_list d l) = l).
  { intro l. apply (nth_ext _ _ d d).
    - rewrite flatten_F_length. cbn. lia.
    - intros n Hn. rewrite flatten_F_length in Hn. cbn in Hn.
      assert (I : inside (shape (of_list d l)) [n]) by (constructor; [cbn; lia|constructor]).
      pose proof (flatten_F_at (of_list d l) d [n] I) as Q. cbn in Q. rewrite Nat.mul_0_r, Nat.add_0_r in Q. exact Q. }
  eexists. split.
  - destruct HA as [-> | ->]; cbn [ndgrid all_ndarrays rmap rbind]; rewrite !F;
      unfold broadcast_arrays2; cbn [shape of_list newaxis app];
      rewrite bshape_2; cbn [rbind]; reflexivity.
  - unfold c_2. cbn [fst snd].
    set (X1 := flatten_F (broadcast_to _ (newaxis _))). set (X2 := flatten_F (broadcast_to _ _)).
    assert (L1 : List.length X1 = List.length l1 * List.length l2) by (unfold X1; rewrite flatten_F_length; cbn; lia).
    assert (L2 : List.length X2 = List.length l1 * List.length l2) by (unfold X2; rewrite flatten_F_length; cbn; lia).
    split; [rewrite map_length, combine_length, L1, L2; apply Nat.min_id|].
    intros i1 i2 H1 H2.
    destruct (grid2_entries d l1 l2 i1 i2 H1 H2) as [E1 E2].
    assert (I : inside [List.length l1; List.length l2] [i1; i2]) by (repeat constructor; assumption).
    assert (P : i1 + List.length l1 * i2 = pos_F [List.length l1; List.length l2] [i1; i2]) by (cbn; lia).
    rewrite (nth_map _ _ _ _ (d, d)).
    + rewrite combine_nth by congruence. cbn [fst snd]. f_equal; [|f_equal].
      * rewrite P. etransitivity; [refine (flatten_F_at (broadcast_to _ _) d _ I)|exact E1].
      * rewrite P. etransitivity; [refine (flatten_F_at (broadcast_to _ _) d _ I)|exact E2].
    + rewrite combine_length, L1, L2, Nat.min_id, P.
      pose proof (pos_F_lt _ _ I) as Q. cbn [size fold_right] in Q. lia.
Qed.

Lemma flatten_of_list {A} (d : A) (l : list A) : flatten_F (of_list d l) = l.
Proof.
  apply (nth_ext _ _ d d).
  - rewrite flatten_F_length. cbn. lia.
  - intros n Hn. rewrite flatten_F_length in Hn. cbn in Hn.
    assert (I : inside (shape (of_list d l)) [n]) by (constructor; [cbn; lia|constructor]).
    pose proof (flatten_F_at (of_list d l) d [n] I) as Q. cbn in Q. rewrite Nat.mul_0_r, Nat.add_0_r in Q. exact Q.
Qed.

Lemma ndgrid_2_arrays {A} (d : A) (l1 l2 : list A) :
  exists X Y, ndgrid d (ArgsSep [ArgNdarray (of_list d l1); ArgNdarray (of_list d l2)]) false = Ok (GridArrays [X; Y]) /\
    shape X = [List.length l1; List.length l2] /\ shape Y = [List.length l1; List.length l2] /\
    forall i1 i2, i1 < List.length l1 -> i2 < List.length l2 ->
      get X [i1; i2] = nth i1 l1 d /\ get Y [i1; i2] = nth i2 l2 d.
Proof.
  eexists; eexists. split.
  - cbn [ndgrid all_ndarrays rmap rbind]. rewrite !flatten_of_list. unfold broadcast_arrays2; cbn [shape of_list newaxis app].
    rewrite bshape_2; cbn [rbind fst snd]. reflexivity.
  - split; [reflexivity|]. split; [reflexivity|]. intros i1 i2 H1 H2. exact (grid2_entries d l1 l2 i1 i2 H1 H2).
Qed.

Lemma ndgrid_3_rows {A} (d : A) (l1 l2 l3 : list A) args :
  args = ArgsSep [ArgNdarray (of_list d l1); ArgNdarray (of_list d l2); ArgNdarray (of_list d l3)] \/
  args = ArgsList [ArgNdarray (of_list d l1); ArgNdarray (of_list d l2); ArgNdarray (of_list d l3)] ->
  exists rows, ndgrid d args true = Ok (GridRows rows) /\
    List.length rows = List.length l1 * List.length l2 * List.length l3 /\
    forall i1 i2 i3, i1 < List.length l1 -> i2 < List.length l2 -> i3 < List.length l3 ->
      nth (i1 + List.length l1 * (i2 + List.length l2 * i3)) rows [] = [nth i1 l1 d; nth i2 l2 d; nth i3 l3 d].
Proof.
  intro HA. eexists. split.
  - destruct HA as [-> | ->]; cbn [ndgrid all_ndarrays rmap rbind]; rewrite !flatten_of_list;
      unfold broadcast_arrays3; cbn [shape of_list newaxis app];
      rewrite bshape_3a, bshape_3b; cbn [rbind]; reflexivity.
  - unfold c_3. cbn [fst snd].
    set (X1 := flatten_F (broadcast_to _ (newaxis (newaxis _)))). set (X2 := flatten_F (broadcast_to _ (newaxis _))).
    set (X3 := flatten_F (broadcast_to _ _)).
    assert (L1 : List.length X1 = List.length l1 * List.length l2 * List.length l3) by (unfold X1; rewrite flatten_F_length; cbn; lia).
    assert (L2 : List.length X2 = List.length l1 * List.length l2 * List.length l3) by (unfold X2; rewrite flatten_F_length; cbn; lia).
    assert (L3 : List.length X3 = List.length l1 * List.length l2 * List.length l3) by (unfold X3; rewrite flatten_F_length; cbn; lia).
    split; [rewrite map_length, !combine_length, L1, L2, L3, !Nat.min_id; reflexivity|].
    intros i1 i2 i3 H1 H2 H3.
    destruct (grid3_entries d l1 l2 l3 i1 i2 i3 H1 H2 H3) as [E1 [E2 E3]].
    set (s := [List.length l1; List.length l2; List.length l3]) in *.
    assert (I : inside s [i1; i2; i3]) by (repeat constructor; assumption).
    assert (P : i1 + List.length l1 * (i2 + List.length l2 * i3) = pos_F s [i1; i2; i3]) by (cbn; lia).
    rewrite (nth_map _ _ _ _ (d, d, d)).
    + rewrite combine_nth by (rewrite combine_length, L1, L2, L3; apply Nat.min_id).
      rewrite combine_nth by congruence. cbn [fst snd]. f_equal; [|f_equal; [|f_equal]].
      * rewrite P. etransitivity; [refine (flatten_F_at (broadcast_to _ _) d _ I)|exact E1].
      * rewrite P. etransitivity; [refine (flatten_F_at (broadcast_to _ _) d _ I)|exact E2].
      * rewrite P. etransitivity; [refine (flatten_F_at (broadcast_to _ _) d _ I)|exact E3].
    + rewrite !combine_length, L1, L2, L3, !Nat.min_id, P.
      pose proof (pos_F_lt _ _ I) as Q. unfold s in *. cbn [size fold_right] in Q. lia.
Qed.

Lemma ndgrid_3_arrays {A} (d : A) (l1 l2 l3 : list A) :
  let s := [List.length l1; List.length l2; List.length l3] in
  exists X Y Z, ndgrid d (ArgsSep [ArgNdarray (of_list d l1); ArgNdarray (of_list d l2); ArgNdarray (of_list d l3)]) false
      = Ok (GridArrays [X; Y; Z]) /\
    shape X = s /\ shape Y = s /\ shape Z = s /\
    forall i1 i2 i3, i1 < List.length l1 -> i2 < List.length l2 -> i3 < List.length l3 ->
      get X [i1; i2; i3] = nth i1 l1 d /\ get Y [i1; i2; i3] = nth i2 l2 d /\ get Z [i1; i2; i3] = nth i3 l3 d.
Proof.
  eexists; eexists; eexists. split.
  - cbn [ndgrid all_ndarrays rmap rbind]. rewrite !flatten_of_list. unfold broadcast_arrays3; cbn [shape of_list newaxis app].
    rewrite bshape_3a, bshape_3b; cbn [rbind fst snd]. reflexivity.
  - repeat (split; [reflexivity|]). intros i1 i2 i3 H1 H2 H3. exact (grid3_entries d l1 l2 l3 i1 i2 i3 H1 H2 H3).
Qed.

(** ** check_xyz_dim *)
Lemma check_array {A} (a : nd A) dim :
  (forall s, shape a = s ++ [dim] -> check_xyz_dim (XyzArray a) dim = Ok a) /\
  (forall s k, shape a = s ++ [k] -> k <> dim -> check_xyz_dim (XyzArray a) dim = Raise ValueError) /\
  (shape a = [] -> check_xyz_dim (XyzArray a) dim = Raise IndexError).
Proof.
  unfold check_xyz_dim; cbn [rbind]. repeat split.
  - intros s ->. rewrite rev_app_distr; cbn. rewrite Nat.eqb_refl. reflexivity.
  - intros s k -> N. rewrite rev_app_distr; cbn. apply Nat.eqb_neq in N. rewrite N. reflexivity.
  - intros ->. reflexivity.
Qed.

Lemma check_tuple {A} (l : list (nd A)) (s : list nat) dim :
  l <> [] -> (forall a, In a l -> shape a = s) ->
  (List.length l = dim -> exists r, check_xyz_dim (XyzTuple l) dim = Ok r /\ shape r = s ++ [dim] /\
     forall j ix, j < dim -> List.length ix = List.length s ->
       exists a, nth_error l j = Some a /\ get r (ix ++ [j]) = get a ix) /\
  (List.length l <> dim -> check_xyz_dim (XyzTuple l) dim = Raise ValueError).
Proof.
  intros NE S. unfold check_xyz_dim. destruct l as [|a l]; [congruence|]. set (L := a :: l) in *.
  assert (Sa : shape a = s) by (apply S; left; reflexivity).
  assert (F : forallb (fun b => shape_eqb (shape b) (shape a)) L = true).
  { apply forallb_forall. intros b Hb. unfold shape_eqb. rewrite (S b Hb), Sa. destruct (list_eq_dec Nat.eq_dec s s); congruence. }
  replace (stack_last L) with (Ok (ND (shape a ++ [List.length L]) (fun ix => get (nth (last ix 0) L a) (removelast ix))))
    by (unfold L at 3; cbn [stack_last]; fold L; rewrite F; reflexivity).
  cbn [rbind shape]. rewrite rev_app_distr. cbn [rev app].
  split.
  - intros E. rewrite E, Nat.eqb_refl. cbn [negb]. eexists. split; [reflexivity|]. split; [cbn; rewrite Sa; reflexivity|].
    intros j ix Hj _. cbn [get]. rewrite last_last, removelast_last.
    exists (nth j L a). split; [|reflexivity]. apply nth_error_nth'. lia.
  - intro N. apply Nat.eqb_neq in N. rewrite N. reflexivity.
Qed.

Lemma check_tuple_mismatch {A} (l : list (nd A)) a b dim :
  In a l -> In b l -> shape a <> shape b -> check_xyz_dim (XyzTuple l) dim = Raise ValueError.
Proof.
  intros Ha Hb N. unfold check_xyz_dim, stack_last. destruct l as [|c l]; [destruct Ha|].
  destruct (forallb _ _) eqn:F; [|reflexivity]. exfalso. rewrite forallb_forall in F.
  assert (Q : forall x, In x (c :: l) -> shape x = shape c).
  { intros x Hx. specialize (F x Hx). unfold shape_eqb in F. destruct (list_eq_dec _ _ _); congruence. }
  apply N. rewrite (Q a Ha), (Q b Hb). reflexivity.
Qed.

(** ** append_ndim *)
Lemma append_shape {A} (a : nd A) n : shape (append_ndim a n) = shape a ++ repeat 1 n.
Proof.
  induction n; [cbn; rewrite app_nil_r; reflexivity|].
  change (shape (append_ndim a (S n))) with (shape (append_ndim a n) ++ [1]). rewrite IHn, <- app_assoc. f_equal.
  clear. induction n; cbn in *; congruence.
Qed.

Lemma append_get {A} (a : nd A) n ix : get (append_ndim a n) (ix ++ repeat 0 n) = get a ix.
Proof.
  induction n; cbn [repeat].
  - rewrite app_nil_r. reflexivity.
  - change (get (append_ndim a (S n))) with (fun ix => get (append_ndim a n) (removelast ix)). cbn beta.
    replace (ix ++ 0 :: repeat 0 n) with ((ix ++ repeat 0 n) ++ [0]).
    + rewrite removelast_last. exact IHn.
    + rewrite <- app_assoc. f_equal. clear. induction n; cbn; congruence.
Qed.

Lemma rev_repeat {X} (x : X) n : rev (repeat x n) = repeat x n.
Proof.
  induction n; cbn; [reflexivity|]. rewrite IHn. clear. induction n; cbn; congruence.
Qed.

Lemma bshape_rev_ones t s : bshape_rev (repeat 1 (List.length t) ++ s) t = Some (t ++ s).
Proof.
  induction t as [|b t IH]; cbn; [destruct s; reflexivity|]. rewrite IH.
  destruct b as [|[|b]]; reflexivity.
Qed.

Lemma bshape_append s t : bshape (s ++ repeat 1 (List.length t)) t = Some (s ++ t).
Proof.
  unfold bshape. rewrite rev_app_distr, rev_repeat, <- (rev_length t), bshape_rev_ones. cbn.
  rewrite rev_app_distr, !rev_involutive. reflexivity.
Qed.

Lemma bindex_rev_ones n s jx ix : List.length jx = n ->
  bindex_rev (repeat 1 n ++ s) (jx ++ ix) = repeat 0 n ++ bindex_rev s ix.
Proof.
  revert jx. induction n; intros [|j jx] E; try discriminate; cbn; [reflexivity|].
  rewrite IHn by (cbn in E; lia). reflexivity.
Qed.

Lemma bindex_rev_id s ix tl : Forall2 (fun n i => i < n) s ix -> bindex_rev s (ix ++ tl) = ix.
Proof.
  intro H. induction H as [|n i s ix Hi H IH]; cbn; [reflexivity|]. rewrite IH.
  destruct (Nat.eqb_spec n 1); f_equal; lia.
Qed.

Lemma inside_rev s ix : inside s ix -> inside (rev s) (rev ix).
Proof.
  unfold inside. intro H. induction H; cbn; [constructor|]. apply Forall2_app; [assumption|]. constructor; [assumption|constructor].
Qed.

Lemma inside_length s ix : inside s ix -> List.length ix = List.length s.
Proof. intro H. induction H; cbn; congruence. Qed.

Lemma append_broadcast {A B C} (op : A -> B -> C) (a : nd A) (b : nd B) :
  exists r, broadcast_op op (append_ndim a (List.length (shape b))) b = Ok r /\
    shape r = shape a ++ shape b /\
    forall i j, inside (shape a) i -> inside (shape b) j -> get r (i ++ j) = op (get a i) (get b j).
Proof.
  unfold broadcast_op. rewrite append_shape, bshape_append. eexists. split; [reflexivity|]. split; [reflexivity|].
  intros i j Hi Hj. cbn [get].
  assert (Li : List.length i = List.length (shape a)) by (apply inside_length; exact Hi).
  assert (Lj : List.length j = List.length (shape b)) by (apply inside_length; exact Hj).
  f_equal.
  - unfold bindex. rewrite !rev_app_distr, rev_repeat.
    rewrite bindex_rev_ones by (rewrite rev_length; exact Lj).
    rewrite <- (app_nil_r (rev i)), bindex_rev_id by (apply inside_rev; exact Hi).
    rewrite rev_app_distr, rev_involutive, rev_repeat, append_get. reflexivity.
  - unfold bindex. rewrite rev_app_distr, bindex_rev_id by (apply inside_rev; exact Hj).
    rewrite rev_involutive. reflexivity.
Qed.

(** ** requires *)
Lemma requires_present {W Args V} print (none : V) mods name (f : pyfun W Args V) :
  (forall k m, In (k, m) mods -> m <> MFalse) -> requires print none mods name f = f.
Proof.
  intro H. unfold requires. replace (filter _ mods) with (@nil (string * modval)); [reflexivity|].
  symmetry. induction mods as [|[k m] mods IH]; [reflexivity|]. cbn.
  destruct m; cbn; [exfalso; apply (H k MFalse); [left; reflexivity|reflexivity]|].
  apply IH. intros k' m' I. apply (H k' m'). right; exact I.
Qed.

Lemma requires_absent {W Args V} print (none : V) mods name (f g : pyfun W Args V) k :
  In (k, MFalse) mods ->
  requires print none mods name f = requires print none mods name g /\
  exists missing, In k missing /\ (forall x, In x missing <-> In (x, MFalse) mods) /\
    forall args w, requires print none mods name f args w = (Ok none, print [name] (print missing w)).
Proof.
  intro H. unfold requires. set (ms := map fst (filter _ mods)).
  assert (Q : forall x, In x ms <-> In (x, MFalse) mods).
  { intro x. unfold ms. rewrite in_map_iff. split.
    - intros [[y m] [E I]]. cbn in E; subst. apply filter_In in I. destruct I as [I J]. cbn in J. destruct m; [exact I|discriminate].
    - intro I. exists (x, MFalse). split; [reflexivity|]. apply filter_In. split; [exact I|reflexivity]. }
  pose proof (proj2 (Q k) H) as K. destruct ms as [|m ms']; [destruct K|].
  split; [reflexivity|]. exists (m :: ms'). split; [exact K|]. split; [exact Q|]. reflexivity.
Qed.
