(** Broadcasting to an arbitrary full shape, and the array evaluation of the conversions *)
From Coq Require Import String Reals List Arith Lia Lra.
From Verif Require Import Vec3 Numpy Model_Utils Proof_Utils Model_Spatial Model_Static Model_Gravity Model_TDEM Model_Arrays Proof_Arrays Spec_Arrays Proof_Arrays2 Model_Arrays2 Spec_Arrays2.
Import ListNotations.
Open Scope nat_scope.

Section RepT.
  Variable T : list nat.
  Definition repT {A} (a : nd A) (phi : list nat -> A) (P : nat -> Prop) : Prop :=
    fits (rev (shape a)) (rev T) /\
    (forall n, P n -> n < length T -> nth_error (rev (shape a)) n = nth_error (rev T) n) /\
    (forall ix, inside T ix -> get a (bindex (shape a) ix) = phi ix).
  Lemma repT_bop {A B C} (op : A -> B -> C) a b phi psi P Q : repT a phi P -> repT b psi Q ->
    exists r, broadcast_op op a b = Ok r /\ repT r (fun ix => op (phi ix) (psi ix)) (fun n => P n \/ Q n).
  Proof.
    intros (F1 & C1 & E1) (F2 & C2 & E2). destruct (bshape_fits _ _ _ F1 F2) as (u & E & Fu & Cu & Iu).
    unfold broadcast_op, bshape. rewrite E. cbn [option_map]. eexists. split; [reflexivity|]. split; [|split]; cbn [shape get].
    - rewrite rev_involutive. exact Fu.
    - rewrite rev_involutive. intros n H L. apply Cu; [|rewrite rev_length; exact L]. destruct H as [H|H]; [left|right]; auto.
    - intros ix Hi. rewrite <- (E1 ix Hi), <- (E2 ix Hi).
      assert (L : length (rev ix) = length (rev T)) by (rewrite !rev_length; apply inside_length; exact Hi).
      destruct (Iu (rev ix) L) as [I1 I2].
      unfold bindex at 2 4. rewrite !rev_involutive. unfold bindex. rewrite !rev_involutive, I1, I2. reflexivity.
  Qed.
  Lemma repT_map {A B} (f : A -> B) a phi P : repT a phi P -> repT (amap f a) (fun ix => f (phi ix)) P.
  Proof. intros (H1 & H2 & H3). split; [exact H1|]. split; [exact H2|]. intros ix Hi. unfold amap. cbn [get shape]. f_equal. apply H3; assumption. Qed.
  Lemma bindex_self ix : inside T ix -> bindex T ix = ix.
  Proof.
    intros H. unfold bindex. rewrite <- (app_nil_r (rev ix)).
    rewrite bindex_rev_id; [apply rev_involutive|]. apply inside_rev. exact H.
  Qed.
  Lemma repT_exact {A} (a : nd A) phi P : repT a phi P -> (forall n, n < length T -> P n) ->
    shape a = T /\ forall ix, inside T ix -> get a ix = phi ix.
  Proof.
    intros (H1 & H2 & H3) HP.
    assert (E : shape a = T).
    { rewrite <- (rev_involutive (shape a)), <- (rev_involutive T). f_equal. apply fits_full; [exact H1|].
      intros n L. rewrite rev_length in L. apply H2; [apply HP|]; exact L. }
    split; [exact E|]. intros ix Hi. rewrite <- (H3 ix Hi), E, bindex_self by exact Hi. reflexivity.
  Qed.
  Lemma repT_full {A} (a : nd A) phi : shape a = T -> (forall ix, inside T ix -> get a ix = phi ix) -> repT a phi (fun _ => True).
  Proof.
    intros E H. unfold repT. rewrite E. split; [apply fits_refl|]. split; [reflexivity|]. intros ix Hi. rewrite bindex_self by exact Hi. apply H; exact Hi.
  Qed.
End RepT.

(** ** arrays of numbers, one per point *)
Definition scalars_of (S : list nat) {A} (a : nd A) (v : list nat -> A) : Prop :=
  shape a = S /\ forall j, inside S j -> get a j = v j.
Lemma bop_scalars {A B C} (op : A -> B -> C) S a b v w : scalars_of S a v -> scalars_of S b w ->
  exists r, broadcast_op op a b = Ok r /\ scalars_of S r (fun j => op (v j) (w j)).
Proof.
  intros [E1 H1] [E2 H2]. destruct (repT_bop S op a b v w _ _ (repT_full S a v E1 H1) (repT_full S b w E2 H2)) as (r & E & R).
  exists r. split; [exact E|]. destruct (repT_exact S r _ _ R) as [Es Hs]; [auto|]. split; [exact Es|exact Hs].
Qed.
Lemma map_scalars {A B} (f : A -> B) S a v : scalars_of S a v -> scalars_of S (amap f a) (fun j => f (v j)).
Proof. intros [E H]. split; [exact E|]. intros j Hj. unfold amap. cbn [get]. f_equal. apply H; exact Hj. Qed.
Lemma norm_scalars S a v : points_of S a v -> scalars_of S (norm_last a) (fun j => vnorm (v j)).
Proof.
  intros [E H]. split; [unfold norm_last; cbn [shape]; rewrite E, removelast_snoc; reflexivity|].
  intros j Hj. unfold norm_last. cbn [get]. rewrite (H j Hj). reflexivity.
Qed.
Lemma last_snoc {A} (l : list A) x d : last (l ++ [x]) d = x.
Proof. apply last_last. Qed.
Lemma item_scalars S a k c : shape a = S ++ [k] -> c < k -> exists r, item a c = Ok r /\ scalars_of S r (fun j => get a (j ++ [c])).
Proof.
  intros E L. unfold item. rewrite E, last_snoc, (proj2 (Nat.ltb_lt c k) L), removelast_snoc.
  eexists. split; [reflexivity|]. split; [reflexivity|]. intros j _. reflexivity.
Qed.
Lemma item_raises a S k c : shape a = S ++ [k] -> k <= c -> item a c = Raise IndexError.
Proof. intros E L. unfold item. rewrite E, last_snoc, (proj2 (Nat.ltb_ge c k) L). reflexivity. Qed.

Lemma stack3 S (x y z : nd R) u v w : scalars_of S x u -> scalars_of S y v -> scalars_of S z w ->
  exists e, stack_last [x; y; z] = Ok e /\ shape e = S ++ [3] /\ forall j, inside S j -> vec_at e j = V3 (u j) (v j) (w j).
Proof.
  intros [E1 H1] [E2 H2] [E3 H3]. unfold stack_last. cbn [forallb]. rewrite E1, E2, E3. unfold shape_eqb.
  destruct (list_eq_dec Nat.eq_dec S S) as [_|N]; [|congruence]. cbn [andb]. eexists. split; [reflexivity|]. split; [reflexivity|].
  intros j Hj. unfold vec_at. cbn [get]. rewrite !removelast_snoc, !last_last. cbn [nth]. rewrite H1, H2, H3 by exact Hj. reflexivity.
Qed.
Lemma stack2 S (x y : nd R) u v : scalars_of S x u -> scalars_of S y v ->
  exists e, stack_last [x; y] = Ok e /\ shape e = S ++ [2] /\ forall j, inside S j -> row_at e j = [u j; v j].
Proof.
  intros [E1 H1] [E2 H2]. unfold stack_last. cbn [forallb]. rewrite E1, E2. unfold shape_eqb.
  destruct (list_eq_dec Nat.eq_dec S S) as [_|N]; [|congruence]. cbn [andb]. eexists. split; [reflexivity|]. split; [reflexivity|].
  intros j Hj. unfold row_at. cbn [get shape]. rewrite last_last. cbn [length seq map]. rewrite !removelast_snoc, !last_last. cbn [nth]. rewrite H1, H2 by exact Hj. reflexivity.
Qed.
Lemma row_of_vec_at S (a : nd R) j : shape a = S ++ [3] -> row_at a j = row_of (vec_at a j).
Proof. intros E. unfold row_at. rewrite E, last_last. reflexivity. Qed.

Ltac sc := first [ eassumption | apply map_scalars; sc | eapply norm_scalars; eassumption ].
Ltac sbop S := match goal with |- context [broadcast_op ?op ?a ?b] =>
  let r := fresh "r" in let E := fresh "E" in let R := fresh "R" in
  edestruct (bop_scalars op S a b) as (r & E & R); [sc | sc | rewrite E; clear E; cbn [rbind]] end.
Ltac sitem E0 := match goal with |- context [item ?a ?c] =>
  let r := fresh "g" in let E := fresh "E" in let R := fresh "G" in
  destruct (item_scalars _ a _ c E0 ltac:(lia)) as (r & E & R); rewrite E; clear E; cbn [rbind] end.
Ltac sstack3 S := match goal with |- context [stack_last [?x; ?y; ?z]] =>
  let e := fresh "e" in let E := fresh "E" in let Es := fresh "Es" in let H := fresh "Hv" in
  edestruct (stack3 S x y z) as (e & E & Es & H); [sc|sc|sc|rewrite E; clear E] end.
Ltac sstack2 S := match goal with |- context [stack_last [?x; ?y]] =>
  let e := fresh "e" in let E := fresh "E" in let Es := fresh "Es" in let H := fresh "Hv" in
  edestruct (stack2 S x y) as (e & E & Es & H); [sc|sc|rewrite E; clear E] end.

(** ** conversions *)
Lemma row_long S (a : nd R) k j : shape a = S ++ [k] -> 2 <= k ->
  exists tl, row_at a j = get a (j ++ [0]) :: get a (j ++ [1]) :: tl /\ length tl = k - 2 /\ (k = 3 -> tl = [get a (j ++ [2])]).
Proof.
  intros E L. unfold row_at. rewrite E, last_last. destruct k as [|[|k]]; [lia..|]. cbn [seq map].
  eexists. split; [reflexivity|]. split; [rewrite map_length, seq_length; lia|]. intros K. assert (k = 1) by lia. subst k. reflexivity.
Qed.
Lemma cyl_to_cart_rows (grid : nd R) S k : shape grid = S ++ [k] -> 2 <= k ->
  row_by_row cylindrical_to_cartesian grid (if Nat.eqb k 3 then 3 else 2) (cyl_to_cart_array grid).
Proof.
  intros E L. unfold row_by_row, cyl_to_cart_array. rewrite E, last_last, removelast_snoc. do 2 sitem E. sbop S. sbop S.
  destruct (Nat.eqb_spec k 3) as [->|N].
  - sitem E. sstack3 S. exists e. split; [reflexivity|]. split; [exact Es|].
    intros j Hj. rewrite (row_of_vec_at S _ _ Es), (Hv j Hj). destruct (row_long S grid 3 j E L) as (tl & -> & _ & ->); reflexivity.
  - sstack2 S. exists e. split; [reflexivity|]. split; [exact Es|].
    intros j Hj. rewrite (Hv j Hj). destruct (row_long S grid k j E L) as (tl & -> & Lt & _).
    destruct tl as [|a [|b tl]]; [reflexivity|cbn in Lt; lia|reflexivity].
Qed.
Lemma cart_to_cyl_rows (grid : nd R) S k : shape grid = S ++ [k] -> 2 <= k ->
  row_by_row cartesian_to_cylindrical grid (if Nat.eqb k 3 then 3 else 2) (cart_to_cyl_array grid).
Proof.
  intros E L. unfold row_by_row, cart_to_cyl_array. rewrite E, last_last, removelast_snoc. do 2 sitem E. sbop S. sbop S.
  destruct (Nat.eqb_spec k 3) as [->|N].
  - sitem E. sstack3 S. exists e. split; [reflexivity|]. split; [exact Es|].
    intros j Hj. rewrite (row_of_vec_at S _ _ Es), (Hv j Hj). destruct (row_long S grid 3 j E L) as (tl & -> & _ & ->); reflexivity.
  - sstack2 S. exists e. split; [reflexivity|]. split; [exact Es|].
    intros j Hj. rewrite (Hv j Hj). destruct (row_long S grid k j E L) as (tl & -> & Lt & _).
    destruct tl as [|a [|b tl]]; [reflexivity|cbn in Lt; lia|reflexivity].
Qed.
Lemma cyl_to_cart_vec_rows (grid vec : nd R) S k m : shape grid = S ++ [k] -> 2 <= k -> shape vec = S ++ [m] -> 2 <= m -> (k = 3 -> 3 <= m) ->
  row_by_row2 cylindrical_to_cartesian_vec grid vec (if Nat.eqb k 3 then 3 else 2) (cyl_to_cart_vec_array grid vec).
Proof.
  intros E L E' L' K. unfold row_by_row2, cyl_to_cart_vec_array. rewrite E, last_last, removelast_snoc. sitem E'. sitem E. sitem E'. do 6 sbop S.
  destruct (Nat.eqb_spec k 3) as [->|N].
  - specialize (K eq_refl). sitem E'. sstack3 S. exists e. split; [reflexivity|]. split; [exact Es|].
    intros j Hj. rewrite (row_of_vec_at S _ _ Es), (Hv j Hj). destruct (row_long S grid 3 j E L) as (tl & -> & _ & ->); [|reflexivity].
    unfold row_at. rewrite E', last_last. destruct m as [|[|[|m]]]; [lia..|]. reflexivity.
  - sstack2 S. exists e. split; [reflexivity|]. split; [exact Es|].
    intros j Hj. rewrite (Hv j Hj). destruct (row_long S grid k j E L) as (tl & -> & Lt & _). destruct (row_long S vec m j E' L') as (vt & -> & _ & _).
    cbn [cylindrical_to_cartesian_vec]. destruct (Nat.eqb_spec (length tl) 1); [lia|]. reflexivity.
Qed.
Lemma cart_to_cyl_vec_rows (grid vec : nd R) S k m : shape grid = S ++ [k] -> 2 <= k -> shape vec = S ++ [m] -> 2 <= m -> (k = 3 -> 3 <= m) ->
  row_by_row2 cartesian_to_cylindrical_vec grid vec (if Nat.eqb k 3 then 3 else 2) (cart_to_cyl_vec_array grid vec).
Proof.
  intros E L E' L' K. unfold row_by_row2, cart_to_cyl_vec_array. rewrite E, last_last, removelast_snoc. do 2 sitem E. sbop S. do 2 sitem E'. do 6 sbop S.
  destruct (Nat.eqb_spec k 3) as [->|N].
  - specialize (K eq_refl). sitem E'. sstack3 S. exists e. split; [reflexivity|]. split; [exact Es|].
    intros j Hj. rewrite (row_of_vec_at S _ _ Es), (Hv j Hj). destruct (row_long S grid 3 j E L) as (tl & -> & _ & ->); [|reflexivity].
    unfold row_at. rewrite E', last_last. destruct m as [|[|[|m]]]; [lia..|]. reflexivity.
  - sstack2 S. exists e. split; [reflexivity|]. split; [exact Es|].
    intros j Hj. rewrite (Hv j Hj). destruct (row_long S grid k j E L) as (tl & -> & Lt & _). destruct (row_long S vec m j E' L') as (vt & -> & _ & _).
    cbn [cartesian_to_cylindrical_vec]. destruct (Nat.eqb_spec (length tl) 1); [lia|]. reflexivity.
Qed.
Lemma narrow_raises (grid : nd R) S k : shape grid = S ++ [k] -> k < 2 ->
  cyl_to_cart_array grid = Raise IndexError /\ cart_to_cyl_array grid = Raise IndexError.
Proof.
  intros E L. unfold cyl_to_cart_array, cart_to_cyl_array. rewrite (item_raises grid S k 1 E ltac:(lia)).
  split; (destruct k as [|k]; [rewrite (item_raises grid S 0 0 E ltac:(lia)); reflexivity|destruct (item_scalars S grid _ 0 E ltac:(lia)) as (r & -> & _); reflexivity]).
Qed.
Lemma sph_points (grid : nd R) S : shape grid = S ++ [3] ->
  one_vector_per_point (fun p => Ok (spherical_to_cartesian p)) grid (sph_to_cart_array grid) /\
  one_vector_per_point (fun p => Ok (cartesian_to_spherical p)) grid (cart_to_sph_array grid).
Proof.
  intros E. unfold one_vector_per_point. rewrite E, removelast_snoc. split.
  - unfold sph_to_cart_array. do 2 sitem E. do 2 sbop S. sitem E. do 2 sbop S. sstack3 S. exists e. split; [reflexivity|]. split; [exact Es|].
    intros j Hj. rewrite (Hv j Hj). reflexivity.
  - unfold cart_to_sph_array. do 2 sitem E. do 2 sbop S. sitem E. sbop S. pose proof (check_points S grid E) as [_ P]. sstack3 S. exists e. split; [reflexivity|]. split; [exact Es|].
    intros j Hj. rewrite (Hv j Hj). reflexivity.
Qed.
