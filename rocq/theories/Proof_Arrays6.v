(** Array evaluation: the transient half-space dipole and the helpers of the dipole classes *)
From Coq Require Import String Reals List Arith Lia Lra Bool.
From Verif Require Import Vec3 Numpy Model_Utils Proof_Utils Model_Spatial Model_Static Model_Gravity SpecFun Model_TDEM Model_Arrays Proof_Arrays Spec_Arrays Proof_Arrays2 Model_Arrays2 Spec_Arrays2 Proof_Arrays3 Proof_Arrays4 Proof_Arrays5.
Import ListNotations.
Open Scope nat_scope.

Section Two.
  Variables (F S : list nat).
  Definition iof (ix : list nat) := firstn (length F) ix.
  Definition jof (ix : list nat) := skipn (length F) ix.
  Lemma iof_app i j : inside F i -> iof (i ++ j) = i.
  Proof. exact (lead_app F i j). Qed.
  Lemma jof_app i j : inside F i -> jof (i ++ j) = j.
  Proof. exact (pq_app F i j). Qed.
  Definition rep2 {A} (a : nd A) (f : list nat -> list nat -> A) (P : nat -> Prop) := repT (F ++ S) a (fun ix => f (iof ix) (jof ix)) P.
  Lemma rep2_bop {A B C} (op : A -> B -> C) a b phi psi P Q : rep2 a phi P -> rep2 b psi Q ->
    exists r, broadcast_op op a b = Ok r /\ rep2 r (fun i j => op (phi i j) (psi i j)) (fun n => P n \/ Q n).
  Proof. exact (repT_bop (F ++ S) op a b (fun ix => phi (iof ix) (jof ix)) (fun ix => psi (iof ix) (jof ix)) P Q). Qed.
  Lemma rep2_map {A B} (f : A -> B) a phi P : rep2 a phi P -> rep2 (amap f a) (fun i j => f (phi i j)) P.
  Proof. exact (repT_map (F ++ S) f a (fun ix => phi (iof ix) (jof ix)) P). Qed.
  Lemma split2 ix : inside (F ++ S) ix -> exists i j, ix = i ++ j /\ inside F i /\ inside S j.
  Proof. intros H. apply Forall2_app_inv_l in H. destruct H as (i & j & Hi & Hj & ->). exists i, j. auto. Qed.
  Lemma rep2_point (a : nd R) v : scalars_of S a v -> rep2 a (fun i j => v j) (fun n => n < length S).
  Proof.
    intros [E H]. unfold rep2, repT. rewrite E, rev_app_distr. split; [apply fits_prefix|]. split.
    - intros n Hn _. rewrite nth_error_app1 by (rewrite rev_length; exact Hn). reflexivity.
    - intros ix Hi. destruct (split2 ix Hi) as (i & j & -> & Hi' & Hj). rewrite bindex_suffix by (symmetry; apply inside_length; exact Hj).
      rewrite bindex_self by exact Hj. rewrite jof_app by exact Hi'. apply H; exact Hj.
  Qed.
  Lemma rep2_time (t : nd R) n : shape t = F -> n = length S -> rep2 (append_ndim t n) (fun i j => get t i) (fun n => length S <= n).
  Proof.
    intros E ->. unfold rep2, repT. rewrite append_shape, E, !rev_app_distr, rev_repeat. split; [|split].
    - apply fits_ones; [rewrite rev_length; reflexivity|apply fits_refl].
    - intros n Hn L. rewrite !nth_error_app2 by (rewrite ?repeat_length, ?rev_length; exact Hn). rewrite repeat_length, rev_length. reflexivity.
    - intros ix Hi. destruct (split2 ix Hi) as (i & j & -> & Hi' & Hj). rewrite iof_app by exact Hi'.
      rewrite bindex_app by (rewrite repeat_length; symmetry; apply inside_length; exact Hj). rewrite bindex_self by exact Hi'.
      assert (K : bindex (repeat 1 (length S)) j = repeat 0 (length S)).
      { unfold bindex. rewrite rev_repeat, <- (app_nil_r (repeat 1 _)), <- (app_nil_r (rev j)).
        rewrite bindex_rev_ones by (rewrite rev_length; apply inside_length; exact Hj). cbn [bindex_rev]. rewrite app_nil_r, rev_repeat. reflexivity. }
      rewrite K. apply append_get.
  Qed.
  Lemma rep2_exact {A} (a : nd A) f P : rep2 a f P -> (forall n, n < length F + length S -> P n) -> scalars_of (F ++ S) a (fun ix => f (iof ix) (jof ix)).
  Proof. intros R HP. apply (repT_exact (F ++ S) a _ P R). intros n L. rewrite app_length in L. apply HP; exact L. Qed.
End Two.

Lemma item_points S (a : nd R) k c : shape a = S ++ [k] -> c < k -> item a c = Ok (ND S (fun j => get a (j ++ [c]))).
Proof. intros E L. unfold item. rewrite E, last_last, removelast_snoc, (proj2 (Nat.ltb_lt c k) L). reflexivity. Qed.
Lemma scalars_ND S f : @scalars_of S R (ND S f) f.
Proof. split; reflexivity. Qed.
Lemma check_width (a : nd R) S k d : shape a = S ++ [k] -> check_xyz_dim (XyzArray a) d = if Nat.eqb k d then Ok a else Raise ValueError.
Proof. intros E. unfold check_xyz_dim. cbn [rbind]. rewrite E, rev_app_distr. cbn [rev app]. destruct (Nat.eqb k d); reflexivity. Qed.

Ltac leaf2 F S := first [ eassumption | apply rep2_map; leaf2 F S | apply (rep2_time F S); reflexivity | apply rep2_point; first [eassumption | apply scalars_ND | split; reflexivity] ].
Ltac step2 F S := match goal with |- context [broadcast_op ?op ?a ?b] =>
  let r := fresh "r" in let E := fresh "E" in let Q := fresh "Q" in
  edestruct (rep2_bop F S op a b) as (r & E & Q); [leaf2 F S | leaf2 F S | rewrite E; clear E; cbn [rbind]] end.
Ltac sc2 F S := eapply rep2_exact; [eassumption | intros n L; cbv beta; lia].

(** the function of simple_functions.py on offsets of width 2 *)
Lemma vmd_H_rows (t dxy : nd R) S sigma mu moment : shape dxy = S ++ [2] ->
  exists e, vmd_H_array t (XyzArray dxy) sigma mu moment = Ok e /\ shape e = shape t ++ S ++ [3] /\
  forall i j, inside (shape t) i -> inside S j -> vec_at e (i ++ j) = vmd_H (get t i) sigma mu moment (get dxy (j ++ [0])) (get dxy (j ++ [1])).
Proof.
  intros E. unfold vmd_H_array, try_3_then_2. rewrite !(check_width dxy S 2 _ E). cbn [Nat.eqb rmap rbind].
  rewrite (item_points S dxy 2 0 E), (item_points S dxy 2 1 E) by lia. cbn [rbind].
  assert (Er : norm_two (first_two dxy) = ND S (fun j => sqrt (get dxy (j ++ [0]) ^ 2 + get dxy (j ++ [1]) ^ 2))).
  { unfold norm_two, first_two. cbn [shape get]. rewrite E, !removelast_snoc. reflexivity. }
  rewrite Er. unfold ndim. cbn [shape]. remember (shape t) as F eqn:EF. symmetry in EF.
  assert (Et : rep2 F S (append_ndim t (length S)) (fun i j => get t i) (fun n => length S <= n)) by (apply rep2_time; [exact EF|reflexivity]).
  do 4 step2 F S.
  do 2 step2 F S.
  match goal with |- context [stack_last [?x; ?y; ?z]] =>
    edestruct (stack3 (F ++ S) x y z) as (e & Ee & Es & Hv); [sc2 F S | sc2 F S | sc2 F S | rewrite Ee; cbn [rmap]] end.
  eexists. split; [reflexivity|]. split; [unfold amap; cbn [shape]; rewrite Es, <- app_assoc; reflexivity|].
  intros i j Hi Hj. assert (I : inside (F ++ S) (i ++ j)) by (apply Forall2_app; assumption).
  specialize (Hv _ I). cbv beta in Hv. rewrite !(iof_app F i j Hi), !(jof_app F i j Hi) in Hv.
  unfold amap, vec_at. cbn [get]. unfold vec_at in Hv. injection Hv as Hx Hy Hz. rewrite Hx, Hy, Hz. reflexivity.
Qed.
Lemma vmd_dH_rows (t dxy : nd R) S sigma mu moment : shape dxy = S ++ [2] ->
  exists e, vmd_dH_array t (XyzArray dxy) sigma mu moment = Ok e /\ shape e = shape t ++ S ++ [3] /\
  forall i j, inside (shape t) i -> inside S j -> vec_at e (i ++ j) = vmd_dH (get t i) sigma mu moment (get dxy (j ++ [0])) (get dxy (j ++ [1])).
Proof.
  intros E. unfold vmd_dH_array, try_3_then_2. rewrite !(check_width dxy S 2 _ E). cbn [Nat.eqb rmap rbind].
  rewrite (item_points S dxy 2 0 E), (item_points S dxy 2 1 E) by lia. cbn [rbind].
  assert (Er : norm_two dxy = ND S (fun j => sqrt (get dxy (j ++ [0]) ^ 2 + get dxy (j ++ [1]) ^ 2))).
  { unfold norm_two. cbn [shape get]. rewrite E, removelast_snoc. reflexivity. }
  rewrite Er. unfold ndim. cbn [shape]. remember (shape t) as F eqn:EF. symmetry in EF.
  assert (Et : rep2 F S (append_ndim t (length S)) (fun i j => get t i) (fun n => length S <= n)) by (apply rep2_time; [exact EF|reflexivity]).
  do 5 step2 F S.
  do 2 step2 F S.
  match goal with |- context [stack_last [?x; ?y; ?z]] =>
    edestruct (stack3 (F ++ S) x y z) as (e & Ee & Es & Hv); [sc2 F S | sc2 F S | sc2 F S | rewrite Ee; cbn [rmap]] end.
  eexists. split; [reflexivity|]. split; [unfold amap; cbn [shape]; rewrite Es, <- app_assoc; reflexivity|].
  intros i j Hi Hj. assert (I : inside (F ++ S) (i ++ j)) by (apply Forall2_app; assumption).
  specialize (Hv _ I). cbv beta in Hv. rewrite !(iof_app F i j Hi), !(jof_app F i j Hi) in Hv.
  unfold amap, vec_at. cbn [get]. unfold vec_at in Hv. injection Hv as Hx Hy Hz. rewrite Hx, Hy, Hz. reflexivity.
Qed.

(** VerticalMagneticDipoleHalfSpace: points of width 2 or 3 *)
Lemma tv_rows f g (s : tvmd) (time xy : nd R) S k :
  (forall t dxy S sigma mu moment, shape dxy = S ++ [2] -> exists e, f t (XyzArray dxy) sigma mu moment = Ok e /\ shape e = shape t ++ S ++ [3] /\
     forall i j, inside (shape t) i -> inside S j -> vec_at e (i ++ j) = g (get t i) sigma mu moment (get dxy (j ++ [0])) (get dxy (j ++ [1]))) ->
  shape xy = S ++ [k] -> k = 2 \/ k = 3 ->
  rows_per_time (fun t row => tv_call g (tv_at s t) row) time xy (tv_array f s time (XyzArray xy)).
Proof.
  intros Hf E Hk. unfold rows_per_time, tv_array. rewrite E, removelast_snoc.
  assert (K : exists xy2, try_2_then_3 (XyzArray xy) = Ok xy2 /\ shape xy2 = S ++ [2] /\ forall ix, get xy2 ix = get xy ix).
  { unfold try_2_then_3. rewrite !(check_width xy S k _ E). destruct Hk as [-> | ->]; cbn [Nat.eqb rmap].
    - exists xy. auto.
    - eexists. split; [reflexivity|]. unfold first_two. cbn [shape get]. rewrite E, removelast_snoc, last_last. auto. }
  destruct K as (xy2 & -> & E2 & H2). cbn [rbind].
  assert (K : exists d, broadcast_op Rminus xy2 (first_two (vec_nd (tv_loc s))) = Ok d /\ shape d = S ++ [2] /\
     forall j c, inside S j -> c < 2 -> get d (j ++ [c]) = (get xy (j ++ [c]) - component (tv_loc s) c)%R).
  { destruct (repT_bop (S ++ [2]) Rminus xy2 (first_two (vec_nd (tv_loc s))) (get xy) (fun ix => component (tv_loc s) (last ix 0)) (fun _ => True) (fun _ => False)) as (d & Ed & Rd).
    - apply repT_full; [exact E2|]. intros ix _. apply H2.
    - unfold first_two. cbn [vec_nd shape last removelast Nat.min app]. unfold repT. cbn [shape get]. rewrite rev_app_distr. split; [|split].
      + cbn [rev app]. constructor; [auto|constructor].
      + intros n [].
      + intros ix Hi. apply Forall2_app_inv_l in Hi. destruct Hi as (j & w & Hj & Hw & ->). inversion Hw as [|? c ? w1 Hc Hw1]; subst. inversion Hw1; subst.
        rewrite bindex_suffix by reflexivity. rewrite last_last. reflexivity.
    - exists d. split; [exact Ed|]. destruct (repT_exact _ d _ _ Rd) as [Es Hs]; [auto|]. split; [exact Es|].
      intros j c Hj Hc. rewrite Hs by (apply Forall2_app; [exact Hj|]; constructor; [exact Hc|constructor]). rewrite last_last. reflexivity. }
  destruct K as (d & -> & Ed & Hd). cbn [rbind].
  destruct (Hf time d S (td_sigma (tv_med s)) (td_mu (tv_med s)) (tv_moment s) Ed) as (e & -> & Ee & He).
  exists e. split; [reflexivity|]. split; [exact Ee|]. intros i j Hi Hj. rewrite (He i j Hi Hj), !Hd by (assumption || lia).
  unfold row_at. rewrite E, last_last. destruct Hk as [-> | ->]; reflexivity.
Qed.
Lemma scal_rows f mu (time xy : nd R) out : rows_per_time f time xy out ->
  rows_per_time (fun t row => rmap (vscal mu) (f t row)) time xy (rmap (amap (fun h => mu * h)%R) out).
Proof.
  intros (e & -> & E & H). cbn [rmap]. eexists. split; [reflexivity|]. split; [exact E|]. intros i j Hi Hj. rewrite (H i j Hi Hj). reflexivity.
Qed.
Lemma tv_rejects f (s : tvmd) (time xy : nd R) S k : shape xy = S ++ [k] -> k <> 2 -> k <> 3 -> tv_array f s time (XyzArray xy) = Raise ValueError.
Proof.
  intros E H2 H3. unfold tv_array, try_2_then_3. rewrite !(check_width xy S k _ E). apply Nat.eqb_neq in H2, H3. rewrite H2, H3. reflexivity.
Qed.

(** ** helpers *)
Lemma sum3 f : fold_right Rplus 0%R (map f (seq 0 3)) = (f 0%nat + (f 1%nat + (f 2%nat + 0)))%R.
Proof. reflexivity. Qed.
Lemma norm_any_points S a v : points_of S a v -> exists e, norm_any a = Ok e /\ scalars_of S e (fun j => vnorm (v j)).
Proof.
  intros [E H]. unfold norm_any. rewrite E, removelast_snoc, last_last. destruct (S ++ [3]) eqn:K; [destruct S; discriminate|].
  eexists. split; [reflexivity|]. split; [reflexivity|]. intros j Hj. cbn [get]. rewrite sum3, <- (H j Hj). unfold vnorm, vnorm2, vdot, vec_at. cbn [vx vy vz]. f_equal. ring.
Qed.
Lemma helpers_points (loc orient : vec3) (xyz : nd R) S : shape xyz = S ++ [3] ->
  one_vector_per_point (fun p => Ok (vsub p loc)) xyz (bd_vector_distance loc xyz) /\
  one_number_per_point (fun p => vnorm (vsub p loc)) xyz (bd_distance loc xyz) /\
  one_number_per_point (fun p => vdot p orient) xyz (bd_dot_orientation orient xyz) /\
  one_vector_per_point (fun p => Ok (vcross p orient)) xyz (bd_cross_orientation orient xyz).
Proof.
  intros E. destruct (check_points S xyz E) as [_ P]. unfold one_vector_per_point, one_number_per_point. rewrite E, removelast_snoc.
  destruct (sub_points S xyz _ loc P) as (d & Ed & Hd). split; [|split; [|split]].
  - exists d. split; [exact Ed|]. split; [exact (proj1 Hd)|]. intros j Hj. rewrite (proj2 Hd j Hj). reflexivity.
  - unfold bd_distance. rewrite Ed. cbn [rbind]. destruct (norm_any_points S d _ Hd) as (e & -> & Ee & He). exists e. auto.
  - unfold bd_dot_orientation. rewrite E, rev_app_distr. cbn [rev app Nat.eqb]. eexists. split; [reflexivity|]. unfold dot_last. cbn [shape get]. rewrite E, removelast_snoc. split; reflexivity.
  - unfold bd_cross_orientation. rewrite E, rev_app_distr. cbn [rev app Nat.eqb]. eexists. split; [reflexivity|].
    destruct (cross_r_points S xyz _ orient P) as [Ec Hc]. split; [exact Ec|]. intros j Hj. rewrite (Hc j Hj). reflexivity.
Qed.
Lemma bshape_one S k : k <> 1 -> k <> 3 -> bshape (S ++ [k]) [3] = None.
Proof.
  intros H1 H3. unfold bshape. rewrite rev_app_distr. cbn [rev app bshape_rev]. replace (bshape_rev (rev S) []) with (Some (rev S)) by (destruct (rev S); reflexivity).
  apply Nat.eqb_neq in H1, H3. rewrite H3, H1. reflexivity.
Qed.
Lemma helpers_reject (loc orient : vec3) (xyz : nd R) S k : shape xyz = S ++ [k] -> k <> 1 -> k <> 3 ->
  bd_vector_distance loc xyz = Raise ValueError /\ bd_distance loc xyz = Raise ValueError /\ bd_dot_orientation orient xyz = Raise ValueError /\
  (k <> 2 -> bd_cross_orientation orient xyz = Raise ValueError).
Proof.
  intros E H1 H3. unfold bd_vector_distance, bd_distance, bd_dot_orientation, bd_cross_orientation, broadcast_op. cbn [vec_nd shape]. rewrite E, (bshape_one S k H1 H3), rev_app_distr.
  cbn [rev app rbind]. apply Nat.eqb_neq in H3. rewrite H3. repeat split. intros H2. apply Nat.eqb_neq in H2. rewrite H2. reflexivity.
Qed.
(** a last axis of length 1: every point counts as (x, x, x) *)
Lemma helpers_width_one (loc : vec3) (xyz : nd R) S : shape xyz = S ++ [1] ->
  exists e d, bd_vector_distance loc xyz = Ok e /\ shape e = S ++ [3] /\ bd_distance loc xyz = Ok d /\ shape d = S /\
  forall j, index_of S j -> let x := get xyz (j ++ [0]) in vec_at e j = vsub (V3 x x x) loc /\ get d j = vnorm (vsub (V3 x x x) loc).
Proof.
  intros E. destruct (rep_bop [] S Rminus xyz (vec_nd loc) _ _ _ _ (rep_column [] S xyz (fun j => get xyz (j ++ [0])) E ltac:(reflexivity)) (rep_vec [] S loc)) as (e & Ee & R').
  assert (Pe : points_of S e (fun j => vsub (V3 (get xyz (j ++ [0])) (get xyz (j ++ [0])) (get xyz (j ++ [0]))) loc)).
  { apply (rep_points_of S _ _ _ _ R'); [intros n L; lia|]. intros j c _ Hc. destruct c as [|[|[|c]]]; [reflexivity..|lia]. }
  destruct (norm_any_points S e _ Pe) as (d & Ed & Sd & Hd). exists e, d. unfold bd_vector_distance, bd_distance. rewrite Ee. cbn [rbind].
  split; [reflexivity|]. split; [exact (proj1 Pe)|]. split; [exact Ed|]. split; [exact Sd|]. intros j Hj. split; [exact (proj2 Pe j Hj)|exact (Hd j Hj)].
Qed.
