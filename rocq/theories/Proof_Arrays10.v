(** Array evaluation of the harmonic half-space and layered dipoles, with the squeeze *)
From Coq Require Import String Reals List Arith Lia Lra Bool.
From Coquelicot Require Import Coquelicot.
From Verif Require Spec_Layered Proof_Layered3 Proof_Layered4.
From Verif Require Import Vec3 Cplx Numpy Model_Utils Proof_Utils Model_Spatial Model_Static Model_FDEM Model_TDEM Model_Layered Model_Arrays Proof_Arrays Spec_Arrays Proof_Arrays2 Model_Arrays2 Spec_Arrays2 Proof_Arrays3 Proof_Arrays4 Proof_Arrays5 Proof_Arrays6
  Model_Arrays4 Spec_Arrays4.
Import ListNotations.
Open Scope nat_scope.

Lemma unsqueeze_drop s ix : index_of s ix -> unsqueeze s (drop_unit_axes s ix) = ix.
Proof.
  intros H. unfold drop_unit_axes. induction H as [|n i s ix Hi H IH]; [reflexivity|]. cbn [combine filter fst map unsqueeze].
  destruct (Nat.eqb_spec n 1) as [->|N]; cbn [negb map snd hd tl]; rewrite IH; [|reflexivity]. f_equal. lia.
Qed.

(** k[:, None] repeated *)
Lemma axes_after n {A} (k : nd A) m (s : list nat) : shape k = m :: s ->
  exists k', axes_after_first n k = Ok k' /\ shape k' = m :: repeat 1 n ++ s /\
  forall i ix, get k' (i :: repeat 0 n ++ ix) = get k (i :: ix).
Proof.
  revert k s. induction n as [|n IH]; intros k s E; cbn [axes_after_first].
  - exists k. split; [reflexivity|]. split; [exact E|]. reflexivity.
  - unfold axis_after_first. rewrite E. cbn [rbind]. edestruct (IH (ND (m :: 1 :: s) (fun ix => get k (hd 0 ix :: tl (tl ix)))) (1 :: s)) as (k' & E' & Es & Hg); [reflexivity|].
    exists k'. split; [exact E'|]. split.
    + rewrite Es. cbn [repeat app]. f_equal. change (1 :: repeat 1 n ++ s) with ((1 :: repeat 1 n) ++ s). rewrite repeat_cons, <- app_assoc. reflexivity.
    + intros i ix. cbn [repeat app]. change (0 :: repeat 0 n ++ ix) with ((0 :: repeat 0 n) ++ ix). rewrite repeat_cons, <- app_assoc. cbn [app]. rewrite Hg. reflexivity.
Qed.
Section Two.
  Variables (F S : list nat).
  (** the wavenumbers: the frequency axis followed by ones *)
  Lemma rep2_lead {A} (k : nd A) (f : list nat -> A) : shape k = F ++ repeat 1 (length S) -> (forall i, inside F i -> get k (i ++ repeat 0 (length S)) = f i) ->
    rep2 F S k (fun i j => f i) (fun n => length S <= n).
  Proof.
    intros E Hg. unfold rep2, repT. rewrite E, !rev_app_distr, rev_repeat. split; [|split].
    - apply fits_ones; [rewrite rev_length; reflexivity|apply fits_refl].
    - intros n Hn L. rewrite !nth_error_app2 by (rewrite ?repeat_length, ?rev_length; exact Hn). rewrite repeat_length, rev_length. reflexivity.
    - intros ix Hi. destruct (split2 F S ix Hi) as (i & j & -> & Hi' & Hj). rewrite iof_app by exact Hi'.
      rewrite bindex_app by (rewrite repeat_length; symmetry; apply inside_length; exact Hj). rewrite bindex_self by exact Hi'.
      assert (K : bindex (repeat 1 (length S)) j = repeat 0 (length S)).
      { unfold bindex. rewrite rev_repeat, <- (app_nil_r (repeat 1 _)), <- (app_nil_r (rev j)).
        rewrite bindex_rev_ones by (rewrite rev_length; apply inside_length; exact Hj). cbn [bindex_rev]. rewrite app_nil_r, rev_repeat. reflexivity. }
      rewrite K. apply Hg; exact Hi'.
  Qed.
  Definition full {A} (a : nd A) (f : list nat -> list nat -> A) : Prop := rep2 F S a f (fun _ => True).
  Lemma full_shape {A} (a : nd A) f : full a f -> shape a = F ++ S /\ forall i j, inside F i -> inside S j -> get a (i ++ j) = f i j.
  Proof.
    intros H. destruct (rep2_exact F S a f _ H) as [E Hg]; [auto|]. split; [exact E|]. intros i j Hi Hj.
    rewrite Hg by (apply Forall2_app; assumption). rewrite iof_app, jof_app by exact Hi. reflexivity.
  Qed.
  Lemma rep2_weaken {A} (a : nd A) f (P Q : nat -> Prop) : (forall n, n < length (F ++ S) -> Q n -> P n) -> rep2 F S a f P -> rep2 F S a f Q.
  Proof. intros W (H1 & H2 & H3). split; [exact H1|]. split; [|exact H3]. intros n Hn L. apply H2; auto. Qed.
  (** a number, or a full array *)
  Definition started {A} (a : nd A) f : Prop := (shape a = [] /\ rep2 F S a f (fun _ => False)) \/ full a f.
  Lemma in_place_ok {A B} (op : A -> B -> A) a (b : nd B) f g (P : nat -> Prop) : rep2 F S b g P -> (full a f \/ (started a f /\ forall n, n < length (F ++ S) -> P n)) ->
    exists e, in_place op a b = Ok e /\ full e (fun i j => op (f i j) (g i j)).
  Proof.
    intros Hb Ha.
    assert (K : full a f \/ (shape a = [] /\ rep2 F S a f (fun _ => False) /\ forall n, n < length (F ++ S) -> P n)).
    { destruct Ha as [Ha|[[[E Ha]|Ha] HP]]; auto. }
    destruct K as [K|(E & K & HP)].
    - destruct (rep2_bop F S op a b f g _ _ K Hb) as (r & Er & Qr). assert (Q : full r (fun i j => op (f i j) (g i j))) by (eapply rep2_weaken; [|exact Qr]; cbv beta; auto).
      exists r. split; [|exact Q]. unfold in_place. rewrite Er. cbn [rbind]. destruct (full_shape a f K) as [Ea _]. destruct (full_shape r _ Q) as [Err _].
      rewrite Ea, Err. destruct (F ++ S); [reflexivity|]. unfold shape_eqb. destruct (list_eq_dec Nat.eq_dec (n :: l) (n :: l)); [reflexivity|congruence].
    - destruct (rep2_bop F S op a b f g _ _ K Hb) as (r & Er & Qr). exists r. unfold in_place. rewrite Er, E. cbn [rbind]. split; [reflexivity|].
      eapply rep2_weaken; [|exact Qr]. cbv beta. auto.
  Qed.
  Lemma rep2_number {A} (x : A) : rep2 F S (ND [] (fun _ => x)) (fun i j => x) (fun _ => False).
  Proof. unfold rep2, repT. cbn [shape rev get]. split; [constructor|]. split; [intros n []|reflexivity]. Qed.
End Two.

Ltac covers S := let n := fresh "n" in let L := fresh "L" in intros n L; cbv beta; destruct (Nat.lt_ge_cases n (length S)); tauto.
Ltac istep F S := match goal with |- context [in_place ?op ?a ?b] =>
  let r := fresh "e" in let E := fresh "E" in let Q := fresh "Q" in
  edestruct (in_place_ok F S op a b) as (r & E & Q); [leaf2 F S | first [left; eassumption | right; split; [eassumption|covers S]] | rewrite E; clear E; cbn [rbind]] end.

Section Parts.
  Variables (F S : list nat) (k IK1 IK2 : nd C) (r x y : nd R) (kf : list nat -> C) (rf xf yf : list nat -> R) (I1 I2 : list nat -> list nat -> C).
  Hypothesis Hk : rep2 F S k (fun i j => kf i) (fun n => length S <= n).
  Hypothesis Hr : rep2 F S r (fun i j => rf j) (fun n => n < length S).
  Hypothesis Hx : rep2 F S x (fun i j => xf j) (fun n => n < length S).
  Hypothesis Hy : rep2 F S y (fun i j => yf j) (fun n => n < length S).
  Hypothesis H1 : full F S IK1 I1.
  Hypothesis H2 : full F S IK2 I2.

  Definition em_started (em : components) (v : list nat -> list nat -> cvec) : Prop :=
    started F S (em_x em) (fun i j => cvx (v i j)) /\ started F S (em_y em) (fun i j => cvy (v i j)) /\ started F S (em_z em) (fun i j => cvz (v i j)).
  Definition em_full (em : components) (v : list nat -> list nat -> cvec) : Prop :=
    full F S (em_x em) (fun i j => cvx (v i j)) /\ full F S (em_y em) (fun i j => cvy (v i j)) /\ full F S (em_z em) (fun i j => cvz (v i j)).
  Lemma full_started em v : em_full em v -> em_started em v.
  Proof. intros (A & B & C). unfold em_started, started. auto. Qed.

  Definition pv (src_z : R) (k : C) (r x y : R) (IK1 IK2 : C) (em : cvec) : cvec :=
    if Reqb src_z 0 then em
    else
      let Hr := ((k ^ 2 / r) * (IK1 - IK2))%C in
      let angle := atan2 y x in
      CV (cvx em + RtoC (src_z * cos angle) * Hr)%C
         (cvy em + RtoC (src_z * sin angle) * Hr)%C
         (cvz em + RtoC src_z * mh_hz k r)%C.
  Definition phx (src_x : R) (k : C) (r x y : R) (IK1 IK2 : C) (em : cvec) : cvec :=
    if Reqb src_x 0 then em
    else
      CV (cvx em + RtoC (src_x * (-1 / r ^ 3)) * (RtoC (y ^ 2) * mh_phi k r + RtoC (x ^ 2 * r) * mh_dphi_dr k r))%C
         (cvy em + RtoC (src_x * (1 / r ^ 3) * x * y) * (mh_phi k r - r * mh_dphi_dr k r))%C
         (cvz em - RtoC src_x * (k ^ 2 * x / r ^ 2) * (IK1 - IK2))%C.
  Definition phy (src_y : R) (k : C) (r x y : R) (IK1 IK2 : C) (em : cvec) : cvec :=
    if Reqb src_y 0 then em
    else
      CV (cvx em + RtoC (src_y * (1 / r ^ 3) * x * y) * (mh_phi k r - r * mh_dphi_dr k r))%C
         (cvy em + RtoC (src_y * (-1 / r ^ 3)) * (RtoC (x ^ 2) * mh_phi k r + RtoC (y ^ 2 * r) * mh_dphi_dr k r))%C
         (cvz em - RtoC src_y * (k ^ 2 * y / r ^ 2) * (IK1 - IK2))%C.
  Definition psec (o : vec3) (r x y : R) (em : cvec) : cvec :=
    let mdotr := (vx o * x + vy o * y)%R in
    CV (cvx em - RtoC (3 * x * mdotr / r ^ 5 - vx o / r ^ 3))%C
       (cvy em - RtoC (3 * y * mdotr / r ^ 5 - vy o / r ^ 3))%C
       (cvz em - RtoC (- vz o / r ^ 3))%C.

  Lemma vertical_ok src_z em v : em_started em v ->
    exists em', vertical_part src_z k r x y IK1 IK2 em = Ok em' /\
      let v' := fun i j => pv src_z (kf i) (rf j) (xf j) (yf j) (I1 i j) (I2 i j) (v i j) in
      em_started em' v' /\ (src_z <> 0%R -> em_full em' v').
  Proof.
    intros (Sx & Sy & Sz). unfold vertical_part, pv. destruct (Reqb src_z 0) eqn:Z.
    - exists em. split; [reflexivity|]. cbv zeta. split; [split; [|split]; assumption|]. intros N. apply Reqb_true in Z. contradiction.
    - step2 F S. istep F S. do 5 step2 F S. istep F S. step2 F S. istep F S.
      eexists. split; [reflexivity|]. cbv zeta.
      match goal with |- em_started ?e ?w /\ _ => assert (Fu : em_full e w) by (split; [|split]; assumption) end.
      split; [apply full_started; exact Fu|]. intros _; exact Fu.
  Qed.
  Lemma horizontal_ok src_x src_y em v : em_started em v ->
    exists em', horizontal_part src_x src_y k r x y IK1 IK2 em = Ok em' /\
      let v' := fun i j => phy src_y (kf i) (rf j) (xf j) (yf j) (I1 i j) (I2 i j) (phx src_x (kf i) (rf j) (xf j) (yf j) (I1 i j) (I2 i j) (v i j)) in
      em_started em' v' /\ (em_full em v \/ src_x <> 0%R \/ src_y <> 0%R -> em_full em' v').
  Proof.
    intros (Sx & Sy & Sz). unfold horizontal_part, phx, phy. destruct (Reqb src_x 0) eqn:X; destruct (Reqb src_y 0) eqn:Y; cbn [andb].
    - exists em. split; [reflexivity|]. cbv zeta. split; [split; [|split]; assumption|]. apply Reqb_true in X. apply Reqb_true in Y. intros [H|[H|H]]; [exact H|contradiction..].
    - do 2 step2 F S. cbn [rbind]. unfold cross_term, direct_term, vertical_term. do 5 step2 F S. istep F S. do 5 step2 F S. istep F S. do 4 step2 F S. istep F S.
      eexists. split; [reflexivity|]. cbv zeta.
      match goal with |- em_started ?e ?w /\ _ => assert (Fu : em_full e w) by (split; [|split]; assumption) end.
      split; [apply full_started; exact Fu|]. intros _; exact Fu.
    - do 2 step2 F S. unfold cross_term, direct_term, vertical_term. do 5 step2 F S. istep F S. do 5 step2 F S. istep F S. do 4 step2 F S. istep F S.
      eexists. split; [reflexivity|]. cbv zeta.
      match goal with |- em_started ?e ?w /\ _ => assert (Fu : em_full e w) by (split; [|split]; assumption) end.
      split; [apply full_started; exact Fu|]. intros _; exact Fu.
    - do 2 step2 F S. unfold cross_term, direct_term, vertical_term. do 5 step2 F S. istep F S. do 5 step2 F S. istep F S. do 4 step2 F S. istep F S. cbn [em_x em_y em_z].
      repeat first [step2 F S | istep F S].
      eexists. split; [reflexivity|]. cbv zeta.
      match goal with |- em_started ?e ?w /\ _ => assert (Fu : em_full e w) by (split; [|split]; assumption) end.
      split; [apply full_started; exact Fu|]. intros _; exact Fu.
  Qed.
  Lemma primary_ok o em v : em_full em v ->
    exists em', without_primary o r x y em = Ok em' /\ em_full em' (fun i j => psec o (rf j) (xf j) (yf j) (v i j)).
  Proof.
    intros (Sx & Sy & Sz). unfold without_primary, psec. do 3 step2 F S. istep F S. do 2 step2 F S. do 2 istep F S.
    eexists. split; [reflexivity|]. split; [|split]; assumption.
  Qed.
End Parts.

Lemma stack3_any {A} S (x y z : nd A) u v w : scalars_of S x u -> scalars_of S y v -> scalars_of S z w ->
  exists e, stack_last [x; y; z] = Ok e /\ shape e = S ++ [3] /\ forall j c, inside S j -> c < 3 -> get e (j ++ [c]) = nth c [u j; v j; w j] (u j).
Proof.
  intros [E1 K1] [E2 K2] [E3 K3]. unfold stack_last. cbn [forallb]. rewrite E1, E2, E3. unfold shape_eqb.
  destruct (list_eq_dec Nat.eq_dec S S) as [_|N]; [|congruence]. cbn [andb]. eexists. split; [reflexivity|]. split; [reflexivity|].
  intros j c Hj Hc. cbn [get]. rewrite removelast_snoc, last_last. destruct c as [|[|[|c]]]; [..|lia]; cbn [nth]; auto.
Qed.
Lemma squeeze_ok {A B} (e : nd A) (f : A -> B) s : shape e = s ->
  forall ix, index_of s ix -> get (amap f (squeeze e)) (drop_unit_axes s ix) = f (get e ix).
Proof. intros <- ix H. unfold amap, squeeze. cbn [get]. rewrite unsqueeze_drop by exact H. reflexivity. Qed.

(** the offsets *)
Lemma offsets_ok (loc : vec3) (xy : nd R) S k : shape xy = S ++ [k] -> 0 < k ->
  exists d, broadcast_op Rminus (first_two xy) (first_two (vec_nd loc)) = Ok d /\ shape d = S ++ [2] /\
     forall j c, inside S j -> c < 2 -> get d (j ++ [c]) = (get xy (j ++ [if (k =? 1)%nat then 0%nat else c]) - component loc c)%R.
Proof.
  intros E Hk.
  destruct (repT_bop (S ++ [2]) Rminus (first_two xy) (first_two (vec_nd loc))
    (fun ix => get xy (removelast ix ++ [if k =? 1 then 0 else last ix 0])) (fun ix => component loc (last ix 0)) (fun n => 1 <= n) (fun n => n < 1)) as (d & Ed & Rd).
  - unfold first_two. rewrite E, removelast_snoc, last_last. unfold repT. cbn [shape get]. rewrite !rev_app_distr. cbn [rev app]. split; [|split].
    + constructor; [lia|apply fits_refl].
    + intros [|n] Hn _; [lia|reflexivity].
    + intros ix Hi. apply Forall2_app_inv_l in Hi. destruct Hi as (j & w & Hj & Hw & ->). inversion Hw as [|? c ? w1 Hc Hw1]; subst. inversion Hw1; subst.
      rewrite bindex_app by reflexivity. rewrite bindex_self by exact Hj. rewrite removelast_snoc, last_last. unfold bindex. cbn [rev app bindex_rev].
      destruct (Nat.eqb_spec k 1) as [->|N]; [reflexivity|]. destruct (Nat.eqb_spec (Nat.min 2 k) 1) as [N2|N2]; [lia|reflexivity].
  - unfold first_two. cbn [vec_nd shape last removelast Nat.min app]. unfold repT. cbn [shape get]. rewrite rev_app_distr. cbn [rev app]. split; [|split].
    + constructor; [auto|constructor].
    + intros [|n] Hn _; [reflexivity|lia].
    + intros ix Hi. apply Forall2_app_inv_l in Hi. destruct Hi as (j & w & Hj & Hw & ->). inversion Hw as [|? c ? w1 Hc Hw1]; subst. inversion Hw1; subst.
      rewrite bindex_suffix by reflexivity. rewrite last_last. reflexivity.
  - exists d. split; [exact Ed|]. destruct (repT_exact _ d _ _ Rd) as [Es Hs]; [intros n _; cbv beta; lia|]. split; [exact Es|].
    intros j c Hj Hc. rewrite Hs by (apply Forall2_app; [exact Hj|]; constructor; [exact Hc|constructor]). rewrite last_last, removelast_snoc. reflexivity.
Qed.

Lemma mh_array_ok iv kv mu_0 s freq secondary xy S k : shape xy = S ++ [k] -> 0 < k -> mh_orient s <> vzero ->
  (exists n, shape freq = [n]) \/ (shape freq = [] /\ S = []) ->
  squeezed_grid ccomponent (fun i j => mh_H iv kv mu_0 (with_freq s (get freq i)) secondary (V3 (get xy (j ++ [0])) (get xy (j ++ [if k =? 1 then 0 else 1])) 0%R))
    (shape freq) S (mh_H_array iv kv mu_0 s freq secondary xy).
Proof.
  intros E Hk No Hf. unfold squeezed_grid, mh_H_array. cbv zeta.
  assert (Nn : exists a b, shape xy = a :: b) by (rewrite E; destruct S; cbn [app]; eauto). destruct Nn as (a & b & ->).
  destruct (offsets_ok (mh_loc s) xy S k E Hk) as (d & -> & Ed & Hd). cbn [rbind].
  rewrite (item_points S d 2 0 Ed), (item_points S d 2 1 Ed) by lia. cbn [rbind].
  assert (Er : norm_two d = ND S (fun j => sqrt (get d (j ++ [0%nat]) ^ 2 + get d (j ++ [1%nat]) ^ 2))).
  { unfold norm_two. rewrite Ed, removelast_snoc. reflexivity. }
  rewrite Er. unfold ndim. cbn [shape].
  assert (Ek : exists k', axes_after_first (length S) (amap (fun f => mh_k mu_0 (with_freq s f)) freq) = Ok k' /\
     rep2 (shape freq) S k' (fun i j => mh_k mu_0 (with_freq s (get freq i))) (fun n => length S <= n)).
  { destruct Hf as [(n & En)|[En ->]].
    - destruct (axes_after (length S) (amap (fun f => mh_k mu_0 (with_freq s f)) freq) n []) as (k' & E' & Es & Hg); [exact En|].
      exists k'. split; [exact E'|]. apply rep2_lead with (f := fun i => mh_k mu_0 (with_freq s (get freq i))); [rewrite Es, En, app_nil_r; reflexivity|].
      rewrite En. intros i Hi. inversion Hi as [|? ? ? ? _ Hi']; subst. inversion Hi'; subst. cbn [app]. specialize (Hg y []). rewrite app_nil_r in Hg. rewrite Hg. reflexivity.
    - eexists. split; [reflexivity|]. apply rep2_lead with (f := fun i => mh_k mu_0 (with_freq s (get freq i))); [rewrite En; exact En|].
      rewrite En. intros i Hi. inversion Hi; subst. reflexivity. }
  destruct Ek as (k' & -> & Hk'). cbn [rbind]. remember (shape freq) as F eqn:EF.
  set (rf := fun j => sqrt (get d (j ++ [0%nat]) ^ 2 + get d (j ++ [1%nat]) ^ 2)). set (xf := fun j => get d (j ++ [0])). set (yf := fun j => get d (j ++ [1])).
  assert (Hr : rep2 F S (ND S rf) (fun i j => rf j) (fun n => n < length S)) by (apply rep2_point; apply scalars_ND).
  assert (Hx : rep2 F S (ND S xf) (fun i j => xf j) (fun n => n < length S)) by (apply rep2_point; apply scalars_ND).
  assert (Hy : rep2 F S (ND S yf) (fun i j => yf j) (fun n => n < length S)) by (apply rep2_point; apply scalars_ND).
  do 2 step2 F S.
  assert (W : forall (a : nd C) f, rep2 F S a f (fun n => length S <= n \/ n < length S) -> full F S a f).
  { intros a0 f. apply rep2_weaken. intros n L _. cbv beta. lia. }
  match goal with A : rep2 F S ?p _ _, B : rep2 F S ?q _ _ |- context [vertical_part _ _ _ _ _ ?p ?q] => apply W in A; apply W in B;
    destruct (vertical_ok F S k' p q (ND S rf) (ND S xf) (ND S yf) _ rf xf yf _ _ Hk' Hr Hx Hy A B (vz (mh_orient s)) (EM zero_number zero_number zero_number) (fun _ _ => cvzero)) as (em1 & -> & St1 & Fu1);
    [split; [|split]; left; (split; [reflexivity|apply rep2_number])|];
    cbn [rbind]; destruct (horizontal_ok F S k' p q (ND S rf) (ND S xf) (ND S yf) _ rf xf yf _ _ Hk' Hr Hx Hy A B (vx (mh_orient s)) (vy (mh_orient s)) em1 _ St1) as (em2 & -> & _ & Fu2) end.
  cbn [rbind]. cbv beta in Fu1, Fu2.
  match type of Fu2 with _ -> ?G => assert (Fu : G) end.
  { apply Fu2. destruct (Req_EM_T (vz (mh_orient s)) 0) as [Z|Z]; [|left; exact (Fu1 Z)]. right.
    destruct (Req_EM_T (vx (mh_orient s)) 0) as [X|X]; [|left; exact X]. right. intros Y. apply No. destruct (mh_orient s). cbn in *. subst. reflexivity. }
  clear Fu1 Fu2.
  match type of Fu with em_full _ _ _ ?v => assert (K : exists em3, (if secondary then without_primary (mh_orient s) (ND S rf) (ND S xf) (ND S yf) em2 else Ok em2) = Ok em3 /\
    em_full F S em3 (fun i j => if secondary then psec (mh_orient s) (rf j) (xf j) (yf j) (v i j) else v i j)) end.
  { destruct secondary; [|exists em2; split; [reflexivity|exact Fu]].
    destruct (primary_ok F S (ND S rf) (ND S xf) (ND S yf) rf xf yf Hr Hx Hy (mh_orient s) em2 _ Fu) as (em3 & E3 & Fu3). exists em3. split; [exact E3|exact Fu3]. }
  destruct K as (em3 & -> & (Fx & Fy & Fz)). cbn [rbind].
  edestruct (stack3_any (F ++ S) (em_x em3) (em_y em3) (em_z em3)) as (e & -> & Es & He).
  1-3: eapply rep2_exact; [eassumption|intros; exact I].
  cbn [rbind]. eexists. split; [reflexivity|]. rewrite <- app_assoc in Es. split; [unfold amap, squeeze; cbn [shape]; rewrite Es; reflexivity|].
  intros i j c Hi Hj Hc. rewrite (squeeze_ok e _ (F ++ S ++ [3]) Es) by (apply Forall2_app; [exact Hi|]; apply Forall2_app; [exact Hj|]; constructor; [exact Hc|constructor]).
  rewrite app_assoc, He by (try apply Forall2_app; assumption). rewrite !iof_app, !jof_app by exact Hi.
  assert (Hx0 : xf j = (get xy (j ++ [0%nat]) - vx (mh_loc s))%R) by (unfold xf; rewrite Hd by (assumption || lia); destruct (k =? 1); reflexivity).
  assert (Hy0 : yf j = (get xy (j ++ [if (k =? 1)%nat then 0%nat else 1%nat]) - vy (mh_loc s))%R) by (unfold yf; rewrite Hd by (assumption || lia); reflexivity).
  assert (Hr0 : rf j = sqrt (xf j ^ 2 + yf j ^ 2)) by reflexivity.
  rewrite Hr0, Hx0, Hy0. unfold mh_H, phy, phx, pv, psec. cbn [vx vy vz with_freq mh_loc mh_orient mh_moment].
  destruct c as [|[|[|c]]]; [..|lia]; reflexivity.
Qed.

(** a scalar frequency with an array of points; a width that does not fit *)
Lemma mh_scalar_frequency iv kv mu_0 s freq secondary xy S k : shape xy = S ++ [k] -> 0 < k -> shape freq = [] -> S <> [] ->
  mh_H_array iv kv mu_0 s freq secondary xy = Raise IndexError.
Proof.
  intros E Hk Ef NS. unfold mh_H_array.
  assert (Nn : exists a b, shape xy = a :: b) by (rewrite E; destruct S; cbn [app]; eauto). destruct Nn as (a & b & ->).
  destruct (offsets_ok (mh_loc s) xy S k E Hk) as (d & -> & Ed & Hd). cbn [rbind].
  rewrite (item_points S d 2 0 Ed), (item_points S d 2 1 Ed) by lia. cbn [rbind].
  unfold ndim, norm_two. cbn [shape]. rewrite Ed, removelast_snoc. destruct S as [|s0 S]; [congruence|]. cbn [length axes_after_first].
  unfold axis_after_first, amap. cbn [shape]. rewrite Ef. reflexivity.
Qed.
Lemma bshape_zero S : bshape (S ++ [0]) [2] = None.
Proof. unfold bshape. rewrite rev_app_distr. cbn [rev app bshape_rev Nat.eqb]. destruct (rev S); reflexivity. Qed.
Lemma mh_width_zero iv kv mu_0 s freq secondary xy S : shape xy = S ++ [0] -> mh_H_array iv kv mu_0 s freq secondary xy = Raise ValueError.
Proof.
  intros E. unfold mh_H_array. assert (Nn : exists a b, shape xy = a :: b) by (rewrite E; destruct S; cbn [app]; eauto). destruct Nn as (a & b & ->).
  unfold broadcast_op, first_two. cbn [shape vec_nd]. rewrite E, removelast_snoc, last_last. cbn [Nat.min removelast last app]. rewrite bshape_zero. reflexivity.
Qed.

(** ** layered earth *)
Lemma nth_receiver (xyz : nd R) n k : k < n ->
  nth k (map (fun i => V3 (get xyz [i; 0]) (get xyz [i; 1]) (get xyz [i; 2])) (seq 0 n)) vzero = vec_at xyz [k].
Proof.
  intros H. apply nth_error_nth. rewrite nth_error_map, nth_error_seq by exact H. reflexivity.
Qed.
Lemma ly_array_ok mu_0 flt s (xyz : nd R) n field : Spec_Layered.consistent s -> ly_frequency s <> [] -> hf_base flt <> [] -> shape xyz = [n; 3] -> 0 < n ->
  (forall k, k < n -> (0 <= vz (vec_at xyz [k]))%R) ->
  exists value, (forall f k, f < n_frequency s -> k < n ->
      exists r, magnetic_field mu_0 flt (Spec_Layered.single s f) [vec_at xyz [k]] field = Ok r /\ value [f] [k] = Spec_Layered.entry r 0 0) /\
    squeezed_grid (fun v c => option_map (fun h => ccomponent h c) v) value [n_frequency s] [n] (ly_H_array mu_0 flt s xyz field).
Proof.
  intros Co Nf Nb E Hn Hz.
  set (l := map (fun i => V3 (get xyz [i; 0]) (get xyz [i; 1]) (get xyz [i; 2])) (seq 0 n)).
  assert (L : length l = n) by (unfold l; rewrite map_length, seq_length; reflexivity).
  destruct (Proof_Layered3.consistent_works mu_0 flt s l field Co Nf Nb) as (h & Eh & Hs).
  - intros El. rewrite El in L. cbn in L. lia.
  - unfold Spec_Layered.above. apply List.Forall_forall. intros p Hp. apply in_map_iff in Hp. destruct Hp as (i & <- & Hi). apply in_seq in Hi. apply (Hz i). lia.
  - exists (fun i j => Spec_Layered.entry h (hd 0 i) (hd 0 j)). split.
    + intros f k Hf Hk. destruct (Proof_Layered4.batch_lemma mu_0 flt s l field h f k Co Eh Hf) as (r & Er & He); [rewrite L; exact Hk|].
      exists r. unfold l in Er. rewrite nth_receiver in Er by exact Hk. split; [exact Er|]. symmetry. exact He.
    + unfold squeezed_grid, ly_H_array. rewrite E. cbn [Nat.ltb Nat.leb Nat.eqb negb].
      assert (B : existsb (fun i => Rltb (get xyz [i; 2]) 0) (seq 0 n) = false).
      { destruct (existsb _ _) eqn:X; [|reflexivity]. apply existsb_exists in X. destruct X as (i & Hi & X). apply in_seq in Hi. specialize (Hz i). cbn [vec_at vz app] in Hz.
        unfold Rltb in X. destruct (Rlt_dec (get xyz [i; 2]) 0) as [Y|]; [|discriminate]. exfalso. assert (W : i < n) by lia. specialize (Hz W). unfold vec_at in Hz. cbn [app vz] in Hz. lra. }
      rewrite B. fold l. rewrite Eh. cbn [rbind app]. clearbody l. eexists. split; [reflexivity|]. split; [reflexivity|].
      intros i j c Hi Hj Hc. unfold squeeze. cbn [get shape].
      inversion Hi as [|? a ? i' Ha Hi']; subst. inversion Hi'; subst. inversion Hj as [|? b ? j' Hb Hj']; subst. inversion Hj'; subst. cbn [app].
      rewrite unsqueeze_drop by (constructor; [exact Ha|constructor; [exact Hb|constructor; [exact Hc|constructor]]]). reflexivity.
Qed.
Lemma ly_array_rejects mu_0 flt s (xyz : nd R) field :
  (length (shape xyz) = 1 -> ly_H_array mu_0 flt s xyz field = Raise IndexError) /\
  (forall n k, shape xyz = [n; k] -> k < 3 -> ly_H_array mu_0 flt s xyz field = Raise IndexError) /\
  (forall n k, shape xyz = [n; k] -> 3 < k -> ly_H_array mu_0 flt s xyz field = Raise ValueError) /\
  (forall n k i, shape xyz = [n; k] -> 3 <= k -> i < n -> (get xyz [i; 2%nat] < 0)%R -> ly_H_array mu_0 flt s xyz field = Raise ValueError).
Proof.
  unfold ly_H_array. split; [|split; [|split]].
  - intros E. destruct (shape xyz) as [|a [|b l]]; try discriminate. reflexivity.
  - intros n k -> H. apply Nat.ltb_lt in H. rewrite H. reflexivity.
  - intros n k -> H. rewrite (proj2 (Nat.ltb_ge k 3)) by lia. destruct (existsb _ _); [reflexivity|]. rewrite (proj2 (Nat.eqb_neq k 3)) by lia. reflexivity.
  - intros n k i -> H Hi Hz. rewrite (proj2 (Nat.ltb_ge k 3)) by lia.
    assert (B : existsb (fun i => Rltb (get xyz [i; 2]) 0) (seq 0 n) = true).
    { apply existsb_exists. exists i. split; [apply in_seq; lia|]. unfold Rltb. destruct (Rlt_dec (get xyz [i; 2]) 0); [reflexivity|contradiction]. }
    rewrite B. reflexivity.
Qed.
Lemma no_ones_filter s : ~ In 1 s -> filter (fun n => negb (n =? 1)) s = s.
Proof.
  induction s as [|a s IH]; intros N; [reflexivity|]. cbn [filter]. destruct (Nat.eqb_spec a 1) as [->|]; [exfalso; apply N; left; reflexivity|].
  cbn [negb]. rewrite IH; [reflexivity|]. intros H. apply N. right. exact H.
Qed.
Lemma no_ones_drop s ix : ~ In 1 s -> length ix = length s -> drop_unit_axes s ix = ix.
Proof.
  unfold drop_unit_axes. revert ix. induction s as [|a s IH]; intros [|i ix] N L; try discriminate; [reflexivity|]. cbn [combine filter fst].
  destruct (Nat.eqb_spec a 1) as [->|]; [exfalso; apply N; left; reflexivity|]. cbn [negb map snd]. rewrite IH; [reflexivity| |injection L; auto].
  intros H. apply N. right. exact H.
Qed.
