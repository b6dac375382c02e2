(** Layered dipole: one frequency and receiver at a time; subdivided layers. *)
From Coq Require Import String Reals Lra Lia List Arith Bool.
From Coquelicot Require Import Coquelicot.
From Verif Require Import Vec3 Cplx Numpy Model_RTE Model_Static Model_Layered Spec_FDEM Spec_RTE Spec_Layered Proof_RTE Proof_RTE6 Proof_Layered Proof_Layered2 Proof_Layered3 Props_RTE.
Import ListNotations.
Open Scope R_scope.

Lemma nth_map_seq {A} (h : nat -> A) n l d : (l < n)%nat -> nth l (map h (seq 0 n)) d = h l.
Proof. intros L. apply nth_error_nth. rewrite nth_error_map, nth_error_seq by assumption. reflexivity. Qed.

Lemma single_consistent s f : consistent s -> consistent (single s f).
Proof. intros _. unfold consistent, single, n_layer, n_frequency; cbn. rewrite !map_length, !seq_length. auto. Qed.

Lemma batch_lemma mu_0 flt s xyz field r f k : consistent s -> magnetic_field mu_0 flt s xyz field = Ok r ->
  (f < n_frequency s)%nat -> (k < length xyz)%nat ->
  exists r1, magnetic_field mu_0 flt (single s f) [nth k xyz vzero] field = Ok r1 /\ entry r1 0 0 = entry r f k.
Proof.
  intros Co H L K. pose proof (proj1 (mf_ok _ _ _ _ _ _) H) as (A & B & D & E & g & G & S & _).
  destruct (arrays_consistent s Co) as (g0 & G0 & _ & V). assert (g0 = g) by congruence. subst g0.
  destruct (arrays_consistent (single s f) (single_consistent s f Co)) as (h & H1 & S1 & V1).
  assert (AB : above [nth k xyz vzero]).
  { constructor; [|constructor]. unfold above in A. rewrite List.Forall_forall in A. apply A. apply nth_In. assumption. }
  assert (M : exists r1, magnetic_field mu_0 flt (single s f) [nth k xyz vzero] field = Ok r1).
  { eexists. apply mf_ok. split; [assumption|]. split; [discriminate|]. split; [discriminate|]. split; [assumption|].
    exists h. split; [assumption|]. split; [assumption|]. reflexivity. }
  destruct M as [r1 M]. exists r1. split; [assumption|].
  destruct (mf_entry' _ _ _ _ _ _ H) as (g1 & G1 & _ & _ & E1). destruct (mf_entry' _ _ _ _ _ _ M) as (h1 & H2 & _ & _ & E2).
  assert (g1 = g) by congruence. assert (h1 = h) by congruence. subst g1 h1.
  rewrite E1 by assumption. rewrite E2 by (unfold n_frequency; cbn; lia). cbn [nth single ly_location ly_orientation ly_moment]. f_equal.
  unfold refl. apply map_ext. intros b. cbn [single ly_location ly_frequency ly_thickness].
  destruct S as (Q1 & Q2 & Q3 & Q4), S1 as (T1 & T2 & T3 & T4). change (n_layer (single s f)) with (n_layer s) in *.
  assert (C1 : column (fst h) 0 = column (fst g) f).
  { unfold column. rewrite T2, Q2. apply map_ext_in. intros l I. apply in_seq in I.
    rewrite (proj1 (V1 l 0%nat ltac:(lia) ltac:(unfold n_frequency; cbn; lia))), (proj1 (V l f ltac:(lia) L)).
    unfold hat, single; cbn [ly_quasistatic ly_sigma ly_epsilon ly_frequency pvalue rget nth]. rewrite !nth_map_seq by lia. reflexivity. }
  assert (C2 : column (snd h) 0 = column (snd g) f).
  { unfold column. rewrite T3, Q3. apply map_ext_in. intros l I. apply in_seq in I.
    rewrite (proj2 (V1 l 0%nat ltac:(lia) ltac:(unfold n_frequency; cbn; lia))), (proj2 (V l f ltac:(lia) L)).
    unfold single; cbn [ly_mu pvalue]. rewrite !nth_map_seq by lia. reflexivity. }
  rewrite C1, C2. reflexivity.
Qed.

(** subdividing a layer *)
Definition hatl (q : bool) (w : R) (sg e : list C) : list C :=
  if q then sg else map2 (fun a b => a + Ci * RtoC (2 * PI * w) * b)%C sg e.

Lemma map_nth_id {A} (l : list A) d : map (fun i => nth i l d) (seq 0 (length l)) = l.
Proof. rewrite (map_nth_seq (fun x => x)). apply map_id. Qed.

Lemma layers_columns s th sg m e f g : length sg = (length th + 1)%nat -> length m = (length th + 1)%nat -> length e = (length th + 1)%nat ->
  arrays (with_layers s th sg m e) = Ok g -> (f < n_frequency s)%nat ->
  column (fst g) f = hatl (ly_quasistatic s) (rget (ly_frequency s) f) sg e /\ column (snd g) f = m.
Proof.
  intros L1 L2 L3 G F. set (s' := with_layers s th sg m e) in *.
  assert (Co : consistent s') by (unfold consistent, n_layer; cbn; auto).
  destruct (arrays_consistent s' Co) as (g0 & G0 & S & V). assert (g0 = g) by congruence. subst g0.
  destruct S as (S1 & S2 & S3 & S4). unfold n_layer in *; cbn in S2, S3, V. split.
  - unfold column. rewrite S2. unfold hatl. transitivity (map (fun l => hat s' l f) (seq 0 (length th + 1))).
    + apply map_ext_in. intros l I. apply in_seq in I. apply V; [lia|exact F].
    + unfold hat, s'; cbn [with_layers ly_quasistatic ly_sigma ly_epsilon ly_frequency pvalue]. destruct (ly_quasistatic s).
      * rewrite <- L1. apply map_nth_id.
      * apply nth_ext with (d := RtoC 0) (d' := RtoC 0); [rewrite map_length, seq_length, map2_length; lia|].
        intros n Hn. rewrite map_length, seq_length in Hn. rewrite nth_map_seq by assumption.
        erewrite (map2_nth _ sg e n (RtoC 0) (RtoC 0)) by lia. reflexivity.
  - unfold column. rewrite S3. transitivity (map (fun l => nth l m (RtoC 0)) (seq 0 (length th + 1))).
    + apply map_ext_in. intros l I. apply in_seq in I. apply V; [lia|exact F].
    + rewrite <- L2. apply map_nth_id.
Qed.

Lemma Forall3_length {A B D} (P : A -> B -> D -> Prop) : forall a b d, Forall3 P a b d -> length a = length b /\ length b = length d.
Proof. induction a; intros [|y b] [|z d]; cbn; try tauto. intros [_ H]. apply IHa in H. lia. Qed.

Lemma conductor_ok q w lamb : forall sg m e, Forall3 conductor sg m e -> Forall2 (layer_ok (2 * PI * w) lamb) (hatl q w sg e) m.
Proof.
  unfold hatl, map2. destruct q; induction sg; intros [|y m] [|z e]; cbn; try tauto; try (constructor; fail).
  - intros [(A & B & D & E) H]. constructor; [|apply (IHsg m e H)]. exists (Re y). split; [assumption|]. split; [apply C_eq; cbn; auto|]. left. assumption.
  - intros [(A & B & D & E) H]. constructor; [|apply (IHsg m e H)]. exists (Re y). split; [assumption|]. split; [apply C_eq; cbn; auto|]. left.
    change (0 < Re (a + Ci * RtoC (2 * PI * w) * z)%C). reim. cbn [Ci fst snd]. rewrite B. lra.
Qed.

Lemma map2_app {A B D} (f : A -> B -> D) : forall a b a' b', length a = length b -> map2 f (a ++ a') (b ++ b') = map2 f a b ++ map2 f a' b'.
Proof. induction a as [|x a IH]; intros [|y b] a' b' L; cbn in L; try lia; [reflexivity|]. unfold map2 in *. cbn. f_equal. apply IH. lia. Qed.
Lemma hatl_app q w a b a' b' : length a = length b -> hatl q w (a ++ a') (b ++ b') = hatl q w a b ++ hatl q w a' b'.
Proof. intros L. unfold hatl. destruct q; [reflexivity|apply map2_app; assumption]. Qed.
Definition hat1 (q : bool) (w : R) (a b : C) : C := if q then a else (a + Ci * RtoC (2 * PI * w) * b)%C.
Lemma hatl_cons q w a b a' b' : hatl q w (a :: a') (b :: b') = hat1 q w a b :: hatl q w a' b'.
Proof. unfold hatl, hat1, map2. destruct q; reflexivity. Qed.

Lemma split_lemma mu_0 flt s xyz field s1 x s2 m1 m m2 e1 e e2 t1 h1 h2 t2 :
  List.Forall (fun w => 0 < w) (ly_frequency s) ->
  Forall3 conductor (s1 ++ x :: s2) (m1 ++ m :: m2) (e1 ++ e :: e2) ->
  length s1 = length t1 -> length m1 = length t1 -> length e1 = length t1 -> length s2 = (length t2 + 1)%nat ->
  List.Forall (Rle 0) t1 -> List.Forall (Rle 0) t2 -> 0 <= h1 -> 0 <= h2 ->
  magnetic_field mu_0 flt (with_layers s (t1 ++ h1 :: h2 :: t2) (s1 ++ x :: x :: s2) (m1 ++ m :: m :: m2) (e1 ++ e :: e :: e2)) xyz field =
  magnetic_field mu_0 flt (with_layers s (t1 ++ (h1 + h2) :: t2) (s1 ++ x :: s2) (m1 ++ m :: m2) (e1 ++ e :: e2)) xyz field.
Proof.
  intros FR H3 L1 L2 L3 L4 T1 T2 P1 P2. set (sa := with_layers s (t1 ++ h1 :: _) _ _ _). set (sb := with_layers s (t1 ++ (h1 + h2) :: _) _ _ _).
  pose proof (Forall3_length _ _ _ _ H3) as [Q1 Q2]. rewrite !app_length in Q1, Q2. cbn in Q1, Q2.
  assert (Ca : consistent sa) by (unfold consistent, n_layer; cbn; rewrite !app_length; cbn; lia).
  assert (Cb : consistent sb) by (unfold consistent, n_layer; cbn; rewrite !app_length; cbn; lia).
  destruct (arrays_consistent sa Ca) as (ga & Ga & Sa & _). destruct (arrays_consistent sb Cb) as (gb & Gb & Sb & _).
  assert (EQ : forall f, (f < n_frequency s)%nat -> forall p, refl mu_0 flt sa ga f p = refl mu_0 flt sb gb f p).
  { intros f F p. unfold refl. apply map_ext. intros b.
    assert (La : column (fst ga) f = hatl (ly_quasistatic s) (rget (ly_frequency s) f) (s1 ++ x :: x :: s2) (e1 ++ e :: e :: e2) /\ column (snd ga) f = m1 ++ m :: m :: m2).
    { apply (layers_columns s (t1 ++ h1 :: h2 :: t2)); try (rewrite !app_length; cbn; lia); assumption. }
    assert (Lb : column (fst gb) f = hatl (ly_quasistatic s) (rget (ly_frequency s) f) (s1 ++ x :: s2) (e1 ++ e :: e2) /\ column (snd gb) f = m1 ++ m :: m2).
    { apply (layers_columns s (t1 ++ (h1 + h2) :: t2)); try (rewrite !app_length; cbn; lia); assumption. }
    destruct La as [-> ->], Lb as [-> ->].
    unfold sa, sb; cbn [ly_frequency ly_location ly_thickness with_layers].
    rewrite !hatl_app by lia. rewrite !hatl_cons. apply C21_split_layer.
    - rewrite List.Forall_forall in FR. apply FR. apply nth_In. exact F.
    - unfold hatl, map2. destruct (ly_quasistatic s); [assumption|]. rewrite map_length, combine_length. lia.
    - assumption.
    - assumption.
    - assumption.
    - rewrite <- hatl_cons, <- hatl_app by lia. split; [|split].
      + unfold hatl. destruct (ly_quasistatic s); [|rewrite map2_length]; rewrite !app_length; cbn; lia.
      + apply conductor_ok. assumption.
      + apply Forall_app. split; [assumption|]. constructor; [lra|assumption]. }
  assert (OK : forall r, magnetic_field mu_0 flt sa xyz field = Ok r <-> magnetic_field mu_0 flt sb xyz field = Ok r).
  { intros r. rewrite !mf_ok. change (ly_frequency sa) with (ly_frequency s). change (ly_frequency sb) with (ly_frequency s).
    change (n_frequency sa) with (n_frequency s). change (n_frequency sb) with (n_frequency s).
    assert (RE : map (fun f => map (fun p => receiver_field flt sa (String.eqb field "total") p (refl mu_0 flt sa ga f p)) xyz) (seq 0 (n_frequency s)) =
      map (fun f => map (fun p => receiver_field flt sb (String.eqb field "total") p (refl mu_0 flt sb gb f p)) xyz) (seq 0 (n_frequency s))).
    { apply map_ext_in. intros f I. apply in_seq in I. apply map_ext. intros p. rewrite EQ by lia. rewrite !receiver_closed. reflexivity. }
    split; intros (A & B & D & E & g & G & S & ->); repeat (split; [assumption|]).
    - exists gb. split; [assumption|]. split; [assumption|]. assert (g = ga) by congruence. subst g. exact RE.
    - exists ga. split; [assumption|]. split; [assumption|]. assert (g = gb) by congruence. subst g. symmetry. exact RE. }
  destruct (magnetic_field mu_0 flt sb xyz field) as [r|ex] eqn:Eb; [apply OK; reflexivity|].
  destruct (magnetic_field mu_0 flt sa xyz field) as [r|ex'] eqn:Ea; [symmetry; rewrite (proj1 (OK r) eq_refl) in *; congruence|].
  (* both raise: the same exception *)
  unfold magnetic_field in Ea, Eb. destruct (existsb _ xyz); [congruence|].
  assert (X : forall sx g, consistent sx -> arrays sx = Ok g -> shapes_ok sx g -> forall lam ex, 
    (do sg <- as_array (n_layer sx) (n_frequency sx) (ly_sigma sx); do m <- as_array (n_layer sx) (n_frequency sx) (ly_mu sx);
     do e <- as_array (n_layer sx) (n_frequency sx) (ly_epsilon sx);
     do sigh <- sigma_hat_fn (A2 (n_layer sx) (n_frequency sx) (fun _ j => RtoC (rget (ly_frequency sx) j))) sg e (ly_quasistatic sx);
     do rte <- rTE_forward mu_0 (ly_frequency sx) lam sigh m (ly_thickness sx);
     Ok (map (fun row => map (fun kp => receiver_field flt sx (String.eqb field "total") (snd kp) (chunk (length (hf_base flt)) (fst kp) row)) (combine (seq 0 (length xyz)) xyz)) rte)) = Raise ex -> ex = IndexError).
  { clear. intros sx g Cx Gx Sx lam ex. unfold arrays in Gx.
    destruct (as_array _ _ (ly_sigma sx)) as [sg|]; cbn [rbind] in *; [|discriminate]. destruct (as_array _ _ (ly_mu sx)) as [m|]; cbn [rbind] in *; [|discriminate].
    destruct (as_array _ _ (ly_epsilon sx)) as [e|]; cbn [rbind] in *; [|discriminate]. destruct (sigma_hat_fn _ _ _ _) as [h|]; cbn [rbind] in *; [|discriminate].
    injection Gx as <-. destruct Sx as (S1 & S2 & S3 & S4). cbn [fst snd] in *. unfold rTE_forward.
    unfold n_layer, n_frequency in S1, S2, S3, S4. rewrite S1, S2, S3, S4, !Nat.eqb_refl. cbn [negb andb].
    destruct (_ || _)%bool; cbn [rbind]; [congruence|discriminate]. }
  apply (X sa ga Ca Ga Sa) in Ea. apply (X sb gb Cb Gb Sb) in Eb. congruence.
Qed.

Lemma careful_lemma mu_0 eps_0 : forall l s, consistent s -> careful mu_0 eps_0 s l -> consistent (history mu_0 eps_0 s l).
Proof. induction l as [|a l IH]; intros s Co H; cbn in *; [assumption|]. destruct H as [A B]. apply IH; [apply keeps_consistent; assumption|assumption]. Qed.

Lemma below_refuted mu_0 eps_0 flt s p xyz field : consistent s -> ly_frequency s <> [] -> hf_base flt <> [] -> xyz <> [] -> above xyz ->
  exists r, magnetic_field mu_0 flt (after mu_0 eps_0 s (Set_location p)) xyz field = Ok r.
Proof.
  intros Co A B D E. destruct (consistent_works mu_0 flt (after mu_0 eps_0 s (Set_location p)) xyz field) as (r & H & _); try assumption. eauto.
Qed.
