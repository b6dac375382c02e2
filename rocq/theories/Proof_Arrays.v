(** Broadcasting: arrays that represent functions of (frequency index, point index, component) *)
From Coq Require Import Reals List Arith Lia.
From Coquelicot Require Import Coquelicot.
From Verif Require Import Vec3 Cplx Numpy Model_Utils Proof_Utils Model_Spatial Model_Static Model_FDEM Model_TDEM Model_Arrays.
Import ListNotations.
Open Scope nat_scope.

(** ** shapes that fit a full shape (both reversed) *)
Inductive fits : list nat -> list nat -> Prop :=
| fits_nil T : fits [] T
| fits_cons a s t T : a = 1 \/ a = t -> fits s T -> fits (a :: s) (t :: T).

Lemma nil_nth n : nth_error (@nil nat) n = None.
Proof. destruct n; reflexivity. Qed.
Lemma bidem t ix : bindex_rev t (bindex_rev t ix) = bindex_rev t ix.
Proof.
  revert ix. induction t as [|a t IH]; intros ix; [reflexivity|].
  destruct ix as [|i ix]; [reflexivity|]. cbn [bindex_rev]. rewrite IH. f_equal. destruct (Nat.eqb a 1); reflexivity.
Qed.
Lemma bshape_fits s t T : fits s T -> fits t T ->
  exists u, bshape_rev s t = Some u /\ fits u T /\
    (forall n, nth_error s n = nth_error T n \/ nth_error t n = nth_error T n -> n < length T -> nth_error u n = nth_error T n) /\
    (forall ix, length ix = length T -> bindex_rev s (bindex_rev u ix) = bindex_rev s ix /\ bindex_rev t (bindex_rev u ix) = bindex_rev t ix).
Proof.
  intros Hs. revert t. induction Hs as [T|a s x T Ha Hs IH]; intros t Ht.
  - exists t. split; [destruct t; reflexivity|]. split; [exact Ht|]. split.
    + intros n [H|H] L; [|exact H]. rewrite nil_nth in H; symmetry in H; apply nth_error_None in H; lia.
    + intros ix _. split; [reflexivity|apply bidem].
  - inversion Ht as [|b t' y T' Hb Ht' E1 E2]; subst.
    + exists (a :: s). split; [reflexivity|]. split; [constructor; assumption|]. split.
      * intros n [H|H] L; [exact H|]. rewrite nil_nth in H. symmetry in H. apply nth_error_None in H. lia.
      * intros ix _. split; [apply bidem|]. destruct ix; reflexivity.
    + destruct (IH t' Ht') as (u & E & Fu & Cu & Iu). cbn [bshape_rev]. rewrite E.
      assert (K : exists c, (if a =? b then Some (a :: u) else if a =? 1 then Some (b :: u) else if b =? 1 then Some (a :: u) else None) = Some (c :: u) /\
                  (c = 1 \/ c = x) /\ (a = x \/ b = x -> c = x) /\ (c = 1 -> a = 1 /\ b = 1)).
      { destruct (Nat.eqb_spec a b) as [->|N]; [exists b; split; [reflexivity|]; split; [assumption|]; split; [intros [?|?]; assumption|auto]|].
        destruct (Nat.eqb_spec a 1) as [->|N1]; [exists b; split; [reflexivity|]; destruct Hb as [->| ->]; [congruence|]; split; [auto|]; split; [auto|intros; congruence]|].
        destruct (Nat.eqb_spec b 1) as [->|N2]; [exists a; split; [reflexivity|]; destruct Ha as [->| ->]; [congruence|]; split; [auto|]; split; [auto|intros; congruence]|].
        destruct Ha, Hb; congruence. }
      destruct K as (c & -> & Hc & Cc & C1). exists (c :: u). split; [reflexivity|]. split; [constructor; assumption|]. split.
      * intros [|n] H L; cbn in *.
        -- f_equal. apply Cc. destruct H as [H|H]; injection H; auto.
        -- apply Cu; [exact H|lia].
      * intros [|i ix] L; cbn in L; [discriminate|]. cbn [bindex_rev]. destruct (Iu ix ltac:(lia)) as [I1 I2]. rewrite I1, I2.
        split; f_equal.
        -- destruct (Nat.eqb_spec a 1); [reflexivity|]. destruct (Nat.eqb_spec c 1) as [Hc1|]; [|reflexivity]. exfalso. apply C1 in Hc1. tauto.
        -- destruct (Nat.eqb_spec b 1); [reflexivity|]. destruct (Nat.eqb_spec c 1) as [Hc1|]; [|reflexivity]. exfalso. apply C1 in Hc1. tauto.
Qed.

Lemma fits_full u T : fits u T -> (forall n, n < length T -> nth_error u n = nth_error T n) -> u = T.
Proof.
  intros H. induction H as [T|a s t T Ha H IH]; intros C.
  - destruct T as [|t T]; [reflexivity|]. specialize (C 0 ltac:(cbn; lia)). discriminate.
  - pose proof (C 0 ltac:(cbn; lia)) as E. cbn in E. injection E as ->. f_equal. apply IH. intros n L. apply (C (S n)). cbn. lia.
Qed.

Section Rep.
  Variables (F S : list nat).
  Let T := F ++ S ++ [3].
  (** [a] broadcasts to the function [phi] on the full shape; [P n]: it has the full length on
      the n-th axis from the end *)
  Definition rep {A} (a : nd A) (phi : list nat -> list nat -> nat -> A) (P : nat -> Prop) : Prop :=
    fits (rev (shape a)) (rev T) /\
    (forall n, P n -> n < length T -> nth_error (rev (shape a)) n = nth_error (rev T) n) /\
    (forall i j c, inside F i -> inside S j -> c < 3 -> get a (bindex (shape a) (i ++ j ++ [c])) = phi i j c).

  Lemma T_length i j c : inside F i -> inside S j -> length (rev (i ++ j ++ [c])) = length (rev T).
  Proof. intros H1 H2. unfold T. rewrite !rev_length, !app_length, (inside_length _ _ H1), (inside_length _ _ H2). reflexivity. Qed.
  Lemma T_inside i j c : inside F i -> inside S j -> c < 3 -> inside T (i ++ j ++ [c]).
  Proof. intros H1 H2 H3. unfold T, inside. apply Forall2_app; [exact H1|]. apply Forall2_app; [exact H2|]. constructor; [exact H3|constructor]. Qed.

  Lemma rep_bop {A B C} (op : A -> B -> C) a b phi psi P Q : rep a phi P -> rep b psi Q ->
    exists r, broadcast_op op a b = Ok r /\ rep r (fun i j c => op (phi i j c) (psi i j c)) (fun n => P n \/ Q n).
  Proof.
    intros (F1 & C1 & E1) (F2 & C2 & E2). destruct (bshape_fits _ _ _ F1 F2) as (u & E & Fu & Cu & Iu).
    unfold broadcast_op, bshape. rewrite E. cbn [option_map]. eexists. split; [reflexivity|]. split; [|split]; cbn [shape get].
    - rewrite rev_involutive. exact Fu.
    - rewrite rev_involutive. intros n H L. apply Cu; [|rewrite rev_length; exact L]. destruct H as [H|H]; [left|right]; auto.
    - intros i j c Hi Hj Hc. rewrite <- (E1 i j c Hi Hj Hc), <- (E2 i j c Hi Hj Hc).
      destruct (Iu (rev (i ++ j ++ [c])) (T_length i j c Hi Hj)) as [I1 I2].
      unfold bindex at 2 4. rewrite !rev_involutive. unfold bindex. rewrite !rev_involutive, I1, I2. reflexivity.
  Qed.
  Lemma rep_map {A B} (f : A -> B) a phi P : rep a phi P -> rep (amap f a) (fun i j c => f (phi i j c)) P.
  Proof. intros (H1 & H2 & H3). split; [exact H1|]. split; [exact H2|]. intros i j c Hi Hj Hc. unfold amap. cbn [get shape]. f_equal. apply H3; assumption. Qed.

  Lemma rep_exact {A} (a : nd A) phi P : rep a phi P -> (forall n, n < length T -> P n) ->
    shape a = T /\ forall i j c, inside F i -> inside S j -> c < 3 -> get a (i ++ j ++ [c]) = phi i j c.
  Proof.
    intros (H1 & H2 & H3) HP.
    assert (E : shape a = T).
    { rewrite <- (rev_involutive (shape a)), <- (rev_involutive T). f_equal. apply fits_full; [exact H1|].
      intros n L. rewrite rev_length in L. apply H2; [apply HP|]; exact L. }
    split; [exact E|]. intros i j c Hi Hj Hc. rewrite <- (H3 i j c Hi Hj Hc). f_equal.
    rewrite E. unfold bindex. rewrite <- (app_nil_r (rev (i ++ j ++ [c]))).
    rewrite bindex_rev_id; [rewrite rev_involutive; reflexivity|]. apply (inside_rev T). apply T_inside; assumption.
  Qed.

  Lemma fits_prefix s t : fits s (s ++ t).
  Proof. induction s; cbn; constructor; auto. Qed.
  Lemma fits_ones n t u : length u = n -> fits t t -> fits (repeat 1 n ++ t) (u ++ t).
  Proof. intros <- H. induction u; cbn; [exact H|]. constructor; auto. Qed.
  Lemma fits_refl t : fits t t.
  Proof. induction t; constructor; auto. Qed.

  (** an array of points *)
  Lemma rep_points {A} (a : nd A) phi : shape a = S ++ [3] ->
    (forall j c, inside S j -> c < 3 -> get a (j ++ [c]) = phi j c) -> rep a (fun i => phi) (fun n => n <= length S).
  Proof.
    intros E H. unfold rep. rewrite E. unfold T. rewrite (rev_app_distr F). split; [apply fits_prefix|]. split.
    - intros n Hn _. rewrite nth_error_app1; [reflexivity|]. rewrite rev_length, app_length. cbn. lia.
    - intros i j c Hi Hj Hc. unfold bindex. rewrite (rev_app_distr i). rewrite bindex_rev_id.
      + rewrite rev_involutive. apply H; assumption.
      + apply inside_rev. apply Forall2_app; [exact Hj|]. constructor; [exact Hc|constructor].
  Qed.
  (** one number per point, kept last axis *)
  Lemma rep_column {A} (a : nd A) phi : shape a = S ++ [1] ->
    (forall j, inside S j -> get a (j ++ [0]) = phi j) -> rep a (fun i j c => phi j) (fun n => 1 <= n <= length S).
  Proof.
    intros E H. unfold rep. rewrite E. unfold T. rewrite !rev_app_distr. cbn [rev app]. split.
    - constructor; [auto|]. apply fits_prefix.
    - split.
      + intros [|n] Hn _; [lia|]. cbn. rewrite nth_error_app1; [reflexivity|]. rewrite rev_length. lia.
      + intros i j c Hi Hj Hc. unfold bindex. rewrite (rev_app_distr i), (rev_app_distr j), rev_app_distr. cbn [rev app]. cbn [bindex_rev Nat.eqb].
        rewrite bindex_rev_id; [|apply inside_rev; exact Hj]. cbn [rev]. rewrite rev_involutive. apply H. exact Hj.
  Qed.
  (** a vector *)
  Lemma rep_vec v : rep (vec_nd v) (fun i j c => component v c) (fun n => n = 0).
  Proof.
    unfold rep, T. cbn [shape vec_nd get]. rewrite !rev_app_distr. cbn [rev app]. split; [constructor; [auto|constructor]|]. split.
    - intros n -> _. reflexivity.
    - intros i j c Hi Hj Hc. unfold bindex. rewrite !rev_app_distr. cbn [rev app bindex_rev Nat.eqb last]. reflexivity.
  Qed.
  (** one number per frequency *)
  Lemma rep_append {A} (a : nd A) n : shape a = F -> n = Datatypes.S (length S) ->
    rep (append_ndim a n) (fun i j c => get a i) (fun n => length S < n).
  Proof.
    intros E ->. unfold rep. rewrite append_shape, E. unfold T. rewrite !(rev_app_distr F). rewrite rev_repeat. split; [|split].
    - apply fits_ones; [rewrite rev_length, app_length; cbn; lia|apply fits_refl].
    - intros n Hn L. rewrite !app_length in L. cbn in L.
      rewrite !nth_error_app2 by (rewrite ?repeat_length, ?rev_length, ?app_length; cbn; lia).
      rewrite repeat_length, rev_length, app_length. cbn. f_equal. lia.
    - intros i j c Hi Hj Hc. unfold bindex. rewrite !rev_app_distr, rev_repeat. cbn [rev app].
      replace (c :: rev j ++ rev i) with ((c :: rev j) ++ rev i) by reflexivity.
      rewrite bindex_rev_ones by (cbn; rewrite rev_length, (inside_length _ _ Hj); reflexivity).
      rewrite <- (app_nil_r (rev i)), bindex_rev_id by (apply inside_rev; exact Hi).
      rewrite rev_app_distr, rev_repeat, rev_involutive. apply append_get.
  Qed.
End Rep.
