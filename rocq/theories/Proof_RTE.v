(** The C++ loops of _rTE.cpp compute the numpy recursion *)
From Coq Require Import Reals List ZArith Bool Lia Lra.
From Coquelicot Require Import Coquelicot.
From Verif Require Import Cplx Numpy Model_RTE.
Import ListNotations.
Open Scope Z_scope.

Lemma size_max_eq : size_max = 18446744073709551616.
Proof. reflexivity. Qed.
Lemma wrap_small z : 0 <= z < size_max -> wrap z = z.
Proof. intros; unfold wrap; apply Z.mod_small; assumption. Qed.

(** loop rules *)
Lemma c_for_up {St} (P : nat -> St -> Prop) n fuel body s :
  (n <= fuel)%nat -> Z.of_nat n < size_max -> P O s ->
  (forall i s, (i < n)%nat -> P i s -> exists s', body (Z.of_nat i) s = Some s' /\ P (S i) s') ->
  exists s', c_for fuel 0 (fun i => i <? Z.of_nat n) incr body s = Some s' /\ P n s'.
Proof.
  intros Hf Hn H0 Hstep.
  assert (G : forall m fuel s i, (i + m = n)%nat -> (m <= fuel)%nat -> P i s ->
             exists s', c_for fuel (Z.of_nat i) (fun i => i <? Z.of_nat n) incr body s = Some s' /\ P n s').
  { induction m as [|m IH]; intros fu t i Hi Hfu Hp.
    - assert (i = n) by lia; subst i. exists t.
      destruct fu; cbn [c_for]; rewrite Z.ltb_irrefl; auto.
    - destruct fu; [lia|]. cbn [c_for].
      replace (Z.of_nat i <? Z.of_nat n) with true by (symmetry; apply Z.ltb_lt; lia).
      destruct (Hstep i t ltac:(lia) Hp) as (t' & E & Hp'). rewrite E.
      unfold incr. rewrite wrap_small by lia. replace (Z.of_nat i + 1) with (Z.of_nat (S i)) by lia.
      apply IH; [lia|lia|assumption]. }
  exact (G n fuel s O eq_refl Hf H0).
Qed.

Lemma c_for_down {St} (P : nat -> St -> Prop) n fuel body s :
  (n <= fuel)%nat -> Z.of_nat (S n) < size_max -> P n s ->
  (forall i s, (i < n)%nat -> P (S i) s -> exists s', body (Z.of_nat i) s = Some s' /\ P i s') ->
  exists s', c_for fuel (wrap (Z.of_nat (S n) - 2)) (fun i => i <? wrap (Z.of_nat (S n) - 1)) decr body s = Some s' /\ P O s'.
Proof.
  intros Hf Hn H0 Hstep.
  assert (W : wrap (Z.of_nat (S n) - 1) = Z.of_nat n) by (rewrite wrap_small; lia).
  rewrite W.
  assert (G : forall m fuel s, (m <= n)%nat -> (m <= fuel)%nat -> P m s ->
             exists s', c_for fuel (wrap (Z.of_nat m - 1)) (fun i => i <? Z.of_nat n) decr body s = Some s' /\ P O s').
  { induction m as [|m IH]; intros fu t Hi Hfu Hp.
    - exists t. assert (E : wrap (Z.of_nat 0 - 1) = size_max - 1) by reflexivity. rewrite E.
      assert (F : (size_max - 1 <? Z.of_nat n) = false) by (apply Z.ltb_ge; lia).
      destruct fu; cbn [c_for]; rewrite F; auto.
    - destruct fu; [lia|]. cbn [c_for].
      replace (wrap (Z.of_nat (S m) - 1)) with (Z.of_nat m) by (rewrite wrap_small; lia).
      replace (Z.of_nat m <? Z.of_nat n) with true by (symmetry; apply Z.ltb_lt; lia).
      destruct (Hstep m t ltac:(lia) Hp) as (t' & E & Hp'). rewrite E.
      unfold decr. apply IH; [lia|lia|assumption]. }
  replace (Z.of_nat (S n) - 2) with (Z.of_nat n - 1) by lia.
  apply G; [lia|lia|assumption].
Qed.

(** memory *)
Lemma rd_nat {A} (buf : list A) k : rd buf (Z.of_nat k) = nth_error buf k.
Proof. unfold rd. replace (0 <=? Z.of_nat k) with true by (symmetry; apply Z.leb_le; lia). rewrite Nat2Z.id; reflexivity. Qed.
Lemma list_set_length {A} (b : list A) k v : length (list_set b k v) = length b.
Proof. revert k; induction b as [|x b IH]; intros [|k]; cbn; auto. Qed.
Lemma list_set_same {A} (b : list A) k v : (k < length b)%nat -> nth_error (list_set b k v) k = Some v.
Proof. revert k; induction b as [|x b IH]; intros [|k] H; cbn in *; try lia; auto. apply IH; lia. Qed.
Lemma list_set_other {A} (b : list A) k j v : j <> k -> nth_error (list_set b k v) j = nth_error b j.
Proof. revert k j; induction b as [|x b IH]; intros [|k] [|j] H; cbn in *; try lia; auto. Qed.

Lemma wr_ok buf k v : (k < length buf)%nat ->
  exists buf', wr buf (Z.of_nat k) v = Some buf' /\ length buf' = length buf /\ rd_cell buf' (Z.of_nat k) = Some v /\
    forall j, j <> k -> rd_cell buf' (Z.of_nat j) = rd_cell buf (Z.of_nat j).
Proof.
  intros H. unfold wr. rewrite rd_nat.
  destruct (nth_error buf k) eqn:E; [|apply nth_error_None in E; lia].
  eexists; split; [reflexivity|]. rewrite Nat2Z.id. split; [apply list_set_length|]. split.
  - unfold rd_cell. rewrite rd_nat, list_set_same by assumption. reflexivity.
  - intros j Hj. unfold rd_cell. rewrite !rd_nat, list_set_other by assumption. reflexivity.
Qed.

(** an output buffer whose first [m] cells have been written, with the values [v] *)
Definition written (total m : nat) (v : nat -> C) (buf : list (option C)) : Prop :=
  length buf = total /\ forall j, (j < total)%nat -> nth_error buf j = Some (if (j <? m)%nat then Some (v j) else None).
Lemma written_0 total v : written total 0 v (repeat None total).
Proof. split; [apply repeat_length|]. intros j Hj. rewrite nth_error_repeat by assumption. reflexivity. Qed.
Lemma written_S total m v buf x : written total m v buf -> (m < total)%nat -> x = v m ->
  exists buf', wr_once buf (Z.of_nat m) x = Some buf' /\ written total (S m) v buf'.
Proof.
  intros [L H] Hm ->. unfold wr_once. rewrite rd_nat, H, Nat.ltb_irrefl by assumption.
  eexists; split; [reflexivity|]. split; [rewrite list_set_length; assumption|].
  intros j Hj. rewrite Nat2Z.id. destruct (Nat.eq_dec j m) as [->|N].
  - rewrite list_set_same by lia. replace (m <? S m)%nat with true by (symmetry; apply Nat.ltb_lt; lia). reflexivity.
  - rewrite list_set_other, H by assumption. do 2 f_equal.
    destruct (j <? m)%nat eqn:A, (j <? S m)%nat eqn:B; auto;
      repeat match goal with X : (_ <? _)%nat = true |- _ => apply Nat.ltb_lt in X | X : (_ <? _)%nat = false |- _ => apply Nat.ltb_ge in X end; lia.
Qed.
Lemma written_nth total v buf j : written total total v buf -> (j < total)%nat -> nth j buf None = Some (v j).
Proof.
  intros [L H] Hj. pose proof (H j Hj) as E. apply nth_error_nth with (d := None) in E. rewrite E.
  replace (j <? total)%nat with true by (symmetry; apply Nat.ltb_lt; lia). reflexivity.
Qed.

(** arrays *)
Lemma column_length a f : length (column a f) = a_rows a.
Proof. unfold column. rewrite map_length, seq_length; reflexivity. Qed.
Lemma column_nth a f l : (l < a_rows a)%nat -> cget (column a f) l = a_at a l f.
Proof.
  intros H. unfold cget, column. rewrite nth_indep with (d' := a_at a 0%nat f) by (rewrite map_length, seq_length; lia).
  rewrite (map_nth (fun l => a_at a l f)), seq_nth by assumption. reflexivity.
Qed.
Lemma flat_map_block {A B} (g : A -> list B) n : forall (ls : list A) f l,
  (forall x, length (g x) = n) -> (l < n)%nat ->
  nth_error (flat_map g ls) (f * n + l) = match nth_error ls f with Some x => nth_error (g x) l | None => None end.
Proof.
  induction ls as [|x ls IH]; intros f l Hg Hl.
  - cbn [flat_map]. assert (N : forall X k, nth_error (@nil X) k = None) by (intros X k; destruct k; reflexivity). rewrite !N; reflexivity.
  - cbn [flat_map]. destruct f as [|f].
    + cbn [nth_error Nat.mul Nat.add]. apply nth_error_app1. rewrite Hg; assumption.
    + rewrite nth_error_app2 by (rewrite Hg; cbn; lia). rewrite Hg.
      replace (S f * n + l - n)%nat with (f * n + l)%nat by (cbn; lia). cbn [nth_error]. apply IH; assumption.
Qed.
Lemma nth_error_seq n k : (k < n)%nat -> nth_error (seq 0 n) k = Some k.
Proof. intros H. rewrite (nth_error_nth' _ 0%nat) by (rewrite seq_length; lia). rewrite seq_nth by lia. reflexivity. Qed.
Lemma flat_F_nth a f l : (l < a_rows a)%nat -> (f < a_cols a)%nat ->
  nth_error (flat_F a) (f * a_rows a + l) = Some (cget (column a f) l).
Proof.
  intros Hl Hf. unfold flat_F. rewrite flat_map_block; [|intros; rewrite map_length, seq_length; reflexivity|assumption].
  rewrite nth_error_seq by assumption. rewrite nth_error_map, nth_error_seq by assumption. cbn. rewrite column_nth by assumption; reflexivity.
Qed.

Lemma map2_length {A B D} (f : A -> B -> D) a b : length (map2 f a b) = Nat.min (length a) (length b).
Proof. unfold map2. rewrite map_length, combine_length; reflexivity. Qed.
Lemma map2_nth {A B D} (f : A -> B -> D) : forall a b k da db d, (k < length a)%nat -> (k < length b)%nat ->
  nth k (map2 f a b) d = f (nth k a da) (nth k b db).
Proof.
  unfold map2. induction a as [|x a IH]; intros [|y b] [|k] da db d Ha Hb; cbn in *; try lia; auto.
  apply IH; lia.
Qed.
Lemma removelast_length {A} (a : list A) : length (removelast a) = pred (length a).
Proof. induction a as [|x a IH]; cbn; auto. destruct a; cbn in *; auto. Qed.
Lemma removelast_nth {A} (d : A) : forall (a : list A) k, (k < pred (length a))%nat -> nth k (removelast a) d = nth k a d.
Proof.
  induction a as [|x a IH]; intros k H; cbn in *; [lia|]. destruct a as [|y a]; cbn in *; [lia|].
  destruct k; auto. apply IH; cbn; lia.
Qed.
Lemma last_nth {A} (a : list A) d : last a d = nth (pred (length a)) a d.
Proof. induction a as [|x a IH]; auto. destruct a as [|y a]; auto. Qed.

Section Values.
  Variables (w lamb : R) (sigma mu : list C) (th : list R).
  Let n := length th.
  Hypothesis Ls : length sigma = S n.
  Hypothesis Lm : length mu = S n.
  Definition u_val (k : nat) : C := csqrt (RtoC (lamb * lamb) - (- Ci * RtoC w * cget mu k * cget sigma k))%C.
  Definition Y_val (k : nat) : C := (u_val k / (Ci * RtoC w * cget mu k))%C.
  Definition t_val (k : nat) : C := ctanh (u_val k * RtoC (rget th k))%C.
  Lemma py_u_length : length (py_u w lamb sigma mu) = S n.
  Proof. unfold py_u, py_k2. rewrite map_length, map2_length. lia. Qed.
  Lemma py_u_nth k : (k <= n)%nat -> cget (py_u w lamb sigma mu) k = u_val k.
  Proof.
    intros H. unfold cget, py_u, py_k2, u_val.
    set (g := fun k2 : C => _).
    rewrite nth_indep with (d' := g (RtoC 0)) by (rewrite map_length, map2_length; lia).
    rewrite map_nth. rewrite map2_nth with (da := RtoC 0) (db := RtoC 0) by lia.
    unfold g. replace (lamb ^ 2)%R with (lamb * lamb)%R by ring. reflexivity.
  Qed.
  Lemma py_Y_length : length (py_Y w lamb sigma mu) = S n.
  Proof. unfold py_Y. rewrite map2_length, py_u_length. lia. Qed.
  Lemma py_Y_nth k : (k <= n)%nat -> cget (py_Y w lamb sigma mu) k = Y_val k.
  Proof.
    intros H. unfold cget at 1, py_Y. rewrite map2_nth with (da := RtoC 0) (db := RtoC 0) by (rewrite ?py_u_length; lia).
    fold (cget (py_u w lamb sigma mu) k). rewrite py_u_nth by assumption. reflexivity.
  Qed.
  Lemma py_t_nth k : (k < n)%nat -> cget (py_tanh w lamb sigma mu th) k = t_val k.
  Proof.
    intros H. unfold cget at 1, py_tanh.
    rewrite map2_nth with (da := RtoC 0) (db := 0%R) by (rewrite ?removelast_length, ?py_u_length; fold n; lia).
    rewrite removelast_nth by (rewrite py_u_length; lia).
    fold (cget (py_u w lamb sigma mu) k). rewrite py_u_nth by lia. reflexivity.
  Qed.
  Lemma py_Y_last : last (py_Y w lamb sigma mu) (RtoC 0) = Y_val n.
  Proof. rewrite last_nth, py_Y_length. cbn [pred]. apply py_Y_nth. lia. Qed.
  Lemma py_u_last : last (py_u w lamb sigma mu) (RtoC 0) = u_val n.
  Proof. rewrite last_nth, py_u_length. cbn [pred]. apply py_u_nth. lia. Qed.
End Values.
