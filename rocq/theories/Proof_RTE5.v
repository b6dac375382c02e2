(** rTE_gradient: the compiled wrapper returns the numpy arrays *)
From Coq Require Import Reals List ZArith Bool Lia Lra.
From Coquelicot Require Import Coquelicot.
From Verif Require Import Cplx Numpy Model_RTE Proof_RTE Proof_RTE2 Proof_RTE3 Proof_RTE4.
Import ListNotations.
Open Scope Z_scope.

Definition ds_of {A B D} (p : A * B * D) : A := fst (fst p).
Definition dh_of {A B D} (p : A * B * D) : B := snd (fst p).
Definition dm_of {A B D} (p : A * B * D) : D := snd p.

Lemma nth_map_seq {A} (g : nat -> A) n k d : (k < n)%nat -> nth k (map g (seq 0 n)) d = g k.
Proof. intros H. rewrite nth_indep with (d' := g 0%nat) by (rewrite map_length, seq_length; assumption). rewrite map_nth, seq_nth by assumption. reflexivity. Qed.
Lemma nth_map_seq_app {A} (g : nat -> A) n k x d : (k < n)%nat -> nth k (map g (seq 0 n) ++ [x]) d = g k.
Proof. intros H. rewrite app_nth1 by (rewrite map_length, seq_length; assumption). apply nth_map_seq; assumption. Qed.
Lemma nth_map_seq_last {A} (g : nat -> A) n x d : nth n (map g (seq 0 n) ++ [x]) d = x.
Proof. rewrite app_nth2 by (rewrite map_length, seq_length; lia). rewrite map_length, seq_length, Nat.sub_diag. reflexivity. Qed.

Lemma C20_lemma fuel frequencies lamb sigma mu th :
  a_cols sigma = length frequencies -> a_rows sigma = (length th + 1)%nat -> a_rows mu = a_rows sigma -> a_cols mu = a_cols sigma ->
  frequencies <> [] -> lamb <> [] ->
  Z.of_nat (a_rows sigma * (length frequencies * length lamb)) < 2 ^ 64 ->
  (a_rows sigma + length frequencies + length lamb <= fuel)%nat ->
  exists ds dh dm, pyx_rTE_gradient fuel frequencies lamb sigma mu th = Ok (Some (ds, dh, dm)) /\
    (length ds = a_rows sigma * (length frequencies * length lamb))%nat /\
    (length dh = length th * (length frequencies * length lamb))%nat /\
    (length dm = a_rows sigma * (length frequencies * length lamb))%nat /\
    forall f i, (f < length frequencies)%nat -> (i < length lamb)%nat ->
      let G := py_rTE_gradient cpp_mu_0 (rget frequencies f) (rget lamb i) (column sigma f) (column mu f) th in
      (forall l, (l < a_rows sigma)%nat -> from_F3 (a_rows sigma) (length frequencies) ds l f i = Some (cget (ds_of G) l)) /\
      (forall l, (l < length th)%nat -> from_F3 (length th) (length frequencies) dh l f i = Some (cget (dh_of G) l)) /\
      (forall l, (l < a_rows sigma)%nat -> from_F3 (a_rows sigma) (length frequencies) dm l f i = Some (cget (dm_of G) l)).
Proof.
  intros Cs Rs Rm Cm Nf Nl S1 Hfu.
  set (nf := length frequencies) in *. set (nl := length lamb) in *. set (n := length th) in *.
  assert (Pf : (0 < nf)%nat) by (destruct frequencies; [congruence|cbn in nf; lia]).
  assert (Pl : (0 < nl)%nat) by (destruct lamb; [congruence|cbn in nl; lia]).
  replace (n + 1)%nat with (S n) in Rs by lia. rewrite Rs in Rm. rewrite Rs in S1, Hfu. rewrite Rs.
  change (2 ^ 64) with size_max in *.
  assert (S2 : Z.of_nat (nf * nl) < size_max) by nia.
  assert (S0 : Z.of_nat (S n) < size_max) by nia.
  assert (S3 : Z.of_nat (n * (nf * nl)) < size_max) by nia.
  assert (S4 : Z.of_nat (nf * S n) < size_max) by nia.
  unfold pyx_rTE_gradient. fold nf nl n. rewrite Cs, Rs, Rm, Cm, Cs, !Nat.eqb_refl. cbn [negb andb].
  replace (S n =? n + 1)%nat with true by (symmetry; apply Nat.eqb_eq; lia). cbn [negb].
  replace (nf =? 0)%nat with false by (symmetry; apply Nat.eqb_neq; lia).
  replace (nl =? 0)%nat with false by (symmetry; apply Nat.eqb_neq; lia). cbn [orb].
  replace (S n - 1)%nat with n by lia. cbv zeta.
  set (tot1 := (S n * (nf * nl))%nat). set (tot2 := (n * (nf * nl))%nat).
  set (G := fun c => py_rTE_gradient cpp_mu_0 (rget frequencies (c mod nf)) (rget lamb (c / nf)) (column sigma (c mod nf)) (column mu (c mod nf)) th).
  set (vs := fun k => cget (ds_of (G (k / S n)%nat)) (k mod S n)).
  set (vm := fun k => cget (dm_of (G (k / S n)%nat)) (k mod S n)).
  set (vh := fun k => cget (dh_of (G (k / n)%nat)) (k mod n)).
  assert (DM : forall a b q : nat, (b < q)%nat -> ((a * q + b) mod q = b)%nat /\ ((a * q + b) / q = a)%nat).
  { intros a b q H. split.
    - rewrite Nat.add_comm, Nat.mod_add by lia. apply Nat.mod_small; lia.
    - rewrite Nat.add_comm, Nat.div_add by lia. rewrite Nat.div_small by lia. lia. }
  assert (Q : exists ds dm dh, cpp_rTEgrad fuel (repeat None tot1) (repeat None tot1) (repeat None tot2) frequencies lamb (flat_F sigma) (flat_F mu) th
      (Z.of_nat nf) (Z.of_nat nl) (Z.of_nat (S n)) = Some (ds, dm, dh) /\ written tot1 tot1 vs ds /\ written tot1 tot1 vm dm /\ written tot2 tot2 vh dh).
  { unfold cpp_rTEgrad. cbv zeta.
    match goal with |- context [c_for fuel 0 (fun i => i <? Z.of_nat nl) incr ?b ?s] => set (body := b); set (st0 := s) end.
    set (P := fun c (st : gstate * Z) => sizes n (fst st) /\ outs tot1 tot2 vs vm vh (c * S n) (c * n) (fst st) /\ snd st = Z.of_nat c).
    destruct (c_for_up (fun i st => P (i * nf)%nat st) nl fuel body st0) as ([s z] & E & HZ & (W1 & W2 & W3) & _).
    - lia.
    - nia.
    - cbn [Nat.mul]. unfold P, st0. cbn [fst snd Nat.mul]. split; [|split; [|reflexivity]].
      + unfold sizes; cbn [g_k2s g_us g_Yhs g_Ys g_tanhs]. rewrite !repeat_length. lia.
      + repeat split; cbn [g_ds g_dm g_dh]; try apply repeat_length; intros; try (apply written_0; assumption).
    - intros i st Hi HP. unfold body.
      rewrite rd_nat. unfold nl in Hi. rewrite nth_error_rget by assumption. fold nl in Hi.
      match goal with |- context [c_for fuel 0 (fun i => i <? Z.of_nat nf) incr ?b ?s] => set (body2 := b) end.
      destruct (c_for_up (fun j st => P (i * nf + j)%nat st) nf fuel body2 st) as (st' & E & HP').
      + lia.
      + nia.
      + rewrite Nat.add_0_r. assumption.
      + intros j [s c] Hj (HZ & HO & Hc). cbn [fst snd] in *. subst c. unfold body2.
        replace (wrap (Z.of_nat j * Z.of_nat (S n))) with (Z.of_nat (j * S n)) by (rewrite wrap_small; nia).
        rewrite rd_nat. unfold nf in Hj. rewrite nth_error_rget by assumption. fold nf in Hj.
        assert (Hc : (i * nf + j < nf * nl)%nat) by nia.
        destruct (DM i j nf Hj) as [M1 M2].
        assert (EG : G (i * nf + j)%nat = py_rTE_gradient cpp_mu_0 (rget frequencies j) (rget lamb i) (column sigma j) (column mu j) th).
        { unfold G. rewrite M1, M2. reflexivity. }
        rewrite py_gradient_val in EG by (rewrite column_length; fold n; lia). fold n in EG.
        destruct (cell_ok sigma mu th j (rget frequencies j) (rget lamb i) Rs Rm Cm ltac:(lia) S0 (i * nf + j) tot1 tot2 vs vm vh) with (fuel := fuel) (s := s) as (s' & E' & HZ' & HO').
        * fold n. unfold tot1. nia.
        * fold n. unfold tot2. nia.
        * exact S1.
        * exact S3.
        * fold n. intros k Hk. unfold vs. destruct (DM (i * nf + j)%nat k (S n) ltac:(lia)) as [-> ->]. rewrite EG. apply nth_map_seq_app; assumption.
        * fold n. intros k Hk. unfold vm. destruct (DM (i * nf + j)%nat k (S n) ltac:(lia)) as [-> ->]. rewrite EG. apply nth_map_seq_app; assumption.
        * fold n. intros k Hk. unfold vh. destruct (DM (i * nf + j)%nat k n ltac:(lia)) as [-> ->]. rewrite EG. apply nth_map_seq; assumption.
        * fold n. unfold vs. destruct (DM (i * nf + j)%nat n (S n) ltac:(lia)) as [-> ->]. rewrite EG. apply nth_map_seq_last.
        * fold n. unfold vm. destruct (DM (i * nf + j)%nat n (S n) ltac:(lia)) as [-> ->]. rewrite EG. apply nth_map_seq_last.
        * fold n. lia.
        * exact HZ.
        * exact HO.
        * fold n in E'. rewrite E'. eexists; split; [reflexivity|]. unfold P; cbn [fst snd]. rewrite Nat.add_succ_r.
          split; [assumption|]. split; [assumption|]. unfold incr. rewrite wrap_small by nia. lia.
      + exists st'. split; [exact E|]. replace (S i * nf)%nat with (i * nf + nf)%nat by lia. assumption.
    - cbn [fst snd] in *. rewrite E. exists (g_ds s), (g_dm s), (g_dh s). split; [reflexivity|].
      replace (nl * nf * S n)%nat with tot1 in W1, W2 by (unfold tot1; lia). replace (nl * nf * n)%nat with tot2 in W3 by (unfold tot2; lia). auto. }
  destruct Q as (ds & dm & dh & E & W1 & W2 & W3). exists ds, dh, dm. rewrite E.
  split; [reflexivity|]. split; [apply W1|]. split; [apply W3|]. split; [apply W2|].
  intros f i Hf Hi. destruct (DM i f nf Hf) as [M1 M2].
  assert (EG : G (f + nf * i)%nat = py_rTE_gradient cpp_mu_0 (rget frequencies f) (rget lamb i) (column sigma f) (column mu f) th).
  { unfold G. replace (f + nf * i)%nat with (i * nf + f)%nat by lia. rewrite M1, M2. reflexivity. }
  rewrite <- EG. cbv zeta. assert (Hc : (f + nf * i < nf * nl)%nat) by nia. unfold from_F3.
  repeat split; intros l Hl.
  - rewrite (written_nth tot1 vs) by (auto; unfold tot1; nia). unfold vs.
    replace (l + S n * (f + nf * i))%nat with ((f + nf * i) * S n + l)%nat by lia. destruct (DM (f + nf * i)%nat l (S n) Hl) as [-> ->]. reflexivity.
  - rewrite (written_nth tot2 vh) by (auto; unfold tot2; nia). unfold vh.
    replace (l + n * (f + nf * i))%nat with ((f + nf * i) * n + l)%nat by lia. destruct (DM (f + nf * i)%nat l n Hl) as [-> ->]. reflexivity.
  - rewrite (written_nth tot1 vm) by (auto; unfold tot1; nia). unfold vm.
    replace (l + S n * (f + nf * i))%nat with ((f + nf * i) * S n + l)%nat by lia. destruct (DM (f + nf * i)%nat l (S n) Hl) as [-> ->]. reflexivity.
Qed.
