From Coq Require Import Reals Lra Lia List Bool Arith ZArith Ascii String.
From Verif Require Import Numpy PyVal Spec_Setters Model_Setters Proof_Setters Proof_Setters2.
Import ListNotations.
Open Scope string_scope.
Open Scope R_scope.

(** ** C86: frequencies and times *)
Definition samples_ok (key : string) (o : obj) : Prop :=
  exists a, o key = Some (AArr a) /\ Forall nonneg_or_nan (adata a) /\ (ndim a <= 1)%nat.

Lemma freq_step py k a v o : In k fdem_kinds -> wf_val v ->
  samples_ok "_frequency" o -> samples_ok "_frequency" (fst (setattr (cls_of py k) "" a v o)).
Proof.
  intros Hk W I. by_kind Hk; by_attr; try (exact I); try setter_case; try (exact I);
  unfold samples_ok, upd; simpl; try exact I; decompose [ex and] P; subst; eauto 6.
Qed.
Lemma time_step py k a v o : In k tdem_kinds -> wf_val v ->
  samples_ok "_time" o -> samples_ok "_time" (fst (setattr (cls_of py k) "" a v o)).
Proof.
  intros Hk W I. by_kind Hk; by_attr; try (exact I); try setter_case; try (exact I);
  unfold samples_ok, upd; simpl; try exact I; decompose [ex and] P; subst; eauto 6.
Qed.
Lemma created_freq py k o : created py k o -> In k fdem_kinds -> samples_ok "_frequency" o.
Proof.
  intros C Hk. created_cases C Hk; unfold samples_ok, upd; simpl; eauto 6.
Qed.
Lemma created_time py k o : created py k o -> In k tdem_kinds -> samples_ok "_time" o.
Proof.
  intros C Hk. created_cases C Hk; unfold samples_ok, upd; simpl; eauto 6.
Qed.
Lemma C86_freq_lemma py k o h : created py k o -> In k fdem_kinds -> wf_history h ->
  exists a, reads (cls_of py k) (run_history (cls_of py k) h o) "frequency" = Ok (AArr a) /\
    Forall nonneg_or_nan (adata a) /\ (ndim a <= 1)%nat.
Proof.
  intros C Hk W.
  assert (I : samples_ok "_frequency" (run_history (cls_of py k) h o)).
  { apply history_inv; [intros; apply freq_step; auto|exact W|eapply created_freq; eauto]. }
  destruct I as (a & E & F & N). exists a. split; [|auto].
  assert (R : forall o, reads (cls_of py k) o "frequency" = snd (get_plain "_frequency" "" o)) by (intro; by_kind Hk; reflexivity).
  rewrite R. apply get_plain_eq. exact E.
Qed.
Lemma C86_time_lemma py k o h : created py k o -> In k tdem_kinds -> wf_history h ->
  exists a, reads (cls_of py k) (run_history (cls_of py k) h o) "time" = Ok (AArr a) /\
    Forall nonneg_or_nan (adata a) /\ (ndim a <= 1)%nat.
Proof.
  intros C Hk W.
  assert (I : samples_ok "_time" (run_history (cls_of py k) h o)).
  { apply history_inv; [intros; apply time_step; auto|exact W|eapply created_time; eauto]. }
  destruct I as (a & E & F & N). exists a. split; [|auto].
  assert (R : forall o, reads (cls_of py k) o "time" = snd (get_plain "_time" "" o)) by (intro; by_kind Hk; reflexivity).
  rewrite R. apply get_plain_eq. exact E.
Qed.
Lemma samples_accept py key v a o : asarray py v = Ok a -> (forall x, In x (adata a) -> nonneg_or_nan x) -> (ndim a <= 1)%nat ->
  set_samples py key "" v o = (upd o key (AArr a), Ok tt).
Proof.
  intros E F N. unfold set_samples; sbind. rewrite E.
  replace (existsb lt0 (adata a)) with false.
  - replace (Nat.ltb 1 (ndim a)) with false by (symmetry; apply Nat.ltb_ge; exact N). reflexivity.
  - symmetry. destruct (existsb lt0 (adata a)) eqn:B; [|reflexivity]. apply existsb_exists in B. destruct B as (x & I & L).
    destruct (F x I) as [->|[->|(r & -> & P)]]; cbn in L; try discriminate.
    unfold Rltb in L. destruct (Rlt_dec r 0); [lra|discriminate].
Qed.
Lemma C86_assign_lemma py v a o : asarray py v = Ok a -> (forall x, In x (adata a) -> nonneg_or_nan x) -> (ndim a <= 1)%nat ->
  (forall k, In k fdem_kinds -> snd (setattr (cls_of py k) "" "frequency" v o) = Ok tt /\
     reads (cls_of py k) (fst (setattr (cls_of py k) "" "frequency" v o)) "frequency" = Ok (AArr a)) /\
  (forall k, In k tdem_kinds -> snd (setattr (cls_of py k) "" "time" v o) = Ok tt /\
     reads (cls_of py k) (fst (setattr (cls_of py k) "" "time" v o)) "time" = Ok (AArr a)).
Proof.
  intros E F N. split; intros k Hk.
  - assert (S : setattr (cls_of py k) "" "frequency" v o = (upd o "_frequency" (AArr a), Ok tt))
      by (by_kind Hk; exact (samples_accept py "_frequency" v a o E F N)).
    rewrite S. split; [reflexivity|]. by_kind Hk; reflexivity.
  - assert (S : setattr (cls_of py k) "" "time" v o = (upd o "_time" (AArr a), Ok tt))
      by (by_kind Hk; exact (samples_accept py "_time" v a o E F N)).
    rewrite S. split; [reflexivity|]. by_kind Hk; reflexivity.
Qed.
Lemma samples_reject py key v a o : asarray py v = Ok a -> (exists r, In (Fin r) (adata a) /\ r < 0) ->
  set_samples py key "" v o = (o, Raise ValueError).
Proof.
  intros E (r & I & L). unfold set_samples; sbind. rewrite E.
  replace (existsb lt0 (adata a)) with true; [reflexivity|]. symmetry. apply existsb_exists. exists (Fin r). split; [exact I|].
  cbn. unfold Rltb. destruct (Rlt_dec r 0); [reflexivity|lra].
Qed.
Lemma C86_reject_lemma py v a o : asarray py v = Ok a -> (exists r, In (Fin r) (adata a) /\ r < 0) ->
  (forall k, In k fdem_kinds -> setattr (cls_of py k) "" "frequency" v o = (o, Raise ValueError)) /\
  (forall k, In k tdem_kinds -> setattr (cls_of py k) "" "time" v o = (o, Raise ValueError)).
Proof.
  intros E L. split; intros k Hk; by_kind Hk;
    first [exact (samples_reject py "_frequency" v a o E L)|exact (samples_reject py "_time" v a o E L)].
Qed.
Lemma C86_zero_lemma py o : snd (setattr (cls_of py KBaseFDEM) "" "frequency" (PArr (mkarr [1%nat] [Fin 0])) o) = Ok tt /\
  snd (setattr (cls_of py KBaseTDEM) "" "time" (PArr (mkarr [1%nat] [Fin 0])) o) = Ok tt.
Proof.
  destruct (C86_assign_lemma py (PArr (mkarr [1%nat] [Fin 0])) (mkarr [1%nat] [Fin 0]) o) as [A B].
  - reflexivity.
  - intros x [<-|[]]. right; right. exists 0. split; [reflexivity|lra].
  - cbn. lia.
  - split; [apply A; left; reflexivity|apply B; left; reflexivity].
Qed.
