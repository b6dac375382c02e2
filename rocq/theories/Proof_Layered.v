(** Shape of the result of the layered dipole's magnetic_field. *)
From Coq Require Import String Reals Lra Lia List Arith Bool.
From Coquelicot Require Import Coquelicot.
From Verif Require Import Vec3 Cplx Numpy Model_RTE Model_Layered Spec_Layered Proof_RTE.
Import ListNotations.
Open Scope R_scope.

(** what magnetic_field computes from the ground alone *)
Definition arrays (s : layered) : result (arr2 * arr2) :=
  do sg <- as_array (n_layer s) (n_frequency s) (ly_sigma s);
  do m <- as_array (n_layer s) (n_frequency s) (ly_mu s);
  do e <- as_array (n_layer s) (n_frequency s) (ly_epsilon s);
  do sigh <- sigma_hat_fn (A2 (n_layer s) (n_frequency s) (fun _ j => RtoC (rget (ly_frequency s) j))) sg e (ly_quasistatic s);
  Ok (sigh, m).
Definition refl (mu_0 : R) (flt : hankel) (s : layered) (g : arr2 * arr2) (f : nat) (p : vec3) : list C :=
  map (fun b => py_rTE mu_0 (rget (ly_frequency s) f) (b / offset (ly_location s) p) (column (fst g) f) (column (snd g) f) (ly_thickness s)) (hf_base flt).

Definition shapes_ok (s : layered) (g : arr2 * arr2) : Prop :=
  a_cols (fst g) = n_frequency s /\ a_rows (fst g) = n_layer s /\ a_rows (snd g) = n_layer s /\ a_cols (snd g) = n_frequency s.

Lemma existsb_above xyz : existsb (fun p => Rltb (vz p) 0) xyz = false <-> above xyz.
Proof.
  unfold above. induction xyz as [|p l IH]; cbn; [split; auto|].
  rewrite orb_false_iff, IH, Rltb_false. split; [intros [A B]; constructor; assumption|intros H; inversion H; auto].
Qed.

Lemma rTE_forward_ok mu_0 fr lamb sg m th r :
  rTE_forward mu_0 fr lamb sg m th = Ok r <->
  (a_cols sg = length fr /\ a_rows sg = (length th + 1)%nat /\ a_rows m = a_rows sg /\ a_cols m = a_cols sg /\ fr <> [] /\ lamb <> []) /\
  r = py_rTE_forward mu_0 fr lamb sg m th.
Proof.
  unfold rTE_forward.
  destruct (Nat.eqb_spec (length fr) (a_cols sg)) as [E1|E1]; cbn [negb]; [|split; [discriminate|intros [[A _] _]; congruence]].
  destruct (Nat.eqb_spec (a_rows sg) (length th + 1)) as [E2|E2]; cbn [negb]; [|split; [discriminate|intros [(_ & A & _) _]; congruence]].
  destruct (Nat.eqb_spec (a_rows m) (a_rows sg)) as [E3|E3]; cbn [negb andb]; [|split; [discriminate|intros [(_ & _ & A & _) _]; congruence]].
  destruct (Nat.eqb_spec (a_cols m) (a_cols sg)) as [E4|E4]; cbn [negb andb]; [|split; [discriminate|intros [(_ & _ & _ & A & _) _]; congruence]].
  destruct fr as [|f0 fr]; cbn [length Nat.eqb orb]; [split; [discriminate|intros [(_ & _ & _ & _ & A & _) _]; congruence]|].
  destruct lamb as [|l0 lamb]; cbn [length Nat.eqb orb]; [split; [discriminate|intros [(_ & _ & _ & _ & _ & A) _]; congruence]|].
  split; [intros [= <-]; repeat split; auto; congruence|intros [_ ->]; reflexivity].
Qed.

Lemma firstn_skipn_block {A B} (g : A -> list B) n : forall (l : list A) k d,
  (forall x, length (g x) = n) -> (k < length l)%nat -> firstn n (skipn (k * n) (flat_map g l)) = g (nth k l d).
Proof.
  induction l as [|x l IH]; intros k d H L; cbn in L; [lia|]. destruct k; cbn [flat_map nth Nat.mul skipn].
  - rewrite <- (H x) at 1. rewrite firstn_app, Nat.sub_diag, firstn_all, app_nil_r. reflexivity.
  - rewrite skipn_app. replace (length (g x)) with n by (symmetry; apply H).
    rewrite skipn_all2 by (rewrite H; lia). cbn [app].
    replace (n + k * n - n)%nat with (k * n)%nat by lia. apply IH; [assumption|lia].
Qed.
Lemma map_flat_map {A B D} (h : B -> D) (g : A -> list B) l : map h (flat_map g l) = flat_map (fun x => map h (g x)) l.
Proof. induction l; cbn; [reflexivity|]. rewrite map_app, IHl. reflexivity. Qed.
Lemma map_nth_seq {A B} (h : A -> B) (l : list A) d : map (fun i => h (nth i l d)) (seq 0 (length l)) = map h l.
Proof.
  induction l as [|x l IH]; cbn; [reflexivity|]. f_equal. rewrite <- seq_shift, map_map. apply IH.
Qed.
Lemma py_row mu_0 fr lamb sg m th : py_rTE_forward mu_0 fr lamb sg m th =
  map (fun f => map (fun la => py_rTE mu_0 (rget fr f) la (column sg f) (column m f) th) lamb) (seq 0 (length fr)).
Proof.
  unfold py_rTE_forward. apply map_ext. intros f. unfold rget at 2.
  exact (map_nth_seq (fun la => py_rTE mu_0 (rget fr f) la (column sg f) (column m f) th) lamb 0).
Qed.
Lemma map_combine_seq {A B} (h : nat -> A -> B) (l : list A) (d : A) (g : A -> B) :
  forall k, (forall i, (i < length l)%nat -> h (k + i)%nat (nth i l d) = g (nth i l d)) ->
  map (fun kp => h (fst kp) (snd kp)) (combine (seq k (length l)) l) = map g l.
Proof.
  induction l as [|x l IH]; intros k H; cbn; [reflexivity|]. f_equal.
  - specialize (H 0%nat (Nat.lt_0_succ _)). rewrite Nat.add_0_r in H. exact H.
  - apply IH. intros i L. replace (S k + i)%nat with (k + S i)%nat by lia. apply (H (S i)). cbn; lia.
Qed.

Lemma mf_ok mu_0 flt s xyz field r :
  magnetic_field mu_0 flt s xyz field = Ok r <->
  above xyz /\ ly_frequency s <> [] /\ xyz <> [] /\ hf_base flt <> [] /\
  exists g, arrays s = Ok g /\ shapes_ok s g /\
    r = map (fun f => map (fun p => receiver_field flt s (String.eqb field "total") p (refl mu_0 flt s g f p)) xyz) (seq 0 (n_frequency s)).
Proof.
  unfold magnetic_field. destruct (existsb _ xyz) eqn:EA.
  { split; [discriminate|]. intros [A _]. apply existsb_above in A. congruence. }
  apply existsb_above in EA. unfold arrays.
  destruct (as_array _ _ (ly_sigma s)) as [sg|ex]; cbn [rbind]; [|split; [discriminate|intros (_ & _ & _ & _ & g & [=] & _)]].
  destruct (as_array _ _ (ly_mu s)) as [m|ex]; cbn [rbind]; [|split; [discriminate|intros (_ & _ & _ & _ & g & [=] & _)]].
  destruct (as_array _ _ (ly_epsilon s)) as [e|ex]; cbn [rbind]; [|split; [discriminate|intros (_ & _ & _ & _ & g & [=] & _)]].
  destruct (sigma_hat_fn _ _ _ _) as [sigh|ex]; cbn [rbind]; [|split; [discriminate|intros (_ & _ & _ & _ & g & [=] & _)]].
  set (lambd := flat_map _ xyz).
  assert (EL : lambd <> [] <-> xyz <> [] /\ hf_base flt <> []).
  { unfold lambd. destruct xyz as [|p l]; cbn; [tauto|]. destruct (hf_base flt); cbn.
    - split; [|tauto]. intros H. exfalso. apply H. clear. induction l; cbn; auto.
    - split; [split; discriminate|discriminate]. }
  assert (ER : forall rte, rte = py_rTE_forward mu_0 (ly_frequency s) lambd sigh m (ly_thickness s) ->
    map (fun row => map (fun kp : nat * vec3 => receiver_field flt s (String.eqb field "total") (snd kp) (chunk (length (hf_base flt)) (fst kp) row)) (combine (seq 0 (length xyz)) xyz)) rte =
    map (fun f => map (fun p => receiver_field flt s (String.eqb field "total") p (refl mu_0 flt s (sigh, m) f p)) xyz) (seq 0 (n_frequency s))).
  { intros rte ->. rewrite py_row, map_map. apply map_ext. intros f.
    apply (map_combine_seq (fun k p => receiver_field flt s (String.eqb field "total") p (chunk (length (hf_base flt)) k
             (map (fun la => py_rTE mu_0 (rget (ly_frequency s) f) la (column sigh f) (column m f) (ly_thickness s)) lambd))) xyz vzero).
    intros i L. cbn [Nat.add]. f_equal. unfold chunk, lambd. rewrite map_flat_map.
    rewrite (firstn_skipn_block _ _ xyz i vzero); [|intros; rewrite !map_length; reflexivity|assumption].
    unfold refl. cbn [fst snd]. rewrite map_map. reflexivity. }
  split.
  - destruct (rTE_forward _ _ _ _ _ _) as [rte|ex] eqn:EF; cbn [rbind]; [|discriminate]. intros [= <-].
    apply rTE_forward_ok in EF. destruct EF as [(A & B & D & E & F & G) H]. apply EL in G.
    split; [assumption|]. split; [assumption|]. split; [tauto|]. split; [tauto|]. exists (sigh, m). split; [reflexivity|].
    split; [unfold shapes_ok, n_layer, n_frequency; cbn; repeat split; congruence|]. apply ER. exact H.
  - intros (_ & A & B & D & g & [= <-] & (S1 & S2 & S3 & S4) & ->). cbn [fst snd] in *.
    assert (EF : rTE_forward mu_0 (ly_frequency s) lambd sigh m (ly_thickness s) = Ok (py_rTE_forward mu_0 (ly_frequency s) lambd sigh m (ly_thickness s))).
    { apply rTE_forward_ok. unfold n_layer, n_frequency in *. split; [|reflexivity].
      split; [assumption|]. split; [assumption|]. split; [congruence|]. split; [congruence|]. split; [assumption|]. apply EL. auto. }
    rewrite EF.
    cbn [rbind]. f_equal. apply ER. reflexivity.
Qed.

Lemma mf_entry mu_0 flt s xyz field r g :
  magnetic_field mu_0 flt s xyz field = Ok r -> arrays s = Ok g ->
  shaped (n_frequency s) (length xyz) r /\
  forall f k, (f < n_frequency s)%nat -> (k < length xyz)%nat ->
    entry r f k = receiver_field flt s (String.eqb field "total") (nth k xyz vzero) (refl mu_0 flt s g f (nth k xyz vzero)).
Proof.
  intros H G. apply mf_ok in H. destruct H as (_ & _ & _ & _ & g' & G' & _ & ->). assert (g' = g) by congruence. subst g'.
  assert (N : forall f, (f < n_frequency s)%nat -> nth f (map (fun f => map (fun p => receiver_field flt s (String.eqb field "total") p (refl mu_0 flt s g f p)) xyz) (seq 0 (n_frequency s))) [] =
    map (fun p => receiver_field flt s (String.eqb field "total") p (refl mu_0 flt s g f p)) xyz).
  { intros f L. apply nth_error_nth. rewrite nth_error_map, nth_error_seq by assumption. reflexivity. }
  split.
  - split; [rewrite map_length, seq_length; reflexivity|]. intros f L. rewrite N by assumption. apply map_length.
  - intros f k L K. unfold entry. rewrite N by assumption.
    rewrite (nth_indep _ None (receiver_field flt s (String.eqb field "total") vzero (refl mu_0 flt s g f vzero))) by (rewrite map_length; assumption).
    rewrite (map_nth (fun p => receiver_field flt s (String.eqb field "total") p (refl mu_0 flt s g f p)) xyz vzero k). reflexivity.
Qed.

(** which assignments of the ground arrays work *)
Lemma as_array_fits nl nf p : fits nl nf p -> exists a, as_array nl nf p = Ok a /\ a_rows a = nl /\ a_cols a = nf /\
  forall l f, (l < nl)%nat -> a_at a l f = pvalue p l f.
Proof.
  destruct p as [l|a]; cbn; intros H.
  - rewrite (proj2 (Nat.eqb_eq _ _) H). eexists. split; [reflexivity|]. cbn. auto.
  - exists a. tauto.
Qed.

Lemma bidx_ok n i : (i < n)%nat -> bidx n i = i.
Proof. unfold bidx. destruct (Nat.eqb_spec n 1); lia. Qed.

Lemma arrays_consistent s : consistent s -> exists g, arrays s = Ok g /\ shapes_ok s g /\
  forall l f, (l < n_layer s)%nat -> (f < n_frequency s)%nat -> a_at (fst g) l f = hat s l f /\ a_at (snd g) l f = pvalue (ly_mu s) l f.
Proof.
  intros (A & B & D). unfold arrays.
  destruct (as_array_fits _ _ _ A) as (sg & -> & S1 & S2 & S3). destruct (as_array_fits _ _ _ B) as (m & -> & M1 & M2 & M3).
  destruct (as_array_fits _ _ _ D) as (e & -> & E1 & E2 & E3). cbn [rbind]. unfold sigma_hat_fn, hat. destruct (ly_quasistatic s); cbn [rbind].
  - eexists. split; [reflexivity|]. unfold shapes_ok. cbn [fst snd]. repeat split; auto.
  - unfold broadcast at 1. cbn [a_rows a_cols]. unfold bdim at 1 2. rewrite E1, E2, !Nat.eqb_refl. cbn [rbind].
    unfold broadcast. cbn [a_rows a_cols]. unfold bdim. rewrite S1, S2, !Nat.eqb_refl. cbn [rbind].
    eexists. split; [reflexivity|]. unfold shapes_ok. cbn [fst snd a_rows a_cols a_at]. repeat split; auto.
    rewrite !bidx_ok by assumption. rewrite S3, E3 by assumption. f_equal. f_equal. f_equal. rewrite <- RtoC_mult. reflexivity.
Qed.
