From Coq Require Import Reals Lra Lia List Bool Arith ZArith Ascii String.
From Verif Require Import Numpy PyVal Spec_Setters Model_Setters Proof_Setters.
Import ListNotations.
Open Scope string_scope.
Open Scope R_scope.

(** ** C32: in the simple classes every setter changes nothing or exactly one key *)
Definition one_key (f : pyval -> M unit) : Prop := exists k P, upd_setter f k P.
Definition one_key_cls (c : cls) : Prop :=
  Forall (fun q => forall f, pset q = Some f -> one_key (f "")) c.

Ltac one_key_tac :=
  let f := fresh "f" in let E := fresh "E" in
  intros f E; cbn [pset] in E; try discriminate; injection E as <-; do 2 eexists;
  first [ apply set_float_cases | apply set_float_raw_cases | apply set_vec_cases | apply set_len3_cases
        | apply em_set_rho_cases | apply dip_set_orientation_cases | apply pw_set_orientation_cases
        | apply line_set_nodes_cases | apply sphere_set_mass_cases | apply ok_set_depth_bottom_cases
        | apply pc_set_location_cases | apply set_samples_cases | apply set_quasistatic_cases
        | apply int_set_data_cases | apply set_str_cases | apply int_set_zone_cases
        | apply int_set_shape_cases | apply ok_set_shape_cases | apply set_date_cases ].

Ltac in_classes H :=
  repeat (destruct H as [H|H]; [|]); try contradiction.

Lemma simple_one_key py k : facade k = false -> one_key_cls (cls_of py k).
Proof.
  intros H. destruct k; try discriminate; unfold one_key_cls; repeat constructor; one_key_tac.
Qed.

Lemma lookup_In c a q : lookup c a = Some q -> In q c /\ pname q = a.
Proof.
  induction c as [|h c IH]; simpl; [discriminate|].
  destruct (String.eqb (pname h) a) eqn:E; intros H.
  - injection H as <-. apply String.eqb_eq in E; auto.
  - destruct (IH H); auto.
Qed.

Lemma atomic_simple py k a v o :
  facade k = false -> forall e, snd (setattr (cls_of py k) "" a v o) = Raise e ->
  fst (setattr (cls_of py k) "" a v o) = o.
Proof.
  intros H e. unfold setattr.
  destruct (lookup (cls_of py k) a) as [q|] eqn:L; [|reflexivity].
  destruct (pset q) as [f|] eqn:S; [|reflexivity].
  destruct (lookup_In _ _ _ L) as [Hq _].
  pose proof (simple_one_key py k H) as F. unfold one_key_cls in F. rewrite Forall_forall in F.
  destruct (F q Hq f S) as (key&P&U).
  destruct (U v o) as [[e' E]|(x&_&E)]; rewrite E; simpl; [reflexivity|discriminate].
Qed.

(** ** Invariants along histories *)
Lemma history_inv c (I : obj -> Prop) :
  (forall a v o, wf_val v -> I o -> I (fst (setattr c "" a v o))) ->
  forall h o, wf_history h -> I o -> I (run_history c h o).
Proof.
  intros St h; induction h as [|[a v] h IH]; intros o W HI; simpl; auto.
  inversion W; subst. apply IH; auto.
Qed.
(** with a restriction on the attribute/value pairs *)
Lemma history_inv_if c (Q : string -> pyval -> Prop) (I : obj -> Prop) :
  (forall a v o, wf_val v -> Q a v -> I o -> I (fst (setattr c "" a v o))) ->
  forall h o, wf_history h -> Forall (fun q => Q (fst q) (snd q)) h -> I o -> I (run_history c h o).
Proof.
  intros St h; induction h as [|[a v] h IH]; intros o W F HI; simpl; auto.
  inversion W; inversion F; subst. apply IH; auto.
Qed.

Ltac by_attr :=
  unfold setattr;
  repeat match goal with
  | |- context [lookup ?c ?a] => is_var a;
      let t := eval cbv [cls_of BaseEM BaseDipole BaseElectricDipole BaseMagneticDipole BaseLineCurrent PointMass Sphere
            BasePrism Prism MagneticPrism MagneticDipoleWholeSpace CircularLoopWholeSpace LineCurrentWholeSpace
            PointCurrentWholeSpace PointCurrentHalfSpace DipoleHalfSpace ElectrostaticSphere MagnetostaticSphere BaseFDEM BaseTDEM
            FdemElectricDipole FdemMagneticDipole TdemElectricDipole TdemMagneticDipole HarmonicPlaneWave
            TransientPlaneWave EarthquakeInterferogram Oksar str_attr flt_attr vec2_attr app lookup pname] in (lookup c a) in
      change (lookup c a) with t
  end;
  repeat match goal with
  | |- context [String.eqb ?s ?a] => is_var a; destruct (String.eqb s a) eqn:?
  end; cbv beta iota; cbn [pset pget].

(** case analysis on one setter application, in the goal *)
Ltac setter_case :=
  unfold em_set_sigma, em_set_mu, em_set_epsilon, dip_set_location;
  match goal with
  | |- context [set_float ?py ?k ?b ?p ?v ?o] => destruct (set_float_cases py k b p v o) as [[? ->]|(?x&?P&->)]
  | |- context [set_float_raw ?py ?k ?b ?p ?v ?o] => destruct (set_float_raw_cases py k b p v o) as [[? ->]|(?x&?P&->)]
  | |- context [set_vec ?py ?k ?b ?e ?p ?v ?o] => destruct (set_vec_cases py k b e p v o) as [[? ->]|(?x&?P&->)]
  | |- context [set_len3 ?py ?k ?p ?v ?o] => destruct (set_len3_cases py k p v o) as [[? ->]|(?x&?P&->)]
  | |- context [em_set_rho ?py ?p ?v ?o] => destruct (em_set_rho_cases py p v o) as [[? ->]|(?x&?P&->)]
  | |- context [dip_set_orientation ?py ?p ?v ?o] => destruct (dip_set_orientation_cases py p v o) as [[? ->]|(?x&?P&->)]
  | |- context [pw_set_orientation ?py ?p ?v ?o] => destruct (pw_set_orientation_cases py p v o) as [[? ->]|(?x&?P&->)]
  | |- context [line_set_nodes ?py ?p ?v ?o] => destruct (line_set_nodes_cases py p v o) as [[? ->]|(?x&?P&->)]
  | |- context [sphere_set_mass ?py ?p ?v ?o] => destruct (sphere_set_mass_cases py p v o) as [[? ->]|(?x&?P&->)]
  | |- context [ok_set_depth_bottom ?py ?p ?v ?o] => destruct (ok_set_depth_bottom_cases py p v o) as [[? ->]|(?x&?P&->)]
  | |- context [pc_set_location ?py ?p ?v ?o] => destruct (pc_set_location_cases py p v o) as [[? ->]|(?x&?P&->)]
  | |- context [set_samples ?py ?k ?p ?v ?o] => destruct (set_samples_cases py k p v o) as [[? ->]|(?x&?P&->)]
  | |- context [set_quasistatic ?p ?v ?o] => destruct (set_quasistatic_cases p v o) as [[? ->]|(?x&?P&->)]
  | |- context [int_set_data ?py ?p ?v ?o] => destruct (int_set_data_cases py p v o) as [[? ->]|(?x&?P&->)]
  | |- context [set_str ?py ?k ?p ?v ?o] => destruct (set_str_cases py k p v o) as [[? ->]|(?x&?P&->)]
  | |- context [int_set_zone ?py ?p ?v ?o] => destruct (int_set_zone_cases py p v o) as [[? ->]|(?x&?P&->)]
  | |- context [int_set_shape ?py ?p ?v ?o] => destruct (int_set_shape_cases py p v o) as [[? ->]|(?x&?P&->)]
  | |- context [ok_set_shape ?py ?p ?v ?o] => destruct (ok_set_shape_cases py p v o) as [[? ->]|(?x&?P&->)]
  | |- context [set_date ?py ?k ?p ?v ?o] => destruct (set_date_cases py k p v o) as [[? ->]|(?x&?P&->)]
  end; cbn [fst snd].

(** ** C31, C33: BaseEM state *)
Definition em_ok (o : obj) : Prop :=
  (exists s, o "_sigma" = Some (AFlt s) /\ positive_or_nan s) /\
  (exists m, o "_mu" = Some (AFlt m) /\ positive_or_nan m) /\
  (exists e, o "_epsilon" = Some (AFlt e) /\ nonneg_or_nan e).

Ltac by_kind H := simpl in H; repeat (destruct H as [H|H]; [subst|]); try contradiction.

Lemma em_step py k a v o :
  In k em_kinds -> wf_val v -> em_ok o -> em_ok (fst (setattr (cls_of py k) "" a v o)).
Proof.
  intros Hk W I. by_kind Hk; by_attr; try (exact I); try setter_case; try (exact I);
  unfold em_ok, upd; simpl; try exact I; destruct I as (I1&I2&I3); decompose [ex and] P; subst;
  eauto 8 using fle0_false, flt0_false.
Qed.

Lemma bind_inv {A B} (m : M A) (f : A -> M B) o o' b :
  bind m f o = (o', Ok b) -> exists o1 a, m o = (o1, Ok a) /\ f a o1 = (o', Ok b).
Proof. unfold bind. destruct (m o) as [o1 [a|e]]; [eauto|discriminate]. Qed.
Lemma lift_inv {A} (r : result A) o o' a : lift r o = (o', Ok a) -> o' = o /\ r = Ok a.
Proof. unfold lift; injection 1; auto. Qed.
Lemma check_inv b e o o' : check b e o = (o', Ok tt) -> o' = o /\ b = false.
Proof. unfold check; destruct b; [discriminate|injection 1; auto]. Qed.
Lemma read_arr_inv k o o' a : read_arr k o = (o', Ok a) -> o' = o /\ o k = Some (AArr a).
Proof. sbind. destruct (o k) as [[]|]; try discriminate. injection 1; intros; subst; auto. Qed.
Lemma upd_setter_inv f k P v o o' u :
  upd_setter f k P -> f v o = (o', Ok u) -> exists x, P v o x /\ o' = upd o k x.
Proof.
  intros U H. destruct (U v o) as [[e E]|(x&Px&E)]; rewrite E in H; [discriminate|].
  injection H as <-; eauto.
Qed.
Ltac run_init :=
  unfold init_em, init_dipole, init_edipole, init_mdipole, init_line, init_pointmass, init_sphere, init_prism,
    init_gprism, init_mprism, init_mdws, init_loop, init_linews, init_pcws, init_essphere, init_mssphere,
    init_fdem, init_tdem, init_hpw, init_tpw, init_oksar,
    init_em, init_dipole, init_edipole, init_mdipole, init_line, init_fdem, init_tdem, init_linews, init_prism,
    init_em, init_dipole, init_line,
    em_set_sigma, em_set_mu, em_set_epsilon, dip_set_location in *;
  repeat match goal with
  | H : bind _ _ _ = (_, Ok _) |- _ => apply bind_inv in H; destruct H as (?&?&?&H)
  | H : lift _ _ = (_, Ok _) |- _ => apply lift_inv in H; destruct H
  | H : check _ _ _ = (_, Ok ?u) |- _ => destruct u; apply check_inv in H; destruct H
  | H : read_arr _ _ = (_, Ok _) |- _ => apply read_arr_inv in H; destruct H
  | H : set_float _ _ _ _ _ _ = (_, Ok _) |- _ => apply (upd_setter_inv _ _ _ _ _ _ _ (set_float_cases _ _ _ _)) in H; destruct H as (?&?&H)
  | H : set_float_raw _ _ _ _ _ _ = (_, Ok _) |- _ => apply (upd_setter_inv _ _ _ _ _ _ _ (set_float_raw_cases _ _ _ _)) in H; destruct H as (?&?&H)
  | H : set_vec _ _ _ _ _ _ _ = (_, Ok _) |- _ => apply (upd_setter_inv _ _ _ _ _ _ _ (set_vec_cases _ _ _ _ _)) in H; destruct H as (?&?&H)
  | H : set_len3 _ _ _ _ _ = (_, Ok _) |- _ => apply (upd_setter_inv _ _ _ _ _ _ _ (set_len3_cases _ _ _)) in H; destruct H as (?&?&H)
  | H : dip_set_orientation _ _ _ _ = (_, Ok _) |- _ => apply (upd_setter_inv _ _ _ _ _ _ _ (dip_set_orientation_cases _ _)) in H; destruct H as (?&?&H)
  | H : pw_set_orientation _ _ _ _ = (_, Ok _) |- _ => apply (upd_setter_inv _ _ _ _ _ _ _ (pw_set_orientation_cases _ _)) in H; destruct H as (?&?&H)
  | H : line_set_nodes _ _ _ _ = (_, Ok _) |- _ => apply (upd_setter_inv _ _ _ _ _ _ _ (line_set_nodes_cases _ _)) in H; destruct H as (?&?&H)
  | H : sphere_set_mass _ _ _ _ = (_, Ok _) |- _ => apply (upd_setter_inv _ _ _ _ _ _ _ (sphere_set_mass_cases _ _)) in H; destruct H as (?&?&H)
  | H : ok_set_depth_bottom _ _ _ _ = (_, Ok _) |- _ => apply (upd_setter_inv _ _ _ _ _ _ _ (ok_set_depth_bottom_cases _ _)) in H; destruct H as (?&?&H)
  | H : set_samples _ _ _ _ _ = (_, Ok _) |- _ => apply (upd_setter_inv _ _ _ _ _ _ _ (set_samples_cases _ _ _)) in H; destruct H as (?&?&H)
  | H : set_quasistatic _ _ _ = (_, Ok _) |- _ => apply (upd_setter_inv _ _ _ _ _ _ _ (set_quasistatic_cases _)) in H; destruct H as (?&?&H)
  | H : ok_set_shape _ _ _ _ = (_, Ok _) |- _ => apply (upd_setter_inv _ _ _ _ _ _ _ (ok_set_shape_cases _ _)) in H; destruct H as (?&?&H)
  end; subst.

Ltac dec_all := repeat match goal with
  | H : exists _, _ |- _ => destruct H
  | H : _ /\ _ |- _ => destruct H
  | H : Forall wf_val (_ :: _) |- _ => inversion H; clear H; subst
  | H : Forall wf_val [] |- _ => clear H
  end; subst.
Ltac created_cases C Hk :=
  destruct C; simpl in Hk; try (exfalso; intuition discriminate); clear Hk; run_init; dec_all.

Lemma created_em py k o : created py k o -> In k em_kinds -> em_ok o.
Proof.
  intros C Hk. created_cases C Hk; unfold em_ok, upd; simpl; repeat split; eexists; split;
    try reflexivity; auto using fle0_false, flt0_false.
Qed.

Lemma em_reachable py k o h :
  created py k o -> In k em_kinds -> wf_history h -> em_ok (run_history (cls_of py k) h o).
Proof.
  intros C Hk W. apply history_inv; auto.
  - intros; apply em_step; auto.
  - eapply created_em; eauto.
Qed.

Lemma reads_em py k o : In k em_kinds ->
  reads (cls_of py k) o "sigma" = snd (get_plain "_sigma" "" o) /\
  reads (cls_of py k) o "mu" = snd (get_plain "_mu" "" o) /\
  reads (cls_of py k) o "epsilon" = snd (get_plain "_epsilon" "" o) /\
  reads (cls_of py k) o "rho" = snd (em_get_rho "" o).
Proof. intros Hk. by_kind Hk; repeat split. Qed.

Lemma get_plain_eq k o x : o k = Some x -> snd (get_plain k "" o) = Ok x.
Proof. unfold get_plain, read; simpl; intros ->; reflexivity. Qed.

Lemma C31_lemma py k o h : created py k o -> In k em_kinds -> wf_history h ->
  exists s m e,
    reads (cls_of py k) (run_history (cls_of py k) h o) "sigma" = Ok (AFlt s) /\ positive_or_nan s /\
    reads (cls_of py k) (run_history (cls_of py k) h o) "mu" = Ok (AFlt m) /\ positive_or_nan m /\
    reads (cls_of py k) (run_history (cls_of py k) h o) "epsilon" = Ok (AFlt e) /\ nonneg_or_nan e.
Proof.
  intros C Hk W. destruct (em_reachable py k o h C Hk W) as ((s&Hs&Ps)&(m&Hm&Pm)&(e&He&Pe)).
  destruct (reads_em py k (run_history (cls_of py k) h o) Hk) as (R1&R2&R3&R4).
  exists s, m, e. rewrite R1, R2, R3.
  rewrite (get_plain_eq _ _ _ Hs), (get_plain_eq _ _ _ Hm), (get_plain_eq _ _ _ He). auto 10.
Qed.

Lemma recip_ok s : positive_or_nan s -> exists r, fdiv_py (Fin 1) s = Ok r /\ reciprocal s r.
Proof.
  intros [->|[->|(x&->&Hx)]]; simpl; eauto.
  destruct (Reqb x 0) eqn:E; [apply Reqb_true in E; lra|].
  eexists; split; eauto. split; auto; lra.
Qed.

Lemma C33_lemma py k o h : created py k o -> In k em_kinds -> wf_history h ->
  exists s r,
    reads (cls_of py k) (run_history (cls_of py k) h o) "sigma" = Ok (AFlt s) /\
    reads (cls_of py k) (run_history (cls_of py k) h o) "rho" = Ok (AFlt r) /\ reciprocal s r.
Proof.
  intros C Hk W. destruct (em_reachable py k o h C Hk W) as ((s&Hs&Ps)&_).
  destruct (reads_em py k (run_history (cls_of py k) h o) Hk) as (R1&R2&R3&R4).
  destruct (recip_ok s Ps) as (r&D&Q). exists s, r.
  rewrite R1, R4, (get_plain_eq _ _ _ Hs). repeat split; auto.
  unfold em_get_rho. sbind. simpl (_ ++ _). rewrite Hs. rewrite D. reflexivity.
Qed.

Lemma setattr_rho py k v o : In k em_kinds ->
  setattr (cls_of py k) "" "rho" v o = em_set_rho py "" v o.
Proof. intros Hk. by_kind Hk; reflexivity. Qed.

Lemma C33_assign_lemma py k o v r : In k em_kinds -> float_ py v = Ok (Fin r) -> 0 < r ->
  snd (setattr (cls_of py k) "" "rho" v o) = Ok tt /\
  reads (cls_of py k) (fst (setattr (cls_of py k) "" "rho" v o)) "sigma" = Ok (AFlt (Fin (1 / r))) /\
  reads (cls_of py k) (fst (setattr (cls_of py k) "" "rho" v o)) "rho" = Ok (AFlt (Fin r)).
Proof.
  intros Hk F Hr. rewrite (setattr_rho py k v o Hk).
  assert (E : em_set_rho py "" v o = (upd o "_sigma" (AFlt (Fin (1 / r))), Ok tt)).
  { unfold em_set_rho, em_set_sigma, set_float. sbind. rewrite F. simpl.
    destruct (Reqb r 0) eqn:Z; [apply Reqb_true in Z; lra|]. unfold le0. simpl.
    destruct (Rleb (1 / r) 0) eqn:L; [|reflexivity].
    apply Rleb_true in L. assert (0 < 1 / r) by (apply Rdiv_lt_0_compat; lra). lra. }
  rewrite E. simpl fst.
  destruct (reads_em py k (upd o "_sigma" (AFlt (Fin (1 / r)))) Hk) as (R1&_&_&R4).
  rewrite R1, R4. repeat split.
  unfold em_get_rho. sbind. simpl. 
  destruct (Reqb (1 / r) 0) eqn:Z.
  - apply Reqb_true in Z. assert (0 < 1 / r) by (apply Rdiv_lt_0_compat; lra). lra.
  - apply (f_equal (fun t => Ok (AFlt (Fin t)))). field. lra.
Qed.

Lemma C33_reject_lemma py k o v x : In k em_kinds -> float_ py v = Ok x ->
  (x = Fin 0 -> setattr (cls_of py k) "" "rho" v o = (o, Raise ZeroDivisionError)) /\
  ((exists r, x = Fin r /\ r < 0) \/ x = PInf \/ x = NInf ->
     setattr (cls_of py k) "" "rho" v o = (o, Raise ValueError)).
Proof.
  intros Hk F. rewrite (setattr_rho py k v o Hk).
  unfold em_set_rho, em_set_sigma, set_float. sbind. rewrite F. split.
  - intros ->. simpl. destruct (Reqb 0 0) eqn:Z; [reflexivity|apply Reqb_false in Z; lra].
  - intros [(r&->&Hr)|[->| ->]]; simpl.
    + destruct (Reqb r 0) eqn:Z; [apply Reqb_true in Z; lra|]. unfold le0; simpl.
      destruct (Rleb (1 / r) 0) eqn:L; [reflexivity|]. apply Rleb_false in L.
      assert (1 / r < 0) by (unfold Rdiv; rewrite Rmult_1_l; apply Rinv_lt_0_compat; auto). lra.
    + unfold le0; simpl. destruct (Rleb 0 0) eqn:L; [reflexivity|]. apply Rleb_false in L; lra.
    + unfold le0; simpl. destruct (Rleb 0 0) eqn:L; [reflexivity|]. apply Rleb_false in L; lra.
Qed.

(** ** C34: orientation *)
Lemma upper_ascii_X c : upper_ascii c = "X"%char -> c = "X"%char \/ c = "x"%char.
Proof. destruct c as [[] [] [] [] [] [] [] []]; vm_compute; intros; try discriminate; auto. Qed.
Lemma upper_ascii_Y c : upper_ascii c = "Y"%char -> c = "Y"%char \/ c = "y"%char.
Proof. destruct c as [[] [] [] [] [] [] [] []]; vm_compute; intros; try discriminate; auto. Qed.
Lemma upper_ascii_Z c : upper_ascii c = "Z"%char -> c = "Z"%char \/ c = "z"%char.
Proof. destruct c as [[] [] [] [] [] [] [] []]; vm_compute; intros; try discriminate; auto. Qed.
Lemma upper_X s : upper s = "X" -> s = "X" \/ s = "x".
Proof.
  destruct s as [|c [|]]; simpl; try discriminate. injection 1 as H'.
  destruct (upper_ascii_X c H') as [->| ->]; auto.
Qed.
Lemma upper_Y s : upper s = "Y" -> s = "Y" \/ s = "y".
Proof.
  destruct s as [|c [|]]; simpl; try discriminate. injection 1 as H'.
  destruct (upper_ascii_Y c H') as [->| ->]; auto.
Qed.
Lemma upper_Z s : upper s = "Z" -> s = "Z" \/ s = "z".
Proof.
  destruct s as [|c [|]]; simpl; try discriminate. injection 1 as H'.
  destruct (upper_ascii_Z c H') as [->| ->]; auto.
Qed.

Lemma setattr_orient py k v o : In k dipole_kinds ->
  setattr (cls_of py k) "" "orientation" v o = dip_set_orientation py "" v o.
Proof. intros Hk. by_kind Hk; reflexivity. Qed.
Lemma reads_dipole py k o : In k dipole_kinds ->
  reads (cls_of py k) o "orientation" = snd (get_plain "_orientation" "" o) /\
  reads (cls_of py k) o "location" = snd (get_plain "_location" "" o).
Proof. intros Hk. by_kind Hk; split; reflexivity. Qed.

Lemma C34_string_lemma py k o s : In k dipole_kinds ->
  match axis_of s with
  | Some a => snd (setattr (cls_of py k) "" "orientation" (PStr s) o) = Ok tt /\
      reads (cls_of py k) (fst (setattr (cls_of py k) "" "orientation" (PStr s) o)) "orientation" = Ok (AArr a)
  | None => setattr (cls_of py k) "" "orientation" (PStr s) o = (o, Raise ValueError)
  end.
Proof.
  intros Hk. rewrite (setattr_orient py k _ o Hk).
  unfold axis_of, dip_set_orientation. cbn [is_str].
  destruct (String.eqb_spec s "X"); [subst; split; [reflexivity|rewrite (proj1 (reads_dipole py k _ Hk)); reflexivity]|].
  destruct (String.eqb_spec s "x"); [subst; split; [reflexivity|rewrite (proj1 (reads_dipole py k _ Hk)); reflexivity]|].
  destruct (String.eqb_spec s "Y"); [subst; split; [reflexivity|rewrite (proj1 (reads_dipole py k _ Hk)); reflexivity]|].
  destruct (String.eqb_spec s "y"); [subst; split; [reflexivity|rewrite (proj1 (reads_dipole py k _ Hk)); reflexivity]|].
  destruct (String.eqb_spec s "Z"); [subst; split; [reflexivity|rewrite (proj1 (reads_dipole py k _ Hk)); reflexivity]|].
  destruct (String.eqb_spec s "z"); [subst; split; [reflexivity|rewrite (proj1 (reads_dipole py k _ Hk)); reflexivity]|].
  simpl.
  destruct (String.eqb_spec (upper s) "X") as [E|_]; [destruct (upper_X s E); contradiction|].
  destruct (String.eqb_spec (upper s) "Y") as [E|_]; [destruct (upper_Y s E); contradiction|].
  destruct (String.eqb_spec (upper s) "Z") as [E|_]; [destruct (upper_Z s E); contradiction|].
  reflexivity.
Qed.

Lemma norm3 x y z : fnorm [Fin x; Fin y; Fin z] = Fin (sqrt (x * x + (y * y + (z * z + 0)))).
Proof.
  unfold fnorm; simpl. destruct (Rltb _ 0) eqn:E; [|reflexivity].
  apply Rltb_true in E. exfalso; nra.
Qed.

Lemma normalise_unit x y z : (x <> 0 \/ y <> 0 \/ z <> 0) ->
  exists n, 0 < n /\ normalise (vec3 (Fin x) (Fin y) (Fin z)) = vec3 (Fin (x / n)) (Fin (y / n)) (Fin (z / n)) /\
   (x / n) * (x / n) + (y / n) * (y / n) + (z / n) * (z / n) = 1.
Proof.
  intros H. exists (sqrt (x * x + (y * y + (z * z + 0)))).
  assert (P : 0 < x * x + (y * y + (z * z + 0))).
  { destruct H as [H|[H|H]]; assert (0 < Rsqr x \/ 0 < Rsqr y \/ 0 < Rsqr z) as A by
      (auto using Rsqr_pos_lt); unfold Rsqr in A; nra. }
  assert (S : 0 < sqrt (x * x + (y * y + (z * z + 0)))) by (apply sqrt_lt_R0; auto).
  split; [auto|]. split.
  - unfold normalise, vec3, amap; cbn [adata ashape]. rewrite norm3. simpl.
    destruct (Reqb _ 0) eqn:E; [apply Reqb_true in E; lra|reflexivity].
  - set (n := sqrt _) in *. assert (n * n = x * x + (y * y + (z * z + 0))) by (apply sqrt_sqrt; lra).
    field_simplify_eq; lra.
Qed.

Lemma C34_vector_lemma py k o v a x y z : In k dipole_kinds -> is_str v = None ->
  asarray py v = Ok a -> squeeze a = vec3 (Fin x) (Fin y) (Fin z) -> (x <> 0 \/ y <> 0 \/ z <> 0) ->
  snd (setattr (cls_of py k) "" "orientation" v o) = Ok tt /\
  exists u1 u2 u3 n, 0 < n /\
    reads (cls_of py k) (fst (setattr (cls_of py k) "" "orientation" v o)) "orientation"
      = Ok (AArr (vec3 (Fin u1) (Fin u2) (Fin u3))) /\
    u1 * u1 + u2 * u2 + u3 * u3 = 1 /\ x = n * u1 /\ y = n * u2 /\ z = n * u3.
Proof.
  intros Hk S A Q NZ. rewrite (setattr_orient py k _ o Hk).
  destruct (normalise_unit x y z NZ) as (n&Hn&N&U).
  assert (E : dip_set_orientation py "" v o =
     (upd o "_orientation" (AArr (vec3 (Fin (x/n)) (Fin (y/n)) (Fin (z/n)))), Ok tt)).
  { unfold dip_set_orientation. rewrite S. sbind. rewrite A, Q. simpl. rewrite N. reflexivity. }
  rewrite E; split; [reflexivity|]. exists (x/n), (y/n), (z/n), n. split; auto.
  rewrite (proj1 (reads_dipole py k _ Hk)). split; [reflexivity|]. split; auto.
  repeat split; field; lra.
Qed.
