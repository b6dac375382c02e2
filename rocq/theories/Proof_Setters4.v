From Coq Require Import Reals Lra Lia List Bool Arith ZArith Ascii String.
From Verif Require Import Numpy PyVal Spec_Setters Model_Setters Proof_Setters Proof_Setters2 Proof_Setters3.
Import ListNotations.
Open Scope string_scope.
Open Scope R_scope.

(** ** C14 *)
Lemma set_vec_ok py key v x y z e o : converts_to py v x y z ->
  set_vec py key [3%nat] e "" v o = (upd o ("" ++ key) (AArr (fin3 x y z)), Ok tt).
Proof.
  intros (a&A&S). unfold set_vec. sbind. rewrite A, S. reflexivity.
Qed.
Lemma init_prism_eq py v1 v2 x1 y1 z1 x2 y2 z2 o :
  converts_to py v1 x1 y1 z1 -> converts_to py v2 x2 y2 z2 ->
  init_prism py "" v1 v2 o =
   (upd (upd o "_min_location" (AArr (fin3 x1 y1 z1))) "_max_location" (AArr (fin3 x2 y2 z2)),
    if (Rleb x2 x1 || (Rleb y2 y1 || (Rleb z2 z1 || false)))%bool then Raise ValueError else Ok tt).
Proof.
  intros H1 H2. unfold init_prism. unfold bind at 1. rewrite (set_vec_ok _ _ _ _ _ _ _ _ H1).
  unfold bind at 1. rewrite (set_vec_ok _ _ _ _ _ _ _ _ H2). sbind. simpl.
  destruct (Rleb x2 x1 || (Rleb y2 y1 || (Rleb z2 z1 || false)))%bool; reflexivity.
Qed.
Lemma C14_iff_lemma py v1 v2 x1 y1 z1 x2 y2 z2 :
  converts_to py v1 x1 y1 z1 -> converts_to py v2 x2 y2 z2 ->
  (snd (init_prism py "" v1 v2 empty_obj) = Ok tt <-> x1 < x2 /\ y1 < y2 /\ z1 < z2).
Proof.
  intros H1 H2. rewrite (init_prism_eq _ _ _ _ _ _ _ _ _ _ H1 H2). simpl.
  destruct (Rleb x2 x1) eqn:A; [apply Rleb_true in A; simpl; split; [discriminate|lra]|apply Rleb_false in A].
  destruct (Rleb y2 y1) eqn:B; [apply Rleb_true in B; simpl; split; [discriminate|lra]|apply Rleb_false in B].
  destruct (Rleb z2 z1) eqn:D; [apply Rleb_true in D; simpl; split; [discriminate|lra]|apply Rleb_false in D].
  simpl; tauto.
Qed.
Lemma C14_reject_lemma py v1 v2 :
  (forall a, asarray py v1 = Ok a -> ashape (squeeze a) <> [3%nat]) \/
  (forall a, asarray py v2 = Ok a -> ashape (squeeze a) <> [3%nat]) ->
  exists e, snd (init_prism py "" v1 v2 empty_obj) = Raise e.
Proof.
  intros H. destruct (init_prism py "" v1 v2 empty_obj) as [o [[]|e]] eqn:E; simpl; eauto.
  exfalso. run_init. dec_all. destruct H as [H|H]; eapply H; eauto.
Qed.
Lemma C14_volume_lemma py k o x1 y1 z1 x2 y2 z2 :
  created py k o -> In k prism_kinds ->
  reads (cls_of py k) o "min_location" = Ok (AArr (fin3 x1 y1 z1)) ->
  reads (cls_of py k) o "max_location" = Ok (AArr (fin3 x2 y2 z2)) ->
  x1 < x2 /\ y1 < y2 /\ z1 < z2 /\
  exists vol, reads (cls_of py k) o "volume" = Ok (AFlt (Fin vol)) /\ 0 < vol /\
    vol = (x2 - x1) * (y2 - y1) * (z2 - z1).
Proof.
  intros C Hk R1 R2.
  assert (K : (exists mn mx, o "_min_location" = Some (AArr mn) /\ o "_max_location" = Some (AArr mx) /\
      existsb (fun q => fle (fst q) (snd q)) (combine (adata mx) (adata mn)) = false) /\
      reads (cls_of py k) o "min_location" = snd (get_plain "_min_location" "" o) /\
      reads (cls_of py k) o "max_location" = snd (get_plain "_max_location" "" o) /\
      reads (cls_of py k) o "volume" = snd (prism_get_volume "" o)).
  { destruct C; simpl in Hk; try (exfalso; intuition discriminate); clear Hk R1 R2; run_init; dec_all;
    (split; [|repeat split; reflexivity]); unfold upd in *; simpl in *;
    repeat match goal with H : Some _ = Some _ |- _ => injection H as <- end;
    (do 2 eexists; split; [reflexivity|split; [reflexivity|assumption]]). }
  destruct K as ((mn&mx&Emn&Emx&X)&K1&K2&K3). rewrite K1, (get_plain_eq _ _ _ Emn) in R1.
  rewrite K2, (get_plain_eq _ _ _ Emx) in R2. injection R1 as ->; injection R2 as ->. simpl in X.
  apply orb_false_iff in X; destruct X as [X1 X]. apply orb_false_iff in X; destruct X as [X2 X].
  apply orb_false_iff in X; destruct X as [X3 _]. apply Rleb_false in X1, X2, X3.
  repeat split; auto. rewrite K3. exists ((x2 - x1) * (y2 - y1) * (z2 - z1)). split; [|split; auto].
  - unfold prism_get_volume. sbind. simpl. rewrite Emx, Emn. simpl. do 3 f_equal. ring.
  - apply Rmult_lt_0_compat; [apply Rmult_lt_0_compat|]; lra.
Qed.

(** ** C26 *)
Lemma nz3 r : r <> 0 -> 4 * PI * (r * r * r) <> 0.
Proof.
  intros H. assert (P := PI_RGT_0). apply Rmult_integral_contrapositive_currified; [lra|].
  apply Rmult_integral_contrapositive_currified; auto using Rmult_integral_contrapositive_currified.
Qed.
Definition sphere_ok (o : obj) : Prop :=
  (exists r, o "_radius" = Some (AFlt r) /\ nonneg_or_nan r) /\ (exists q, o "_rho" = Some (AFlt q)).
Lemma sphere_step py a v o : sphere_ok o -> sphere_ok (fst (setattr (cls_of py KSphere) "" a v o)).
Proof.
  intros I. by_attr; try exact I; try setter_case; try exact I; unfold sphere_ok, upd; simpl; try exact I;
  destruct I as (I1&I2); decompose [ex and] P; subst; eauto 8 using flt0_false.
Qed.
Lemma sphere_created py o : created py KSphere o -> sphere_ok o.
Proof.
  intros C. inversion C; subst. run_init; dec_all. unfold sphere_ok, upd; simpl; eauto 8 using flt0_false.
Qed.
Lemma C26_read_lemma py o h : created py KSphere o -> wf_history h ->
  exists r q m,
    reads (cls_of py KSphere) (run_history (cls_of py KSphere) h o) "radius" = Ok (AFlt r) /\
    nonneg_or_nan r /\
    reads (cls_of py KSphere) (run_history (cls_of py KSphere) h o) "rho" = Ok (AFlt q) /\
    reads (cls_of py KSphere) (run_history (cls_of py KSphere) h o) "mass" = Ok (AFlt m) /\
    (forall R rho, r = Fin R -> q = Fin rho -> m = Fin (4 / 3 * PI * R ^ 3 * rho)).
Proof.
  intros C W.
  assert (I : sphere_ok (run_history (cls_of py KSphere) h o)).
  { apply history_inv; auto. intros; apply sphere_step; auto. apply (sphere_created py); auto. }
  destruct I as ((r&Er&Pr)&(q&Eq)). set (s := run_history _ h o) in *. clearbody s.
  exists r, q, (fmul (fmul (Fin (4 / 3 * PI)) (fpow3 r)) q).
  unfold reads, getattr; simpl. unfold get_plain, sphere_get_mass; sbind; simpl. rewrite Er, Eq; simpl.
  repeat split; auto. intros R rho -> ->. unfold fpow3; simpl. f_equal. ring.
Qed.
Lemma C26_assign_mass_lemma py o v m r :
  reads (cls_of py KSphere) o "radius" = Ok (AFlt (Fin r)) -> r <> 0 -> float_ py v = Ok (Fin m) ->
  snd (setattr (cls_of py KSphere) "" "mass" v o) = Ok tt /\
  reads (cls_of py KSphere) (fst (setattr (cls_of py KSphere) "" "mass" v o)) "mass" = Ok (AFlt (Fin m)) /\
  reads (cls_of py KSphere) (fst (setattr (cls_of py KSphere) "" "mass" v o)) "radius" = Ok (AFlt (Fin r)) /\
  reads (cls_of py KSphere) (fst (setattr (cls_of py KSphere) "" "mass" v o)) "rho"
    = Ok (AFlt (Fin (m / (4 / 3 * PI * r ^ 3)))).
Proof.
  intros R NZ F.
  assert (E : o "_radius" = Some (AFlt (Fin r))).
  { unfold reads, getattr in R; simpl in R. unfold get_plain, read in R; simpl in R.
    destruct (o "_radius"); simpl in R; [injection R as ->; auto|discriminate]. }
  assert (P := PI_RGT_0).
  assert (N3 : 4 * PI * (r * r * r) <> 0) by (apply nz3; auto; lra).
  assert (S : setattr (cls_of py KSphere) "" "mass" v o =
     (upd o "_rho" (AFlt (Fin (m * 3 / (4 * PI * (r * r * r))))), Ok tt)).
  { unfold setattr; simpl. unfold sphere_set_mass. sbind. rewrite F. simpl. rewrite E. simpl.
    destruct (Reqb (4 * PI * (r * r * r)) 0) eqn:Z; [apply Reqb_true in Z; contradiction|]. reflexivity. }
  rewrite S; simpl fst; simpl snd.
  split; [reflexivity|]. split; [|split].
  - unfold reads, getattr; simpl. unfold sphere_get_mass; sbind; unfold upd; simpl. rewrite E. simpl.
    do 3 f_equal. field. split; lra.
  - unfold reads, getattr; simpl. unfold get_plain, read, upd; simpl. rewrite E. reflexivity.
  - unfold reads, getattr; simpl. unfold get_plain, read, upd; simpl. do 3 f_equal. field. split; lra.
Qed.
Lemma C26_assign_radius_lemma py o v :
  let o' := fst (setattr (cls_of py KSphere) "" "radius" v o) in
  reads (cls_of py KSphere) o' "rho" = reads (cls_of py KSphere) o "rho" /\
  reads (cls_of py KSphere) o' "location" = reads (cls_of py KSphere) o "location".
Proof.
  simpl. unfold setattr; simpl. setter_case; [split; reflexivity|].
  unfold reads, getattr; simpl. unfold get_plain, read, upd; simpl.
  destruct (o "_rho"), (o "_location"); split; reflexivity.
Qed.
Lemma C26_construct_lemma py vr vq vl vm r q l1 l2 l3 m :
  float_ py vr = Ok (Fin r) -> 0 < r -> float_ py vq = Ok (Fin q) -> float_ py vm = Ok (Fin m) ->
  converts_to py (default_loc vl origin) l1 l2 l3 ->
  exists o, init_sphere py "" vr vq vl vm empty_obj = (o, Ok tt) /\
    reads (cls_of py KSphere) o "radius" = Ok (AFlt (Fin r)) /\
    reads (cls_of py KSphere) o "rho" = Ok (AFlt (Fin q)) /\
    reads (cls_of py KSphere) o "mass" = Ok (AFlt (Fin (4 / 3 * PI * r ^ 3 * q))) /\
    reads (cls_of py KSphere) o "location" = Ok (AArr (fin3 l1 l2 l3)).
Proof.
  intros F1 Hr F2 F3 L.
  assert (P := PI_RGT_0).
  assert (N3 : 4 * PI * (r * r * r) <> 0) by (apply nz3; auto; lra).
  assert (E1 : set_float_raw py "_radius" lt0 "" vr empty_obj = (upd empty_obj "_radius" (AFlt (Fin r)), Ok tt)).
  { unfold set_float_raw. sbind. rewrite F1. unfold lt0; simpl. destruct (Rltb r 0) eqn:Z; auto.
    apply Rltb_true in Z; lra. }
  eexists. split.
  - unfold init_sphere. unfold bind at 1. rewrite E1. unfold bind at 1.
    unfold sphere_set_mass at 1; sbind. rewrite F3. simpl (upd _ _ _ _). unfold upd at 1. simpl (String.eqb _ _). cbv beta iota.
    simpl fdiv_py. destruct (Reqb (4 * PI * (r * r * r)) 0) eqn:Z; [apply Reqb_true in Z; contradiction|]. cbv beta iota.
    rewrite (set_vec_ok _ _ _ _ _ _ _ _ L). unfold set_float_raw; sbind. rewrite F2. simpl never. cbv beta iota. reflexivity.
  - unfold reads, getattr; simpl. unfold get_plain, sphere_get_mass; sbind; unfold upd; simpl.
    repeat split. do 3 f_equal. ring.
Qed.
(** a radius the setter accepts but the constructor does not *)
Lemma C26_zero_lemma py vr vq vl vm m :
  float_ py vr = Ok (Fin 0) -> float_ py vm = Ok (Fin m) ->
  snd (init_sphere py "" vr vq vl vm empty_obj) = Raise ZeroDivisionError /\
  forall o, snd (setattr (cls_of py KSphere) "" "radius" vr o) = Ok tt.
Proof.
  intros F M. split.
  - unfold init_sphere, set_float_raw, sphere_set_mass. sbind. rewrite F. unfold lt0. simpl.
    destruct (Rltb 0 0) eqn:Z; [apply Rltb_true in Z; lra|]. rewrite M. unfold upd; simpl.
    destruct (Reqb _ 0) eqn:Z2; [reflexivity|]. apply Reqb_false in Z2. exfalso; apply Z2. ring.
  - intros o. unfold setattr; simpl. unfold set_float_raw. sbind. rewrite F. unfold lt0; simpl.
    destruct (Rltb 0 0) eqn:Z; [apply Rltb_true in Z; lra|]. reflexivity.
Qed.

(** ** C80 *)
Definition oksar_ok (o : obj) : Prop :=
  (exists t, o "_depth_top" = Some (AFlt t) /\ nonneg_or_nan t) /\
  (exists b, o "_depth_bottom" = Some (AFlt b)) /\
  (exists x, o "_strike" = Some (AFlt x) /\ within_or_nan 0 360 x) /\
  (exists x, o "_dip" = Some (AFlt x) /\ within_or_nan 0 90 x) /\
  (exists x, o "_rake" = Some (AFlt x) /\ within_or_nan (-180) 180 x) /\
  (exists x, o "_slip" = Some (AFlt x) /\ nonneg_or_nan x) /\
  (exists x, o "_length" = Some (AFlt x) /\ nonneg_or_nan x).
Lemma oksar_step py a v o : oksar_ok o -> oksar_ok (fst (setattr (cls_of py KOksar) "" a v o)).
Proof.
  intros I. by_attr; try exact I; try setter_case; try exact I; unfold oksar_ok, upd; simpl; try exact I;
  destruct I as (I1&I2&I3&I4&I5&I6&I7); decompose [ex and] P; subst;
  repeat (split; [solve [eauto 8 using flt0_false, outside_false]|]); eauto 8 using flt0_false, outside_false.
Qed.
Lemma oksar_created py o : created py KOksar o -> oksar_ok o /\
  (exists t b, o "_depth_top" = Some (AFlt t) /\ o "_depth_bottom" = Some (AFlt b) /\ flt b t = false).
Proof.
  intros C. inversion C; subst. run_init. dec_all. unfold oksar_ok, upd in *; simpl in *.
  match goal with H : Some (AFlt _) = Some (AFlt _) |- _ => injection H as -> end.
  split; [|eauto 8].
  repeat (split; [solve [eauto 8 using flt0_false, outside_false]|]); eauto 8 using flt0_false, outside_false.
Qed.
Lemma C80_ranges_lemma py o h : created py KOksar o -> wf_history h ->
  let s := run_history (cls_of py KOksar) h o in
  exists top bottom strike dip rake slip length,
    reads (cls_of py KOksar) s "depth_top" = Ok (AFlt top) /\ nonneg_or_nan top /\
    reads (cls_of py KOksar) s "depth_bottom" = Ok (AFlt bottom) /\
    reads (cls_of py KOksar) s "strike" = Ok (AFlt strike) /\ within_or_nan 0 360 strike /\
    reads (cls_of py KOksar) s "dip" = Ok (AFlt dip) /\ within_or_nan 0 90 dip /\
    reads (cls_of py KOksar) s "rake" = Ok (AFlt rake) /\ within_or_nan (-180) 180 rake /\
    reads (cls_of py KOksar) s "slip" = Ok (AFlt slip) /\ nonneg_or_nan slip /\
    reads (cls_of py KOksar) s "length" = Ok (AFlt length) /\ nonneg_or_nan length.
Proof.
  intros C W s.
  assert (I : oksar_ok s).
  { apply history_inv; auto. intros; apply oksar_step; auto. apply (oksar_created py); auto. }
  destruct I as ((x1&E1&P1)&(x2&E2)&(x3&E3&P3)&(x4&E4&P4)&(x5&E5&P5)&(x6&E6&P6)&(x7&E7&P7)).
  clearbody s. exists x1, x2, x3, x4, x5, x6, x7. unfold reads, getattr; simpl.
  rewrite (get_plain_eq _ _ _ E1), (get_plain_eq _ _ _ E2), (get_plain_eq _ _ _ E3), (get_plain_eq _ _ _ E4),
    (get_plain_eq _ _ _ E5), (get_plain_eq _ _ _ E6), (get_plain_eq _ _ _ E7). auto 20.
Qed.
Lemma flt_order b t : nonneg_or_nan t \/ True -> t <> PInf -> t <> NInf -> flt b t = false -> ordered_or_nan t b \/ b = NInf.
Proof.
  unfold ordered_or_nan. intros _ N1 N2. destruct b, t; simpl; intros H; auto 10; try contradiction; try discriminate.
  left. apply Rltb_false in H. right; right; right; eauto.
Qed.
Definition depth_inv (o : obj) : Prop :=
  exists t b, o "_depth_top" = Some (AFlt t) /\ o "_depth_bottom" = Some (AFlt b) /\
     nonneg_or_nan t /\ flt b t = false.
Lemma depth_step py a v o : a <> "depth_top" -> depth_inv o -> depth_inv (fst (setattr (cls_of py KOksar) "" a v o)).
Proof.
  intros N I. by_attr; try exact I; try setter_case; try exact I; unfold depth_inv, upd; simpl; try exact I;
  try (match goal with H : String.eqb "depth_top" _ = true |- _ => apply String.eqb_eq in H; congruence end).
  destruct I as (t&b&E1&E2&P1&P2). destruct P as (b'&t'&F&E3&L&->). simpl in E3. rewrite E1 in E3; injection E3 as <-.
  eauto 10.
Qed.
Lemma C80_order_lemma py o h : created py KOksar o -> wf_history h -> not_assigned "depth_top" h ->
  let s := run_history (cls_of py KOksar) h o in
  exists top bottom,
    reads (cls_of py KOksar) s "depth_top" = Ok (AFlt top) /\
    reads (cls_of py KOksar) s "depth_bottom" = Ok (AFlt bottom) /\
    (ordered_or_nan top bottom).
Proof.
  intros C W NA s.
  assert (I : depth_inv s).
  { apply (history_inv_if _ (fun a _ => a <> "depth_top")); auto.
    - intros; apply depth_step; auto.
    - apply Forall_forall. intros q Hq E. apply NA. rewrite <- E. apply in_map; auto.
    - destruct (oksar_created py o C) as (((t&Et&Pt)&_)&(t'&b&E1&E2&L)).
      rewrite Et in E1; injection E1 as <-. exists t, b; auto. }
  clearbody s. destruct I as (t&b&E1&E2&P&L). exists t, b. unfold reads, getattr; simpl.
  rewrite (get_plain_eq _ _ _ E1), (get_plain_eq _ _ _ E2). repeat split; auto.
  unfold ordered_or_nan. destruct P as [->|[->|(x&->&Hx)]]; auto.
  - destruct b; simpl in L; try discriminate; auto.
  - destruct b; simpl in L; try discriminate; auto 10.
    apply Rltb_false in L. right; right; right; eauto.
Qed.

(** ** C77 *)
Fixpoint meta_kind (l : list (string * conv_kind)) (a : string) : option conv_kind :=
  match l with [] => None | (b, k) :: r => if String.eqb b a then Some k else meta_kind r a end.
Definition set_key (a : string) : string :=
  if String.eqb a "local_rigidity" then "_rigidity" else "_" ++ a.

Lemma conv_float py v o k : fst (set_float py k never "" v o) =
  match convert py CFloat v with Some x => upd o k x | None => o end /\
  (snd (set_float py k never "" v o) = Ok tt <-> convert py CFloat v <> None).
Proof. unfold set_float; sbind; simpl. destruct (float_ py v); simpl; split; auto; split; intros; congruence. Qed.
Lemma conv_str py v o k : fst (set_str py k "" v o) =
  match convert py CStr v with Some x => upd o k x | None => o end /\
  (snd (set_str py k "" v o) = Ok tt <-> convert py CStr v <> None).
Proof. unfold set_str; sbind; simpl. destruct (to_str py v); simpl; split; auto; split; intros; congruence. Qed.
Lemma conv_vec2 py v o k e : fst (set_vec py k [2%nat] e "" v o) =
  match convert py CVec2 v with Some x => upd o k x | None => o end /\
  (snd (set_vec py k [2%nat] e "" v o) = Ok tt <-> convert py CVec2 v <> None).
Proof.
  unfold set_vec; sbind; simpl. destruct (asarray py v); simpl; [|split; auto; split; intros; congruence].
  destruct (shape_is (squeeze a) [2%nat]); simpl; split; auto; split; intros; congruence.
Qed.
Lemma conv_arr py v o : fst (int_set_data py "" v o) =
  match convert py CArray v with Some x => upd o "_data" x | None => o end /\
  (snd (int_set_data py "" v o) = Ok tt <-> convert py CArray v <> None).
Proof. unfold int_set_data; sbind; simpl. destruct (asarray py v); simpl; split; auto; split; intros; congruence. Qed.
Lemma conv_zone py v o : fst (int_set_zone py "" v o) =
  match convert py CInt v with Some x => upd o "_location_UTM_zone" x | None => o end /\
  (snd (int_set_zone py "" v o) = Ok tt <-> convert py CInt v <> None).
Proof. unfold int_set_zone; sbind; simpl. destruct (to_int py v); simpl; split; auto; split; intros; congruence. Qed.
Lemma conv_shape py v o : fst (int_set_shape py "" v o) =
  match convert py CPair v with Some x => upd o "_shape" x | None => o end /\
  (snd (int_set_shape py "" v o) = Ok tt <-> convert py CPair v <> None).
Proof.
  unfold int_set_shape; sbind; simpl. destruct (to_ints py v) as [l|]; simpl; [|split; auto; split; intros; congruence].
  destruct (Nat.eqb (List.length l) 2); simpl; split; auto; split; intros; congruence.
Qed.
Lemma conv_date py v o k : fst (set_date py k "" v o) =
  match convert py CDate v with Some x => upd o k x | None => o end /\
  (snd (set_date py k "" v o) = Ok tt <-> convert py CDate v <> None).
Proof.
  unfold set_date; sbind; simpl. destruct v; simpl;
    try (match goal with |- context [to_date py ?w] => destruct (to_date py w) end);
    simpl; split; auto; split; intros; congruence.
Qed.

Lemma meta_set py b v o :
  fst (setattr (cls_of py KEarthquakeInterferogram) "" b v o) =
  match meta_kind metadata b with
  | Some kd => match convert py kd v with Some x => upd o (set_key b) x | None => o end
  | None => o
  end /\
  (snd (setattr (cls_of py KEarthquakeInterferogram) "" b v o) = Ok tt <->
   match meta_kind metadata b with Some kd => convert py kd v <> None | None => False end).
Proof.
  unfold setattr. cbv [cls_of EarthquakeInterferogram lookup pname str_attr flt_attr metadata meta_kind].
  repeat match goal with
  | |- context [String.eqb ?s b] => destruct (String.eqb_spec s b); [subst b; cbn [pset];
     first [apply conv_float | apply conv_str | apply conv_vec2 | apply conv_arr | apply conv_zone
           | apply conv_shape | apply conv_date]|]
  end.
  simpl. split; auto; split; [discriminate|tauto].
Qed.
Lemma meta_get py a o kd : meta_kind metadata a = Some kd -> a <> "local_rigidity" -> a <> "event_date" ->
  reads (cls_of py KEarthquakeInterferogram) o a =
  match o ("_" ++ a) with Some x => Ok x | None => Raise AttributeError end.
Proof.
  intros K N1 N2. revert K. unfold reads, getattr.
  cbv [cls_of EarthquakeInterferogram lookup pname str_attr flt_attr metadata meta_kind].
  repeat match goal with
  | |- context [String.eqb ?s a] => destruct (String.eqb_spec s a); [subst a; cbn [pget]; intros _;
     first [congruence | unfold get_plain, read; simpl; match goal with |- context [match ?u with _ => _ end] => destruct u end; reflexivity]|]
  end. discriminate.
Qed.
Lemma meta_step py a kd b v o :
  meta_kind metadata a = Some kd -> a <> "local_rigidity" -> a <> "event_date" ->
  reads (cls_of py KEarthquakeInterferogram) (fst (setattr (cls_of py KEarthquakeInterferogram) "" b v o)) a =
  if String.eqb b a then match convert py kd v with Some x => Ok x | None => reads (cls_of py KEarthquakeInterferogram) o a end
  else reads (cls_of py KEarthquakeInterferogram) o a.
Proof.
  intros K N1 N2. rewrite (proj1 (meta_set py b v o)). rewrite !(meta_get py a _ kd K N1 N2).
  destruct (String.eqb_spec b a).
  - subst b. rewrite K. destruct (convert py kd v) as [x|]; [|reflexivity].
    unfold set_key. destruct (String.eqb_spec a "local_rigidity"); [congruence|].
    unfold upd. rewrite String.eqb_refl. reflexivity.
  - destruct (meta_kind metadata b) as [kb|]; [|reflexivity]. destruct (convert py kb v) as [x|]; [|reflexivity].
    unfold upd, set_key.
    destruct (String.eqb_spec ("_" ++ a) (if String.eqb b "local_rigidity" then "_rigidity" else "_" ++ b)) as [E|]; [|reflexivity].
    exfalso. destruct (String.eqb_spec b "local_rigidity").
    + simpl in E. injection E as ->. simpl in K. discriminate.
    + simpl in E. injection E as ->. congruence.
Qed.
Lemma C77_lemma py a kd h o :
  meta_kind metadata a = Some kd -> a <> "local_rigidity" -> a <> "event_date" ->
  reads (cls_of py KEarthquakeInterferogram) (run_history (cls_of py KEarthquakeInterferogram) h o) a =
  last_value py a kd h (reads (cls_of py KEarthquakeInterferogram) o a).
Proof.
  intros K N1 N2. revert o; induction h as [|[b v] h IH]; intros o; simpl; auto.
  rewrite IH. f_equal. apply (meta_step py a kd b v o K N1 N2).
Qed.
Lemma meta_kind_In a k : In (a, k) metadata -> meta_kind metadata a = Some k.
Proof.
  unfold metadata. intros H. simpl in H.
  repeat (destruct H as [H|H]; [injection H as <- <-; reflexivity|]). contradiction.
Qed.
(** local_rigidity can never be read *)
Definition no_lr (o : obj) : Prop := o "_local_rigidity" = None.
Lemma no_lr_step py b v o : no_lr o -> no_lr (fst (setattr (cls_of py KEarthquakeInterferogram) "" b v o)).
Proof.
  intros I. rewrite (proj1 (meta_set py b v o)).
  destruct (meta_kind metadata b) as [kb|] eqn:K; [|exact I]. destruct (convert py kb v) as [x|]; [|exact I].
  unfold no_lr, upd, set_key. destruct (String.eqb_spec b "local_rigidity"); [exact I|].
  destruct (String.eqb_spec "_local_rigidity" ("_" ++ b)) as [E|]; [|exact I].
  simpl in E; injection E as <-. congruence.
Qed.
Lemma no_lr_params py ks args o : no_lr o -> no_lr (fst (set_params py "" ks args o)).
Proof.
  revert o; induction ks as [|k ks IH]; intros o I; simpl; auto. unfold bind.
  pose proof (no_lr_step py k (args k) o I) as S. simpl cls_of in S.
  destruct (setattr _ _ _ _ _) as [o' [u|e]]; simpl in *; auto.
Qed.
Lemma no_lr_kwargs py ks kw o : no_lr o -> no_lr (fst (set_kwargs py "" ks kw o)).
Proof.
  revert o; induction ks as [|k ks IH]; intros o I; simpl; auto. destruct (kw k) as [v|]; auto. unfold bind.
  pose proof (no_lr_step py k v o I) as S. simpl cls_of in S.
  destruct (setattr _ _ _ _ _) as [o' [u|e]]; simpl in *; auto.
Qed.
Lemma C77_local_rigidity_lemma py o h : created py KEarthquakeInterferogram o ->
  reads (cls_of py KEarthquakeInterferogram) (run_history (cls_of py KEarthquakeInterferogram) h o) "local_rigidity"
   = Raise AttributeError.
Proof.
  intros C.
  assert (I0 : no_lr o).
  { inversion C; subst. unfold init_interferogram in *. 
    match goal with H : bind _ _ _ = _ |- _ => unfold bind in H end.
    pose proof (no_lr_params py int_params args empty_obj eq_refl) as S.
    destruct (set_params py "" int_params args empty_obj) as [o1 [u|e]]; simpl in S; [|discriminate].
    pose proof (no_lr_kwargs py int_kwargs kw o1 S) as S2.
    match goal with H : set_kwargs _ _ _ _ _ = _ |- _ => rewrite H in S2 end. exact S2. }
  assert (I : no_lr (run_history (cls_of py KEarthquakeInterferogram) h o)).
  { clear C. revert o I0; induction h as [|[b v] h IH]; intros o I0; simpl; auto.
    apply IH. apply (no_lr_step py b v o I0). }
  set (s := run_history _ h o) in *. clearbody s.
  unfold reads, getattr; simpl. unfold get_plain, read; simpl. rewrite I. reflexivity.
Qed.
