(** Half-space facades in terms of the public readings; concrete objects (witnesses);
    refutations of the attribute properties the code violates. *)
From Coq Require Import Reals Lra Lia List Bool Arith ZArith String.
From Verif Require Import Numpy PyVal Model_Setters Spec_Setters Proof_Setters Proof_Setters2 Proof_Setters3 Proof_Setters4 Proof_Setters5.
Import ListNotations.
Open Scope string_scope.
Open Scope R_scope.

Lemma sync_of_keys py p o c r x y z :
  o (p ++ "_current") = Some (AFlt c) -> o (p ++ "_rho") = Some (AFlt r) ->
  o (p ++ "_location") = Some (AArr (vec3 x y z)) -> hs_keys p o ->
  electrode_in_sync (PointCurrentHalfSpace py) (PointCurrentWholeSpace py) p o c r x y z.
Proof.
  intros HC HR HL K. pose proof K as K0. apply (hs_keys_reads py) in K.
  destruct K as (c'&r'&x'&y'&z'&R1&R2&R3&F&Pr&R4&R5&(r2&R6&R7&Q)&R8&R9).
  assert (E1 : snd (getattr (PointCurrentHalfSpace py) p "current" o) = Ok (AFlt c)).
  { change (snd (get_plain "_current" p o) = Ok (AFlt c)). unfold get_plain, read. rewrite HC. reflexivity. }
  assert (E2 : snd (getattr (PointCurrentHalfSpace py) p "rho" o) = Ok (AFlt r)).
  { change (snd (get_plain "_rho" p o) = Ok (AFlt r)). unfold get_plain, read. rewrite HR. reflexivity. }
  assert (E3 : snd (getattr (PointCurrentHalfSpace py) p "location" o) = Ok (AArr (vec3 x y z))).
  { change (snd (get_plain "_location" p o) = Ok (AArr (vec3 x y z))). unfold get_plain, read. rewrite HL. reflexivity. }
  rewrite E1 in R1; rewrite E2 in R2; rewrite E3 in R3. injection R1 as <-. injection R2 as <-. injection R3 as <- <- <-.
  assert (r <> PInf).
  { destruct K0 as (_&(r0&s&A1&_&_&_&Ps&Rc)&_). rewrite HR in A1. injection A1 as <-. intros ->.
    simpl in Rc. subst s. destruct Ps as [|[|(t&T&H)]]; try discriminate. injection T as <-. lra. }
  specialize (Q H). subst r2. unfold electrode_in_sync.
  repeat (split; [assumption|]). intros sub zz [[-> ->]|[-> ->]]; auto.
Qed.

Lemma C50_sync_reads py o h : created py KPointCurrentHalfSpace o -> wf_history h ->
  Forall (fun q => hs_value_ok py (fst q) (snd q)) h ->
  exists c r x y z, electrode_in_sync (PointCurrentHalfSpace py) (PointCurrentWholeSpace py) ""
     (run_history (PointCurrentHalfSpace py) h o) c r x y z.
Proof.
  intros C W F. pose proof (C50_sync_lemma py o h C W F) as K.
  change (cls_of py KPointCurrentHalfSpace) with (PointCurrentHalfSpace py) in K.
  set (s := run_history _ h o) in *. clearbody s.
  pose proof K as ((c&H1&_)&(r&q&H2&_)&(x&y&z&H3&_)).
  exists c, r, x, y, z. apply sync_of_keys; auto.
Qed.
Lemma C50_dipole_sync_reads py o h : created py KDipoleHalfSpace o -> wf_history h ->
  Forall (fun q => hs_value_ok py (fst q) (snd q)) h ->
  let s := run_history (DipoleHalfSpace py) h o in
  exists c r xa ya za xb yb zb,
    reads (DipoleHalfSpace py) s "current" = Ok (AFlt c) /\ reads (DipoleHalfSpace py) s "rho" = Ok (AFlt r) /\
    reads (DipoleHalfSpace py) s "location_a" = Ok (AArr (vec3 xa ya za)) /\
    reads (DipoleHalfSpace py) s "location_b" = Ok (AArr (vec3 xb yb zb)) /\
    electrode_in_sync (PointCurrentHalfSpace py) (PointCurrentWholeSpace py) "_a." s c r xa ya za /\
    electrode_in_sync (PointCurrentHalfSpace py) (PointCurrentWholeSpace py) "_b." s c r xb yb zb.
Proof.
  intros C W F. pose proof (C50_dipole_sync_lemma py o h C W F) as K. cbv zeta.
  change (cls_of py KDipoleHalfSpace) with (DipoleHalfSpace py) in K.
  set (s := run_history _ h o) in *. clearbody s.
  destruct K as (Ka&Kb&(c&C1&C2&C3)&(r&R1&R2&R3)&(la&A1&A2)&(lb&B1&B2)).
  pose proof Ka as (_&_&(xa&ya&za&A3&_)). pose proof Kb as (_&_&(xb&yb&zb&B3&_)).
  simpl in A3, B3. rewrite A2 in A3; injection A3 as ->. rewrite B2 in B3; injection B3 as ->.
  exists c, r, xa, ya, za, xb, yb, zb.
  split; [change (snd (get_plain "_current" "" s) = Ok (AFlt c)); unfold get_plain, read; simpl; rewrite C1; reflexivity|].
  split; [change (snd (get_plain "_rho" "" s) = Ok (AFlt r)); unfold get_plain, read; simpl; rewrite R1; reflexivity|].
  split; [change (snd (get_plain "_location_a" "" s) = Ok (AArr (vec3 xa ya za))); unfold get_plain, read; simpl; rewrite A1; reflexivity|].
  split; [change (snd (get_plain "_location_b" "" s) = Ok (AArr (vec3 xb yb zb))); unfold get_plain, read; simpl; rewrite B1; reflexivity|].
  split; apply sync_of_keys; auto.
Qed.

(** ** Concrete objects *)
Lemma Rleb_t a b : a <= b -> Rleb a b = true.
Proof. intros; destruct (Rleb a b) eqn:E; auto. apply Rleb_false in E; lra. Qed.
Lemma Rleb_f a b : b < a -> Rleb a b = false.
Proof. intros; destruct (Rleb a b) eqn:E; auto. apply Rleb_true in E; lra. Qed.
Lemma Rltb_t a b : a < b -> Rltb a b = true.
Proof. intros; destruct (Rltb a b) eqn:E; auto. apply Rltb_false in E; lra. Qed.
Lemma Rltb_f a b : b <= a -> Rltb a b = false.
Proof. intros; destruct (Rltb a b) eqn:E; auto. apply Rltb_true in E; lra. Qed.
Lemma Reqb_t (a b : R) : a = b -> Reqb a b = true.
Proof. intros; destruct (Reqb a b) eqn:E; auto. apply Reqb_false in E; lra. Qed.
Lemma Reqb_f (a b : R) : a <> b -> Reqb a b = false.
Proof. intros; destruct (Reqb a b) eqn:E; auto. apply Reqb_true in E; lra. Qed.
Lemma mu0_pos : 0 < c_mu0. Proof. unfold c_mu0. pose proof PI_RGT_0. lra. Qed.
Lemma eps0_pos : 0 < c_eps0. Proof. unfold c_eps0. lra. Qed.
Ltac rdec := match goal with
  | |- context [Rleb ?a ?b] => first [rewrite (Rleb_t a b) by lra | rewrite (Rleb_f a b) by lra]
  | |- context [Rltb ?a ?b] => first [rewrite (Rltb_t a b) by lra | rewrite (Rltb_f a b) by lra]
  | |- context [Reqb ?a ?b] => first [rewrite (Reqb_f a b) by lra | rewrite (Reqb_t a b) by lra]
  end.
Ltac rcompute := pose proof mu0_pos; pose proof eps0_pos; simpl; repeat (rdec; simpl); try reflexivity.

Ltac umonad := cbv [bind try_raise lift check ret write read read_flt read_arr].
Ltac uinit := unfold init_hs, init_dhs, init_pcws, init_linews, init_line, init_em, em_set_sigma, em_set_mu, em_set_epsilon,
   em_set_rho, set_float, set_float_raw, set_len3, set_vec, line_set_nodes, hs_set_current, hs_set_rho, hs_set_location, pc_set_location,
   dhs_set_current, dhs_set_rho, dhs_set_loc,
   init_prism, init_gprism, init_essphere, init_oksar, ok_set_depth_bottom, ok_set_shape, init_mssphere, init_dipole, dip_set_location, dip_set_orientation, init_sphere, sphere_set_mass.
Ltac ev := uinit; umonad; rcompute; repeat (progress (rewrite ?pcw_rho, ?pcw_location, ?pcw_current, ?hsp_rho, ?hsp_current, ?hsp_location; uinit; umonad); rcompute).

Lemma electrode_exists py : exists o, created py KPointCurrentHalfSpace o /\
  reads (PointCurrentHalfSpace py) o "rho" = Ok (AFlt (Fin 1)) /\
  reads (PointCurrentHalfSpace py) o "location" = Ok (AArr origin) /\
  (exists s, setattr (PointCurrentHalfSpace py) "" "rho" (PNum PInf) o = (s, Raise ValueError) /\
     reads (PointCurrentHalfSpace py) s "rho" = Ok (AFlt PInf) /\
     snd (getattr (PointCurrentWholeSpace py) "_primary." "rho" s) = Ok (AFlt (Fin 1))) /\
  (exists s, setattr (PointCurrentHalfSpace py) "" "location" (PArr (mkarr [3%nat; 1%nat] [Fin 0; Fin 0; Fin (-1)])) o = (s, Raise ValueError) /\
     reads (PointCurrentHalfSpace py) s "location" = Ok (AArr (mkarr [3%nat; 1%nat] [Fin 0; Fin 0; Fin (-1)])) /\
     snd (getattr (PointCurrentWholeSpace py) "_primary." "location" s) = Ok (AArr origin)).
Proof.
  eexists. split; [|split; [|split; [|split]]].
  - eapply (mk_PointCurrentHalfSpace _ (PNum (Fin 1)) (PNum (Fin 1)) PNone).
    + repeat constructor.
    + ev.
  - reflexivity.
  - reflexivity.
  - eexists. split; [|split]. rewrite hsp_rho. ev. reflexivity.
    match goal with |- snd (getattr _ _ _ ?s) = _ => change (snd (em_get_rho "_primary." s) = Ok (AFlt (Fin 1))) end.
    unfold em_get_rho. umonad. rcompute. do 3 f_equal; field.
  - eexists. split; [|split]. rewrite hsp_location. ev. reflexivity. reflexivity.
Qed.
Lemma dipole_electrode_exists py : exists o, created py KDipoleHalfSpace o /\
  reads (DipoleHalfSpace py) o "rho" = Ok (AFlt (Fin 1)) /\
  (exists s, setattr (DipoleHalfSpace py) "" "rho" (PNum PInf) o = (s, Raise ValueError) /\
     reads (DipoleHalfSpace py) s "rho" = Ok (AFlt PInf)).
Proof.
  eexists. split; [|split].
  - eapply (mk_DipoleHalfSpace _ (PNum (Fin 1)) PNone PNone (PNum (Fin 1))).
    + repeat constructor.
    + ev.
  - reflexivity.
  - eexists. split. change (setattr (DipoleHalfSpace py) "" "rho" (PNum PInf)) with (dhs_set_rho py "" (PNum PInf)). ev. reflexivity.
Qed.

Lemma vector_attribute_key k a : vector_attribute k a -> exists key, vec_key k a = Some key.
Proof.
  intros [[H [-> | ->]]|[[H ->]|[[H [-> | ->]]|[-> ->]]]]; [simpl in H; intuition; subst; eexists; reflexivity..|eexists; reflexivity].
Qed.

(** ** More concrete objects *)
Definition pt (x y z : R) : pyval := PArr (fin3 x y z).
Lemma em_exists py : exists o, created py KBaseEM o /\ reads (BaseEM py) o "sigma" = Ok (AFlt (Fin 2)).
Proof.
  eexists. split.
  - eapply (mk_BaseEM _ (PNum (Fin 2)) (PNum (Fin c_mu0)) (PNum (Fin c_eps0))); [repeat constructor|ev].
  - reflexivity.
Qed.
Lemma dipole_exists py : exists o, created py KMagneticDipoleWholeSpace o /\
  reads (MagneticDipoleWholeSpace py) o "orientation" = Ok (AArr (fin3 0 0 1)).
Proof.
  eexists. split.
  - eapply (mk_MagneticDipoleWholeSpace _ (PNum (Fin 2)) (PNum (Fin c_mu0)) (PNum (Fin c_eps0)) (PNum (Fin 1)) (pt 1 2 3) (PStr "z"));
      [repeat constructor|unfold init_mdws, init_mdipole; ev].
  - reflexivity.
Qed.
Lemma line_exists py : exists o, created py KLineCurrentWholeSpace o /\
  reads (LineCurrentWholeSpace py) o "n_segments" = Ok (AInt 1).
Proof.
  eexists. split.
  - eapply (mk_LineCurrentWholeSpace _ (PArr (mkarr [2%nat; 3%nat] [Fin 0; Fin 0; Fin 0; Fin 1; Fin 0; Fin 0])) (PNum (Fin 1)) (PNum (Fin 2)) (PNum (Fin c_mu0)) (PNum (Fin c_eps0)));
      [repeat constructor|ev].
  - reflexivity.
Qed.
(** no check on the number of nodes: an empty node list is accepted, and then a point
    electrode has no location *)
Lemma no_nodes py : exists o, created py KPointCurrentWholeSpace o /\
  snd (setattr (PointCurrentWholeSpace py) "" "nodes" (PArr (mkarr [0%nat; 3%nat] [])) o) = Ok tt /\
  reads (PointCurrentWholeSpace py) (fst (setattr (PointCurrentWholeSpace py) "" "nodes" (PArr (mkarr [0%nat; 3%nat] [])) o)) "location"
    = Raise IndexError /\
  reads (PointCurrentWholeSpace py) (fst (setattr (PointCurrentWholeSpace py) "" "nodes" (PArr (mkarr [0%nat; 3%nat] [])) o)) "n_segments"
    = Ok (AInt (-1)).
Proof.
  eexists. split; [|repeat split].
  - eapply (mk_PointCurrentWholeSpace _ (PNum (Fin 1)) (PNum (Fin 1)) PNone); [repeat constructor|ev].
Qed.

Lemma prism_flips py : exists o, created py KBasePrism o /\
  snd (setattr (BasePrism py) "" "max_location" (pt (-1) 1 1) o) = Ok tt /\
  let s := fst (setattr (BasePrism py) "" "max_location" (pt (-1) 1 1) o) in
  reads (BasePrism py) s "min_location" = Ok (AArr (fin3 0 0 0)) /\
  reads (BasePrism py) s "max_location" = Ok (AArr (fin3 (-1) 1 1)) /\
  exists v, reads (BasePrism py) s "volume" = Ok (AFlt (Fin v)) /\ v < 0.
Proof.
  eexists. split; [|split; [|split; [|split]]].
  - eapply (mk_BasePrism _ (pt 0 0 0) (pt 1 1 1)); [repeat constructor|ev].
  - reflexivity.
  - reflexivity.
  - reflexivity.
  - eexists. split; [reflexivity|]. simpl. lra.
Qed.
Lemma prism_nan py : exists o, created py KBasePrism o /\
  reads (BasePrism py) o "min_location" = Ok (AArr (fin3 0 0 0)) /\
  reads (BasePrism py) o "max_location" = Ok (AArr (vec3 NaN (Fin 1) (Fin 1))).
Proof.
  eexists. split; [|split].
  - eapply (mk_BasePrism _ (pt 0 0 0) (PArr (vec3 NaN (Fin 1) (Fin 1)))); [repeat constructor|ev].
  - reflexivity.
  - reflexivity.
Qed.
Lemma sphere_exists py : exists o, created py KSphere o /\ reads (Sphere py) o "radius" = Ok (AFlt (Fin 2)).
Proof.
  eexists. split.
  - eapply (mk_Sphere _ (PNum (Fin 2)) (PNum (Fin 1)) (pt 0 0 0) (PNum (Fin 1))); [repeat constructor|].
    pose proof PI_RGT_0. ev.
  - reflexivity.
Qed.
Definition grid32 : arr := mkarr [3%nat; 2%nat] [Fin 0; Fin 0; Fin 0; Fin 0; Fin 0; Fin 0].
Lemma es_sphere_wide py : exists o, created py KElectrostaticSphere o /\
  snd (setattr (ElectrostaticSphere py) "" "location" (PArr grid32) o) = Ok tt /\
  reads (ElectrostaticSphere py) (fst (setattr (ElectrostaticSphere py) "" "location" (PArr grid32) o)) "location" = Ok (AArr grid32).
Proof.
  eexists. split; [|split].
  - eapply (mk_ElectrostaticSphere _ (PNum (Fin 2)) (PNum (Fin 1)) (PNum (Fin 1)) PNone PNone); [repeat constructor|ev].
  - reflexivity.
  - reflexivity.
Qed.
Lemma plane_wave_string py o :
  snd (setattr (HarmonicPlaneWave py) "" "orientation" (PStr "Z") o) = Ok tt /\
  reads (HarmonicPlaneWave py) (fst (setattr (HarmonicPlaneWave py) "" "orientation" (PStr "Z") o)) "orientation" = Ok (AStr "Z").
Proof. split; reflexivity. Qed.
Lemma plane_wave_exists py : exists o, created py KHarmonicPlaneWave o.
Proof.
  eexists. eapply (mk_HarmonicPlaneWave _ (PNum (Fin 1)) (PStr "X") (PNum (Fin 1)) PNone (PNum (Fin 1)) (PNum (Fin 1)) (PNum (Fin 1)));
    [repeat constructor|unfold init_hpw, pw_set_orientation, init_fdem, set_samples, set_quasistatic; ev].
Qed.
Definition two (x y : R) : pyval := PArr (mkarr [2%nat] [Fin x; Fin y]).
Lemma oksar_exists py n m : to_ints py (PSeq (Ok (mkarr [2%nat] [Fin 1; Fin 1]))) = Ok [n; m] -> exists o, created py KOksar o /\
  reads (Oksar py) o "depth_bottom" = Ok (AFlt (Fin 5)) /\
  snd (setattr (Oksar py) "" "depth_top" (PNum (Fin 6)) o) = Ok tt /\
  let s := fst (setattr (Oksar py) "" "depth_top" (PNum (Fin 6)) o) in
  reads (Oksar py) s "depth_top" = Ok (AFlt (Fin 6)) /\ reads (Oksar py) s "depth_bottom" = Ok (AFlt (Fin 5)).
Proof.
  intros T.
  assert (D : forall o, setattr (Oksar py) "" "depth_top" (PNum (Fin 6)) o = (upd o "_depth_top" (AFlt (Fin 6)), Ok tt)).
  { intros o. change (set_float py "_depth_top" lt0 "" (PNum (Fin 6)) o = (upd o "_depth_top" (AFlt (Fin 6)), Ok tt)).
    unfold set_float, lt0. ev. }
  eexists. split; [|split; [|split; [|split]]].
  - eapply (mk_Oksar _ (two 0 0) (two 1 0) (two 0 1) (two 0 0) (PNum (Fin 1)) (PNum (Fin 5)) (PNum (Fin 10)) (PNum (Fin 45)) (PNum (Fin 0))
       (PNum (Fin 1)) (PNum (Fin 1)) (PNum (Fin 1)) (PNum (Fin 1)) (PSeq (Ok (mkarr [2%nat] [Fin 1; Fin 1])))); [repeat constructor|].
    ev. rewrite T. unfold never, outside_rng. ev.
  - reflexivity.
  - rewrite D; reflexivity.
  - rewrite D; reflexivity.
  - rewrite D; reflexivity.
Qed.
Lemma C36_spec_lemma py k a o h : vector_attribute k a -> created py k o -> wf_history h ->
  exists x y z, reads (cls_of py k) (run_history (cls_of py k) h o) a = Ok (AArr (vec3 x y z)).
Proof. intros V C W. destruct (vector_attribute_key k a V) as (key&E). eapply C36_lemma; eauto. Qed.
Lemma hs_history_ok py : 
  Forall (fun q => hs_value_ok py (fst q) (snd q))
    [("rho", PNum (Fin 5)); ("location", pt 1 2 (-3)); ("rho", PNum (Fin (-1)))].
Proof.
  repeat (apply Forall_cons; [split; simpl; intros; try discriminate; try congruence|]); [|constructor].
  match goal with E : Ok _ = Ok _ |- _ => injection E as <- end. simpl. auto.
Qed.
Lemma C77_event_date_lemma py o d : 
  snd (setattr (cls_of py KEarthquakeInterferogram) "" "event_date" (PDate d) o) = Ok tt /\
  reads (cls_of py KEarthquakeInterferogram) (fst (setattr (cls_of py KEarthquakeInterferogram) "" "event_date" (PDate d) o)) "event_date"
  = reads (cls_of py KEarthquakeInterferogram) o "processed_date".
Proof.
  split; [reflexivity|]. unfold reads, getattr, setattr; simpl. unfold get_plain, read, upd; simpl.
  destruct (o "_processed_date"); reflexivity.
Qed.
