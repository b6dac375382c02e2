From Coq Require Import Reals Lra Lia List Bool Arith ZArith Ascii String.
From Verif Require Import Numpy PyVal Spec_Setters Model_Setters Proof_Setters Proof_Setters2 Proof_Setters3 Proof_Setters4.
Import ListNotations.
Open Scope string_scope.
Open Scope R_scope.

(** ** The half-space facades *)
(** "the source named p stores current c, resistivity r, location (x,y,z) consistently" *)
Definition hs_keys (p : string) (o : obj) : Prop :=
  (exists c, o (p ++ "_current") = Some (AFlt c) /\ o (p ++ "_primary._current") = Some (AFlt c) /\
             o (p ++ "_image._current") = Some (AFlt c)) /\
  (exists r s, o (p ++ "_rho") = Some (AFlt r) /\ o (p ++ "_primary._sigma") = Some (AFlt s) /\
             o (p ++ "_image._sigma") = Some (AFlt s) /\ positive_or_nan r /\ positive_or_nan s /\ reciprocal r s) /\
  (exists x y z, o (p ++ "_location") = Some (AArr (vec3 x y z)) /\
             o (p ++ "_primary._nodes") = Some (AArr (mkarr [1%nat; 3%nat] [x; y; z])) /\
             o (p ++ "_image._nodes") = Some (AArr (mkarr [1%nat; 3%nat] [x; y; fneg z])) /\
             flt (Fin 0) z = false).

Lemma le0_pos x : positive_or_nan x -> le0 x = false.
Proof.
  intros [->|[->|(r&->&H)]]; unfold le0; simpl; auto. apply Rleb_false; auto.
Qed.
(** a resistivity that the facade and its sources both accept *)
Lemma recip_good r : positive_or_nan r -> r <> PInf ->
  exists s, fdiv_py (Fin 1) r = Ok s /\ positive_or_nan s /\ reciprocal r s.
Proof.
  intros H N. destruct (recip_ok r H) as (s&E&Q). exists s; repeat split; auto.
  destruct H as [->|[->|(x&->&Hx)]]; simpl in Q; [left; auto|congruence|].
  destruct Q as [_ ->]. right; right. eexists; split; eauto. apply Rdiv_lt_0_compat; lra.
Qed.

Lemma pcw_rho py p v : setattr (PointCurrentWholeSpace py) p "rho" v = em_set_rho py p v.
Proof. reflexivity. Qed.
Lemma pcw_current py p v : setattr (PointCurrentWholeSpace py) p "current" v = set_float py "_current" never p v.
Proof. reflexivity. Qed.
Lemma pcw_location py p v : setattr (PointCurrentWholeSpace py) p "location" v = pc_set_location py p v.
Proof. reflexivity. Qed.

(** *** closed forms of the three setters, for a given prefix *)
Lemma hs_current_eq py p v o :
  hs_set_current py p v o =
  match float_ py v with
  | Ok x => (upd (upd (upd o (p ++ "_current") (AFlt x)) (prim p ++ "_current") (AFlt x))
                 (imag p ++ "_current") (AFlt x), Ok tt)
  | Raise _ => (o, Raise TypeError)
  end.
Proof.
  unfold hs_set_current; sbind.
  destruct (float_ py v) as [x|]; reflexivity.
Qed.
Lemma hs_rho_eq py p v o :
  hs_set_rho py p v o =
  match float_ py v with
  | Ok x => if le0 x then (o, Raise ValueError) else
      match fdiv_py (Fin 1) x with
      | Ok s => if le0 s then (upd o (p ++ "_rho") (AFlt x), Raise ValueError) else
           (upd (upd (upd o (p ++ "_rho") (AFlt x)) (prim p ++ "_sigma") (AFlt s))
                 (imag p ++ "_sigma") (AFlt s), Ok tt)
      | Raise e => (upd o (p ++ "_rho") (AFlt x), Raise e)
      end
  | Raise _ => (o, Raise TypeError)
  end.
Proof.
  unfold hs_set_rho; sbind.
  destruct (float_ py v) as [x|]; [|reflexivity].
  destruct (le0 x); [reflexivity|]. rewrite !pcw_rho.
  unfold em_set_rho, em_set_sigma, set_float; sbind. simpl float_. cbv beta iota.
  destruct (fdiv_py (Fin 1) x) as [s|e]; [|reflexivity]. simpl float_. cbv beta iota.
  destruct (le0 s); reflexivity.
Qed.

Ltac keyred := cbv [prim imag suba subb String.append upd String.eqb Ascii.eqb Bool.eqb] in *.

Lemma pc_loc_eq py p (a : arr) x y z n1 n2 n3 o :
  a = vec3 x y z ->
  o (p ++ "_nodes") = Some (AArr (mkarr [1%nat; 3%nat] [n1; n2; n3])) ->
  pc_set_location py p (PArr a) o = (upd o (p ++ "_nodes") (AArr (mkarr [1%nat; 3%nat] [x; y; z])), Ok tt).
Proof.
  intros -> E. unfold pc_set_location. sbind. simpl. rewrite E. reflexivity.
Qed.

(** the value as the facade sees it: 1-d arrays of length 3 *)
Lemma loc_shape py v a : wf_val v -> asarray py v = Ok a -> (ndim a <= 1)%nat -> alen (atleast_1d a) = 3%nat ->
  exists x y z, atleast_1d a = vec3 x y z.
Proof.
  intros W E N L. pose proof (asarray_wf _ _ _ W E) as WF.
  destruct a as [s d]; unfold ndim, wf_arr, alen, atleast_1d in *; simpl in *.
  destruct s as [|n [|]]; simpl in *; try lia. subst n. simpl in WF.
  destruct d as [|x [|y [|z [|]]]]; simpl in WF; try lia. exists x, y, z; reflexivity.
Qed.

Lemma hs_loc_good py p v a x y z o :
  asarray py v = Ok a -> atleast_1d a = vec3 x y z ->
  (exists n1 n2 n3, o (prim p ++ "_nodes") = Some (AArr (mkarr [1%nat; 3%nat] [n1; n2; n3]))) ->
  (exists n1 n2 n3, o (imag p ++ "_nodes") = Some (AArr (mkarr [1%nat; 3%nat] [n1; n2; n3]))) ->
  (p ++ "_location" <> prim p ++ "_nodes") -> (p ++ "_location" <> imag p ++ "_nodes") ->
  (prim p ++ "_nodes" <> imag p ++ "_nodes") ->
  hs_set_location py p v o =
  if flt (Fin 0) z then (o, Raise ValueError) else
   (upd (upd (upd o (p ++ "_location") (AArr (vec3 x y z)))
     (prim p ++ "_nodes") (AArr (mkarr [1%nat; 3%nat] [x; y; z])))
     (imag p ++ "_nodes") (AArr (mkarr [1%nat; 3%nat] [x; y; fneg z])), Ok tt).
Proof.
  intros A E (n1&n2&n3&P1) (m1&m2&m3&P2) D1 D2 D3. unfold hs_set_location, atleast_1d_float.
  unfold bind at 1, try_raise at 1, lift at 1. rewrite A. unfold rmap. rewrite E.
  unfold bind at 1, check at 1. change (negb (Nat.eqb (alen (vec3 x y z)) 3)) with false. unfold ret at 1.
  unfold bind at 1, check at 1. change (existsb (fun z0 : fl => flt (Fin 0) z0) (last_axis_last (vec3 x y z))) with (flt (Fin 0) z || false)%bool.
  destruct (flt (Fin 0) z) eqn:F; [reflexivity|].
  change (false || false)%bool with false. cbv beta iota. unfold ret at 1. unfold bind at 1, write at 1.
  unfold bind at 1. rewrite !pcw_location. cbv beta iota. rewrite (pc_loc_eq py (prim p) _ x y z n1 n2 n3); auto.
  2:{ unfold upd. destruct (String.eqb_spec (prim p ++ "_nodes") (p ++ "_location")); [congruence|auto]. }
  rewrite (pc_loc_eq py (imag p) _ x y (fneg z) m1 m2 m3); auto.
  unfold upd. destruct (String.eqb_spec (imag p ++ "_nodes") (prim p ++ "_nodes")); [congruence|].
  destruct (String.eqb_spec (imag p ++ "_nodes") (p ++ "_location")); [congruence|auto].
Qed.

Lemma append_inj p a b : p ++ a = p ++ b -> a = b.
Proof. induction p; simpl; auto. injection 1; auto. Qed.
Lemma append_assoc p a b : (p ++ a) ++ b = p ++ (a ++ b).
Proof. induction p; simpl; congruence. Qed.
Lemma hs_distinct p : (p ++ "_location" <> prim p ++ "_nodes") /\ (p ++ "_location" <> imag p ++ "_nodes") /\
  (prim p ++ "_nodes" <> imag p ++ "_nodes").
Proof.
  unfold prim, imag. rewrite !append_assoc. repeat split; intros H; apply append_inj in H; discriminate.
Qed.

Lemma hs_loc_cases py p v o : wf_val v -> (forall a, asarray py v = Ok a -> (ndim a <= 1)%nat) -> hs_keys p o ->
  (exists e, hs_set_location py p v o = (o, Raise e)) \/
  (exists x y z a, asarray py v = Ok a /\ atleast_1d a = vec3 x y z /\ flt (Fin 0) z = false /\
    hs_set_location py p v o = 
    (upd (upd (upd o (p ++ "_location") (AArr (vec3 x y z)))
     (prim p ++ "_nodes") (AArr (mkarr [1%nat; 3%nat] [x; y; z])))
     (imag p ++ "_nodes") (AArr (mkarr [1%nat; 3%nat] [x; y; fneg z])), Ok tt)).
Proof.
  intros W N (_&_&(x0&y0&z0&_&K2&K3&_)).
  destruct (asarray py v) as [a|e] eqn:A.
  2:{ left. unfold hs_set_location, atleast_1d_float; sbind. rewrite A. simpl. eauto. }
  destruct (Nat.eq_dec (alen (atleast_1d a)) 3) as [L|L].
  - destruct (loc_shape py v a W A (N a eq_refl) L) as (x&y&z&E).
    destruct (hs_distinct p) as (D1&D2&D3).
    rewrite (hs_loc_good py p v a x y z o A E); auto.
    + destruct (flt (Fin 0) z) eqn:F; [left; eauto|right]. exists x, y, z, a; auto.
    + unfold prim; rewrite append_assoc; eauto.
    + unfold imag; rewrite append_assoc; eauto.
  - left. unfold hs_set_location, atleast_1d_float; sbind. rewrite A. simpl.
    apply Nat.eqb_neq in L. rewrite L. simpl. eauto.
Qed.

Lemma keys_lookup p a b (v : aval) o : upd o (p ++ a) v (p ++ b) = if String.eqb b a then Some v else o (p ++ b).
Proof.
  unfold upd. destruct (String.eqb_spec (p ++ b) (p ++ a)) as [E|E]; destruct (String.eqb_spec b a) as [E2|E2]; auto.
  - apply append_inj in E; contradiction.
  - subst; contradiction.
Qed.

Ltac keys_simpl := unfold prim, imag, hs_keys; rewrite ?append_assoc; rewrite !keys_lookup; simpl.

Lemma hs_current_keys py p v o : hs_keys p o -> hs_keys p (fst (hs_set_current py p v o)).
Proof.
  intros I. rewrite hs_current_eq. destruct (float_ py v) as [x|]; [|exact I].
  destruct I as (I1&I2&I3). simpl fst. keys_simpl. eauto 10.
Qed.
Lemma hs_rho_keys py p v o : float_ py v <> Ok PInf -> hs_keys p o -> hs_keys p (fst (hs_set_rho py p v o)).
Proof.
  intros N I. rewrite hs_rho_eq. destruct (float_ py v) as [x|]; [|exact I].
  destruct (le0 x) eqn:L; [exact I|]. apply fle0_false in L.
  destruct (recip_good x L) as (s&E&Ps&Q); [congruence|]. rewrite E, (le0_pos s Ps).
  destruct I as (I1&I2&I3). simpl fst. keys_simpl. split; [eauto 10|]. split; [|eauto 10]. exists x, s. auto 10.
Qed.
Lemma hs_location_keys py p v o : wf_val v -> (forall a, asarray py v = Ok a -> (ndim a <= 1)%nat) ->
  hs_keys p o -> hs_keys p (fst (hs_set_location py p v o)).
Proof.
  intros W N I. destruct (hs_loc_cases py p v o W N I) as [[e ->]|(x&y&z&a&A&E&F&->)]; [exact I|].
  destruct I as (I1&I2&I3). simpl fst. keys_simpl. split; [eauto 10|]. split; [eauto 12|]. exists x, y, z; auto.
Qed.

Lemma hs_step py a v o : wf_val v -> hs_value_ok py a v -> hs_keys "" o ->
  hs_keys "" (fst (setattr (cls_of py KPointCurrentHalfSpace) "" a v o)).
Proof.
  intros W (Q1&Q2) I. unfold setattr. cbv [cls_of PointCurrentHalfSpace lookup pname].
  destruct (String.eqb_spec "current" a); [subst; apply hs_current_keys; auto|].
  destruct (String.eqb_spec "rho" a); [subst; apply hs_rho_keys; auto|].
  destruct (String.eqb_spec "location" a); [subst; apply hs_location_keys; auto|exact I].
Qed.

(** construction: the two sources start at the origin *)
Lemma init_pcws_origin py p rho o o' :
  init_pcws py p rho (PNum (Fin 1)) PNone o = (o', Ok tt) ->
  exists s rv, one_over py rho = Ok rv /\ float_ py rv = Ok s /\ le0 s = false /\
  o' = upd (upd (upd (upd (upd o (p ++ "_nodes") (AArr (mkarr [1%nat;3%nat] [Fin 0; Fin 0; Fin 0])))
        (p ++ "_current") (AFlt (Fin 1))) (p ++ "_sigma") (AFlt s)) (p ++ "_mu") (AFlt (Fin c_mu0)))
        (p ++ "_epsilon") (AFlt (Fin c_eps0)).
Proof.
  intros H. run_init. dec_all. simpl in *.
  repeat match goal with H : Ok _ = Ok _ |- _ => injection H as <- end.
  eexists; eexists; repeat split; eauto.
Qed.

Lemma hs_loc_ok_inv py p v o o' : wf_val v ->
  (exists n1 n2 n3, o (p ++ "_primary._nodes") = Some (AArr (mkarr [1%nat; 3%nat] [n1; n2; n3]))) ->
  (exists n1 n2 n3, o (p ++ "_image._nodes") = Some (AArr (mkarr [1%nat; 3%nat] [n1; n2; n3]))) ->
  hs_set_location py p v o = (o', Ok tt) ->
  exists x y z, (exists a, asarray py v = Ok a /\ atleast_1d a = vec3 x y z) /\ flt (Fin 0) z = false /\ o' =
    upd (upd (upd o (p ++ "_location") (AArr (vec3 x y z)))
     (prim p ++ "_nodes") (AArr (mkarr [1%nat; 3%nat] [x; y; z])))
     (imag p ++ "_nodes") (AArr (mkarr [1%nat; 3%nat] [x; y; fneg z])).
Proof.
  intros W N1 N2 H. pose proof H as H0.
  unfold hs_set_location, atleast_1d_float in H.
  apply bind_inv in H; destruct H as (o1&a1&H1&H).
  unfold try_raise, lift in H1. destruct (asarray py v) as [a|] eqn:A; [|discriminate].
  simpl in H1. injection H1 as <- <-.
  apply bind_inv in H; destruct H as (o2&[]&H2&H). apply check_inv in H2. destruct H2 as [-> L].
  apply bind_inv in H; destruct H as (o3&[]&H3&H). apply check_inv in H3. destruct H3 as [-> _].
  apply bind_inv in H; destruct H as (o4&u&H4&H). unfold write in H4. injection H4 as <- <-.
  apply bind_inv in H; destruct H as (o5&u&H5&H). rewrite pcw_location in H5.
  apply (upd_setter_inv _ _ _ _ _ _ _ (pc_set_location_cases _ _)) in H5. destruct H5 as (x&(a2&nodes&A2&S2&_)&_).
  simpl in A2. injection A2 as <-.
  apply negb_false_iff, Nat.eqb_eq in L.
  assert (S : ashape (atleast_1d a) = [3%nat]).
  { revert S2. generalize (atleast_1d a) as b. intros b. unfold atleast_1d. destruct (ashape b) eqn:E; simpl; intros; [discriminate|congruence]. }
  assert (ND : (ndim a <= 1)%nat).
  { clear - S. unfold atleast_1d in S. unfold ndim. destruct (ashape a) as [|n [|]] eqn:E; simpl; try lia. congruence. }
  destruct (loc_shape py v a W A ND L) as (x1&y1&z1&E).
  destruct (hs_distinct p) as (D1&D2&D3).
  rewrite (hs_loc_good py p v a x1 y1 z1 o A E) in H0; auto.
  - destruct (flt (Fin 0) z1) eqn:F; [discriminate|]. injection H0 as <-. exists x1, y1, z1; eauto.
  - unfold prim; rewrite append_assoc; auto.
  - unfold imag; rewrite append_assoc; auto.
Qed.

Lemma hs_init py p rho current location o o' : wf_val location ->
  init_hs py p rho current location o = (o', Ok tt) -> hs_keys p o' /\ forall k, (forall q, k <> p ++ q) -> o' k = o k.
Proof.
  intros W H. unfold init_hs in H.
  apply bind_inv in H; destruct H as (o1&[]&H1&H). apply init_pcws_origin in H1. destruct H1 as (s1&v1&_&_&_&->).
  apply bind_inv in H; destruct H as (o2&[]&H2&H). apply init_pcws_origin in H2. destruct H2 as (s2&v2&_&_&_&->).
  apply bind_inv in H; destruct H as (o3&[]&H3&H). rewrite hs_current_eq in H3.
  destruct (float_ py current) as [c|]; [|discriminate]. injection H3 as <-.
  apply bind_inv in H; destruct H as (o4&[]&H4&H). rewrite hs_rho_eq in H4.
  destruct (float_ py rho) as [r|]; [|discriminate]. destruct (le0 r) eqn:L; [discriminate|].
  destruct (fdiv_py (Fin 1) r) as [s|] eqn:D; [|discriminate]. destruct (le0 s) eqn:L2; [discriminate|]. injection H4 as <-.
  apply hs_loc_ok_inv in H.
  - destruct H as (x&y&z&_&F&->). split.
    2:{ intros k K. unfold prim, imag. rewrite ?append_assoc. unfold upd.
        repeat match goal with |- context [String.eqb k ?a] => destruct (String.eqb_spec k a); [exfalso; eapply K; eassumption|] end. reflexivity. }
    unfold prim, imag, hs_keys. rewrite ?append_assoc. rewrite !keys_lookup. simpl.
    split; [eauto|]. split.
    + exists r, s. repeat split; auto using fle0_false.
      destruct (recip_ok r (fle0_false r L)) as (s'&E&Q). congruence.
    + exists x, y, z. auto.
  - apply wf_default_loc; auto; reflexivity.
  - unfold prim, imag. rewrite ?append_assoc. rewrite !keys_lookup. simpl. eauto.
  - unfold prim, imag. rewrite ?append_assoc. rewrite !keys_lookup. simpl. eauto.
Qed.

Lemma C50_sync_lemma py o h : created py KPointCurrentHalfSpace o -> wf_history h ->
  Forall (fun q => hs_value_ok py (fst q) (snd q)) h ->
  hs_keys "" (run_history (cls_of py KPointCurrentHalfSpace) h o).
Proof.
  intros C W F. eapply history_inv_if; eauto.
  - intros; apply hs_step; eauto.
  - inversion C; subst. dec_all. apply (hs_init py "") in H0; tauto.
Qed.

(** reading the pieces back through the public getters *)
Definition sub_reads (o : obj) (py : pyext) (p a : string) : result aval :=
  snd (getattr (PointCurrentWholeSpace py) p a o).
Lemma hs_keys_reads py p o : hs_keys p o ->
  exists c r x y z,
    snd (getattr (PointCurrentHalfSpace py) p "current" o) = Ok (AFlt c) /\
    snd (getattr (PointCurrentHalfSpace py) p "rho" o) = Ok (AFlt r) /\
    snd (getattr (PointCurrentHalfSpace py) p "location" o) = Ok (AArr (vec3 x y z)) /\
    flt (Fin 0) z = false /\ positive_or_nan r /\
    sub_reads o py (prim p) "current" = Ok (AFlt c) /\ sub_reads o py (imag p) "current" = Ok (AFlt c) /\
    (exists r', sub_reads o py (prim p) "rho" = Ok (AFlt r') /\ sub_reads o py (imag p) "rho" = Ok (AFlt r') /\
        (r <> PInf -> r' = r)) /\ 
    sub_reads o py (prim p) "location" = Ok (AArr (vec3 x y z)) /\
    sub_reads o py (imag p) "location" = Ok (AArr (vec3 x y (fneg z))).
Proof.
  intros ((c&C1&C2&C3)&(r&s&R1&R2&R3&Pr&Ps&Q)&(x&y&z&L1&L2&L3&F)).
  exists c, r, x, y, z.
  assert (A1 : (prim p ++ "_current" = p ++ "_primary._current")%string) by apply append_assoc.
  assert (A2 : (imag p ++ "_current" = p ++ "_image._current")%string) by apply append_assoc.
  assert (A3 : (prim p ++ "_sigma" = p ++ "_primary._sigma")%string) by apply append_assoc.
  assert (A4 : (imag p ++ "_sigma" = p ++ "_image._sigma")%string) by apply append_assoc.
  assert (A5 : (prim p ++ "_nodes" = p ++ "_primary._nodes")%string) by apply append_assoc.
  assert (A6 : (imag p ++ "_nodes" = p ++ "_image._nodes")%string) by apply append_assoc.
  destruct (recip_ok s Ps) as (r'&E&Q').
  split; [change (snd (get_plain "_current" p o) = Ok (AFlt c)); unfold get_plain, read; rewrite C1; reflexivity|].
  split; [change (snd (get_plain "_rho" p o) = Ok (AFlt r)); unfold get_plain, read; rewrite R1; reflexivity|].
  split; [change (snd (get_plain "_location" p o) = Ok (AArr (vec3 x y z))); unfold get_plain, read; rewrite L1; reflexivity|].
  split; [auto|]. split; [auto|]. unfold sub_reads.
  split; [change (snd (get_plain "_current" (prim p) o) = Ok (AFlt c)); unfold get_plain, read; rewrite A1, C2; reflexivity|].
  split; [change (snd (get_plain "_current" (imag p) o) = Ok (AFlt c)); unfold get_plain, read; rewrite A2, C3; reflexivity|].
  split.
  { exists r'. split; [change (snd (em_get_rho (prim p) o) = Ok (AFlt r')); unfold em_get_rho; sbind; rewrite A3, R2; simpl; rewrite E; reflexivity|].
    split; [change (snd (em_get_rho (imag p) o) = Ok (AFlt r')); unfold em_get_rho; sbind; rewrite A4, R3; simpl; rewrite E; reflexivity|].
    intros NI.
    destruct Pr as [->|[->|(a&->&Ha)]]; simpl in Q; [subst s; simpl in Q'; auto|congruence|].
    destruct Q as [_ ->]. simpl in Q'. destruct Q' as [_ ->]. f_equal. field. lra. }
  split.
  - change (snd (pc_get_location (prim p) o) = Ok (AArr (vec3 x y z))). unfold pc_get_location; sbind. rewrite A5, L2. reflexivity.
  - change (snd (pc_get_location (imag p) o) = Ok (AArr (vec3 x y (fneg z)))). unfold pc_get_location; sbind. rewrite A6, L3. reflexivity.
Qed.

(** *** DipoleHalfSpace *)
Definition dhs_keys (o : obj) : Prop :=
  hs_keys "_a." o /\ hs_keys "_b." o /\
  (exists c, o "_current" = Some (AFlt c) /\ o "_a._current" = Some (AFlt c) /\ o "_b._current" = Some (AFlt c)) /\
  (exists r, o "_rho" = Some (AFlt r) /\ o "_a._rho" = Some (AFlt r) /\ o "_b._rho" = Some (AFlt r)) /\
  (exists l, o "_location_a" = Some l /\ o "_a._location" = Some l) /\
  (exists l, o "_location_b" = Some l /\ o "_b._location" = Some l).

Lemma hsp_current py p v : setattr (PointCurrentHalfSpace py) p "current" v = hs_set_current py p v.
Proof. reflexivity. Qed.
Lemma hsp_rho py p v : setattr (PointCurrentHalfSpace py) p "rho" v = hs_set_rho py p v.
Proof. reflexivity. Qed.
Lemma hsp_location py p v : setattr (PointCurrentHalfSpace py) p "location" v = hs_set_location py p v.
Proof. reflexivity. Qed.

Ltac dkeys := unfold dhs_keys, hs_keys, prim, imag, suba, subb, upd; simpl.
Lemma dhs_current_keys py v o : dhs_keys o -> dhs_keys (fst (dhs_set_current py "" v o)).
Proof.
  intros I. unfold dhs_set_current. sbind. destruct (float_ py v) as [x|]; [|exact I].
  rewrite hsp_current, hs_current_eq. simpl float_. cbv beta iota.
  rewrite hsp_current, hs_current_eq. simpl float_. cbv beta iota. simpl fst.
  destruct I as ((I1&I2&I3)&(J1&J2&J3)&K1&K2&K3&K4). revert I2 I3 J2 J3 K2 K3 K4. dkeys. intros.
  split; [split; [eauto|auto]|]. split; [split; [eauto|auto]|]. split; [eauto|auto].
Qed.
Lemma dhs_rho_keys py v o : float_ py v <> Ok PInf -> dhs_keys o -> dhs_keys (fst (dhs_set_rho py "" v o)).
Proof.
  intros N I. unfold dhs_set_rho. sbind. destruct (float_ py v) as [x|] eqn:FE; [|exact I].
  destruct (le0 x) eqn:L; [exact I|]. pose proof (fle0_false _ L) as Px.
  destruct (recip_good x Px) as (s&E&Ps&Q); [congruence|].
  rewrite hsp_rho, hs_rho_eq. simpl float_. cbv beta iota. rewrite L, E, (le0_pos s Ps).
  rewrite hsp_rho, hs_rho_eq. simpl float_. cbv beta iota. rewrite L, E, (le0_pos s Ps). simpl fst.
  destruct I as ((I1&I2&I3)&(J1&J2&J3)&K1&K2&K3&K4). revert I1 I3 J1 J3 K1 K3 K4. dkeys. intros.
  split; [split; [auto|split; [|auto]]; exists x, s; auto 10|].
  split; [split; [auto|split; [|auto]]; exists x, s; auto 10|]. split; [auto|]. split; [eauto|auto].
Qed.
Lemma hs_keys_upd p o k x : hs_keys p o -> k <> p ++ "_current" -> k <> p ++ "_primary._current" -> 
  k <> p ++ "_image._current" -> k <> p ++ "_rho" -> k <> p ++ "_primary._sigma" -> k <> p ++ "_image._sigma" ->
  k <> p ++ "_location" -> k <> p ++ "_primary._nodes" -> k <> p ++ "_image._nodes" -> hs_keys p (upd o k x).
Proof.
  intros I N1 N2 N3 N4 N5 N6 N7 N8 N9. unfold hs_keys, upd.
  repeat match goal with |- context [String.eqb ?a k] => destruct (String.eqb_spec a k); [congruence|] end. exact I.
Qed.
Lemma dhs_loc_eq py k sub p v a x y z o : asarray py v = Ok a -> atleast_1d a = vec3 x y z ->
  dhs_set_loc py k sub p v o = if flt (Fin 0) z then (o, Raise ValueError)
   else hs_set_location py (sub p) (PArr (vec3 x y z)) (upd o (p ++ k) (AArr (vec3 x y z))).
Proof.
  intros A E. unfold dhs_set_loc, atleast_1d_float. rewrite A. simpl rmap. rewrite E. sbind.
  change (negb (Nat.eqb (alen (vec3 x y z)) 3)) with false.
  change (existsb (fun z0 : fl => flt (Fin 0) z0) (last_axis_last (vec3 x y z))) with (flt (Fin 0) z || false)%bool.
  destruct (flt (Fin 0) z); reflexivity.
Qed.
Lemma dhs_loc_a_keys py v o : wf_val v -> (forall a, asarray py v = Ok a -> (ndim a <= 1)%nat) ->
  dhs_keys o -> dhs_keys (fst (dhs_set_loc py "_location_a" suba "" v o)).
Proof.
  intros W N I.
  destruct (asarray py v) as [a|e] eqn:A; [|unfold dhs_set_loc, atleast_1d_float; rewrite A; exact I].
  destruct (Nat.eqb_spec (alen (atleast_1d a)) 3) as [L|L].
  2:{ unfold dhs_set_loc, atleast_1d_float; rewrite A. simpl rmap. apply Nat.eqb_neq in L. unfold bind at 1, try_raise at 1, lift at 1. unfold bind at 1, check at 1. rewrite L. exact I. }
  destruct (loc_shape py v a W A (N a eq_refl) L) as (x&y&z&E). rewrite (dhs_loc_eq py _ _ _ v a x y z); auto.
  destruct (flt (Fin 0) z) eqn:F; [exact I|].
  destruct I as (Ia&Ib&K1&K2&K3&K4).
  rewrite (hs_loc_good py (suba "") (PArr (vec3 x y z)) (vec3 x y z) x y z); auto.
  2:{ destruct Ia as (_&_&(x0&y0&z0&_&H1&H2&_)). unfold upd; simpl. simpl in H1. rewrite H1. eauto. }
  2:{ destruct Ia as (_&_&(x0&y0&z0&_&H1&H2&_)). unfold upd; simpl. simpl in H2. rewrite H2. eauto. }
  2,3,4: simpl; discriminate.
  rewrite F. simpl fst.
  destruct Ia as (I1&I2&I3). revert I1 I2 Ib K1 K2 K4. dkeys. intros.
  split; [split; [auto|split; [auto|]]; exists x, y, z; auto|]. split; [auto|]. split; [auto|]. split; [auto|].
  split; [eauto|auto].
Qed.
Lemma dhs_loc_b_keys py v o : wf_val v -> (forall a, asarray py v = Ok a -> (ndim a <= 1)%nat) ->
  dhs_keys o -> dhs_keys (fst (dhs_set_loc py "_location_b" subb "" v o)).
Proof.
  intros W N I.
  destruct (asarray py v) as [a|e] eqn:A; [|unfold dhs_set_loc, atleast_1d_float; rewrite A; exact I].
  destruct (Nat.eqb_spec (alen (atleast_1d a)) 3) as [L|L].
  2:{ unfold dhs_set_loc, atleast_1d_float; rewrite A. simpl rmap. apply Nat.eqb_neq in L. unfold bind at 1, try_raise at 1, lift at 1. unfold bind at 1, check at 1. rewrite L. exact I. }
  destruct (loc_shape py v a W A (N a eq_refl) L) as (x&y&z&E). rewrite (dhs_loc_eq py _ _ _ v a x y z); auto.
  destruct (flt (Fin 0) z) eqn:F; [exact I|].
  destruct I as (Ia&Ib&K1&K2&K3&K4).
  rewrite (hs_loc_good py (subb "") (PArr (vec3 x y z)) (vec3 x y z) x y z); auto.
  2:{ destruct Ib as (_&_&(x0&y0&z0&_&H1&H2&_)). unfold upd; simpl. simpl in H1. rewrite H1. eauto. }
  2:{ destruct Ib as (_&_&(x0&y0&z0&_&H1&H2&_)). unfold upd; simpl. simpl in H2. rewrite H2. eauto. }
  2,3,4: simpl; discriminate.
  rewrite F. simpl fst.
  destruct Ib as (I1&I2&I3). revert I1 I2 Ia K1 K2 K3. dkeys. intros.
  split; [auto|]. split; [split; [auto|split; [auto|]]; exists x, y, z; auto|]. split; [auto|]. split; [auto|].
  split; [auto|eauto].
Qed.
Lemma dhs_step py a v o : wf_val v -> hs_value_ok py a v -> dhs_keys o ->
  dhs_keys (fst (setattr (cls_of py KDipoleHalfSpace) "" a v o)).
Proof.
  intros W (Q1&Q2) I. unfold setattr. cbv [cls_of DipoleHalfSpace lookup pname].
  destruct (String.eqb_spec "current" a); [subst; apply dhs_current_keys; auto|].
  destruct (String.eqb_spec "rho" a); [subst; apply dhs_rho_keys; auto|].
  destruct (String.eqb_spec "location_a" a); [subst; apply dhs_loc_a_keys; auto|].
  destruct (String.eqb_spec "location_b" a); [subst; apply dhs_loc_b_keys; auto|exact I].
Qed.

Lemma atleast_1d_idem a : atleast_1d (atleast_1d a) = atleast_1d a.
Proof. unfold atleast_1d. destruct (ashape a) eqn:E; simpl; auto. rewrite E. reflexivity. Qed.
Lemma wf_atleast_1d a : wf_arr a -> wf_arr (atleast_1d a).
Proof. unfold atleast_1d. destruct (ashape a) eqn:E; auto. unfold wf_arr. rewrite E. auto. Qed.
Lemma dhs_loc_init py k sub v o o' : wf_val v ->
  dhs_set_loc py k sub "" v o = (o', Ok tt) ->
  k <> (sub "" ++ "_primary._nodes")%string -> k <> (sub "" ++ "_image._nodes")%string ->
  (exists n1 n2 n3, o (sub "" ++ "_primary._nodes") = Some (AArr (mkarr [1%nat; 3%nat] [n1; n2; n3]))) ->
  (exists n1 n2 n3, o (sub "" ++ "_image._nodes") = Some (AArr (mkarr [1%nat; 3%nat] [n1; n2; n3]))) ->
  exists x y z, flt (Fin 0) z = false /\ o' =
   upd (upd (upd (upd o k (AArr (vec3 x y z))) (sub "" ++ "_location") (AArr (vec3 x y z)))
     (prim (sub "") ++ "_nodes") (AArr (mkarr [1%nat; 3%nat] [x; y; z])))
     (imag (sub "") ++ "_nodes") (AArr (mkarr [1%nat; 3%nat] [x; y; fneg z])).
Proof.
  intros W H D1 D2 N1 N2. unfold dhs_set_loc, atleast_1d_float in H.
  apply bind_inv in H; destruct H as (o1&a1&H1&H).
  unfold try_raise, lift in H1. destruct (asarray py v) as [a|] eqn:A; [|discriminate].
  simpl in H1. injection H1 as <- <-.
  apply bind_inv in H; destruct H as (o2&[]&H2&H). apply check_inv in H2. destruct H2 as [-> L].
  apply bind_inv in H; destruct H as (o3&[]&H3&H). apply check_inv in H3. destruct H3 as [-> _].
  apply bind_inv in H; destruct H as (o4&u&H4&H). unfold write in H4. injection H4 as <- <-.
  rewrite hsp_location in H. pose proof (asarray_wf _ _ _ W A) as Wa.
  apply hs_loc_ok_inv in H.
  - destruct H as (x&y&z&(a'&A'&E)&F&->). simpl in A'. injection A' as <-. rewrite atleast_1d_idem in E.
    exists x, y, z. rewrite E. auto.
  - simpl. apply wf_atleast_1d; auto.
  - unfold upd. destruct (String.eqb_spec (sub "" ++ "_primary._nodes") k); [congruence|auto].
  - unfold upd. destruct (String.eqb_spec (sub "" ++ "_image._nodes") k); [congruence|auto].
Qed.

Lemma dhs_init py rho la lb current o o' : wf_val la -> wf_val lb ->
  init_dhs py "" rho la lb current o = (o', Ok tt) -> dhs_keys o'.
Proof.
  intros Wa Wb H. unfold init_dhs in H.
  apply bind_inv in H; destruct H as (o1&[]&H1&H). apply hs_init in H1; auto. destruct H1 as [Ka _].
  apply bind_inv in H; destruct H as (o2&[]&H2&H). apply hs_init in H2; auto. destruct H2 as [Kb Fb].
  assert (Ka' : hs_keys "_a." o2).
  { unfold hs_keys in *. rewrite !Fb by (intros q Q; discriminate). exact Ka. }
  clear Ka Fb o1 o. rename o2 into o.
  apply bind_inv in H; destruct H as (o3&[]&H3&H).
  unfold dhs_set_current in H3.
  unfold bind at 1, try_raise at 1, lift at 1 in H3. destruct (float_ py current) as [c|]; [|discriminate].
  unfold bind at 1, write at 1 in H3. unfold bind at 1 in H3. rewrite hsp_current, hs_current_eq in H3. simpl float_ in H3. cbv beta iota in H3. rewrite hsp_current, hs_current_eq in H3. simpl float_ in H3. injection H3 as <-.
  apply bind_inv in H; destruct H as (o4&[]&H4&H).
  unfold dhs_set_rho in H4.
  unfold bind at 1, try_raise at 1, lift at 1 in H4. destruct (float_ py rho) as [r|]; [|discriminate].
  unfold bind at 1, check at 1 in H4. destruct (le0 r) eqn:L; [discriminate|]. unfold ret at 1 in H4.
  unfold bind at 1, write at 1 in H4. unfold bind at 1 in H4. rewrite hsp_rho, hs_rho_eq in H4. change (float_ py (PNum r)) with (Ok r) in H4; cbv beta iota in H4. rewrite L in H4.
  destruct (recip_ok r (fle0_false r L)) as (s&E&Q). rewrite E in H4. destruct (le0 s) eqn:Ls; [discriminate|].
  rewrite hsp_rho, hs_rho_eq in H4. change (float_ py (PNum r)) with (Ok r) in H4; cbv beta iota in H4. rewrite L, E, Ls in H4. injection H4 as <-.
  apply bind_inv in H; destruct H as (o5&[]&H5&H).
  destruct Ka' as (_&_&(xa&ya&za&A1&A2&A3&A4)). destruct Kb as (_&_&(xb&yb&zb&B1&B2&B3&B4)).
  apply dhs_loc_init in H5; [|apply wf_default_loc; auto; reflexivity|discriminate|discriminate| |].
  2,3: unfold upd; simpl; rewrite ?A2, ?A3; simpl in A2, A3; eauto.
  destruct H5 as (x1&y1&z1&F1&->).
  apply dhs_loc_init in H; [|apply wf_default_loc; auto; reflexivity|discriminate|discriminate| |].
  2,3: unfold upd; simpl; rewrite ?B2, ?B3; simpl in B2, B3; eauto.
  destruct H as (x2&y2&z2&F2&->).
  apply fle0_false in L. apply fle0_false in Ls.
  unfold dhs_keys, hs_keys, prim, imag, suba, subb, upd. simpl.
  repeat first [ split | eexists ]; auto.
Qed.

Lemma C50_dipole_sync_lemma py o h : created py KDipoleHalfSpace o -> wf_history h ->
  Forall (fun q => hs_value_ok py (fst q) (snd q)) h ->
  dhs_keys (run_history (cls_of py KDipoleHalfSpace) h o).
Proof.
  intros C W F. eapply history_inv_if; eauto.
  - intros; apply dhs_step; eauto.
  - inversion C; subst. dec_all. match goal with H : init_dhs _ _ _ _ _ _ _ = _ |- _ => eapply dhs_init in H; eauto end.
Qed.
