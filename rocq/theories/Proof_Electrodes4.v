(** Proofs for C113, concluded: the calls. *)
From Coq Require Import Reals Lra Lia List Bool Arith ZArith String.
From Verif Require Import Numpy PyVal Spec_Setters Model_Setters Proof_Setters Proof_Setters2 Proof_Setters3 Proof_Setters4 Proof_Setters5.
From Verif Require Import Spec_Contracts Proof_Contracts Model_Construct Spec_Construct Proof_Construct Model_Electrodes Spec_Electrodes Proof_Electrodes Proof_Electrodes2 Proof_Electrodes3.
Import ListNotations.
Open Scope string_scope.
Open Scope R_scope.

Lemma malformed_electrode py e pos kw : ~ well_formed_electrode_call e pos kw ->
  electrode_call py e pos kw = (empty_obj, Raise TypeError).
Proof.
  intros N. unfold electrode_call. unfold bind, lift. destruct (bind_spec (electrode_signature e) false pos kw) as [B1 [_ B3]].
  destruct (bind_args (electrode_signature e) false pos kw) as [b|x].
  - exfalso. apply N. apply well_formed_bindable. now apply (B1 b).
  - now rewrite (B3 x).
Qed.
Lemma well_formed_electrode e pos kw : well_formed_electrode_call e pos kw ->
  exists b, bind_args (electrode_signature e) false pos kw = Ok b /\ bound_to (electrode_signature e) pos kw b.
Proof.
  intros W. destruct (bind_spec (electrode_signature e) false pos kw) as [B1 [B2 _]].
  destruct B2 as [b B]; [now apply well_formed_bindable|]. exists b. split; [exact B|]. now apply B1.
Qed.
Lemma flt_reads (c : cls) o a k x : getattr c "" a = get_plain k "" -> o k = Some x -> reads c o a = Ok x.
Proof. intros E K. unfold reads. rewrite E. unfold get_plain, read. cbn. now rewrite K. Qed.

Lemma half_call py pos kw : genuine pos kw -> well_formed_electrode_call PointHalf pos kw ->
  exists v c l, gives PointHalf pos kw "rho" v /\ gives PointHalf pos kw "current" c /\ gives PointHalf pos kw "location" l /\
  ((exists e, not_resistivity v e /\ snd (electrode_call py PointHalf pos kw) = Raise e) \/
   (is_zero_array v /\ ((exists e, float_ py c = Raise e) /\ snd (electrode_call py PointHalf pos kw) = Raise TypeError \/
                        (exists y, float_ py c = Ok y) /\ snd (electrode_call py PointHalf pos kw) = Raise ValueError)) \/
   (exists x, is_resistivity v x /\
     ((exists e, float_ py c = Raise e /\ snd (electrode_call py PointHalf pos kw) = Raise TypeError) \/
      (exists y, float_ py c = Ok y /\
        ((exists e, not_place py l e /\ snd (electrode_call py PointHalf pos kw) = Raise e) \/
         (exists X Y Z o, is_place py l X Y Z /\ electrode_call py PointHalf pos kw = (o, Ok tt) /\
            reads (PointCurrentHalfSpace py) o "rho" = Ok (AFlt x) /\
            reads (PointCurrentHalfSpace py) o "current" = Ok (AFlt y) /\
            reads (PointCurrentHalfSpace py) o "location" = Ok (AArr (vec3 X Y Z)))))))).
Proof.
  intros G W. destruct (well_formed_electrode _ _ _ W) as [b [B Bd]].
  destruct (bound_param PointHalf pos kw b "rho" Bd) as [G1 _]; [cbn; tauto|exact W|exact G|].
  destruct (bound_param PointHalf pos kw b "current" Bd) as [G2 _]; [cbn; tauto|exact W|exact G|].
  destruct (bound_param PointHalf pos kw b "location" Bd) as [G3 W3]; [cbn; tauto|exact W|exact G|].
  cbn [shown] in G1, G2, G3. eexists; eexists; eexists. split; [exact G1|]. split; [exact G2|]. split; [exact G3|].
  assert (E : electrode_call py PointHalf pos kw = init_hs py "" (param (fst b) "rho") (param (fst b) "current") (param (fst b) "location") empty_obj).
  { unfold electrode_call. unfold bind at 1, lift at 1. rewrite B. reflexivity. }
  rewrite E. destruct (hs_outcome py "" (param (fst b) "rho") (param (fst b) "current") (param (fst b) "location") empty_obj W3) as [H|[[Z H]|[x [IR H]]]].
  - left. exact H.
  - right; left. split; [exact Z|]. destruct (float_ py (param (fst b) "current")); [right|left]; split; eauto.
  - right; right. exists x. split; [exact IR|]. destruct H as [H|[y [Y H]]]; [left; exact H|right]. exists y. split; [exact Y|].
    destruct H as [H|[X [Y' [Z [o [P [R [[V1 [V2 [V3 _]]] _]]]]]]]]; [left; exact H|right]. exists X, Y', Z, o.
    split; [exact P|]. split; [exact R|]. cbn in V1, V2, V3.
    split; [|split]; eapply flt_reads; try reflexivity; assumption.
Qed.
Lemma dipole_call py pos kw : genuine pos kw -> well_formed_electrode_call DipoleHalf pos kw ->
  exists v la lb c, gives DipoleHalf pos kw "rho" v /\ gives DipoleHalf pos kw "location_a" la /\
  gives DipoleHalf pos kw "location_b" lb /\ gives DipoleHalf pos kw "current" c /\
  ((exists e, not_resistivity v e /\ snd (electrode_call py DipoleHalf pos kw) = Raise e) \/
   (is_zero_array v /\ snd (electrode_call py DipoleHalf pos kw) = Raise ValueError) \/
   (exists x, is_resistivity v x /\
     ((exists e, not_place py la e /\ snd (electrode_call py DipoleHalf pos kw) = Raise e) \/
      (exists Xa Ya Za, is_place py la Xa Ya Za /\
        ((exists e, not_place py lb e /\ snd (electrode_call py DipoleHalf pos kw) = Raise e) \/
         (exists Xb Yb Zb, is_place py lb Xb Yb Zb /\
           ((exists e, float_ py c = Raise e /\ snd (electrode_call py DipoleHalf pos kw) = Raise TypeError) \/
            (exists y o, float_ py c = Ok y /\ electrode_call py DipoleHalf pos kw = (o, Ok tt) /\
               reads (DipoleHalfSpace py) o "rho" = Ok (AFlt x) /\
               reads (DipoleHalfSpace py) o "current" = Ok (AFlt y) /\
               reads (DipoleHalfSpace py) o "location_a" = Ok (AArr (vec3 Xa Ya Za)) /\
               reads (DipoleHalfSpace py) o "location_b" = Ok (AArr (vec3 Xb Yb Zb)))))))))).
Proof.
  intros G W. destruct (well_formed_electrode _ _ _ W) as [b [B Bd]].
  destruct (bound_param DipoleHalf pos kw b "rho" Bd) as [G1 _]; [cbn; tauto|exact W|exact G|].
  destruct (bound_param DipoleHalf pos kw b "location_a" Bd) as [G2 W2]; [cbn; tauto|exact W|exact G|].
  destruct (bound_param DipoleHalf pos kw b "location_b" Bd) as [G3 W3]; [cbn; tauto|exact W|exact G|].
  destruct (bound_param DipoleHalf pos kw b "current" Bd) as [G4 _]; [cbn; tauto|exact W|exact G|].
  cbn [shown] in G1, G2, G3, G4. eexists; eexists; eexists; eexists. split; [exact G1|]. split; [exact G2|]. split; [exact G3|]. split; [exact G4|].
  assert (E : electrode_call py DipoleHalf pos kw = init_dhs py "" (param (fst b) "rho") (param (fst b) "location_a") (param (fst b) "location_b") (param (fst b) "current") empty_obj).
  { unfold electrode_call. unfold bind at 1, lift at 1. rewrite B. reflexivity. }
  rewrite E. destruct (dhs_outcome py (param (fst b) "rho") (param (fst b) "location_a") (param (fst b) "location_b") (param (fst b) "current") empty_obj W2 W3)
    as [H|[H|[x [IR H]]]]; [left; exact H|right; left; exact H|right; right].
  exists x. split; [exact IR|]. destruct H as [H|[Xa [Ya [Za [Pa H]]]]]; [left; exact H|right]. exists Xa, Ya, Za. split; [exact Pa|].
  destruct H as [H|[Xb [Yb [Zb [Pb H]]]]]; [left; exact H|right]. exists Xb, Yb, Zb. split; [exact Pb|].
  destruct H as [H|[y [o [Y [R [V1 [V2 [V3 V4]]]]]]]]; [left; exact H|right]. exists y, o.
  split; [exact Y|]. split; [exact R|]. split; [|split; [|split]]; eapply flt_reads; try reflexivity; assumption.
Qed.
Lemma first_row py v a : wf_val v -> demands py Nodes v (Stored (AArr a)) ->
  exists n l, ashape a = [n; 3%nat] /\ adata a = l /\ List.length l = (n * 3)%nat.
Proof.
  intros W. cbn. intros [[e [_ H]]|[[b [n [A [S H]]]]|[[b [A [S H]]]|[b [_ [_ [_ H]]]]]]]; try discriminate; injection H as H; subst a.
  - pose proof (asarray_wf _ _ _ W A) as WF. unfold wf_arr in WF. rewrite S in WF. cbn in WF. exists n, (adata b). split; [exact S|]. split; [reflexivity|lia].
  - pose proof (asarray_wf _ _ _ W A) as WF. unfold wf_arr in WF. rewrite S in WF. cbn in WF. exists 1%nat, (adata b). cbn. repeat split. lia.
Qed.
Lemma whole_call py pos kw : genuine pos kw -> well_formed_electrode_call PointWhole pos kw ->
  exists v c l, gives PointWhole pos kw "rho" v /\ gives PointWhole pos kw "current" c /\ gives PointWhole pos kw "location" l /\
  ((exists e, snd (electrode_call py PointWhole pos kw) = Raise e /\
      (not_resistivity v e \/ demands py Nodes l (Refused e) \/ ((exists e', float_ py c = Raise e') /\ e = TypeError))) \/
   (exists y n d o, float_ py c = Ok y /\ demands py Nodes l (Stored (AArr (mkarr [n; 3%nat] d))) /\
      electrode_call py PointWhole pos kw = (o, Ok tt) /\
      reads (PointCurrentWholeSpace py) o "current" = Ok (AFlt y) /\
      reads (PointCurrentWholeSpace py) o "nodes" = Ok (AArr (mkarr [n; 3%nat] d)) /\
      (forall X Y Z r, d = (X :: Y :: Z :: r)%list -> reads (PointCurrentWholeSpace py) o "location" = Ok (AArr (vec3 X Y Z))) /\
      ((is_resistivity v NaN /\ reads (PointCurrentWholeSpace py) o "sigma" = Ok (AFlt NaN) /\
          reads (PointCurrentWholeSpace py) o "rho" = Ok (AFlt NaN)) \/
       (exists x, is_resistivity v (Fin x) /\ reads (PointCurrentWholeSpace py) o "sigma" = Ok (AFlt (Fin (1 / x))) /\
          reads (PointCurrentWholeSpace py) o "rho" = Ok (AFlt (Fin x))) \/
       (is_zero_array v /\ reads (PointCurrentWholeSpace py) o "sigma" = Ok (AFlt PInf))))).
Proof.
  intros G W. destruct (well_formed_electrode _ _ _ W) as [b [B Bd]].
  destruct (bound_param PointWhole pos kw b "rho" Bd) as [G1 _]; [cbn; tauto|exact W|exact G|].
  destruct (bound_param PointWhole pos kw b "current" Bd) as [G2 _]; [cbn; tauto|exact W|exact G|].
  destruct (bound_param PointWhole pos kw b "location" Bd) as [G3 W3]; [cbn; tauto|exact W|exact G|].
  cbn [shown] in G1, G2, G3. eexists; eexists; eexists. split; [exact G1|]. split; [exact G2|]. split; [exact G3|].
  assert (E : electrode_call py PointWhole pos kw = init_pcws py "" (param (fst b) "rho") (param (fst b) "current") (param (fst b) "location") empty_obj).
  { unfold electrode_call. unfold bind at 1, lift at 1. rewrite B. reflexivity. }
  rewrite E. destruct (whole_outcome py (param (fst b) "rho") (param (fst b) "current") (param (fst b) "location") empty_obj W3) as [H|H]; [left; exact H|right].
  destruct H as [y [a [s [o [Y [N [S [R [V1 [V2 V3]]]]]]]]]].
  assert (WD : wf_val (default_loc (param (fst b) "location") origin)) by (apply wf_default_loc; [exact W3|reflexivity]).
  destruct (first_row py _ a WD N) as [n [d [A1 [A2 A3]]]]. destruct a as [sh d']. cbn in A1, A2. subst sh d'.
  exists y, n, d, o. split; [exact Y|]. split; [exact N|]. split; [exact R|].
  split; [eapply flt_reads; [reflexivity|exact V1]|]. split; [eapply flt_reads; [reflexivity|exact V2]|]. split.
  - intros X' Y' Z' r ->. unfold reads. change (snd (pc_get_location "" o) = Ok (AArr (vec3 X' Y' Z'))).
    unfold pc_get_location. sbind. cbn. rewrite V2. cbn. cbn in A3. destruct n; [cbn in A3; discriminate|]. reflexivity.
  - assert (RS : reads (PointCurrentWholeSpace py) o "sigma" = Ok (AFlt s)) by (eapply flt_reads; [reflexivity|exact V3]).
    assert (RR : reads (PointCurrentWholeSpace py) o "rho" = match fdiv_py (Fin 1) s with Ok r => Ok (AFlt r) | Raise e => Raise e end).
    { unfold reads. change (snd (em_get_rho "" o) = match fdiv_py (Fin 1) s with Ok r => Ok (AFlt r) | Raise e => Raise e end).
      unfold em_get_rho. sbind. cbn [String.append]. rewrite V3. cbn [as_flt ret]. unfold ret. now destruct (fdiv_py (Fin 1) s). }
    rewrite RS, RR. destruct S as [[Z ->]|[x [IR D]]]; [auto|]. pose proof IR as IR'. destruct IR as [_ [->|[r [-> P]]]].
    + left. injection D as <-. auto.
    + right; left. exists r. split; [exact IR'|]. cbn in D. unfold Reqb in D. destruct (Req_EM_T r 0); [lra|]. injection D as <-.
      split; [reflexivity|]. cbn. unfold Reqb. destruct (Req_EM_T (1 / r) 0) as [Q|Q].
      * exfalso. assert (0 < 1 / r) by (apply Rdiv_lt_0_compat; lra). lra.
      * do 3 f_equal. field. lra.
Qed.
Lemma called_electrodes py e pos kw o : genuine pos kw -> electrode_call py e pos kw = (o, Ok tt) ->
  well_formed_electrode_call e pos kw /\ created py (electrode_kind e) o.
Proof.
  intros G H. assert (W : well_formed_electrode_call e pos kw).
  { unfold electrode_call in H. unfold bind at 1, lift at 1 in H. destruct (bind_spec (electrode_signature e) false pos kw) as [B1 _].
    destruct (bind_args (electrode_signature e) false pos kw) as [b|x]; [|discriminate]. apply well_formed_bindable. now apply (B1 b). }
  split; [exact W|]. destruct (well_formed_electrode _ _ _ W) as [b [B Bd]].
  unfold electrode_call in H. unfold bind at 1, lift at 1 in H. rewrite B in H.
  assert (WV : forall a, In a (map fst (electrode_arguments e)) -> wf_val (param (fst b) a)).
  { intros a I. now apply (bound_param e pos kw b a Bd I W G). }
  destruct e; cbn [electrode_kind].
  - eapply mk_PointCurrentWholeSpace; [|exact H]. repeat constructor; apply WV; cbn; tauto.
  - eapply mk_PointCurrentHalfSpace; [|exact H]. repeat constructor; apply WV; cbn; tauto.
  - eapply mk_DipoleHalfSpace; [|exact H]. repeat constructor; apply WV; cbn; tauto.
Qed.
