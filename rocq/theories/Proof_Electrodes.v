(** Proofs for C113. *)
From Coq Require Import Reals Lra Lia List Bool Arith ZArith String.
From Verif Require Import Numpy PyVal Spec_Setters Model_Setters Proof_Setters Proof_Setters2 Proof_Setters3 Proof_Setters4 Proof_Setters5.
From Verif Require Import Spec_Contracts Proof_Contracts Model_Construct Spec_Construct Proof_Construct Model_Electrodes Spec_Electrodes.
Import ListNotations.
Open Scope string_scope.
Open Scope R_scope.

(** ** binding *)
Definition shown (e : electrode) (a : string) (v : pyval) : pyval :=
  match e, a with
  | _, "location" => default_loc v origin
  | _, "location_a" => default_loc v (vec3 (Fin (-1)) (Fin 0) (Fin 0))
  | _, "location_b" => default_loc v (vec3 (Fin 1) (Fin 0) (Fin 0))
  | _, _ => v
  end.
Lemma sig_names e : names (electrode_signature e) = map fst (electrode_arguments e).
Proof. now destruct e. Qed.
Lemma writes_get e pos kw a v : writes e pos kw a v <-> call_get (names (electrode_signature e)) pos kw a = Some v.
Proof.
  rewrite sig_names. unfold writes, call_get. destruct (position_of a _ pos) as [u|].
  - split; [intros [H|[H _]]; congruence|auto].
  - split; [intros [H|[_ H]]; [discriminate|exact H]|auto].
Qed.
Lemma well_formed_bindable e pos kw : well_formed_electrode_call e pos kw <-> bindable (electrode_signature e) false pos kw.
Proof.
  unfold well_formed_electrode_call, bindable. rewrite sig_names, map_length. split.
  - intros [L [D [A [v W]]]]. repeat split; auto. intros a I. apply writes_get in W. rewrite sig_names in W.
    assert (a = "rho") as ->; [|congruence]. destruct e; cbn in I; intuition congruence.
  - intros [L [D [A C]]]. repeat split; auto. specialize (C "rho").
    destruct (call_get (map fst (electrode_arguments e)) pos kw "rho") as [v|] eqn:G.
    + exists v. apply writes_get. now rewrite sig_names.
    + exfalso. apply C; [|reflexivity]. destruct e; cbn; auto.
Qed.
Lemma writes_wf e pos kw a v : genuine pos kw -> writes e pos kw a v -> wf_val v.
Proof.
  intros [G1 G2] [H|[_ H]].
  - revert pos G1 H. generalize (map fst (electrode_arguments e)) as l. induction l as [|b l IH]; intros [|u pos] G1 H; try discriminate.
    inversion G1; subst. cbn in H. destruct (String.eqb b a); [injection H as <-; assumption|eauto].
  - clear G1. induction kw as [|[b u] r IH]; [discriminate|]. inversion G2; subst. cbn in H.
    destruct (String.eqb b a); [injection H as <-; assumption|auto].
Qed.
Lemma bound_param e pos kw b a : bound_to (electrode_signature e) pos kw b -> In a (map fst (electrode_arguments e)) ->
  well_formed_electrode_call e pos kw -> genuine pos kw ->
  gives e pos kw a (shown e a (param (fst b) a)) /\ wf_val (param (fst b) a).
Proof.
  intros [B _] I [_ [_ [_ [v0 W]]]] G. unfold param. rewrite B. clear B.
  pose proof (fun v => writes_get e pos kw a v) as WG. pose proof (writes_wf e pos kw a) as WW.
  apply (writes_get e pos kw "rho") in W.
  assert (NL : forall u, (forall v, ~ writes e pos kw a v) \/ (is_location a /\ writes e pos kw a PNone) ->
    In (a, Default u) (electrode_arguments e) -> gives e pos kw a u) by (intros; right; auto).
  destruct (call_get (names (electrode_signature e)) pos kw a) as [v|] eqn:C.
  - assert (WV : writes e pos kw a v) by now apply WG.
    assert (E : sig_value (electrode_signature e) (call_get (names (electrode_signature e)) pos kw) a = Some v).
    { destruct e; cbn in I; repeat (destruct I as [<-|I]; [cbn [sig_value electrode_signature fst snd String.eqb Ascii.eqb Bool.eqb]; cbn in C; cbn; rewrite ?C; reflexivity|]); destruct I. }
    rewrite E. split; [|now apply WW].
    assert (CV : v = PNone \/ v <> PNone) by (destruct v; auto; right; discriminate).
    destruct CV as [->|N].
    + destruct e; cbn in I; repeat (destruct I as [<-|I]; [cbn;
        first [right; split; [cbn; tauto|right; split; [unfold is_location; tauto|exact WV]]
              |left; split; [exact WV|intros [[H|[H|H]] _]; discriminate H]]|]); destruct I.
    + assert (ND : forall d, default_loc v d = v) by (intros d; destruct v; auto; congruence).
      destruct e; cbn in I; repeat (destruct I as [<-|I]; [cbn [shown]; rewrite ?ND; left; split; [exact WV|tauto]|]); destruct I.
  - assert (NW : forall v, ~ writes e pos kw a v) by (intros v H; apply WG in H; discriminate).
    destruct e; cbn in I; (destruct I as [<-|I]; [congruence|]);
    repeat (destruct I as [<-|I]; [cbn in C; cbn; rewrite ?C; cbn; split; [right; split; [cbn; tauto|auto]|exact Logic.I]|]); destruct I.
Qed.

(** ** the two sources of an electrode *)
Definition fresh_source (p : string) (s : fl) (o : obj) : obj :=
  upd (upd (upd (upd (upd o (p ++ "_nodes") (AArr (mkarr [1%nat;3%nat] [Fin 0; Fin 0; Fin 0])))
        (p ++ "_current") (AFlt (Fin 1))) (p ++ "_sigma") (AFlt s)) (p ++ "_mu") (AFlt (Fin c_mu0)))
        (p ++ "_epsilon") (AFlt (Fin c_eps0)).
Lemma c_mu0_ok : le0 (Fin c_mu0) = false.
Proof. unfold le0, fle, c_mu0. apply Rleb_false. pose proof PI_RGT_0. lra. Qed.
Lemma c_eps0_ok : lt0 (Fin c_eps0) = false.
Proof. unfold lt0, flt, c_eps0. apply Rltb_false. lra. Qed.
Lemma source_eq py p v o :
  init_pcws py p v (PNum (Fin 1)) PNone o =
  match one_over py v with
  | Raise e => (o, Raise e)
  | Ok rv => match float_ py rv with
     | Raise _ => (upd (upd o (p ++ "_nodes") (AArr (mkarr [1%nat;3%nat] [Fin 0; Fin 0; Fin 0]))) (p ++ "_current") (AFlt (Fin 1)), Raise TypeError)
     | Ok s => if le0 s then (upd (upd o (p ++ "_nodes") (AArr (mkarr [1%nat;3%nat] [Fin 0; Fin 0; Fin 0]))) (p ++ "_current") (AFlt (Fin 1)), Raise ValueError)
               else (fresh_source p s o, Ok tt)
     end
  end.
Proof.
  unfold init_pcws. unfold bind at 1, lift at 1. destruct (one_over py v) as [rv|e]; [|reflexivity].
  unfold init_linews, init_line, line_set_nodes, init_em, em_set_sigma, em_set_mu, em_set_epsilon, set_float. sbind. cbn [default_loc is_none asarray origin].
  cbn -[c_mu0 c_eps0 le0 lt0 float_ String.append upd]. cbn [float_].
  destruct (float_ py rv) as [s|e]; [|reflexivity]. destruct (le0 s); [reflexivity|].
  rewrite c_mu0_ok, c_eps0_ok. reflexivity.
Qed.
Lemma rho_cases py v :
  (exists x s rv, is_number v x /\ one_over py v = Ok rv /\ float_ py rv = Ok s /\ float_ py v = Ok x /\ le0 s = false /\
     ((is_resistivity v x /\ le0 x = false /\ fdiv_py (Fin 1) x = Ok s) \/
      (is_zero_array v /\ le0 x = true /\ s = PInf))) \/
  (exists e, not_resistivity v e /\ forall p o, snd (init_pcws py p v (PNum (Fin 1)) PNone o) = Raise e).
Proof.
  destruct v as [|x|s|a|c|d|e].
  - right. exists TypeError. split; [right; right; left; auto|]. intros p o. now rewrite source_eq.
  - destruct x as [r| | |].
    + destruct (Req_dec r 0) as [->|N].
      * right. exists ZeroDivisionError. split; [left; auto|]. intros p o. rewrite source_eq. cbn.
        unfold Reqb. destruct (Req_EM_T 0 0); [reflexivity|lra].
      * assert (Q : fdiv_py (Fin 1) (Fin r) = Ok (Fin (1 / r))).
        { cbn. unfold Reqb. destruct (Req_EM_T r 0); [contradiction|reflexivity]. }
        destruct (Rlt_dec 0 r) as [P|P].
        -- left. exists (Fin r), (Fin (1 / r)), (PNum (Fin (1 / r))). split; [now left|]. cbn [one_over]. rewrite Q.
           repeat split; try reflexivity. { apply Rleb_false. apply Rdiv_lt_0_compat; lra. }
           left. split; [split; [now left|right; eauto]|]. split; [apply Rleb_false; lra|reflexivity].
        -- right. exists ValueError. split.
           { right; left. split; [|reflexivity]. exists (Fin r). split; [now left|right; right; exists r; split; [reflexivity|lra]]. }
           intros p o. rewrite source_eq. cbn [one_over]. rewrite Q. cbn [rmap float_].
           replace (le0 (Fin (1 / r))) with true; [reflexivity|]. symmetry. apply Rleb_true.
           apply Rmult_le_reg_r with (- r); [lra|]. replace (1 / r * - r) with (-(1)) by (field; lra). lra.
    + right. exists ValueError. split; [right; left; split; [exists PInf; split; [now left|auto]|reflexivity]|].
      intros p o. rewrite source_eq. cbn [one_over fdiv_py fdiv_np rmap float_].
      replace (le0 (Fin 0)) with true; [reflexivity|]. symmetry. apply Rleb_true. lra.
    + right. exists ValueError. split; [right; left; split; [exists NInf; split; [now left|auto]|reflexivity]|].
      intros p o. rewrite source_eq. cbn [one_over fdiv_py fdiv_np rmap float_].
      replace (le0 (Fin 0)) with true; [reflexivity|]. symmetry. apply Rleb_true. lra.
    + left. exists NaN, NaN, (PNum NaN). split; [now left|]. repeat split. left. split; [split; [now left|now left]|]. now split.
  - right. exists TypeError. split; [right; right; left; split; [right; left; eauto|reflexivity]|]. intros p o. now rewrite source_eq.
  - destruct a as [sh dt]. destruct dt as [|x [|y l]].
    + right. exists TypeError. split; [right; right; left; split; [right; right; right; right; exists (mkarr sh []); split; [reflexivity|discriminate]|reflexivity]|].
      intros p o. now rewrite source_eq.
    + assert (F : forall s, fdiv_np (Fin 1) x = s -> one_over py (PArr (mkarr sh [x])) = Ok (PArr (mkarr sh [s]))) by (intros s <-; reflexivity).
      assert (IN : is_number (PArr (mkarr sh [x])) x) by (right; eexists; eauto).
      destruct x as [r| | |].
      * destruct (Req_dec r 0) as [->|N].
        -- left. exists (Fin 0), PInf, (PArr (mkarr sh [PInf])). split; [exact IN|]. split.
           { apply F. cbn. unfold Reqb. destruct (Req_EM_T 0 0) as [_|X]; [|contradiction X; reflexivity]. unfold sgninf.
             rewrite (proj2 (Rltb_true 0 1)); [reflexivity|lra]. }
           repeat split. right. split; [eexists; split; reflexivity|]. split; [|reflexivity]. apply Rleb_true. lra.
        -- assert (Q : fdiv_np (Fin 1) (Fin r) = Fin (1 / r)).
           { cbn. unfold Reqb. destruct (Req_EM_T r 0); [contradiction|reflexivity]. }
           destruct (Rlt_dec 0 r) as [P|P].
           ++ left. exists (Fin r), (Fin (1 / r)), (PArr (mkarr sh [Fin (1 / r)])). split; [exact IN|]. split; [now apply F|].
              repeat split. { apply Rleb_false. apply Rdiv_lt_0_compat; lra. }
              left. split; [split; [exact IN|right; eauto]|]. split; [apply Rleb_false; lra|].
              cbn. unfold Reqb. destruct (Req_EM_T r 0); [contradiction|reflexivity].
           ++ right. exists ValueError. split.
              { right; left. split; [|reflexivity]. exists (Fin r). split; [exact IN|right; right; exists r; split; [reflexivity|lra]]. }
              intros p o. rewrite source_eq, (F _ Q). cbn [float_ adata].
              replace (le0 (Fin (1 / r))) with true; [reflexivity|]. symmetry. apply Rleb_true.
              apply Rmult_le_reg_r with (- r); [lra|]. replace (1 / r * - r) with (-(1)) by (field; lra). lra.
      * right. exists ValueError. split; [right; left; split; [exists PInf; split; [exact IN|auto]|reflexivity]|].
        intros p o. rewrite source_eq, (F (Fin 0) eq_refl). cbn [float_ adata].
        replace (le0 (Fin 0)) with true; [reflexivity|]. symmetry. apply Rleb_true. lra.
      * right. exists ValueError. split; [right; left; split; [exists NInf; split; [exact IN|auto]|reflexivity]|].
        intros p o. rewrite source_eq, (F (Fin 0) eq_refl). cbn [float_ adata].
        replace (le0 (Fin 0)) with true; [reflexivity|]. symmetry. apply Rleb_true. lra.
      * left. exists NaN, NaN, (PArr (mkarr sh [NaN])). split; [exact IN|]. repeat split. left. split; [split; [exact IN|now left]|]. now split.
    + right. exists TypeError. split; [right; right; left; split; [right; right; right; right; exists (mkarr sh (x :: y :: l)); split; [reflexivity|discriminate]|reflexivity]|].
      intros p o. now rewrite source_eq.
  - right. exists TypeError. split; [right; right; left; split; [right; right; left; eauto|reflexivity]|]. intros p o. now rewrite source_eq.
  - right. exists TypeError. split; [right; right; left; split; [right; right; right; left; eauto|reflexivity]|]. intros p o. now rewrite source_eq.
  - right. exists e. split; [right; right; right; reflexivity|]. intros p o. now rewrite source_eq.
Qed.
