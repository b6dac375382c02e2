(** Proofs for C113, continued: the constructors. *)
From Coq Require Import Reals Lra Lia List Bool Arith ZArith String.
From Verif Require Import Numpy PyVal Spec_Setters Model_Setters Proof_Setters Proof_Setters2 Proof_Setters3 Proof_Setters4 Proof_Setters5.
From Verif Require Import Spec_Contracts Proof_Contracts Model_Construct Spec_Construct Proof_Construct Model_Electrodes Spec_Electrodes Proof_Electrodes.
Import ListNotations.
Open Scope string_scope.
Open Scope R_scope.

Definition has_nodes (p : string) (o : obj) : Prop :=
  exists n1 n2 n3, o (p ++ "_nodes") = Some (AArr (mkarr [1%nat; 3%nat] [n1; n2; n3])).
Lemma not_above z : flt (Fin 0) z = false <-> (z = NaN \/ z = NInf \/ exists r, z = Fin r /\ r <= 0).
Proof.
  destruct z as [r| | |]; cbn.
  - split.
    + intros H. apply Rltb_false in H. right; right; eauto.
    + intros [H|[H|[s [H L]]]]; try discriminate. injection H as <-. now apply Rltb_false.
  - split; [discriminate|]. intros [H|[H|[s [H L]]]]; discriminate.
  - tauto.
  - tauto.
Qed.
Lemma place_cases py v : wf_val v ->
  (exists x y z, is_place py v x y z /\ flt (Fin 0) z = false) \/
  (exists e, not_place py v e /\ forall p o, has_nodes (prim p) o -> snd (hs_set_location py p v o) = Raise e).
Proof.
  intros W. destruct (asarray py v) as [a|e] eqn:A.
  2:{ right. exists TypeError. split; [left; eauto|]. intros p o _. unfold hs_set_location, atleast_1d_float. sbind. now rewrite A. }
  pose proof (asarray_wf _ _ _ W A) as WF.
  destruct (list_eq_dec Nat.eq_dec (ashape a) [3%nat]) as [S|S].
  - assert (E : exists x y z, a = vec3 x y z).
    { destruct a as [sh d]. cbn in S. subst sh. unfold wf_arr in WF. cbn in WF.
      destruct d as [|x [|y [|z [|]]]]; cbn in WF; try lia. exists x, y, z. reflexivity. }
    destruct E as [x [y [z ->]]].
    destruct (flt (Fin 0) z) eqn:F.
    + right. exists ValueError. split.
      { right. split; [eauto|]. split; [|reflexivity]. intros x' y' z' [H1 H2]. rewrite A in H1. injection H1 as <- <- <-.
        apply not_above in H2. congruence. }
      intros p o N. unfold hs_set_location, atleast_1d_float. sbind. rewrite A. cbn -[flt]. rewrite F. reflexivity.
    + left. exists x, y, z. split; [split; [exact A|now apply not_above]|exact F].
  - right. exists ValueError. split.
    { right. split; [eauto|]. split; [|reflexivity]. intros x y z [H _]. rewrite A in H. injection H as ->. now apply S. }
    intros p o [n1 [n2 [n3 N]]]. unfold hs_set_location, atleast_1d_float.
    unfold bind at 1, try_raise at 1, lift at 1. rewrite A. unfold rmap.
    unfold bind at 1, check at 1. destruct (Nat.eqb (alen (atleast_1d a)) 3) eqn:L; [|reflexivity].
    cbn [negb]. unfold ret at 1. unfold bind at 1, check at 1.
    destruct (existsb _ _); [reflexivity|]. unfold ret at 1. unfold bind at 1, write at 1. unfold bind at 1. rewrite pcw_location.
    assert (H : exists o', pc_set_location py (prim p) (PArr (atleast_1d a)) (upd o (p ++ "_location") (AArr (atleast_1d a))) = (o', Raise ValueError)).
    { unfold pc_set_location, atleast_1d_float. unfold bind at 1, try_raise at 1, lift at 1. cbn [asarray rmap].
      rewrite atleast_1d_idem. unfold bind at 1, check at 1. rewrite L. cbn [negb]. unfold ret at 1.
      unfold bind at 1, read_arr, bind at 1, read. unfold upd at 1.
      destruct (hs_distinct p) as [D1 _]. destruct (String.eqb_spec (prim p ++ "_nodes") (p ++ "_location")); [congruence|].
      rewrite N. unfold as_arr, ret. unfold bind at 1, check at 1. cbn [alen ashape hd Nat.eqb]. unfold ret at 1.
      unfold bind at 1, check at 1.
      assert (Sh : shape_is (atleast_1d a) [3%nat] = false).
      { unfold shape_is. destruct (list_eq_dec Nat.eq_dec (ashape (atleast_1d a)) [3%nat]) as [E|E]; [|reflexivity].
        exfalso. apply S. unfold atleast_1d in E. destruct (ashape a) eqn:Q; [discriminate E|congruence]. }
      rewrite Sh. cbn [negb]. eexists. reflexivity. }
    destruct H as [o' ->]. reflexivity.
Qed.
Lemma place_set py p v x y z o : is_place py v x y z -> has_nodes (prim p) o -> has_nodes (imag p) o ->
  hs_set_location py p v o =
   (upd (upd (upd o (p ++ "_location") (AArr (vec3 x y z)))
     (prim p ++ "_nodes") (AArr (mkarr [1%nat; 3%nat] [x; y; z])))
     (imag p ++ "_nodes") (AArr (mkarr [1%nat; 3%nat] [x; y; fneg z])), Ok tt).
Proof.
  intros [A F] N1 N2. destruct (hs_distinct p) as [D1 [D2 D3]].
  rewrite (hs_loc_good py p v (vec3 x y z) x y z o A eq_refl N1 N2 D1 D2 D3).
  apply not_above in F. now rewrite F.
Qed.

(** the keys of one half-space electrode *)
Definition hs_values (p : string) (o : obj) (c x X Y Z : fl) : Prop :=
  o (p ++ "_current") = Some (AFlt c) /\ o (p ++ "_rho") = Some (AFlt x) /\ o (p ++ "_location") = Some (AArr (vec3 X Y Z)) /\
  has_nodes (prim p) o /\ has_nodes (imag p) o.
Lemma hs_outcome py p v c l o : wf_val l ->
  (exists e, not_resistivity v e /\ snd (init_hs py p v c l o) = Raise e) \/
  (is_zero_array v /\ snd (init_hs py p v c l o) = Raise (match float_ py c with Ok _ => ValueError | Raise _ => TypeError end)) \/
  (exists x, is_resistivity v x /\
    ((exists e, float_ py c = Raise e /\ snd (init_hs py p v c l o) = Raise TypeError) \/
     (exists y, float_ py c = Ok y /\
       ((exists e, not_place py (default_loc l origin) e /\ snd (init_hs py p v c l o) = Raise e) \/
        (exists X Y Z o', is_place py (default_loc l origin) X Y Z /\ init_hs py p v c l o = (o', Ok tt) /\
           hs_values p o' y x X Y Z /\ (forall k, (forall q, k <> p ++ q) -> o' k = o k)))))).
Proof.
  intros W. remember (init_hs py p v c l o) as r eqn:E. unfold init_hs in E.
  destruct (rho_cases py v) as [[x [s [rv [IN [O1 [O2 [O3 [O4 D]]]]]]]]|[e [NR H]]].
  2:{ left. exists e. split; [exact NR|]. unfold bind at 1 in E. specialize (H (prim p) o).
      destruct (init_pcws py (prim p) v (PNum (Fin 1)) PNone o) as [o' [t|e']]; cbn in H; [discriminate|]. rewrite E. cbn. congruence. }
  unfold bind at 1 in E. rewrite source_eq, O1, O2, O4 in E. unfold bind at 1 in E. rewrite source_eq, O1, O2, O4 in E.
  set (o2 := fresh_source (imag p) s (fresh_source (prim p) s o)) in E.
  assert (N1 : has_nodes (prim p) o2).
  { exists (Fin 0), (Fin 0), (Fin 0). unfold o2, fresh_source, prim, imag. rewrite !append_assoc, !keys_lookup. reflexivity. }
  assert (N2 : has_nodes (imag p) o2).
  { exists (Fin 0), (Fin 0), (Fin 0). unfold o2, fresh_source, prim, imag. rewrite !append_assoc, !keys_lookup. reflexivity. }
  assert (FR : forall k, (forall q, k <> p ++ q) -> o2 k = o k).
  { intros k K. unfold o2, fresh_source, prim, imag. rewrite !append_assoc. unfold upd.
    repeat match goal with |- context [String.eqb k ?a] => destruct (String.eqb_spec k a); [exfalso; eapply K; eassumption|] end. reflexivity. }
  clearbody o2.
  unfold bind at 1 in E. rewrite hs_current_eq in E.
  destruct D as [[IR [L1 L2]]|[NR [L1 _]]].
  2:{ right; left. split; [exact NR|]. destruct (float_ py c) as [y|e] eqn:C; [|now rewrite E].
      unfold bind at 1 in E. rewrite hs_rho_eq, O3, L1 in E. now rewrite E. }
  right; right. exists x. split; [exact IR|].
  destruct (float_ py c) as [y|e] eqn:C; [right; exists y; split; [reflexivity|]|left; exists e; split; [reflexivity|now rewrite E]].
  unfold bind at 1 in E. rewrite hs_rho_eq, O3, L1, L2, O4 in E.
  set (o3 := upd (upd (upd (upd _ _ _) _ _) _ _) _ _) in E.
  assert (N3 : has_nodes (prim p) o3 /\ has_nodes (imag p) o3 /\ o3 (p ++ "_current") = Some (AFlt y) /\ o3 (p ++ "_rho") = Some (AFlt x)).
  { unfold has_nodes, o3, prim, imag in *. rewrite !append_assoc in *. repeat (setoid_rewrite keys_lookup). cbn. auto. }
  assert (FR3 : forall k, (forall q, k <> p ++ q) -> o3 k = o k).
  { intros k K. rewrite <- (FR k K). unfold o3, prim, imag. rewrite !append_assoc. unfold upd.
    repeat match goal with |- context [String.eqb k ?a] => destruct (String.eqb_spec k a); [exfalso; eapply K; eassumption|] end. reflexivity. }
  clearbody o3. destruct N3 as [M1 [M2 [M3 M4]]].
  assert (WD : wf_val (default_loc l origin)) by (apply wf_default_loc; [exact W|reflexivity]).
  destruct (place_cases py (default_loc l origin) WD) as [[X [Y [Z [P F]]]]|[e [NP H]]].
  2:{ left. exists e. split; [exact NP|]. rewrite E. now apply H. }
  right. rewrite (place_set py p _ X Y Z o3 P M1 M2) in E. exists X, Y, Z. eexists. split; [exact P|]. split; [exact E|]. split.
  - unfold hs_values, has_nodes, prim, imag in *. rewrite !append_assoc in *. repeat (setoid_rewrite keys_lookup). cbn. rewrite M3, M4.
    split; [reflexivity|]. split; [reflexivity|]. split; [reflexivity|]. split; eauto.
  - intros k K. rewrite <- (FR3 k K). unfold prim, imag. rewrite !append_assoc. unfold upd.
    repeat match goal with |- context [String.eqb k ?a] => destruct (String.eqb_spec k a); [exfalso; eapply K; eassumption|] end. reflexivity.
Qed.
