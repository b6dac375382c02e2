(** Proofs for C105, fourth part: what a call returns is an object of Model_Setters.v. *)
From Coq Require Import Reals Lra Lia List Bool Arith ZArith String.
From Verif Require Import Numpy PyVal Model_Setters Spec_Setters Spec_Contracts Proof_Setters Proof_Setters2 Proof_Contracts Model_Construct Spec_Construct Proof_Construct Proof_Construct2 Proof_Construct3.
Import ListNotations.
Open Scope string_scope.
Open Scope R_scope.

Ltac arg_cases I tac :=
  cbn in I; repeat (match type of I with _ \/ _ => destruct I as [I|I]; [first [discriminate I|inversion I; subst; tac]|] end); try contradiction.
Lemma final_exists k pos kw a d : genuine pos kw -> well_formed_call k pos kw -> In (a, d) (arguments k) -> d <> Optional ->
  exists v, final k pos kw a = Some v /\ wf_val v /\ (none_is_default k a = true -> is_none v = false).
Proof.
  intros G [_ [_ [_ Rq]]] I N.
  assert (E : exists v, supplied k pos kw a d = Some v /\ (none_is_default k a = true -> is_none v = false)).
  { assert (Df : d <> Required -> exists v, d = Default v) by (destruct d; [congruence|eauto|congruence]).
    unfold supplied. destruct (written k pos kw a) as [w|] eqn:E.
    - destruct (is_none w && none_is_default k a) eqn:Q.
      + apply andb_true_iff in Q as [Q1 Q2].
        assert (Dr : d <> Required) by (intros ->; destruct k; try discriminate Q2; arg_cases I ltac:(discriminate Q2)).
        destruct (Df Dr) as [v ->]. exists v. split; [reflexivity|]. intros _.
        destruct k; try discriminate Q2; arg_cases I ltac:(first [discriminate Q2|reflexivity]).
      + exists w. split; [reflexivity|]. intros Q2. rewrite Q2, andb_true_r in Q. exact Q.
    - assert (Dr : d <> Required) by (intros ->; now apply (Rq a)).
      destruct (Df Dr) as [v ->]. exists v. split; [reflexivity|]. intros Q2.
      destruct k; try discriminate Q2; arg_cases I ltac:(first [discriminate Q2|reflexivity]). }
  destruct E as [v [E Q]]. exists v. rewrite <- (final_supplied k pos kw a d I) in E. split; [exact E|]. split; [|exact Q].
  now apply (final_wf k pos kw G a).
Qed.
Definition always_set (k : class) : list string :=
  map fst (filter (fun p => match snd p with Optional => false | _ => true end) (arguments k)).
Lemma final_exists' k pos kw a : genuine pos kw -> well_formed_call k pos kw -> mem a (always_set k) = true ->
  exists v, final k pos kw a = Some v /\ wf_val v /\ (none_is_default k a = true -> is_none v = false).
Proof.
  intros G W M. apply mem_In in M. unfold always_set in M. apply in_map_iff in M as [[b d] [E I]]. simpl in E. subst b.
  apply filter_In in I as [I F]. apply final_exists with (d := d); try assumption. intros ->. discriminate F.
Qed.
Tactic Notation "get_val" constr(a) constr(k) constr(pos) constr(kw) constr(G) constr(W) ident(v) ident(E) ident(Wf) ident(Nn) :=
  destruct (final_exists' k pos kw a G W eq_refl) as [v [E [Wf Nn]]].
Lemma pick_some g a v l : g a = Some v -> pick g (a :: l) = (a, v) :: pick g l.
Proof. intros E. unfold pick. simpl. now rewrite E. Qed.
Lemma step c a v l o o' : assign_seq c ((a, v) :: l) o = (o', Ok tt) ->
  exists s, setattr c "" a v o = (s, Ok tt) /\ assign_seq c l s = (o', Ok tt).
Proof.
  simpl. unfold bind. destruct (setattr c "" a v o) as [s [[]|e]]; [|discriminate]. intros H. now exists s.
Qed.
Lemma not_default v d : is_none v = false -> default_loc v d = v.
Proof. intros E. unfold default_loc. now rewrite E. Qed.
Lemma bind_ok (A B : Type) (m : M A) (f : A -> M B) o s x : m o = (s, Ok x) -> bind m f o = f x s.
Proof. intros E. unfold bind. now rewrite E. Qed.
Ltac use_step S :=
  let T := type of S in
  match T with _ = (?s, Ok tt) =>
    first [ exact S
          | match goal with |- context [match ?X with pair _ _ => _ end] =>
              let E := fresh in assert (E : X = (s, Ok tt)) by exact S; rewrite E; clear E end; cbv beta iota ]
  end.
Lemma static_magnetic_created py pos kw o : genuine pos kw -> call py CStaticMagnetic pos kw = (o, Ok tt) -> created py KMagneticDipoleWholeSpace o.
Proof.
  intros G H. destruct (call_ok _ _ _ _ _ H) as [W [A F]]. clear H.
  change (wnames (init_of CStaticMagnetic)) with ["sigma"; "mu"; "epsilon"; "moment"; "location"; "orientation"] in A.
  get_val "sigma" CStaticMagnetic pos kw G W v1 E1 W1 N1.
  get_val "mu" CStaticMagnetic pos kw G W v2 E2 W2 N2.
  get_val "epsilon" CStaticMagnetic pos kw G W v3 E3 W3 N3.
  get_val "moment" CStaticMagnetic pos kw G W v4 E4 W4 N4.
  get_val "location" CStaticMagnetic pos kw G W v5 E5 W5 N5.
  get_val "orientation" CStaticMagnetic pos kw G W v6 E6 W6 N6.
  rewrite (pick_some _ _ _ _ E1), (pick_some _ _ _ _ E2), (pick_some _ _ _ _ E3), (pick_some _ _ _ _ E4), (pick_some _ _ _ _ E5), (pick_some _ _ _ _ E6) in A.
  apply step in A; destruct A as [o1 [S1 A]].
  apply step in A; destruct A as [o2 [S2 A]].
  apply step in A; destruct A as [o3 [S3 A]].
  apply step in A; destruct A as [o4 [S4 A]].
  apply step in A; destruct A as [o5 [S5 A]].
  apply step in A; destruct A as [o6 [S6 A]].
  inversion A. subst o6. clear A.
  apply (mk_MagneticDipoleWholeSpace py v1 v2 v3 v4 v5 v6).
  - repeat (apply List.Forall_cons; [assumption|]). apply List.Forall_nil.
  - unfold init_mdws, init_em, init_mdipole, init_dipole.
    unfold bind. use_step S1. use_step S2. use_step S3. use_step S4. use_step S5. use_step S6.
Qed.
Lemma loop_created py pos kw o : genuine pos kw -> call py CLoop pos kw = (o, Ok tt) -> created py KCircularLoopWholeSpace o.
Proof.
  intros G H. destruct (call_ok _ _ _ _ _ H) as [W [A F]]. clear H.
  change (wnames (init_of CLoop)) with ["current"; "radius"; "sigma"; "mu"; "epsilon"; "location"; "orientation"] in A.
  get_val "current" CLoop pos kw G W v1 E1 W1 N1.
  get_val "radius" CLoop pos kw G W v2 E2 W2 N2.
  get_val "sigma" CLoop pos kw G W v3 E3 W3 N3.
  get_val "mu" CLoop pos kw G W v4 E4 W4 N4.
  get_val "epsilon" CLoop pos kw G W v5 E5 W5 N5.
  get_val "location" CLoop pos kw G W v6 E6 W6 N6.
  get_val "orientation" CLoop pos kw G W v7 E7 W7 N7.
  rewrite (pick_some _ _ _ _ E1), (pick_some _ _ _ _ E2), (pick_some _ _ _ _ E3), (pick_some _ _ _ _ E4), (pick_some _ _ _ _ E5), (pick_some _ _ _ _ E6), (pick_some _ _ _ _ E7) in A.
  apply step in A; destruct A as [o1 [S1 A]].
  apply step in A; destruct A as [o2 [S2 A]].
  apply step in A; destruct A as [o3 [S3 A]].
  apply step in A; destruct A as [o4 [S4 A]].
  apply step in A; destruct A as [o5 [S5 A]].
  apply step in A; destruct A as [o6 [S6 A]].
  apply step in A; destruct A as [o7 [S7 A]].
  inversion A. subst o7. clear A.
  apply (mk_CircularLoopWholeSpace py v2 v1 v3 v4 v5 v6 v7).
  - repeat (apply List.Forall_cons; [assumption|]). apply List.Forall_nil.
  - unfold init_loop, init_em, init_dipole.
    unfold bind. use_step S1. use_step S2. use_step S3. use_step S4. use_step S5. use_step S6. use_step S7.
Qed.
Lemma line_created py pos kw o : genuine pos kw -> call py CLine pos kw = (o, Ok tt) -> created py KLineCurrentWholeSpace o.
Proof.
  intros G H. destruct (call_ok _ _ _ _ _ H) as [W [A F]]. clear H.
  change (wnames (init_of CLine)) with ["nodes"; "current"; "sigma"; "mu"; "epsilon"] in A.
  get_val "nodes" CLine pos kw G W v1 E1 W1 N1.
  get_val "current" CLine pos kw G W v2 E2 W2 N2.
  get_val "sigma" CLine pos kw G W v3 E3 W3 N3.
  get_val "mu" CLine pos kw G W v4 E4 W4 N4.
  get_val "epsilon" CLine pos kw G W v5 E5 W5 N5.
  rewrite (pick_some _ _ _ _ E1), (pick_some _ _ _ _ E2), (pick_some _ _ _ _ E3), (pick_some _ _ _ _ E4), (pick_some _ _ _ _ E5) in A.
  apply step in A; destruct A as [o1 [S1 A]].
  apply step in A; destruct A as [o2 [S2 A]].
  apply step in A; destruct A as [o3 [S3 A]].
  apply step in A; destruct A as [o4 [S4 A]].
  apply step in A; destruct A as [o5 [S5 A]].
  inversion A. subst o5. clear A.
  apply (mk_LineCurrentWholeSpace py v1 v2 v3 v4 v5).
  - repeat (apply List.Forall_cons; [assumption|]). apply List.Forall_nil.
  - unfold init_linews, init_line, init_em.
    unfold bind. use_step S1. use_step S2. use_step S3. use_step S4. use_step S5.
Qed.
Lemma fdem_electric_created py pos kw o : genuine pos kw -> call py CFdemElectric pos kw = (o, Ok tt) -> created py KFdemElectricDipole o.
Proof.
  intros G H. destruct (call_ok _ _ _ _ _ H) as [W [A F]]. clear H.
  change (wnames (init_of CFdemElectric)) with ["frequency"; "quasistatic"; "sigma"; "mu"; "epsilon"; "length"; "current"; "location"; "orientation"] in A.
  get_val "frequency" CFdemElectric pos kw G W v1 E1 W1 N1.
  get_val "quasistatic" CFdemElectric pos kw G W v2 E2 W2 N2.
  get_val "sigma" CFdemElectric pos kw G W v3 E3 W3 N3.
  get_val "mu" CFdemElectric pos kw G W v4 E4 W4 N4.
  get_val "epsilon" CFdemElectric pos kw G W v5 E5 W5 N5.
  get_val "length" CFdemElectric pos kw G W v6 E6 W6 N6.
  get_val "current" CFdemElectric pos kw G W v7 E7 W7 N7.
  get_val "location" CFdemElectric pos kw G W v8 E8 W8 N8.
  get_val "orientation" CFdemElectric pos kw G W v9 E9 W9 N9.
  rewrite (pick_some _ _ _ _ E1), (pick_some _ _ _ _ E2), (pick_some _ _ _ _ E3), (pick_some _ _ _ _ E4), (pick_some _ _ _ _ E5), (pick_some _ _ _ _ E6), (pick_some _ _ _ _ E7), (pick_some _ _ _ _ E8), (pick_some _ _ _ _ E9) in A.
  apply step in A; destruct A as [o1 [S1 A]].
  apply step in A; destruct A as [o2 [S2 A]].
  apply step in A; destruct A as [o3 [S3 A]].
  apply step in A; destruct A as [o4 [S4 A]].
  apply step in A; destruct A as [o5 [S5 A]].
  apply step in A; destruct A as [o6 [S6 A]].
  apply step in A; destruct A as [o7 [S7 A]].
  apply step in A; destruct A as [o8 [S8 A]].
  apply step in A; destruct A as [o9 [S9 A]].
  inversion A. subst o9. clear A.
  apply (mk_FdemElectricDipole py v1 v2 v3 v4 v5 v6 v7 v8 v9).
  - repeat (apply List.Forall_cons; [assumption|]). apply List.Forall_nil.
  - unfold init_fdem, init_em, init_edipole, init_dipole.
    unfold bind. use_step S1. use_step S2. use_step S3. use_step S4. use_step S5. use_step S6. use_step S7. use_step S8. use_step S9.
Qed.
Lemma fdem_magnetic_created py pos kw o : genuine pos kw -> call py CFdemMagnetic pos kw = (o, Ok tt) -> created py KFdemMagneticDipole o.
Proof.
  intros G H. destruct (call_ok _ _ _ _ _ H) as [W [A F]]. clear H.
  change (wnames (init_of CFdemMagnetic)) with ["frequency"; "quasistatic"; "sigma"; "mu"; "epsilon"; "moment"; "location"; "orientation"] in A.
  get_val "frequency" CFdemMagnetic pos kw G W v1 E1 W1 N1.
  get_val "quasistatic" CFdemMagnetic pos kw G W v2 E2 W2 N2.
  get_val "sigma" CFdemMagnetic pos kw G W v3 E3 W3 N3.
  get_val "mu" CFdemMagnetic pos kw G W v4 E4 W4 N4.
  get_val "epsilon" CFdemMagnetic pos kw G W v5 E5 W5 N5.
  get_val "moment" CFdemMagnetic pos kw G W v6 E6 W6 N6.
  get_val "location" CFdemMagnetic pos kw G W v7 E7 W7 N7.
  get_val "orientation" CFdemMagnetic pos kw G W v8 E8 W8 N8.
  rewrite (pick_some _ _ _ _ E1), (pick_some _ _ _ _ E2), (pick_some _ _ _ _ E3), (pick_some _ _ _ _ E4), (pick_some _ _ _ _ E5), (pick_some _ _ _ _ E6), (pick_some _ _ _ _ E7), (pick_some _ _ _ _ E8) in A.
  apply step in A; destruct A as [o1 [S1 A]].
  apply step in A; destruct A as [o2 [S2 A]].
  apply step in A; destruct A as [o3 [S3 A]].
  apply step in A; destruct A as [o4 [S4 A]].
  apply step in A; destruct A as [o5 [S5 A]].
  apply step in A; destruct A as [o6 [S6 A]].
  apply step in A; destruct A as [o7 [S7 A]].
  apply step in A; destruct A as [o8 [S8 A]].
  inversion A. subst o8. clear A.
  apply (mk_FdemMagneticDipole py v1 v2 v3 v4 v5 v6 v7 v8).
  - repeat (apply List.Forall_cons; [assumption|]). apply List.Forall_nil.
  - unfold init_fdem, init_em, init_mdipole, init_dipole.
    unfold bind. use_step S1. use_step S2. use_step S3. use_step S4. use_step S5. use_step S6. use_step S7. use_step S8.
Qed.
Lemma fdem_halfspace_created py pos kw o : genuine pos kw -> call py CFdemHalfSpace pos kw = (o, Ok tt) -> created py KFdemMagneticDipole o.
Proof.
  intros G H. destruct (call_ok _ _ _ _ _ H) as [W [A F]]. clear H.
  change (wnames (init_of CFdemHalfSpace)) with ["frequency"; "quasistatic"; "sigma"; "mu"; "epsilon"; "moment"; "location"; "orientation"] in A.
  get_val "frequency" CFdemHalfSpace pos kw G W v1 E1 W1 N1.
  get_val "quasistatic" CFdemHalfSpace pos kw G W v2 E2 W2 N2.
  get_val "sigma" CFdemHalfSpace pos kw G W v3 E3 W3 N3.
  get_val "mu" CFdemHalfSpace pos kw G W v4 E4 W4 N4.
  get_val "epsilon" CFdemHalfSpace pos kw G W v5 E5 W5 N5.
  get_val "moment" CFdemHalfSpace pos kw G W v6 E6 W6 N6.
  get_val "location" CFdemHalfSpace pos kw G W v7 E7 W7 N7.
  get_val "orientation" CFdemHalfSpace pos kw G W v8 E8 W8 N8.
  rewrite (pick_some _ _ _ _ E1), (pick_some _ _ _ _ E2), (pick_some _ _ _ _ E3), (pick_some _ _ _ _ E4), (pick_some _ _ _ _ E5), (pick_some _ _ _ _ E6), (pick_some _ _ _ _ E7), (pick_some _ _ _ _ E8) in A.
  apply step in A; destruct A as [o1 [S1 A]].
  apply step in A; destruct A as [o2 [S2 A]].
  apply step in A; destruct A as [o3 [S3 A]].
  apply step in A; destruct A as [o4 [S4 A]].
  apply step in A; destruct A as [o5 [S5 A]].
  apply step in A; destruct A as [o6 [S6 A]].
  apply step in A; destruct A as [o7 [S7 A]].
  apply step in A; destruct A as [o8 [S8 A]].
  inversion A. subst o8. clear A.
  apply (mk_FdemMagneticDipole py v1 v2 v3 v4 v5 v6 v7 v8).
  - repeat (apply List.Forall_cons; [assumption|]). apply List.Forall_nil.
  - unfold init_fdem, init_em, init_mdipole, init_dipole.
    unfold bind. use_step S1. use_step S2. use_step S3. use_step S4. use_step S5. use_step S6. use_step S7. use_step S8.
Qed.
Lemma hpw_created py pos kw o : genuine pos kw -> call py CHarmonicPlaneWave pos kw = (o, Ok tt) -> created py KHarmonicPlaneWave o.
Proof.
  intros G H. destruct (call_ok _ _ _ _ _ H) as [W [A F]]. clear H.
  change (wnames (init_of CHarmonicPlaneWave)) with ["amplitude"; "orientation"; "frequency"; "quasistatic"; "sigma"; "mu"; "epsilon"] in A.
  get_val "amplitude" CHarmonicPlaneWave pos kw G W v1 E1 W1 N1.
  get_val "orientation" CHarmonicPlaneWave pos kw G W v2 E2 W2 N2.
  get_val "frequency" CHarmonicPlaneWave pos kw G W v3 E3 W3 N3.
  get_val "quasistatic" CHarmonicPlaneWave pos kw G W v4 E4 W4 N4.
  get_val "sigma" CHarmonicPlaneWave pos kw G W v5 E5 W5 N5.
  get_val "mu" CHarmonicPlaneWave pos kw G W v6 E6 W6 N6.
  get_val "epsilon" CHarmonicPlaneWave pos kw G W v7 E7 W7 N7.
  rewrite (pick_some _ _ _ _ E1), (pick_some _ _ _ _ E2), (pick_some _ _ _ _ E3), (pick_some _ _ _ _ E4), (pick_some _ _ _ _ E5), (pick_some _ _ _ _ E6), (pick_some _ _ _ _ E7) in A.
  apply step in A; destruct A as [o1 [S1 A]].
  apply step in A; destruct A as [o2 [S2 A]].
  apply step in A; destruct A as [o3 [S3 A]].
  apply step in A; destruct A as [o4 [S4 A]].
  apply step in A; destruct A as [o5 [S5 A]].
  apply step in A; destruct A as [o6 [S6 A]].
  apply step in A; destruct A as [o7 [S7 A]].
  inversion A. subst o7. clear A.
  apply (mk_HarmonicPlaneWave py v1 v2 v3 v4 v5 v6 v7).
  - repeat (apply List.Forall_cons; [assumption|]). apply List.Forall_nil.
  - unfold init_hpw, init_fdem, init_em.
    unfold bind. use_step S1. use_step S2. use_step S3. use_step S4. use_step S5. use_step S6. use_step S7.
Qed.
Lemma tdem_electric_created py pos kw o : genuine pos kw -> call py CTdemElectric pos kw = (o, Ok tt) -> created py KTdemElectricDipole o.
Proof.
  intros G H. destruct (call_ok _ _ _ _ _ H) as [W [A F]]. clear H.
  change (wnames (init_of CTdemElectric)) with ["time"; "sigma"; "mu"; "epsilon"; "length"; "current"; "location"; "orientation"] in A.
  get_val "time" CTdemElectric pos kw G W v1 E1 W1 N1.
  get_val "sigma" CTdemElectric pos kw G W v2 E2 W2 N2.
  get_val "mu" CTdemElectric pos kw G W v3 E3 W3 N3.
  get_val "epsilon" CTdemElectric pos kw G W v4 E4 W4 N4.
  get_val "length" CTdemElectric pos kw G W v5 E5 W5 N5.
  get_val "current" CTdemElectric pos kw G W v6 E6 W6 N6.
  get_val "location" CTdemElectric pos kw G W v7 E7 W7 N7.
  get_val "orientation" CTdemElectric pos kw G W v8 E8 W8 N8.
  rewrite (pick_some _ _ _ _ E1), (pick_some _ _ _ _ E2), (pick_some _ _ _ _ E3), (pick_some _ _ _ _ E4), (pick_some _ _ _ _ E5), (pick_some _ _ _ _ E6), (pick_some _ _ _ _ E7), (pick_some _ _ _ _ E8) in A.
  apply step in A; destruct A as [o1 [S1 A]].
  apply step in A; destruct A as [o2 [S2 A]].
  apply step in A; destruct A as [o3 [S3 A]].
  apply step in A; destruct A as [o4 [S4 A]].
  apply step in A; destruct A as [o5 [S5 A]].
  apply step in A; destruct A as [o6 [S6 A]].
  apply step in A; destruct A as [o7 [S7 A]].
  apply step in A; destruct A as [o8 [S8 A]].
  inversion A. subst o8. clear A.
  apply (mk_TdemElectricDipole py v1 v2 v3 v4 v5 v6 v7 v8).
  - repeat (apply List.Forall_cons; [assumption|]). apply List.Forall_nil.
  - unfold init_tdem, init_em, init_edipole, init_dipole.
    unfold bind. use_step S1. use_step S2. use_step S3. use_step S4. use_step S5. use_step S6. use_step S7. use_step S8.
Qed.
Lemma tdem_halfspace_created py pos kw o : genuine pos kw -> call py CTdemHalfSpace pos kw = (o, Ok tt) -> created py KTdemMagneticDipole o.
Proof.
  intros G H. destruct (call_ok _ _ _ _ _ H) as [W [A F]]. clear H.
  change (wnames (init_of CTdemHalfSpace)) with ["time"; "sigma"; "mu"; "epsilon"; "moment"; "location"; "orientation"] in A.
  get_val "time" CTdemHalfSpace pos kw G W v1 E1 W1 N1.
  get_val "sigma" CTdemHalfSpace pos kw G W v2 E2 W2 N2.
  get_val "mu" CTdemHalfSpace pos kw G W v3 E3 W3 N3.
  get_val "epsilon" CTdemHalfSpace pos kw G W v4 E4 W4 N4.
  get_val "moment" CTdemHalfSpace pos kw G W v5 E5 W5 N5.
  get_val "location" CTdemHalfSpace pos kw G W v6 E6 W6 N6.
  get_val "orientation" CTdemHalfSpace pos kw G W v7 E7 W7 N7.
  rewrite (pick_some _ _ _ _ E1), (pick_some _ _ _ _ E2), (pick_some _ _ _ _ E3), (pick_some _ _ _ _ E4), (pick_some _ _ _ _ E5), (pick_some _ _ _ _ E6), (pick_some _ _ _ _ E7) in A.
  apply step in A; destruct A as [o1 [S1 A]].
  apply step in A; destruct A as [o2 [S2 A]].
  apply step in A; destruct A as [o3 [S3 A]].
  apply step in A; destruct A as [o4 [S4 A]].
  apply step in A; destruct A as [o5 [S5 A]].
  apply step in A; destruct A as [o6 [S6 A]].
  apply step in A; destruct A as [o7 [S7 A]].
  inversion A. subst o7. clear A.
  apply (mk_TdemMagneticDipole py v1 v2 v3 v4 v5 v6 v7).
  - repeat (apply List.Forall_cons; [assumption|]). apply List.Forall_nil.
  - unfold init_tdem, init_em, init_mdipole, init_dipole.
    unfold bind. use_step S1. use_step S2. use_step S3. use_step S4. use_step S5. use_step S6. use_step S7.
Qed.
Lemma tpw_created py pos kw o : genuine pos kw -> call py CTransientPlaneWave pos kw = (o, Ok tt) -> created py KTransientPlaneWave o.
Proof.
  intros G H. destruct (call_ok _ _ _ _ _ H) as [W [A F]]. clear H.
  change (wnames (init_of CTransientPlaneWave)) with ["amplitude"; "orientation"; "time"; "sigma"; "mu"; "epsilon"] in A.
  get_val "amplitude" CTransientPlaneWave pos kw G W v1 E1 W1 N1.
  get_val "orientation" CTransientPlaneWave pos kw G W v2 E2 W2 N2.
  get_val "time" CTransientPlaneWave pos kw G W v3 E3 W3 N3.
  get_val "sigma" CTransientPlaneWave pos kw G W v4 E4 W4 N4.
  get_val "mu" CTransientPlaneWave pos kw G W v5 E5 W5 N5.
  get_val "epsilon" CTransientPlaneWave pos kw G W v6 E6 W6 N6.
  rewrite (pick_some _ _ _ _ E1), (pick_some _ _ _ _ E2), (pick_some _ _ _ _ E3), (pick_some _ _ _ _ E4), (pick_some _ _ _ _ E5), (pick_some _ _ _ _ E6) in A.
  apply step in A; destruct A as [o1 [S1 A]].
  apply step in A; destruct A as [o2 [S2 A]].
  apply step in A; destruct A as [o3 [S3 A]].
  apply step in A; destruct A as [o4 [S4 A]].
  apply step in A; destruct A as [o5 [S5 A]].
  apply step in A; destruct A as [o6 [S6 A]].
  inversion A. subst o6. clear A.
  apply (mk_TransientPlaneWave py v1 v2 v3 v4 v5 v6).
  - repeat (apply List.Forall_cons; [assumption|]). apply List.Forall_nil.
  - unfold init_tpw, init_tdem, init_em.
    unfold bind. use_step S1. use_step S2. use_step S3. use_step S4. use_step S5. use_step S6.
Qed.
Lemma pointmass_created py pos kw o : genuine pos kw -> call py CPointMass pos kw = (o, Ok tt) -> created py KPointMass o.
Proof.
  intros G H. destruct (call_ok _ _ _ _ _ H) as [W [A F]]. clear H.
  change (wnames (init_of CPointMass)) with ["mass"; "location"] in A.
  get_val "mass" CPointMass pos kw G W v1 E1 W1 N1.
  get_val "location" CPointMass pos kw G W v2 E2 W2 N2.
  rewrite (pick_some _ _ _ _ E1), (pick_some _ _ _ _ E2) in A.
  apply step in A; destruct A as [o1 [S1 A]].
  apply step in A; destruct A as [o2 [S2 A]].
  inversion A. subst o2. clear A.
  apply (mk_PointMass py v1 v2).
  - repeat (apply List.Forall_cons; [assumption|]). apply List.Forall_nil.
  - unfold init_pointmass.
    rewrite ?(not_default v2 _ (N2 eq_refl)).
    unfold bind. use_step S1. use_step S2.
Qed.
Lemma sphere_created py pos kw o : genuine pos kw -> call py CSphere pos kw = (o, Ok tt) -> created py KSphere o.
Proof.
  intros G H. destruct (call_ok _ _ _ _ _ H) as [W [A F]]. clear H.
  change (wnames (init_of CSphere)) with ["radius"; "mass"; "location"; "rho"] in A.
  get_val "radius" CSphere pos kw G W v1 E1 W1 N1.
  get_val "mass" CSphere pos kw G W v2 E2 W2 N2.
  get_val "location" CSphere pos kw G W v3 E3 W3 N3.
  get_val "rho" CSphere pos kw G W v4 E4 W4 N4.
  rewrite (pick_some _ _ _ _ E1), (pick_some _ _ _ _ E2), (pick_some _ _ _ _ E3), (pick_some _ _ _ _ E4) in A.
  apply step in A; destruct A as [o1 [S1 A]].
  apply step in A; destruct A as [o2 [S2 A]].
  apply step in A; destruct A as [o3 [S3 A]].
  apply step in A; destruct A as [o4 [S4 A]].
  inversion A. subst o4. clear A.
  apply (mk_Sphere py v1 v4 v3 v2).
  - repeat (apply List.Forall_cons; [assumption|]). apply List.Forall_nil.
  - unfold init_sphere.
    rewrite ?(not_default v3 _ (N3 eq_refl)).
    unfold bind. use_step S1. use_step S2. use_step S3. use_step S4.
Qed.
Lemma prism_created py pos kw o : genuine pos kw -> call py CPrism pos kw = (o, Ok tt) -> created py KPrism o.
Proof.
  intros G H. destruct (call_ok _ _ _ _ _ H) as [W [A F]]. clear H.
  change (wnames (init_of CPrism)) with ["rho"; "min_location"; "max_location"] in A.
  get_val "rho" CPrism pos kw G W v1 E1 W1 N1.
  get_val "min_location" CPrism pos kw G W v2 E2 W2 N2.
  get_val "max_location" CPrism pos kw G W v3 E3 W3 N3.
  rewrite (pick_some _ _ _ _ E1), (pick_some _ _ _ _ E2), (pick_some _ _ _ _ E3) in A.
  apply step in A; destruct A as [o1 [S1 A]].
  apply step in A; destruct A as [o2 [S2 A]].
  apply step in A; destruct A as [o3 [S3 A]].
  inversion A. subst o3. clear A.
  apply (mk_Prism py v2 v3 v1).
  - repeat (apply List.Forall_cons; [assumption|]). apply List.Forall_nil.
  - unfold init_gprism, init_prism.
    unfold bind. use_step S1. use_step S2. use_step S3. exact F.
Qed.
Lemma mprism_created py pos kw o : genuine pos kw -> call py CMagneticPrism pos kw = (o, Ok tt) -> created py KMagneticPrism o.
Proof.
  intros G H. destruct (call_ok _ _ _ _ _ H) as [W [A F]]. clear H.
  change (wnames (init_of CMagneticPrism)) with ["magnetization"; "min_location"; "max_location"] in A.
  get_val "magnetization" CMagneticPrism pos kw G W v1 E1 W1 N1.
  get_val "min_location" CMagneticPrism pos kw G W v2 E2 W2 N2.
  get_val "max_location" CMagneticPrism pos kw G W v3 E3 W3 N3.
  rewrite (pick_some _ _ _ _ E1), (pick_some _ _ _ _ E2), (pick_some _ _ _ _ E3) in A.
  apply step in A; destruct A as [o1 [S1 A]].
  apply step in A; destruct A as [o2 [S2 A]].
  apply step in A; destruct A as [o3 [S3 A]].
  inversion A. subst o3. clear A.
  apply (mk_MagneticPrism py v2 v3 v1).
  - repeat (apply List.Forall_cons; [assumption|]). apply List.Forall_nil.
  - unfold init_mprism, init_prism.
    rewrite ?(not_default v1 _ (N1 eq_refl)).
    unfold bind. use_step S1. use_step S2. use_step S3. exact F.
Qed.
Lemma essphere_created py pos kw o : genuine pos kw -> call py CElectrostaticSphere pos kw = (o, Ok tt) -> created py KElectrostaticSphere o.
Proof.
  intros G H. destruct (call_ok _ _ _ _ _ H) as [W [A F]]. clear H.
  change (wnames (init_of CElectrostaticSphere)) with ["radius"; "sigma_sphere"; "sigma_background"; "primary_field"; "location"] in A.
  get_val "radius" CElectrostaticSphere pos kw G W v1 E1 W1 N1.
  get_val "sigma_sphere" CElectrostaticSphere pos kw G W v2 E2 W2 N2.
  get_val "sigma_background" CElectrostaticSphere pos kw G W v3 E3 W3 N3.
  get_val "primary_field" CElectrostaticSphere pos kw G W v4 E4 W4 N4.
  get_val "location" CElectrostaticSphere pos kw G W v5 E5 W5 N5.
  rewrite (pick_some _ _ _ _ E1), (pick_some _ _ _ _ E2), (pick_some _ _ _ _ E3), (pick_some _ _ _ _ E4), (pick_some _ _ _ _ E5) in A.
  apply step in A; destruct A as [o1 [S1 A]].
  apply step in A; destruct A as [o2 [S2 A]].
  apply step in A; destruct A as [o3 [S3 A]].
  apply step in A; destruct A as [o4 [S4 A]].
  apply step in A; destruct A as [o5 [S5 A]].
  inversion A. subst o5. clear A.
  apply (mk_ElectrostaticSphere py v1 v2 v3 v4 v5).
  - repeat (apply List.Forall_cons; [assumption|]). apply List.Forall_nil.
  - unfold init_essphere.
    rewrite ?(not_default v4 _ (N4 eq_refl)).
    rewrite ?(not_default v5 _ (N5 eq_refl)).
    unfold bind. use_step S1. use_step S2. use_step S3. use_step S4. use_step S5.
Qed.
Lemma mssphere_created py pos kw o : genuine pos kw -> call py CMagnetostaticSphere pos kw = (o, Ok tt) -> created py KMagnetostaticSphere o.
Proof.
  intros G H. destruct (call_ok _ _ _ _ _ H) as [W [A F]]. clear H.
  change (wnames (init_of CMagnetostaticSphere)) with ["radius"; "mu_sphere"; "mu_background"; "primary_field"; "location"] in A.
  get_val "radius" CMagnetostaticSphere pos kw G W v1 E1 W1 N1.
  get_val "mu_sphere" CMagnetostaticSphere pos kw G W v2 E2 W2 N2.
  get_val "mu_background" CMagnetostaticSphere pos kw G W v3 E3 W3 N3.
  get_val "primary_field" CMagnetostaticSphere pos kw G W v4 E4 W4 N4.
  get_val "location" CMagnetostaticSphere pos kw G W v5 E5 W5 N5.
  rewrite (pick_some _ _ _ _ E1), (pick_some _ _ _ _ E2), (pick_some _ _ _ _ E3), (pick_some _ _ _ _ E4), (pick_some _ _ _ _ E5) in A.
  apply step in A; destruct A as [o1 [S1 A]].
  apply step in A; destruct A as [o2 [S2 A]].
  apply step in A; destruct A as [o3 [S3 A]].
  apply step in A; destruct A as [o4 [S4 A]].
  apply step in A; destruct A as [o5 [S5 A]].
  inversion A. subst o5. clear A.
  apply (mk_MagnetostaticSphere py v1 v2 v3 v4 v5).
  - repeat (apply List.Forall_cons; [assumption|]). apply List.Forall_nil.
  - unfold init_mssphere.
    rewrite ?(not_default v4 _ (N4 eq_refl)).
    rewrite ?(not_default v5 _ (N5 eq_refl)).
    unfold bind. use_step S1. use_step S2. use_step S3. use_step S4. use_step S5.
Qed.
Lemma oksar_created py pos kw o : genuine pos kw -> call py COksar pos kw = (o, Ok tt) -> created py KOksar o.
Proof.
  intros G H. destruct (call_ok _ _ _ _ _ H) as [W [A F]]. clear H.
  change (wnames (init_of COksar)) with ["O"; "U"; "V"; "center"; "depth_top"; "depth_bottom"; "strike"; "dip"; "rake"; "slip"; "length"; "beta"; "mu"; "shape"] in A.
  get_val "O" COksar pos kw G W v1 E1 W1 N1.
  get_val "U" COksar pos kw G W v2 E2 W2 N2.
  get_val "V" COksar pos kw G W v3 E3 W3 N3.
  get_val "center" COksar pos kw G W v4 E4 W4 N4.
  get_val "depth_top" COksar pos kw G W v5 E5 W5 N5.
  get_val "depth_bottom" COksar pos kw G W v6 E6 W6 N6.
  get_val "strike" COksar pos kw G W v7 E7 W7 N7.
  get_val "dip" COksar pos kw G W v8 E8 W8 N8.
  get_val "rake" COksar pos kw G W v9 E9 W9 N9.
  get_val "slip" COksar pos kw G W v10 E10 W10 N10.
  get_val "length" COksar pos kw G W v11 E11 W11 N11.
  get_val "beta" COksar pos kw G W v12 E12 W12 N12.
  get_val "mu" COksar pos kw G W v13 E13 W13 N13.
  get_val "shape" COksar pos kw G W v14 E14 W14 N14.
  rewrite (pick_some _ _ _ _ E1), (pick_some _ _ _ _ E2), (pick_some _ _ _ _ E3), (pick_some _ _ _ _ E4), (pick_some _ _ _ _ E5), (pick_some _ _ _ _ E6), (pick_some _ _ _ _ E7), (pick_some _ _ _ _ E8), (pick_some _ _ _ _ E9), (pick_some _ _ _ _ E10), (pick_some _ _ _ _ E11), (pick_some _ _ _ _ E12), (pick_some _ _ _ _ E13), (pick_some _ _ _ _ E14) in A.
  apply step in A; destruct A as [o1 [S1 A]].
  apply step in A; destruct A as [o2 [S2 A]].
  apply step in A; destruct A as [o3 [S3 A]].
  apply step in A; destruct A as [o4 [S4 A]].
  apply step in A; destruct A as [o5 [S5 A]].
  apply step in A; destruct A as [o6 [S6 A]].
  apply step in A; destruct A as [o7 [S7 A]].
  apply step in A; destruct A as [o8 [S8 A]].
  apply step in A; destruct A as [o9 [S9 A]].
  apply step in A; destruct A as [o10 [S10 A]].
  apply step in A; destruct A as [o11 [S11 A]].
  apply step in A; destruct A as [o12 [S12 A]].
  apply step in A; destruct A as [o13 [S13 A]].
  apply step in A; destruct A as [o14 [S14 A]].
  inversion A. subst o14. clear A.
  apply (mk_Oksar py v1 v2 v3 v4 v5 v6 v7 v8 v9 v10 v11 v12 v13 v14).
  - repeat (apply List.Forall_cons; [assumption|]). apply List.Forall_nil.
  - unfold init_oksar.
    unfold bind. use_step S1. use_step S2. use_step S3. use_step S4. use_step S5. use_step S6. use_step S7. use_step S8. use_step S9. use_step S10. use_step S11. use_step S12. use_step S13. use_step S14.
Qed.
Lemma params_seq py l g : (forall a, In a l -> exists v, g a = Some v) -> forall o,
  set_params py "" l (fun a => match g a with Some v => v | None => PNone end) o = assign_seq (EarthquakeInterferogram py) (pick g l) o.
Proof.
  induction l as [|a l IH]; intros H o; [reflexivity|]. destruct (H a (or_introl eq_refl)) as [v E].
  rewrite (pick_some g a v l E). simpl. rewrite E. unfold bind. destruct (setattr _ "" a v o) as [s [t|e]]; [|reflexivity].
  apply IH. intros; apply H; now right.
Qed.
Lemma kwargs_seq py l g : forall o, set_kwargs py "" l g o = assign_seq (EarthquakeInterferogram py) (pick g l) o.
Proof.
  induction l as [|a l IH]; intros o; [reflexivity|]. unfold pick. simpl. fold (pick g l).
  destruct (g a) as [v|]; simpl; [|apply IH]. unfold bind. destruct (setattr _ "" a v o) as [s [t|e]]; [|reflexivity]. apply IH.
Qed.
Lemma interferogram_created py pos kw o : genuine pos kw -> call py CInterferogram pos kw = (o, Ok tt) -> created py KEarthquakeInterferogram o.
Proof.
  intros G H. destruct (call_ok _ _ _ _ _ H) as [W [A F]]. clear H.
  change (wnames (init_of CInterferogram)) with (int_params ++ int_kwargs ++ [] ++ [])%list in A. rewrite !app_nil_r in A.
  pose (g := final CInterferogram pos kw). fold g in A.
  apply (mk_Interferogram py (fun a => match g a with Some v => v | None => PNone end) g).
  - intros a. destruct (g a) as [v|] eqn:E; [|exact I]. now apply (final_wf CInterferogram pos kw G a).
  - intros a v E. now apply (final_wf CInterferogram pos kw G a).
  - unfold init_interferogram. rewrite pick_app, assign_seq_app in A. unfold bind in *. rewrite params_seq.
    + change (EarthquakeInterferogram py) with (cls_of py (kind_of CInterferogram)).
      destruct (assign_seq _ (pick g int_params) empty_obj) as [s [t|e]]; [|discriminate A]. now rewrite kwargs_seq.
    + intros a Ia. destruct (final_exists' CInterferogram pos kw a G W) as [v [E _]]; [|exists v; exact E].
      apply mem_In. revert a Ia. apply subset_ok. reflexivity.
Qed.
Lemma call_created py k pos kw o : genuine pos kw -> call py k pos kw = (o, Ok tt) -> created py (kind_of k) o.
Proof.
  intros G H. destruct k; cbn [kind_of];
  [ eapply static_magnetic_created | eapply loop_created | eapply line_created | eapply fdem_electric_created
  | eapply fdem_magnetic_created | eapply fdem_halfspace_created | eapply hpw_created | eapply tdem_electric_created
  | eapply tdem_halfspace_created | eapply tpw_created | eapply pointmass_created | eapply sphere_created
  | eapply prism_created | eapply mprism_created | eapply essphere_created | eapply mssphere_created
  | eapply interferogram_created | eapply oksar_created ]; eassumption.
Qed.

(** ** Oksar's bottom depth, the loop's default radius, the sphere's mass *)
Lemma seq_at py k val a v : forall W o o', (forall a v, val a = Some v -> wf_val v) ->
  assign_seq (cls_of py k) (pick val W) o = (o', Ok tt) -> In a W -> val a = Some v ->
  exists o1 o2, setattr (cls_of py k) "" a v o1 = (o2, Ok tt) /\
    (forall b, (forall c, In c (after_name a W) -> harmless py k c b) -> reads (cls_of py k) o' b = reads (cls_of py k) o2 b).
Proof.
  induction W as [|b W IH]; intros o o' V H I E; [contradiction|].
  unfold pick in H. simpl in H. fold (pick val W) in H. simpl. destruct (String.eqb b a) eqn:Q.
  - apply String.eqb_eq in Q. subst b. rewrite E in H. simpl in H. unfold bind in H.
    destruct (setattr (cls_of py k) "" a v o) as [o1 [[]|e]] eqn:S; [|discriminate H].
    exists o, o1. split; [exact S|]. intros b F. now apply (seq_frame py k val b W o1 o' V H).
  - apply String.eqb_neq in Q. destruct I as [I|I]; [contradiction|].
    destruct (val b) as [w|] eqn:Eb; simpl in H.
    + unfold bind in H. destruct (setattr (cls_of py k) "" b w o) as [o1 [[]|e]] eqn:S; [|discriminate H].
      now apply (IH o1 o' V H I).
    + now apply (IH o o' V H I).
Qed.
Lemma oksar_depths py pos kw o : genuine pos kw -> call py COksar pos kw = (o, Ok tt) ->
  exists v x top, supplied COksar pos kw "depth_bottom" (number 10000) = Some v /\ float_ py v = Ok x /\
    reads (cls_of py KOksar) o "depth_top" = Ok (AFlt top) /\ flt x top = false /\
    reads (cls_of py KOksar) o "depth_bottom" = Ok (AFlt x).
Proof.
  intros G H. destruct (call_ok _ _ _ _ _ H) as [W [A _]].
  destruct (final_exists' COksar pos kw "depth_bottom" G W eq_refl) as [v [E [Wf _]]].
  assert (Iw : In "depth_bottom" (wnames (init_of COksar))) by (apply mem_In; reflexivity).
  destruct (seq_at py KOksar (final COksar pos kw) "depth_bottom" v _ empty_obj o (final_wf COksar pos kw G) A Iw E) as [o1 [o2 [S F]]].
  change (setattr (cls_of py KOksar) "" "depth_bottom" v o1) with (ok_set_depth_bottom py "" v o1) in S.
  unfold ok_set_depth_bottom, read_flt, as_flt, read, write, try_raise, check, raise, lift, bind, ret in S.
  change ("" ++ "_depth_top") with "_depth_top" in S. change ("" ++ "_depth_bottom") with "_depth_bottom" in S.
  destruct (float_ py v) as [x|] eqn:Ex; [|discriminate S]. destruct (o1 "_depth_top") as [[top| | | | | |]|] eqn:Et; try discriminate S.
  destruct (flt x top) eqn:Ef; [discriminate S|]. inversion S. subst o2. clear S.
  assert (Hm : forall b, In b ["depth_top"; "depth_bottom"] -> forall c, In c (after_name "depth_bottom" (wnames (init_of COksar))) -> harmless py KOksar c b).
  { intros b Ib c Ic. assert (Ic' : mem c (map fst (rules_of KOksar)) = true).
    { apply mem_In. revert c Ic. apply subset_ok. reflexivity. }
    apply mem_In, in_keys in Ic' as [r Ic'].
    apply rule_harmless with (r := r); [exact Ic'| |].
    - intros <-. apply mem_In in Ic. destruct Ib as [<-|[<-|[]]]; discriminate Ic.
    - intros D. destruct D as [[_ D]|[[D _]|[[_ [D|D]]|[[D _]|[D _]]]]]; try discriminate D; subst b; destruct Ib as [D|[D|[]]]; discriminate D. }
  assert (Id : In ("depth_bottom", number 10000) (arguments COksar)) by (cbn; tauto).
  exists v, x, top. split; [now rewrite <- (final_supplied COksar pos kw _ _ Id)|]. split; [exact Ex|].
  rewrite (F "depth_top" (Hm "depth_top" (or_introl eq_refl))), (F "depth_bottom" (Hm "depth_bottom" (or_intror (or_introl eq_refl)))).
  split; [|split; [exact Ef|reflexivity]].
  change (snd (read "_depth_top" (upd o1 "_depth_bottom" (AFlt x))) = Ok (AFlt top)). unfold read, upd.
  change (String.eqb "_depth_top" "_depth_bottom") with false. cbv iota. rewrite Et. reflexivity.
Qed.
Lemma default_loop py pos kw o : genuine pos kw -> call py CLoop pos kw = (o, Ok tt) -> written CLoop pos kw "radius" = None ->
  exists r, reads (cls_of py KCircularLoopWholeSpace) o "radius" = Ok (AFlt (Fin r)) /\ 0 < r /\ PI * r ^ 2 = 1.
Proof.
  intros G H N.
  assert (I : In ("radius", number (sqrt (1 / PI))) (arguments CLoop)) by (cbn; tauto).
  assert (Rr : In ("radius", Number Positive) (rules_of (kind_of CLoop))) by (cbn; tauto).
  assert (Sv : supplied CLoop pos kw "radius" (number (sqrt (1 / PI))) = Some (PNum (Fin (sqrt (1 / PI))))) by (unfold supplied; now rewrite N).
  destruct (call_stores py CLoop pos kw o _ _ _ _ G H I Rr Sv) as [x [D Rd]].
  destruct D as [[e [D _]]|[[y [D [_ E]]]|[y [_ [_ E]]]]]; try discriminate.
  inversion D. inversion E. subst. exists (sqrt (1 / PI)).
  assert (P : 0 < 1 / PI) by (apply Rdiv_lt_0_compat; [lra|apply PI_RGT_0]).
  split; [|split].
  - apply Rd. unfold misread. intros [[M _]|[M _]]; discriminate M.
  - now apply sqrt_lt_R0.
  - simpl. rewrite Rmult_1_r, sqrt_sqrt by lra. field. apply PI_neq0.
Qed.
Lemma ok_is_acceptable py k pos kw o : genuine pos kw -> call py k pos kw = (o, Ok tt) -> acceptable py k pos kw.
Proof.
  intros G H a d r v I Rr Sv. destruct (call_stores py k pos kw o a d r v G H I Rr Sv) as [x [D _]]. now exists x.
Qed.
Lemma point_mass_example py : exists o, call py CPointMass [PNum (Fin 5)] [] = (o, Ok tt) /\
  reads (cls_of py KPointMass) o "mass" = Ok (AFlt (Fin 5)) /\ reads (cls_of py KPointMass) o "location" = Ok (AArr (fin3 0 0 0)).
Proof. eexists. split; [reflexivity|]. split; reflexivity. Qed.
Lemma sphere_example py : exists o, call py CSphere [PNum (Fin 1); PNum (Fin 3)] [("mass", PNum (Fin 1000))] = (o, Ok tt) /\
  reads (cls_of py KSphere) o "mass" = Ok (AFlt (Fin (4 / 3 * PI * (1 * 1 * 1) * 3))).
Proof.
  assert (H1 : Rltb 1 0 = false) by (apply Rltb_false; lra).
  assert (H2 : Reqb (4 * PI * (1 * 1 * 1)) 0 = false).
  { destruct (Reqb (4 * PI * (1 * 1 * 1)) 0) eqn:E; [|reflexivity]. apply Reqb_true in E. pose proof PI_RGT_0. lra. }
  eexists. split.
  - lazy -[Rltb Reqb Rmult Rdiv Rinv PI IZR Rplus]. rewrite H1. lazy -[Rltb Reqb Rmult Rdiv Rinv PI IZR Rplus]. rewrite H2.
    lazy -[Rltb Reqb Rmult Rdiv Rinv PI IZR Rplus]. reflexivity.
  - reflexivity.
Qed.
Ltac num_lazy := lazy -[Rltb Rleb Reqb Rmult Rdiv Rinv PI IZR Rplus sqrt].
Lemma loop_example py : exists o, call py CLoop [] [] = (o, Ok tt).
Proof.
  assert (P : 0 < sqrt (1 / PI)) by (apply sqrt_lt_R0, Rdiv_lt_0_compat; [lra|apply PI_RGT_0]).
  pose proof PI_RGT_0.
  assert (H1 : Rleb (sqrt (1 / PI)) 0 = false) by (apply Rleb_false; lra).
  assert (H2 : Rleb 1 0 = false) by (apply Rleb_false; lra).
  assert (H3 : Rleb (4 * PI / 10000000) 0 = false) by (apply Rleb_false; lra).
  eexists. num_lazy. rewrite H1. num_lazy. rewrite H2. num_lazy. rewrite H3. num_lazy.
  match goal with |- context [Rltb ?a ?b] => let H := fresh in assert (H : Rltb a b = false) by (apply Rltb_false; lra); rewrite H; clear H end.
  num_lazy. reflexivity.
Qed.
Definition pair_of (x y : R) : pyval := PArr (mkarr [2%nat] [Fin x; Fin y]).
Lemma oksar_example : exists py o, 
  call py COksar [pair_of 0 0; pair_of 1 0; pair_of 0 1; pair_of 0 0; PNum (Fin 1000)] [("slip", PNum (Fin 2))] = (o, Ok tt).
Proof.
  exists (mkpyext (fun _ => None) (fun _ => Raise TypeError) (fun _ => Raise TypeError) (fun _ => Ok [300%Z; 300%Z]) (fun _ => Raise TypeError)).
  eexists. num_lazy.
  repeat (match goal with |- context [Rltb ?a ?b] => 
    let H := fresh in assert (H : Rltb a b = false) by (apply Rltb_false; lra); rewrite H; clear H end; num_lazy).
  reflexivity.
Qed.
