(** Proofs for C113, continued: the dipole and the whole-space electrode. *)
From Coq Require Import Reals Lra Lia List Bool Arith ZArith String.
From Verif Require Import Numpy PyVal Spec_Setters Model_Setters Proof_Setters Proof_Setters2 Proof_Setters3 Proof_Setters4 Proof_Setters5.
From Verif Require Import Spec_Contracts Proof_Contracts Model_Construct Spec_Construct Proof_Construct Model_Electrodes Spec_Electrodes Proof_Electrodes Proof_Electrodes2.
Import ListNotations.
Open Scope string_scope.
Open Scope R_scope.

Lemma resistivity_facts py v x : is_resistivity v x ->
  float_ py v = Ok x /\ le0 x = false /\ exists s, fdiv_py (Fin 1) x = Ok s /\ le0 s = false.
Proof.
  intros [IN P]. split; [destruct IN as [->|[a [-> A]]]; cbn; [reflexivity|now rewrite A]|].
  destruct P as [->|[r [-> P]]]; [split; [reflexivity|]; exists NaN; split; reflexivity|].
  split; [apply Rleb_false; lra|]. exists (Fin (1 / r)). split.
  - cbn. unfold Reqb. destruct (Req_EM_T r 0); [lra|reflexivity].
  - apply Rleb_false. apply Rdiv_lt_0_compat; lra.
Qed.
Lemma dhs_loc_good py k sub p v X Y Z o : is_place py v X Y Z -> k = "_location_a" \/ k = "_location_b" ->
  sub = suba \/ sub = subb ->  p = "" ->
  has_nodes (prim (sub p)) o -> has_nodes (imag (sub p)) o ->
  exists o', dhs_set_loc py k sub p v o = (o', Ok tt) /\ o' (p ++ k) = Some (AArr (vec3 X Y Z)) /\
   (forall q, q <> p ++ k -> q <> sub p ++ "_location" -> q <> prim (sub p) ++ "_nodes" -> q <> imag (sub p) ++ "_nodes" -> o' q = o q).
Proof.
  intros [A F] K S -> N1 N2. unfold dhs_set_loc, atleast_1d_float.
  unfold bind at 1, try_raise at 1, lift at 1. rewrite A. unfold rmap. change (atleast_1d (vec3 X Y Z)) with (vec3 X Y Z).
  unfold bind at 1, check at 1. change (negb (Nat.eqb (alen (vec3 X Y Z)) 3)) with false. unfold ret at 1.
  unfold bind at 1, check at 1. change (existsb (fun z0 : fl => flt (Fin 0) z0) (last_axis_last (vec3 X Y Z))) with (flt (Fin 0) Z || false)%bool.
  pose proof F as F'. apply not_above in F'. rewrite F'. cbn [orb]. unfold ret at 1. unfold bind at 1, write at 1.
  rewrite hsp_location.
  set (o1 := upd o ("" ++ k) (AArr (vec3 X Y Z))).
  assert (M1 : has_nodes (prim (sub "")) o1).
  { unfold has_nodes, o1, upd in *. destruct K as [-> | ->], S as [-> | ->]; exact N1. }
  assert (M2 : has_nodes (imag (sub "")) o1).
  { unfold has_nodes, o1, upd in *. destruct K as [-> | ->], S as [-> | ->]; exact N2. }
  rewrite (place_set py (sub "") (PArr (vec3 X Y Z)) X Y Z o1 (conj eq_refl F) M1 M2).
  eexists. split; [reflexivity|]. split.
  - unfold o1, upd. destruct K as [-> | ->], S as [-> | ->]; reflexivity.
  - intros q Q1 Q2 Q3 Q4. unfold o1, upd.
    repeat match goal with |- context [String.eqb q ?a] => destruct (String.eqb_spec q a); [contradiction|] end. reflexivity.
Qed.

Lemma resistivity_only v x : is_resistivity v x ->
  (forall e, ~ not_resistivity v e) /\ ~ is_zero_array v /\ (forall x', is_resistivity v x' -> x' = x).
Proof.
  intros [IN P].
  assert (U : forall x', is_number v x' -> x' = x).
  { intros x' I2. destruct IN as [->|[a [-> A]]], I2 as [H|[b [H B]]]; congruence. }
  split; [|split].
  - intros e [[-> _]|[[[x' [I2 H]] _]|[[H _]|H]]].
    + specialize (U (Fin 0) (or_introl eq_refl)). subst x. destruct P as [P|[r [P Q]]]; [discriminate|]. injection P as <-. lra.
    + apply U in I2 as ->. destruct P as [->|[r [-> Q]]]; destruct H as [H|[H|[r' [H L]]]]; try discriminate. injection H as <-. lra.
    + destruct IN as [->|[a [-> A]]]; destruct H as [H|[[? H]|[[? H]|[[? H]|[b [H B]]]]]]; try discriminate.
      injection H as <-. now apply (B x).
    + subst v. destruct IN as [H|[a [H _]]]; discriminate.
  - intros [a [-> A]]. destruct IN as [H|[b [H B]]]; [discriminate|]. injection H as <-. rewrite A in B. injection B as <-.
    destruct P as [P|[r [P Q]]]; [discriminate|]. injection P as <-. lra.
  - intros x' [I2 _]. now apply U.
Qed.

Definition a0 : arr := vec3 (Fin (-1)) (Fin 0) (Fin 0).
Definition b0 : arr := vec3 (Fin 1) (Fin 0) (Fin 0).
Lemma default_place py x : is_place py (PArr (vec3 (Fin x) (Fin 0) (Fin 0))) (Fin x) (Fin 0) (Fin 0).
Proof. split; [reflexivity|]. right; right. exists 0. split; [reflexivity|lra]. Qed.
Lemma place_default py l d d' x e :
  d = vec3 (Fin x) (Fin 0) (Fin 0) -> not_place py (default_loc l d) e -> not_place py (default_loc l d') e.
Proof.
  intros -> H. destruct l; try exact H. exfalso. cbn in H. destruct H as [[[e' H] _]|[_ [H _]]]; [discriminate|].
  apply (H (Fin x) (Fin 0) (Fin 0)). apply default_place.
Qed.
Lemma place_default_ex py l d X Y Z x : is_place py (default_loc l d) X Y Z -> 
  exists X' Y' Z', is_place py (default_loc l (vec3 (Fin x) (Fin 0) (Fin 0))) X' Y' Z'.
Proof. intros H. destruct l; try (exists X, Y, Z; exact H). cbn. eauto using default_place. Qed.

Lemma dhs_outcome py v la lb c o : wf_val la -> wf_val lb ->
  let r := init_dhs py "" v la lb c o in
  (exists e, not_resistivity v e /\ snd r = Raise e) \/
  (is_zero_array v /\ snd r = Raise ValueError) \/
  (exists x, is_resistivity v x /\
    ((exists e, not_place py (default_loc la a0) e /\ snd r = Raise e) \/
     (exists Xa Ya Za, is_place py (default_loc la a0) Xa Ya Za /\
       ((exists e, not_place py (default_loc lb b0) e /\ snd r = Raise e) \/
        (exists Xb Yb Zb, is_place py (default_loc lb b0) Xb Yb Zb /\
          ((exists e, float_ py c = Raise e /\ snd r = Raise TypeError) \/
           (exists y o', float_ py c = Ok y /\ r = (o', Ok tt) /\
              o' "_current" = Some (AFlt y) /\ o' "_rho" = Some (AFlt x) /\
              o' "_location_a" = Some (AArr (vec3 Xa Ya Za)) /\ o' "_location_b" = Some (AArr (vec3 Xb Yb Zb))))))))).
Proof.
  intros Wa Wb r. assert (E : r = init_dhs py "" v la lb c o) by reflexivity. clearbody r. unfold init_dhs in E.
  unfold bind at 1 in E.
  destruct (hs_outcome py (suba "") v (PNum (Fin 1)) la o Wa) as [[e [NR H]]|[[Z H]|[x [IR H]]]].
  { left. exists e. split; [exact NR|]. destruct (init_hs py (suba "") v (PNum (Fin 1)) la o) as [o' [t|e']]; cbn in H; [discriminate|]. rewrite E. exact H. }
  { right; left. split; [exact Z|]. destruct (init_hs py (suba "") v (PNum (Fin 1)) la o) as [o' [t|e']]; cbn in H; [discriminate|]. rewrite E. exact H. }
  right; right. exists x. split; [exact IR|].
  destruct H as [[e [Q _]]|[y1 [Q [[e [NP H]]|[X [Y [Z [o1 [P [H [V1 FR1]]]]]]]]]]]; [discriminate Q| |].
  { left. exists e. split; [now apply place_default with (d := origin) (x := 0)|].
    destruct (init_hs py (suba "") v (PNum (Fin 1)) la o) as [o' [t|e']]; cbn in H; [discriminate|]. rewrite E. exact H. }
  right. destruct (place_default_ex py la origin X Y Z (-1) P) as [Xa [Ya [Za Pa]]]. exists Xa, Ya, Za. split; [exact Pa|].
  rewrite H in E. unfold bind at 1 in E. clear H P.
  assert (V1' : exists c' l1 l2 l3, hs_values (suba "") o1 c' x l1 l2 l3) by eauto. clear V1 X Y Z y1 Q FR1.
  destruct (hs_outcome py (subb "") v (PNum (Fin 1)) lb o1 Wb) as [[e [NR H]]|[[Z H]|[x' [IR' H]]]].
  { destruct (resistivity_only v x IR) as [K _]. now destruct (K e). }
  { destruct (resistivity_only v x IR) as [_ [K _]]. contradiction. }
  destruct (resistivity_only v x IR) as [_ [_ K]]. apply K in IR' as ->. clear K.
  destruct H as [[e [Q _]]|[y1 [Q [[e [NP H]]|[X [Y [Z [o2 [P [H [V2 FR2]]]]]]]]]]]; [discriminate Q| |].
  { left. exists e. split; [now apply place_default with (d := origin) (x := 0)|].
    destruct (init_hs py (subb "") v (PNum (Fin 1)) lb o1) as [o' [t|e']]; cbn in H; [discriminate|]. rewrite E. exact H. }
  right. destruct (place_default_ex py lb origin X Y Z 1 P) as [Xb [Yb [Zb Pb]]]. exists Xb, Yb, Zb. split; [exact Pb|].
  rewrite H in E. clear H P.
  assert (V1 : exists c' l1 l2 l3, hs_values (suba "") o2 c' x l1 l2 l3).
  { destruct V1' as [c' [l1 [l2 [l3 V]]]]. exists c', l1, l2, l3. unfold hs_values, has_nodes in *.
    rewrite !FR2; [exact V|..]; intros q; destruct q; discriminate. }
  clear V1' FR2 o o1. rename o2 into o.
  destruct V1 as [ca [l1 [l2 [l3 [_ [_ [_ [Na1 Na2]]]]]]]]. destruct V2 as [_ [_ [_ [Nb1 Nb2]]]].
  destruct (resistivity_facts py v x IR) as [Fv [L1 [s [D L2]]]].
  unfold bind at 1 in E. unfold dhs_set_current at 1 in E. unfold bind at 1, try_raise at 1, lift at 1 in E.
  destruct (float_ py c) as [y|e] eqn:C; [right; exists y|left; exists e; split; [reflexivity|now rewrite E]].
  unfold bind at 1, write at 1 in E. unfold bind at 1 in E. rewrite hsp_current, hs_current_eq in E. cbn [float_] in E.
  rewrite hsp_current, hs_current_eq in E. cbn [float_] in E.
  unfold bind at 1 in E. unfold dhs_set_rho in E. unfold bind at 1, try_raise at 1, lift at 1 in E. rewrite Fv in E.
  unfold bind at 1, check at 1 in E. rewrite L1 in E. unfold ret at 1 in E. unfold bind at 1, write at 1 in E.
  unfold bind at 1 in E. rewrite hsp_rho, hs_rho_eq in E. cbn [float_] in E. rewrite L1, D, L2 in E.
  rewrite hsp_rho, hs_rho_eq in E. cbn [float_] in E. rewrite L1, D, L2 in E.
  unfold bind at 1 in E.
  match type of E with context [dhs_set_loc py "_location_a" suba "" _ ?st] => set (o3 := st) in E end.
  assert (I3 : o3 "_current" = Some (AFlt y) /\ o3 "_rho" = Some (AFlt x)) by (split; reflexivity).
  assert (Ma1 : has_nodes (prim (suba "")) o3) by exact Na1. assert (Ma2 : has_nodes (imag (suba "")) o3) by exact Na2.
  assert (Mb1 : has_nodes (prim (subb "")) o3) by exact Nb1. assert (Mb2 : has_nodes (imag (subb "")) o3) by exact Nb2.
  clearbody o3. clear Na1 Na2 Nb1 Nb2.
  destruct (dhs_loc_good py "_location_a" suba "" (default_loc la a0) Xa Ya Za o3 Pa (or_introl eq_refl) (or_introl eq_refl) eq_refl Ma1 Ma2) as [o4 [E4 [R4 F4]]].
  fold a0 b0 in E. rewrite E4 in E.
  assert (Mb3 : has_nodes (prim (subb "")) o4) by (unfold has_nodes; rewrite F4 by discriminate; exact Mb1).
  assert (Mb4 : has_nodes (imag (subb "")) o4) by (unfold has_nodes; rewrite F4 by discriminate; exact Mb2).
  destruct (dhs_loc_good py "_location_b" subb "" (default_loc lb b0) Xb Yb Zb o4 Pb (or_intror eq_refl) (or_intror eq_refl) eq_refl Mb3 Mb4) as [o5 [E5 [R5 F5]]].
  rewrite E5 in E. exists o5. split; [reflexivity|]. split; [exact E|].
  rewrite !F5 by discriminate. rewrite !F4 by discriminate. destruct I3 as [-> ->]. cbn in R4, R5. rewrite R4, R5. auto.
Qed.

(** ** the whole-space electrode *)
Lemma nodes_cases py p v o : wf_val v ->
  (exists e, demands py Nodes v (Refused e) /\ snd (line_set_nodes py p v o) = Raise e) \/
  (exists a, demands py Nodes v (Stored (AArr a)) /\ line_set_nodes py p v o = (upd o (p ++ "_nodes") (AArr a), Ok tt)).
Proof.
  intros W. unfold line_set_nodes, demands. sbind. destruct (asarray py v) as [a|e] eqn:A; [|left; exists TypeError; split; [left; eauto|reflexivity]].
  destruct a as [sh d]. unfold atleast_2d. cbn [ashape adata].
  destruct sh as [|n [|m [|k sh]]]; cbn [ashape nth ndim List.length Nat.eqb negb orb].
  - left. exists ValueError. split; [|reflexivity]. right; right; right. exists (mkarr [] d). repeat split; discriminate.
  - destruct (Nat.eqb n 3) eqn:N.
    + apply Nat.eqb_eq in N. subst n. right. exists (mkarr [1%nat; 3%nat] d). split; [|reflexivity]. right; right; left. eexists; eauto.
    + apply Nat.eqb_neq in N. left. exists ValueError. split; [|reflexivity]. right; right; right. exists (mkarr [n] d). repeat split; cbn; [congruence|discriminate].
  - destruct (Nat.eqb m 3) eqn:N.
    + apply Nat.eqb_eq in N. subst m. right. exists (mkarr [n; 3%nat] d). split; [|reflexivity]. right; left. eexists; exists n; eauto.
    + apply Nat.eqb_neq in N. left. exists ValueError. split; [|reflexivity]. right; right; right. exists (mkarr [n; m] d). repeat split; cbn; congruence.
  - left. exists ValueError. split; [|now rewrite orb_true_r]. right; right; right. exists (mkarr (n :: m :: k :: sh) d). repeat split; cbn; discriminate.
Qed.
Lemma whole_raise py v c l e o : snd (init_pcws py "" v (PNum (Fin 1)) PNone o) = Raise e ->
  (exists e', snd (init_pcws py "" v c l o) = Raise e' /\
    (e' = e \/ snd (line_set_nodes py "" (default_loc l origin) o) = Raise e' \/ ((exists e2, float_ py c = Raise e2) /\ e' = TypeError))).
Proof.
  rewrite source_eq. unfold init_pcws. unfold bind at 1, lift at 1. destruct (one_over py v) as [rv|e0].
  2:{ cbn. intros H. injection H as <-. eauto. }
  intros H. unfold init_linews, init_line. unfold bind at 1, bind at 1.
  destruct (line_set_nodes py "" (default_loc l origin) o) as [o1 [t|e1]]; [|cbn; eauto].
  unfold set_float at 1. unfold bind at 1, try_raise at 1, lift at 1. destruct (float_ py c) as [y|e1]; [|cbn; eauto 7].
  cbn [never check]. unfold bind at 1, ret at 1. unfold write at 1.
  unfold init_em, em_set_sigma. unfold bind at 1. unfold set_float at 1. unfold bind at 1, try_raise at 1, lift at 1.
  destruct (float_ py rv) as [s|e1]; [|cbn in *; injection H as <-; eauto].
  unfold bind at 1, check at 1. destruct (le0 s); [cbn in *; injection H as <-; eauto|]. cbn in H. discriminate.
Qed.
Lemma whole_outcome py v c l o : wf_val l ->
  let r := init_pcws py "" v c l o in
  (exists e, snd r = Raise e /\ (not_resistivity v e \/ demands py Nodes (default_loc l origin) (Refused e) \/
      ((exists e', float_ py c = Raise e') /\ e = TypeError))) \/
  (exists y a s o', float_ py c = Ok y /\ demands py Nodes (default_loc l origin) (Stored (AArr a)) /\
      ((is_zero_array v /\ s = PInf) \/ exists x, is_resistivity v x /\ fdiv_py (Fin 1) x = Ok s) /\
      r = (o', Ok tt) /\ o' "_current" = Some (AFlt y) /\ o' "_nodes" = Some (AArr a) /\ o' "_sigma" = Some (AFlt s)).
Proof.
  intros W r. assert (E : r = init_pcws py "" v c l o) by reflexivity. clearbody r.
  assert (WD : wf_val (default_loc l origin)) by (apply wf_default_loc; [exact W|reflexivity]).
  destruct (nodes_cases py "" (default_loc l origin) o WD) as [[e1 [N1 N2]]|[a [N1 N2]]].
  - left. unfold init_pcws in E. unfold bind at 1, lift at 1 in E.
    destruct (rho_cases py v) as [[x [s [rv [IN [O1 [O2 [O3 [O4 D]]]]]]]]|[e [NR H]]].
    + exists e1. split; [|auto]. rewrite O1 in E. unfold init_linews, init_line in E. unfold bind at 1, bind at 1 in E.
      destruct (line_set_nodes py "" (default_loc l origin) o) as [o1 [t|e']]; cbn in N2; [discriminate|]. rewrite E. cbn. congruence.
    + destruct (whole_raise py v c l e o (H "" o)) as [e' [R Q]]. exists e'. split; [rewrite E; exact R|].
      destruct Q as [->|[Q|[Q ->]]]; [auto| |auto]. rewrite N2 in Q. injection Q as <-. auto.
  - destruct (rho_cases py v) as [[x [s [rv [IN [O1 [O2 [O3 [O4 D]]]]]]]]|[e [NR H]]].
    2:{ left. destruct (whole_raise py v c l e o (H "" o)) as [e' [R Q]]. exists e'. split; [rewrite E; exact R|].
      destruct Q as [->|[Q|[Q ->]]]; [auto| |auto]. rewrite N2 in Q. discriminate Q. }
    unfold init_pcws in E. unfold bind at 1, lift at 1 in E. rewrite O1 in E. unfold init_linews, init_line in E. unfold bind at 1, bind at 1 in E.
    rewrite N2 in E. unfold set_float at 1 in E. unfold bind at 1, try_raise at 1, lift at 1 in E.
    destruct (float_ py c) as [y|e] eqn:C.
    2:{ left. exists TypeError. split; [now rewrite E|]. right; right. split; [eauto|reflexivity]. }
    right. unfold bind at 1 in E. cbn [never check] in E. unfold ret at 1 in E. unfold write at 1 in E.
    unfold init_em, em_set_sigma, em_set_mu, em_set_epsilon, set_float in E. unfold bind, try_raise, lift, check in E.
    rewrite O2 in E. rewrite O4 in E. cbn [float_] in E. rewrite c_mu0_ok, c_eps0_ok in E. unfold ret, write in E.
    exists y, a, s. eexists. split; [reflexivity|]. split; [exact N1|]. split.
    { destruct D as [[IR [_ D]]|[Z [_ ->]]]; [right; eauto|left; auto]. }
    split; [exact E|]. repeat split.
Qed.
