(** Array-level statements about the layered dipole. *)
From Coq Require Import String Reals Lra Lia List Arith Bool.
From Coquelicot Require Import Coquelicot.
From Verif Require Import Vec3 Cplx Numpy Model_RTE Model_Static Model_Layered Spec_FDEM Spec_Layered Proof_RTE Proof_RTE6 Proof_Layered Proof_Layered2.
Import ListNotations.
Open Scope R_scope.

Lemma mf_entry' mu_0 flt s xyz field r :
  magnetic_field mu_0 flt s xyz field = Ok r -> exists g, arrays s = Ok g /\ shapes_ok s g /\
  shaped (n_frequency s) (length xyz) r /\
  forall f k, (f < n_frequency s)%nat -> (k < length xyz)%nat ->
    entry r f k = closed flt (ly_location s) (ly_orientation s) (ly_moment s) (String.eqb field "total") (nth k xyz vzero) (refl mu_0 flt s g f (nth k xyz vzero)).
Proof.
  intros H. destruct (proj1 (mf_ok _ _ _ _ _ _) H) as (_ & _ & _ & _ & g & G & S & _). exists g. split; [assumption|]. split; [assumption|].
  destruct (mf_entry mu_0 flt s xyz field r g H G) as [A B]. split; [assumption|]. intros f k L K. rewrite <- receiver_closed. auto.
Qed.
Lemma mf_ok_any mu_0 flt s xyz field r field' : magnetic_field mu_0 flt s xyz field = Ok r -> exists r', magnetic_field mu_0 flt s xyz field' = Ok r'.
Proof.
  intros H. apply mf_ok in H. destruct H as (A & B & D & E & g & G & S & _). eexists. apply mf_ok. repeat (split; [eassumption|]).
  exists g. split; [assumption|]. split; [assumption|]. reflexivity.
Qed.

Lemma total_lemma mu_0 flt s xyz mu t : mu <> 0 -> magnetic_field mu_0 flt s xyz "total" = Ok t ->
  exists u, magnetic_field mu_0 flt s xyz "secondary" = Ok u /\
    shaped (n_frequency s) (length xyz) t /\ shaped (n_frequency s) (length xyz) u /\
    forall f k, (f < n_frequency s)%nat -> (k < length xyz)%nat ->
    match entry t f k, entry u f k with
    | Some a, Some b => beside (nth k xyz vzero) (ly_location s) /\
        cvsub a b = cvof (RtoC 1) (vdiv (md_B (MD (ly_moment s) (ly_orientation s) (ly_location s) mu) (nth k xyz vzero)) mu)
    | None, None => ~ beside (nth k xyz vzero) (ly_location s)
    | _, _ => False
    end.
Proof.
  intros M H. destruct (mf_ok_any _ _ _ _ _ _ "secondary" H) as [u U]. exists u. split; [assumption|].
  destruct (mf_entry' _ _ _ _ _ _ H) as (g & G & _ & S1 & E1). destruct (mf_entry' _ _ _ _ _ _ U) as (g' & G' & _ & S2 & E2).
  assert (g' = g) by congruence. subst g'. split; [assumption|]. split; [assumption|]. intros f k L K. rewrite E1, E2 by assumption.
  exact (closed_primary flt (ly_location s) (ly_orientation s) (ly_moment s) (nth k xyz vzero) (refl mu_0 flt s g f (nth k xyz vzero)) mu M).
Qed.

Lemma linear_lemma mu_0 flt s xyz field o m o1 m1 o2 m2 r1 :
  vscal m o = vadd (vscal m1 o1) (vscal m2 o2) ->
  magnetic_field mu_0 flt (with_dipole s (ly_location s) o1 m1) xyz field = Ok r1 ->
  exists r2 r, magnetic_field mu_0 flt (with_dipole s (ly_location s) o2 m2) xyz field = Ok r2 /\
    magnetic_field mu_0 flt (with_dipole s (ly_location s) o m) xyz field = Ok r /\
    forall f k, (f < n_frequency s)%nat -> (k < length xyz)%nat ->
    match entry r1 f k, entry r2 f k, entry r f k with
    | Some a, Some b, Some c => c = cvadd a b
    | None, None, None => True
    | _, _, _ => False
    end.
Proof.
  intros V H. pose proof H as H'. apply mf_ok in H. destruct H as (A & B & D & E & g & G & S & _).
  assert (H2 : exists r2, magnetic_field mu_0 flt (with_dipole s (ly_location s) o2 m2) xyz field = Ok r2).
  { eexists. apply mf_ok. repeat (split; [eassumption|]). exists g. split; [exact G|]. split; [exact S|]. reflexivity. }
  assert (H3 : exists r, magnetic_field mu_0 flt (with_dipole s (ly_location s) o m) xyz field = Ok r).
  { eexists. apply mf_ok. repeat (split; [eassumption|]). exists g. split; [exact G|]. split; [exact S|]. reflexivity. }
  destruct H2 as [r2 H2], H3 as [r H3]. exists r2, r. split; [assumption|]. split; [assumption|].
  destruct (mf_entry' _ _ _ _ _ _ H') as (g1 & G1 & _ & _ & E1). destruct (mf_entry' _ _ _ _ _ _ H2) as (g2 & G2 & _ & _ & E2).
  destruct (mf_entry' _ _ _ _ _ _ H3) as (g3 & G3 & _ & _ & E3).
  change (arrays (with_dipole s (ly_location s) o1 m1)) with (arrays s) in *. change (arrays (with_dipole s (ly_location s) o2 m2)) with (arrays s) in *.
  change (arrays (with_dipole s (ly_location s) o m)) with (arrays s) in *.
  assert (g1 = g) by congruence. assert (g2 = g) by congruence. assert (g3 = g) by congruence. subst.
  intros f k L K. rewrite E1, E2, E3 by assumption.
  change (refl mu_0 flt (with_dipole s (ly_location s) o1 m1)) with (refl mu_0 flt s).
  change (refl mu_0 flt (with_dipole s (ly_location s) o2 m2)) with (refl mu_0 flt s).
  change (refl mu_0 flt (with_dipole s (ly_location s) o m)) with (refl mu_0 flt s).
  exact (closed_linear flt (ly_location s) (String.eqb field "total") (nth k xyz vzero) (refl mu_0 flt s g f (nth k xyz vzero)) o m o1 m1 o2 m2 V).
Qed.

Lemma rotate_lemma mu_0 flt s xyz field t r :
  magnetic_field mu_0 flt s xyz field = Ok r ->
  exists r', magnetic_field mu_0 flt (with_dipole s (rotate_z t (ly_location s)) (rotate_z t (ly_orientation s)) (ly_moment s)) (map (rotate_z t) xyz) field = Ok r' /\
    forall f k, (f < n_frequency s)%nat -> (k < length xyz)%nat -> entry r' f k = option_map (crotate_z t) (entry r f k).
Proof.
  intros H. pose proof H as H'. apply mf_ok in H. destruct H as (A & B & D & E & g & G & S & _).
  set (s' := with_dipole s _ _ _).
  assert (H2 : exists r2, magnetic_field mu_0 flt s' (map (rotate_z t) xyz) field = Ok r2).
  { eexists. apply mf_ok. split; [unfold above in *; rewrite Forall_map; exact A|]. split; [exact B|].
    split; [destruct xyz; [congruence|discriminate]|]. split; [assumption|]. exists g. split; [exact G|]. split; [exact S|]. reflexivity. }
  destruct H2 as [r2 H2]. exists r2. split; [assumption|].
  destruct (mf_entry' _ _ _ _ _ _ H') as (g1 & G1 & _ & _ & E1). destruct (mf_entry' _ _ _ _ _ _ H2) as (g2 & G2 & _ & _ & E2).
  change (arrays s') with (arrays s) in *. assert (g1 = g) by congruence. assert (g2 = g) by congruence. subst g1 g2.
  intros f k L K. rewrite E1 by assumption. rewrite E2; [|exact L|rewrite map_length; exact K].
  rewrite (nth_indep _ vzero (rotate_z t vzero)) by (rewrite map_length; assumption). rewrite map_nth.
  set (p := nth k xyz vzero). cbn [ly_location ly_orientation ly_moment s' with_dipole]. rewrite <- closed_rotate. f_equal.
  unfold refl. apply map_ext. intros b. cbn [ly_location s' with_dipole ly_frequency ly_thickness]. rewrite offset_rotate. reflexivity.
Qed.

Lemma reciprocal_lemma mu_0 flt s a b o1 o2 m field r1 r2 f :
  (f < n_frequency s)%nat ->
  magnetic_field mu_0 flt (with_dipole s a o1 m) [b] field = Ok r1 ->
  magnetic_field mu_0 flt (with_dipole s b o2 m) [a] field = Ok r2 ->
  match entry r1 f 0, entry r2 f 0 with
  | Some h1, Some h2 => cvdot h1 o2 = cvdot h2 o1
  | None, None => True
  | _, _ => False
  end.
Proof.
  intros L H1 H2. destruct (mf_entry' _ _ _ _ _ _ H1) as (g1 & G1 & _ & _ & E1). destruct (mf_entry' _ _ _ _ _ _ H2) as (g2 & G2 & _ & _ & E2).
  change (arrays (with_dipole s a o1 m)) with (arrays s) in *. change (arrays (with_dipole s b o2 m)) with (arrays s) in *.
  assert (g2 = g1) by congruence. subst g2.
  rewrite E1, E2 by (solve [exact L | cbn; lia]). cbn [nth ly_location ly_orientation ly_moment with_dipole].
  replace (refl mu_0 flt (with_dipole s b o2 m) g1 f a) with (refl mu_0 flt (with_dipole s a o1 m) g1 f b).
  - apply closed_reciprocal.
  - unfold refl. apply map_ext. intros x. cbn [ly_location with_dipole ly_frequency ly_thickness]. rewrite offset_sym. reflexivity.
Qed.

Lemma shift_lemma mu_0 flt s xyz field dx dy r :
  magnetic_field mu_0 flt s xyz field = Ok r ->
  magnetic_field mu_0 flt (with_dipole s (vadd (ly_location s) (V3 dx dy 0)) (ly_orientation s) (ly_moment s)) (map (fun p => vadd p (V3 dx dy 0)) xyz) field = Ok r.
Proof.
  intros H. apply mf_ok in H. destruct H as (A & B & D & E & g & G & S & ->). apply mf_ok.
  split; [unfold above in *; rewrite Forall_map; revert A; apply List.Forall_impl; intros p P; cbn; lra|]. split; [exact B|].
  split; [destruct xyz; [congruence|discriminate]|]. split; [assumption|]. exists g. split; [exact G|]. split; [exact S|].
  change (n_frequency (with_dipole s _ _ _)) with (n_frequency s). apply map_ext. intros f. rewrite map_map. apply map_ext. intros p.
  rewrite !receiver_closed. unfold closed. cbn [ly_location ly_orientation ly_moment with_dipole].
  assert (EO : offset (vadd (ly_location s) (V3 dx dy 0)) (vadd p (V3 dx dy 0)) = offset (ly_location s) p).
  { unfold offset; cbn. f_equal. ring. }
  assert (ER : refl mu_0 flt (with_dipole s (vadd (ly_location s) (V3 dx dy 0)) (ly_orientation s) (ly_moment s)) g f (vadd p (V3 dx dy 0)) = refl mu_0 flt s g f p).
  { unfold refl. apply map_ext. intros b. cbn [ly_location with_dipole ly_frequency ly_thickness]. rewrite EO. reflexivity. }
  rewrite EO, ER. destruct (Req_EM_T _ 0); [reflexivity|].
  replace (vz (vadd p (V3 dx dy 0)) + vz (vadd (ly_location s) (V3 dx dy 0))) with (vz p + vz (ly_location s)) by (cbn; ring).
  replace (vx (vadd p (V3 dx dy 0)) - vx (vadd (ly_location s) (V3 dx dy 0))) with (vx p - vx (ly_location s)) by (cbn; ring).
  replace (vy (vadd p (V3 dx dy 0)) - vy (vadd (ly_location s) (V3 dx dy 0))) with (vy p - vy (ly_location s)) by (cbn; ring).
  replace (vsub (vadd p (V3 dx dy 0)) (vadd (ly_location s) (V3 dx dy 0))) with (vsub p (ly_location s)) by (unfold vsub, vadd; cbn; f_equal; ring).
  reflexivity.
Qed.

(** rejections *)
Lemma below_lemma mu_0 flt s xyz field p : In p xyz -> vz p < 0 -> magnetic_field mu_0 flt s xyz field = Raise ValueError.
Proof.
  intros I Z. unfold magnetic_field. replace (existsb _ xyz) with true; [reflexivity|]. symmetry. apply existsb_exists. exists p. split; [assumption|].
  apply Rltb_true. assumption.
Qed.
Lemma construct_above mu_0 eps_0 fr th sg m e q loc o mom s :
  construct mu_0 eps_0 fr th sg m e q loc o mom = Ok s -> 0 <= vz (ly_location s) /\ consistent s.
Proof.
  unfold construct. destruct (new_thickness th) as [t|]; cbn [rbind]; [|discriminate]. destruct (new_frequency fr) as [f|]; cbn [rbind]; [|discriminate].
  assert (NP : forall bad nl nf v p, new_property bad nl nf v = Ok p -> fits nl nf p).
  { clear. intros bad nl nf v p. unfold new_property. destruct v as [z|l|r c a|l|]; try discriminate.
    - destruct (_ || _)%bool; [discriminate|]. intros [= <-]. cbn. apply repeat_length.
    - destruct (_ || _)%bool; [discriminate|]. destruct (Nat.eqb_spec (length l) nl); [|discriminate]. intros [= <-]. assumption.
    - destruct (_ || _)%bool; [discriminate|]. destruct (Nat.eqb_spec r nl); [|discriminate]. destruct (Nat.eqb_spec c nf); [|discriminate]. intros [= <-]. cbn. auto.
    - destruct (_ || _)%bool; discriminate. }
  destruct (new_sigma _ _ sg) as [sg'|] eqn:E1; cbn [rbind]; [|discriminate]. destruct (new_mu _ _ _ m) as [m'|] eqn:E2; cbn [rbind]; [|discriminate].
  destruct (new_epsilon _ _ _ e) as [e'|] eqn:E3; cbn [rbind]; [|discriminate]. destruct (Rltb (vz loc) 0) eqn:EL; [discriminate|]. intros [= <-].
  apply Rltb_false in EL. split; [assumption|]. unfold consistent, n_layer, n_frequency; cbn. split; [|split]; eapply NP; eassumption.
Qed.
Lemma new_property_fits bad nl nf v p : new_property bad nl nf v = Ok p -> fits nl nf p.
Proof.
  unfold new_property. destruct v as [z|l|r c a|l|]; try discriminate.
  - destruct (_ || _)%bool; [discriminate|]. intros [= <-]. cbn. apply repeat_length.
  - destruct (_ || _)%bool; [discriminate|]. destruct (Nat.eqb_spec (length l) nl); [|discriminate]. intros [= <-]. assumption.
  - destruct (_ || _)%bool; [discriminate|]. destruct (Nat.eqb_spec r nl); [|discriminate]. destruct (Nat.eqb_spec c nf); [|discriminate]. intros [= <-]. cbn. auto.
  - destruct (_ || _)%bool; discriminate.
Qed.

(** C66 *)
Lemma consistent_works mu_0 flt s xyz field : consistent s -> ly_frequency s <> [] -> hf_base flt <> [] -> xyz <> [] -> above xyz ->
  exists r, magnetic_field mu_0 flt s xyz field = Ok r /\ shaped (n_frequency s) (length xyz) r.
Proof.
  intros K A B D E. destruct (arrays_consistent s K) as (g & G & S & _).
  assert (H : exists r, magnetic_field mu_0 flt s xyz field = Ok r).
  { eexists. apply mf_ok. repeat (split; [eassumption|]). exists g. split; [assumption|]. split; [assumption|]. reflexivity. }
  destruct H as [r H]. exists r. split; [assumption|]. apply mf_entry' in H. destruct H as (_ & _ & _ & H & _). exact H.
Qed.

Lemma keeps_consistent mu_0 eps_0 s a : consistent s -> keeps_counts s a -> consistent (after mu_0 eps_0 s a).
Proof.
  intros (A & B & D) K. unfold after. destruct (assign mu_0 eps_0 s a) as [s'|] eqn:E; [|split; auto].
  destruct a; cbn [assign keeps_counts] in *; unfold consistent, n_layer, n_frequency in *.
  - destruct (new_frequency v) as [f|] eqn:N; cbn [rmap] in E; [|discriminate]. injection E as <-. cbn.
    destruct (K f eq_refl) as [L|(x & y & z & X & Y & Z)]; [rewrite L; auto|]. rewrite X, Y, Z in *. cbn in *. auto.
  - destruct (new_thickness v) as [t|] eqn:N; cbn [rmap] in E; [|discriminate]. injection E as <-. cbn. rewrite (K t eq_refl). auto.
  - destruct (new_sigma _ _ v) eqn:N; cbn [rmap] in E; [|discriminate]. injection E as <-. cbn. apply new_property_fits in N. auto.
  - destruct (new_mu _ _ _ v) eqn:N; cbn [rmap] in E; [|discriminate]. injection E as <-. cbn. apply new_property_fits in N. auto.
  - destruct (new_epsilon _ _ _ v) eqn:N; cbn [rmap] in E; [|discriminate]. injection E as <-. cbn. apply new_property_fits in N. auto.
  - injection E as <-. cbn. auto.
  - injection E as <-. cbn. auto.
  - injection E as <-. cbn. auto.
  - injection E as <-. cbn. auto.
Qed.

(** the exact condition *)
Lemma as_array_inv nl nf p a : as_array nl nf p = Ok a ->
  match p with P1 l => length l = nl /\ a_rows a = nl /\ a_cols a = nf | P2 b => a = b end.
Proof.
  destruct p as [l|b]; cbn; [|intros [= <-]; reflexivity]. destruct (Nat.eqb_spec (length l) nl); [|discriminate]. intros [= <-]. cbn. auto.
Qed.
Lemma bdim_target t e s w : bdim t e = Some w -> bdim s w = Some t -> (e = 1 \/ e = t)%nat /\ (s = 1 \/ s = t)%nat.
Proof.
  unfold bdim. destruct (Nat.eqb_spec t e), (Nat.eqb_spec t 1), (Nat.eqb_spec e 1); intros H; inversion H; clear H;
  repeat match goal with |- context [Nat.eqb ?a ?b] => destruct (Nat.eqb_spec a b) end; intros H; inversion H; lia.
Qed.
Lemma bdim_target' t e : (e = 1 \/ e = t)%nat -> bdim t e = Some t.
Proof. intros [->| ->]; unfold bdim; [|rewrite Nat.eqb_refl; reflexivity]. destruct (Nat.eqb_spec t 1); [reflexivity|]. reflexivity. Qed.
Lemma bdim_sym a b : bdim a b = bdim b a.
Proof. unfold bdim. destruct (Nat.eqb_spec a b), (Nat.eqb_spec b a), (Nat.eqb_spec a 1), (Nat.eqb_spec b 1); subst; try reflexivity; try lia. Qed.

Lemma arrays_iff s : (exists g, arrays s = Ok g /\ shapes_ok s g) <-> computable s.
Proof.
  unfold computable. split.
  - intros (g & G & S). unfold arrays in G.
    destruct (as_array _ _ (ly_sigma s)) as [sg|] eqn:E1; cbn [rbind] in G; [|discriminate].
    destruct (as_array _ _ (ly_mu s)) as [m|] eqn:E2; cbn [rbind] in G; [|discriminate].
    destruct (as_array _ _ (ly_epsilon s)) as [e|] eqn:E3; cbn [rbind] in G; [|discriminate].
    destruct (sigma_hat_fn _ sg e _) as [h|] eqn:E4; cbn [rbind] in G; [|discriminate]. injection G as <-.
    destruct S as (S1 & S2 & S3 & S4). cbn [fst snd] in *. apply as_array_inv in E1, E2, E3. split.
    + destruct (ly_mu s) as [l|a]; cbn in *; [tauto|subst; auto].
    + unfold sigma_hat_fn in E4. destruct (ly_quasistatic s).
      * injection E4 as <-. split; [destruct (ly_sigma s) as [l|a]; cbn in *; [tauto|subst; auto]|].
        intros l EL. rewrite EL in E3. tauto.
      * unfold broadcast at 1 in E4. cbn [a_rows a_cols] in E4.
        destruct (bdim (n_layer s) (a_rows e)) as [wr|] eqn:B1; [|discriminate E4].
        destruct (bdim (n_frequency s) (a_cols e)) as [wc|] eqn:B2; [|discriminate E4]. cbn [rbind] in E4. unfold broadcast in E4. cbn [a_rows a_cols] in E4.
        destruct (bdim (a_rows sg) wr) as [hr|] eqn:B3; [|discriminate E4]. destruct (bdim (a_cols sg) wc) as [hc|] eqn:B4; [|discriminate E4].
        injection E4 as <-. cbn [a_rows a_cols] in *. subst hr hc.
        pose proof (bdim_target _ _ _ _ B1 B3) as [R1 R2]. pose proof (bdim_target _ _ _ _ B2 B4) as [K1 K2].
        split; [destruct (ly_sigma s)|destruct (ly_epsilon s)]; cbn in *; (tauto || (subst; tauto)).
  - intros [M K]. unfold arrays. destruct (as_array_fits _ _ _ M) as (m & EM & M1 & M2 & _). destruct (ly_quasistatic s) eqn:Q.
    + destruct K as [F G]. destruct (as_array_fits _ _ _ F) as (sg & -> & S1 & S2 & _). rewrite EM. cbn [rbind].
      assert (EE : exists e, as_array (n_layer s) (n_frequency s) (ly_epsilon s) = Ok e).
      { destruct (ly_epsilon s) as [l|a]; cbn; [|eauto]. rewrite (proj2 (Nat.eqb_eq _ _) (G l eq_refl)). eauto. }
      destruct EE as [e ->]. cbn [rbind sigma_hat_fn]. eexists. split; [reflexivity|]. unfold shapes_ok; cbn [fst snd]. auto.
    + destruct K as [F G].
      assert (LA : forall p, loosely (n_layer s) (n_frequency s) p -> exists a, as_array (n_layer s) (n_frequency s) p = Ok a /\
        (a_rows a = 1%nat \/ a_rows a = n_layer s) /\ (a_cols a = 1%nat \/ a_cols a = n_frequency s)).
      { intros [l|a]; cbn; intros H; [|exists a; auto]. rewrite (proj2 (Nat.eqb_eq _ _) H). eexists. split; [reflexivity|]. cbn. auto. }
      destruct (LA _ F) as (sg & -> & S1 & S2). rewrite EM. destruct (LA _ G) as (e & -> & E1 & E2). cbn [rbind sigma_hat_fn].
      unfold broadcast at 1. cbn [a_rows a_cols]. rewrite (bdim_target' _ _ E1), (bdim_target' _ _ E2). cbn [rbind]. unfold broadcast. cbn [a_rows a_cols].
      rewrite (bdim_sym (a_rows sg)), (bdim_sym (a_cols sg)), (bdim_target' _ _ S1), (bdim_target' _ _ S2). cbn [rbind].
      eexists. split; [reflexivity|]. unfold shapes_ok; cbn. auto.
Qed.

Lemma works_iff mu_0 flt s xyz field : ly_frequency s <> [] -> hf_base flt <> [] -> xyz <> [] -> above xyz ->
  ((exists r, magnetic_field mu_0 flt s xyz field = Ok r) <-> computable s).
Proof.
  intros A B D E. rewrite <- arrays_iff. split.
  - intros [r H]. apply mf_ok in H. destruct H as (_ & _ & _ & _ & g & G & S & _). eauto.
  - intros (g & G & S). eexists. apply mf_ok. repeat (split; [eassumption|]). exists g. split; [assumption|]. split; [assumption|]. reflexivity.
Qed.

Lemma raises_ValueError mu_0 flt s xyz field : ~ computable s -> magnetic_field mu_0 flt s xyz field = Raise ValueError.
Proof.
  intros NC. unfold magnetic_field. destruct (existsb _ xyz); [reflexivity|].
  assert (AV : forall p, as_array (n_layer s) (n_frequency s) p = Raise ValueError \/ exists a, as_array (n_layer s) (n_frequency s) p = Ok a).
  { intros [l|a]; cbn; [|eauto]. destruct (Nat.eqb _ _); eauto. }
  destruct (AV (ly_sigma s)) as [E1|[sg E1]]; rewrite E1; cbn [rbind]; [reflexivity|].
  destruct (AV (ly_mu s)) as [E2|[m E2]]; rewrite E2; cbn [rbind]; [reflexivity|].
  destruct (AV (ly_epsilon s)) as [E3|[e E3]]; rewrite E3; cbn [rbind]; [reflexivity|].
  assert (BV : forall f a b, broadcast f a b = Raise ValueError \/ exists c, broadcast f a b = Ok c).
  { intros f a b. unfold broadcast. destruct (bdim (a_rows a) (a_rows b)), (bdim (a_cols a) (a_cols b)); eauto. }
  destruct (sigma_hat_fn _ sg e _) as [h|ex] eqn:E4; cbn [rbind].
  - unfold rTE_forward.
    destruct (Nat.eqb_spec (length (ly_frequency s)) (a_cols h)) as [Q1|]; cbn [negb]; [|reflexivity].
    destruct (Nat.eqb_spec (a_rows h) (length (ly_thickness s) + 1)) as [Q2|]; cbn [negb]; [|reflexivity].
    destruct (Nat.eqb_spec (a_rows m) (a_rows h)) as [Q3|]; cbn [negb andb]; [|reflexivity].
    destruct (Nat.eqb_spec (a_cols m) (a_cols h)) as [Q4|]; cbn [negb andb]; [|reflexivity].
    exfalso. apply NC. apply arrays_iff. exists (h, m). unfold arrays. rewrite E1, E2, E3. cbn [rbind]. rewrite E4. cbn [rbind]. split; [reflexivity|].
    unfold shapes_ok, n_layer, n_frequency; cbn. repeat split; congruence.
  - unfold sigma_hat_fn in E4. destruct (ly_quasistatic s); [discriminate|].
    match type of E4 with rbind (broadcast ?f ?x ?y) _ = _ => destruct (BV f x y) as [Z|[w Z]]; rewrite Z in E4 end; cbn [rbind] in E4; [congruence|].
    destruct (BV Cplus sg w) as [Z2|[w2 Z2]]; congruence.
Qed.

Lemma stale_thickness mu_0 eps_0 flt s v t xyz field : consistent s -> new_thickness v = Ok t -> length t <> length (ly_thickness s) ->
  magnetic_field mu_0 flt (after mu_0 eps_0 s (Set_thickness v)) xyz field = Raise ValueError.
Proof.
  intros (A & B & D) E N. apply raises_ValueError. unfold after. cbn [assign]. rewrite E. cbn [rmap]. intros [M _].
  unfold n_layer, n_frequency in *. cbn in M. destruct (ly_mu s); cbn in *; lia.
Qed.
Lemma stale_frequency mu_0 eps_0 flt s v f xyz field a : consistent s -> new_frequency v = Ok f -> length f <> n_frequency s ->
  ly_mu s = P2 a \/ ly_quasistatic s = true /\ ly_sigma s = P2 a ->
  magnetic_field mu_0 flt (after mu_0 eps_0 s (Set_frequency v)) xyz field = Raise ValueError.
Proof.
  intros (A & B & D) E N H. apply raises_ValueError. unfold after. cbn [assign]. rewrite E. cbn [rmap]. intros [M K].
  unfold n_layer, n_frequency in *. cbn in M, K. destruct H as [H|[H G]].
  - rewrite H in *. cbn in *. lia.
  - rewrite H, G in *. cbn in *. lia.
Qed.

(** C67 *)
Lemma hat_property_works s : consistent s ->
  ((exists a, sigma_hat_property s = Ok a) <-> ly_quasistatic s = true \/ n_frequency s = n_layer s \/ n_frequency s = 1%nat \/ n_layer s = 1%nat) /\
  forall a, sigma_hat_property s = Ok a -> a_rows a = n_frequency s.
Proof.
  intros (A & B & D). unfold sigma_hat_property.
  destruct (as_array_fits _ _ _ A) as (sg & -> & S1 & S2 & S3). destruct (as_array_fits _ _ _ B) as (m & -> & M1 & M2 & M3).
  destruct (as_array_fits _ _ _ D) as (e & -> & E1 & E2 & E3). cbn [rbind]. unfold sigma_hat_fn. destruct (ly_quasistatic s); cbn [rbind].
  - split; [split; eauto|]. intros a [= <-]. cbn. auto.
  - unfold broadcast at 1 3. cbn [a_rows a_cols]. rewrite E1, E2.
    assert (B2 : bdim 1 (n_frequency s) = Some (n_frequency s)).
    { unfold bdim. destruct (Nat.eqb_spec 1 (n_frequency s)) as [<-|]; reflexivity. }
    rewrite B2. destruct (bdim (n_frequency s) (n_layer s)) as [w|] eqn:BW.
    + cbn [rbind]. unfold broadcast. cbn [a_rows a_cols]. rewrite S1, S2.
      assert (B3 : bdim (n_layer s) w = Some w /\ (n_frequency s = n_layer s \/ n_frequency s = 1%nat \/ n_layer s = 1%nat)).
      { unfold bdim in *. destruct (Nat.eqb_spec (n_frequency s) (n_layer s)) as [Q|Q]; [injection BW as <-; rewrite Q, Nat.eqb_refl; auto|].
        destruct (Nat.eqb_spec (n_frequency s) 1) as [Q1|Q1]; [injection BW as <-; rewrite Nat.eqb_refl; auto|].
        destruct (Nat.eqb_spec (n_layer s) 1) as [Q2|Q2]; [|discriminate]. injection BW as <-. rewrite Q2. split; [|auto].
        destruct (Nat.eqb_spec 1 (n_frequency s)) as [Q3|Q3]; [rewrite <- Q3|]; reflexivity. }
      destruct B3 as [B3 B4]. rewrite B3. assert (B5 : bdim (n_frequency s) (n_frequency s) = Some (n_frequency s)) by (unfold bdim; rewrite Nat.eqb_refl; reflexivity).
      rewrite B5. cbn [rbind]. split; [split; [tauto|eauto]|]. intros a [= <-]. cbn. auto.
    + cbn [rbind]. split; [|discriminate]. split; [intros [a Q]; discriminate|]. intros [Q|Q]; [discriminate|]. exfalso.
      unfold bdim in BW. destruct (Nat.eqb_spec (n_frequency s) (n_layer s)), (Nat.eqb_spec (n_frequency s) 1), (Nat.eqb_spec (n_layer s) 1); try discriminate. lia.
Qed.

Lemma hat_value s a : consistent s -> sigma_hat_property s = Ok a ->
  if ly_quasistatic s then a_cols a = n_layer s /\ forall i j, (j < n_layer s)%nat -> a_at a i j = pvalue (ly_sigma s) j i
  else bdim (n_frequency s) (n_layer s) = Some (a_cols a) /\ forall i j, (i < n_frequency s)%nat -> (j < a_cols a)%nat -> 
    a_at a i j = (pvalue (ly_sigma s) (bidx (n_layer s) j) i + Ci * RtoC (2 * PI * rget (ly_frequency s) (bidx (n_frequency s) j)) * pvalue (ly_epsilon s) (bidx (n_layer s) j) i)%C.
Proof.
  intros (A & B & D). unfold sigma_hat_property.
  destruct (as_array_fits _ _ _ A) as (sg & -> & S1 & S2 & S3). destruct (as_array_fits _ _ _ B) as (m & -> & M1 & M2 & M3).
  destruct (as_array_fits _ _ _ D) as (e & -> & E1 & E2 & E3). cbn [rbind]. unfold sigma_hat_fn. destruct (ly_quasistatic s); cbn [rbind].
  - intros [= <-]. cbn. split; [assumption|]. intros i j L. apply S3. assumption.
  - unfold broadcast at 1. cbn [a_rows a_cols]. rewrite E1, E2.
    assert (B2 : bdim 1 (n_frequency s) = Some (n_frequency s)).
    { unfold bdim. destruct (Nat.eqb_spec 1 (n_frequency s)) as [<-|]; reflexivity. }
    rewrite B2. destruct (bdim (n_frequency s) (n_layer s)) as [w|] eqn:BW; cbn [rbind]; [|discriminate].
    unfold broadcast. cbn [a_rows a_cols]. rewrite S1, S2.
    assert (B5 : bdim (n_frequency s) (n_frequency s) = Some (n_frequency s)) by (unfold bdim; rewrite Nat.eqb_refl; reflexivity).
    rewrite B5. destruct (bdim (n_layer s) w) as [w'|] eqn:B3; cbn [rbind]; [|discriminate]. intros [= <-]. cbn [a_cols transpose a_rows a_at].
    assert (w' = w /\ (bidx (n_layer s) 0 < n_layer s)%nat).
    { unfold n_layer, bidx in *. split; [|destruct (Nat.eqb_spec (length (ly_thickness s) + 1) 1); lia].
      unfold bdim in *. repeat match goal with H : context [Nat.eqb ?a ?b] |- _ => destruct (Nat.eqb_spec a b) end; congruence. }
    destruct H as [-> _]. split; [reflexivity|]. intros i j L J. rewrite !(bidx_ok (n_frequency s) i) by assumption.
    assert (BJ : (bidx (n_layer s) j < n_layer s)%nat).
    { unfold bidx. destruct (Nat.eqb_spec (n_layer s) 1) as [Q|Q]; [lia|]. unfold bdim in BW.
      destruct (Nat.eqb_spec (n_frequency s) (n_layer s)) as [Q1|Q1]; [injection BW as <-; lia|].
      destruct (Nat.eqb_spec (n_frequency s) 1) as [Q2|Q2]; [injection BW as <-; lia|]. destruct (Nat.eqb_spec (n_layer s) 1); [lia|discriminate]. }
    rewrite S3 by assumption. f_equal.
    assert (BB : forall d, bidx (n_layer s) (bidx w j) = d -> bidx (n_layer s) j = d).
    { intros d <-. unfold bidx. destruct (Nat.eqb_spec w 1) as [->|Q]; [|reflexivity]. assert (j = 0)%nat by lia. subst. reflexivity. }
    assert (BF : bidx (n_frequency s) (bidx w j) = bidx (n_frequency s) j).
    { unfold bidx. destruct (Nat.eqb_spec w 1) as [->|Q]; [|reflexivity]. assert (j = 0)%nat by lia. subst. reflexivity. }
    rewrite BF, <- (BB _ eq_refl). rewrite E3 by assumption. f_equal. rewrite <- RtoC_mult. reflexivity.
Qed.

Lemma hat_one s : consistent s -> n_layer s = 1%nat -> n_frequency s = 1%nat ->
  exists a, sigma_hat_property s = Ok a /\ a_rows a = n_layer s /\ a_cols a = n_frequency s /\ a_at a 0 0 = hat s 0 0.
Proof.
  intros K N F. destruct (hat_property_works s K) as [[_ W] R]. destruct W as [a E]; [auto|]. exists a. split; [assumption|].
  pose proof (hat_value s a K E) as V. rewrite (R a E). split; [congruence|]. unfold hat. destruct (ly_quasistatic s).
  - destruct V as [V1 V2]. split; [congruence|]. apply V2. lia.
  - destruct V as [V1 V2]. rewrite N, F in V1. cbn in V1. injection V1 as V1. split; [congruence|].
    rewrite V2 by lia. rewrite N, F. reflexivity.
Qed.
Lemma hat_refuted s : consistent s -> n_layer s <> n_frequency s ->
  match sigma_hat_property s with Ok a => a_rows a <> n_layer s | Raise e => True end.
Proof.
  intros K N. destruct (hat_property_works s K) as [_ R]. destruct (sigma_hat_property s) as [a|]; [|exact I]. rewrite (R a eq_refl). congruence.
Qed.
Lemma hat_raises s : consistent s -> ly_quasistatic s = false -> n_layer s <> n_frequency s -> n_layer s <> 1%nat -> n_frequency s <> 1%nat ->
  exists e, sigma_hat_property s = Raise e.
Proof.
  intros K Q A B D. destruct (hat_property_works s K) as [W _]. destruct (sigma_hat_property s) as [a|e]; [|eauto].
  destruct W as [W _]. specialize (W (ex_intro _ a eq_refl)). rewrite Q in W. destruct W as [W|W]; [discriminate|lia].
Qed.
Lemma hat_square s : consistent s -> n_layer s = n_frequency s ->
  exists a, sigma_hat_property s = Ok a /\ a_rows a = n_layer s /\ a_cols a = n_frequency s /\
    forall l f, (l < n_layer s)%nat -> (f < n_layer s)%nat ->
      a_at a l f = if ly_quasistatic s then pvalue (ly_sigma s) f l
        else (pvalue (ly_sigma s) f l + Ci * RtoC (2 * PI * rget (ly_frequency s) f) * pvalue (ly_epsilon s) f l)%C.
Proof.
  intros K N. destruct (hat_property_works s K) as [[_ W] R]. destruct W as [a E]; [auto|]. exists a. split; [assumption|].
  pose proof (hat_value s a K E) as V. rewrite (R a E). split; [congruence|]. destruct (ly_quasistatic s).
  - destruct V as [V1 V2]. split; [congruence|]. intros l f L F. apply V2. lia.
  - destruct V as [V1 V2]. rewrite N in V1. unfold bdim in V1. rewrite Nat.eqb_refl in V1. injection V1 as V1. split; [congruence|].
    intros l f L F. rewrite V2 by lia. rewrite N, !bidx_ok by lia. reflexivity.
Qed.
Lemma hat_transposed s : consistent s -> ly_quasistatic s = true \/ n_frequency s = 1%nat ->
  exists a, sigma_hat_property s = Ok a /\ a_rows a = n_frequency s /\ a_cols a = n_layer s /\
    forall l f, (l < n_layer s)%nat -> (f < n_frequency s)%nat -> a_at a f l = hat s l f.
Proof.
  intros K H. destruct (hat_property_works s K) as [[_ W] R]. destruct W as [a E]; [tauto|]. exists a. split; [assumption|].
  pose proof (hat_value s a K E) as V. split; [apply R; assumption|]. unfold hat. destruct (ly_quasistatic s).
  - destruct V as [V1 V2]. split; [congruence|]. intros l f L F. apply V2. assumption.
  - destruct H as [H|H]; [discriminate|]. destruct V as [V1 V2]. rewrite H in V1.
    assert (AC : a_cols a = n_layer s).
    { unfold bdim in V1. destruct (Nat.eqb_spec 1 (n_layer s)) as [Q|Q]; [congruence|]. cbn in V1. congruence. }
    split; [assumption|]. intros l f L F. rewrite V2 by lia. assert (f = 0)%nat by lia. subst f. rewrite !(bidx_ok (n_layer s) l) by assumption.
    rewrite H. reflexivity.
Qed.
