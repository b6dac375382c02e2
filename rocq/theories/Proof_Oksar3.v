(** Proofs about the Oksar solver: C81, C91, C92. *)
From Coq Require Import Reals List Bool Arith Lra Lia.
From Verif Require Import Numpy Model_Oksar Spec_Oksar Proof_Oksar Proof_Oksar2.
Import ListNotations.
Open Scope R_scope.

Lemma Rleb_true x y : Rleb x y = true <-> x <= y.
Proof. unfold Rleb. destruct (Rle_dec x y); split; intros; try discriminate; try lra; reflexivity. Qed.

(** ** what one or three stations give *)
Section Batch.
Variables alpha dip al1 al2 aw1 aw2 d1 d2 sd cd : R.
Hypothesis Hdip : dip_sin_cos (dip * pl8) sd cd.
Hypothesis Hd : d1 <> 0 \/ d2 <> 0.
Let k := (1 - alpha) / alpha.
Lemma batch_spec B : length B = 1%nat \/ length B = 3%nat -> nothing_rounded sd cd B al1 al2 aw1 aw2 ->
  if forallb (ok4 sd cd al1 al2 aw1 aw2) B
  then dc3d3 alpha B dip al1 al2 aw1 aw2 d1 d2 =
       Ok (Mat (expand (map (fun P => okada PI2 k sd cd P al1 al2 aw1 aw2 d1 d2) B)))
  else exists e, dc3d3 alpha B dip al1 al2 aw1 aw2 d1 d2 = Raise e.
Proof.
  intros L N. rewrite (dc3d3_run alpha B dip al1 al2 aw1 aw2 d1 d2 sd cd) by (now apply dip_consts_spec).
  pose proof (run_spec k sd cd al1 al2 aw1 aw2 d1 d2 B Hd L N) as H. unfold k in *.
  destruct (forallb (ok4 sd cd al1 al2 aw1 aw2) B) eqn:E; [|exact H].
  rewrite H. do 2 f_equal. f_equal. apply map_ext_in. intros P I. rewrite forallb_forall in E.
  apply val4_okada; [eapply sd_cd_1; exact Hdip|apply E; exact I].
Qed.
Lemma one_spec P : nothing_rounded sd cd [P] al1 al2 aw1 aw2 ->
  let w := okada PI2 k sd cd P al1 al2 aw1 aw2 d1 d2 in
  if ok4 sd cd al1 al2 aw1 aw2 P then dc3d3 alpha [P] dip al1 al2 aw1 aw2 d1 d2 = Ok (Mat [w; w; w])
  else exists e, dc3d3 alpha [P] dip al1 al2 aw1 aw2 d1 d2 = Raise e.
Proof. intros N w. pose proof (batch_spec [P] (or_introl eq_refl) N) as H. cbn in H. rewrite andb_true_r in H. exact H. Qed.
Lemma sub_rounded B P : In P B -> nothing_rounded sd cd B al1 al2 aw1 aw2 -> nothing_rounded sd cd [P] al1 al2 aw1 aw2.
Proof.
  intros I N Q al aw x [<-|[]] Ia Iw Ix. destruct (N P al aw x I Ia Iw Ix) as [Z|[A H]]; [left; exact Z|right; split; [exact A|]].
  intros P' y [<-|[]] Iy. exact (H P y I Iy).
Qed.
Lemma C81_pointwise_lemma P Q S x y z : nothing_rounded sd cd [P; Q; S] al1 al2 aw1 aw2 ->
  dc3d3 alpha [P; Q; S] dip al1 al2 aw1 aw2 d1 d2 = Ok (Mat [x; y; z]) <->
  dc3d3 alpha [P] dip al1 al2 aw1 aw2 d1 d2 = Ok (Mat [x; x; x]) /\
  dc3d3 alpha [Q] dip al1 al2 aw1 aw2 d1 d2 = Ok (Mat [y; y; y]) /\
  dc3d3 alpha [S] dip al1 al2 aw1 aw2 d1 d2 = Ok (Mat [z; z; z]).
Proof.
  intros N. pose proof (batch_spec [P; Q; S] (or_intror eq_refl) N) as H. cbn in H. rewrite andb_true_r in H.
  assert (NP := sub_rounded [P; Q; S] P ltac:(cbn; tauto) N). assert (NQ := sub_rounded [P; Q; S] Q ltac:(cbn; tauto) N).
  assert (NS := sub_rounded [P; Q; S] S ltac:(cbn; tauto) N).
  pose proof (one_spec P NP) as HP. pose proof (one_spec Q NQ) as HQ. pose proof (one_spec S NS) as HS. cbv zeta in *.
  destruct (ok4 sd cd al1 al2 aw1 aw2 P); cbn in H.
  2:{ destruct H as (e & ->). destruct HP as (e' & ->). split; intros; [discriminate|]. destruct H as [H _]; discriminate. }
  destruct (ok4 sd cd al1 al2 aw1 aw2 Q); cbn in H.
  2:{ destruct H as (e & ->). destruct HQ as (e' & ->). split; intros; [discriminate|]. destruct H as [_ [H _]]; discriminate. }
  destruct (ok4 sd cd al1 al2 aw1 aw2 S); cbn in H.
  2:{ destruct H as (e & ->). destruct HS as (e' & ->). split; intros; [discriminate|]. destruct H as [_ [_ H]]; discriminate. }
  rewrite H, HP, HQ, HS. split.
  - intros E. injection E as -> -> ->. auto.
  - intros (E1 & E2 & E3). injection E1 as ->. injection E2 as ->. injection E3 as ->. reflexivity.
Qed.
Lemma C91_okada_lemma B u : length B = 1%nat \/ length B = 3%nat -> nothing_rounded sd cd B al1 al2 aw1 aw2 ->
  dc3d3 alpha B dip al1 al2 aw1 aw2 d1 d2 = Ok u ->
  exists cols, u = Mat cols /\ length cols = 3%nat /\
  forall i, (i < 3)%nat -> nth_error cols i =
    option_map (fun P => okada PI2 k sd cd P al1 al2 aw1 aw2 d1 d2) (nth_error B (if Nat.eqb (length B) 1 then 0 else i)%nat).
Proof.
  intros L N E. pose proof (batch_spec B L N) as H. rewrite E in H.
  destruct (forallb _ B); [|destruct H as (e & H); discriminate]. injection H as ->.
  exists (expand (map (fun P => okada PI2 k sd cd P al1 al2 aw1 aw2 d1 d2) B)). split; [reflexivity|].
  destruct B as [|P [|Q [|S [|? ?]]]]; cbn in L; try lia; (split; [reflexivity|]);
    intros [|[|[|i]]] Hi; try lia; reflexivity.
Qed.
End Batch.

(** ** other numbers of stations never work *)
Lemma add_mat_vec_bad m a b c : length m <> 1%nat -> length m <> 3%nat -> add_mat_vec m a b c = Raise ValueError.
Proof. intros A B. destruct m as [|x [|y [|z [|? ?]]]]; cbn in *; try lia; reflexivity. Qed.
Lemma C81_size_lemma alpha B dip al1 al2 aw1 aw2 d1 d2 : d1 <> 0 \/ d2 <> 0 ->
  length B <> 1%nat -> length B <> 3%nat -> exists e, dc3d3 alpha B dip al1 al2 aw1 aw2 d1 d2 = Raise e.
Proof.
  intros D L1 L3. unfold dc3d3. destruct (dip_consts dip) as [sd cd]. cbv zeta.
  match goal with |- exists e, rbind ?c _ = _ => assert (H : exists e, c = Raise e) end.
  2:{ destruct H as (e & ->). exists e. reflexivity. }
  set (l := map _ _). assert (Hl : length l = length B) by (unfold l; now rewrite !map_length).
  unfold corner. destruct l as [|s0 r] eqn:El; [eexists; reflexivity|]. rewrite <- El in *. cbv zeta. clear El.
  repeat match goal with |- context [if existsb ?f ?x then _ else _] => destruct (existsb f x); [eexists; reflexivity|] end.
  set (l' := map (snap_station (dc_max al1 l)) l). assert (Hl' : length l' = length B) by (unfold l'; now rewrite map_length).
  destruct (Reqb d2 0) eqn:E2.
  - apply Reqb_true in E2. destruct (Reqb d1 0) eqn:E1; [apply Reqb_true in E1; tauto|].
    cbn [rbind map_disp add_disp]. rewrite add_mat_vec_bad; [eexists; reflexivity| |]; rewrite !map_length; lia.
  - destruct (Reqb d1 0) eqn:E1.
    + cbn [add_disp]. rewrite add_mat_vec_bad; [eexists; reflexivity| |]; rewrite !map_length; lia.
    + cbn [add_disp]. rewrite !map_length, Nat.eqb_refl. cbn [rbind map_disp add_disp].
      rewrite add_mat_vec_bad; [eexists; reflexivity| |]; rewrite !map_length, combine_length, !map_length; lia.
Qed.

(** ** adjacent faults *)
Lemma st_ok_iff sd cd al1 al2 aw1 aw2 al s : st_ok sd cd al1 al2 aw1 aw2 al s = true <->
  c2_r (sX s - al) (set_ s) (sq s) <> 0 /\ tiny <= c2_r (sX s - al) (set_ s) (sq s) + set_ s /\
  ~ (sq s = 0 /\ (((sX s - al1) * (sX s - al2) <= 0 /\ set_ s = 0) \/ ((sp s - aw1) * (sp s - aw2) <= 0 /\ sX s - al = 0))) /\
  tiny <= c2_rd sd cd (sX s - al) (set_ s) (sq s).
Proof.
  unfold st_ok, jxi, jet. cbv zeta. rewrite !andb_true_iff, !negb_true_iff, Reqb_false, !Rltb_false.
  rewrite <- not_true_iff_false, andb_true_iff, orb_true_iff, !andb_true_iff, !Reqb_true, !Rleb_true. tauto.
Qed.
Lemma between a b c X : a <= b <= c -> (X - a) * (X - c) <= 0 -> (X - a) * (X - b) <= 0 \/ (X - b) * (X - c) <= 0.
Proof. intros O H. destruct (Rle_dec X b); [left|right]; destruct (Rle_dec a X), (Rle_dec X c); nra. Qed.
Lemma st_ok_left sd cd al1 al2 al3 aw1 aw2 al al' s : al1 <= al2 <= al3 ->
  st_ok sd cd al1 al2 aw1 aw2 al s = true -> st_ok sd cd al2 al3 aw1 aw2 al' s = true -> st_ok sd cd al1 al3 aw1 aw2 al s = true.
Proof.
  rewrite !st_ok_iff. intros O (A & B & C & D) (_ & _ & C' & _). split; [exact A|]. split; [exact B|]. split; [|exact D].
  intros (Q & [(J & E)|(J & E)]).
  - destruct (between al1 al2 al3 (sX s) O J) as [K|K]; [apply C|apply C']; split; [exact Q|left; split; assumption|exact Q|left; split; assumption].
  - apply C. split; [exact Q|right; split; assumption].
Qed.
Lemma st_ok_right sd cd al1 al2 al3 aw1 aw2 al al' s : al1 <= al2 <= al3 ->
  st_ok sd cd al1 al2 aw1 aw2 al' s = true -> st_ok sd cd al2 al3 aw1 aw2 al s = true -> st_ok sd cd al1 al3 aw1 aw2 al s = true.
Proof.
  rewrite !st_ok_iff. intros O (_ & _ & C' & _) (A & B & C & D). split; [exact A|]. split; [exact B|]. split; [|exact D].
  intros (Q & [(J & E)|(J & E)]).
  - destruct (between al1 al2 al3 (sX s) O J) as [K|K]; [apply C'|apply C]; split; [exact Q|left; split; assumption|exact Q|left; split; assumption].
  - apply C. split; [exact Q|right; split; assumption].
Qed.
Lemma ok4_iff sd cd al1 al2 aw1 aw2 P : ok4 sd cd al1 al2 aw1 aw2 P = true <->
  st_ok sd cd al1 al2 aw1 aw2 al1 (st_at sd cd aw1 P) = true /\ st_ok sd cd al1 al2 aw1 aw2 al2 (st_at sd cd aw1 P) = true /\
  st_ok sd cd al1 al2 aw1 aw2 al1 (st_at sd cd aw2 P) = true /\ st_ok sd cd al1 al2 aw1 aw2 al2 (st_at sd cd aw2 P) = true.
Proof. unfold ok4. rewrite !andb_true_iff. tauto. Qed.
Lemma ok4_strike sd cd al1 al2 al3 aw1 aw2 P : al1 <= al2 <= al3 ->
  ok4 sd cd al1 al2 aw1 aw2 P = true -> ok4 sd cd al2 al3 aw1 aw2 P = true -> ok4 sd cd al1 al3 aw1 aw2 P = true.
Proof.
  rewrite !ok4_iff. intros O (A1 & A2 & A3 & A4) (B1 & B2 & B3 & B4).
  split; [eapply st_ok_left; eassumption|]. split; [eapply st_ok_right; eassumption|].
  split; [eapply st_ok_left; eassumption|eapply st_ok_right; eassumption].
Qed.
(** along the dip: the same station arrays belong to different rows *)
Lemma st_ok_low sd cd al1 al2 aw1 aw2 aw3 al aw aw' P : aw1 <= aw2 <= aw3 ->
  st_ok sd cd al1 al2 aw1 aw2 al (st_at sd cd aw P) = true -> st_ok sd cd al1 al2 aw2 aw3 al (st_at sd cd aw' P) = true ->
  st_ok sd cd al1 al2 aw1 aw3 al (st_at sd cd aw P) = true.
Proof.
  rewrite !st_ok_iff. intros O (A & B & C & D) (_ & _ & C' & _). split; [exact A|]. split; [exact B|]. split; [|exact D].
  cbn [st_at sX sp set_ sq] in *. intros (Q & [(J & E)|(J & E)]).
  - apply C. split; [exact Q|left; split; assumption].
  - destruct (between aw1 aw2 aw3 _ O J) as [K|K]; [apply C|apply C']; split; [exact Q|right; split; assumption|exact Q|right; split; assumption].
Qed.
Lemma st_ok_high sd cd al1 al2 aw1 aw2 aw3 al aw aw' P : aw1 <= aw2 <= aw3 ->
  st_ok sd cd al1 al2 aw1 aw2 al (st_at sd cd aw' P) = true -> st_ok sd cd al1 al2 aw2 aw3 al (st_at sd cd aw P) = true ->
  st_ok sd cd al1 al2 aw1 aw3 al (st_at sd cd aw P) = true.
Proof.
  rewrite !st_ok_iff. intros O (_ & _ & C' & _) (A & B & C & D). split; [exact A|]. split; [exact B|]. split; [|exact D].
  cbn [st_at sX sp set_ sq] in *. intros (Q & [(J & E)|(J & E)]).
  - apply C. split; [exact Q|left; split; assumption].
  - destruct (between aw1 aw2 aw3 _ O J) as [K|K]; [apply C'|apply C]; split; [exact Q|right; split; assumption|exact Q|right; split; assumption].
Qed.
Lemma ok4_dip sd cd al1 al2 aw1 aw2 aw3 P : aw1 <= aw2 <= aw3 ->
  ok4 sd cd al1 al2 aw1 aw2 P = true -> ok4 sd cd al1 al2 aw2 aw3 P = true -> ok4 sd cd al1 al2 aw1 aw3 P = true.
Proof.
  rewrite !ok4_iff. intros O (A1 & A2 & A3 & A4) (B1 & B2 & B3 & B4).
  split; [eapply st_ok_low; eassumption|]. split; [eapply st_ok_low; eassumption|].
  split; [eapply st_ok_high; eassumption|eapply st_ok_high; eassumption].
Qed.
Lemma rounded_strike sd cd B al1 al2 al3 aw1 aw2 : nothing_rounded sd cd B al1 al2 aw1 aw2 -> nothing_rounded sd cd B al2 al3 aw1 aw2 ->
  nothing_rounded sd cd B al1 al3 aw1 aw2.
Proof.
  intros H1 H2 P al aw x IP [<-|[<-|[]]] Iw Ix; [apply (H1 P al1 aw x)|apply (H2 P al3 aw x)]; cbn; auto.
Qed.
Lemma rounded_dip sd cd B al1 al2 aw1 aw2 aw3 : nothing_rounded sd cd B al1 al2 aw1 aw2 -> nothing_rounded sd cd B al1 al2 aw2 aw3 ->
  nothing_rounded sd cd B al1 al2 aw1 aw3.
Proof.
  intros H1 H2 P al aw x IP Ia [<-|[<-|[]]] Ix; [apply (H1 P al aw1 x)|apply (H2 P al aw3 x)]; cbn; auto.
Qed.
Lemma okada_strike_sum tp k sd cd P al1 al2 al3 aw1 aw2 d1 d2 :
  okada tp k sd cd P al1 al3 aw1 aw2 d1 d2 = add3 (okada tp k sd cd P al1 al2 aw1 aw2 d1 d2) (okada tp k sd cd P al2 al3 aw1 aw2 d1 d2).
Proof. destruct P as [X Y]. unfold okada, add3, chinnery. cbv zeta. apply tri; ring. Qed.
Lemma okada_dip_sum tp k sd cd P al1 al2 aw1 aw2 aw3 d1 d2 :
  okada tp k sd cd P al1 al2 aw1 aw3 d1 d2 = add3 (okada tp k sd cd P al1 al2 aw1 aw2 d1 d2) (okada tp k sd cd P al1 al2 aw2 aw3 d1 d2).
Proof. destruct P as [X Y]. unfold okada, add3, chinnery. cbv zeta. apply tri; ring. Qed.

Section Adjacent.
Variables alpha dip d1 d2 sd cd : R.
Hypothesis Hdip : dip_sin_cos (dip * pl8) sd cd.
Hypothesis Hd : d1 <> 0 \/ d2 <> 0.
Lemma C92_strike_lemma P al1 al2 al3 aw1 aw2 u v : al1 <= al2 <= al3 ->
  nothing_rounded sd cd [P] al1 al2 aw1 aw2 -> nothing_rounded sd cd [P] al2 al3 aw1 aw2 ->
  dc3d3 alpha [P] dip al1 al2 aw1 aw2 d1 d2 = Ok (Mat [u; u; u]) ->
  dc3d3 alpha [P] dip al2 al3 aw1 aw2 d1 d2 = Ok (Mat [v; v; v]) ->
  dc3d3 alpha [P] dip al1 al3 aw1 aw2 d1 d2 = Ok (Mat [add3 u v; add3 u v; add3 u v]).
Proof.
  intros O N1 N2 E1 E2.
  pose proof (one_spec alpha dip al1 al2 aw1 aw2 d1 d2 sd cd Hdip Hd P N1) as H1.
  pose proof (one_spec alpha dip al2 al3 aw1 aw2 d1 d2 sd cd Hdip Hd P N2) as H2.
  pose proof (one_spec alpha dip al1 al3 aw1 aw2 d1 d2 sd cd Hdip Hd P (rounded_strike _ _ _ _ _ _ _ _ N1 N2)) as H3. cbv zeta in *.
  destruct (ok4 sd cd al1 al2 aw1 aw2 P) eqn:K1; [|destruct H1 as (e & H1); rewrite H1 in E1; discriminate].
  destruct (ok4 sd cd al2 al3 aw1 aw2 P) eqn:K2; [|destruct H2 as (e & H2); rewrite H2 in E2; discriminate].
  rewrite (ok4_strike sd cd al1 al2 al3 aw1 aw2 P O K1 K2) in H3. rewrite H3.
  rewrite E1 in H1. rewrite E2 in H2. injection H1 as ->. injection H2 as ->. rewrite (okada_strike_sum _ _ _ _ _ al1 al2 al3). reflexivity.
Qed.
Lemma C92_dip_lemma P al1 al2 aw1 aw2 aw3 u v : aw1 <= aw2 <= aw3 ->
  nothing_rounded sd cd [P] al1 al2 aw1 aw2 -> nothing_rounded sd cd [P] al1 al2 aw2 aw3 ->
  dc3d3 alpha [P] dip al1 al2 aw1 aw2 d1 d2 = Ok (Mat [u; u; u]) ->
  dc3d3 alpha [P] dip al1 al2 aw2 aw3 d1 d2 = Ok (Mat [v; v; v]) ->
  dc3d3 alpha [P] dip al1 al2 aw1 aw3 d1 d2 = Ok (Mat [add3 u v; add3 u v; add3 u v]).
Proof.
  intros O N1 N2 E1 E2.
  pose proof (one_spec alpha dip al1 al2 aw1 aw2 d1 d2 sd cd Hdip Hd P N1) as H1.
  pose proof (one_spec alpha dip al1 al2 aw2 aw3 d1 d2 sd cd Hdip Hd P N2) as H2.
  pose proof (one_spec alpha dip al1 al2 aw1 aw3 d1 d2 sd cd Hdip Hd P (rounded_dip _ _ _ _ _ _ _ _ N1 N2)) as H3. cbv zeta in *.
  destruct (ok4 sd cd al1 al2 aw1 aw2 P) eqn:K1; [|destruct H1 as (e & H1); rewrite H1 in E1; discriminate].
  destruct (ok4 sd cd al1 al2 aw2 aw3 P) eqn:K2; [|destruct H2 as (e & H2); rewrite H2 in E2; discriminate].
  rewrite (ok4_dip sd cd al1 al2 aw1 aw2 aw3 P O K1 K2) in H3. rewrite H3.
  rewrite E1 in H1. rewrite E2 in H2. injection H1 as ->. injection H2 as ->. rewrite (okada_dip_sum _ _ _ _ _ _ _ aw1 aw2 aw3). reflexivity.
Qed.
End Adjacent.

(** ** superposition of slips *)
Lemma okada_slip tp k sd cd P al1 al2 aw1 aw2 a b d1 d2 e1 e2 :
  okada tp k sd cd P al1 al2 aw1 aw2 (a * d1 + b * e1) (a * d2 + b * e2) =
  add3 (let '(x, y, z) := okada tp k sd cd P al1 al2 aw1 aw2 d1 d2 in (a * x, a * y, a * z))
       (let '(x, y, z) := okada tp k sd cd P al1 al2 aw1 aw2 e1 e2 in (b * x, b * y, b * z)).
Proof. destruct P as [X Y]. unfold okada, add3. cbv zeta. apply tri; unfold Rdiv; ring. Qed.
Lemma C92_slip_lemma alpha dip sd cd P al1 al2 aw1 aw2 a b d1 d2 e1 e2 u v :
  dip_sin_cos (dip * pl8) sd cd -> d1 <> 0 \/ d2 <> 0 -> e1 <> 0 \/ e2 <> 0 ->
  a * d1 + b * e1 <> 0 \/ a * d2 + b * e2 <> 0 ->
  nothing_rounded sd cd [P] al1 al2 aw1 aw2 ->
  dc3d3 alpha [P] dip al1 al2 aw1 aw2 d1 d2 = Ok (Mat [u; u; u]) ->
  dc3d3 alpha [P] dip al1 al2 aw1 aw2 e1 e2 = Ok (Mat [v; v; v]) ->
  let w := add3 (let '(x, y, z) := u in (a * x, a * y, a * z)) (let '(x, y, z) := v in (b * x, b * y, b * z)) in
  dc3d3 alpha [P] dip al1 al2 aw1 aw2 (a * d1 + b * e1) (a * d2 + b * e2) = Ok (Mat [w; w; w]).
Proof.
  intros Hd D E F N E1 E2 w.
  pose proof (one_spec alpha dip al1 al2 aw1 aw2 d1 d2 sd cd Hd D P N) as H1.
  pose proof (one_spec alpha dip al1 al2 aw1 aw2 e1 e2 sd cd Hd E P N) as H2.
  pose proof (one_spec alpha dip al1 al2 aw1 aw2 (a * d1 + b * e1) (a * d2 + b * e2) sd cd Hd F P N) as H3. cbv zeta in *.
  destruct (ok4 sd cd al1 al2 aw1 aw2 P) eqn:K1; [|destruct H1 as (e & H1); rewrite H1 in E1; discriminate].
  rewrite H3. rewrite E1 in H1. rewrite E2 in H2. injection H1 as ->. injection H2 as ->. unfold w. rewrite okada_slip. reflexivity.
Qed.
