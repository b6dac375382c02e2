(** What displacement_vector would return: C76. *)
From Coq Require Import String Reals List Bool Arith ZArith Lra Lia.
From Verif Require Import Numpy Model_Oksar Spec_Oksar Proof_Oksar Proof_Oksar3 Proof_Oksar4 Proof_Oksar5.
Import ListNotations.
Open Scope R_scope.

Lemma slips f : f_slip f <> 0 -> - f_slip f * sin ((f_rake f + 90) * pl8) <> 0 \/ f_slip f * cos ((f_rake f + 90) * pl8) <> 0.
Proof.
  intros S. set (r := (f_rake f + 90) * pl8). assert (Q := sin2_cos2 r). unfold Rsqr in Q.
  destruct (Req_EM_T (sin r) 0) as [Z|Z]; [right|left].
  - rewrite Z in Q. apply Rmult_integral_contrapositive_currified; [exact S|]. intros E. rewrite E in Q. lra.
  - apply Rmult_integral_contrapositive_currified; [lra|exact Z].
Qed.
Lemma C76_mixed_lemma f vec v sd cd :
  f_slip f <> 0 -> f_beta f + f_mu f <> 0 -> f_beta f + 2 * f_mu f <> 0 -> List.length vec = 1%nat \/ List.length vec = 3%nat ->
  dip_sin_cos (- f_dip f * pl8) sd cd ->
  let a := (f_strike f + 90) * pl8 in
  let r := (f_rake f + 90) * pl8 in
  let st := map (fun P => turned a (fst P - fst (f_center f), snd P - snd (f_center f))) vec in
  let half := f_length f / 2 in
  let top := f_top f / sin (f_dip f * pl8) in
  let bottom := f_bottom f / sin (f_dip f * pl8) in
  nothing_rounded sd cd st (- half) half top bottom ->
  displacement f vec = Ok v ->
  let u i := okada PI2 (f_mu f / (f_beta f + f_mu f)) sd cd (nth (if Nat.eqb (List.length vec) 1 then 0 else i)%nat st (0, 0))
               (- half) half top bottom (- f_slip f * sin r) (f_slip f * cos r) in
  v = OutN (map (fun c : R * R * R -> R => let h := turned (- a) (c (u 0%nat), c (u 1%nat)) in (fst h, snd h, c (u 2%nat))) [fst3; snd3; trd3]).
Proof.
  intros S B1 B2 L D a r st half top bottom N H. unfold displacement in H. cbv zeta in H.
  fold a r half top bottom in H.
  assert (M : map (fun P : R * R => (cos a * (- fst (f_center f) + fst P) - sin a * (- snd (f_center f) + snd P), cos a * (- snd (f_center f) + snd P) + sin a * (- fst (f_center f) + fst P))) vec = st).
  { unfold st. apply map_ext. intro P. unfold turned. cbn [fst snd]. apply f_equal2; ring. }
  rewrite M in H. clear M.
  assert (Ls : List.length st = List.length vec) by (unfold st; apply map_length).
  set (alpha := (f_beta f + f_mu f) / (f_beta f + 2 * f_mu f)) in H.
  destruct (dc3d3 alpha st (- f_dip f) (- half) half top bottom (- f_slip f * sin r) (f_slip f * cos r)) as [m|] eqn:E; [|discriminate].
  rewrite <- Ls in L.
  destruct (C91_okada_lemma alpha (- f_dip f) (- half) half top bottom _ _ sd cd D (slips f S) st m L N E) as (cols & -> & LC & F).
  assert (K : (1 - alpha) / alpha = f_mu f / (f_beta f + f_mu f)) by (unfold alpha; field; auto).
  rewrite K in F. intro u. cbn [rbind] in H.
  assert (G : forall i, (i < 3)%nat -> nth_error cols i = Some (u i)).
  { intros i Hi. rewrite (F i Hi). unfold u. rewrite <- Ls. rewrite (nth_error_nth' st (0, 0)); [reflexivity|]. destruct L as [L|L]; rewrite L; cbn; lia. }
  pose proof (G 0%nat ltac:(lia)) as G0. pose proof (G 1%nat ltac:(lia)) as G1. pose proof (G 2%nat ltac:(lia)) as G2. clear F G. clearbody u.
  unfold finish, col in H. rewrite G0, G1, G2 in H. cbn [rbind] in H. clear G0 G1 G2.
  destruct (u 0%nat) as [[a0 b0] c0], (u 1%nat) as [[a1 b1] c1], (u 2%nat) as [[a2 b2] c2]. cbv zeta.
  injection H as <-.
  unfold turned, fst3, snd3, trd3. cbn [map fst snd]. rewrite cos_neg, sin_neg. f_equal.
  repeat (apply f_equal2; [try (apply f_equal2; [apply f_equal2; ring|reflexivity])|]); reflexivity.
Qed.

(** a case in which it returns *)
Definition wit_fault : fault := mkfault (0, 0) (-90) 90 0 1 10 (sin (90 * pl8)) (10 * sin (90 * pl8)) 1 1.
Lemma wit_displacement : exists v,
  f_slip wit_fault <> 0 /\ f_beta wit_fault + f_mu wit_fault <> 0 /\ f_beta wit_fault + 2 * f_mu wit_fault <> 0 /\
  dip_sin_cos (- f_dip wit_fault * pl8) (-1) 0 /\
  nothing_rounded (-1) 0 (map (fun P => turned ((f_strike wit_fault + 90) * pl8) (fst P - fst (f_center wit_fault), snd P - snd (f_center wit_fault))) [(6, 1 / 1000)])
    (- (f_length wit_fault / 2)) (f_length wit_fault / 2) (f_top wit_fault / sin (f_dip wit_fault * pl8)) (f_bottom wit_fault / sin (f_dip wit_fault * pl8)) /\
  displacement wit_fault [(6, 1 / 1000)] = Ok v.
Proof.
  assert (D : dip_sin_cos (- (90) * pl8) (-1) 0) by (exact dip_90).
  assert (SN : sin (90 * pl8) <> 0).
  { assert (K : sin (- (90) * pl8) < 0) by (destruct D as [(A & B & C)|(A & B & [[C1 C2]|[C1 C2]])]; lra). rewrite Ropp_mult_distr_l_reverse, sin_neg in K. lra. }
  assert (M : map (fun P => turned ((f_strike wit_fault + 90) * pl8) (fst P - fst (f_center wit_fault), snd P - snd (f_center wit_fault))) [(6, 1 / 1000)] = [(6, 1/1000)]).
  { cbn [map f_strike f_center wit_fault fst snd]. unfold turned. cbn [fst snd]. replace ((-90 + 90) * pl8) with 0 by ring. rewrite cos_0, sin_0. f_equal. apply f_equal2; field. }
  assert (T1 : f_top wit_fault / sin (f_dip wit_fault * pl8) = 1) by (cbn; field; exact SN).
  assert (T2 : f_bottom wit_fault / sin (f_dip wit_fault * pl8) = 10) by (cbn; field; exact SN).
  assert (T3 : f_length wit_fault / 2 = 5) by (cbn; field).
  assert (T4 : - (f_length wit_fault / 2) = -5) by (rewrite T3; reflexivity).
  rewrite M, T1, T2, T4, T3.
  assert (N := near_clear).
  destruct (C91_defined_lemma ((1+1)/(1+2*1)) (- (90)) (-1) 0 (6, 1/1000) (-5) 5 1 10 (- (1) * sin ((0 + 90) * pl8)) (1 * cos ((0 + 90) * pl8)) D (slips wit_fault ltac:(cbn; lra)) N ltac:(cbn; lra) ltac:(lra) ltac:(lra) ltac:(lra)) as (m & E).
  destruct (C91_okada_lemma ((1+1)/(1+2*1)) (- (90)) (-5) 5 1 10 _ _ (-1) 0 D (slips wit_fault ltac:(cbn; lra)) [(6, 1/1000)] m (or_introl eq_refl) N E) as (cols & -> & LC & _).
  assert (X : exists v, finish (cos ((-90 + 90) * pl8)) (sin ((-90 + 90) * pl8)) (Mat cols) = Ok v).
  { destruct cols as [|[[a0 b0] c0] [|[[a1 b1] c1] [|[[a2 b2] c2] [|? ?]]]]; try discriminate LC. eexists. reflexivity. }
  destruct X as (v & X). exists v.
  split; [cbn; lra|]. split; [cbn; lra|]. split; [cbn; lra|]. split; [exact D|]. split; [exact N|].
  unfold displacement. cbv zeta. rewrite T1, T2, T4, T3.
  assert (M' : map (fun P : R * R => (cos ((f_strike wit_fault + 90) * pl8) * (- fst (f_center wit_fault) + fst P) - sin ((f_strike wit_fault + 90) * pl8) * (- snd (f_center wit_fault) + snd P), cos ((f_strike wit_fault + 90) * pl8) * (- snd (f_center wit_fault) + snd P) + sin ((f_strike wit_fault + 90) * pl8) * (- fst (f_center wit_fault) + fst P))) [(6, 1 / 1000)] = [(6, 1/1000)]).
  { cbn [map f_strike f_center wit_fault fst snd]. replace ((-90 + 90) * pl8) with 0 by ring. rewrite cos_0, sin_0. f_equal. apply f_equal2; field. }
  rewrite M'. cbn [f_beta f_mu f_dip f_rake f_slip f_strike wit_fault]. rewrite E. cbn [rbind]. exact X.
Qed.
