(** Expansions for small induction numbers (C129). *)
From Coq Require Import Reals Lra Psatz.
From Coquelicot Require Import Coquelicot.
From Verif Require Import Vec3 Calculus Deriv Cplx CplxTaylor Proof_FDEM Proof_FDEM4 Proof_Induction.
Open Scope R_scope.

(** the remainders of the exponential series, along the segment from 0 to [u], in the half-plane of decay *)
Section Taylor.
  Variable u : C.
  Hypothesis D : 0 <= Re u.
  Let a := Cmod u.
  Let A0 : 0 <= a := Cmod_ge_0 u.
  Notation l t := (RtoC t * u)%C.
  Definition r0 (t : R) : C := cexp (- l t)%C.
  Definition r1 (t : R) : C := (r0 t - 1)%C.
  Definition r2 (t : R) : C := (r1 t + l t)%C.
  Definition r3 (t : R) : C := (r2 t - RtoC (/ 2) * (l t * l t))%C.
  Definition r4 (t : R) : C := (r3 t + RtoC (/ 6) * (l t * l t * l t))%C.
  Definition r5 (t : R) : C := (r4 t - RtoC (/ 24) * (l t * l t * l t * l t))%C.
  Lemma Dl t : is_cderive (fun t => l t) t u. Proof. apply CD_line. Qed.
  Lemma Dl2 t : is_cderive (fun t => l t * l t)%C t (u * l t + l t * u)%C. Proof. exact (CD_mult _ _ _ _ _ (Dl t) (Dl t)). Qed.
  Lemma Dl3 t : is_cderive (fun t => l t * l t * l t)%C t ((u * l t + l t * u) * l t + l t * l t * u)%C. Proof. exact (CD_mult _ _ _ _ _ (Dl2 t) (Dl t)). Qed.
  Lemma Dl4 t : is_cderive (fun t => l t * l t * l t * l t)%C t (((u * l t + l t * u) * l t + l t * l t * u) * l t + l t * l t * l t * u)%C. Proof. exact (CD_mult _ _ _ _ _ (Dl3 t) (Dl t)). Qed.
  Lemma Dr0 t : is_cderive r0 t (- u * r0 t)%C. Proof. apply CD_expline. Qed.
  Lemma Dr1 t : is_cderive r1 t (- u * r0 t)%C.
  Proof. eapply is_cderive_eq; [apply CD_minus; [apply Dr0|apply CD_const]|]. ring. Qed.
  Lemma Dr2 t : is_cderive r2 t (- u * r1 t)%C.
  Proof. eapply is_cderive_eq; [apply CD_plus; [apply Dr1|apply Dl]|]. unfold r1. ring. Qed.
  Lemma Dr3 t : is_cderive r3 t (- u * r2 t)%C.
  Proof.
    eapply is_cderive_eq; [apply CD_minus; [apply Dr2|apply CD_scal, Dl2]|]. unfold r2. cbv beta.
    replace (RtoC (/ 2) * (u * l t + l t * u))%C with (RtoC (/ 2 * 2) * (u * l t))%C by (rewrite RtoC_mult, C2; ring). replace (/ 2 * 2) with 1 by field. ring.
  Qed.
  Lemma Dr4 t : is_cderive r4 t (- u * r3 t)%C.
  Proof.
    eapply is_cderive_eq; [apply CD_plus; [apply Dr3|apply CD_scal, Dl3]|]. unfold r3. cbv beta.
    replace (RtoC (/ 6) * ((u * l t + l t * u) * l t + l t * l t * u))%C with (RtoC (/ 6 * 3) * (u * l t * l t))%C by (rewrite RtoC_mult, C3; ring). replace (/ 6 * 3) with (/ 2) by field. ring.
  Qed.
  Lemma Dr5 t : is_cderive r5 t (- u * r4 t)%C.
  Proof.
    eapply is_cderive_eq; [apply CD_minus; [apply Dr4|apply CD_scal, Dl4]|]. unfold r4. cbv beta.
    match goal with |- (_ - ?x)%C = _ => replace x with (RtoC (/ 24 * 4) * (u * l t * l t * l t))%C by (rewrite RtoC_mult, C4; ring) end. replace (/ 24 * 4) with (/ 6) by field. ring.
  Qed.
  Lemma B0 t : 0 <= t -> Cmod (r0 t) <= 1.
  Proof.
    intros T. unfold r0. rewrite Cmod_cexp. replace (Re (- l t)%C) with (- (t * Re u)) by (cbn; ring). rewrite <- exp_0.
    assert (0 <= t * Re u) by nra. destruct (Req_dec (t * Re u) 0) as [->|N]; [right; f_equal; ring|left; apply exp_increasing; lra].
  Qed.
  (** each remainder bounds the next *)
  Lemma step (f h : R -> C) (g g' : R -> R) t : 0 <= t -> f 0 = RtoC 0 -> g 0 = 0 -> (forall x, is_cderive f x (- u * h x)%C) ->
    (forall x, is_derive g x (a * g' x)) -> (forall x, 0 <= x -> Cmod (h x) <= g' x) -> Cmod (f t) <= g t.
  Proof.
    intros T F0 G0 Df Dg B. pose proof (Cmod_increment f (fun x => - u * h x)%C g (fun x => a * g' x) 0 t T (fun x _ => Df x) (fun x _ => Dg x)) as K.
    rewrite F0, G0 in K. replace (f t - 0)%C with (f t) in K by ring. rewrite Rminus_0_r in K. apply K. intros x X. rewrite Cmod_mult, Cmod_opp. fold a.
    apply Rmult_le_compat_l; [exact A0|]. apply B. lra.
  Qed.
  Lemma B1 t : 0 <= t -> Cmod (r1 t) <= a * t.
  Proof. intros T. apply (step r1 r0 (fun t => a * t) (fun _ => 1)); try assumption; [unfold r1, r0; rewrite Cmult_0_l, Copp_0, cexp_0; ring|ring|apply Dr1|intros x; eapply is_derive_eq; [der; exact I|ring]|apply B0]. Qed.
  Lemma B2 t : 0 <= t -> Cmod (r2 t) <= a ^ 2 * (t ^ 2 / 2).
  Proof.
    intros T. apply (step r2 r1 (fun t => a ^ 2 * (t ^ 2 / 2)) (fun t => a * t)); try assumption; [unfold r2, r1, r0; rewrite Cmult_0_l, Copp_0, cexp_0; ring|field|apply Dr2| |apply B1].
    intros x. eapply is_derive_eq; [der; lra|]. cbn [INR pow Init.Nat.pred]. field.
  Qed.
  Lemma B3 t : 0 <= t -> Cmod (r3 t) <= a ^ 3 * (t ^ 3 / 6).
  Proof.
    intros T. apply (step r3 r2 (fun t => a ^ 3 * (t ^ 3 / 6)) (fun t => a ^ 2 * (t ^ 2 / 2))); try assumption; [unfold r3, r2, r1, r0; rewrite Cmult_0_l, Copp_0, cexp_0; ring|field|apply Dr3| |apply B2].
    intros x. eapply is_derive_eq; [der; lra|]. cbn [INR pow Init.Nat.pred]. field.
  Qed.
  Lemma B4 t : 0 <= t -> Cmod (r4 t) <= a ^ 4 * (t ^ 4 / 24).
  Proof.
    intros T. apply (step r4 r3 (fun t => a ^ 4 * (t ^ 4 / 24)) (fun t => a ^ 3 * (t ^ 3 / 6))); try assumption; [unfold r4, r3, r2, r1, r0; rewrite Cmult_0_l, Copp_0, cexp_0; ring|field|apply Dr4| |apply B3].
    intros x. eapply is_derive_eq; [der; lra|]. cbn [INR pow Init.Nat.pred]. field.
  Qed.
  Lemma B5 t : 0 <= t -> Cmod (r5 t) <= a ^ 5 * (t ^ 5 / 120).
  Proof.
    intros T. apply (step r5 r4 (fun t => a ^ 5 * (t ^ 5 / 120)) (fun t => a ^ 4 * (t ^ 4 / 24))); try assumption; [unfold r5, r4, r3, r2, r1, r0; rewrite Cmult_0_l, Copp_0, cexp_0; ring|field|apply Dr5| |apply B4].
    intros x. eapply is_derive_eq; [der; lra|]. cbn [INR pow Init.Nat.pred]. field.
  Qed.
End Taylor.

Lemma exp_taylor u : 0 <= Re u -> exists e,
  cexp (- u)%C = (1 - u + RtoC (/ 2) * (u * u) - RtoC (/ 6) * (u * u * u) + RtoC (/ 24) * (u * u * u * u) + e)%C /\ Cmod e <= Cmod u ^ 5 / 120.
Proof.
  intros D. exists (r5 u 1). split.
  - unfold r5, r4, r3, r2, r1, r0. rewrite Cmult_1_l. ring.
  - pose proof (B5 u D 1 ltac:(lra)). replace (Cmod u ^ 5 / 120) with (Cmod u ^ 5 * (1 ^ 5 / 120)) by field. assumption.
Qed.

(** ** the three profiles *)
Lemma bound5 (a b c : R) (e q u : C) M N : Cmod u <= 1 -> Cmod e <= Cmod u ^ 5 / 120 -> Cmod q <= M ->
  Rabs a + Rabs b + Rabs c + M / 120 <= N ->
  Cmod (RtoC a * (u * u * u * u * u) + RtoC b * (u * u * u * u * u * u) + RtoC c * (u * u * u * u * u * u * u) + q * e)%C <= N * Cmod u ^ 5.
Proof.
  intros U E Q H. pose proof (Cmod_ge_0 u) as P. set (v := Cmod u) in *.
  eapply Rle_trans; [apply Cmod_triangle|]. eapply Rle_trans; [apply Rplus_le_compat_r, Cmod_triangle|]. eapply Rle_trans; [apply Rplus_le_compat_r, Rplus_le_compat_r, Cmod_triangle|].
  rewrite !Cmod_mult, !Cmod_R. fold v. pose proof (Rabs_pos a). pose proof (Rabs_pos b). pose proof (Rabs_pos c). pose proof (Cmod_ge_0 q). pose proof (Cmod_ge_0 e).
  assert (V5 : 0 <= v ^ 5) by (apply pow_le; exact P).
  assert (V6 : v * v * v * v * v * v <= v ^ 5) by (replace (v * v * v * v * v * v) with (v ^ 5 * v) by ring; nra).
  assert (V7 : v * v * v * v * v * v * v <= v ^ 5) by (replace (v * v * v * v * v * v * v) with (v * v * v * v * v * v * v) by ring; nra).
  assert (E' : Cmod q * Cmod e <= M * (v ^ 5 / 120)) by (apply Rmult_le_compat; assumption).
  replace (v * v * v * v * v) with (v ^ 5) by ring. nra.
Qed.

Ltac cnz N := repeat split; first [exact N | let E := fresh in intros E; apply (f_equal fst) in E; cbn in E; lra].
Ltac fracs := unfold Rdiv; rewrite !RtoC_mult, ?Cmult_1_l; rewrite !RtoC_inv by lra; rewrite ?Cm1;
  try replace (RtoC 24) with ((1 + 1 + 1 + 1) * (1 + 1 + 1) * (1 + 1))%C by (ceq; ring); try replace (RtoC 8) with ((1 + 1) * (1 + 1) * (1 + 1))%C by (ceq; ring);
  try replace (RtoC 6) with ((1 + 1 + 1) * (1 + 1))%C by (ceq; ring); cnum.

Section Profiles.
  Variable u : C.
  Hypothesis D : 0 <= Re u.
  Hypothesis N0 : u <> RtoC 0.
  Hypothesis U1 : Cmod u <= 1.
  Let V : 0 < Cmod u := proj1 (Cmod_gt_0 u) N0.

  Lemma over_u2 (z : C) N : Cmod z <= N * Cmod u ^ 5 -> Cmod (z / (u * u))%C <= N * Cmod u ^ 3.
  Proof.
    intros H. assert (U2 : (u * u)%C <> RtoC 0) by (apply Cmult_neq_0; exact N0). rewrite Cmod_div by exact U2. rewrite Cmod_mult.
    apply Rle_div_l; [nra|]. replace (N * Cmod u ^ 3 * (Cmod u * Cmod u)) with (N * Cmod u ^ 5) by ring. exact H.
  Qed.
  Lemma qbound3 a b c : Cmod (RtoC a + RtoC b * u + RtoC c * (u * u))%C <= Rabs a + Rabs b + Rabs c.
  Proof.
    eapply Rle_trans; [apply Cmod_triangle|]. eapply Rle_trans; [apply Rplus_le_compat_r, Cmod_triangle|]. rewrite !Cmod_mult, !Cmod_R.
    pose proof (Rabs_pos b). pose proof (Rabs_pos c). pose proof V. assert (Cmod u * Cmod u <= 1) by nra. nra.
  Qed.
  Lemma qbound4 a b c d : Cmod (RtoC a + RtoC b * u + RtoC c * (u * u) + RtoC d * (u * u * u))%C <= Rabs a + Rabs b + Rabs c + Rabs d.
  Proof.
    eapply Rle_trans; [apply Cmod_triangle|]. apply Rplus_le_compat; [apply qbound3|]. rewrite !Cmod_mult, Cmod_R.
    pose proof (Rabs_pos d). pose proof V. assert (Cmod u * Cmod u * Cmod u <= 1) by nra. nra.
  Qed.

  Lemma profile1 : Cmod ((3 - (3 + 3 * u + u * u) * cexp (- u)) / (u * u) - RtoC (1 / 2) + RtoC (1 / 8) * (u * u))%C <= 17 / 120 * Cmod u ^ 3.
  Proof.
    destruct (exp_taylor u D) as (e & E & B).
    match goal with |- Cmod ?z <= _ => replace z with
      ((RtoC (1 / 24) * (u * u * u * u * u) + RtoC (- 1 / 24) * (u * u * u * u * u * u) + RtoC 0 * (u * u * u * u * u * u * u) + (- (RtoC 3 + RtoC 3 * u + RtoC 1 * (u * u))) * e) / (u * u))%C end.
    - apply over_u2. apply (bound5 _ _ _ _ _ _ 7); [exact U1|exact B| |].
      + rewrite Cmod_opp. eapply Rle_trans; [apply qbound3|]. rewrite !Rabs_pos_eq by lra. lra.
      + rewrite Rabs_R0, (Rabs_pos_eq (1 / 24)), (Rabs_left (-1 / 24)) by lra. lra.
    - rewrite E. fracs. field. cnz N0.
  Qed.
  Lemma profile2 : Cmod ((12 - (12 + 12 * u + 5 * (u * u) + u * u * u) * cexp (- u)) / (u * u) - 1)%C <= 1 / 2 * Cmod u ^ 3.
  Proof.
    destruct (exp_taylor u D) as (e & E & B).
    match goal with |- Cmod ?z <= _ => replace z with
      ((RtoC (- 1 / 6) * (u * u * u * u * u) + RtoC (- 1 / 24) * (u * u * u * u * u * u) + RtoC (- 1 / 24) * (u * u * u * u * u * u * u)
        + (- (RtoC 12 + RtoC 12 * u + RtoC 5 * (u * u) + RtoC 1 * (u * u * u))) * e) / (u * u))%C end.
    - apply over_u2. apply (bound5 _ _ _ _ _ _ 30); [exact U1|exact B| |].
      + rewrite Cmod_opp. eapply Rle_trans; [apply qbound4|]. rewrite !Rabs_pos_eq by lra. lra.
      + rewrite (Rabs_left (-1 / 6)), (Rabs_left (-1 / 24)) by lra. lra.
    - rewrite E. fracs. field. cnz N0.
  Qed.
  Lemma profile3 : Cmod ((9 - (9 + 9 * u + 4 * (u * u) + u * u * u) * cexp (- u)) / (u * u) - RtoC (1 / 2) - RtoC (1 / 8) * (u * u))%C <= 53 / 120 * Cmod u ^ 3.
  Proof.
    destruct (exp_taylor u D) as (e & E & B).
    match goal with |- Cmod ?z <= _ => replace z with
      ((RtoC (- 5 / 24) * (u * u * u * u * u) + RtoC 0 * (u * u * u * u * u * u) + RtoC (- 1 / 24) * (u * u * u * u * u * u * u)
        + (- (RtoC 9 + RtoC 9 * u + RtoC 4 * (u * u) + RtoC 1 * (u * u * u))) * e) / (u * u))%C end.
    - apply over_u2. apply (bound5 _ _ _ _ _ _ 23); [exact U1|exact B| |].
      + rewrite Cmod_opp. eapply Rle_trans; [apply qbound4|]. rewrite !Rabs_pos_eq by lra. lra.
      + rewrite Rabs_R0, (Rabs_left (-5 / 24)), (Rabs_left (-1 / 24)) by lra. lra.
    - rewrite E. replace (RtoC (- 5 / 24)) with (- (1 + 1 + 1 + 1 + 1) * RtoC (1 / 24))%C by (ceq; field). fracs. field. cnz N0.
  Qed.
End Profiles.
