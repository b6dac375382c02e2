(** The circular loop near its wire in floating point (C148). *)
From Coq Require Import ZArith Reals Lra Lia Psatz.
From Flocq Require Import Core.
From Verif Require Import Vec3 Numpy Model_Float Model_Special Model_Float14 Spec_Float Spec_Float9
  Proof_Float Proof_Float2 Proof_Float3 Proof_Float8 Proof_Float9 Proof_Float14 Proof_Float21.
Open Scope R_scope.

Local Existing Instance fexp53_valid.
Lemma one_minus q : 0 <= q <= / 2 ^ 55 -> fl (1 - q) = 1.
Proof.
  intros B. assert (LE : fl (1 - q) <= fl 1) by (apply fl_mono; lra). rewrite fl1 in LE. destruct LE as [LT|EQ]; [|exact EQ]. exfalso.
  assert (PG : fl (1 - q) <= pred radix2 fexp53 1). { apply pred_ge_gt; [typeclasses eauto|apply fl_float|exact (float_bpow 0)|exact LT]. }
  change 1 with (bpow radix2 0) in PG at 2. rewrite pred_bpow in PG. change (fexp53 0) with (-53)%Z in PG. change (bpow radix2 0) with 1 in PG. change (bpow radix2 (-53)) with (/ 9007199254740992) in PG.
  destruct (round_N_pt radix2 fexp53 (fun x => negb (Z.even x)) (1 - q)) as [_ NP]. specialize (NP 1 (float_bpow 0)). change (round radix2 fexp53 ZnearestE (1 - q)) with (fl (1 - q)) in NP.
  rewrite Rabs_left in NP by lra. rewrite Rabs_pos_eq in NP by lra. lra.
Qed.
Lemma one_minus_lt q : / 2 ^ 53 <= q -> fl (1 - q) < 1.
Proof.
  intros H. assert (F : float (1 - / 9007199254740992)).
  { replace (1 - / 9007199254740992) with (9007199254740991 * bpow radix2 (-53)) by (change (bpow radix2 (-53)) with (/ 9007199254740992); lra). apply (float_int 9007199254740991). lia. }
  assert (M : fl (1 - q) <= fl (1 - / 9007199254740992)) by (apply fl_mono; lra). rewrite (fl_id _ F) in M. lra.
Qed.
Lemma sq_mono x y : Rabs x <= y -> 0 <= fsq x <= fsq y.
Proof. intros H. unfold fsq. apply Rabs_le_inv in H. split; [apply fl_nonneg; nra|apply fl_mono; nra]. Qed.
Lemma fsq_nonneg x : 0 <= fsq x. Proof. apply fl_nonneg. nra. Qed.
Lemma fsq_near x : near 1 (fsq x) (x * x). Proof. apply near_fl. Qed.

Section Station.
  Variables (a rho z : R).
  Hypothesis A : 0 < a. Hypothesis P : 0 <= rho.
  Let al := falpha_sq a rho z. Let be := fbeta_sq a rho z.
  Let AL := (a - rho) ^ 2 + z ^ 2. Let BE := (a + rho) ^ 2 + z ^ 2.
  Lemma BE_pos : 0 < BE. Proof. unfold BE. nra. Qed.
  Lemma near_quad t T : near 1 t T -> near 4 (fl (fsq t + fsq z)) (T ^ 2 + z ^ 2).
  Proof.
    intros H. apply near_round. apply near_plus; [nra|nra| |].
    - change 3%nat with (S (1 + 1)). apply near_sq, H.
    - apply (near_weaken 1); [lia|]. replace (z ^ 2) with (z * z) by ring. apply near_fl.
  Qed.
  Lemma al_near : near 4 al AL. Proof. apply near_quad, near_fl. Qed.
  Lemma be_near : near 4 be BE. Proof. apply near_quad, near_fl. Qed.
  Lemma be_pos : 0 < be. Proof. exact (near_pos _ _ _ be_near BE_pos). Qed.
  Lemma al_be : 0 <= al <= be.
  Proof.
    assert (H : Rabs (fl (a - rho)) <= fl (a + rho)).
    { apply Rabs_le. split; [|apply fl_mono; lra]. rewrite <- fl_opp. apply fl_mono. lra. }
    pose proof (sq_mono _ _ H) as [S1 S2]. pose proof (fsq_nonneg z) as Z. split; [apply fl_nonneg; lra|apply fl_mono; lra].
  Qed.
  Lemma ratio : 0 <= fl (al / be) <= 1.
  Proof.
    pose proof be_pos as B. pose proof al_be as [L H]. assert (I : 0 < / be) by (apply Rinv_0_lt_compat, B). split; [apply fl_nonneg; apply Rmult_le_pos; lra|].
    rewrite <- fl1. apply fl_mono. apply Rmult_le_reg_r with be; [exact B|]. unfold Rdiv. rewrite Rmult_assoc, Rinv_l; lra.
  Qed.
  Lemma k_domain : 0 <= fk_sq a rho z <= 1.
  Proof.
    unfold fk_sq. fold al be. pose proof ratio as R. split; [apply fl_nonneg; lra|]. rewrite <- fl1 at 2. apply fl_mono. lra.
  Qed.
  Lemma q_near : near 9 (fl (al / be)) (AL / BE).
  Proof. apply near_round. change 8%nat with (4 + 4)%nat. apply near_div; [apply al_near|apply be_near]. Qed.
  Lemma AL_nonneg : 0 <= AL. Proof. unfold AL. pose proof (pow2_ge_0 (a - rho)). pose proof (pow2_ge_0 z). lra. Qed.
  Lemma q_within : (1 - / 1000) * (AL / BE) <= fl (al / be) <= (1 + / 1000) * (AL / BE).
  Proof.
    pose proof q_near as K. apply (near_within' 10 9) in K; [|lia|rewrite INR_IZR_INZ; cbn; lra]. unfold within in K. fold u in K. assert (Q : 0 <= AL / BE) by (apply Rmult_le_pos; [apply AL_nonneg|left; apply Rinv_0_lt_compat, BE_pos]).
    rewrite (Rabs_pos_eq (AL / BE)) in K by exact Q. apply Rabs_le_inv in K. pose proof u_small. nra.
  Qed.
  Lemma k_off : BE <= 2 ^ 52 * AL -> fk_sq a rho z < 1.
  Proof.
    intros H. unfold fk_sq. fold al be. apply one_minus_lt. pose proof q_within as [K _]. pose proof BE_pos as B.
    assert (/ 2 ^ 52 <= AL / BE). { apply Rmult_le_reg_r with BE; [exact B|]. unfold Rdiv. rewrite Rmult_assoc, Rinv_l by lra. lra. } lra.
  Qed.
  Hypothesis NW : AL <= a ^ 2 / 2 ^ 54.
  Lemma a2 : 0 < a ^ 2. Proof. apply pow_lt, A. Qed.
  Lemma rho_a : 99 / 100 * a <= rho.
  Proof. apply Rnot_lt_le. intros H. pose proof a2 as S. assert (1 / 10000 * a ^ 2 <= AL) by (unfold AL; nra). lra. Qed.
  Lemma k_one : fk_sq a rho z = 1.
  Proof.
    unfold fk_sq. fold al be. apply one_minus. split; [apply ratio|]. pose proof q_within as [_ K]. pose proof BE_pos as B. pose proof rho_a as R. pose proof a2 as S.
    assert (AL / BE <= / 2 ^ 54 / 3). { apply Rmult_le_reg_r with BE; [exact B|]. unfold Rdiv at 1. rewrite Rmult_assoc, Rinv_l by lra. assert (3 * a ^ 2 <= BE) by (unfold BE; nra). lra. } lra.
  Qed.
  Variable pow : R -> nat -> R. Hypothesis GP : good_pow pow.
  Lemma pow2 : near 9 (pow a 2%nat) (a ^ 2). Proof. apply pow_near, GP. Qed.
  Lemma not_small : fsmall_rho pow a rho z = false.
  Proof.
    unfold fsmall_rho, Rltb. destruct (Rlt_dec _ _) as [L|L]; [exfalso|reflexivity].
    assert (D : near 10 (fl (pow a 2%nat + fsq z)) (a ^ 2 + z ^ 2)).
    { apply near_round. apply near_plus; [nra|nra|apply pow2|]. apply (near_weaken 1); [lia|]. replace (z ^ 2) with (z * z) by ring. apply near_fl. }
    assert (Q : near 12 (fl (fsq rho / fl (pow a 2%nat + fsq z))) (rho * rho / (a ^ 2 + z ^ 2))).
    { apply near_round. change 11%nat with (1 + 10)%nat. apply near_div; [apply near_fl|exact D]. }
    pose proof a2 as S. pose proof rho_a as R. assert (Z : z ^ 2 <= a ^ 2) by (unfold AL in NW; pose proof (pow2_ge_0 (a - rho)); lra). assert (DP : 0 < a ^ 2 + z ^ 2) by (pose proof (pow2_ge_0 z); lra).
    assert (H : / 4 <= rho * rho / (a ^ 2 + z ^ 2)). { apply Rmult_le_reg_r with (a ^ 2 + z ^ 2); [exact DP|]. unfold Rdiv. rewrite Rmult_assoc, Rinv_l by lra. nra. }
    apply (near_within' 13 12) in Q; [|lia|rewrite INR_IZR_INZ; cbn; lra]. unfold within in Q. fold u in Q. rewrite (Rabs_pos_eq (rho * rho / (a ^ 2 + z ^ 2))) in Q by lra. apply Rabs_le_inv in Q. pose proof u_small as U.
    pose proof (fl_err (1 / 10 ^ 6)) as E. rewrite (Rabs_pos_eq (1 / 10 ^ 6)) in E by lra. apply Rabs_le_inv in E. pose proof u_pos. nra.
  Qed.
  Lemma fbeta_pos : 0 < fbeta a rho z. Proof. apply fl_pos, sqrt_lt_R0, be_pos. Qed.
  Lemma sum_pos : 0 < fl (fl (pow a 2%nat + fsq rho) + fsq z).
  Proof. pose proof a2 as S. pose proof (near_pos _ _ _ pow2 S) as Q. pose proof (fsq_nonneg rho). pose proof (fsq_nonneg z). apply fl_pos. assert (0 < fl (pow a 2%nat + fsq rho)) by (apply fl_pos; lra). lra. Qed.
  Lemma al_pos : 0 < AL -> 0 < al. Proof. exact (near_pos _ _ _ al_near). Qed.
End Station.

Lemma sgn_near k x y : near k x y -> y <> 0 -> x <> 0 /\ sgn_neg x = sgn_neg y.
Proof.
  intros H N. split; [exact (near_n0 _ _ _ H N)|]. unfold sgn_neg. destruct H as (d & -> & D1 & D2). pose proof (wk_pos k) as W. destruct (Rlt_dec (y * d) 0), (Rlt_dec y 0); try reflexivity; exfalso; nra.
Qed.
Lemma C_near mu current : near 3 (fcl_C mu current) (mu * current / PI).
Proof. apply near_round. change 2%nat with (1 + 1)%nat. apply near_div; [apply near_fl|apply near_pi]. Qed.
Lemma coefficient mu current D : mu * current <> 0 -> 0 < D -> exists c, xdiv (Fin (fcl_C mu current)) (Fin D) = Fin c /\ c <> 0 /\ sgn_neg c = sgn_neg (mu * current).
Proof.
  intros N P. unfold xdiv. destruct (Req_EM_T D 0) as [Z|Z]; [lra|]. eexists. split; [reflexivity|]. assert (K : near 4 (fl (fcl_C mu current / D)) (mu * current * / (PI * D))).
  { apply near_round. pose proof PI_RGT_0. replace (mu * current * / (PI * D)) with (mu * current / PI / D) by (field; lra). change 3%nat with (3 + 0)%nat. apply near_div; [apply C_near|apply near_refl]. }
  pose proof PI_RGT_0. assert (I : 0 < / (PI * D)) by (apply Rinv_0_lt_compat, Rmult_lt_0_compat; lra). destruct (sgn_near _ _ _ K) as [H1 H2]; [apply Rmult_integral_contrapositive_currified; lra|]. split; [exact H1|]. rewrite H2.
  unfold sgn_neg. destruct (Rlt_dec (mu * current * / (PI * D)) 0), (Rlt_dec (mu * current) 0); try reflexivity; exfalso; nra.
Qed.
Lemma times_inf c : c <> 0 -> xmul (Fin c) (Inf false) = Inf (sgn_neg c).
Proof. intros N. unfold xmul. destruct (Req_EM_T c 0); [contradiction|]. destruct (sgn_neg c); reflexivity. Qed.
Lemma pos_inf c : 0 < c -> xmul (Fin c) (Inf false) = Inf false.
Proof. intros H. rewrite times_inf by lra. unfold sgn_neg. destruct (Rlt_dec c 0); [lra|reflexivity]. Qed.

Lemma near_wire pow ek kk a mu current rho z : good_pow pow -> elliptic_library ek kk -> 0 < a -> 0 <= rho -> mu * current <> 0 ->
  0 < (a - rho) ^ 2 + z ^ 2 <= a ^ 2 / 2 ^ 54 ->
  fcl_A_phi pow ek kk a mu current rho z = Inf (sgn_neg (mu * current)) /\ fcl_B_z pow ek kk a mu current rho z = Inf (sgn_neg (mu * current)).
Proof.
  intros GP (_ & E1 & K1) A P N [N0 NW]. pose proof (k_one a rho z A P NW) as K. pose proof (rho_a a rho z A P NW) as R. pose proof (fbeta_pos a rho z A P) as FB. split.
  - unfold fcl_A_phi. rewrite (not_small a rho z A P NW pow GP), K, E1, K1. cbv zeta.
    destruct (coefficient mu current (fl (fl (2 * rho) * fbeta a rho z)) N) as (c & -> & C & S). { apply fl_pos, Rmult_lt_0_compat; [apply fl_pos; lra|exact FB]. }
    rewrite (pos_inf _ (sum_pos a rho z A pow GP)). change (xmul (Fin c) (xsub (Inf false) (xmul (Fin (fbeta_sq a rho z)) (Fin 1)))) with (xmul (Fin c) (Inf false)). rewrite times_inf by exact C. rewrite S. reflexivity.
  - unfold fcl_B_z. rewrite K, E1, K1. cbv zeta. pose proof (al_pos a rho z N0) as AP.
    destruct (coefficient mu current (fl (fl (2 * falpha_sq a rho z) * fbeta a rho z)) N) as (c & -> & C & S). { apply fl_pos, Rmult_lt_0_compat; [apply fl_pos; lra|exact FB]. }
    rewrite (pos_inf _ AP). match goal with |- xmul _ ?X = _ => change X with (Inf false) end. rewrite times_inf by exact C. rewrite S. reflexivity.
Qed.
Lemma off_wire pow ek kk a mu current rho z : good_pow pow -> elliptic_library ek kk -> 0 < a -> 0 <= rho -> (a + rho) ^ 2 + z ^ 2 <= 2 ^ 52 * ((a - rho) ^ 2 + z ^ 2) ->
  (fsmall_rho pow a rho z = false -> exists x, fcl_A_phi pow ek kk a mu current rho z = Fin x) /\ exists x, fcl_B_z pow ek kk a mu current rho z = Fin x.
Proof.
  intros GP (F & _) A P O. pose proof (k_off a rho z A P O) as K. destruct (k_domain a rho z A P) as [K0 _]. destruct (F _ (conj K0 K)) as (x & y & E & KK). pose proof (fbeta_pos a rho z A P) as FB.
  split.
  - intros S. unfold fcl_A_phi. rewrite S, E, KK. cbv zeta. assert (RP : rho <> 0).
    { intros Z. unfold fsmall_rho in S. rewrite Z in S. unfold fsq in S at 1. rewrite Rmult_0_l in S. rewrite (fl_id 0 float_0) in S. unfold Rdiv in S at 1. rewrite Rmult_0_l, (fl_id 0 float_0) in S. unfold Rltb in S. destruct (Rlt_dec 0 (fl (1 / 10 ^ 6))) as [L|L]; [discriminate|]. apply L, fl_pos. lra. }
    assert (DP : 0 < fl (fl (2 * rho) * fbeta a rho z)) by (apply fl_pos, Rmult_lt_0_compat; [apply fl_pos; lra|exact FB]).
    unfold xdiv. destruct (Req_EM_T _ 0) as [Z|Z]; [lra|]. cbn. eexists. reflexivity.
  - unfold fcl_B_z. rewrite E, KK. cbv zeta. assert (AP : 0 < falpha_sq a rho z). { apply al_pos. pose proof (BE_pos a rho z A P). lra. }
    assert (DP : 0 < fl (fl (2 * falpha_sq a rho z) * fbeta a rho z)) by (apply fl_pos, Rmult_lt_0_compat; [apply fl_pos; lra|exact FB]).
    unfold xdiv. destruct (Req_EM_T _ 0) as [Z|Z]; [lra|]. cbn. eexists. reflexivity.
Qed.
