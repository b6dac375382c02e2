(** The potential of a sphere in floating point (C146). *)
From Coq Require Import ZArith Reals Lra Lia Psatz List.
From Flocq Require Import Core.
From Verif Require Import Vec3 Numpy Model_Gravity Model_Static Model_Float Model_Float12 Spec_Float Spec_Float7
  Proof_Spatial Proof_Sphere Proof_Float Proof_Float2 Proof_Float3 Proof_Float9 Proof_Float14 Proof_Float18 Proof_Float19 Proof_Float21 Proof_Float23.
Open Scope R_scope.

Local Existing Instance fexp53_valid.
Section Sphere.
  Variables (pow : R -> nat -> R) (dot : vec3 -> vec3 -> R).
  Hypothesis GP : good_pow pow. Hypothesis GD : good_dot dot.
  Variables (s : sph) (p : vec3).
  Let loc := sp_loc s. Let R0 := sp_radius s. Let c1 := sp_c1 s. Let c0 := sp_c0 s.
  Hypothesis P0 : 0 < c0. Hypothesis P1 : 0 < c1. Hypothesis PR : 0 < R0.
  Let rv := fdiff p loc. Let r := fnorm rv. Let RV := vsub p loc. Let Rr := vnorm RV.
  Let o := vopp (sp_F0 s). Let N := Rr * vnorm (sp_F0 s).
  Let d := dot rv o. Let D := vdot RV o.
  Lemma Rr0 : 0 <= Rr. Proof. apply vnorm_nonneg. Qed.
  Lemma N_nonneg : 0 <= N. Proof. apply Rmult_le_pos; [apply Rr0|apply vnorm_nonneg]. Qed.
  Lemma o_norm : vnorm o = vnorm (sp_F0 s).
  Proof. unfold o, vnorm. f_equal. destruct (sp_F0 s) as [fx fy fz]. unfold vnorm2, vopp. cbn [vx vy vz]. ring. Qed.
  Lemma r_near : near 4 r Rr. Proof. apply near_dist. Qed.
  Lemma d_ae : ae 33 N d D.
  Proof.
    pose proof (comp_le RV) as (X & Y & Z). pose proof (comp_le o) as (X' & Y' & Z'). rewrite o_norm in X', Y', Z'. fold Rr in X, Y, Z. pose proof Rr0 as R. pose proof (vnorm_nonneg (sp_F0 s)) as F.
    destruct (vnear_diff p loc) as (A & B & C). fold rv RV in A, B, C.
    assert (M : forall q Q w, near 1 q Q -> Rabs Q <= Rr -> Rabs w <= vnorm (sp_F0 s) -> ae 2 N (q * w) (Q * w)).
    { intros q Q w H HQ Hw. apply (ae_near 1); [lia|cbn; lra| |].
      - rewrite Rabs_mult. apply Rmult_le_compat; auto using Rabs_pos.
      - change 1%nat with (1 + 0)%nat. apply near_mult; [exact H|apply near_refl]. }
    pose proof (M _ _ _ A X X') as X2. pose proof (M _ _ _ B Y Y') as Y2. pose proof (M _ _ _ C Z Z') as Z2.
    pose proof (ae_mag 2 N _ _ ltac:(lra) X2) as MX. pose proof (ae_mag 2 N _ _ ltac:(lra) Y2) as MY. pose proof (ae_mag 2 N _ _ ltac:(lra) Z2) as MZ.
    destruct X2 as [X2 _], Y2 as [Y2 _], Z2 as [Z2 _]. pose proof (GD rv o) as E. fold u d in E. pose proof u_pos as U. pose proof N_nonneg as NN. split.
    - replace (d - D) with ((d - vdot rv o) + ((vx rv * vx o - vx RV * vx o) + (vy rv * vy o - vy RV * vy o) + (vz rv * vz o - vz RV * vz o))) by (unfold D, vdot; ring).
      eapply Rle_trans; [apply Rabs_triang|]. eapply Rle_trans; [apply Rplus_le_compat_l; eapply Rle_trans; [apply Rabs_triang|apply Rplus_le_compat_r, Rabs_triang]|].
      assert (8 * u * (Rabs (vx rv * vx o) + Rabs (vy rv * vy o) + Rabs (vz rv * vz o)) <= 8 * u * (33 / 10 * N)) by (apply Rmult_le_compat_l; lra). nra.
    - eapply Rle_trans; [apply cauchy_schwarz|]. rewrite o_norm. fold Rr N. lra.
  Qed.
  Let den := c1 + 2 * c0.
  Lemma den_pos : 0 < den. Proof. unfold den. lra. Qed.
  Lemma den_near : near 2 (fl (c1 + fl (2 * c0))) den.
  Proof. apply near_round. apply near_plus; [lra|lra|apply near_refl|apply near_fl]. Qed.
  Lemma cur_near : near 4 (fsp_cur s) (sp_cur s).
  Proof. unfold fsp_cur, sp_cur. fold c1 c0. apply near_round. change 3%nat with (1 + 2)%nat. apply near_div; [apply near_fl|apply den_near]. Qed.
  Lemma cur_le : Rabs (sp_cur s) <= 1.
  Proof.
    unfold sp_cur. fold c1 c0. pose proof den_pos as P. unfold den in P. assert (I : 0 < / (c1 + 2 * c0)) by (apply Rinv_0_lt_compat, P). assert (E : (c1 + 2 * c0) * / (c1 + 2 * c0) = 1) by (field; lra).
    apply Rabs_le. unfold Rdiv. split; nra.
  Qed.
  Let Q := sp_cur s * R0 ^ 3 / Rr ^ 3. Let q := fl (fl (fsp_cur s * pow R0 3%nat) / pow r 3%nat).
  Lemma q_near : near 36 q Q.
  Proof.
    unfold q, Q. apply near_round. change 35%nat with (14 + 21)%nat. apply near_div.
    - apply near_round. change 13%nat with (4 + 9)%nat. apply near_mult; [apply cur_near|apply pow_near, GP].
    - change 21%nat with (9 + 3 * 4)%nat. apply (near_trans 9 _ _ (r ^ 3)); [apply pow_near, GP|]. apply near_pow3, r_near.
  Qed.
  (** on the two sides of the surface *)
  Lemma sides : (R0 < r /\ Rr <= R0) \/ (r <= R0 /\ R0 < Rr) -> near 12 (R0 ^ 3 / Rr ^ 3) 1 /\ 0 < Rr.
  Proof.
    intros H. pose proof r_near as Nr. assert (RP : 0 < Rr).
    { destruct H as [[A B]|[A B]]; [|lra]. pose proof Rr0 as [G|G]; [exact G|]. rewrite <- G in Nr. apply near_0 in Nr. lra. }
    split; [|exact RP]. destruct Nr as (e & E & EB).
    assert (K : near 4 R0 Rr).
    { exists (R0 / Rr). split; [field; lra|]. assert (0 < / w ^ 4) by (apply Rinv_0_lt_compat, wk_pos). pose proof (wk_le1 4) as W. assert (1 <= / w ^ 4) by (rewrite <- Rinv_1; apply Rinv_le_contravar; [apply wk_pos|exact W]).
      assert (I : 0 < / Rr) by (apply Rinv_0_lt_compat, RP). assert (II : Rr * / Rr = 1) by (field; lra). assert (EI : e = r * / Rr) by (rewrite E; field; lra). unfold Rdiv. destruct H as [[A B]|[A B]].
      - assert (1 <= R0 * / Rr) by nra. assert (R0 * / Rr <= e) by (rewrite EI; nra). lra.
      - assert (R0 * / Rr <= 1) by nra. assert (e <= R0 * / Rr) by (rewrite EI; nra). lra. }
    apply (near_pow3 4) in K. assert (0 < Rr ^ 3) by (apply pow_lt, RP). replace 1 with (Rr ^ 3 / Rr ^ 3) by (field; lra). change (3 * 4)%nat with (12 + 0)%nat in K. change 12%nat with (12 + 0)%nat. apply near_div; [exact K|apply near_refl].
  Qed.
  Lemma jump : (R0 < r /\ Rr <= R0) \/ (r <= R0 /\ R0 < Rr) -> Rabs (D * (1 - Q) - D * 3 * c0 / den) <= 14 * u * N.
  Proof.
    intros H. destruct (sides H) as [K RP]. apply (near_within' 13 12) in K; [|lia|rewrite INR_IZR_INZ; cbn; lra]. unfold within in K. fold u in K. rewrite Rabs_R1, Rmult_1_r in K.
    assert (0 < Rr ^ 3) by (apply pow_lt, RP). pose proof den_pos as P.
    replace (D * (1 - Q) - D * 3 * c0 / den) with (- (D * (sp_cur s * (R0 ^ 3 / Rr ^ 3 - 1)))) by (unfold Q, den, sp_cur; fold c1 c0; unfold den in P; field; lra).
    rewrite Rabs_Ropp, !Rabs_mult. pose proof (proj2 d_ae) as DN. pose proof cur_le as CL. pose proof (Rabs_pos D). pose proof (Rabs_pos (sp_cur s)). pose proof (Rabs_pos (R0 ^ 3 / Rr ^ 3 - 1)). pose proof u_pos. pose proof N_nonneg.
    assert (Rabs (sp_cur s) * Rabs (R0 ^ 3 / Rr ^ 3 - 1) <= 1 * (13 * u)) by (apply Rmult_le_compat; lra).
    eapply Rle_trans; [apply Rmult_le_compat; [|apply Rmult_le_pos|exact DN|eassumption]; assumption|]. nra.
  Qed.
  Lemma out_ae : R0 < r -> Rabs (fl (d * fl (1 - q)) - D * (1 - Q)) <= 225 * u * N.
  Proof.
    intros H. pose proof r_near as Nr. pose proof Rr0 as G. assert (RP : 0 < Rr). { destruct G as [G|G]; [exact G|]. rewrite <- G in Nr. apply near_0 in Nr. lra. }
    assert (QB : Rabs Q <= 101 / 100).
    { assert (B : R0 <= 1001 / 1000 * Rr). { apply (near_within' 5 4) in Nr; [|lia|cbn; lra]. unfold within in Nr. fold u in Nr. rewrite (Rabs_pos_eq Rr) in Nr by lra. apply Rabs_le_inv in Nr. pose proof u_small. nra. }
      assert (C3 : R0 ^ 3 <= (1001 / 1000 * Rr) ^ 3) by (apply pow_incr; lra). assert (0 < Rr ^ 3) by (apply pow_lt, RP). assert (0 < R0 ^ 3) by (apply pow_lt, PR).
      unfold Q, Rdiv. rewrite Rmult_assoc, Rabs_mult. assert (T : Rabs (R0 ^ 3 * / Rr ^ 3) <= 101 / 100).
      { rewrite Rabs_pos_eq by (apply Rmult_le_pos; [lra|left; apply Rinv_0_lt_compat; assumption]). apply Rmult_le_reg_r with (Rr ^ 3); [assumption|]. rewrite Rmult_assoc, Rinv_l by lra. rewrite Rpow_mult_distr in C3. lra. }
      pose proof cur_le. pose proof (Rabs_pos (sp_cur s)). pose proof (Rabs_pos (R0 ^ 3 * / Rr ^ 3)). nra. }
    assert (E1 : ae 37 (101 / 100) q Q) by (apply (ae_near 36); [lia|rewrite INR_IZR_INZ; cbn; lra|exact QB|apply q_near]).
    assert (E2 : ae 37 1 1 1) by (apply ae_refl; [lra|rewrite Rabs_R1; lra]).
    pose proof (ae_sub _ _ _ _ _ _ _ E2 E1) as E3. apply ae_round in E3; [|lra].
    pose proof (ae_mul 33 (37 + 3) _ _ _ _ _ _ ltac:(lra) ltac:(lra) d_ae E3) as E4. apply ae_round in E4; [|lra]. destruct E4 as [E4 _]. eapply Rle_trans; [exact E4|]. pose proof u_pos. pose proof N_nonneg. nra.
  Qed.
  Lemma in_ae : Rabs (fl (fl (fl (d * 3) * c0) / fl (c1 + fl (2 * c0))) - D * 3 * c0 / den) <= 75 * u * N.
  Proof.
    pose proof den_pos as P. assert (I : 0 < / den) by (apply Rinv_0_lt_compat, P).
    assert (A3 : ae 0 3 3 3) by (apply ae_refl; [lra|rewrite Rabs_pos_eq; lra]). assert (AC : ae 0 c0 c0 c0) by (apply ae_refl; [lra|rewrite Rabs_pos_eq; lra]).
    assert (AD : ae 3 (/ den) (/ fl (c1 + fl (2 * c0))) (/ den)) by (apply (ae_near 2); [lia|cbn; lra|rewrite Rabs_pos_eq; lra|apply near_inv, den_near]).
    pose proof (ae_mul 0 33 _ _ _ _ _ _ ltac:(lra) ltac:(lra) A3 d_ae) as E. apply ae_round in E; [|lra]. 
    pose proof (ae_mul 0 (2 * 0 + 33 + 3) _ _ _ _ _ _ ltac:(lra) ltac:(lra) AC E) as F. apply ae_round in F; [|lra].
    pose proof (ae_mul 3 (2 * 0 + (2 * 0 + 33 + 3) + 3) _ _ _ _ _ _ ltac:(lra) ltac:(lra) AD F) as H. apply ae_round in H; [|lra]. destruct H as [H _].
    replace (/ fl (c1 + fl (2 * c0)) * fl (c0 * fl (3 * d))) with (fl (fl (d * 3) * c0) / fl (c1 + fl (2 * c0))) in H by (rewrite (Rmult_comm c0), (Rmult_comm 3 d); unfold Rdiv; ring).
    replace (/ den * (c0 * (3 * D))) with (D * 3 * c0 / den) in H by (unfold Rdiv; ring). eapply Rle_trans; [exact H|].
    assert (c0 * / den <= / 2). { apply Rmult_le_reg_r with den; [exact P|]. rewrite Rmult_assoc, Rinv_l by lra. unfold den. lra. }
    assert (0 <= c0 * / den) by (apply Rmult_le_pos; lra). pose proof u_pos as U. pose proof N_nonneg as NN. assert (UN : 0 <= u * N) by (apply Rmult_le_pos; lra).
    match goal with |- ?c * u * (/ den * (c0 * (3 * N))) <= _ => replace (c * u * (/ den * (c0 * (3 * N)))) with (144 * (u * N) * (c0 * / den)) by ring end. nra.
  Qed.
  Lemma total_error : Rabs (fsp_total pow dot s p - sp_V s p) <= 240 * u * N.
  Proof.
    unfold fsp_total, sp_V. fold loc R0 c1 c0 rv RV r Rr o. cbv zeta. fold d D Q q den. pose proof u_pos as U. pose proof N_nonneg as NN. assert (UN : 0 <= u * N) by (apply Rmult_le_pos; lra).
    unfold Rltb. destruct (Rlt_dec R0 r) as [A|A], (Rlt_dec R0 Rr) as [B|B].
    - eapply Rle_trans; [apply out_ae, A|]. lra.
    - pose proof (out_ae A) as X. pose proof (jump (or_introl (conj A (Rnot_lt_le _ _ B)))) as J. apply Rabs_le_inv in X, J. apply Rabs_le. lra.
    - pose proof in_ae as X. pose proof (jump (or_intror (conj (Rnot_lt_le _ _ A) B))) as J. apply Rabs_le_inv in X, J. apply Rabs_le. lra.
    - eapply Rle_trans; [apply in_ae|]. lra.
  Qed.
  Lemma primary_error : Rabs (fsp_primary dot s p - sp_prim s p) <= 33 * u * N.
  Proof. apply d_ae. Qed.
  Lemma V_le : Rabs (sp_V s p) <= 2 * N.
  Proof.
    unfold sp_V. fold loc R0 c1 c0 RV Rr o. cbv zeta. fold D Q den. pose proof (proj2 d_ae) as DN. pose proof N_nonneg as NN. pose proof (Rabs_pos D). unfold Rltb. destruct (Rlt_dec R0 Rr) as [B|B].
    - assert (RP : 0 < Rr) by lra. assert (T : 0 <= R0 ^ 3 / Rr ^ 3 <= 1).
      { assert (0 < Rr ^ 3) by (apply pow_lt, RP). assert (0 < R0 ^ 3) by (apply pow_lt, PR). assert (R0 ^ 3 <= Rr ^ 3) by (apply pow_incr; lra). split; [left; apply Rdiv_lt_0_compat; assumption|]. apply Rmult_le_reg_r with (Rr ^ 3); [assumption|]. unfold Rdiv. rewrite Rmult_assoc, Rinv_l; lra. }
      rewrite Rabs_mult. assert (Rabs (1 - Q) <= 2). { pose proof cur_le as CL. apply Rabs_le_inv in CL. unfold Q. unfold Rdiv in *. rewrite Rmult_assoc. apply Rabs_le. nra. }
      pose proof (Rabs_pos (1 - Q)). nra.
    - pose proof den_pos as P. assert (I : 0 < / den) by (apply Rinv_0_lt_compat, P). assert (c0 * / den <= / 2). { apply Rmult_le_reg_r with den; [exact P|]. rewrite Rmult_assoc, Rinv_l by lra. unfold den. lra. }
      replace (D * 3 * c0 / den) with (3 * (c0 * / den) * D) by (unfold Rdiv; ring). assert (0 <= c0 * / den) by (apply Rmult_le_pos; lra). rewrite Rabs_mult, Rabs_pos_eq by lra. nra.
  Qed.
  Lemma secondary_error : Rabs (fl (fsp_total pow dot s p - fsp_primary dot s p) - (sp_V s p - sp_prim s p)) <= 290 * u * N.
  Proof.
    pose proof u_pos as U. pose proof u_small as US. pose proof N_nonneg as NN. assert (UN : 0 <= u * N) by (apply Rmult_le_pos; lra).
    pose proof total_error as T. pose proof primary_error as P. pose proof V_le as VL. assert (PL : Rabs (sp_prim s p) <= N) by apply d_ae.
    set (a := fsp_total _ _ _ _) in *. set (b := fsp_primary _ _ _) in *. set (A := sp_V s p) in *. set (B := sp_prim s p) in *.
    apply Rabs_le_inv in T, P, VL, PL. assert (M : Rabs (a - b) <= 4 * N) by (apply Rabs_le; nra). pose proof (fl_err (a - b)) as E.
    assert (E' : Rabs (fl (a - b) - (a - b)) <= 8 * (u * N)) by (eapply Rle_trans; [exact E|]; nra). apply Rabs_le_inv in E'. apply Rabs_le. lra.
  Qed.
  (** far away *)
  Lemma far_factor : 2 ^ 19 * R0 <= Rr -> fl (1 - q) = 1.
  Proof.
    intros F. assert (RP : 0 < Rr) by nra. assert (QB : Rabs Q <= / 2 ^ 57).
    { assert (0 < Rr ^ 3) by (apply pow_lt, RP). assert (0 < R0 ^ 3) by (apply pow_lt, PR). assert (C3 : (2 ^ 19 * R0) ^ 3 <= Rr ^ 3) by (apply pow_incr; lra). rewrite Rpow_mult_distr in C3.
      unfold Q, Rdiv. rewrite Rmult_assoc, Rabs_mult. assert (T : Rabs (R0 ^ 3 * / Rr ^ 3) <= / 2 ^ 57).
      { rewrite Rabs_pos_eq by (apply Rmult_le_pos; [lra|left; apply Rinv_0_lt_compat; assumption]). apply Rmult_le_reg_r with (Rr ^ 3); [assumption|]. rewrite Rmult_assoc, Rinv_l by lra. lra. }
      pose proof cur_le. pose proof (Rabs_pos (sp_cur s)). pose proof (Rabs_pos (R0 ^ 3 * / Rr ^ 3)). nra. }
    pose proof q_near as K. apply (near_within' 37 36) in K; [|lia|rewrite INR_IZR_INZ; cbn; lra]. unfold within in K. fold u in K. pose proof u_small as US. pose proof u_pos as U. pose proof (Rabs_pos Q) as Q0.
    assert (B : Rabs q <= 2 * / 2 ^ 57). { pose proof (Rabs_triang (q - Q) Q) as T. replace (q - Q + Q) with q in T by ring. nra. }
    apply Rabs_le_inv in B. destruct (Rle_dec q 0) as [L|L].
    - replace (1 - q) with (1 + - q) by ring. apply absorb; [exact (float_bpow 0)|lra|]. lra.
    - assert (LE : fl (1 - q) <= fl 1) by (apply fl_mono; lra). rewrite fl1 in LE. destruct LE as [LT|EQ]; [|exact EQ]. exfalso.
      assert (PG : fl (1 - q) <= pred radix2 fexp53 1). { apply pred_ge_gt; [typeclasses eauto|apply fl_float|exact (float_bpow 0)|exact LT]. }
      change 1 with (bpow radix2 0) in PG at 2. rewrite pred_bpow in PG. change (fexp53 0) with (-53)%Z in PG. change (bpow radix2 0) with 1 in PG. change (bpow radix2 (-53)) with (/ 9007199254740992) in PG.
      destruct (round_N_pt radix2 fexp53 (fun x => negb (Z.even x)) (1 - q)) as [_ NP]. specialize (NP 1 (float_bpow 0)). change (round radix2 fexp53 ZnearestE (1 - q)) with (fl (1 - q)) in NP.
      rewrite Rabs_left in NP by lra. rewrite Rabs_pos_eq in NP by lra. lra.
  Qed.
  Lemma far_total : (forall a b, float (dot a b)) -> 2 ^ 19 * R0 <= Rr -> fsp_total pow dot s p = fsp_primary dot s p.
  Proof.
    intros FD F. pose proof r_near as Nr. apply (near_within' 5 4) in Nr; [|lia|cbn; lra]. unfold within in Nr. fold u in Nr. assert (RP : 0 < Rr) by nra. rewrite (Rabs_pos_eq Rr) in Nr by lra. apply Rabs_le_inv in Nr. pose proof u_small as US.
    unfold fsp_total, fsp_primary. fold loc R0 c1 c0 rv r o. cbv zeta. fold d q. unfold Rltb. destruct (Rlt_dec R0 r) as [A|A]; [|exfalso; apply A; nra].
    rewrite (far_factor F), Rmult_1_r. apply fl_id, FD.
  Qed.
  Lemma far_real : c1 <> c0 -> D <> 0 -> R0 < Rr -> sp_V s p - sp_prim s p <> 0.
  Proof.
    intros NE DN F. unfold sp_V, sp_prim. fold loc R0 RV Rr o. cbv zeta. fold D Q. unfold Rltb. destruct (Rlt_dec R0 Rr) as [A|A]; [|contradiction]. replace (D * (1 - Q) - D) with (- (D * Q)) by ring.
    apply Ropp_neq_0_compat. apply Rmult_integral_contrapositive_currified; [exact DN|]. assert (0 < Rr ^ 3) by (apply pow_lt; lra). assert (0 < R0 ^ 3) by (apply pow_lt, PR). pose proof den_pos as P. unfold den in P.
    unfold Q, sp_cur. fold c1 c0. unfold Rdiv. repeat apply Rmult_integral_contrapositive_currified; try (apply Rinv_neq_0_compat); lra.
  Qed.
End Sphere.
