(** The field of a sphere in floating point (C149). *)
From Coq Require Import ZArith Reals Lra Lia Psatz List.
From Flocq Require Import Core.
From Verif Require Import Vec3 Numpy Model_Gravity Model_Static Model_Float Model_Float12 Model_Float15 Spec_Float Spec_Float7
  Proof_Spatial Proof_Sphere Proof_Float Proof_Float2 Proof_Float3 Proof_Float8 Proof_Float9 Proof_Float14 Proof_Float18 Proof_Float19 Proof_Float20 Proof_Float21 Proof_Float23 Proof_Float25.
Open Scope R_scope.

Lemma opp_opp v : vopp (vopp v) = v. Proof. destruct v as [x y z]. unfold vopp. cbn [vx vy vz]. f_equal; ring. Qed.
Lemma norm_opp v : vnorm (vopp v) = vnorm v. Proof. unfold vnorm. f_equal. destruct v as [x y z]. unfold vnorm2, vopp. cbn [vx vy vz]. ring. Qed.
Section Field.
  Variables (pow : R -> nat -> R) (dot : vec3 -> vec3 -> R).
  Hypothesis GP : good_pow pow. Hypothesis GD : good_dot dot.
  Variables (s : sph) (p : vec3).
  Let loc := sp_loc s. Let R0 := sp_radius s. Let c1 := sp_c1 s. Let c0 := sp_c0 s. Let F := sp_F0 s.
  Hypothesis P0 : 0 < c0. Hypothesis P1 : 0 < c1. Hypothesis PR : 0 < R0.
  Let rv := fdiff p loc. Let r := fnorm rv. Let RV := vsub p loc. Let Rr := vnorm RV. Let N := vnorm F.
  Lemma N0 : 0 <= N. Proof. apply vnorm_nonneg. Qed.
  Lemma dF_ae : ae 33 (Rr * N) (dot rv F) (vdot RV F).
  Proof.
    pose proof (d_ae dot GD (SP R0 c1 c0 (vopp F) loc) p) as H. cbn [sp_loc sp_F0] in H. rewrite opp_opp, norm_opp in H. exact H.
  Qed.
  Let f := fl (1 - fl (fl (fsp_cur s * pow R0 3%nat) / pow r 3%nat)). Let f' := 1 - sp_cur s * R0 ^ 3 / Rr ^ 3.
  Let g := fl (fl (fl (3 * dot rv F) * fsp_cur s) * R0). Let g' := 3 * vdot RV F * sp_cur s * R0.
  Lemma f_ae : 0 < Rr -> R0 <= 1001 / 1000 * Rr -> ae 40 (201 / 100) f f'.
  Proof.
    intros RP B. assert (QB : Rabs (sp_cur s * R0 ^ 3 / Rr ^ 3) <= 101 / 100).
    { assert (C3 : R0 ^ 3 <= (1001 / 1000 * Rr) ^ 3) by (apply pow_incr; lra). assert (0 < Rr ^ 3) by (apply pow_lt, RP). assert (0 < R0 ^ 3) by (apply pow_lt, PR).
      unfold Rdiv. rewrite Rmult_assoc, Rabs_mult. assert (T : Rabs (R0 ^ 3 * / Rr ^ 3) <= 101 / 100).
      { rewrite Rabs_pos_eq by (apply Rmult_le_pos; [lra|left; apply Rinv_0_lt_compat; assumption]). apply Rmult_le_reg_r with (Rr ^ 3); [assumption|]. rewrite Rmult_assoc, Rinv_l by lra. rewrite Rpow_mult_distr in C3. lra. }
      pose proof (cur_le s P0 P1). pose proof (Rabs_pos (sp_cur s)). pose proof (Rabs_pos (R0 ^ 3 * / Rr ^ 3)). nra. }
    assert (E1 : ae 37 (101 / 100) (fl (fl (fsp_cur s * pow R0 3%nat) / pow r 3%nat)) (sp_cur s * R0 ^ 3 / Rr ^ 3)) by (apply (ae_near 36); [lia|rewrite INR_IZR_INZ; cbn; lra|exact QB|apply (q_near pow GP s p P0 P1)]).
    assert (E2 : ae 37 1 1 1) by (apply ae_refl; [lra|rewrite Rabs_R1; lra]).
    pose proof (ae_sub _ _ _ _ _ _ _ E2 E1) as E3. apply ae_round in E3; [|lra]. eapply ae_weaken; [| |exact E3]; lra.
  Qed.
  Lemma g_ae : ae 55 (3 * Rr * N * R0) g g'.
  Proof.
    pose proof N0 as NN. assert (RP : 0 <= Rr) by apply vnorm_nonneg. assert (A3 : ae 0 3 3 3) by (apply ae_refl; [lra|rewrite Rabs_pos_eq; lra]). assert (AR : ae 0 R0 R0 R0) by (apply ae_refl; [lra|rewrite Rabs_pos_eq; lra]).
    assert (AC : ae 5 1 (fsp_cur s) (sp_cur s)) by (apply (ae_near 4); [lia|cbn; lra|apply (cur_le s P0 P1)|apply (cur_near s P0 P1)]).
    pose proof (ae_mul 0 33 _ _ _ _ _ _ ltac:(lra) ltac:(lra) A3 dF_ae) as E. apply ae_round in E; [|lra].
    pose proof (ae_mul 5 (2 * 0 + 33 + 3) _ _ _ _ _ _ ltac:(lra) ltac:(lra) AC E) as G. apply ae_round in G; [|lra].
    pose proof (ae_mul 0 (2 * 5 + (2 * 0 + 33 + 3) + 3) _ _ _ _ _ _ ltac:(lra) ltac:(lra) AR G) as H. apply ae_round in H; [|lra].
    unfold g, g'. replace (fl (3 * dot rv F) * fsp_cur s) with (fsp_cur s * fl (3 * dot rv F)) by ring. rewrite (Rmult_comm (fl (fsp_cur s * fl (3 * dot rv F))) R0). replace (3 * vdot RV F * sp_cur s * R0) with (R0 * (sp_cur s * (3 * vdot RV F))) by ring.
    eapply ae_weaken; [| |exact H]; [lra|]. right. ring.
  Qed.
  Lemma r4_near : near 25 (pow r 4%nat) (Rr ^ 4).
  Proof.
    change 25%nat with (9 + 16)%nat. apply (near_trans 9 _ _ (r ^ 4)); [apply pow_near, GP|]. replace (r ^ 4) with ((r * r) * (r * r)) by ring. replace (Rr ^ 4) with ((Rr * Rr) * (Rr * Rr)) by ring.
    assert (Q : near 8 (r * r) (Rr * Rr)) by (change 8%nat with (4 + 4)%nat; apply near_mult; apply r_near). change 16%nat with (8 + 8)%nat. apply near_mult; exact Q.
  Qed.
  Lemma comp Fi xi Xi : 0 < Rr -> R0 <= 1001 / 1000 * Rr -> Rabs Fi <= N -> near 1 xi Xi -> Rabs Xi <= Rr ->
    Rabs (fl (fl (Fi * f) + fl (fl (g * xi) / pow r 4%nat)) - (Fi * f' + g' * Xi / Rr ^ 4)) <= 400 * u * (N * (1 + R0 / Rr ^ 2)) /\
    Rabs (Fi * f' + g' * Xi / Rr ^ 4) <= 3 * (N * (1 + R0 / Rr ^ 2)).
  Proof.
    intros RP B HF Nx HX. pose proof N0 as NN. assert (P4 : 0 < Rr ^ 4) by (apply pow_lt, RP). assert (I4 : 0 < / Rr ^ 4) by (apply Rinv_0_lt_compat, P4).
    assert (AF : ae 0 N Fi Fi) by (apply ae_refl; [lra|exact HF]). assert (AX : ae 2 Rr xi Xi) by (apply (ae_near 1); [lia|cbn; lra|exact HX|exact Nx]).
    assert (AI : ae 26 (/ Rr ^ 4) (/ pow r 4%nat) (/ Rr ^ 4)) by (apply (ae_near 25); [lia|rewrite INR_IZR_INZ; cbn; lra|rewrite Rabs_pos_eq; lra|apply near_inv, r4_near]).
    pose proof (ae_mul 0 40 _ _ _ _ _ _ ltac:(lra) ltac:(lra) AF (f_ae RP B)) as E. apply ae_round in E; [|lra].
    pose proof (ae_mul 2 55 _ _ _ _ _ _ ltac:(lra) ltac:(lra) AX g_ae) as G. apply ae_round in G; [|lra].
    pose proof (ae_mul 26 (2 * 2 + 55 + 3) _ _ _ _ _ _ ltac:(lra) ltac:(lra) AI G) as H. apply ae_round in H; [|lra].
    assert (E' : ae 117 (N * (201 / 100)) (fl (Fi * f)) (Fi * f')) by (eapply ae_weaken; [| |exact E]; lra).
    assert (H' : ae 117 (3 * N * (R0 / Rr ^ 2)) (fl (fl (g * xi) / pow r 4%nat)) (g' * Xi / Rr ^ 4)).
    { unfold Rdiv. rewrite (Rmult_comm g), (Rmult_comm (fl (xi * g))), (Rmult_comm g'), (Rmult_comm (Xi * g')). eapply ae_weaken; [| |exact H]; [lra|]. right. field. lra. }
    pose proof (ae_add _ _ _ _ _ _ _ E' H') as K. apply ae_round in K; [|lra]. destruct K as [K K2]. pose proof u_pos as U.
    assert (T : 0 <= R0 / Rr ^ 2) by (apply Rmult_le_pos; [lra|left; apply Rinv_0_lt_compat, pow_lt, RP]). assert (0 <= u * N) by (apply Rmult_le_pos; lra). assert (0 <= u * N * (R0 / Rr ^ 2)) by (apply Rmult_le_pos; assumption). split; (eapply Rle_trans; [eassumption|]); nra.
  Qed.
  Let den := c1 + 2 * c0.
  Lemma in_comp Fi : Rabs Fi <= N -> Rabs (fl (fl (fl (3 * c0) / fl (c1 + fl (2 * c0))) * Fi) - 3 * c0 / den * Fi) <= 12 * u * N.
  Proof.
    intros HF. pose proof (den_pos s P0 P1) as DP. fold c1 c0 in DP. fold den in DP. assert (I : 0 < / den) by (apply Rinv_0_lt_compat, DP). assert (c0 * / den <= / 2). { apply Rmult_le_reg_r with den; [exact DP|]. rewrite Rmult_assoc, Rinv_l by lra. unfold den. lra. }
    assert (0 <= c0 * / den) by (apply Rmult_le_pos; lra).
    assert (K : near 5 (fl (fl (fl (3 * c0) / fl (c1 + fl (2 * c0))) * Fi)) (3 * c0 / den * Fi)).
    { apply near_round. change 4%nat with (4 + 0)%nat. apply near_mult; [|apply near_refl]. apply near_round. change 3%nat with (1 + 2)%nat. apply near_div; [apply near_fl|apply (den_near s P0 P1)]. }
    apply (near_within' 6 5) in K; [|lia|cbn; lra]. unfold within in K. fold u in K. eapply Rle_trans; [exact K|]. pose proof u_pos as U. pose proof N0 as NN. pose proof (Rabs_pos Fi).
    rewrite Rabs_mult, Rabs_pos_eq by (unfold Rdiv; lra). unfold Rdiv. assert (3 * c0 * / den * Rabs Fi <= 2 * N) by nra. nra.
  Qed.
  (** away from the surface the computed and the exact distance are on the same side *)
  Lemma same_side : R0 * (1 + 6 * u) < Rr \/ Rr < R0 * (1 - 6 * u) -> (R0 < r /\ R0 < Rr) \/ (r <= R0 /\ Rr <= R0).
  Proof.
    intros H. pose proof (r_near s p) as Nr. fold loc rv r RV Rr in Nr. apply (near_within' 5 4) in Nr; [|lia|cbn; lra]. unfold within in Nr. fold u in Nr. assert (RP : 0 <= Rr) by apply vnorm_nonneg. rewrite (Rabs_pos_eq Rr) in Nr by exact RP. apply Rabs_le_inv in Nr. pose proof u_pos. pose proof u_small. destruct H as [H|H]; [left|right]; split; nra.
  Qed.
  Lemma three a b e : 0 <= e -> Rabs (vx a - vx b) <= e -> Rabs (vy a - vy b) <= e -> Rabs (vz a - vz b) <= e -> vnorm (vsub a b) <= 2 * e.
  Proof. intros E X Y Z. apply vnorm_le; [lra|]. unfold vnorm2, vsub. cbn [vx vy vz]. apply Rabs_le_inv in X, Y, Z. nra. Qed.
  Lemma total_field_error : R0 * (1 + 6 * u) < Rr \/ Rr < R0 * (1 - 6 * u) ->
    vnorm (vsub (fsp_total_field pow dot s p) (sp_E s p)) <= 800 * u * (N * (1 + R0 / Rr ^ 2)).
  Proof.
    intros H. pose proof (same_side H) as S. unfold fsp_total_field, sp_E. fold loc R0 c1 c0 F rv RV r Rr. cbv zeta. fold f g.
    pose proof u_pos as U. pose proof N0 as NN. pose proof (comp_le F) as (FX & FY & FZ). pose proof (comp_le RV) as (X & Y & Z). fold N in FX, FY, FZ. fold Rr in X, Y, Z. destruct (vnear_diff p loc) as (A & B & C). fold rv RV in A, B, C.
    assert (T : 0 <= R0 / Rr ^ 2). { apply Rmult_le_pos; [lra|]. apply inv_nonneg. apply pow2_ge_0. } assert (UN : 0 <= u * N) by (apply Rmult_le_pos; lra). assert (UT : 0 <= u * N * (R0 / Rr ^ 2)) by (apply Rmult_le_pos; assumption).
    replace (800 * u * (N * (1 + R0 / Rr ^ 2))) with (2 * (400 * u * (N * (1 + R0 / Rr ^ 2)))) by ring. unfold Rltb. destruct S as [[S1 S2]|[S1 S2]].
    - destruct (Rlt_dec R0 r) as [Q|Q]; [|contradiction]. destruct (Rlt_dec R0 Rr) as [Q'|Q']; [|contradiction].
      unfold sp_Eout. fold R0 F Rr. fold f'. fold g'. apply three; cbn [vx vy vz vadd vscal vdiv]; [nra| | |].
      + rewrite (Rmult_comm f'). apply comp; try assumption; lra.
      + rewrite (Rmult_comm f'). apply comp; try assumption; lra.
      + rewrite (Rmult_comm f'). apply comp; try assumption; lra.
    - destruct (Rlt_dec R0 r) as [Q|Q]; [lra|]. destruct (Rlt_dec R0 Rr) as [Q'|Q']; [lra|]. fold den.
      apply three; cbn [vx vy vz fvscal vscal]; [nra| | |]; (eapply Rle_trans; [apply in_comp; assumption|]); nra.
  Qed.
  Lemma field_size : R0 < Rr \/ Rr <= R0 -> let K := 3 * (N * (1 + R0 / Rr ^ 2)) in Rabs (vx (sp_E s p)) <= K /\ Rabs (vy (sp_E s p)) <= K /\ Rabs (vz (sp_E s p)) <= K.
  Proof.
    intros S K. unfold sp_E. fold loc R0 c1 c0 F RV Rr. cbv zeta.
    pose proof N0 as NN. pose proof (comp_le F) as (FX & FY & FZ). pose proof (comp_le RV) as (X & Y & Z). fold N in FX, FY, FZ. fold Rr in X, Y, Z. destruct (vnear_diff p loc) as (A & B & C). fold rv RV in A, B, C.
    assert (T : 0 <= R0 / Rr ^ 2). { apply Rmult_le_pos; [lra|]. apply inv_nonneg. apply pow2_ge_0. } assert (NT : 0 <= N * (R0 / Rr ^ 2)) by (apply Rmult_le_pos; assumption).
    unfold Rltb. destruct (Rlt_dec R0 Rr) as [Q|Q].
    - unfold sp_Eout. fold R0 F Rr. fold f'. fold g'. cbn [vx vy vz vadd vscal vdiv]. rewrite !(Rmult_comm f').
      split; [|split]; [apply (comp _ (vx rv))|apply (comp _ (vy rv))|apply (comp _ (vz rv))]; try assumption; lra.
    - fold den. pose proof (den_pos s P0 P1) as DP. fold c1 c0 in DP. fold den in DP. assert (I : 0 < / den) by (apply Rinv_0_lt_compat, DP). assert (c0 * / den <= / 2). { apply Rmult_le_reg_r with den; [exact DP|]. rewrite Rmult_assoc, Rinv_l by lra. unfold den. lra. }
      assert (0 <= c0 * / den) by (apply Rmult_le_pos; lra). cbn [vx vy vz vscal]. unfold K. rewrite !Rabs_mult, (Rabs_pos_eq (3 * c0 / den)) by (unfold Rdiv; lra). unfold Rdiv in *.
      pose proof (Rabs_pos (vx F)). pose proof (Rabs_pos (vy F)). pose proof (Rabs_pos (vz F)). repeat split; nra.
  Qed.
  Lemma primary_comp Fi : Rabs Fi <= N -> Rabs (fl (0 + Fi) - Fi) <= 2 * u * N.
  Proof. intros H. rewrite Rplus_0_l. eapply Rle_trans; [apply fl_err|]. fold u. apply Rmult_le_compat_l; [pose proof u_pos; lra|exact H]. Qed.
  Lemma sub_comp a a' b b' K : 0 <= N <= K -> Rabs (a' - a) <= 800 * u * K -> Rabs (b' - b) <= 2 * u * N -> Rabs a <= 3 * K -> Rabs b <= N -> Rabs (fl (a' - b') - (a - b)) <= 850 * u * K.
  Proof.
    intros NK A B MA MB. pose proof (fl_err (a' - b')) as E. fold u in E. pose proof u_pos as U. pose proof u_small as Us. assert (UK : 0 <= u * K) by (apply Rmult_le_pos; lra). assert (u * N <= u * K) by (apply Rmult_le_compat_l; lra).
    assert (D : Rabs (a' - b') <= 6 * K). { replace (a' - b') with ((a' - a) + - (b' - b) + a + - b) by ring. pose proof (Rabs_triang (a' - a + - (b' - b) + a) (- b)). pose proof (Rabs_triang (a' - a + - (b' - b)) a). pose proof (Rabs_triang (a' - a) (- (b' - b))). rewrite !Rabs_Ropp in *. nra. }
    replace (fl (a' - b') - (a - b)) with ((fl (a' - b') - (a' - b')) + (a' - a) + - (b' - b)) by ring.
    pose proof (Rabs_triang (fl (a' - b') - (a' - b') + (a' - a)) (- (b' - b))). pose proof (Rabs_triang (fl (a' - b') - (a' - b')) (a' - a)). rewrite Rabs_Ropp in *. assert (u * Rabs (a' - b') <= 6 * (u * K)) by nra. nra.
  Qed.
  Lemma secondary_field_error : R0 * (1 + 6 * u) < Rr \/ Rr < R0 * (1 - 6 * u) ->
    vnorm (vsub (fdiff (fsp_total_field pow dot s p) (fsp_primary_field s)) (vsub (sp_E s p) F)) <= 1700 * u * (N * (1 + R0 / Rr ^ 2)).
  Proof.
    intros H. pose proof (total_field_error H) as TE. assert (S : R0 < Rr \/ Rr <= R0) by (destruct (Rlt_dec R0 Rr); [left; assumption|right; lra]). pose proof (field_size S) as (MX & MY & MZ).
    pose proof (comp_le (vsub (fsp_total_field pow dot s p) (sp_E s p))) as (X & Y & Z). cbn [vx vy vz vsub] in X, Y, Z.
    pose proof (comp_le F) as (FX & FY & FZ). fold N in FX, FY, FZ. pose proof u_pos as U. pose proof N0 as NN. set (K := N * (1 + R0 / Rr ^ 2)) in *.
    assert (T : 0 <= R0 / Rr ^ 2). { apply Rmult_le_pos; [lra|]. apply inv_nonneg. apply pow2_ge_0. } assert (NK : 0 <= N <= K). { assert (0 <= N * (R0 / Rr ^ 2)) by (apply Rmult_le_pos; assumption). unfold K. lra. } assert (UK : 0 <= u * K) by (apply Rmult_le_pos; lra).
    replace (1700 * u * K) with (2 * (850 * u * K)) by ring. apply three; [lra| | |]; unfold fdiff, fsp_primary_field; cbn [vx vy vz vsub]; fold F; apply sub_comp; try assumption; try (apply primary_comp; assumption); try lra.
  Qed.
End Field.

(** a station outside the sphere that rounding places on its surface *)
Lemma u28 : / 2 ^ 28 = bpow radix2 (-28). Proof. cbn. f_equal. lra. Qed.
Lemma surface_norm : fnorm (fdiff (V3 1 (/ 2 ^ 28) 0) (V3 0 0 0)) = 1.
Proof.
  assert (F1 : float 1) by (replace 1 with (IZR 1 * bpow radix2 0) by (cbn; ring); apply float_int; lia).
  assert (F2 : float (/ 2 ^ 28)) by (replace (/ 2 ^ 28) with (IZR 1 * bpow radix2 (-28)) by (rewrite u28; ring); apply float_int; lia).
  assert (F3 : float (/ 2 ^ 28 * / 2 ^ 28)) by (replace (/ 2 ^ 28 * / 2 ^ 28) with (IZR 1 * bpow radix2 (-56)) by (rewrite u28, <- bpow_plus; cbn [Z.add Z.pos_sub]; rewrite Rmult_1_l; reflexivity); apply float_int; lia).
  unfold fnorm, fdiff. cbn [vx vy vz]. rewrite !Rminus_0_r, (fl_id 1 F1), (fl_id _ F2), (fl_id 0 float_0), Rmult_1_r, (fl_id 1 F1), (fl_id _ F3), Rmult_0_r, (fl_id 0 float_0).
  rewrite (absorb 1 (/ 2 ^ 28 * / 2 ^ 28)); [|exact F1|lra|split; lra]. rewrite Rplus_0_r, (fl_id 1 F1), sqrt_1. apply fl_id, F1.
Qed.
Lemma surface_error pow dot c1 c0 : 0 < c0 -> 2 * c0 <= c1 -> let s := SP 1 c1 c0 (V3 1 0 0) (V3 0 0 0) in let p := V3 1 (/ 2 ^ 28) 0 in
  1 < vnorm (vsub p (V3 0 0 0)) /\ / 2 <= vx (sp_E s p) - vx (fsp_total_field pow dot s p).
Proof.
  intros P0 P1 s p. assert (P1' : 0 < c1) by lra. assert (RV : vsub p (V3 0 0 0) = V3 1 (/ 2 ^ 28) 0) by (unfold vsub, p; cbn [vx vy vz]; f_equal; ring).
  assert (RB : 1 < vnorm (vsub p (V3 0 0 0)) < 1 + / 1000).
  { rewrite RV. unfold vnorm. apply sqrt_between; [lra|lra|]. unfold vnorm2. cbn [vx vy vz]. split; lra. }
  split; [apply RB|]. unfold sp_E, fsp_total_field. cbn [sp_loc sp_radius sp_c1 sp_c0 sp_F0 s]. cbv zeta. change (fdiff p (V3 0 0 0)) with (fdiff (V3 1 (/ 2 ^ 28) 0) (V3 0 0 0)). rewrite surface_norm. unfold Rltb.
  destruct (Rlt_dec 1 1) as [Q|_]; [lra|]. destruct (Rlt_dec 1 (vnorm (vsub p (V3 0 0 0)))) as [_|Q]; [|lra]. cbn [fvscal vx].
  assert (NF : Rabs 1 <= vnorm (sp_F0 s)) by (apply (comp_le (sp_F0 s))). pose proof (in_comp s P0 P1' 1 NF) as E. cbn [sp_c0 sp_c1 s] in E.
  replace (vnorm (sp_F0 s)) with 1 in E by (symmetry; apply vnorm_unique; [lra|unfold vnorm2; cbn [s sp_F0 vx vy vz]; ring]). fold s in E.
  unfold sp_Eout. rewrite RV in *. unfold vadd, vscal, vdiv, vdot, sp_cur. cbn [s sp_loc sp_radius sp_c1 sp_c0 sp_F0 vx vy vz]. set (r := vnorm (V3 1 (/ 2 ^ 28) 0)) in *.
  set (den := c1 + 2 * c0) in *. assert (DP : 0 < den) by (unfold den; lra). set (cur := (c1 - c0) / den). assert (C : 3 * c0 / den = 1 - cur) by (unfold cur, den; field; lra). rewrite C in E.
  assert (CB : / 4 <= cur). { unfold cur. apply Rmult_le_reg_r with den; [exact DP|]. unfold Rdiv. rewrite (Rmult_assoc (c1 - c0)), Rinv_l by lra. unfold den. lra. }
  assert (R3 : 1 <= r ^ 3) by (replace 1 with (1 ^ 3) by ring; apply pow_incr; lra). assert (R4 : 1 <= r ^ 4 <= (1 + / 1000) ^ 4) by (split; [replace 1 with (1 ^ 4) by ring|]; apply pow_incr; lra).
  assert (I3 : / r ^ 3 <= 1) by (rewrite <- Rinv_1; apply Rinv_le_contravar; lra). assert (I4 : 29 / 10 <= 3 * / r ^ 4). { apply Rmult_le_reg_r with (r ^ 4); [lra|]. rewrite Rmult_assoc, Rinv_l by lra. lra. }
  apply Rabs_le_inv in E. pose proof u_lt as U. destruct E as [_ E].
  match goal with |- _ <= ?X - _ => replace X with (1 - cur * / r ^ 3 + cur * (3 * / r ^ 4)) by (field; lra) end.
  assert (cur * / r ^ 3 <= cur) by nra. assert (cur * (29 / 10) <= cur * (3 * / r ^ 4)) by nra. nra.
Qed.
