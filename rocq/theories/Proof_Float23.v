(** Dipole fields and the gravity gradient of a point mass in floating point (C145). *)
From Coq Require Import ZArith Reals Lra Lia Psatz.
From Flocq Require Import Core.
From Verif Require Import Vec3 Numpy Model_Gravity Model_Static Model_Float Model_Float9 Model_Float11 Spec_Float Spec_Float7
  Proof_Spatial Proof_Float Proof_Float2 Proof_Float3 Proof_Float9 Proof_Float14 Proof_Float18 Proof_Float19 Proof_Float21.
Open Scope R_scope.

Lemma comp_le v : Rabs (vx v) <= vnorm v /\ Rabs (vy v) <= vnorm v /\ Rabs (vz v) <= vnorm v.
Proof. repeat split; unfold vnorm; rewrite <- sqrt_Rsqr_abs; apply sqrt_le_1_alt; unfold vnorm2, Rsqr; nra. Qed.
Lemma ae_refl c M a : 0 <= c -> Rabs a <= M -> ae c M a a.
Proof. intros C H. split; [|exact H]. rewrite Rminus_eq_0, Rabs_R0. pose proof u_pos. pose proof (Rabs_pos a). repeat apply Rmult_le_pos; lra. Qed.

Section One.
  Variables (pow : R -> nat -> R) (dot : vec3 -> vec3 -> R).
  Hypothesis GP : good_pow pow. Hypothesis GD : good_dot dot.
  Variables (loc p : vec3). Hypothesis OFF : p <> loc.
  Let rv := fdiff p loc. Let r := fnorm rv. Let rh := fvdiv rv r.
  Let RV := vsub p loc. Let Rr := vnorm RV. Let RH := vdiv RV Rr.
  Lemma Rr_pos : 0 < Rr.
  Proof. apply vnorm_pos. intro Z. apply OFF. unfold RV in Z. destruct p, loc. unfold vsub, vzero in Z. cbn in Z. apply V3_inj in Z. destruct Z as (A & B & C). f_equal; lra. Qed.
  Lemma near_r : near 4 r Rr. Proof. apply near_dist. Qed.
  Lemma near_rh : vnear 6 rh RH. Proof. change 6%nat with (S (1 + 4)). apply vnear_div; [apply vnear_diff|apply near_r]. Qed.
  Lemma RH_unit : vnorm2 RH = 1.
  Proof.
    pose proof Rr_pos as P. pose proof (vnorm_sqr RV) as Q. fold Rr in Q. unfold RH, vdiv, vnorm2. cbn [vx vy vz]. unfold vnorm2 in Q.
    replace (vx RV / Rr * (vx RV / Rr) + vy RV / Rr * (vy RV / Rr) + vz RV / Rr * (vz RV / Rr)) with ((vx RV * vx RV + vy RV * vy RV + vz RV * vz RV) / (Rr * Rr)) by (field; lra). rewrite <- Q. field. lra.
  Qed.
  Lemma RH_norm : vnorm RH = 1. Proof. unfold vnorm. rewrite RH_unit. apply sqrt_1. Qed.
  Lemma rh_ae : ae 7 1 (vx rh) (vx RH) /\ ae 7 1 (vy rh) (vy RH) /\ ae 7 1 (vz rh) (vz RH).
  Proof.
    destruct near_rh as (A & B & C). destruct (comp_le RH) as (X & Y & Z). rewrite RH_norm in X, Y, Z.
    repeat split; try assumption; refine (proj1 (ae_near 6 7 1 _ _ _ _ _ _)); try assumption; try lia; cbn; lra.
  Qed.
  Lemma near_cube : near 21 (pow r 3%nat) (Rr ^ 3).
  Proof. change 21%nat with (9 + 3 * 4)%nat. apply (near_trans 9 _ _ (r ^ 3)); [apply pow_near, GP|]. apply near_pow3, near_r. Qed.
  Lemma near_4pi : near 2 (fl (4 * fpi)) (4 * PI).
  Proof. apply near_round. change 1%nat with (0 + 1)%nat. apply near_mult; [apply near_refl|apply near_pi]. Qed.

  (** the gradient *)
  Lemma grad_entry mass d a A b B : (d = 0 \/ d = 1) -> near 6 a A -> near 6 b B -> Rabs A <= 1 -> Rabs B <= 1 ->
    Rabs (fl (fl (fl (- fG * mass) * fl (d - fl (fl (3 * a) * b))) / pow r 3%nat) - - G_newton * mass * (d - 3 * A * B) / Rr ^ 3) <= 310 * u * (G_newton * Rabs mass / Rr ^ 3).
  Proof.
    intros D Na Nb LA LB. pose proof Rr_pos as P. assert (P3 : 0 < Rr ^ 3) by (apply pow_lt, P). assert (I3 : 0 < / Rr ^ 3) by (apply Rinv_0_lt_compat, P3).
    assert (N : near 14 (fl (fl (3 * a) * b)) (3 * A * B)).
    { apply near_round. change 13%nat with (7 + 6)%nat. apply near_mult; [|exact Nb]. apply near_round. change 6%nat with (0 + 6)%nat. apply near_mult; [apply near_refl|exact Na]. }
    assert (M3 : Rabs (3 * A * B) <= 3). { rewrite !Rabs_mult, (Rabs_pos_eq 3) by lra. pose proof (Rabs_pos A). pose proof (Rabs_pos B). nra. }
    assert (E1 : ae 15 3 (fl (fl (3 * a) * b)) (3 * A * B)) by (apply (ae_near 14); [lia|rewrite INR_IZR_INZ; cbn; lra|exact M3|exact N]).
    assert (E2 : ae 15 1 d d) by (apply ae_refl; [lra|destruct D as [-> | ->]; rewrite ?Rabs_R0, ?Rabs_R1; lra]).
    pose proof (ae_sub _ _ _ _ _ _ _ E2 E1) as E3. apply ae_round in E3; [|lra].
    assert (E4 : ae 4 (G_newton * Rabs mass) (fl (- fG * mass)) (- G_newton * mass)).
    { apply (ae_near 2); [lia|cbn; lra| |apply near_K]. rewrite Rabs_mult, Rabs_Ropp, (Rabs_pos_eq G_newton); [lra|unfold G_newton; lra]. }
    pose proof (ae_mul 4 (15 + 3) _ _ _ _ _ _ ltac:(lra) ltac:(lra) E4 E3) as E5. apply ae_round in E5; [|lra].
    assert (E6 : ae 22 (/ Rr ^ 3) (/ pow r 3%nat) (/ Rr ^ 3)) by (apply (ae_near 21); [lia|rewrite INR_IZR_INZ; cbn; lra|rewrite Rabs_pos_eq; lra|apply near_inv, near_cube]).
    pose proof (ae_mul 22 (2 * 4 + (15 + 3) + 3) _ _ _ _ _ _ ltac:(lra) ltac:(lra) E6 E5) as E7. apply ae_round in E7; [|lra]. destruct E7 as [E7 _].
    rewrite (Rmult_comm (/ pow r 3%nat)), (Rmult_comm (/ Rr ^ 3) (_ * (d - _))) in E7. unfold Rdiv. eapply Rle_trans; [exact E7|].
    pose proof u_pos. pose proof (Rabs_pos mass). assert (0 <= G_newton) by (unfold G_newton; lra). assert (0 <= u * (G_newton * Rabs mass * / Rr ^ 3)). { apply Rmult_le_pos; [lra|]. apply Rmult_le_pos; [nra|lra]. } lra.
  Qed.

  (** the dipole *)
  Variable s : mdipole. Hypothesis LS : md_loc s = loc.
  Let o := md_orient s. Let N := vnorm o.
  Let cB := md_moment s * md_mu s / (4 * PI * Rr ^ 3). Let cA := md_moment s * md_mu s / (4 * PI * Rr ^ 2).
  Lemma N0 : 0 <= N. Proof. apply vnorm_nonneg. Qed.
  Lemma o_le : Rabs (vx o) <= N /\ Rabs (vy o) <= N /\ Rabs (vz o) <= N. Proof. apply comp_le. Qed.
  Lemma oo c : 0 <= c -> ae c N (vx o) (vx o) /\ ae c N (vy o) (vy o) /\ ae c N (vz o) (vz o).
  Proof. intros C. destruct o_le as (X & Y & Z). repeat split; try assumption; refine (proj1 (ae_refl c N _ C _)); assumption. Qed.
  Lemma dot_ae : ae 51 N (dot rh o) (vdot RH o).
  Proof.
    destruct rh_ae as (A1 & A2 & A3). destruct (oo 0 ltac:(lra)) as (B1 & B2 & B3). pose proof N0 as NN.
    assert (M : forall q Q w, ae 7 1 q Q -> ae 0 N w w -> ae 7 N (q * w) (Q * w)).
    { intros q Q w G H. pose proof (ae_mul 0 7 _ _ _ _ _ _ ltac:(lra) ltac:(lra) H G) as X. rewrite Rmult_1_r in X. rewrite (Rmult_comm q), (Rmult_comm Q). eapply ae_weaken; [| |exact X]; lra. }
    pose proof (M _ _ _ A1 B1) as X. pose proof (M _ _ _ A2 B2) as Y. pose proof (M _ _ _ A3 B3) as Z.
    pose proof (ae_mag 7 N _ _ ltac:(lra) X) as MX. pose proof (ae_mag 7 N _ _ ltac:(lra) Y) as MY. pose proof (ae_mag 7 N _ _ ltac:(lra) Z) as MZ.
    destruct X as [X _], Y as [Y _], Z as [Z _]. pose proof (GD rh o) as D. fold u in D. pose proof u_pos as U. split.
    - replace (dot rh o - vdot RH o) with ((dot rh o - vdot rh o) + ((vx rh * vx o - vx RH * vx o) + (vy rh * vy o - vy RH * vy o) + (vz rh * vz o - vz RH * vz o))) by (unfold vdot; ring).
      eapply Rle_trans; [apply Rabs_triang|]. eapply Rle_trans; [apply Rplus_le_compat_l; eapply Rle_trans; [apply Rabs_triang|apply Rplus_le_compat_r, Rabs_triang]|].
      assert (8 * u * (Rabs (vx rh * vx o) + Rabs (vy rh * vy o) + Rabs (vz rh * vz o)) <= 8 * u * (33 / 10 * N)) by (apply Rmult_le_compat_l; lra). nra.
    - eapply Rle_trans; [apply cauchy_schwarz|]. rewrite RH_norm. fold N. lra.
  Qed.
  Lemma B_comp rhx RHx ox : ae 7 1 rhx RHx -> ae 68 N ox ox ->
    ae 132 (Rabs cB * (4 * N)) (fl (fl (fl (md_moment s * md_mu s) / fl (fl (4 * fpi) * pow r 3%nat)) * fl (fl (fl (3 * dot rh o) * rhx) - ox))) (cB * (3 * vdot RH o * RHx - ox)).
  Proof.
    intros Ar Ao. pose proof N0 as NN. assert (A3 : ae 0 3 3 3) by (apply ae_refl; [lra|rewrite Rabs_pos_eq; lra]).
    pose proof (ae_mul 0 51 _ _ _ _ _ _ ltac:(lra) ltac:(lra) A3 dot_ae) as D. apply ae_round in D; [|lra].
    pose proof (ae_mul 7 (2 * 0 + 51 + 3) _ _ _ _ _ _ ltac:(lra) ltac:(lra) Ar D) as E. apply ae_round in E; [|lra]. rewrite (Rmult_comm rhx), (Rmult_comm RHx) in E.
    assert (E' : ae 71 (3 * N) (fl (fl (3 * dot rh o) * rhx)) (3 * vdot RH o * RHx)) by (eapply ae_weaken; [| |exact E]; lra).
    assert (Ao' : ae 71 N ox ox) by (eapply ae_weaken; [| |exact Ao]; lra).
    pose proof (ae_sub _ _ _ _ _ _ _ E' Ao') as F. apply ae_round in F; [|lra].
    assert (C : ae 27 (Rabs cB) (fl (fl (md_moment s * md_mu s) / fl (fl (4 * fpi) * pow r 3%nat))) cB).
    { apply (ae_near 26); [lia|rewrite INR_IZR_INZ; cbn; lra|lra|]. apply near_round. change 25%nat with (1 + 24)%nat. apply near_div; [apply near_fl|]. apply near_round. change 23%nat with (2 + 21)%nat. apply near_mult; [apply near_4pi|apply near_cube]. }
    pose proof (ae_mul 27 (71 + 3) _ _ _ _ _ _ ltac:(lra) ltac:(lra) C F) as G. apply ae_round in G; [|lra]. eapply ae_weaken; [| |exact G]; [lra|]. pose proof (Rabs_pos cB). right. ring.
  Qed.
  Lemma B_value_is : md_B s p = vscal cB (vsub (vscal (3 * vdot RH o) RH) o).
  Proof. unfold md_B. rewrite LS. reflexivity. Qed.
  Lemma B_norm : Rabs cB * N <= vnorm (md_B s p).
  Proof.
    rewrite B_value_is, vnorm_scal. apply Rmult_le_compat_l; [apply Rabs_pos|]. unfold N, vnorm. apply sqrt_le_1_alt. pose proof RH_unit as U.
    replace (vnorm2 (vsub (vscal (3 * vdot RH o) RH) o)) with (9 * (vdot RH o * vdot RH o) * vnorm2 RH - 6 * (vdot RH o * vdot RH o) + vnorm2 o) by (destruct RH, o; vring). rewrite U.
    pose proof (sqr_nonneg (vdot RH o)). lra.
  Qed.
  Lemma B_error : vnorm (vsub (fmd_B pow dot s p) (md_B s p)) <= 920 * u * vnorm (md_B s p).
  Proof.
    pose proof u_pos as U. destruct rh_ae as (A1 & A2 & A3). destruct (oo 68 ltac:(lra)) as (B1 & B2 & B3).
    destruct (B_comp _ _ _ A1 B1) as [X _]. destruct (B_comp _ _ _ A2 B2) as [Y _]. destruct (B_comp _ _ _ A3 B3) as [Z _].
    pose proof B_norm as BN. set (K := Rabs cB * N) in *. assert (K0 : 0 <= K) by (apply Rmult_le_pos; [apply Rabs_pos|apply N0]). apply Rle_trans with (920 * u * K); [|apply Rmult_le_compat_l; lra].
    assert (Q : forall a, Rabs a <= 132 * u * (Rabs cB * (4 * N)) -> a * a <= 528 * (u * K) * (528 * (u * K))).
    { intros a H. replace (132 * u * (Rabs cB * (4 * N))) with (528 * (u * K)) in H by (unfold K; ring). apply Rabs_le_inv in H. nra. }
    apply Q in X, Y, Z. assert (UK : 0 <= u * K) by nra. apply vnorm_le; [nra|]. rewrite B_value_is. unfold fmd_B. rewrite LS. fold rv r rh o. cbv zeta. unfold vnorm2, vsub, fvscal, vscal. cbn [vx vy vz]. 
    assert (0 <= (u * K) * (u * K)) by nra. replace (920 * u * K * (920 * u * K)) with (846400 * (u * K * (u * K))) by ring. lra.
  Qed.
  Lemma A_comp a A b B oa ob : ae 7 1 a A -> ae 7 1 b B -> ae 0 N oa oa -> ae 0 N ob ob ->
    ae 46 (Rabs cA * (2 * N)) (fl (fl (fl (md_moment s * md_mu s) / fl (fl (4 * fpi) * fsq r)) * fl (fl (oa * a) - fl (ob * b)))) (cA * (oa * A - ob * B)).
  Proof.
    intros Aa Ab Oa Ob. pose proof (ae_mul 0 7 _ _ _ _ _ _ ltac:(lra) ltac:(lra) Oa Aa) as D. pose proof (ae_mul 0 7 _ _ _ _ _ _ ltac:(lra) ltac:(lra) Ob Ab) as E.
    apply ae_round in D; [|lra]. apply ae_round in E; [|lra]. pose proof (ae_sub _ _ _ _ _ _ _ D E) as F. apply ae_round in F; [|lra].
    assert (C : ae 15 (Rabs cA) (fl (fl (md_moment s * md_mu s) / fl (fl (4 * fpi) * fsq r))) cA).
    { apply (ae_near 14); [lia|rewrite INR_IZR_INZ; cbn; lra|lra|]. apply near_round. change 13%nat with (1 + 12)%nat. apply near_div; [apply near_fl|]. apply near_round. change 11%nat with (2 + 9)%nat. apply near_mult; [apply near_4pi|]. change 9%nat with (S (4 + 4)). apply near_sq, near_r. }
    pose proof (ae_mul 15 (2 * 0 + 7 + 3 + 3) _ _ _ _ _ _ ltac:(lra) ltac:(lra) C F) as G. apply ae_round in G; [|lra]. eapply ae_weaken; [| |exact G]; [lra|]. right. ring.
  Qed.
  Lemma A_error : vnorm (vsub (fmd_A s p) (md_A s p)) <= 160 * u * (Rabs cA * N).
  Proof.
    pose proof u_pos as U. destruct rh_ae as (A1 & A2 & A3). destruct (oo 0 ltac:(lra)) as (B1 & B2 & B3).
    destruct (A_comp _ _ _ _ _ _ A3 A2 B2 B3) as [X _]. destruct (A_comp _ _ _ _ _ _ A1 A3 B3 B1) as [Y _]. destruct (A_comp _ _ _ _ _ _ A2 A1 B1 B2) as [Z _].
    set (K := Rabs cA * N) in *. assert (K0 : 0 <= K) by (apply Rmult_le_pos; [apply Rabs_pos|apply N0]).
    assert (Q : forall a, Rabs a <= 46 * u * (Rabs cA * (2 * N)) -> a * a <= 92 * (u * K) * (92 * (u * K))).
    { intros a H. replace (46 * u * (Rabs cA * (2 * N))) with (92 * (u * K)) in H by (unfold K; ring). apply Rabs_le_inv in H. nra. }
    apply Q in X, Y, Z. assert (UK : 0 <= u * K) by nra. apply vnorm_le; [nra|]. unfold fmd_A, md_A. rewrite LS. fold rv r rh o RV Rr RH cA. cbv zeta. unfold vnorm2, vsub, fvscal, vscal, fcross, vcross. cbn [vx vy vz]. fold rh.
    assert (0 <= (u * K) * (u * K)) by nra. replace (160 * u * K * (160 * u * K)) with (25600 * (u * K * (u * K))) by ring. lra.
  Qed.
End One.
