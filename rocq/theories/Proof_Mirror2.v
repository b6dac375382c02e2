(** Nicholson's integral for I_1 K_1 - I_2 K_2 at large arguments: the expansion (C139).  Generic mathematics. *)
From Coq Require Import Reals Lra Psatz.
From Coquelicot Require Import Coquelicot.
From Verif Require Import Vec3 Calculus Deriv Integral Cplx CplxTaylor SpecFun Spec_Fourier Spec_Hankel Spec_HalfSpace Proof_Fourier Proof_Hankel Proof_RTE6 Proof_RTE9 Proof_FDEM Proof_Bessel Proof_Bessel2 Proof_HalfSpace Proof_HalfSpace2 Proof_HalfSpace4 Proof_Mirror.
Open Scope R_scope.

Section Large.
  Variable z : C.
  Hypothesis Z : 0 < Re z.
  Hypothesis Z2 : Re (z * z)%C = 0.
  Let zn : z <> RtoC 0 := k_nz z Z.
  Let a := Cmod z.
  Lemma a_pos : 0 < a. Proof. exact (proj1 (Cmod_gt_0 z) zn). Qed.
  Notation u s := (uu z s).
  Definition iu (s : R) : C := (/ u s)%C.
  Definition w (s : R) : C := ((u s - RtoC s) / z)%C.
  Let un s : u s <> RtoC 0 := uu_nz z Z s.
  Lemma u2 s : (u s * u s)%C = (z * z + RtoC s * RtoC s)%C.
  Proof. rewrite uu_sq, RtoC_mult. reflexivity. Qed.
  Lemma CD_iu s : is_cderive iu s (- (RtoC s * (iu s * iu s * iu s)))%C.
  Proof. unfold iu. eapply is_cderive_eq; [apply CD_inv; [apply CD_uu, Z|apply un]|]. cbv beta. field. apply un. Qed.
  Lemma CD_w s : is_cderive w s (- (w s * iu s))%C.
  Proof.
    unfold w, iu. eapply is_cderive_eq; [unfold Cdiv; apply CD_mult; [apply CD_minus; [apply CD_uu, Z|apply CD_id]|apply CD_const]|]. cbv beta. pose proof (un s). pose proof zn. field. split; assumption.
  Qed.
  Lemma w_sum s : (w s * (u s + RtoC s))%C = z.
  Proof. unfold w. transitivity ((u s * u s - RtoC s * RtoC s) / z)%C; [field; exact zn|]. rewrite u2. field. exact zn. Qed.

  (** the factor q of the integrand J0 s q and its derivatives *)
  Notation c2 := (1 + 1)%C. Notation c3 := (1 + 1 + 1)%C. Notation c5 := (1 + 1 + 1 + 1 + 1)%C. Notation c7 := (1 + 1 + 1 + 1 + 1 + 1 + 1)%C.
  Definition q0 (s : R) : C := (c2 * / z * (w s * w s * w s * iu s))%C.
  Definition q1 (s : R) : C := (- (c2 * / z * (w s * w s * w s * (c3 * (iu s * iu s) + RtoC s * (iu s * iu s * iu s)))))%C.
  Definition q2 (s : R) : C :=
    (c2 * / z * (w s * w s * w s * (c2 * c2 * c2 * (iu s * iu s * iu s) + c3 * c3 * (RtoC s * (iu s * iu s * iu s * iu s)) + c3 * (RtoC s * RtoC s * (iu s * iu s * iu s * iu s * iu s)))))%C.
  Definition q3 (s : R) : C := (- (c2 * c3 * c5 * (z * z * (iu s * iu s * iu s * iu s * iu s * iu s * iu s))))%C.
  Definition q4 (s : R) : C := (c2 * c3 * c5 * c7 * (z * z * (RtoC s * (iu s * iu s * iu s * iu s * iu s * iu s * iu s * iu s * iu s))))%C.
  Ltac cd := lazymatch goal with
    | |- is_cderive (fun s => (_ + _)%C) _ _ => apply CD_plus; cd
    | |- is_cderive (fun s => (- _)%C) _ _ => apply CD_opp; cd
    | |- is_cderive (fun s => (_ * _)%C) _ _ => apply CD_mult; cd
    | |- is_cderive w _ _ => exact (CD_w _)
    | |- is_cderive iu _ _ => exact (CD_iu _)
    | |- is_cderive RtoC _ _ => apply CD_id
    | |- is_cderive (fun s => RtoC s) _ _ => apply CD_id
    | |- _ => apply CD_const end.
  Ltac gen := repeat match goal with |- context [w ?s] => generalize (w s); intro | |- context [iu ?s] => generalize (iu s); intro | |- context [Cinv z] => generalize (Cinv z); intro | |- context [RtoC ?s] => is_var s; generalize (RtoC s); intro end.
  Lemma CD_q0 s : is_cderive q0 s (q1 s).
  Proof. unfold q0, q1. eapply is_cderive_eq; [cd|]. cbv beta. gen. ring. Qed.
  Lemma CD_q1 s : is_cderive q1 s (q2 s).
  Proof. unfold q1, q2. eapply is_cderive_eq; [cd|]. cbv beta. gen. ring. Qed.
  Lemma CD_q2 s : is_cderive q2 s (q3 s).
  Proof.
    unfold q2, q3. eapply is_cderive_eq; [cd|]. cbv beta.
    transitivity (- (c2 * c3 * c5 * / z * (w s * (u s + RtoC s) * (w s * (u s + RtoC s)) * (w s * (u s + RtoC s))) * (iu s * iu s * iu s * iu s * iu s * iu s * iu s)))%C.
    - unfold iu. pose proof (un s). pose proof zn. field. split; assumption.
    - rewrite w_sum. pose proof zn. field. assumption.
  Qed.
  Lemma CD_q3 s : is_cderive q3 s (q4 s).
  Proof. unfold q3, q4. eapply is_cderive_eq; [cd|]. cbv beta. gen. ring. Qed.
  Lemma CD_q4 s : exists d, is_cderive q4 s d.
  Proof. eexists. unfold q4. cd. Qed.

  (** moduli *)
  Notation v s := (Cmod (u s)).
  Lemma v_pos s : 0 < v s. Proof. exact (proj1 (Cmod_gt_0 _) (un s)). Qed.
  Lemma v4 s : v s ^ 4 = s ^ 4 + a ^ 4.
  Proof.
    assert (H : v s * v s * (v s * v s) = s ^ 4 + a ^ 4).
    { pose proof (f_equal Cmod (u2 s)) as E. rewrite Cmod_mult in E. rewrite E, Cmod_sqr.
      replace (Re (z * z + RtoC s * RtoC s)%C) with (Re (z * z)%C + s * s) by (cbn; ring). replace (Im (z * z + RtoC s * RtoC s)%C) with (Im (z * z)%C) by (cbn; ring). rewrite Z2.
      assert (A4 : a ^ 4 = Im (z * z)%C * Im (z * z)%C).
      { pose proof (Cmod_sqr (z * z)%C) as Q. rewrite Cmod_mult, Z2 in Q. fold a in Q. transitivity (a * a * (a * a)); [ring|]. rewrite Q. ring. }
      rewrite A4. ring. }
    rewrite <- H. ring.
  Qed.
  Lemma v_s s : 0 <= s -> s <= v s.
  Proof. intros S. pose proof (v4 s) as E. pose proof (v_pos s). pose proof a_pos. apply Rnot_lt_le. intros L. assert (v s * v s <= s * s) by nra. assert (0 < a ^ 4) by (apply pow_lt; lra). assert (v s ^ 4 <= s ^ 4) by nra. lra. Qed.
  Lemma v_a s : a <= v s.
  Proof. pose proof (v4 s) as E. pose proof (v_pos s). pose proof a_pos. apply Rnot_lt_le. intros L. assert (v s * v s < a * a) by nra. assert (0 <= s ^ 4) by (replace (s ^ 4) with ((s * s) * (s * s)) by ring; apply Rle_0_sqr). assert (v s ^ 4 < a ^ 4) by nra. lra. Qed.
  Lemma w_le s : 0 < s -> Cmod (w s) <= 1 /\ Cmod (w s) * s <= a.
  Proof.
    intros S. pose proof (f_equal Cmod (w_sum s)) as E. rewrite Cmod_mult in E. fold a in E. pose proof (uu_re z Z s) as U. pose proof (v_a s) as A. pose proof a_pos as Ap. pose proof (Cmod_ge_0 (w s)) as W.
    assert (B : v s <= Cmod (u s + RtoC s)%C).
    { pose proof (Cmod_sqr (u s)) as Q. pose proof (Cmod_sqr (u s + RtoC s)%C) as Q'. pose proof (v_pos s). pose proof (Cmod_ge_0 (u s + RtoC s)%C).
      replace (Re (u s + RtoC s)%C) with (Re (u s) + s) in Q' by (cbn; ring). replace (Im (u s + RtoC s)%C) with (Im (u s)) in Q' by (cbn; ring). nra. }
    pose proof (uu_sum z Z s S) as D. split; [|rewrite <- E; apply Rmult_le_compat_l; assumption].
    apply Rnot_lt_le. intros L. nra.
  Qed.
  Lemma iu_mod s : Cmod (iu s) = / v s. Proof. unfold iu. apply Cmod_inv, un. Qed.

  (** the primitive and the remainder *)
  Definition f1 (s : R) : R := s * J1 s / 2.
  Definition f2 (s : R) : R := s * J0 s / 4 + Qn s / 4.
  Definition f3 (s : R) : R := - (Q1 s / 4 + s * J1 s / 8).
  Definition f4 (s : R) : R := - (s * J0 s / 16).
  Lemma D_f1 s : 0 < s -> is_derive f1 s (s * J0 s).
  Proof. intros P. unfold f1. apply (D_ext (fun s => / 2 * (s * J1 s))); [intros t; field|]. eapply is_derive_eq; [apply D_scal, D_mult; [apply D_id|apply D_J1, P]|]. cbv beta. field. lra. Qed.
  Lemma D_f2 s : is_derive f2 s (- f1 s).
  Proof. unfold f2, f1. apply (D_ext (fun s => / 4 * (s * J0 s) + / 4 * Qn s)); [intros t; field|]. eapply is_derive_eq; [apply D_plus; [apply D_scal, D_mult; [apply D_id|apply D_J0]|apply D_scal, D_Qn]|]. cbv beta. field. Qed.
  Lemma D_f3 s : 0 < s -> is_derive f3 s (- f2 s).
  Proof.
    intros P. unfold f3, f2. apply (D_ext (fun s => - / 4 * Q1 s + - / 8 * (s * J1 s))); [intros t; field|].
    eapply is_derive_eq; [apply D_plus; [apply D_scal, D_Q1, P|apply D_scal, D_mult; [apply D_id|apply D_J1, P]]|]. cbv beta. field. lra.
  Qed.
  Lemma D_f4 s : is_derive f4 s (- (J0 s / 16) + s * J1 s / 8).
  Proof. unfold f4. apply (D_ext (fun s => - / 16 * (s * J0 s))); [intros t; field|]. eapply is_derive_eq; [apply D_scal, D_mult; [apply D_id|apply D_J0]|]. cbv beta. field. Qed.
  Definition AA (s : R) : C := (RtoC (f1 s) * q0 s + RtoC (f2 s) * q1 s + (RtoC (f3 s) * q2 s + RtoC (f4 s) * q3 s))%C.
  Definition rem (s : R) : C := (RtoC (- (Q1 s / 4 + J0 s / 16)) * q3 s + RtoC (f4 s) * q4 s)%C.
  Lemma CD_AA s : 0 < s -> is_cderive AA s (RtoC (J0 s) * (RtoC s * q0 s) + rem s)%C.
  Proof.
    intros P. unfold AA. eapply is_cderive_eq.
    - apply CD_plus; apply CD_plus; apply CD_mult.
      + apply (CD_real f1), D_f1, P. + apply CD_q0. + apply (CD_real f2), D_f2. + apply CD_q1. + apply (CD_real f3), D_f3, P. + apply CD_q2. + apply (CD_real f4), D_f4. + apply CD_q3.
    - cbv beta. unfold rem. replace (RtoC (- (Q1 s / 4 + J0 s / 16)))%C with (RtoC (f3 s) + RtoC (- (J0 s / 16) + s * J1 s / 8))%C by (rewrite <- RtoC_plus; f_equal; unfold f3; field).
      rewrite !RtoC_opp, (RtoC_mult s). ring.
  Qed.
  Lemma CD_dAA s : 0 < s -> exists d, is_cderive (fun s => RtoC (J0 s) * (RtoC s * q0 s) + rem s)%C s d.
  Proof.
    intros P. destruct (CD_q4 s) as [d4 D4]. eexists. unfold rem. apply CD_plus; [apply CD_mult; [apply (CD_real (fun s => J0 s)), D_J0|apply CD_mult; [apply CD_id|apply CD_q0]]|].
    apply CD_plus; apply CD_mult; [|apply CD_q3|apply (CD_real f4), D_f4|exact D4].
    apply (CD_real (fun s => - (Q1 s / 4 + J0 s / 16))). apply (D_ext (fun s => - / 4 * Q1 s + - / 16 * J0 s)); [intros t; field|]. apply D_plus; [apply D_scal, D_Q1, P|apply D_scal, D_J0].
  Qed.

  (** the ends *)
  Lemma clim0 (f : R -> R) (q : R -> C) d : continuity_pt f 0 -> is_cderive q 0 d -> clim (at_right 0) (fun s => RtoC (f s) * q s)%C (RtoC (f 0) * q 0)%C.
  Proof.
    intros Cf [D1 D2].
    assert (H : forall g : R -> R, continuity_pt g 0 -> filterlim g (at_right 0) (locally (g 0))).
    { intros g Cg. apply (filterlim_filter_le_1 (F := locally 0)); [intros P [e He]; exists e; intros y Hy _; now apply He|]. now apply continuity_pt_filterlim. }
    split.
    - replace (Re (RtoC (f 0) * q 0)%C) with (f 0 * Re (q 0)) by (cbn; ring). apply (filterlim_ext (fun s => f s * Re (q s))); [intros s; cbn; ring|].
      apply (H (fun s => f s * Re (q s))). apply continuity_pt_mult; [exact Cf|eapply derive_continuity, D1].
    - replace (Im (RtoC (f 0) * q 0)%C) with (f 0 * Im (q 0)) by (cbn; ring). apply (filterlim_ext (fun s => f s * Im (q s))); [intros s; cbn; ring|].
      apply (H (fun s => f s * Im (q s))). apply continuity_pt_mult; [exact Cf|eapply derive_continuity, D2].
  Qed.
  Lemma id_cont : continuity_pt (fun s => s) 0. Proof. eapply derive_continuity, D_id. Qed.
  Lemma AA_0 : clim (at_right 0) AA (RtoC (/ 8) * q1 0)%C.
  Proof.
    assert (CJ1 : continuity_pt (fun s => s * J1 s) 0) by (apply (continuity_pt_mult (fun s => s) (fun s => J1 s)); [apply id_cont|apply J1l_cont]).
    replace (RtoC (/ 8) * q1 0)%C with (RtoC (f1 0) * q0 0 + RtoC (f2 0) * q1 0 + (RtoC (f3 0) * q2 0 + RtoC (f4 0) * q3 0))%C.
    - unfold AA. apply (clim_plus (at_right 0)); apply (clim_plus (at_right 0)); [eapply clim0; [|apply CD_q0]|eapply clim0; [|apply CD_q1]|eapply clim0; [|apply CD_q2]|eapply clim0; [|apply CD_q3]].
      + unfold f1. apply (continuity_pt_ext (fun s => / 2 * (s * J1 s))); [intros t; field|]. now apply (continuity_pt_scal (fun s => s * J1 s)).
      + eapply derive_continuity, D_f2.
      + unfold f3. apply (continuity_pt_ext (fun s => - / 8 * (s * (1 - Fn s)) + - / 8 * (s * J1 s))); [intros t; unfold Q1; field|].
        apply (continuity_pt_plus (fun s => - / 8 * (s * (1 - Fn s))) (fun s => - / 8 * (s * J1 s))); [|now apply (continuity_pt_scal (fun s => s * J1 s))].
        apply (continuity_pt_scal (fun s => s * (1 - Fn s))). apply (continuity_pt_mult (fun s => s) (fun s => 1 - Fn s)); [apply id_cont|].
        apply (continuity_pt_minus (fun _ => 1) Fn); [eapply derive_continuity, D_const|apply (FF_cont 2)].
      + eapply derive_continuity, D_f4.
    - unfold f1, f2, f3, f4, Q1, Qn, BB. rewrite RInt_point. change (zero (G := R_CompleteNormedModule)) with 0.
      replace (0 * J1 0 / 2) with 0 by field. replace (0 * J0 0 / 4 + (1 / 2 - 0) / 4) with (/ 8) by field. replace (- (0 * (1 - Fn 0) / 2 / 4 + 0 * J1 0 / 8)) with 0 by field. replace (- (0 * J0 0 / 16)) with 0 by field. ring.
  Qed.
  Lemma q1_0 : (RtoC (/ 8) * q1 0)%C = (- (RtoC (3 / 4) * / (z * z * z)))%C.
  Proof.
    unfold q1, w, iu. rewrite uu_0 by exact Z. pose proof zn. replace (RtoC (3 / 4)) with (RtoC (/ 8) * (c2 * c3))%C.
    - field. assumption.
    - replace (c2 * c3)%C with (RtoC 6) by (rewrite <- !RtoC_plus, <- RtoC_mult; f_equal; ring). rewrite <- RtoC_mult. f_equal. field.
  Qed.
  Notation j s := (/ v s).
  Lemma mod3 s c : Cmod (w s * w s * w s * c)%C = Cmod (w s) ^ 3 * Cmod c. Proof. rewrite !Cmod_mult. ring. Qed.
  Lemma Cn n : 0 <= n -> Cmod (RtoC n) = n. Proof. intros P. rewrite Cmod_R. apply Rabs_right. lra. Qed.
  Lemma n2 : c2 = RtoC 2. Proof. rewrite <- !RtoC_plus. f_equal; ring. Qed.
  Lemma n3 : c3 = RtoC 3. Proof. rewrite <- !RtoC_plus. f_equal; ring. Qed.
  Lemma n8 : (c2 * c2 * c2)%C = RtoC 8. Proof. rewrite <- !RtoC_plus, <- !RtoC_mult. f_equal; ring. Qed.
  Lemma n9 : (c3 * c3)%C = RtoC 9. Proof. rewrite <- !RtoC_plus, <- !RtoC_mult. f_equal; ring. Qed.
  Lemma n30 : (c2 * c3 * c5)%C = RtoC 30. Proof. rewrite <- !RtoC_plus, <- !RtoC_mult. f_equal; ring. Qed.
  Lemma n210 : (c2 * c3 * c5 * c7)%C = RtoC 210. Proof. rewrite <- !RtoC_plus, <- !RtoC_mult. f_equal; ring. Qed.
  (** far out every q is small *)
  Lemma scaled s X K : 1 <= s -> Cmod X <= K -> Cmod (c2 * / z * (w s * w s * w s * X))%C <= 2 * K / s.
  Proof.
    intros S H. rewrite n2, (Cmod_mult (RtoC 2 * / z)%C), Cmod_mult, mod3, Cn, Cmod_inv by (lra || exact zn). fold a. destruct (w_le s ltac:(lra)) as [W1 W2]. pose proof a_pos as A. pose proof (Cmod_ge_0 (w s)) as W. pose proof (Cmod_ge_0 X).
    assert (W3 : Cmod (w s) ^ 3 <= a / s).
    { apply (Rle_div_r _ _ s); [lra|]. replace (Cmod (w s) ^ 3 * s) with (Cmod (w s) ^ 2 * (Cmod (w s) * s)) by ring. replace a with (1 * a) by ring. apply Rmult_le_compat; try nra. }
    replace (2 * K / s) with (2 * / a * (a / s * K)) by (field; lra). apply Rmult_le_compat_l; [apply Rmult_le_pos; [lra|left; apply Rinv_0_lt_compat; lra]|].
    apply Rmult_le_compat; try assumption. apply pow_le, W.
  Qed.
  Lemma j_le s : 1 <= s -> 0 < j s /\ j s <= / s /\ j s * s <= 1 /\ j s <= 1.
  Proof.
    intros S. pose proof (v_s s ltac:(lra)) as V. pose proof (v_pos s). assert (I : j s <= / s) by (apply Rinv_le_contravar; lra). assert (0 < j s) by (apply Rinv_0_lt_compat; lra).
    assert (/ s <= 1) by (rewrite <- Rinv_1; apply Rinv_le_contravar; lra). repeat split; try lra. apply (Rmult_le_compat_r s) in I; [|lra]. rewrite Rinv_l in I by lra. exact I.
  Qed.
  Lemma q0_far s : 1 <= s -> Cmod (q0 s) <= 2 / (s * s).
  Proof. intros S. unfold q0. replace (2 / (s * s)) with (2 * / s / s) by (field; lra). apply scaled; [exact S|]. rewrite iu_mod. apply (j_le s S). Qed.
  Lemma q1_far s : 1 <= s -> Cmod (q1 s) <= 8 / (s * s).
  Proof.
    intros S. unfold q1. rewrite Cmod_opp. replace (8 / (s * s)) with (2 * (4 * / s) / s) by (field; lra). apply scaled; [exact S|]. destruct (j_le s S) as (P & I & M & O).
    eapply Rle_trans; [apply Cmod_triangle|]. rewrite n3, !Cmod_mult, iu_mod, !Cn by lra. replace (s * (j s * j s * j s)) with (j s * s * (j s * j s)) by ring. assert (j s * j s <= / s) by nra. nra.
  Qed.
  Lemma q2_far s : 1 <= s -> Cmod (q2 s) <= 40 / (s * s).
  Proof.
    intros S. unfold q2. replace (40 / (s * s)) with (2 * (20 * / s) / s) by (field; lra). apply scaled; [exact S|]. destruct (j_le s S) as (P & I & M & O).
    eapply Rle_trans; [apply Cmod_triangle|]. eapply Rle_trans; [apply Rplus_le_compat_r, Cmod_triangle|]. rewrite n8, n9, n3, !Cmod_mult, iu_mod, !Cn by lra.
    assert (J2 : 0 < j s * j s <= j s) by nra. assert (J3 : 0 < j s * j s * j s <= j s) by nra.
    replace (s * (j s * j s * j s * j s)) with (j s * s * (j s * j s * j s)) by ring. replace (s * s * (j s * j s * j s * j s * j s)) with (j s * s * (j s * s) * (j s * j s * j s)) by ring.
    assert (0 < j s * s) by nra. assert (j s * s * (j s * s) <= 1) by nra. assert (j s * s * (j s * j s * j s) <= j s) by nra. assert (j s * s * (j s * s) * (j s * j s * j s) <= j s) by nra. nra.
  Qed.
  Lemma q3_mod s : Cmod (q3 s) = 30 * (a ^ 2 * j s ^ 7).
  Proof. unfold q3. rewrite n30, Cmod_opp, !Cmod_mult, iu_mod, Cn by lra. fold a. ring. Qed.
  Lemma q4_mod s : 0 < s -> Cmod (q4 s) = 210 * (a ^ 2 * (s * j s ^ 9)).
  Proof. intros S. unfold q4. rewrite n210, !Cmod_mult, iu_mod, !Cn by lra. fold a. ring. Qed.
  Lemma q3_far s : 1 <= s -> Cmod (q3 s) <= 30 * a ^ 2 / (s * s).
  Proof.
    intros S. rewrite q3_mod. destruct (j_le s S) as (P & I & M & O). assert (j s ^ 7 <= / s * / s).
    { replace (j s ^ 7) with (j s * j s * j s ^ 5) by ring. assert (j s ^ 5 <= 1) by (rewrite <- (pow1 5); apply pow_incr; lra). assert (0 < j s ^ 5) by (now apply pow_lt). assert (j s * j s <= / s * / s) by nra. nra. }
    replace (30 * a ^ 2 / (s * s)) with (30 * (a ^ 2 * (/ s * / s))) by (field; lra). apply Rmult_le_compat_l; [lra|]. apply Rmult_le_compat_l; [apply pow2_ge_0|assumption].
  Qed.
  Lemma term_far (f : R) (q : C) s F K : 1 <= s -> Rabs f <= F * s -> Cmod q <= K / (s * s) -> Cmod (RtoC f * q)%C <= F * K / s.
  Proof.
    intros S H G. rewrite Cmod_mult, Cmod_R. replace (F * K / s) with (F * s * (K / (s * s))) by (field; lra). apply Rmult_le_compat; [apply Rabs_pos|apply Cmod_ge_0|exact H|exact G].
  Qed.
  Lemma AA_inf : clim inf AA (RtoC 0).
  Proof.
    pose proof a_pos as A. apply (clim_inf _ _ (/ 2 * 2 + / 2 * 8 + (/ 4 * 40 + / 16 * (30 * a ^ 2))) 1); [assert (0 < a ^ 2) by (apply pow_lt; lra); lra|]. intros s S1 S2. assert (S : 1 <= s) by lra.
    replace (AA s - RtoC 0)%C with (AA s) by ring. apply Rle_trans with ((/ 2 * 2 + / 2 * 8 + (/ 4 * 40 + / 16 * (30 * a ^ 2))) / s).
    - unfold AA. replace ((/ 2 * 2 + / 2 * 8 + (/ 4 * 40 + / 16 * (30 * a ^ 2))) / s) with (/ 2 * 2 / s + / 2 * 8 / s + (/ 4 * 40 / s + / 16 * (30 * a ^ 2) / s)) by (field; lra).
      pose proof (J0_bound (2 * s)) as B0. pose proof (J1_bound (2 * s)) as B1. pose proof (Qn_bound s S) as Bq. pose proof (Q1_bound s S1) as Bq1. apply Rabs_le_between in B0, B1, Bq, Bq1.
      eapply Rle_trans; [apply Cmod_triangle|]. apply Rplus_le_compat; (eapply Rle_trans; [apply Cmod_triangle|]; apply Rplus_le_compat); apply term_far; try assumption; first [now apply q0_far|now apply q1_far|now apply q2_far|now apply q3_far|idtac].
      + unfold f1. apply Rabs_le. nra. + unfold f2. apply Rabs_le. nra. + unfold f3. apply Rabs_le. nra. + unfold f4. apply Rabs_le. nra.
    - unfold Rdiv. apply Rmult_le_compat_l; [assert (0 < a ^ 2) by (apply pow_lt; lra); lra|]. assert (Q : 0 < sqrt s) by (apply sqrt_lt_R0; lra). apply Rinv_le_contravar; [exact Q|]. assert (sqrt s * sqrt s = s) by (apply sqrt_sqrt; lra). nra.
  Qed.
  Lemma parts_int : is_cint (fun s => RtoC (J0 s) * (RtoC s * q0 s) + rem s)%C (RtoC (3 / 4) * / (z * z * z))%C.
  Proof.
    pose proof (cint_FTC AA _ _ _ CD_AA CD_dAA AA_0 AA_inf) as H. replace (RtoC (3 / 4) * / (z * z * z))%C with (RtoC 0 - RtoC (/ 8) * q1 0)%C; [exact H|]. rewrite q1_0. ring.
  Qed.
  (** the remainder *)
  Notation y s := (s ^ 2 + a ^ 2).
  Lemma rem_bound s : 0 < s -> Cmod (rem s) <= 33 / a ^ 4 * (a ^ 2 / (y s * sqrt (y s))).
  Proof.
    intros S. pose proof a_pos as A. pose proof (v_pos s) as V. pose proof (v_s s ltac:(lra)) as Vs. pose proof (v_a s) as Va. pose proof (v4 s) as V4.
    assert (Y : 0 < y s) by nra. assert (Sq : 0 < sqrt (y s)) by now apply sqrt_lt_R0. assert (S2 : sqrt (y s) * sqrt (y s) = y s) by (apply sqrt_sqrt; lra).
    set (Y0 := y s) in *. assert (EY : Y0 = y s) by reflexivity. clearbody Y0.
    assert (P : 0 < j s) by (apply Rinv_0_lt_compat; lra).
    assert (B : Cmod (rem s) <= 75 / 4 * (a ^ 2 * j s ^ 7)).
    { unfold rem. eapply Rle_trans; [apply Cmod_triangle|]. rewrite !Cmod_mult, !Cmod_R, q3_mod, (q4_mod s S).
      pose proof (J0_bound (2 * s)) as B0. pose proof (Q1_bound s S) as Bq1. apply Rabs_le_between in B0, Bq1.
      assert (X1 : Rabs (- (Q1 s / 4 + J0 s / 16)) <= 3 / 16) by (apply Rabs_le; lra). assert (X2 : Rabs (f4 s) <= s / 16) by (unfold f4; apply Rabs_le; nra).
      assert (J7 : 0 < j s ^ 7) by now apply pow_lt. assert (A2 : 0 < a ^ 2) by (apply pow_lt; lra). assert (AJ : 0 < a ^ 2 * j s ^ 7) by nra.
      assert (J2 : j s * s <= 1). { apply (Rmult_le_compat_l (j s)) in Vs; [|lra]. rewrite Rinv_l in Vs by lra. exact Vs. }
      assert (s * (s * j s ^ 9) <= j s ^ 7). { replace (s * (s * j s ^ 9)) with (j s * s * (j s * s) * j s ^ 7) by ring. assert (0 < j s * s) by nra. assert (j s * s * (j s * s) <= 1) by nra. nra. }
      apply Rle_trans with (3 / 16 * (30 * (a ^ 2 * j s ^ 7)) + s / 16 * (210 * (a ^ 2 * (s * j s ^ 9)))).
      - apply Rplus_le_compat; apply Rmult_le_compat_r; try assumption; try lra. assert (0 < j s ^ 9) by now apply pow_lt. assert (0 < a ^ 2 * (s * j s ^ 9)) by (apply Rmult_lt_0_compat; [assumption|]; nra). lra.
      - replace (s / 16 * (210 * (a ^ 2 * (s * j s ^ 9)))) with (210 / 16 * (a ^ 2 * (s * (s * j s ^ 9)))) by (field; lra). assert (a ^ 2 * (s * (s * j s ^ 9)) <= a ^ 2 * j s ^ 7) by (apply Rmult_le_compat_l; lra). lra. }
    eapply Rle_trans; [exact B|].
    (* v^3 >= 0.58 y sqrt y *)
    assert (V2 : 7 / 10 * Y0 <= v s * v s).
    { apply Rnot_lt_le. intros L. assert (v s * v s * (v s * v s) < 7 / 10 * Y0 * (7 / 10 * Y0)) by nra. replace (v s * v s * (v s * v s)) with (v s ^ 4) in * by ring. rewrite V4 in H. pose proof (Rle_0_sqr (s ^ 2 - a ^ 2)) as Q. unfold Rsqr in Q. subst Y0. nra. }
    assert (V1 : 83 / 100 * sqrt Y0 <= v s) by nra.
    assert (V3 : 58 / 100 * (Y0 * sqrt Y0) <= v s * v s * v s).
    { apply Rle_trans with (7 / 10 * Y0 * (83 / 100 * sqrt Y0)); [assert (0 < Y0 * sqrt Y0) by nra; nra|]. apply Rmult_le_compat; nra. }
    assert (V44 : a ^ 4 <= v s ^ 4) by (apply pow_incr; lra).
    replace (j s ^ 7) with (/ (v s ^ 4) * / (v s * v s * v s)) by (field; lra).
    assert (I4 : / v s ^ 4 <= / a ^ 4) by (apply Rinv_le_contravar; [apply pow_lt; lra|exact V44]).
    assert (P3 : 0 < Y0 * sqrt Y0) by nra. assert (I3 : / (v s * v s * v s) <= / (58 / 100 * (Y0 * sqrt Y0))) by (apply Rinv_le_contravar; nra).
    assert (Pi4 : 0 < / v s ^ 4) by (apply Rinv_0_lt_compat, pow_lt; lra). assert (Pi3 : 0 < / (v s * v s * v s)) by (apply Rinv_0_lt_compat; nra).
    apply Rle_trans with (75 / 4 * (a ^ 2 * (/ a ^ 4 * / (58 / 100 * (Y0 * sqrt Y0))))).
    - apply Rmult_le_compat_l; [lra|]. apply Rmult_le_compat_l; [apply pow2_ge_0|]. apply Rmult_le_compat; lra.
    - replace (75 / 4 * (a ^ 2 * (/ a ^ 4 * / (58 / 100 * (Y0 * sqrt Y0))))) with (75 / 4 * (100 / 58) * (/ a ^ 4 * (a ^ 2 / (Y0 * sqrt Y0)))) by (field; repeat split; lra).
      replace (33 / a ^ 4 * (a ^ 2 / (Y0 * sqrt Y0))) with (33 * (/ a ^ 4 * (a ^ 2 / (Y0 * sqrt Y0)))) by (unfold Rdiv; ring). apply Rmult_le_compat_r; [|lra].
      apply Rmult_le_pos; [left; apply Rinv_0_lt_compat, pow_lt; lra|]. apply Rdiv_le_0_compat; [apply pow2_ge_0|exact P3].
  Qed.
  Lemma bound_int : is_RInt_gen (fun s => 33 / a ^ 4 * (a ^ 2 / (y s * sqrt (y s)))) (at_right 0) inf (33 / a ^ 4 - 0).
  Proof.
    pose proof a_pos as A.
    assert (Y : forall s, 0 < y s) by (intros s; pose proof (pow2_ge_0 s); assert (0 < a ^ 2) by (apply pow_lt; lra); lra).
    assert (Sq : forall s, 0 < sqrt (y s)) by (intros s; apply sqrt_lt_R0, Y). assert (S2 : forall s, sqrt (y s) * sqrt (y s) = y s) by (intros s; apply sqrt_sqrt; left; apply Y).
    assert (Dy : forall s, is_derive (fun s => sqrt (y s)) s (s / sqrt (y s))).
    { intros s. pose proof (Sq s). eapply is_derive_eq; [auto_derive; [pose proof (Y s) as H1; cbn in *; lra|]; reflexivity|]. cbn. replace (s * (s * 1) + a * (a * 1)) with (y s) by (cbn; ring). field. apply Rgt_not_eq. exact H. }
    assert (Dg : forall s, is_derive (fun s => 33 / a ^ 4 * (s / sqrt (y s))) s (33 / a ^ 4 * (a ^ 2 / (y s * sqrt (y s))))).
    { intros s. pose proof (Sq s). eapply is_derive_eq; [apply D_scal, D_div; [apply D_id|apply Dy|lra]|]. cbv beta. rewrite S2. f_equal.
      replace (1 * sqrt (y s) - s * (s / sqrt (y s))) with ((sqrt (y s) * sqrt (y s) - s * s) / sqrt (y s)) by (field; lra). rewrite S2. field. pose proof (Y s). split; [lra|]. lra. }
    apply (int_FTC (fun s => 33 / a ^ 4 * (s / sqrt (y s)))).
    - intros s _. apply Dg.
    - intros s _. apply continuity_pt_filterlim. eapply derive_continuity. apply D_scal, D_div; [apply D_const|apply D_mult; [|apply Dy]|pose proof (Y s); pose proof (Sq s); nra].
      eapply is_derive_eq; [auto_derive; [exact I|reflexivity]|reflexivity].
    - pose proof (derive_continuity _ _ _ (Dg 0)) as H. apply continuity_pt_filterlim in H. replace (33 / a ^ 4 * (0 / sqrt (y 0))) with 0 in H by (unfold Rdiv; ring).
      apply (filterlim_filter_le_1 (F := locally 0)); [intros P [e He]; exists e; intros t Ht _; now apply He|]. exact H.
    - assert (K0 : 0 < 33 / a ^ 4) by (apply Rdiv_lt_0_compat; [lra|apply pow_lt; lra]).
      destruct (clim_inf (fun s => RtoC (33 / a ^ 4 * (s / sqrt (y s)))) (RtoC (33 / a ^ 4)) (33 / a ^ 4 * a) 1) as [H _]; [nra| |exact H].
      intros s S1 S3. rewrite <- RtoC_minus, Cmod_R. pose proof (Sq s) as Q. pose proof (S2 s) as Q2.
      assert (L1 : s <= sqrt (y s)). { apply Rnot_lt_le. intros L. assert (0 < a ^ 2) by (apply pow_lt; lra). nra. }
      assert (L2 : sqrt (y s) <= s + a) by (apply Rnot_lt_le; intros L; nra).
      assert (Ss : 0 < sqrt s) by (apply sqrt_lt_R0; lra). assert (Ss2 : sqrt s * sqrt s = s) by (apply sqrt_sqrt; lra). assert (L3 : sqrt s <= sqrt (y s)) by nra.
      replace (33 / a ^ 4 * (s / sqrt (y s)) - 33 / a ^ 4) with (- (33 / a ^ 4 * ((sqrt (y s) - s) / sqrt (y s)))) by (field; split; [lra|]; apply Rgt_not_eq; lra).
      rewrite Rabs_Ropp, Rabs_right by (apply Rle_ge, Rmult_le_pos; [lra|apply Rdiv_le_0_compat; lra]).
      replace (33 / a ^ 4 * a / sqrt s) with (33 / a ^ 4 * (a / sqrt s)) by (unfold Rdiv; ring). apply Rmult_le_compat_l; [lra|]. unfold Rdiv. apply Rmult_le_compat; [lra|left; apply Rinv_0_lt_compat; lra|lra|]. apply Rinv_le_contravar; lra.
  Qed.
  Lemma nicholson_large D : is_cint (fun s => RtoC (J0 s) * (RtoC s * q0 s))%C D -> Cmod (D - RtoC (3 / 4) * / (z * z * z))%C <= 33 / a ^ 4.
  Proof.
    intros H. pose proof (cint_plus _ _ _ _ parts_int (cint_scal (RtoC (-1)) _ _ H)) as G.
    rewrite <- Cmod_opp. replace (- (D - RtoC (3 / 4) * / (z * z * z)))%C with (RtoC (3 / 4) * / (z * z * z) + RtoC (-1) * D)%C by (replace (RtoC (-1)) with (- RtoC 1)%C by (now rewrite <- RtoC_opp); ring).
    replace (33 / a ^ 4) with (33 / a ^ 4 - 0) by ring. eapply cint_bound; [exact G|exact bound_int|].
    intros s S. cbv beta. replace (_ + _)%C with (rem s) by (replace (RtoC (-1)) with (- RtoC 1)%C by (now rewrite <- RtoC_opp); ring). now apply rem_bound.
  Qed.
End Large.

(** I_1 K_1 - I_2 K_2 is 3 / (4 z^3) up to 33 / |z|^4 *)
Lemma products_large iv kv z : bessel_products iv kv -> 0 < Re z -> Re (z * z)%C = 0 ->
  Cmod (iv 1%nat z * kv 1%nat z - iv 2%nat z * kv 2%nat z - RtoC (3 / 4) * / (z * z * z))%C <= 33 / Cmod z ^ 4.
Proof.
  intros B Z Z2. apply (nicholson_large z Z Z2). pose proof (B 1%nat z (or_introl eq_refl) Z) as B1. pose proof (B 2%nat z (or_intror eq_refl) Z) as B2. cbv zeta in B1, B2.
  replace (iv 1%nat z * kv 1%nat z - iv 2%nat z * kv 2%nat z)%C with (iv 1%nat z * kv 1%nat z + RtoC (-1) * (iv 2%nat z * kv 2%nat z))%C by (replace (RtoC (-1)) with (- RtoC 1)%C by (now rewrite <- RtoC_opp); ring).
  eapply cint_ext; [|exact (cint_plus _ _ _ _ B1 (cint_scal (RtoC (-1)) _ _ B2))]. intros s S. cbv beta. rewrite cpow2, cpow4. fold (uu z s). unfold q0, iu.
  replace (RtoC (-1)) with (- RtoC 1)%C by (now rewrite <- RtoC_opp). fold (w z s).
  pose proof (uu_nz z Z s) as N. pose proof (k_nz z Z) as Zn. pose proof (w_sum z Z s) as W.
  assert (E : (RtoC s + RtoC s)%C = ((uu z s + RtoC s) - z * w z s)%C) by (unfold w; field; exact Zn).
  transitivity (RtoC (bessel0 (2 * s)) * (w z s * w z s * (1 - w z s * w z s) * / uu z s))%C; [field; exact N|].
  replace ((1 + 1) * / z * (w z s * w z s * w z s * / uu z s))%C with (/ z * ((w z s * w z s) * (w z s + w z s) * / uu z s))%C by (field; split; assumption).
  transitivity (RtoC (bessel0 (2 * s)) * (/ z * ((w z s * w z s) * (w z s * (RtoC s + RtoC s)) * / uu z s)))%C; [|ring]. rewrite E.
  replace (w z s * (uu z s + RtoC s - z * w z s))%C with (w z s * (uu z s + RtoC s) - z * (w z s * w z s))%C by ring. rewrite W. field. split; assumption.
Qed.
