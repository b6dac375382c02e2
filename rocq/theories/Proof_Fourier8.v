(** Impulse responses, uniqueness and concrete cases. *)
From Coq Require Import Reals Lra List.
From Coquelicot Require Import Coquelicot.
From Verif Require Import Vec3 Calculus Deriv Cplx SpecFun Numpy Model_Spatial Model_Static Model_TDEM Model_FDEM Spec_TDEM Proof_TDEM Proof_TDEM3 Spec_Fourier Proof_Fourier Proof_Fourier5 Proof_Fourier6 Proof_Fourier7.
Open Scope R_scope.

Lemma step_impulse h dh f H : is_step_off h f H -> (forall t, 0 < t -> is_derive h t (dh t)) -> is_fourier (fun t => - dh t) f H.
Proof.
  intros [_ F] D. unfold is_fourier in *. eapply cint_ext; [|exact F]. intros t Ht. cbv beta. rewrite (is_derive_unique _ _ _ (D t Ht)). reflexivity.
Qed.
Lemma ed_impulse (s : tedip) (p : vec3) (f eps : R) : 0 < f -> 0 < td_sigma (te_med s) -> 0 < td_mu (te_med s) -> p <> te_loc s ->
  is_vfourier (fun t => vopp (te_dH (te_at s t) p)) f (ed_H (ED (FD f (td_sigma (te_med s)) (td_mu (te_med s)) eps PyTrue) (te_current s) (te_length s) (te_orient s) (te_loc s)) p) /\
  is_vfourier (fun t => vopp (te_dB (te_at s t) p)) f (ed_B (ED (FD f (td_sigma (te_med s)) (td_mu (te_med s)) eps PyTrue) (te_current s) (te_length s) (te_orient s) (te_loc s)) p).
Proof.
  intros Hf Hs Hm Hp.
  assert (O : forall t, 0 < t -> te_ok (te_at s t)) by (intros t Ht; repeat split; assumption).
  split.
  - destruct (ed_H_step s p f eps Hf Hs Hm Hp) as (A & B & D).
    assert (T : forall t, 0 < t -> is_vderive (fun t => te_H (te_at s t) p) t (te_dH (te_at s t) p)) by (intros t Ht; exact (te_H_time (te_at s t) p (O t Ht) Hp)).
    split; [|split]; cbn [vopp vx vy vz].
    + exact (step_impulse _ _ _ _ A (fun t Ht => proj1 (T t Ht))).
    + exact (step_impulse _ _ _ _ B (fun t Ht => proj1 (proj2 (T t Ht)))).
    + exact (step_impulse _ _ _ _ D (fun t Ht => proj2 (proj2 (T t Ht)))).
  - destruct (ed_B_step s p f eps Hf Hs Hm Hp) as (A & B & D).
    assert (T : forall t, 0 < t -> is_vderive (fun t => te_B (te_at s t) p) t (te_dB (te_at s t) p)) by (intros t Ht; exact (te_B_time (te_at s t) p (O t Ht) Hp)).
    split; [|split]; cbn [vopp vx vy vz].
    + exact (step_impulse _ _ _ _ A (fun t Ht => proj1 (T t Ht))).
    + exact (step_impulse _ _ _ _ B (fun t Ht => proj1 (proj2 (T t Ht)))).
    + exact (step_impulse _ _ _ _ D (fun t Ht => proj2 (proj2 (T t Ht)))).
Qed.

Lemma fourier_unique h f H H' : is_fourier h f H -> is_fourier h f H' -> H = H'.
Proof.
  intros [A B] [A' B']. apply C_eq.
  - rewrite <- (is_RInt_gen_unique _ _ A). exact (is_RInt_gen_unique _ _ A').
  - rewrite <- (is_RInt_gen_unique _ _ B). exact (is_RInt_gen_unique _ _ B').
Qed.

Lemma dipole_case : let s := TED (TD 1 1 1) 1 1 (V3 1 0 0) (V3 0 0 0) in
  0 < td_sigma (te_med s) /\ 0 < td_mu (te_med s) /\ V3 0 2 0 <> te_loc s /\ vz (te_dH s (V3 0 2 0)) <> 0.
Proof.
  cbv zeta. cbn [te_med td_sigma td_mu te_loc]. repeat split; try lra; [intro Q; injection Q; lra|].
  unfold te_dH, td_theta, vdiv. cbn [te_med te_loc te_orient te_current te_length td_time td_sigma td_mu].
  assert (N : vnorm (vsub (V3 0 2 0) (V3 0 0 0)) = 2).
  { unfold vnorm, vnorm2. cbn [vsub vx vy vz]. match goal with |- sqrt ?x = _ => replace x with (2 * 2) by ring end. apply sqrt_square. lra. }
  rewrite N. assert (T : theta 1 1 1 * 2 = 1).
  { unfold theta. replace (1 * 1 / (4 * 1)) with (/ 2 * / 2) by field. rewrite sqrt_square; lra. }
  rewrite T. cbn [vsub vcross vscal vx vy vz]. pose proof PI_RGT_0. pose proof sqrt_PI_pos. pose proof (exp_pos (- 1 ^ 2)) as E. generalize dependent (exp (- 1 ^ 2)). intros e He.
  assert (Q : 0 < e / (8 * PI * sqrt PI)) by (apply Rdiv_lt_0_compat; nra).
  match goal with |- ?x <> 0 => replace x with (- (e / (8 * PI * sqrt PI))) by (field; lra) end. lra.
Qed.
Lemma wave_case : let s := TPW (TD 1 1 1) 1 (V3 1 0 0) in
  0 < td_sigma (tp_med s) /\ 0 < td_mu (tp_med s) /\ vz (V3 0 0 (-1)) < 0 /\ vx (tp_E s (V3 0 0 (-1))) <> 0 /\ vy (tp_B s (V3 0 0 0)) <> 0.
Proof.
  cbv zeta. cbn [tp_med td_sigma td_mu vz]. pose proof PI_RGT_0. pose proof sqrt_PI_pos. repeat split; try lra.
  - unfold tp_E. cbn [tp_med tp_amp tp_orient td_time td_sigma td_mu vscal vx vz]. rewrite Rmult_1_l, sqrt_1. pose proof (exp_pos (- (1 * (-1) ^ 2) / (4 * 1))) as He.
    generalize dependent (exp (- (1 * (-1) ^ 2) / (4 * 1))). intros e He. assert (Q : 0 < e / (2 * sqrt PI)) by (apply Rdiv_lt_0_compat; nra).
    match goal with |- ?x <> 0 => replace x with (e / (2 * sqrt PI)) by (field; lra) end. lra.
  - unfold tp_B. cbn [tp_med tp_amp tp_orient td_time td_sigma td_mu vscal vcross vx vy vz]. pose proof (exp_pos (- (1) * 1 * 0 ^ 2 / (4 * 1))) as He.
    generalize dependent (exp (- (1) * 1 * 0 ^ 2 / (4 * 1))). intros e He. assert (Q : 0 < sqrt (1 * 1 / (PI * 1))) by (apply sqrt_lt_R0; apply Rdiv_lt_0_compat; lra).
    generalize dependent (sqrt (1 * 1 / (PI * 1))). intros q Hq. nra.
Qed.
