(** C125: the power laws of the late-time transients. *)
From Coq Require Import Reals Lra List.
From Coquelicot Require Import Coquelicot.
From Verif Require Import Vec3 Calculus Deriv Numpy Model_Spatial Model_TDEM Model_Static SpecFun Spec_TDEM Proof_Static2 Proof_TDEM3 Spec_Limits Proof_Limits Proof_Limits3 Proof_Limits4 Proof_Late Proof_Late2.
Import ListNotations.
Open Scope R_scope.

(** ** C125 *)
(** electric dipole in a whole space: the vector potential falls off as t^(-1/2), E and H as t^(-3/2) and the
    rate of change of H as t^(-5/2), with these coefficients; that of E does not depend on the point *)
Theorem C125_electric_dipole :
  forall (s : tedip) (p : vec3), 0 < td_sigma (te_med s) -> 0 < td_mu (te_med s) -> p <> te_loc s ->
  let ms := td_mu (te_med s) * td_sigma (te_med s) in let Il := te_current s * te_length s in
  vends_at (fun t => vscal (sqrt t) (te_A (te_at s t) p)) (vscal (Il * sqrt ms / (4 * PI * sqrt PI)) (te_orient s)) /\
  vends_at (fun t => vscal (t * sqrt t) (te_E (te_at s t) p)) (vscal (Il * td_mu (te_med s) * sqrt ms / (12 * PI * sqrt PI)) (te_orient s)) /\
  vends_at (fun t => vscal (t * sqrt t) (te_J (te_at s t) p)) (vscal (Il * sqrt ms ^ 3 / (12 * PI * sqrt PI)) (te_orient s)) /\
  vends_at (fun t => vscal (t * sqrt t) (te_H (te_at s t) p)) (vscal (Il * sqrt ms ^ 3 / (24 * PI * sqrt PI)) (vcross (te_orient s) (vsub p (te_loc s)))) /\
  vends_at (fun t => vscal (t ^ 2 * sqrt t) (te_dH (te_at s t) p)) (vscal (- (Il * sqrt ms ^ 3 / (16 * PI * sqrt PI))) (vcross (te_orient s) (vsub p (te_loc s)))).
Proof.
  intros s p Hs Hm N ms Il. pose proof (te_E_late s p Hs Hm N) as E.
  split; [exact (te_A_late s p Hs Hm N)|]. split; [exact E|]. split; [|split; [exact (te_H_late s p Hs Hm N)|exact (te_dH_late s p Hs Hm N)]].
  replace (vscal (Il * sqrt ms ^ 3 / (12 * PI * sqrt PI)) (te_orient s)) with (vscal (td_sigma (te_med s)) (vscal (Il * td_mu (te_med s) * sqrt ms / (12 * PI * sqrt PI)) (te_orient s))).
  - eapply vends_ext; [|exact (vends_by (td_sigma (te_med s)) _ _ E)]. intros t Ht. unfold te_J. change (td_sigma (te_med (te_at s t))) with (td_sigma (te_med s)). set (e := te_E _ _). clearbody e. veq; ring.
  - pose proof (s2 _ _ Hs Hm) as S. fold ms in S. set (k := sqrt ms) in *. unfold ms in S. clearbody k. pose proof PI_RGT_0. pose proof sqrt_PI_pos.
    assert (X : td_sigma (te_med s) * (Il * td_mu (te_med s) * k / (12 * PI * sqrt PI)) = Il * k ^ 3 / (12 * PI * sqrt PI)).
    { replace (k ^ 3) with (k ^ 2 * k) by ring. rewrite S. field. lra. }
    rewrite <- X. clear. veq; ring.
Qed.
(** plane wave: E falls off as t^(-3/2) and grows with depth, B as t^(-1/2) and does not depend on the depth *)
Theorem C125_plane_wave :
  forall (s : tpwave) (p : vec3), 0 < td_sigma (tp_med s) -> 0 < td_mu (tp_med s) ->
  let ms := td_mu (tp_med s) * td_sigma (tp_med s) in
  vends_at (fun t => vscal (t * sqrt t) (tp_E (tp_at s t) p)) (vscal (- (tp_amp s * sqrt ms * vz p / (2 * sqrt PI))) (tp_orient s)) /\
  vends_at (fun t => vscal (sqrt t) (tp_B (tp_at s t) p)) (vscal (tp_amp s * sqrt ms / sqrt PI) (vcross (tp_orient s) (V3 0 0 1))).
Proof.
  intros s p Hs Hm ms. split; [exact (tp_E_late s p Hs Hm)|]. pose proof (tp_B_late s p Hs Hm) as B. fold ms in B.
  replace (vscal (tp_amp s * sqrt ms / sqrt PI) (vcross (tp_orient s) (V3 0 0 1))) with (vscal (- (tp_amp s * sqrt ms / sqrt PI)) (V3 (- vy (tp_orient s)) (vx (tp_orient s)) 0)); [exact B|].
  generalize (tp_amp s * sqrt ms / sqrt PI). intro b. clear. veq; ring.
Qed.
(** circular loop: the field at the centre falls off as t^(-3/2), its rate of change as t^(-5/2) *)
Theorem C125_loop :
  forall sigma mu a I n, 0 < sigma -> 0 < mu -> 0 < a ->
  let k := n * I * a ^ 2 * sqrt (mu * sigma) ^ 3 / sqrt PI in
  ends_at (fun t => t * sqrt t * tloop_hz t sigma mu a I n) (k / 30) /\
  ends_at (fun t => t * sqrt t * tloop_bz t sigma mu a I n) (mu * k / 30) /\
  ends_at (fun t => t ^ 2 * sqrt t * tloop_dhz t sigma mu a I n) (- (k / 20)) /\
  ends_at (fun t => t ^ 2 * sqrt t * tloop_dbz t sigma mu a I n) (- (mu * k / 20)).
Proof.
  intros sg mu a I n Hs Hm Ha k. pose proof sqrt_PI_pos as W.
  pose proof (loop_late sg mu a I n Hs Hm Ha) as H. pose proof (dloop_late sg mu a I n Hs Hm Ha) as D.
  replace (n * I * a ^ 2 * sqrt (mu * sg) ^ 3 / (30 * sqrt PI)) with (k / 30) in H by (unfold k; field; lra).
  replace (- (mu * (n * I * a ^ 2 * sqrt (mu * sg) ^ 3 / (20 * sqrt PI)))) with (- (mu * k / 20)) in D by (unfold k; field; lra).
  clearbody k. split; [exact H|]. split; [|split; [|exact D]].
  - replace (mu * k / 30) with (mu * (k / 30)) by field. eapply ends_ext; [|exact (Proof_Fourier.lim_scal _ mu _ _ H)]. intros t Ht. unfold tloop_bz. cbn beta. ring.
  - replace (- (k / 20)) with (/ mu * - (mu * k / 20)) by (field; lra). eapply ends_ext; [|exact (Proof_Fourier.lim_scal _ (/ mu) _ _ D)]. intros t Ht. unfold tloop_dhz. cbn beta. unfold Rdiv. ring.
Qed.
(** vertical dipole on a half-space: the vertical field falls off as t^(-3/2), with a coefficient that does not depend
    on the distance, and the horizontal field, directed away from a positive moment, as t^(-2) *)
Theorem C125_half_space_dipole :
  forall (s : tvmd) (x y : R) (h dh : R -> vec3),
  0 < td_sigma (tv_med s) -> 0 < td_mu (tv_med s) -> x <> vx (tv_loc s) \/ y <> vy (tv_loc s) ->
  (forall t, tv_H (tv_at s t) [x; y] = Ok (h t)) -> (forall t, tv_dH (tv_at s t) [x; y] = Ok (dh t)) ->
  let ms := td_mu (tv_med s) * td_sigma (tv_med s) in let m := tv_moment s in
  ends_at (fun t => t * sqrt t * vz (h t)) (m * sqrt ms ^ 3 / (30 * PI * sqrt PI)) /\
  ends_at (fun t => t ^ 2 * vx (h t)) (m * ms ^ 2 / (128 * PI) * (x - vx (tv_loc s))) /\
  ends_at (fun t => t ^ 2 * vy (h t)) (m * ms ^ 2 / (128 * PI) * (y - vy (tv_loc s))) /\
  ends_at (fun t => t ^ 2 * sqrt t * vz (dh t)) (- (m * sqrt ms ^ 3 / (20 * PI * sqrt PI))) /\
  ends_at (fun t => t ^ 3 * vx (dh t)) (- (m * ms ^ 2 / (64 * PI) * (x - vx (tv_loc s)))) /\
  ends_at (fun t => t ^ 3 * vy (dh t)) (- (m * ms ^ 2 / (64 * PI) * (y - vy (tv_loc s)))).
Proof.
  intros s x y h dh Hs Hm O Eh Ed ms m.
  assert (O' : x - vx (tv_loc s) <> 0 \/ y - vy (tv_loc s) <> 0) by (destruct O; [left|right]; lra).
  assert (Xh : forall t, vmd_H t (td_sigma (tv_med s)) (td_mu (tv_med s)) (tv_moment s) (x - vx (tv_loc s)) (y - vy (tv_loc s)) = h t) by (intro t; specialize (Eh t); injection Eh as E; exact E).
  assert (Xd : forall t, vmd_dH t (td_sigma (tv_med s)) (td_mu (tv_med s)) (tv_moment s) (x - vx (tv_loc s)) (y - vy (tv_loc s)) = dh t) by (intro t; specialize (Ed t); injection Ed as E; exact E).
  destruct (vmd_late _ _ (tv_moment s) _ _ Hs Hm O') as (A & B & C). destruct (dvmd_late _ _ (tv_moment s) _ _ Hs Hm O') as (A' & B' & C').
  split; [eapply ends_ext; [|exact C]; intros t _; cbn beta; now rewrite Xh|]. split; [eapply ends_ext; [|exact A]; intros t _; cbn beta; now rewrite Xh|]. split; [eapply ends_ext; [|exact B]; intros t _; cbn beta; now rewrite Xh|].
  split; [eapply ends_ext; [|exact C']; intros t _; cbn beta; now rewrite Xd|]. split; [eapply ends_ext; [|exact A']; intros t _; cbn beta; now rewrite Xd|]. eapply ends_ext; [|exact B']; intros t _; cbn beta; now rewrite Xd.
Qed.
(** a loop and the dipole of the loop's moment n I pi a^2 are the same late source: the field at the loop's centre and
    the vertical field at any distance from the dipole follow the same law *)
Theorem C125_loop_and_dipole_agree :
  forall (s : tvmd) (a I n x y : R) (h : R -> vec3),
  0 < td_sigma (tv_med s) -> 0 < td_mu (tv_med s) -> 0 < a -> tv_moment s = n * I * (PI * a ^ 2) -> x <> vx (tv_loc s) \/ y <> vy (tv_loc s) ->
  (forall t, tv_H (tv_at s t) [x; y] = Ok (h t)) ->
  exists L, ends_at (fun t => t * sqrt t * vz (h t)) L /\ ends_at (fun t => t * sqrt t * tloop_hz t (td_sigma (tv_med s)) (td_mu (tv_med s)) a I n) L /\ (n * I <> 0 -> L <> 0).
Proof.
  intros s a I n x y h Hs Hm Ha M O Eh. pose proof sqrt_PI_pos as W. pose proof PI_RGT_0 as P.
  pose proof (proj1 (C125_loop _ _ a I n Hs Hm Ha)) as L.
  pose proof (proj1 (C125_half_space_dipole s x y h _ Hs Hm O Eh (fun t => eq_refl))) as D. cbv zeta in D, L. rewrite M in D.
  eexists. split; [exact D|]. set (k := sqrt (td_mu (tv_med s) * td_sigma (tv_med s))) in *. assert (K : 0 < k) by (apply sqrt_lt_R0; nra).
  split.
  - replace (n * I * (PI * a ^ 2) * k ^ 3 / (30 * PI * sqrt PI)) with (n * I * a ^ 2 * k ^ 3 / sqrt PI / 30) by (field; lra). exact L.
  - intros NI E. apply NI. clearbody k. assert (X : n * I = n * I * (PI * a ^ 2) * k ^ 3 / (30 * PI * sqrt PI) * (30 * sqrt PI / (a ^ 2 * k ^ 3))) by (field; lra). rewrite X, E. ring.
Qed.

(** a dipole of unit strength, a loop of radius 1 and a vertical dipole seen from 1 m meet the hypotheses, and their
    limits are not zero *)
Example C125_witness :
  let s := TED (TD 1 1 1) 1 1 (V3 0 0 1) vzero in let v := TV (TD 1 1 1) (1 * 1 * (PI * 1 ^ 2)) vzero in
  V3 1 0 0 <> te_loc s /\ vcross (te_orient s) (vsub (V3 1 0 0) (te_loc s)) <> vzero /\
  (exists h, forall t, tv_H (tv_at v t) [1; 0] = Ok (h t)) /\ (1 <> vx (tv_loc v) \/ 0 <> vy (tv_loc v)) /\
  (exists L, ends_at (fun t => t * sqrt t * tloop_hz t 1 1 1 1 1) L /\ 0 < L).
Proof.
  cbn zeta. split; [intro E; apply (f_equal vx) in E; cbn [vx te_loc vzero] in E; lra|].
  split; [intro E; apply (f_equal vy) in E; cbn [vx vy vz vcross vsub te_orient te_loc vzero] in E; lra|].
  split; [eexists; intro t; reflexivity|]. split; [left; cbn; lra|].
  eexists. split; [exact (proj1 (C125_loop 1 1 1 1 1 ltac:(lra) ltac:(lra) ltac:(lra)))|]. pose proof sqrt_PI_pos.
  rewrite Rmult_1_l, sqrt_1, !pow1, !Rmult_1_l. apply Rdiv_lt_0_compat; [apply Rdiv_lt_0_compat|]; lra.
Qed.
Print Assumptions C125_electric_dipole.
Print Assumptions C125_plane_wave.
Print Assumptions C125_loop.
Print Assumptions C125_half_space_dipole.
Print Assumptions C125_loop_and_dipole_agree.
