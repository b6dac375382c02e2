(** C100: where the transients come from and where they go. *)
From Coq Require Import Reals Lra String List.
From Coquelicot Require Import Coquelicot.
From Verif Require Import Vec3 Calculus Deriv Numpy Model_Spatial Model_TDEM Model_Static SpecFun Spec_TDEM Proof_FDEM2 Proof_FDEM3 Proof_Static2 Proof_TDEM Proof_TDEM3 Proof_TDEM4 Spec_Limits Proof_Limits Proof_Limits2 Proof_Limits3 Proof_Limits4.
Import ListNotations.
Open Scope R_scope.

(** ** C100 *)
(** electric dipole in a whole space: at each point other than its own, the returned fields start from the
    fields of the steady current dipole (the gradient of its potential, and the law of Biot and Savart) and die out *)
Theorem C100_electric_dipole_starts :
  forall (s : tedip) (p : vec3), 0 < td_sigma (te_med s) -> 0 < td_mu (te_med s) -> p <> te_loc s ->
  let q := vsub p (te_loc s) in let Il := te_current s * te_length s in
  vstarts_at (fun t => te_A (te_at s t) p) (vscal (Il / (4 * PI * vnorm q)) (te_orient s)) /\
  vstarts_at (fun t => te_H (te_at s t) p) (vscal (Il / (4 * PI * vnorm q ^ 3)) (vcross (te_orient s) q)) /\
  vstarts_at (fun t => te_B (te_at s t) p) (vscal (td_mu (te_med s)) (vscal (Il / (4 * PI * vnorm q ^ 3)) (vcross (te_orient s) q))) /\
  (exists e, vstarts_at (fun t => te_E (te_at s t) p) e /\
             vstarts_at (fun t => te_J (te_at s t) p) (vscal (td_sigma (te_med s)) e) /\
             is_grad (fun x => Il * vdot (te_orient s) (vsub x (te_loc s)) / (4 * PI * td_sigma (te_med s) * vnorm (vsub x (te_loc s)) ^ 3)) p (vopp e)) /\
  vstarts_at (fun t => te_dH (te_at s t) p) vzero /\ vstarts_at (fun t => te_dB (te_at s t) p) vzero.
Proof.
  intros s p Hs Hm N q Il. pose proof (te_H_starts s p Hs Hm N) as H. pose proof (te_dH_starts s p Hs Hm N) as D.
  split; [exact (te_A_starts s p Hs Hm N)|]. split; [exact H|]. split; [exact (vstarts_by (td_mu (te_med s)) _ _ H)|].
  split; [|split; [exact D|rewrite <- (vscal_zero (td_mu (te_med s))); exact (vstarts_by (td_mu (te_med s)) _ _ D)]].
  eexists. split; [exact (te_E_starts s p Hs Hm N)|]. split; [exact (vstarts_by (td_sigma (te_med s)) _ _ (te_E_starts s p Hs Hm N))|].
  pose proof (static_dipole_grad (Il / (4 * PI * td_sigma (te_med s))) (te_orient s) (vsub p (te_loc s)) (vsub_nz _ _ N)) as X.
  apply is_grad_shift in X. eapply is_grad_ext_near; [|exact X].
  apply (near_impl p (fun x => x <> te_loc s)); [|apply near_off; exact N].
  intros x Hx. pose proof PI_RGT_0. pose proof (vnorm_pos _ (vsub_nz _ _ Hx)). field. repeat split; lra.
Qed.
Theorem C100_electric_dipole_dies_out :
  forall (s : tedip) (p : vec3), 0 < td_sigma (te_med s) -> 0 < td_mu (te_med s) -> p <> te_loc s ->
  vends_at (fun t => te_A (te_at s t) p) vzero /\
  vends_at (fun t => te_E (te_at s t) p) vzero /\ vends_at (fun t => te_J (te_at s t) p) vzero /\
  vends_at (fun t => te_H (te_at s t) p) vzero /\ vends_at (fun t => te_B (te_at s t) p) vzero /\
  vends_at (fun t => te_dH (te_at s t) p) vzero /\ vends_at (fun t => te_dB (te_at s t) p) vzero.
Proof.
  intros s p Hs Hm N. pose proof (te_E_ends s p Hs Hm N) as E. pose proof (te_H_ends s p Hs Hm N) as H. pose proof (te_dH_ends s p Hs Hm N) as D.
  split; [exact (te_A_ends s p Hs Hm N)|]. split; [exact E|]. split; [rewrite <- (vscal_zero (td_sigma (te_med s))); exact (vends_by (td_sigma (te_med s)) _ _ E)|].
  split; [exact H|]. split; [rewrite <- (vscal_zero (td_mu (te_med s))); exact (vends_by (td_mu (te_med s)) _ _ H)|].
  split; [exact D|]. rewrite <- (vscal_zero (td_mu (te_med s))). exact (vends_by (td_mu (te_med s)) _ _ D).
Qed.
(** plane wave: away from z = 0 nothing has arrived at time 0, and everywhere the fields die out *)
Theorem C100_plane_wave :
  forall (s : tpwave) (p : vec3), 0 < td_sigma (tp_med s) -> 0 < td_mu (tp_med s) ->
  (vz p <> 0 -> vstarts_at (fun t => tp_E (tp_at s t) p) vzero /\ vstarts_at (fun t => tp_J (tp_at s t) p) vzero /\
                vstarts_at (fun t => tp_B (tp_at s t) p) vzero /\ vstarts_at (fun t => tp_H (tp_at s t) p) vzero) /\
  vends_at (fun t => tp_E (tp_at s t) p) vzero /\ vends_at (fun t => tp_J (tp_at s t) p) vzero /\
  vends_at (fun t => tp_B (tp_at s t) p) vzero /\ vends_at (fun t => tp_H (tp_at s t) p) vzero.
Proof.
  intros s p Hs Hm. assert (X : forall t, tp_H (tp_at s t) p = vscal (/ td_mu (tp_med s)) (tp_B (tp_at s t) p)).
  { intro t. unfold tp_H. cbn [tp_at tp_med at_time td_mu]. change (TPW _ _ _) with (tp_at s t). unfold vdiv. veq; unfold Rdiv; ring. }
  split.
  - intro Z. pose proof (tp_E_starts s p Hs Hm Z) as E. pose proof (tp_B_starts s p Hs Hm Z) as B.
    split; [exact E|]. split; [rewrite <- (vscal_zero (td_sigma (tp_med s))); exact (vstarts_by (td_sigma (tp_med s)) _ _ E)|]. split; [exact B|].
    eapply vstarts_ext; [intros t _; symmetry; apply X|]. rewrite <- (vscal_zero (/ td_mu (tp_med s))). now apply vstarts_by.
  - pose proof (tp_E_ends s p Hs Hm) as E. pose proof (tp_B_ends s p Hs Hm) as B.
    split; [exact E|]. split; [rewrite <- (vscal_zero (td_sigma (tp_med s))); exact (vends_by (td_sigma (tp_med s)) _ _ E)|]. split; [exact B|].
    eapply vends_ext; [intros t _; symmetry; apply X|]. rewrite <- (vscal_zero (/ td_mu (tp_med s))). now apply vends_by.
Qed.
(** circular loop: the field at the centre starts from that of the steady current, n I / (2 a), with a finite
    rate of change, and dies out *)
Theorem C100_loop :
  forall sigma mu a I n, 0 < sigma -> 0 < mu -> 0 < a ->
  starts_at (fun t => tloop_hz t sigma mu a I n) (n * I / (2 * a)) /\ ends_at (fun t => tloop_hz t sigma mu a I n) 0 /\
  starts_at (fun t => tloop_bz t sigma mu a I n) (mu * (n * I / (2 * a))) /\ ends_at (fun t => tloop_bz t sigma mu a I n) 0 /\
  starts_at (fun t => tloop_dbz t sigma mu a I n) (- (3 * n * I / (sigma * a ^ 3))) /\ ends_at (fun t => tloop_dbz t sigma mu a I n) 0.
Proof.
  intros sg mu a I n Hs Hm Ha. pose proof (loop_starts sg mu a I n Hs Hm Ha) as S. pose proof (loop_ends sg mu a I n Hs Hm Ha) as E.
  split; [exact S|]. split; [exact E|]. split; [exact (Proof_Fourier.lim_scal _ mu _ _ S)|]. split.
  - rewrite <- (Rmult_0_r mu). exact (Proof_Fourier.lim_scal _ mu _ _ E).
  - split; [now apply dloop_starts|now apply dloop_ends].
Qed.
(** vertical dipole on a half-space: the field starts from that of the static dipole and dies out *)
Theorem C100_half_space_dipole :
  forall (s : tvmd) (x y : R) (h b dh : R -> vec3) (h0 : vec3),
  0 < td_sigma (tv_med s) -> 0 < td_mu (tv_med s) -> x <> vx (tv_loc s) \/ y <> vy (tv_loc s) ->
  (forall t, tv_H (tv_at s t) [x; y] = Ok (h t)) -> (forall t, tv_B (tv_at s t) [x; y] = Ok (b t)) -> (forall t, tv_dH (tv_at s t) [x; y] = Ok (dh t)) ->
  mdipole_field (MD (tv_moment s) (V3 0 0 1) (tv_loc s) (td_mu (tv_med s))) "cartesian" (V3 x y (vz (tv_loc s))) = Ok h0 ->
  vstarts_at h h0 /\ vends_at h vzero /\ vstarts_at b (vscal (td_mu (tv_med s)) h0) /\ vends_at b vzero /\ vends_at dh vzero.
Proof.
  intros s x y h b dh h0 Hs Hm O Eh Eb Ed E0. rewrite vmd_static in E0 by (assumption || lra). injection E0 as <-.
  assert (O' : x - vx (tv_loc s) <> 0 \/ y - vy (tv_loc s) <> 0) by (destruct O; [left|right]; lra).
  assert (Xh : forall t, vmd_H t (td_sigma (tv_med s)) (td_mu (tv_med s)) (tv_moment s) (x - vx (tv_loc s)) (y - vy (tv_loc s)) = h t).
  { intro t. specialize (Eh t). injection Eh as E. exact E. }
  assert (Xd : forall t, vmd_dH t (td_sigma (tv_med s)) (td_mu (tv_med s)) (tv_moment s) (x - vx (tv_loc s)) (y - vy (tv_loc s)) = dh t).
  { intro t. specialize (Ed t). injection Ed as E. exact E. }
  assert (Xb : forall t, vscal (td_mu (tv_med s)) (h t) = b t).
  { intro t. specialize (Eb t). rewrite <- Xh. injection Eb as E. exact E. }
  pose proof (vstarts_ext _ h _ (fun t _ => Xh t) (vmd_starts _ _ (tv_moment s) _ _ Hs Hm O')) as S.
  pose proof (vends_ext _ h _ (fun t _ => Xh t) (vmd_ends _ _ (tv_moment s) _ _ Hs Hm O')) as E.
  split; [exact S|]. split; [exact E|].
  split; [exact (vstarts_ext _ b _ (fun t _ => Xb t) (vstarts_by (td_mu (tv_med s)) _ _ S))|]. split.
  - rewrite <- (vscal_zero (td_mu (tv_med s))). exact (vends_ext _ b _ (fun t _ => Xb t) (vends_by (td_mu (tv_med s)) _ _ E)).
  - exact (vends_ext _ dh _ (fun t _ => Xd t) (dvmd_ends _ _ (tv_moment s) _ _ Hs Hm O')).
Qed.
(** integrated over all times, the returned time derivatives give back minus the steady field *)
Theorem C100_total_change :
  (forall (s : tedip) (p : vec3), 0 < td_sigma (te_med s) -> 0 < td_mu (te_med s) -> p <> te_loc s ->
   vtotal (fun t => te_dH (te_at s t) p)
     (vopp (vscal (te_current s * te_length s / (4 * PI * vnorm (vsub p (te_loc s)) ^ 3)) (vcross (te_orient s) (vsub p (te_loc s)))))) /\
  (forall sigma mu a I n, 0 < sigma -> 0 < mu -> 0 < a -> total (fun t => tloop_dhz t sigma mu a I n) (- (n * I / (2 * a)))) /\
  (forall (s : tvmd) (x y : R) (dh : R -> vec3) (h0 : vec3),
   0 < td_sigma (tv_med s) -> 0 < td_mu (tv_med s) -> x <> vx (tv_loc s) \/ y <> vy (tv_loc s) ->
   (forall t, tv_dH (tv_at s t) [x; y] = Ok (dh t)) ->
   mdipole_field (MD (tv_moment s) (V3 0 0 1) (tv_loc s) (td_mu (tv_med s))) "cartesian" (V3 x y (vz (tv_loc s))) = Ok h0 ->
   vtotal dh (vopp h0)).
Proof.
  split; [|split].
  - exact te_dH_total.
  - exact loop_total.
  - intros s x y dh h0 Hs Hm O Ed E0. rewrite vmd_static in E0 by (assumption || lra). injection E0 as <-.
    assert (O' : x - vx (tv_loc s) <> 0 \/ y - vy (tv_loc s) <> 0) by (destruct O; [left|right]; lra).
    pose proof (vmd_total _ _ (tv_moment s) _ _ Hs Hm O') as T.
    assert (Xd : forall t, vmd_dH t (td_sigma (tv_med s)) (td_mu (tv_med s)) (tv_moment s) (x - vx (tv_loc s)) (y - vy (tv_loc s)) = dh t).
    { intro t. specialize (Ed t). injection Ed as E. exact E. }
    assert (K : forall (f : vec3 -> R) L, total (fun t => f (vmd_dH t (td_sigma (tv_med s)) (td_mu (tv_med s)) (tv_moment s) (x - vx (tv_loc s)) (y - vy (tv_loc s)))) L -> total (fun t => f (dh t)) L).
    { intros f L. apply is_RInt_gen_ext. apply filter_forall. intros ab t _. now rewrite Xd. }
    destruct T as (A & B & C). split; [|split]; cbn [vopp vx vy vz] in *; rewrite ?Ropp_0, ?Ropp_involutive; apply K; assumption.
Qed.

(** a dipole 1 m away, a loop of radius 1 and the half-space dipole have a field to lose *)
Example C100_witness :
  let s := TED (TD 1 1 1) 1 1 (V3 0 0 1) vzero in
  V3 1 0 0 <> te_loc s /\ vcross (te_orient s) (vsub (V3 1 0 0) (te_loc s)) <> vzero /\
  (1 * 1 / (2 * 1) <> 0) /\ 0 < tloop_hz 1 1 1 1 1 1 /\
  exists h0, mdipole_field (MD 1 (V3 0 0 1) vzero 1) "cartesian" (V3 1 0 (vz vzero)) = Ok h0 /\ h0 <> vzero.
Proof.
  cbn zeta. split; [intro E; apply (f_equal vx) in E; cbn [vx te_loc vzero] in E; lra|].
  split; [intro E; apply (f_equal vy) in E; cbn [vx vy vz vcross vsub te_orient te_loc vzero] in E; lra|]. split; [lra|].
  split; [apply loop_positive; lra|]. eexists. split; [apply vmd_static; cbn [vx vzero]; lra|]. pose proof PI_RGT_0.
  intro E. apply (f_equal vz) in E. cbn [vx vy vz vzero] in E. pose proof (vmd_off_pos (1 - 0) (0 - 0) ltac:(left; lra)) as P.
  set (r := vmd_off (1 - 0) (0 - 0)) in *. clearbody r.
  assert (0 < 1 / (4 * PI * r ^ 3)). { apply Rdiv_lt_0_compat; [lra|]. apply Rmult_lt_0_compat; [lra|apply pow_lt, P]. } lra.
Qed.
Print Assumptions C100_electric_dipole_starts.
Print Assumptions C100_electric_dipole_dies_out.
Print Assumptions C100_plane_wave.
Print Assumptions C100_loop.
Print Assumptions C100_half_space_dipole.
Print Assumptions C100_total_change.
