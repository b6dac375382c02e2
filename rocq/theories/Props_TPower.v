(** C126: power carried, stored and turned into heat by the transient fields. *)
From Coq Require Import Reals Lra.
From Coquelicot Require Import Coquelicot.
From Verif Require Import Vec3 Calculus Deriv Numpy Model_Spatial Model_Static Model_TDEM Spec_TDEM SpecFun Proof_Static2 Proof_TDEM Proof_TDEM3 Spec_Limits Proof_Limits Proof_Limits3 Spec_Flux Proof_Flux Proof_Flux2 Proof_TPower.
Open Scope R_scope.

(** ** C126 *)
(** Poynting's theorem: what flows out of a point is taken from the magnetic energy stored there, less the heat *)
Theorem C126_power_balance :
  (forall (s : tedip) p, 0 < td_time (te_med s) /\ 0 < td_sigma (te_med s) /\ 0 < td_mu (te_med s) -> p <> te_loc s ->
   exists w, is_derive (fun t => td_mu (te_med s) / 2 * vnorm2 (te_H (te_at s t) p)) (td_time (te_med s)) w /\
     is_div (fun q => vcross (te_E s q) (te_H s q)) p (- (td_sigma (te_med s) * vnorm2 (te_E s p)) - w)) /\
  (forall (s : tpwave) p, 0 < td_time (tp_med s) /\ 0 < td_sigma (tp_med s) /\ 0 < td_mu (tp_med s) -> vz (tp_orient s) = 0 ->
   exists w, is_derive (fun t => td_mu (tp_med s) / 2 * vnorm2 (tp_H (tp_at s t) p)) (td_time (tp_med s)) w /\
     is_div (fun q => vcross (tp_E s q) (tp_H s q)) p (- (td_sigma (tp_med s) * vnorm2 (tp_E s p)) - w)).
Proof. exact (conj te_power tp_power). Qed.
(** the plane wave carries power away from the plane z = 0, on either side *)
Theorem C126_plane_wave_flow :
  forall (s : tpwave) p, 0 < td_time (tp_med s) /\ 0 < td_sigma (tp_med s) /\ 0 < td_mu (tp_med s) -> vz (tp_orient s) = 0 -> vnorm2 (tp_orient s) = 1 ->
  vcross (tp_E s p) (tp_H s p) =
    V3 0 0 (vz p * (tp_amp s ^ 2 * td_sigma (tp_med s) / (2 * PI * td_time (tp_med s) ^ 2) * exp (- (td_mu (tp_med s) * td_sigma (tp_med s) * vz p ^ 2) / (2 * td_time (tp_med s))))).
Proof.
  intros [[t sg mu] e o] p (Ht & Hs & Hm) Z U. unfold tp_E, tp_H, tp_B, vdiv. cbn [tp_med td_time td_sigma td_mu tp_amp tp_orient vcross vscal vx vy vz] in *. rewrite Z.
  assert (U' : vx o * vx o + vy o * vy o = 1) by (unfold vnorm2 in U; rewrite Z in U; lra).
  set (z := vz p). set (a := sqrt (mu * sg)).
  assert (A : a * a = mu * sg) by (apply sqrt_sqrt; nra). pose proof PI_RGT_0 as P. pose proof sqrt_PI_pos as W. pose proof (sqrt_sqrt PI ltac:(lra)) as W2. pose proof (sqrt_lt_R0 t Ht) as T. pose proof (sqrt_sqrt t ltac:(lra)) as T2.
  assert (E : sqrt (sg * mu / (PI * t)) = a / (sqrt PI * sqrt t)).
  { rewrite sqrt_div_alt by nra. rewrite (sqrt_mult PI t) by lra. rewrite (Rmult_comm sg). reflexivity. }
  rewrite E. replace (- mu * sg * z ^ 2 / (4 * t)) with (- (mu * sg * z ^ 2) / (4 * t)) by (field; lra).
  replace (exp (- (mu * sg * z ^ 2) / (2 * t))) with (exp (- (mu * sg * z ^ 2) / (4 * t)) * exp (- (mu * sg * z ^ 2) / (4 * t))) by (rewrite <- exp_plus; f_equal; field; lra).
  set (f := exp (- (mu * sg * z ^ 2) / (4 * t))). clearbody f. apply vec3_eq; cbn [vx vy vz vcross vscal]; rewrite ?Z.
  - field. repeat split; lra.
  - field. repeat split; lra.
  - clearbody a z. set (w := sqrt PI) in *. set (v := sqrt t) in *. clearbody w v.
    transitivity ((vx o * vx o + vy o * vy o) * (z * e ^ 2 * (a * a) * f ^ 2 / (2 * mu * (w * w) * (v * v) * t))); [field; repeat split; lra|].
    rewrite U', A, W2, T2. field. repeat split; lra.
Qed.
(** the power through the sphere of radius r about the electric dipole, with u = theta r *)
Theorem C126_electric_dipole_flow :
  forall (s : tedip) e1 e2 e3 r, frame e1 e2 e3 -> 0 < r -> vnorm2 (te_orient s) = 1 -> 0 < td_sigma (te_med s) ->
  let u := sqrt (td_mu (te_med s) * td_sigma (te_med s) / (4 * td_time (te_med s))) * r in
  flux_out e1 e2 e3 (te_loc s) r (fun q => vcross (te_E s q) (te_H s q))
    ((te_current s * te_length s) ^ 2 / (6 * PI * td_sigma (te_med s) * r ^ 3) *
     (erf u - 2 / sqrt PI * u * exp (- u ^ 2)) * (erf u - (4 * u ^ 2 + 2) * (u / sqrt PI * exp (- u ^ 2)))).
Proof. exact te_flux. Qed.
(** ... outward at first, from the steady current's heating of the ground beyond, and inward in the end *)
Theorem C126_flow_reverses :
  forall (s : tedip) e1 e2 e3 r (P : R -> R), frame e1 e2 e3 -> 0 < r -> vnorm2 (te_orient s) = 1 -> 0 < td_sigma (te_med s) -> 0 < td_mu (te_med s) ->
  (forall t, 0 < t -> flux_out e1 e2 e3 (te_loc s) r (fun q => vcross (te_E (te_at s t) q) (te_H (te_at s t) q)) (P t)) ->
  starts_at P ((te_current s * te_length s) ^ 2 / (6 * PI * td_sigma (te_med s) * r ^ 3)) /\
  ends_at (fun t => t ^ 3 * P t) (- ((te_current s * te_length s) ^ 2 * td_mu (te_med s) ^ 3 * td_sigma (te_med s) ^ 2 * r ^ 3 / (108 * PI ^ 2))).
Proof.
  intros s e1 e2 e3 r P Fr Hr O Hs Hm F.
  assert (E : forall t, 0 < t -> te_flow (te_at s t) r = P t).
  { intros t Ht. pose proof (te_flux (te_at s t) e1 e2 e3 r Fr Hr O Hs) as X. eapply flux_unique; [exact X|exact (F t Ht)]. }
  split; [eapply starts_ext; [|exact (flow_starts s r Hs Hm Hr)]|eapply ends_ext; [|exact (flow_late s r Hs Hm Hr)]]; intros t Ht; cbn beta; now rewrite E.
Qed.

(** a unit dipole and a unit plane wave at time 1 carry power *)
Example C126_witness :
  let s := TED (TD 1 1 1) 1 1 (V3 0 0 1) vzero in let w := TPW (TD 1 1 1) 1 (V3 1 0 0) in
  frame (V3 1 0 0) (V3 0 1 0) (V3 0 0 1) /\ vnorm2 (te_orient s) = 1 /\ V3 1 0 0 <> te_loc s /\ vz (tp_orient w) = 0 /\ vnorm2 (tp_orient w) = 1 /\ 0 < vz (vcross (tp_E w (V3 0 0 1)) (tp_H w (V3 0 0 1))) /\ vz (vcross (tp_E w (V3 0 0 (-1))) (tp_H w (V3 0 0 (-1)))) < 0 /\ exists P, forall t, 0 < t -> flux_out (V3 1 0 0) (V3 0 1 0) (V3 0 0 1) (te_loc s) 1 (fun q => vcross (te_E (te_at s t) q) (te_H (te_at s t) q)) (P t).
Proof.
  cbn zeta. assert (Fr : frame (V3 1 0 0) (V3 0 1 0) (V3 0 0 1)) by (unfold frame, vdot; cbn; lra).
  assert (K : forall z, vcross (tp_E (TPW (TD 1 1 1) 1 (V3 1 0 0)) (V3 0 0 z)) (tp_H (TPW (TD 1 1 1) 1 (V3 1 0 0)) (V3 0 0 z)) = V3 0 0 (z * (1 ^ 2 * 1 / (2 * PI * 1 ^ 2) * exp (- (1 * 1 * z ^ 2) / (2 * 1))))).
  { intro z. apply (C126_plane_wave_flow (TPW (TD 1 1 1) 1 (V3 1 0 0)) (V3 0 0 z)); [cbn; lra|reflexivity|unfold vnorm2; cbn; ring]. }
  assert (Q : forall z, 0 < 1 ^ 2 * 1 / (2 * PI * 1 ^ 2) * exp (- (1 * 1 * z ^ 2) / (2 * 1))).
  { intro z. apply Rmult_lt_0_compat; [|apply exp_pos]. pose proof PI_RGT_0. apply Rdiv_lt_0_compat; lra. }
  split; [exact Fr|]. split; [unfold vnorm2; cbn; ring|]. split; [intro E; apply (f_equal vx) in E; cbn in E; lra|].
  split; [reflexivity|]. split; [unfold vnorm2; cbn; ring|]. rewrite !K. cbn [vz]. pose proof (Q 1). pose proof (Q (-1)). split; [lra|]. split; [lra|].
  eexists. intros t Ht. apply (te_flux (te_at (TED (TD 1 1 1) 1 1 (V3 0 0 1) vzero) t)); [exact Fr|lra|unfold vnorm2; cbn; ring|cbn; lra].
Qed.
Print Assumptions C126_power_balance.
Print Assumptions C126_plane_wave_flow.
Print Assumptions C126_electric_dipole_flow.
Print Assumptions C126_flow_reverses.
