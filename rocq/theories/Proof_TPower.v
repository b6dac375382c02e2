(** Power carried, stored and turned into heat by the transient fields (C126). *)
From Coq Require Import Reals Lra.
From Coquelicot Require Import Coquelicot.
From Verif Require Import Vec3 Calculus Deriv Integral Numpy Model_Spatial Model_Static Model_TDEM Spec_TDEM SpecFun Proof_Static2 Proof_TDEM Proof_TDEM2 Proof_TDEM3 Spec_Limits Proof_Limits Proof_Limits3 Spec_Flux Proof_Flux Proof_Flux2 Spec_Power Proof_Power Proof_Power3 Props_TDEM Proof_Late Proof_Late2.
Open Scope R_scope.

Lemma is_vderive_energy (H : R -> vec3) t d m : is_vderive H t d -> is_derive (fun t => m / 2 * vnorm2 (H t)) t (m * vdot (H t) d).
Proof.
  intros (X & Y & Z). apply (is_derive_ext (fun t => m / 2 * (vx (H t) * vx (H t) + vy (H t) * vy (H t) + vz (H t) * vz (H t)))); [intro u; match goal with |- ?a = ?b => change (@eq R a b) end; unfold vnorm2; ring|].
  eapply is_derive_eq.
  - apply (D_scal (m / 2) (fun t => vx (H t) * vx (H t) + vy (H t) * vy (H t) + vz (H t) * vz (H t))).
    apply (D_plus (fun t => vx (H t) * vx (H t) + vy (H t) * vy (H t)) (fun t => vz (H t) * vz (H t))); [|apply D_mult; exact Z].
    apply (D_plus (fun t => vx (H t) * vx (H t)) (fun t => vy (H t) * vy (H t))); apply D_mult; [exact X|exact X|exact Y|exact Y].
  - unfold vdot. field.
Qed.
(** Poynting's theorem from the two curl equations *)
Lemma transient_poynting (E H : vec3 -> vec3) (Ht : R -> vec3) p t s m d : is_curl E p (vopp (vscal m d)) -> is_curl H p (vscal s (E p)) -> is_vderive Ht t d -> Ht t = H p ->
  exists w, is_derive (fun t => m / 2 * vnorm2 (Ht t)) t w /\ is_div (fun q => vcross (E q) (H q)) p (- (s * vnorm2 (E p)) - w).
Proof.
  intros A B D E0. exists (m * vdot (Ht t) d). split; [now apply is_vderive_energy|]. pose proof (is_div_cross E H p _ _ A B) as X. rewrite E0.
  replace (- (s * vnorm2 (E p)) - m * vdot (H p) d) with (vdot (H p) (vopp (vscal m d)) - vdot (E p) (vscal s (E p))); [exact X|]. unfold vdot, vnorm2, vopp, vscal. cbn [vx vy vz]. ring.
Qed.
Lemma te_power s p : 0 < td_time (te_med s) /\ 0 < td_sigma (te_med s) /\ 0 < td_mu (te_med s) -> p <> te_loc s ->
  exists w, is_derive (fun t => td_mu (te_med s) / 2 * vnorm2 (te_H (te_at s t) p)) (td_time (te_med s)) w /\
    is_div (fun q => vcross (te_E s q) (te_H s q)) p (- (td_sigma (te_med s) * vnorm2 (te_E s p)) - w).
Proof.
  intros O N. destruct (C70_maxwell s p O N) as (_ & A & B & _). destruct (C70_time_derivatives s p O N) as [D _].
  apply (transient_poynting (te_E s) (te_H s) _ p _ _ _ (te_dH s p)); [exact A|exact B|exact D|]. destruct s as [[]]. reflexivity.
Qed.
Lemma tp_power s p : 0 < td_time (tp_med s) /\ 0 < td_sigma (tp_med s) /\ 0 < td_mu (tp_med s) -> vz (tp_orient s) = 0 ->
  exists w, is_derive (fun t => td_mu (tp_med s) / 2 * vnorm2 (tp_H (tp_at s t) p)) (td_time (tp_med s)) w /\
    is_div (fun q => vcross (tp_E s q) (tp_H s q)) p (- (td_sigma (tp_med s) * vnorm2 (tp_E s p)) - w).
Proof.
  intros O Z. destruct (C71_faraday s p O) as (d & D & A). destruct (C71_ampere s p O Z) as (B & J & _). rewrite J in B. destruct O as (T & S & M).
  apply (transient_poynting (tp_E s) (tp_H s) _ p _ _ _ (vscal (/ td_mu (tp_med s)) d)); [|exact B| |].
  - replace (vscal (td_mu (tp_med s)) (vscal (/ td_mu (tp_med s)) d)) with d by (veq; field; lra). exact A.
  - destruct D as (X & Y & Z'). unfold tp_H, vdiv. unfold is_vderive. cbn [vx vy vz vscal tp_at tp_med Model_TDEM.at_time td_mu].
    split; [|split]; (eapply is_derive_ext; [|eapply (D_scal (/ td_mu (tp_med s))); eassumption]); intro u; cbn beta; unfold Rdiv; apply Rmult_comm.
  - destruct s as [[]]. reflexivity.
Qed.
(** the power through a sphere about the dipole *)
Definition te_flow (s : tedip) (r : R) : R :=
  let u := td_theta (te_med s) * r in
  (te_current s * te_length s) ^ 2 / (6 * PI * td_sigma (te_med s) * r ^ 3) * uH u * uO u.
Lemma te_flux s e1 e2 e3 r : frame e1 e2 e3 -> 0 < r -> vnorm2 (te_orient s) = 1 -> 0 < td_sigma (te_med s) ->
  flux_out e1 e2 e3 (te_loc s) r (fun q => vcross (te_E s q) (te_H s q)) (te_flow s r).
Proof.
  intros Fr Hr O S. pose proof PI_RGT_0. set (u := td_theta (te_med s) * r). set (Il := te_current s * te_length s).
  set (K := Il ^ 2 / (16 * PI ^ 2 * td_sigma (te_med s) * r ^ 5) * uH u * uO u).
  replace (te_flow s r) with (4 * PI * r ^ 2 * (K * vnorm2 (te_orient s) + - K * vnorm2 (te_orient s) / 3)) by (rewrite O; unfold K, te_flow; cbv zeta; fold u; fold Il; field; repeat split; lra).
  apply flux_quad; [exact Fr|]. intros t p n. assert (N : vnorm2 n = 1) by (apply Proof_Power3.dir_unit, Fr). cbv beta. unfold te_E, te_H. cbv zeta.
  replace (vsub (vadd (te_loc s) (vscal r n)) (te_loc s)) with (vscal r n) by (veq; ring). replace (vnorm (vscal r n)) with r.
  2:{ unfold vnorm. replace (vnorm2 (vscal r n)) with (r ^ 2) by (unfold vnorm2 in *; cbn [vscal vx vy vz] in *; nra). symmetry. rewrite sqrt_pow2; lra. }
  replace (vdiv (vscal r n) r) with n by (unfold vdiv; veq; field; lra). fold u. fold (uH u). fold (uO u).
  set (S3 := 3 * erf u - _). set (a := uH u) in *. set (b := uO u) in *. clearbody S3 a b. unfold K. fold Il. clear K. set (o := te_orient s) in *. clearbody o n Il u. unfold vnorm2 in *.
  set (sg := td_sigma (te_med s)) in *. clearbody sg.
  transitivity (Il ^ 2 / (16 * PI ^ 2 * sg * r ^ 5) * a * b * ((vx n * vx n + vy n * vy n + vz n * vz n) * (vx o * vx o + vy o * vy o + vz o * vz o) - vdot n o ^ 2)); [|rewrite N; ring].
  unfold vdot, vcross, vsub, vscal. cbn [vx vy vz]. field. repeat split; lra.
Qed.

(** outward at first, inward in the end *)
Lemma early_mult f g : early f 1 -> early g 1 -> early (fun u => f u * g u) 1.
Proof.
  intros (K & K0 & F) (M & M0 & G). exists (K + M + K * M). split; [nra|]. intros u Hu. specialize (F u Hu). specialize (G u Hu).
  replace (f u * g u - 1) with ((f u - 1) + (g u - 1) + (f u - 1) * (g u - 1)) by ring. assert (I : 0 < / u <= 1).
  { split; [apply Rinv_0_lt_compat; lra|]. rewrite <- Rinv_1. apply Rinv_le_contravar; lra. }
  eapply Rle_trans; [apply Rabs_triang|]. eapply Rle_trans; [apply Rplus_le_compat_r, Rabs_triang|]. rewrite Rabs_mult. unfold Rdiv in *. set (i := / u) in *. clearbody i.
  pose proof (Rabs_pos (f u - 1)). pose proof (Rabs_pos (g u - 1)). set (a := Rabs (f u - 1)) in *. set (b := Rabs (g u - 1)) in *. clearbody a b.
  assert (a * b <= (K * i) * (M * i)) by (apply Rmult_le_compat; lra). assert (0 <= K * M) by nra. assert (K * i * (M * i) <= K * M * i) by (replace (K * i * (M * i)) with (K * M * (i * i)) by ring; apply Rmult_le_compat_l; nra). replace ((K + M + K * M) * i) with (K * i + M * i + K * M * i) by ring. lra.
Qed.
Lemma late_mult f g L M : late f L -> late g M -> late (fun u => f u * g u) (L * M).
Proof.
  intros (K & K0 & F) (N & N0 & G). exists (K * Rabs M + Rabs L * N + K * N). pose proof (Rabs_pos L). pose proof (Rabs_pos M). split; [nra|]. intros u Hu. specialize (F u Hu). specialize (G u Hu).
  replace (f u * g u - L * M) with ((f u - L) * M + L * (g u - M) + (f u - L) * (g u - M)) by ring.
  eapply Rle_trans; [apply Rabs_triang|]. eapply Rle_trans; [apply Rplus_le_compat_r, Rabs_triang|]. rewrite !Rabs_mult.
  pose proof (Rabs_pos (f u - L)). pose proof (Rabs_pos (g u - M)). set (a := Rabs (f u - L)) in *. set (b := Rabs (g u - M)) in *. set (l := Rabs L) in *. set (m := Rabs M) in *. clearbody a b l m.
  assert (a * b <= (K * u) * (N * u)) by (apply Rmult_le_compat; lra). assert (0 <= K * N) by nra. assert (K * u * (N * u) <= K * N * u) by (replace (K * u * (N * u)) with (K * N * (u * u)) by ring; apply Rmult_le_compat_l; nra).
  assert (a * m <= K * u * m) by (apply Rmult_le_compat_r; lra). assert (l * b <= l * (N * u)) by (apply Rmult_le_compat_l; lra). replace ((K * m + l * N + K * N) * u) with (K * u * m + l * (N * u) + K * N * u) by ring. lra.
Qed.
Section Flow.
  Variables (s : tedip) (r : R).
  Hypothesis Hs : 0 < td_sigma (te_med s).
  Hypothesis Hm : 0 < td_mu (te_med s).
  Hypothesis Hr : 0 < r.
  Let k := sqrt (td_mu (te_med s) * td_sigma (te_med s)).
  Let c := k * r / 2.
  Let q := (te_current s * te_length s) ^ 2 / (6 * PI * td_sigma (te_med s) * r ^ 3).
  Lemma fc : 0 < c. Proof. apply (dd_pos _ _ _ Hs Hm Hr). Qed.
  Lemma flow_u t : 0 < t -> te_flow (te_at s t) r = q * (uH (c / sqrt t) * uO (c / sqrt t)).
  Proof.
    intro Ht. unfold te_flow. cbn [te_at te_med Model_TDEM.at_time te_current te_length td_sigma]. fold q. unfold td_theta. cbn [Model_TDEM.at_time td_time td_sigma td_mu].
    rewrite theta_u by assumption. fold k. fold c. ring.
  Qed.
  Lemma flow_starts : starts_at (fun t => te_flow (te_at s t) r) q.
  Proof.
    apply (early_lim _ (fun u => q * (uH u * uO u)) c); [exact fc|exact flow_u|]. rewrite <- (Rmult_1_r q) at 1. apply early_scal, early_mult; [exact early_H|exact early_O].
  Qed.
  Lemma flow_late : ends_at (fun t => t ^ 3 * te_flow (te_at s t) r) (- ((te_current s * te_length s) ^ 2 * td_mu (te_med s) ^ 3 * td_sigma (te_med s) ^ 2 * r ^ 3 / (108 * PI ^ 2))).
  Proof.
    pose proof sqrt_PI_pos. pose proof PI_RGT_0 as P. pose proof (sqrt_sqrt PI ltac:(lra)) as W.
    replace (- ((te_current s * te_length s) ^ 2 * td_mu (te_med s) ^ 3 * td_sigma (te_med s) ^ 2 * r ^ 3 / (108 * PI ^ 2))) with (q * c ^ 6 * (4 / 3 / sqrt PI * (- (8 / 3) / sqrt PI))).
    - apply (power_law 6 _ _ (fun u => uH u * uO u)); [exact fc|exact p6|exact flow_u|]. apply (late_ext (fun u => uH u / u ^ 3 * (uO u / u ^ 3))); [intros u Hu; field; lra|].
      apply late_mult; [exact late_H3|exact late_O3].
    - assert (K6 : k ^ 6 = td_mu (te_med s) ^ 3 * td_sigma (te_med s) ^ 3) by (replace (k ^ 6) with ((k ^ 2) ^ 3) by ring; unfold k; rewrite s2 by assumption; ring).
      replace (4 / 3 / sqrt PI * (- (8 / 3) / sqrt PI)) with (- (32 / 9) / (sqrt PI * sqrt PI)) by (field; lra). rewrite W.
      replace (c ^ 6) with (td_mu (te_med s) ^ 3 * td_sigma (te_med s) ^ 3 * r ^ 6 / 64) by (rewrite <- K6; unfold c; field). unfold q. field. repeat split; lra.
  Qed.
End Flow.

Lemma flux_unique e1 e2 e3 c rad J I I' : flux_out e1 e2 e3 c rad J I -> flux_out e1 e2 e3 c rad J I' -> I = I'.
Proof.
  intros (g & G & A) (h & H & B). rewrite <- (is_RInt_unique _ _ _ _ A), <- (is_RInt_unique _ _ _ _ B). apply RInt_ext. intros t Ht. pose proof PI_RGT_0. rewrite Rmin_left, Rmax_right in Ht by lra.
  rewrite <- (is_RInt_unique _ _ _ _ (G t ltac:(lra))). exact (is_RInt_unique _ _ _ _ (H t ltac:(lra))).
Qed.
