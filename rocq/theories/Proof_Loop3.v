(** C43 and the Biot-Savart law for the circular loop. *)
From Coq Require Import String Reals List Lra.
From Coquelicot Require Import Coquelicot.
From Verif Require Import Vec3 Calculus Deriv Integral Periodic CurveDeriv Numpy Model_Spatial Proof_Spatial Model_Static
  Spec_Static Spec_Loop Proof_Static Proof_Static2 Proof_Static3 Proof_Line Proof_Line3 Proof_Loop Proof_Loop2.
Open Scope R_scope.

Lemma is_RInt_lin3 (f g h : R -> R) a b A B C u v w : is_RInt f a b A -> is_RInt g a b B -> is_RInt h a b C ->
  is_RInt (fun t => u * f t + v * g t + w * h t) a b (u * A + v * B + w * C).
Proof.
  intros F G H.
  exact (is_RInt_plus (V:=R_NormedModule) _ _ _ _ _ _ (is_RInt_plus (V:=R_NormedModule) _ _ _ _ _ _ (is_RInt_scal (V:=R_NormedModule) _ _ _ u _ F) (is_RInt_scal (V:=R_NormedModule) _ _ _ v _ G)) (is_RInt_scal (V:=R_NormedModule) _ _ _ w _ H)).
Qed.

Definition vint (F : R -> vec3) (V : vec3) : Prop :=
  is_RInt (fun t => vx (F t)) 0 (2 * PI) (vx V) /\ is_RInt (fun t => vy (F t)) 0 (2 * PI) (vy V) /\ is_RInt (fun t => vz (F t)) 0 (2 * PI) (vz V).

Lemma vint_mvec N F V : vint F V -> vint (fun t => mvec N (F t)) (mvec N V).
Proof. intros [A [B C]]. split; [|split]; apply is_RInt_lin3; assumption. Qed.
Lemma vint_ext F G V : (forall t, F t = G t) -> vint F V -> vint G V.
Proof. intros E [A [B C]]. split; [|split]; (eapply is_RInt_ext; [|eassumption]); intros t _; cbv beta; rewrite E; reflexivity. Qed.

Section Frame.
Variables (n u v c p : vec3) (a : R) (M : mat3).
Hypothesis HO : orthonormal u v.
Hypothesis Hn : n = vcross u v.
Hypothesis HM : is_rotation M.
Hypothesis HMn : mvec M n = V3 0 0 1.
Let q := mvec M (vsub p c).
Let rho := hyp2 (vx q) (vy q).
Let phi := atan2 (vy q) (vx q).
Let psi := atan2 (vy (mvec M u)) (vx (mvec M u)).

Lemma frame_u : mvec M u = V3 (cos psi) (sin psi) 0.
Proof.
  assert (Z : vz (mvec M u) = 0).
  { transitivity (vdot (mvec M n) (mvec M u)).
    - rewrite HMn. generalize (mvec M u); intros [x y z]; unfold vdot; cbn; ring.
    - rewrite rotation_dot by exact HM. rewrite Hn. destruct u as [u1 u2 u3], v as [v1 v2 v3]; vunf; ring. }
  assert (N : vx (mvec M u) ^ 2 + vy (mvec M u) ^ 2 = 1).
  { destruct HO as [U _]. rewrite <- (rotation_dot M u u HM) in U. unfold vdot in U. rewrite Z in U. lra. }
  destruct (atan2_polar (vx (mvec M u)) (vy (mvec M u))) as [A B]. fold psi in A, B. rewrite N, sqrt_1, Rmult_1_l in A, B.
  apply vec3_eq; cbn [vx vy vz]; [symmetry; exact A|symmetry; exact B|exact Z].
Qed.
Lemma frame_v : mvec M v = V3 (- sin psi) (cos psi) 0.
Proof.
  replace v with (vcross n u).
  - rewrite <- rotation_cross, HMn, frame_u by exact HM. unfold vcross; cbn; f_equal; ring.
  - rewrite Hn. destruct HO as [U [W O]]. destruct u as [u1 u2 u3], v as [v1 v2 v3]. unfold vdot in *; cbn [vx vy vz] in *.
    unfold vcross; cbn [vx vy vz].
    f_equal.
    + replace ((u3 * v1 - u1 * v3) * u3 - (u1 * v2 - u2 * v1) * u2) with (v1 * (u1 * u1 + u2 * u2 + u3 * u3) - u1 * (u1 * v1 + u2 * v2 + u3 * v3)) by ring. rewrite U, O. ring.
    + replace ((u1 * v2 - u2 * v1) * u1 - (u2 * v3 - u3 * v2) * u3) with (v2 * (u1 * u1 + u2 * u2 + u3 * u3) - u2 * (u1 * v1 + u2 * v2 + u3 * v3)) by ring. rewrite U, O. ring.
    + replace ((u2 * v3 - u3 * v2) * u2 - (u3 * v1 - u1 * v3) * u1) with (v3 * (u1 * u1 + u2 * u2 + u3 * u3) - u3 * (u1 * v1 + u2 * v2 + u3 * v3)) by ring. rewrite U, O. ring.
Qed.
Lemma frame_q : q = V3 (rho * cos phi) (rho * sin phi) (vz q).
Proof. destruct (atan2_polar (vx q) (vy q)) as [A B]. apply vec3_eq; cbn [vx vy vz]; [symmetry; exact A|symmetry; exact B|reflexivity]. Qed.

Lemma frame_dl t : mvec M (circle_dl u v a t) = V3 (- a * sin (t + psi)) (a * cos (t + psi)) 0.
Proof.
  unfold circle_dl. rewrite mvec_add, !mvec_scal, frame_u, frame_v. unfold vadd, vscal; cbn [vx vy vz]. rewrite sin_plus, cos_plus. f_equal; ring.
Qed.
Lemma frame_diff t : mvec M (vsub p (circle c u v a t)) = vsub q (V3 (a * cos (t + psi)) (a * sin (t + psi)) 0).
Proof.
  unfold circle.
  replace (vsub p (vadd c (vadd (vscal (a * cos t) u) (vscal (a * sin t) v)))) with (vsub (vsub p c) (vadd (vscal (a * cos t) u) (vscal (a * sin t) v))) by (destruct p, c, u, v; vring).
  rewrite mvec_sub. fold q. f_equal. rewrite mvec_add, !mvec_scal, frame_u, frame_v. unfold vadd, vscal; cbn [vx vy vz]. rewrite sin_plus, cos_plus. f_equal; ring.
Qed.
Lemma frame_dist t : vnorm (vsub p (circle c u v a t)) = sqrt (ring_d2 a rho (vz q) (cos (t + (psi - phi)))).
Proof.
  rewrite <- (rotation_norm M _ HM), frame_diff. rewrite frame_q at 1. unfold vnorm, ring_d2, vnorm2, vsub; cbn [vx vy vz]. f_equal.
  replace (t + (psi - phi)) with (t + psi - phi) by ring. rewrite cos_minus. set (s := t + psi). clearbody s.
  pose proof (sin2_cos2 s) as E1. pose proof (sin2_cos2 phi) as E2. unfold Rsqr in E1, E2.
  transitivity (rho ^ 2 * (sin phi * sin phi + cos phi * cos phi) + a ^ 2 * (sin s * sin s + cos s * cos s) + vz q ^ 2 - 2 * a * rho * (cos s * cos phi + sin s * sin phi)); [ring|].
  rewrite E1, E2. ring.
Qed.

(** the two integrands, in the frame turned to the direction of the point *)
Definition turn (phi : R) (w : vec3) : vec3 := V3 (vx w * cos phi - vy w * sin phi) (vx w * sin phi + vy w * cos phi) (vz w).
Definition gA (a rho z : R) (t : R) : vec3 := let d := sqrt (ring_d2 a rho z (cos t)) in V3 (- a * sin t / d) (a * cos t / d) 0.
Definition gB (a rho z : R) (t : R) : vec3 :=
  let d := sqrt (ring_d2 a rho z (cos t)) in V3 (a * z * cos t / d ^ 3) (a * z * sin t / d ^ 3) ((a ^ 2 - a * rho * cos t) / d ^ 3).

Lemma frame_A t : mvec M (dl_over_r p (circle_dl u v a t) (circle c u v a t)) = turn phi (gA a rho (vz q) (t + (psi - phi))).
Proof.
  unfold dl_over_r. rewrite mvec_scal, frame_dl, frame_dist. unfold turn, gA, vscal; cbn [vx vy vz].
  replace (t + psi) with ((t + (psi - phi)) + phi) by ring. set (s := t + (psi - phi)). rewrite sin_plus, cos_plus. f_equal; unfold Rdiv; ring.
Qed.
Lemma frame_B t : mvec M (biot_savart p (circle_dl u v a t) (circle c u v a t)) = turn phi (gB a rho (vz q) (t + (psi - phi))).
Proof.
  unfold biot_savart. rewrite mvec_scal, <- rotation_cross, frame_dl, frame_diff, frame_dist by exact HM. rewrite frame_q at 2.
  unfold turn, gB, vscal, vcross, vsub; cbn [vx vy vz].
  replace (t + psi) with ((t + (psi - phi)) + phi) by ring. set (s := t + (psi - phi)). set (d := sqrt (ring_d2 a rho (vz q) (cos s))).
  f_equal; try (rewrite sin_plus, cos_plus; unfold Rdiv; ring).
  pose proof (sin2_cos2 (s + phi)) as E1. unfold Rsqr in E1.
  replace (cos s) with (cos (s + phi - phi)) by (f_equal; ring). rewrite (cos_minus (s + phi) phi). set (s' := s + phi) in *. clearbody s'.
  unfold Rdiv. rewrite (Rmult_comm (/ d ^ 3)). f_equal.
  transitivity (a ^ 2 * (sin s' * sin s' + cos s' * cos s') - a * rho * (cos s' * cos phi + sin s' * sin phi)); [ring|]. rewrite E1. ring.
Qed.

Lemma turn_back : exists N, forall w, mvec N w = turn phi w.
Proof. exists (M3 (V3 (cos phi) (- sin phi) 0) (V3 (sin phi) (cos phi) 0) (V3 0 0 1)). intros [x y z]. unfold turn, mvec, vdot; cbn [m0 m1 m2 vx vy vz]. f_equal; ring. Qed.
Lemma vint_turn F V : vint F V -> vint (fun t => turn phi (F t)) (turn phi V).
Proof. intro H. destruct turn_back as [N E]. rewrite <- E. apply vint_ext with (1 := fun t => E (F t)). apply vint_mvec, H. Qed.

Lemma frame_integral (K : vec3 -> vec3 -> vec3) (G : R -> vec3) V :
  (forall t, mvec M (K (circle_dl u v a t) (circle c u v a t)) = turn phi (G (t + (psi - phi)))) ->
  (forall t, G (t + 2 * PI) = G t) -> (forall t, continuous (fun t => vx (G t)) t /\ continuous (fun t => vy (G t)) t /\ continuous (fun t => vz (G t)) t) ->
  vint G V -> is_circle_integral K c u v a (mvec (mtrans M) (turn phi V)).
Proof.
  intros E Per Cont [A [B C]].
  assert (S : vint (fun t => G (t + (psi - phi))) V).
  { split; [|split]; apply (periodic_shift (fun t => _ (G t))); try assumption; intro t; first [rewrite Per; reflexivity|apply Cont]. }
  apply vint_turn, (vint_mvec (mtrans M)) in S. eapply vint_ext in S; [exact S|].
  intro t. cbv beta. rewrite <- E. apply rot_inv_l. exact HM.
Qed.
End Frame.

(** ** The ring integrals as vectors *)
Lemma ring_d2_pos a rho z t : 0 < a -> 0 <= rho -> 0 < (a - rho) ^ 2 + z ^ 2 -> 0 < ring_d2 a rho z (cos t).
Proof.
  intros Ha Hr Off. unfold ring_d2. pose proof (COS_bound t) as [_ B].
  assert (0 <= 2 * a * rho * (1 - cos t)) by (apply Rmult_le_pos; [apply Rmult_le_pos; lra|lra]). nra.
Qed.

Section RingVec.
Variables a rho z : R.
Hypothesis Ha : 0 < a.
Hypothesis Hr : 0 <= rho.
Hypothesis Off : 0 < (a - rho) ^ 2 + z ^ 2.

Lemma gA_periodic t : gA a rho z (t + 2 * PI) = gA a rho z t.
Proof. unfold gA. rewrite sin_plus, cos_plus, sin_2PI, cos_2PI. cbv zeta. replace (cos t * 1 - sin t * 0) with (cos t) by ring. replace (sin t * 1 + cos t * 0) with (sin t) by ring. reflexivity. Qed.
Lemma gB_periodic t : gB a rho z (t + 2 * PI) = gB a rho z t.
Proof. unfold gB. rewrite sin_plus, cos_plus, sin_2PI, cos_2PI. cbv zeta. replace (cos t * 1 - sin t * 0) with (cos t) by ring. replace (sin t * 1 + cos t * 0) with (sin t) by ring. reflexivity. Qed.

Lemma gA_cont t : continuous (fun t => vx (gA a rho z t)) t /\ continuous (fun t => vy (gA a rho z t)) t /\ continuous (fun t => vz (gA a rho z t)) t.
Proof.
  pose proof (ring_d2_pos a rho z t Ha Hr Off) as P. pose proof (sqrt_lt_R0 _ P) as S. unfold gA; cbn [vx vy vz]. unfold ring_d2 in *.
  refine (conj _ (conj _ _)); apply continuity_pt_filterlim; eapply derive_continuity; der; first [exact P|lra].
Qed.
Lemma gB_cont t : continuous (fun t => vx (gB a rho z t)) t /\ continuous (fun t => vy (gB a rho z t)) t /\ continuous (fun t => vz (gB a rho z t)) t.
Proof.
  pose proof (ring_d2_pos a rho z t Ha Hr Off) as P. pose proof (sqrt_lt_R0 _ P) as S. unfold gB; cbn [vx vy vz]. unfold ring_d2 in *.
  refine (conj _ (conj _ _)); apply continuity_pt_filterlim; eapply derive_continuity; der; first [exact P|apply pow_nonzero; lra].
Qed.
Lemma inv_d_cont k t : continuous (fun t => k / sqrt (ring_d2 a rho z (cos t))) t /\ continuous (fun t => k / sqrt (ring_d2 a rho z (cos t)) ^ 3) t.
Proof.
  pose proof (ring_d2_pos a rho z t Ha Hr Off) as P. pose proof (sqrt_lt_R0 _ P) as S. unfold ring_d2 in *.
  split; apply continuity_pt_filterlim; eapply derive_continuity; der; first [exact P|lra|apply pow_nonzero; lra].
Qed.

Lemma gA_int J : is_RInt (fun t => cos t / sqrt (ring_d2 a rho z (cos t))) 0 (2 * PI) J -> vint (gA a rho z) (V3 0 (a * J) 0).
Proof.
  intro H. unfold gA; split; [|split]; cbn [vx vy vz].
  - eapply is_RInt_ext; [|apply (turn_odd (fun c => - a / sqrt (ring_d2 a rho z c))); intro t; apply inv_d_cont].
    intros t _. cbv beta. match goal with |- ?u = ?v => change (@eq R u v) end. unfold Rdiv. ring.
  - eapply is_RInt_ext; [|apply (is_RInt_scal (V:=R_NormedModule) _ _ _ a _ H)].
    intros t _. unfold scal; cbn. unfold mult; cbn. unfold Rdiv. ring.
  - replace 0 with (scal (2 * PI - 0) 0) at 2 by (unfold scal; cbn; unfold mult; cbn; ring). apply (is_RInt_const (V:=R_NormedModule)).
Qed.
Lemma gB_int J J0 : is_RInt (fun t => cos t / sqrt (ring_d2 a rho z (cos t)) ^ 3) 0 (2 * PI) J ->
  is_RInt (fun t => / sqrt (ring_d2 a rho z (cos t)) ^ 3) 0 (2 * PI) J0 ->
  vint (gB a rho z) (V3 (a * z * J) 0 (a ^ 2 * J0 - a * rho * J)).
Proof.
  intros H H0. unfold gB; split; [|split]; cbn [vx vy vz].
  - eapply is_RInt_ext; [|apply (is_RInt_scal (V:=R_NormedModule) _ _ _ (a * z) _ H)].
    intros t _. unfold scal; cbn. unfold mult; cbn. unfold Rdiv. ring.
  - eapply is_RInt_ext; [|apply (turn_odd (fun c => a * z / sqrt (ring_d2 a rho z c) ^ 3)); intro t; apply inv_d_cont].
    intros t _. cbv beta. match goal with |- ?u = ?v => change (@eq R u v) end. unfold Rdiv. ring.
  - replace (a ^ 2 * J0 - a * rho * J) with (a ^ 2 * J0 + (- (a * rho)) * J + 0 * J) by ring.
    eapply is_RInt_ext; [|apply (is_RInt_lin3 _ _ _ _ _ _ _ _ (a ^ 2) (- (a * rho)) 0 H0 H H)].
    intros t _. cbv beta. match goal with |- ?u = ?v => change (@eq R u v) end. unfold Rdiv. ring.
Qed.
End RingVec.

Lemma hyp2_nonneg x y : 0 <= hyp2 x y. Proof. apply sqrt_pos. Qed.

Lemma small_iff a r h : 0 < a -> (small_rho a r h = false <-> 1 / 10 ^ 6 <= r ^ 2 / (a ^ 2 + h ^ 2)).
Proof. intro Ha. unfold small_rho, Rltb. destruct (Rlt_dec _ _); split; intro; try discriminate; try reflexivity; lra. Qed.

Lemma loop_line_integral s u v p : 0 < cl_radius s -> orthonormal u v -> cl_orient s = vcross u v -> proper_axis (cl_orient s) ->
  let rho := axis_distance (cl_orient s) (cl_loc s) p in let h := axis_height (cl_orient s) (cl_loc s) p in
  1 / 10 ^ 6 <= rho ^ 2 / (cl_radius s ^ 2 + h ^ 2) -> ~ (rho = cl_radius s /\ h = 0) ->
  exists V, is_circle_integral (dl_over_r p) (cl_loc s) u v (cl_radius s) V /\
    loop_vector_potential s "cartesian"%string p = Ok (vscal (cl_mu s * cl_current s / (4 * PI)) V).
Proof.
  intros Ha HO Hn P rho h Br Off. destruct (loop_rot _ P) as [M [E [R Mn]]].
  pose proof (frame_rho M _ (cl_loc s) p R Mn) as Fr. pose proof (frame_height M _ (cl_loc s) p R Mn) as Fh. cbv zeta in Fr. fold rho in Fr. fold h in Fh.
  apply off_wire in Off. apply small_iff in Br; [|exact Ha].
  assert (R0 : 0 < rho).
  { assert (0 <= rho) by apply vnorm_nonneg. destruct (Req_dec rho 0) as [Z|Z]; [|lra]. exfalso. apply small_iff in Br; [|exact Ha]. rewrite Z in Br.
    unfold Rdiv in Br. rewrite pow_ne_zero in Br by discriminate. assert (0 < / 10 ^ 6) by (apply Rinv_0_lt_compat, pow_lt; lra). lra. }
  set (q := mvec M (vsub p (cl_loc s))) in *.
  destruct (xA_ring (cl_radius s) rho h Ha R0 Off (cl_mu s) (cl_current s)) as [J [HJ EJ]].
  exists (mvec (mtrans M) (turn (atan2 (vy q) (vx q)) (V3 0 (cl_radius s * J) 0))). split.
  - eapply (frame_integral u v (cl_loc s) p (cl_radius s) M R).
    + intro t. eapply frame_A; eassumption.
    + intro t. apply gA_periodic.
    + intro t. fold q. rewrite Fr, Fh. apply gA_cont; [exact Ha|lra|exact Off].
    + fold q. rewrite Fr, Fh. apply gA_int; first [exact Ha|lra|exact Off|exact HJ].
  - unfold loop_vector_potential. rewrite with_coordinates_cart by reflexivity. unfold cl_A. rewrite (cl_frame _ _ _ M E). fold q. f_equal.
    rewrite <- mvec_scal. f_equal. unfold local, turn, vscal; cbn [vx vy vz]. rewrite Fr, Fh, cl_A_phi_exact, EJ by exact Br. f_equal; ring.
Qed.

(** B from the Biot-Savart law; [e] is the error of the radial component *)
Lemma loop_biot_savart_gen s u v p J J0 e : 0 < cl_radius s -> orthonormal u v -> cl_orient s = vcross u v -> proper_axis (cl_orient s) ->
  let rho := axis_distance (cl_orient s) (cl_loc s) p in let h := axis_height (cl_orient s) (cl_loc s) p in
  0 < (cl_radius s - rho) ^ 2 + h ^ 2 ->
  is_RInt (fun t => cos t / sqrt (ring_d2 (cl_radius s) rho h (cos t)) ^ 3) 0 (2 * PI) J ->
  is_RInt (fun t => / sqrt (ring_d2 (cl_radius s) rho h (cos t)) ^ 3) 0 (2 * PI) J0 ->
  cl_B_rho (cl_radius s) (cl_mu s * cl_current s / PI) rho h = cl_mu s * cl_current s / (4 * PI) * (cl_radius s * h * J) + e ->
  cl_B_z (cl_radius s) (cl_mu s * cl_current s / PI) rho h = cl_mu s * cl_current s / (4 * PI) * (cl_radius s ^ 2 * J0 - cl_radius s * rho * J) ->
  exists V B, is_circle_integral (biot_savart p) (cl_loc s) u v (cl_radius s) V /\ loop_flux_density s "cartesian"%string p = Ok B /\
    vnorm (vsub B (vscal (cl_mu s * cl_current s / (4 * PI)) V)) = Rabs e.
Proof.
  intros Ha HO Hn P rho h Off HJ HJ0 Er Ez. destruct (loop_rot _ P) as [M [E [R Mn]]].
  pose proof (frame_rho M _ (cl_loc s) p R Mn) as Fr. pose proof (frame_height M _ (cl_loc s) p R Mn) as Fh. cbv zeta in Fr. fold rho in Fr. fold h in Fh.
  assert (R0 : 0 <= rho) by apply vnorm_nonneg.
  set (q := mvec M (vsub p (cl_loc s))) in *. set (k := cl_mu s * cl_current s / (4 * PI)) in *.
  set (V := turn (atan2 (vy q) (vx q)) (V3 (cl_radius s * h * J) 0 (cl_radius s ^ 2 * J0 - cl_radius s * rho * J))).
  exists (mvec (mtrans M) V).
  exists (mvec (mtrans M) (vadd (vscal k V) (vscal e (V3 (cos (atan2 (vy q) (vx q))) (sin (atan2 (vy q) (vx q))) 0)))). split; [|split].
  - eapply (frame_integral u v (cl_loc s) p (cl_radius s) M R).
    + intro t. eapply frame_B; eassumption.
    + intro t. apply gB_periodic.
    + intro t. fold q. rewrite Fr, Fh. apply gB_cont; [exact Ha|lra|exact Off].
    + fold q. rewrite Fr, Fh. apply gB_int; first [exact Ha|lra|exact Off|exact HJ|exact HJ0].
  - unfold loop_flux_density. rewrite with_loop_eq by (left; reflexivity). rewrite with_coordinates_cart by reflexivity.
    unfold cl_B. rewrite (cl_frame _ _ _ M E). fold q. f_equal. f_equal.
    unfold V, local, turn, vscal, vadd; cbn [vx vy vz]. rewrite Fr, Fh, Er, Ez. f_equal; ring.
  - rewrite mvec_add, mvec_scal. set (X := vscal k (mvec (mtrans M) V)). set (Y := mvec (mtrans M) (vscal e _)).
    replace (vsub (vadd X Y) X) with Y by (destruct X, Y; vring). unfold Y. rewrite rotation_norm by (apply is_rotation_trans; exact R).
    rewrite vnorm_scal. set (w := V3 _ _ _). replace (vnorm w) with 1; [ring|]. symmetry. apply vnorm_unique; [lra|].
    unfold vnorm2, w; cbn [vx vy vz]. pose proof (sin2_cos2 (atan2 (vy q) (vx q))) as S. unfold Rsqr in S. lra.
Qed.

Lemma loop_biot_savart s u v p : 0 < cl_radius s -> orthonormal u v -> cl_orient s = vcross u v -> proper_axis (cl_orient s) ->
  let rho := axis_distance (cl_orient s) (cl_loc s) p in let h := axis_height (cl_orient s) (cl_loc s) p in
  1 / 10 ^ 6 <= rho ^ 2 / (cl_radius s ^ 2 + h ^ 2) -> ~ (rho = cl_radius s /\ h = 0) ->
  exists V, is_circle_integral (biot_savart p) (cl_loc s) u v (cl_radius s) V /\
    loop_flux_density s "cartesian"%string p = Ok (vscal (cl_mu s * cl_current s / (4 * PI)) V).
Proof.
  intros Ha HO Hn P rho h Br Off. apply off_wire in Off. apply small_iff in Br; [|exact Ha].
  assert (R0 : 0 < rho).
  { assert (0 <= rho) by apply vnorm_nonneg. destruct (Req_dec rho 0) as [Z|Z]; [|lra]. exfalso. apply small_iff in Br; [|exact Ha]. rewrite Z in Br.
    unfold Rdiv in Br. rewrite pow_ne_zero in Br by discriminate. assert (0 < / 10 ^ 6) by (apply Rinv_0_lt_compat, pow_lt; lra). lra. }
  destruct (xBr_ring (cl_radius s) rho h Ha R0 Off (cl_mu s) (cl_current s)) as [J [HJ EJ]].
  destruct (xBz_ring (cl_radius s) rho h Ha R0 Off (cl_mu s) (cl_current s)) as [J' [J0 [HJ' [HJ0 EZ]]]].
  assert (J' = J) by (apply (is_RInt_unique (V:=R_CompleteNormedModule)) in HJ; apply (is_RInt_unique (V:=R_CompleteNormedModule)) in HJ'; congruence). subst J'.
  destruct (loop_biot_savart_gen s u v p J J0 0 Ha HO Hn P Off HJ HJ0) as [V [B [HV [HB HN]]]].
  - fold rho h. rewrite cl_B_rho_exact, EJ by exact Br. ring.
  - exact EZ.
  - exists V. split; [exact HV|]. rewrite HB. f_equal. rewrite Rabs_R0 in HN. apply vnorm_eq0 in HN.
    destruct B as [b1 b2 b3]. destruct (vscal _ V) as [v1 v2 v3]. unfold vsub, vzero in HN; cbn in HN. apply V3_inj in HN. f_equal; lra.
Qed.
