(** C116: attenuation and power of the harmonic fields. *)
From Coq Require Import Reals Lra.
From Coquelicot Require Import Coquelicot.
From Verif Require Import Vec3 Calculus Cplx Numpy Model_FDEM Spec_Flux Spec_Power Proof_Power Proof_Power2 Proof_Power3 Proof_Power4.
Open Scope R_scope.

(** the specification's power flow is the average of E(t) x H(t) over a period *)
Theorem C116_mean_power_flow :
  forall (w : R) (E H : cvec), 0 < w ->
  let T := 2 * PI / w in let S t := vcross (at_time w t E) (at_time w t H) in
  is_RInt (fun t => vx (S t)) 0 T (T * vx (poynting E H)) /\ is_RInt (fun t => vy (S t)) 0 T (T * vy (poynting E H)) /\
  is_RInt (fun t => vz (S t)) 0 T (T * vz (poynting E H)).
Proof. exact mean_power. Qed.

(** along every ray from a dipole the amplitudes fall at least like exp(-|Im k| r) *)
Theorem C116_magnetic_dipole_attenuates :
  forall (s : mdip) (n : vec3) (r1 r2 : R),
  0 < fd_freq (mf_med s) /\ 0 < fd_sigma (mf_med s) /\ 0 < fd_mu (mf_med s) -> vnorm2 n = 1 -> 0 < r1 -> r1 <= r2 ->
  let far := away (mf_loc s) n r2 in let near := away (mf_loc s) n r1 in
  let damping := exp (Im (fd_k (mf_med s)) * (r2 - r1)) in
  amplitude (mf_E s far) <= damping * (r1 / r2) * amplitude (mf_E s near) /\ amplitude (mf_H s far) <= damping * amplitude (mf_H s near).
Proof.
  intros s n r1 r2 P N H1 H2. cbv zeta. replace (Im (fd_k (mf_med s)) * (r2 - r1)) with (- (kb (mf_med s) * (r2 - r1))) by (unfold kb; ring).
  split; [exact (mf_E_falls s n r1 r2 P N H1 H2)|exact (mf_H_falls s n r1 r2 P N H1 H2)].
Qed.
Theorem C116_electric_dipole_attenuates :
  forall (s : edip) (n : vec3) (r1 r2 : R),
  0 < fd_freq (ed_med s) /\ 0 < fd_sigma (ed_med s) /\ 0 < fd_mu (ed_med s) -> vnorm2 n = 1 -> 0 < r1 -> r1 <= r2 ->
  let far := away (ed_loc s) n r2 in let near := away (ed_loc s) n r1 in
  let damping := exp (Im (fd_k (ed_med s)) * (r2 - r1)) in
  amplitude (ed_H s far) <= damping * (r1 / r2) * amplitude (ed_H s near) /\ amplitude (ed_E s far) <= damping * amplitude (ed_E s near).
Proof.
  intros s n r1 r2 P N H1 H2. cbv zeta. replace (Im (fd_k (ed_med s)) * (r2 - r1)) with (- (kb (ed_med s) * (r2 - r1))) by (unfold kb; ring).
  split; [exact (ed_H_falls s n r1 r2 P N H1 H2)|exact (ed_E_falls s n r1 r2 P N H1 H2)].
Qed.
(** quasistatic: one skin depth further out every field is at least e times smaller *)
Theorem C116_one_skin_depth :
  forall (med : fdem) (n loc o : vec3) (m i l r : R),
  0 < fd_freq med /\ 0 < fd_sigma med /\ 0 < fd_mu med -> fd_qs med = PyTrue -> vnorm2 n = 1 -> 0 < r ->
  let far := away loc n (r + fd_skin_depth med) in let near := away loc n r in
  let ms := MDF med m o loc in let es := ED med i l o loc in
  0 < fd_skin_depth med /\
  amplitude (mf_E ms far) <= exp (-1) * amplitude (mf_E ms near) /\ amplitude (mf_H ms far) <= exp (-1) * amplitude (mf_H ms near) /\
  amplitude (ed_E es far) <= exp (-1) * amplitude (ed_E es near) /\ amplitude (ed_H es far) <= exp (-1) * amplitude (ed_H es near).
Proof.
  intros med n loc o m i l r P Q N H. cbv zeta. destruct (k_pos med P) as [_ B]. destruct (k_quasi med P ltac:(rewrite Q; reflexivity)) as [_ D].
  set (d := fd_skin_depth med) in *. assert (D0 : 0 < d) by nra. split; [exact D0|]. clearbody d.
  assert (E : exp (- (kb med * (r + d - r))) = exp (-1)) by (f_equal; lra).
  assert (F : r / (r + d) <= 1) by (apply (Rmult_le_reg_r (r + d)); [lra|]; unfold Rdiv; rewrite Rmult_assoc, Rinv_l by lra; lra).
  assert (W : forall x y, 0 <= y -> x <= exp (-1) * (r / (r + d)) * y -> x <= exp (-1) * y).
  { intros x y Hy Hx. eapply Rle_trans; [exact Hx|]. apply Rmult_le_compat_r; [exact Hy|]. rewrite <- (Rmult_1_r (exp (-1))) at 2. apply Rmult_le_compat_l; [left; apply exp_pos|exact F]. }
  pose proof (mf_E_falls (MDF med m o loc) n r (r + d) P N H ltac:(lra)) as X1. pose proof (mf_H_falls (MDF med m o loc) n r (r + d) P N H ltac:(lra)) as X2.
  pose proof (ed_E_falls (ED med i l o loc) n r (r + d) P N H ltac:(lra)) as X3. pose proof (ed_H_falls (ED med i l o loc) n r (r + d) P N H ltac:(lra)) as X4.
  cbn [mf_med mf_loc ed_med ed_loc] in X1, X2, X3, X4. rewrite E in X1, X2, X3, X4.
  split; [apply (W _ _ (amplitude_nonneg _) X1)|]. split; [exact X2|]. split; [exact X3|]. apply (W _ _ (amplitude_nonneg _) X4).
Qed.

(** at every point the power flow loses exactly the heat sigma |E|^2 / 2 *)
Theorem C116_power_is_absorbed :
  (forall (s : mdip) p, p <> mf_loc s -> is_div (fun q => poynting (mf_E s q) (mf_H s q)) p (- heating (fd_sigma (mf_med s)) (mf_E s p))) /\
  (forall (s : pwave) p, 0 < fd_freq (pw_med s) -> 0 < fd_mu (pw_med s) -> vz (pw_orient s) = 0 ->
     is_div (fun q => poynting (pw_E s q) (pw_H s q)) p (- heating (fd_sigma (pw_med s)) (pw_E s p))) /\
  (forall (s : edip) p, fd_sigma (ed_med s) <> 0 -> p <> ed_loc s -> is_True (fd_qs (ed_med s)) = true ->
     is_div (fun q => poynting (ed_E s q) (ed_H s q)) p (- heating (fd_sigma (ed_med s)) (ed_E s p))).
Proof. exact (conj mf_absorbs (conj pw_absorbs ed_absorbs)). Qed.
(** finding: with displacement currents the electric dipole's fields create power from nothing *)
Theorem C116_electric_dipole_creates_power :
  forall (s : edip) p, fd_sigma (ed_med s) <> 0 -> p <> ed_loc s -> is_True (fd_qs (ed_med s)) = false ->
  is_div (fun q => poynting (ed_E s q) (ed_H s q)) p
    ((2 * PI * fd_freq (ed_med s)) ^ 2 * fd_mu (ed_med s) * fd_eps (ed_med s) / fd_sigma (ed_med s) * amplitude (ed_H s p) ^ 2 / 2
     - heating (fd_sigma (ed_med s)) (ed_E s p)).
Proof. intros s p S N Q. pose proof (ed_creates s p S N) as D. cbv zeta in D. rewrite Q in D. exact D. Qed.
Theorem C116_electric_dipole_power_refuted :
  forall (s : edip) p, 0 < fd_freq (ed_med s) /\ 0 < fd_sigma (ed_med s) /\ 0 < fd_mu (ed_med s) -> 0 < fd_eps (ed_med s) ->
  is_True (fd_qs (ed_med s)) = false -> ed_H s p <> cvzero -> p <> ed_loc s ->
  ~ is_div (fun q => poynting (ed_E s q) (ed_H s q)) p (- heating (fd_sigma (ed_med s)) (ed_E s p)).
Proof. exact ed_not_absorbed. Qed.

(** the plane wave carries its power straight down *)
Theorem C116_plane_wave_power :
  forall (s : pwave) p, 0 < fd_freq (pw_med s) -> 0 < fd_mu (pw_med s) -> vz (pw_orient s) = 0 ->
  poynting (pw_E s p) (pw_H s p) = V3 0 0 (- (Re (fd_k (pw_med s)) / (2 * (2 * PI * fd_freq (pw_med s)) * fd_mu (pw_med s)) * amplitude (pw_E s p) ^ 2)).
Proof. exact pw_flow. Qed.

(** the power through the sphere of radius r about a magnetic dipole, with k = a - i b *)
Theorem C116_magnetic_dipole_power :
  forall (s : mdip) e1 e2 e3 r, frame e1 e2 e3 -> 0 < r -> vnorm2 (mf_orient s) = 1 ->
  let a := Re (fd_k (mf_med s)) in let b := - Im (fd_k (mf_med s)) in
  flux_out e1 e2 e3 (mf_loc s) r (fun q => poynting (mf_E s q) (mf_H s q))
    (2 * PI * fd_freq (mf_med s) * fd_mu (mf_med s) * mf_moment s ^ 2 / (12 * PI) * (a * (2 * b / r + (a ^ 2 + b ^ 2))) * exp (- (2 * b * r))).
Proof. exact mf_flux. Qed.
(** ... and about an electric dipole, quasistatic, in terms of x = r / skin depth *)
Theorem C116_electric_dipole_power :
  forall (s : edip) e1 e2 e3 r, frame e1 e2 e3 -> 0 < r -> vnorm2 (ed_orient s) = 1 ->
  0 < fd_freq (ed_med s) /\ 0 < fd_sigma (ed_med s) /\ 0 < fd_mu (ed_med s) -> fd_qs (ed_med s) = PyTrue ->
  let x := r / fd_skin_depth (ed_med s) in
  flux_out e1 e2 e3 (ed_loc s) r (fun q => poynting (ed_E s q) (ed_H s q))
    ((ed_current s * ed_length s) ^ 2 / (12 * PI * fd_sigma (ed_med s) * r ^ 3) * (1 + 2 * x + 2 * x ^ 2 + 2 * x ^ 3) * exp (- (2 * x))).
Proof.
  intros s e1 e2 e3 r F H O P Q. cbv zeta. assert (Q' : is_True (fd_qs (ed_med s)) = true) by (rewrite Q; reflexivity).
  pose proof (ed_flux s e1 e2 e3 r F H O P Q') as X. destruct (k_quasi _ P Q') as [_ D]. unfold ed_power in X. cbv zeta in X.
  replace (r / fd_skin_depth (ed_med s)) with (kb (ed_med s) * r); [exact X|].
  assert (fd_skin_depth (ed_med s) <> 0) by (intro Z; rewrite Z in D; lra). apply (Rmult_eq_reg_r (fd_skin_depth (ed_med s))); [|assumption]. unfold Rdiv. rewrite (Rmult_assoc r), Rinv_l by assumption.
  transitivity (fd_skin_depth (ed_med s) * kb (ed_med s) * r); [ring|rewrite D; ring].
Qed.
(** energy balance: what goes in through the inner of two spheres and does not come out of the
    outer one is the heat produced between them; the power is positive and is damped twice
    as fast as the fields *)
Theorem C116_magnetic_dipole_energy :
  forall (s : mdip) e1 e2 e3 r1 r2, frame e1 e2 e3 -> vnorm2 (mf_orient s) = 1 -> mf_moment s <> 0 ->
  0 < fd_freq (mf_med s) /\ 0 < fd_sigma (mf_med s) /\ 0 < fd_mu (mf_med s) -> 0 < r1 -> r1 < r2 ->
  exists P1 P2 heat,
    flux_out e1 e2 e3 (mf_loc s) r1 (fun q => poynting (mf_E s q) (mf_H s q)) P1 /\
    flux_out e1 e2 e3 (mf_loc s) r2 (fun q => poynting (mf_E s q) (mf_H s q)) P2 /\
    (forall r, r1 <= r <= r2 -> over_sphere e1 e2 e3 (mf_loc s) r (fun q => heating (fd_sigma (mf_med s)) (mf_E s q)) (heat r)) /\
    is_RInt heat r1 r2 (P1 - P2) /\ 0 < P2 < exp (2 * Im (fd_k (mf_med s)) * (r2 - r1)) * P1.
Proof.
  intros s e1 e2 e3 r1 r2 F O M P H L. exists (mf_power s r1), (mf_power s r2), (mf_heat s).
  split; [apply mf_flux; assumption|]. split; [apply mf_flux; (assumption || lra)|]. split; [intros r Hr; apply mf_heat_sphere; (assumption || lra)|].
  split; [apply mf_balance; lra|]. split; [apply mf_power_pos; (assumption || lra)|].
  replace (2 * Im (fd_k (mf_med s)) * (r2 - r1)) with (- (2 * kb (mf_med s) * (r2 - r1))) by (unfold kb; ring). apply mf_power_falls; assumption.
Qed.
Theorem C116_electric_dipole_energy :
  forall (s : edip) e1 e2 e3 r1 r2, frame e1 e2 e3 -> vnorm2 (ed_orient s) = 1 -> ed_current s * ed_length s <> 0 ->
  0 < fd_freq (ed_med s) /\ 0 < fd_sigma (ed_med s) /\ 0 < fd_mu (ed_med s) -> is_True (fd_qs (ed_med s)) = true -> 0 < r1 -> r1 < r2 ->
  exists P1 P2 heat,
    flux_out e1 e2 e3 (ed_loc s) r1 (fun q => poynting (ed_E s q) (ed_H s q)) P1 /\
    flux_out e1 e2 e3 (ed_loc s) r2 (fun q => poynting (ed_E s q) (ed_H s q)) P2 /\
    (forall r, r1 <= r <= r2 -> over_sphere e1 e2 e3 (ed_loc s) r (fun q => heating (fd_sigma (ed_med s)) (ed_E s q)) (heat r)) /\
    is_RInt heat r1 r2 (P1 - P2) /\ 0 < P2 < exp (2 * Im (fd_k (ed_med s)) * (r2 - r1)) * P1.
Proof.
  intros s e1 e2 e3 r1 r2 F O M P Q H L. exists (ed_power s r1), (ed_power s r2), (ed_heat s).
  split; [apply ed_flux; assumption|]. split; [apply ed_flux; (assumption || lra)|]. split; [intros r Hr; apply ed_heat_sphere; (assumption || lra)|].
  split; [apply ed_balance; destruct P as (_ & ? & _); lra|]. split; [apply ed_power_pos; (assumption || lra)|].
  replace (2 * Im (fd_k (ed_med s)) * (r2 - r1)) with (- (2 * kb (ed_med s) * (r2 - r1))) by (unfold kb; ring). apply ed_power_falls; assumption.
Qed.

Example C116_witness : 
  let med := FD 1 1 1 1 PyTrue in let up := V3 0 0 1 in
  frame (V3 1 0 0) (V3 0 1 0) up /\ vnorm2 up = 1 /\ (0 < fd_freq med /\ 0 < fd_sigma med /\ 0 < fd_mu med) /\ is_True (fd_qs med) = true /\
  mf_moment (MDF med 1 up vzero) <> 0 /\ ed_current (ED med 1 1 up vzero) * ed_length (ED med 1 1 up vzero) <> 0 /\
  (0 < fd_freq (pw_med (PW med 1 (V3 1 0 0))) /\ vz (pw_orient (PW med 1 (V3 1 0 0))) = 0).
Proof. cbn. unfold frame, vnorm2, vdot. cbn. repeat split; lra. Qed.
Example C116_witness_refuted :
  let s := ED (FD 1 1 1 1 PyFalse) 1 1 (V3 0 0 1) vzero in
  ed_H s (V3 1 0 0) <> cvzero /\ V3 1 0 0 <> ed_loc s.
Proof.
  intro s. split.
  - intro Z. assert (P : 0 < fd_freq (ed_med s) /\ 0 < fd_sigma (ed_med s) /\ 0 < fd_mu (ed_med s)) by (cbn; lra).
    assert (N : vnorm2 (V3 1 0 0) = 1) by (unfold vnorm2; cbn; ring).
    pose proof (ed_H_away s (V3 1 0 0) 1 N ltac:(lra)) as E. replace (away (ed_loc s) (V3 1 0 0) 1) with (V3 1 0 0) in E by (apply vec3_eq; cbn; ring).
    rewrite E in Z. apply (f_equal amplitude) in Z. rewrite amplitude_cvof, !Cmod_mult, ekr_mod, Cmod_R in Z.
    assert (A0 : amplitude cvzero = 0) by (unfold amplitude, vnorm2; cbn; transitivity (sqrt 0); [f_equal; ring|apply sqrt_0]). rewrite A0 in Z.
    assert (X : 0 < Cmod (kX (fd_k (ed_med s) * RtoC 1)%C)).
    { destruct (k_pos _ P) as [A B]. pose proof (X_mod (ed_med s) 1) as Q. pose proof (Cmod_ge_0 (kX (fd_k (ed_med s) * RtoC 1)%C)). nra. }
    assert (V : 0 < vnorm (vcross (ed_orient s) (V3 1 0 0))) by (apply sqrt_lt_R0; unfold vnorm2; cbn; lra).
    pose proof (exp_pos (- (kb (ed_med s) * 1))) as G. pose proof PI_RGT_0.
    assert (I : 0 < Rabs (ed_current s * ed_length s / (4 * PI * 1 ^ 2))) by (apply Rabs_pos_lt; cbn; apply Rgt_not_eq, Rdiv_lt_0_compat; lra).
    pose proof (Rmult_lt_0_compat _ _ (Rmult_lt_0_compat _ _ (Rmult_lt_0_compat _ _ I X) G) V). lra.
  - cbn. intro Z. apply (f_equal vx) in Z. cbn in Z. lra.
Qed.
Print Assumptions C116_mean_power_flow.
Print Assumptions C116_magnetic_dipole_attenuates.
Print Assumptions C116_electric_dipole_attenuates.
Print Assumptions C116_one_skin_depth.
Print Assumptions C116_power_is_absorbed.
Print Assumptions C116_electric_dipole_creates_power.
Print Assumptions C116_electric_dipole_power_refuted.
Print Assumptions C116_plane_wave_power.
Print Assumptions C116_magnetic_dipole_power.
Print Assumptions C116_electric_dipole_power.
Print Assumptions C116_magnetic_dipole_energy.
Print Assumptions C116_electric_dipole_energy.
