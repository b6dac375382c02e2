(** C136: duality of the harmonic dipoles, wave impedances and the apparent resistivity. *)
From Coq Require Import Reals Lra.
From Coquelicot Require Import Coquelicot.
From Verif Require Import Vec3 Cplx Numpy Model_Static Model_FDEM Spec_Power Spec_Impedance Proof_Power2 Proof_Impedance.
Open Scope R_scope.

(** a magnetic dipole with the moment of an electric one (current times length), in the same
    medium: its magnetic field is the current density of the electric dipole, its electric field
    is -i omega mu times the magnetic field of the electric dipole, and its potential is
    i omega mu times the electric dipole's *)
Theorem C136_duality med I l o c p : fd_sigma med <> 0 -> p <> c ->
  let electric := ED med I l o c in let magnetic := MDF med (I * l) o c in
  let iwm := (Ci * RtoC (2 * PI * fd_freq med) * RtoC (fd_mu med))%C in
  mf_H magnetic p = ed_J electric p /\
  mf_E magnetic p = cvscal (- iwm)%C (ed_H electric p) /\
  mf_A magnetic p = cvscal iwm (ed_A electric p).
Proof.
  intros S N. cbv zeta. split; [symmetry; exact (dual_J med I l o c p S N)|]. split; [|exact (dual_A med I l o c p N)].
  rewrite (dual_E med I l o c p N). f_equal. ring.
Qed.

(** the plane wave travels down (0, 0, -1): E = Z (H x down), with the intrinsic impedance Z *)
Theorem C136_plane_wave_impedance (s : pwave) p :
  0 < fd_freq (pw_med s) /\ 0 < fd_sigma (pw_med s) /\ 0 < fd_mu (pw_med s) -> vz (pw_orient s) = 0 ->
  pw_E s p = cvscal (intrinsic (2 * PI * fd_freq (pw_med s)) (fd_mu (pw_med s)) (fd_k (pw_med s))) (ccross (pw_H s p) (V3 0 0 (-1))).
Proof. exact (pw_imp s p). Qed.

(** its apparent resistivity is 1/sigma if quasistatic and 1/|sigma + i omega epsilon| otherwise,
    at every point, for every amplitude and horizontal orientation *)
Theorem C136_apparent_resistivity (s : pwave) p :
  0 < fd_freq (pw_med s) /\ 0 < fd_sigma (pw_med s) /\ 0 < fd_mu (pw_med s) -> vz (pw_orient s) = 0 -> pw_orient s <> vzero -> pw_amp s <> 0 ->
  let rho_a := apparent_resistivity (2 * PI * fd_freq (pw_med s)) (fd_mu (pw_med s)) (pw_E s p) (pw_H s p) in
  (is_True (fd_qs (pw_med s)) = true -> rho_a = 1 / fd_sigma (pw_med s)) /\
  (is_True (fd_qs (pw_med s)) = false -> rho_a = 1 / sqrt (fd_sigma (pw_med s) ^ 2 + (2 * PI * fd_freq (pw_med s) * fd_eps (pw_med s)) ^ 2)).
Proof.
  intros P O N A. cbv zeta. rewrite (pw_rho s p P O N A), hat_mod. destruct P as (F & S & M).
  split; intro Q; rewrite Q.
  - replace (fd_sigma (pw_med s) ^ 2 + 0) with (fd_sigma (pw_med s) ^ 2) by ring. rewrite sqrt_pow2 by lra. unfold Rdiv. ring.
  - unfold Rdiv. ring.
Qed.

(** the phase of the impedance is in (0, 45] degrees, 45 exactly when there is no displacement current *)
Theorem C136_phase (s : fdem) : 0 < fd_freq s /\ 0 < fd_sigma s /\ 0 < fd_mu s -> 0 <= fd_eps s ->
  let Z := intrinsic (2 * PI * fd_freq s) (fd_mu s) (fd_k s) in
  0 < Im Z <= Re Z /\ (Im Z = Re Z <-> is_True (fd_qs s) = true \/ fd_eps s = 0).
Proof. exact (imp_phase s). Qed.

(** at distance r from a magnetic dipole, in the direction n: E = Z g (H x n), where with u = i k r
    g = u (1 + u) / (1 + u + u^2); several skin depths away, g is 1 up to half the inverse
    square of the number of skin depths *)
Theorem C136_magnetic_dipole_impedance (s : mdip) p :
  0 < fd_freq (mf_med s) /\ 0 < fd_sigma (mf_med s) /\ 0 < fd_mu (mf_med s) -> p <> mf_loc s ->
  let r := vnorm (vsub p (mf_loc s)) in let n := vdiv (vsub p (mf_loc s)) r in
  let u := (Ci * fd_k (mf_med s) * RtoC r)%C in let g := (u * (1 + u) / (1 + u + u * u))%C in
  mf_E s p = cvscal (intrinsic (2 * PI * fd_freq (mf_med s)) (fd_mu (mf_med s)) (fd_k (mf_med s)) * g)%C (ccross (mf_H s p) n) /\
  (is_True (fd_qs (mf_med s)) = true -> Cmod (g - 1)%C <= 1 / (2 * (r / fd_skin_depth (mf_med s)) ^ 2)).
Proof.
  intros P N. cbv zeta. split; [exact (mf_imp s p P N)|]. intro Q. unfold Rdiv at 1. rewrite Rmult_1_l. apply (ratio_far _ _ P Q).
  pose proof (vnorm_nonneg (vsub p (mf_loc s))). pose proof (dist_n0 p (mf_loc s) N). lra.
Qed.

(** the same for the electric dipole, H = - (g / Z) (E x n), if it is quasistatic ... *)
Theorem C136_electric_dipole_impedance (s : edip) p :
  0 < fd_freq (ed_med s) /\ 0 < fd_sigma (ed_med s) /\ 0 < fd_mu (ed_med s) -> p <> ed_loc s -> is_True (fd_qs (ed_med s)) = true ->
  let r := vnorm (vsub p (ed_loc s)) in let n := vdiv (vsub p (ed_loc s)) r in
  let u := (Ci * fd_k (ed_med s) * RtoC r)%C in let g := (u * (1 + u) / (1 + u + u * u))%C in
  ed_H s p = cvscal (- (g / intrinsic (2 * PI * fd_freq (ed_med s)) (fd_mu (ed_med s)) (fd_k (ed_med s))))%C (ccross (ed_E s p) n) /\
  Cmod (g - 1)%C <= 1 / (2 * (r / fd_skin_depth (ed_med s)) ^ 2).
Proof.
  intros P N Q. cbv zeta. split.
  - etransitivity; [exact (ed_imp s p P N)|]. f_equal. unfold fd_sigma_hat, sigma_hat. rewrite Q. pose proof (Z_n0 _ P) as ZN.
    assert (S : RtoC (fd_sigma (ed_med s)) <> RtoC 0) by (destruct P as (_ & S & _); intro Z; injection Z; lra).
    unfold ratio. pose proof (den_n0 _ P (vnorm (vsub p (ed_loc s)))) as D.
    assert (RP : 0 < vnorm (vsub p (ed_loc s))) by (pose proof (vnorm_nonneg (vsub p (ed_loc s))); pose proof (dist_n0 p (ed_loc s) N); lra).
    specialize (D RP). set (u := (_ * RtoC (vnorm _))%C) in *. field. repeat split; assumption.
  - unfold Rdiv at 1. rewrite Rmult_1_l. apply (ratio_far _ _ P Q).
    pose proof (vnorm_nonneg (vsub p (ed_loc s))). pose proof (dist_n0 p (ed_loc s) N). lra.
Qed.

(** ... and otherwise, off the axis, it fails at every point *)
Theorem C136_electric_dipole_impedance_refuted (s : edip) p :
  0 < fd_freq (ed_med s) /\ 0 < fd_sigma (ed_med s) /\ 0 < fd_mu (ed_med s) -> 0 < fd_eps (ed_med s) -> is_True (fd_qs (ed_med s)) = false ->
  p <> ed_loc s -> ed_H s p <> cvzero ->
  let r := vnorm (vsub p (ed_loc s)) in let n := vdiv (vsub p (ed_loc s)) r in
  let u := (Ci * fd_k (ed_med s) * RtoC r)%C in let g := (u * (1 + u) / (1 + u + u * u))%C in
  ed_H s p <> cvscal (- (g / intrinsic (2 * PI * fd_freq (ed_med s)) (fd_mu (ed_med s)) (fd_k (ed_med s))))%C (ccross (ed_E s p) n).
Proof.
  intros P EP Q N HN. cbv zeta. intro X. pose proof (ed_imp s p P N) as Y. cbv zeta in Y. pose proof (Z_n0 _ P) as ZN.
  set (V := ccross _ _) in *. set (Z := intrinsic _ _ _) in *.
  assert (S : RtoC (fd_sigma (ed_med s)) <> RtoC 0) by (destruct P as (_ & S & _); intro W; injection W; lra).
  set (h := fd_sigma_hat (ed_med s)) in *.
  assert (HS : h <> RtoC 0).
  { intro W. apply (f_equal Re) in W. unfold h, fd_sigma_hat, sigma_hat in W. rewrite Q in W. cbn in W. destruct P as (_ & S' & _). lra. }
  assert (HH : h <> RtoC (fd_sigma (ed_med s))).
  { intro W. apply (f_equal Im) in W. unfold h, fd_sigma_hat, sigma_hat, omega in W. rewrite Q in W. cbn in W. destruct P as (F & _ & _). pose proof PI_RGT_0.
    assert (0 < 2 * PI * fd_freq (ed_med s) * fd_eps (ed_med s)) by (apply Rmult_lt_0_compat; [nra|lra]). lra. }
  unfold ratio in Y. set (g := (_ / (1 + _ + _))%C) in *.
  assert (K : forall a, (- (g / Z) * a = - / (Z * (h / RtoC (fd_sigma (ed_med s)))) * g * a)%C -> (- (g / Z) * a = 0)%C).
  { intros a E. assert (E2 : ((h - RtoC (fd_sigma (ed_med s))) * (g / Z * a) = 0)%C).
    { transitivity (h * (- / (Z * (h / RtoC (fd_sigma (ed_med s)))) * g * a - - (g / Z) * a))%C; [field; repeat split; assumption|rewrite E; ring]. }
    destruct (Ceq_dec (g / Z * a)%C (RtoC 0)) as [W|W].
    - replace (- (g / Z) * a)%C with (- (g / Z * a))%C by ring. rewrite W. ring.
    - exfalso. revert E2. apply Cmult_neq_0; [|exact W]. intro W2. apply HH. replace h with (h - fd_sigma (ed_med s) + fd_sigma (ed_med s))%C by ring. rewrite W2. ring. }
  rewrite Y in X. apply HN. rewrite Y, X. clearbody V. 
  apply cvec_eq; unfold cvscal, cvzero; cbn [cvx cvy cvz]; apply K; symmetry.
  - exact (f_equal cvx X).
  - exact (f_equal cvy X).
  - exact (f_equal cvz X).
Qed.

(** the hypotheses are met: 100 Hz, 0.01 S/m, in vacuum permeability *)
Example C136_witness : let med := FD 100 (1 / 100) (4 * PI / 10000000) (1 / 100000000000) PyTrue in let s := PW med 1 (V3 1 0 0) in
  (0 < fd_freq (pw_med s) /\ 0 < fd_sigma (pw_med s) /\ 0 < fd_mu (pw_med s)) /\ vz (pw_orient s) = 0 /\ pw_orient s <> vzero /\ pw_amp s <> 0 /\
  apparent_resistivity (2 * PI * 100) (4 * PI / 10000000) (pw_E s (V3 0 0 (-50))) (pw_H s (V3 0 0 (-50))) = 100.
Proof.
  cbv zeta. pose proof PI_RGT_0. assert (P : 0 < 100 /\ 0 < 1 / 100 /\ 0 < 4 * PI / 10000000) by lra.
  assert (O : V3 1 0 0 <> vzero) by (intro Z; injection Z; lra). cbn [fd_freq fd_sigma fd_mu pw_med pw_orient pw_amp vz].
  split; [exact P|]. split; [reflexivity|]. split; [exact O|]. split; [lra|].
  pose proof (C136_apparent_resistivity (PW (FD 100 (1 / 100) (4 * PI / 10000000) (1 / 100000000000) PyTrue) 1 (V3 1 0 0)) (V3 0 0 (-50))) as T.
  cbn [fd_freq fd_sigma fd_mu fd_qs pw_med pw_orient pw_amp vz] in T. destruct (T P eq_refl O ltac:(lra)) as [T1 _]. rewrite (T1 eq_refl). field.
Qed.
(** ... and an electric dipole with displacement currents has a magnetic field *)
Example C136_witness2 : let s := ED (FD 100 (1 / 100) (4 * PI / 10000000) (1 / 100000000000) PyFalse) 1 1 (V3 1 0 0) (V3 0 0 0) in
  (0 < fd_freq (ed_med s) /\ 0 < fd_sigma (ed_med s) /\ 0 < fd_mu (ed_med s)) /\ is_True (fd_qs (ed_med s)) = false /\ ed_H s (V3 0 1 0) <> cvzero.
Proof.
  cbv zeta. pose proof PI_RGT_0. set (med := FD _ _ _ _ _). set (p := V3 0 1 0).
  assert (P : 0 < fd_freq med /\ 0 < fd_sigma med /\ 0 < fd_mu med) by (cbn; lra). split; [exact P|]. split; [reflexivity|].
  unfold ed_H. cbn [ed_med ed_current ed_length ed_orient ed_loc].
  assert (V : vsub p (V3 0 0 0) = V3 0 1 0) by (unfold p, vsub; cbn; f_equal; ring).
  assert (D : vnorm (V3 0 1 0) = 1) by (unfold vnorm, vnorm2, vdot; cbn; replace (0 * 0 + 1 * 1 + 0 * 0) with 1 by ring; apply sqrt_1).
  rewrite V, D. intro Z. apply (f_equal cvz) in Z. unfold cvof, vcross, vdiv in Z. cbn [cvz vx vy vz cvzero] in Z.
  revert Z. apply Cmult_neq_0; [|intro W; injection W; lra]. apply Cmult_neq_0; [|apply cexp_neq_0]. apply Cmult_neq_0.
  - intro W. injection W. intro W'. assert (1 * 1 / (4 * PI * 1 ^ 2) <> 0); [|auto]. apply Rgt_not_eq. apply Rdiv_lt_0_compat; lra.
  - intro W. apply (f_equal Re) in W. destruct (k_pos med P) as [A B]. unfold kb in B. cbn -[fd_k] in W. change (fst (fd_k med)) with (Re (fd_k med)) in W. change (snd (fd_k med)) with (Im (fd_k med)) in W. lra.
Qed.
Print Assumptions C136_duality.
Print Assumptions C136_plane_wave_impedance.
Print Assumptions C136_apparent_resistivity.
Print Assumptions C136_phase.
Print Assumptions C136_magnetic_dipole_impedance.
Print Assumptions C136_electric_dipole_impedance.
Print Assumptions C136_electric_dipole_impedance_refuted.
