(** Attenuation and power of the harmonic dipoles and of the plane wave, continued. *)
From Coq Require Import Reals Lra Lia.
From Coquelicot Require Import Coquelicot.
From Verif Require Import Vec3 Calculus Deriv Integral Cplx Numpy Model_Static Model_FDEM Spec_Flux Spec_Power Proof_Flux Proof_FDEM Proof_FDEM2 Proof_FDEM3 Proof_Power Proof_Power2.
Open Scope R_scope.

Lemma dir_unit e1 e2 e3 t p : frame e1 e2 e3 -> vnorm2 (direction e1 e2 e3 t p) = 1.
Proof. intro F. exact (frame_norm e1 e2 e3 t p F). Qed.
Lemma Cmod_R x : Cmod (RtoC x) = Rabs x.
Proof. apply Cmod_R. Qed.
Lemma i_real (w mu m d : R) : d <> 0 -> (Ci * w * mu * m / RtoC d)%C = (Ci * RtoC (w * mu * m / d))%C.
Proof. intro D. apply C_eq; cbn; field; nra. Qed.

(** ** Attenuation *)
Lemma X_fall_mod s r1 r2 : 0 <= kb s -> 0 < r1 -> r1 <= r2 ->
  Cmod (kX (fd_k s * RtoC r2)%C) / r2 <= Cmod (kX (fd_k s * RtoC r1)%C) / r1.
Proof.
  intros B H1 H2. apply sq_le; [apply Rdiv_le_0_compat; [apply Cmod_ge_0|lra]|].
  pose proof (X_fall (ka s) (kb s) r1 r2 B H1 H2) as F. rewrite <- !X_mod in F.
  eapply Rle_trans; [|eapply Rle_trans; [exact F|]]; right; field; lra.
Qed.
Lemma fall_1 s r1 r2 c v : 0 <= kb s -> 0 < r1 -> r1 <= r2 -> 0 <= c -> 0 <= v ->
  c / r2 ^ 2 * Cmod (kX (fd_k s * RtoC r2)%C) * exp (- (kb s * r2)) * v <=
  exp (- (kb s * (r2 - r1))) * (r1 / r2) * (c / r1 ^ 2 * Cmod (kX (fd_k s * RtoC r1)%C) * exp (- (kb s * r1)) * v).
Proof.
  intros B H1 H2 Hc Hv. pose proof (X_fall_mod s r1 r2 B H1 H2) as F. rewrite (exp_split (kb s) r1 r2).
  set (e := exp (- (kb s * (r2 - r1)))). set (g := exp (- (kb s * r1))).
  assert (0 < e) by apply exp_pos. assert (0 < g) by apply exp_pos. clearbody e g.
  set (X1 := Cmod _) in *. set (X2 := Cmod (kX (fd_k s * RtoC r1)%C)) in *. clearbody X1 X2.
  replace (c / r2 ^ 2 * X1 * (e * g) * v) with (c * v * e * g / r2 * (X1 / r2)) by (field; lra).
  replace (e * (r1 / r2) * (c / r1 ^ 2 * X2 * g * v)) with (c * v * e * g / r2 * (X2 / r1)) by (field; lra).
  apply Rmult_le_compat_l; [|exact F]. apply Rdiv_le_0_compat; [|lra]. repeat apply Rmult_le_pos; lra.
Qed.

Lemma mf_E_falls s n r1 r2 : physical (mf_med s) -> vnorm2 n = 1 -> 0 < r1 -> r1 <= r2 ->
  amplitude (mf_E s (away (mf_loc s) n r2)) <= exp (- (kb (mf_med s) * (r2 - r1))) * (r1 / r2) * amplitude (mf_E s (away (mf_loc s) n r1)).
Proof.
  intros P N H1 H2. destruct (k_pos _ P) as [_ B]. pose proof PI_RGT_0.
  assert (G : forall r, 0 < r -> amplitude (mf_E s (away (mf_loc s) n r)) =
    Rabs (fd_omega (mf_med s) * fd_mu (mf_med s) * mf_moment s) / (4 * PI) / r ^ 2 * Cmod (kX (fd_k (mf_med s) * RtoC r)%C) * exp (- (kb (mf_med s) * r)) * vnorm (vcross n (mf_orient s))).
  { intros r H'. assert (0 < 4 * PI * r ^ 2) by (pose proof (pow_lt r 2 H'); nra).
    rewrite mf_E_away, amplitude_cvof, i_real, !Cmod_mult, ekr_mod, Cmod_R by (assumption || lra).
    replace (Cmod Ci) with 1 by (unfold Cmod; cbn; rewrite <- sqrt_1 at 1; f_equal; ring).
    unfold Rdiv at 1. rewrite Rabs_mult, (Rabs_pos_eq (/ _)) by (left; apply Rinv_0_lt_compat; assumption).
    field. split; lra. }
  rewrite !G by lra. apply fall_1; try lra; [apply Rdiv_le_0_compat; [apply Rabs_pos|lra]|apply sqrt_pos].
Qed.
Lemma ed_H_falls s n r1 r2 : physical (ed_med s) -> vnorm2 n = 1 -> 0 < r1 -> r1 <= r2 ->
  amplitude (ed_H s (away (ed_loc s) n r2)) <= exp (- (kb (ed_med s) * (r2 - r1))) * (r1 / r2) * amplitude (ed_H s (away (ed_loc s) n r1)).
Proof.
  intros P N H1 H2. destruct (k_pos _ P) as [_ B]. pose proof PI_RGT_0.
  assert (G : forall r, 0 < r -> amplitude (ed_H s (away (ed_loc s) n r)) =
    Rabs (ed_current s * ed_length s) / (4 * PI) / r ^ 2 * Cmod (kX (fd_k (ed_med s) * RtoC r)%C) * exp (- (kb (ed_med s) * r)) * vnorm (vcross (ed_orient s) n)).
  { intros r H'. assert (0 < 4 * PI * r ^ 2) by (pose proof (pow_lt r 2 H'); nra).
    rewrite ed_H_away, amplitude_cvof, !Cmod_mult, ekr_mod, Cmod_R by (assumption || lra).
    unfold Rdiv at 1. rewrite Rabs_mult, (Rabs_pos_eq (/ _)) by (left; apply Rinv_0_lt_compat; assumption).
    field. split; lra. }
  rewrite !G by lra. apply fall_1; try lra; [apply Rdiv_le_0_compat; [apply Rabs_pos|lra]|apply sqrt_pos].
Qed.

Lemma cauchy n o : vnorm2 n = 1 -> 0 <= vnorm2 o - vdot n o ^ 2.
Proof.
  intro N. replace (vnorm2 o - vdot n o ^ 2) with (vnorm2 (vcross n o)).
  - unfold vnorm2. nra.
  - transitivity (vnorm2 n * vnorm2 o - vdot n o ^ 2); [destruct n, o; unfold vnorm2, vdot, vcross; cbn; ring|rewrite N; ring].
Qed.
Lemma fall_2 s c n o r1 r2 : 0 <= kb s -> vnorm2 n = 1 -> 0 < r1 -> r1 <= r2 ->
  amplitude (dipole_terms (RtoC (c / r2 ^ 3) * ekr s r2)%C (fd_k s * RtoC r2)%C n o) <=
  exp (- (kb s * (r2 - r1))) * amplitude (dipole_terms (RtoC (c / r1 ^ 3) * ekr s r1)%C (fd_k s * RtoC r1)%C n o).
Proof.
  intros B N H1 H2. apply sq_le; [apply Rmult_le_pos; [left; apply exp_pos|apply amplitude_nonneg]|].
  rewrite Rpow_mult_distr, !amplitude_terms by exact N. rewrite !Cmod_mult, !ekr_mod, !Cmod_R, (exp_split (kb s) r1 r2), !Rpow_mult_distr, !pow2_abs.
  pose proof (cauchy n o N) as K. set (e := exp (- (kb s * (r2 - r1)))). set (g := exp (- (kb s * r1))). clearbody e g.
  pose proof (X_fall (ka s) (kb s) r1 r2 B H1 H2) as FX. pose proof (Y_fall (ka s) (kb s) r1 r2 B H1 H2) as FY. rewrite <- !X_mod in FX. rewrite <- !Y_mod in FY.
  set (x2 := Cmod (kX (fd_k s * RtoC r2)%C) ^ 2) in *. set (x1 := Cmod (kX (fd_k s * RtoC r1)%C) ^ 2) in *.
  set (y2 := Cmod (kY (fd_k s * RtoC r2)%C) ^ 2) in *. set (y1 := Cmod (kY (fd_k s * RtoC r1)%C) ^ 2) in *.
  assert (X1 : 0 <= x1) by apply pow2_ge_0. assert (X2 : 0 <= x2) by apply pow2_ge_0.
  clearbody x1 x2 y1 y2. set (t := vdot n o) in *. set (q := vnorm2 o) in *. clearbody t q.
  assert (FX' : x2 / r2 ^ 6 <= x1 / r1 ^ 6).
  { replace (x2 / r2 ^ 6) with (x2 / r2 ^ 2 * / r2 ^ 4) by (field; lra). replace (x1 / r1 ^ 6) with (x1 / r1 ^ 2 * / r1 ^ 4) by (field; lra).
    pose proof (pow_lt r1 2 H1). pose proof (pow_lt r2 2 ltac:(lra)). pose proof (pow_lt r1 4 H1). pose proof (pow_lt r2 4 ltac:(lra)).
    apply Rmult_le_compat; [apply Rdiv_le_0_compat; lra|left; apply Rinv_0_lt_compat; lra|exact FX|].
    apply Rinv_le_contravar; [assumption|apply pow_incr; lra]. }
  replace ((c / r2 ^ 3) ^ 2 * (e ^ 2 * g ^ 2) * (4 * x2 * t ^ 2 + y2 * (q - t ^ 2))) with (e ^ 2 * (c ^ 2 * g ^ 2 * (4 * t ^ 2 * (x2 / r2 ^ 6) + (q - t ^ 2) * (y2 / r2 ^ 6)))) by (field; lra).
  replace (e ^ 2 * ((c / r1 ^ 3) ^ 2 * g ^ 2 * (4 * x1 * t ^ 2 + y1 * (q - t ^ 2)))) with (e ^ 2 * (c ^ 2 * g ^ 2 * (4 * t ^ 2 * (x1 / r1 ^ 6) + (q - t ^ 2) * (y1 / r1 ^ 6)))) by (field; lra).
  apply Rmult_le_compat_l; [apply pow2_ge_0|]. apply Rmult_le_compat_l; [apply Rmult_le_pos; apply pow2_ge_0|].
  apply Rplus_le_compat; apply Rmult_le_compat_l; try assumption. pose proof (pow2_ge_0 t). lra.
Qed.
Lemma mf_H_falls s n r1 r2 : physical (mf_med s) -> vnorm2 n = 1 -> 0 < r1 -> r1 <= r2 ->
  amplitude (mf_H s (away (mf_loc s) n r2)) <= exp (- (kb (mf_med s) * (r2 - r1))) * amplitude (mf_H s (away (mf_loc s) n r1)).
Proof.
  intros P N H1 H2. destruct (k_pos _ P) as [_ B]. pose proof PI_RGT_0. rewrite !mf_H_away by (assumption || lra).
  assert (E : forall r, 0 < r -> mf_moment s / (4 * PI * r ^ 3) = mf_moment s / (4 * PI) / r ^ 3) by (intros; field; split; lra).
  rewrite !E by lra. apply fall_2; try assumption; lra.
Qed.
Lemma ed_E_falls s n r1 r2 : physical (ed_med s) -> vnorm2 n = 1 -> 0 < r1 -> r1 <= r2 ->
  amplitude (ed_E s (away (ed_loc s) n r2)) <= exp (- (kb (ed_med s) * (r2 - r1))) * amplitude (ed_E s (away (ed_loc s) n r1)).
Proof.
  intros P N H1 H2. destruct (k_pos _ P) as [_ B]. destruct P as (F & S & M). pose proof PI_RGT_0. rewrite !ed_E_away by (assumption || lra).
  assert (E : forall r, 0 < r -> ed_current s * ed_length s / (4 * PI * fd_sigma (ed_med s) * r ^ 3) = ed_current s * ed_length s / (4 * PI * fd_sigma (ed_med s)) / r ^ 3) by (intros; field; repeat split; lra).
  rewrite !E by lra. apply fall_2; try assumption; lra.
Qed.

(** ** Power through spheres *)
Lemma power_normal_m (F G kr : C) n o : vnorm2 n = 1 ->
  vdot (poynting (cvof F (vcross n o)) (dipole_terms G kr n o)) n =
  1 / 2 * (Re F * Re (G * kY kr)%C + Im F * Im (G * kY kr)%C) * (vnorm2 o - vdot n o ^ 2).
Proof.
  intro N. transitivity (1 / 2 * (Re F * Re (G * kY kr)%C + Im F * Im (G * kY kr)%C) * (vnorm2 n * vnorm2 o - vdot n o ^ 2)); [|rewrite N; ring].
  unfold dipole_terms, kY, poynting. destruct F as [f1 f2], G as [g1 g2], kr as [x y], n as [n1 n2 n3], o as [o1 o2 o3]. unfold vnorm2, vdot. cbn. field.
Qed.
Lemma power_normal_e (F G kr : C) n o : vnorm2 n = 1 ->
  vdot (poynting (dipole_terms G kr n o) (cvof F (vcross o n))) n =
  1 / 2 * (Re F * Re (G * kY kr)%C + Im F * Im (G * kY kr)%C) * (vnorm2 o - vdot n o ^ 2).
Proof.
  intro N. transitivity (1 / 2 * (Re F * Re (G * kY kr)%C + Im F * Im (G * kY kr)%C) * (vnorm2 n * vnorm2 o - vdot n o ^ 2)); [|rewrite N; ring].
  unfold dipole_terms, kY, poynting. destruct F as [f1 f2], G as [g1 g2], kr as [x y], n as [n1 n2 n3], o as [o1 o2 o3]. unfold vnorm2, vdot. cbn. field.
Qed.
Lemma ekr_sq s r : Re (ekr s r) * Re (ekr s r) + Im (ekr s r) * Im (ekr s r) = exp (- (2 * kb s * r)).
Proof. rewrite <- Cmod_sqr, ekr_mod, <- exp_plus. f_equal. ring. Qed.
Lemma vnorm2_cross n o : vnorm2 n = 1 -> vnorm2 (vcross n o) = vnorm2 o - vdot n o ^ 2.
Proof.
  intro N. transitivity (vnorm2 n * vnorm2 o - vdot n o ^ 2); [destruct n, o; unfold vnorm2, vdot, vcross; cbn; ring|rewrite N; ring].
Qed.

Definition mf_power (s : mdip) (r : R) : R :=
  fd_omega (mf_med s) * fd_mu (mf_med s) * mf_moment s ^ 2 / (12 * PI) * (ka (mf_med s) * (2 * kb (mf_med s) / r + (ka (mf_med s) ^ 2 + kb (mf_med s) ^ 2))) * exp (- (2 * kb (mf_med s) * r)).
Definition mf_heat (s : mdip) (r : R) : R :=
  fd_sigma (mf_med s) * (fd_omega (mf_med s) * fd_mu (mf_med s) * mf_moment s) ^ 2 / (12 * PI * r ^ 2) * ((1 + kb (mf_med s) * r) ^ 2 + (ka (mf_med s) * r) ^ 2) * exp (- (2 * kb (mf_med s) * r)).

Lemma mf_flux s e1 e2 e3 r : frame e1 e2 e3 -> 0 < r -> vnorm2 (mf_orient s) = 1 ->
  flux_out e1 e2 e3 (mf_loc s) r (fun q => poynting (mf_E s q) (mf_H s q)) (mf_power s r).
Proof.
  intros Fr H O. pose proof PI_RGT_0.
  set (K := mf_power s r / (4 * PI * r ^ 2) * (3 / 2)).
  replace (mf_power s r) with (4 * PI * r ^ 2 * (K * vnorm2 (mf_orient s) + - K * vnorm2 (mf_orient s) / 3)) by (rewrite O; unfold K; field; split; lra).
  apply flux_quad; [exact Fr|]. intros t p n. assert (N : vnorm2 n = 1) by (apply dir_unit, Fr).
  change (vadd (mf_loc s) (vscal r n)) with (away (mf_loc s) n r). rewrite mf_E_away, mf_H_away, power_normal_m by assumption.
  assert (D : 4 * PI * r ^ 2 <> 0) by (pose proof (pow_lt r 2 H); nra). rewrite i_real by exact D.
  transitivity (K * (vnorm2 (mf_orient s) - vdot n (mf_orient s) ^ 2)); [|ring]. f_equal.
  unfold K, mf_power. rewrite <- ekr_sq. set (k := fd_k (mf_med s)). rewrite (k_eq (mf_med s) : k = _). clear k.
  set (a := ka _). set (b := kb _). destruct (ekr (mf_med s) r) as [x y]. unfold kX, kY. cbn. field. split; lra.
Qed.
Lemma mf_heat_sphere s e1 e2 e3 r : frame e1 e2 e3 -> 0 < r -> vnorm2 (mf_orient s) = 1 ->
  over_sphere e1 e2 e3 (mf_loc s) r (fun q => heating (fd_sigma (mf_med s)) (mf_E s q)) (mf_heat s r).
Proof.
  intros Fr H O. pose proof PI_RGT_0.
  set (K := mf_heat s r / (4 * PI * r ^ 2) * (3 / 2)).
  replace (mf_heat s r) with (4 * PI * r ^ 2 * (K * vnorm2 (mf_orient s) + - K * vnorm2 (mf_orient s) / 3)) by (rewrite O; unfold K; field; split; lra).
  apply sphere_quad; [exact Fr|]. intros t p n. assert (N : vnorm2 n = 1) by (apply dir_unit, Fr).
  change (vadd (mf_loc s) (vscal r n)) with (away (mf_loc s) n r). unfold heating. rewrite mf_E_away, amplitude_cvof by assumption.
  assert (D : 4 * PI * r ^ 2 <> 0) by (pose proof (pow_lt r 2 H); nra). rewrite i_real by exact D.
  rewrite Rpow_mult_distr, !Cmod_mult, !Rpow_mult_distr, X_mod, ekr_mod, Cmod_R, pow2_abs.
  replace (Cmod Ci ^ 2) with 1 by (cbn [pow]; rewrite Rmult_1_r, Cmod_sqr; cbn; ring).
  replace (exp (- (kb (mf_med s) * r)) ^ 2) with (exp (- (2 * kb (mf_med s) * r))) by (cbn [pow]; rewrite Rmult_1_r, <- exp_plus; f_equal; ring).
  replace (vnorm (vcross n (mf_orient s)) ^ 2) with (vnorm2 (mf_orient s) - vdot n (mf_orient s) ^ 2).
  - unfold K, mf_heat. field. split; lra.
  - unfold vnorm. cbn [pow]. rewrite !Rmult_1_r, sqrt_sqrt, vnorm2_cross by (assumption || (unfold vnorm2; nra)). ring.
Qed.
Lemma mf_balance s r1 r2 : 0 < r1 -> r1 <= r2 -> is_RInt (mf_heat s) r1 r2 (mf_power s r1 - mf_power s r2).
Proof.
  intros H1 H2. pose proof PI_RGT_0. replace (mf_power s r1 - mf_power s r2) with (- mf_power s r2 - - mf_power s r1) by ring.
  pose proof (k_ab (mf_med s)) as AB.
  apply (FTC (fun r => - mf_power s r)); [exact H2| |]; intros r Hr.
  - unfold mf_power, mf_heat. set (a := ka _) in *. set (b := kb _) in *. clearbody a b. eapply is_derive_eq; [der; lra|]. cbn [INR Init.Nat.pred].
    set (E := exp _). clearbody E. set (w := fd_omega _) in *. set (mu := fd_mu _) in *. set (sg := fd_sigma _) in *. set (m := mf_moment s). clearbody w mu sg m.
    transitivity ((w * mu * sg) * (w * mu * m ^ 2) / (12 * PI * r ^ 2) * ((1 + b * r) ^ 2 + (a * r) ^ 2) * E); [rewrite <- AB|]; field; split; lra.
  - unfold mf_heat. apply (ex_derive_continuous (fun r => fd_sigma (mf_med s) * (fd_omega (mf_med s) * fd_mu (mf_med s) * mf_moment s) ^ 2 / (12 * PI * r ^ 2) * ((1 + kb (mf_med s) * r) ^ 2 + (ka (mf_med s) * r) ^ 2) * exp (- (2 * kb (mf_med s) * r)))).
    assert (12 * PI * r ^ 2 <> 0) by (pose proof (pow_lt r 2 ltac:(lra)); nra). eexists. der; assumption.
Qed.
