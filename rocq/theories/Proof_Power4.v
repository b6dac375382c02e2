(** Attenuation and power of the harmonic dipoles and of the plane wave, concluded. *)
From Coq Require Import Reals Lra Lia.
From Coquelicot Require Import Coquelicot.
From Verif Require Import Vec3 Calculus Deriv Integral Cplx Numpy Model_Static Model_FDEM Spec_Flux Spec_Power Proof_Flux Proof_FDEM Proof_FDEM2 Proof_FDEM3 Proof_FDEM8 Proof_Power Proof_Power2 Proof_Power3.
Open Scope R_scope.

Lemma mf_power_pos s r : physical (mf_med s) -> mf_moment s <> 0 -> 0 < r -> 0 < mf_power s r.
Proof.
  intros P M H. destruct (k_pos _ P) as [A B]. destruct P as (F & S & U). pose proof PI_RGT_0. unfold mf_power.
  pose proof (omega_pos _ F) as W. fold (fd_omega (mf_med s)) in W.
  apply Rmult_lt_0_compat; [|apply exp_pos]. apply Rmult_lt_0_compat.
  - apply Rdiv_lt_0_compat; [|lra]. apply Rmult_lt_0_compat; [nra|]. apply pow2_gt_0, M.
  - apply Rmult_lt_0_compat; [exact A|]. apply Rplus_lt_0_compat; [apply Rdiv_lt_0_compat; lra|nra].
Qed.
Lemma mf_power_falls s r1 r2 : physical (mf_med s) -> mf_moment s <> 0 -> 0 < r1 -> r1 < r2 ->
  mf_power s r2 < exp (- (2 * kb (mf_med s) * (r2 - r1))) * mf_power s r1.
Proof.
  intros P M H L. destruct (k_pos _ P) as [A B]. destruct P as (F & S & U). pose proof PI_RGT_0. unfold mf_power.
  pose proof (omega_pos _ F) as W. fold (fd_omega (mf_med s)) in W.
  replace (exp (- (2 * kb (mf_med s) * r2))) with (exp (- (2 * kb (mf_med s) * (r2 - r1))) * exp (- (2 * kb (mf_med s) * r1))) by (rewrite <- exp_plus; f_equal; ring).
  set (e := exp (- (2 * kb (mf_med s) * (r2 - r1)))). set (g := exp (- (2 * kb (mf_med s) * r1))). assert (0 < e) by apply exp_pos. assert (0 < g) by apply exp_pos. clearbody e g.
  set (c := fd_omega (mf_med s) * fd_mu (mf_med s) * mf_moment s ^ 2 / (12 * PI)).
  assert (C0 : 0 < c). { apply Rdiv_lt_0_compat; [|lra]. apply Rmult_lt_0_compat; [nra|]. apply pow2_gt_0, M. } clearbody c.
  set (a := ka _) in *. set (b := kb _) in *. clearbody a b.
  replace (c * (a * (2 * b / r2 + (a ^ 2 + b ^ 2))) * (e * g)) with (c * a * e * g * (2 * b * / r2 + (a ^ 2 + b ^ 2))) by (unfold Rdiv; ring).
  replace (e * (c * (a * (2 * b / r1 + (a ^ 2 + b ^ 2))) * g)) with (c * a * e * g * (2 * b * / r1 + (a ^ 2 + b ^ 2))) by (unfold Rdiv; ring).
  apply Rmult_lt_compat_l; [repeat apply Rmult_lt_0_compat; assumption|]. apply Rplus_lt_compat_r. apply Rmult_lt_compat_l; [lra|].
  apply Rinv_lt_contravar; [nra|exact L].
Qed.

(** ** The electric dipole, quasistatic *)
Definition ed_power (s : edip) (r : R) : R :=
  let x := kb (ed_med s) * r in
  (ed_current s * ed_length s) ^ 2 / (12 * PI * fd_sigma (ed_med s) * r ^ 3) * (1 + 2 * x + 2 * x ^ 2 + 2 * x ^ 3) * exp (- (2 * x)).
Definition ed_heat (s : edip) (r : R) : R :=
  let x := kb (ed_med s) * r in
  (ed_current s * ed_length s) ^ 2 / (12 * PI * fd_sigma (ed_med s) * r ^ 4) * (3 + 6 * x + 6 * x ^ 2 + 4 * x ^ 3 + 4 * x ^ 4) * exp (- (2 * x)).

Lemma ed_flux s e1 e2 e3 r : frame e1 e2 e3 -> 0 < r -> vnorm2 (ed_orient s) = 1 -> physical (ed_med s) -> is_True (fd_qs (ed_med s)) = true ->
  flux_out e1 e2 e3 (ed_loc s) r (fun q => poynting (ed_E s q) (ed_H s q)) (ed_power s r).
Proof.
  intros Fr H O P Q. pose proof PI_RGT_0. destruct (k_quasi _ P Q) as [AB _]. destruct P as (F & S & M).
  set (K := ed_power s r / (4 * PI * r ^ 2) * (3 / 2)).
  replace (ed_power s r) with (4 * PI * r ^ 2 * (K * vnorm2 (ed_orient s) + - K * vnorm2 (ed_orient s) / 3)) by (rewrite O; unfold K; field; split; lra).
  apply flux_quad; [exact Fr|]. intros t p n. assert (N : vnorm2 n = 1) by (apply dir_unit, Fr).
  change (vadd (ed_loc s) (vscal r n)) with (away (ed_loc s) n r). rewrite ed_E_away, ed_H_away, power_normal_e by assumption.
  transitivity (K * (vnorm2 (ed_orient s) - vdot n (ed_orient s) ^ 2)); [|ring]. f_equal.
  unfold K, ed_power. cbv zeta. replace (2 * (kb (ed_med s) * r)) with (2 * kb (ed_med s) * r) by ring. rewrite <- ekr_sq. set (k := fd_k (ed_med s)). rewrite (k_eq (ed_med s) : k = _). clear k. rewrite AB.
  set (b := kb _). destruct (ekr (ed_med s) r) as [x y]. unfold kX, kY. cbn. field. repeat split; lra.
Qed.
Lemma ed_heat_sphere s e1 e2 e3 r : frame e1 e2 e3 -> 0 < r -> vnorm2 (ed_orient s) = 1 -> physical (ed_med s) -> is_True (fd_qs (ed_med s)) = true ->
  over_sphere e1 e2 e3 (ed_loc s) r (fun q => heating (fd_sigma (ed_med s)) (ed_E s q)) (ed_heat s r).
Proof.
  intros Fr H O P Q. pose proof PI_RGT_0. destruct (k_quasi _ P Q) as [AB _]. destruct P as (F & S & M).
  set (b := kb (ed_med s)) in *. set (x := b * r).
  set (c := (ed_current s * ed_length s) ^ 2 / (32 * PI ^ 2 * fd_sigma (ed_med s) * r ^ 6) * exp (- (2 * x))).
  set (X := 1 + 2 * x + 2 * x ^ 2). set (Y := 1 + 2 * x + 2 * x ^ 2 + 4 * x ^ 3 + 4 * x ^ 4).
  assert (r ^ 6 <> 0) by (apply pow_nonzero; lra).
  replace (ed_heat s r) with (4 * PI * r ^ 2 * (c * Y * vnorm2 (ed_orient s) + c * (4 * X - Y) * vnorm2 (ed_orient s) / 3)).
  2:{ rewrite O. unfold c, X, Y, ed_heat. cbv zeta. fold b. fold x. set (E := exp _). clearbody E x. field. repeat split; lra. }
  apply sphere_quad; [exact Fr|]. intros t p n. assert (N : vnorm2 n = 1) by (apply dir_unit, Fr).
  change (vadd (ed_loc s) (vscal r n)) with (away (ed_loc s) n r). unfold heating. rewrite ed_E_away, amplitude_terms by assumption.
  rewrite Cmod_mult, Rpow_mult_distr, Cmod_R, pow2_abs, X_mod, Y_mod, ekr_mod, AB. fold b.
  replace (exp (- (b * r)) ^ 2) with (exp (- (2 * x))) by (cbn [pow]; rewrite Rmult_1_r, <- exp_plus; f_equal; unfold x; ring).
  unfold c. set (E := exp _). clearbody E. set (q := vdot n _). set (o := vnorm2 _). clearbody q o. unfold X, Y, x. field. repeat split; lra.
Qed.
Lemma ed_balance s r1 r2 : fd_sigma (ed_med s) <> 0 -> 0 < r1 -> r1 <= r2 -> is_RInt (ed_heat s) r1 r2 (ed_power s r1 - ed_power s r2).
Proof.
  intros S H1 H2. pose proof PI_RGT_0. replace (ed_power s r1 - ed_power s r2) with (- ed_power s r2 - - ed_power s r1) by ring.
  apply (FTC (fun r => - ed_power s r)); [exact H2| |]; intros r Hr.
  - unfold ed_power, ed_heat. cbv zeta. set (b := kb _). clearbody b. set (sg := fd_sigma _) in *. clearbody sg.
    assert (12 * PI * sg * r ^ 3 <> 0) by (assert (Z : 0 < 12 * PI * r ^ 3) by (pose proof (pow_lt r 3 ltac:(lra)); nra); replace (12 * PI * sg * r ^ 3) with (12 * PI * r ^ 3 * sg) by ring; apply Rmult_integral_contrapositive_currified; [lra|assumption]).
    eapply is_derive_eq; [der; assumption|]. cbn [INR Init.Nat.pred].
    set (E := exp _). clearbody E. field. repeat split; (assumption || lra).
  - unfold ed_heat. cbv zeta. set (b := kb _). clearbody b. set (sg := fd_sigma _) in *. clearbody sg.
    assert (12 * PI * sg * r ^ 4 <> 0) by (assert (Z : 0 < 12 * PI * r ^ 4) by (pose proof (pow_lt r 4 ltac:(lra)); nra); replace (12 * PI * sg * r ^ 4) with (12 * PI * r ^ 4 * sg) by ring; apply Rmult_integral_contrapositive_currified; [lra|assumption]).
    match goal with |- continuous ?f _ => apply (ex_derive_continuous f) end. eexists. der; assumption.
Qed.
Lemma ed_power_pos s r : physical (ed_med s) -> ed_current s * ed_length s <> 0 -> 0 < r -> 0 < ed_power s r.
Proof.
  intros P M H. destruct (k_pos _ P) as [A B]. destruct P as (F & S & U). pose proof PI_RGT_0. unfold ed_power. cbv zeta.
  set (x := kb (ed_med s) * r). assert (0 < x) by (unfold x; nra). pose proof (pow_lt r 3 H). pose proof (pow_lt x 3 ltac:(assumption)). pose proof (pow_lt x 2 ltac:(assumption)).
  apply Rmult_lt_0_compat; [|apply exp_pos]. apply Rmult_lt_0_compat; [|lra]. apply Rdiv_lt_0_compat; [apply pow2_gt_0, M|].
  apply Rmult_lt_0_compat; [nra|assumption].
Qed.
Lemma ed_power_falls s r1 r2 : physical (ed_med s) -> ed_current s * ed_length s <> 0 -> 0 < r1 -> r1 < r2 ->
  ed_power s r2 < exp (- (2 * kb (ed_med s) * (r2 - r1))) * ed_power s r1.
Proof.
  intros P M H L. destruct (k_pos _ P) as [A B]. destruct P as (F & S & U). pose proof PI_RGT_0. unfold ed_power. cbv zeta.
  set (b := kb (ed_med s)) in *. clearbody b.
  replace (exp (- (2 * (b * r2)))) with (exp (- (2 * b * (r2 - r1))) * exp (- (2 * (b * r1)))) by (rewrite <- exp_plus; f_equal; ring).
  set (e := exp (- (2 * b * (r2 - r1)))). set (g := exp (- (2 * (b * r1)))). assert (0 < e) by apply exp_pos. assert (0 < g) by apply exp_pos. clearbody e g.
  set (c := (ed_current s * ed_length s) ^ 2 / (12 * PI * fd_sigma (ed_med s))).
  assert (C0 : 0 < c). { apply Rdiv_lt_0_compat; [apply pow2_gt_0, M|]. nra. }
  replace ((ed_current s * ed_length s) ^ 2 / (12 * PI * fd_sigma (ed_med s) * r2 ^ 3) * (1 + 2 * (b * r2) + 2 * (b * r2) ^ 2 + 2 * (b * r2) ^ 3) * (e * g))
    with (c * e * g * ((/ r2) ^ 3 + 2 * b * (/ r2) ^ 2 + 2 * b ^ 2 * / r2 + 2 * b ^ 3)) by (unfold c; field; repeat split; lra).
  replace (e * ((ed_current s * ed_length s) ^ 2 / (12 * PI * fd_sigma (ed_med s) * r1 ^ 3) * (1 + 2 * (b * r1) + 2 * (b * r1) ^ 2 + 2 * (b * r1) ^ 3) * g))
    with (c * e * g * ((/ r1) ^ 3 + 2 * b * (/ r1) ^ 2 + 2 * b ^ 2 * / r1 + 2 * b ^ 3)) by (unfold c; field; repeat split; lra).
  clearbody c. apply Rmult_lt_compat_l; [repeat apply Rmult_lt_0_compat; assumption|]. apply Rplus_lt_compat_r.
  assert (I : / r2 < / r1) by (apply Rinv_lt_contravar; [nra|exact L]). assert (J : 0 < / r2) by (apply Rinv_0_lt_compat; lra).
  pose proof (pow_incr (/ r2) (/ r1) 3 ltac:(lra)). pose proof (pow_incr (/ r2) (/ r1) 2 ltac:(lra)).
  assert (0 < b ^ 2) by nra. nra.
Qed.

(** ** Poynting's theorem at a point *)
Lemma cvscal_mul c d v : cvscal c (cvscal d v) = cvscal (c * d)%C v.
Proof. apply cvec_eq; cbn [cvx cvy cvz cvscal]; ring. Qed.
Lemma mf_absorbs s p : p <> mf_loc s -> is_div (fun q => poynting (mf_E s q) (mf_H s q)) p (- heating (fd_sigma (mf_med s)) (mf_E s p)).
Proof.
  intro N. destruct (mf_maxwell s p N) as (E & H & _ & B & _). rewrite B, cvscal_mul in E. pose proof (poynting_theorem _ _ _ _ _ E H) as D.
  match type of D with is_div _ _ ?v => match goal with |- is_div _ _ ?u => replace u with v; [exact D|] end end.
  unfold heating. destruct (is_True (fd_qs (mf_med s))); cbn; field.
Qed.
Lemma pw_absorbs s p : 0 < fd_freq (pw_med s) -> 0 < fd_mu (pw_med s) -> vz (pw_orient s) = 0 ->
  is_div (fun q => poynting (pw_E s q) (pw_H s q)) p (- heating (fd_sigma (pw_med s)) (pw_E s p)).
Proof.
  intros F M Z. destruct (pw_maxwell s p F M Z) as (E & H & B & _). rewrite B, cvscal_mul in E. pose proof (poynting_theorem _ _ _ _ _ E H) as D.
  match type of D with is_div _ _ ?v => match goal with |- is_div _ _ ?u => replace u with v; [exact D|] end end.
  unfold heating. destruct (is_True (fd_qs (pw_med s))); cbn; field.
Qed.
Lemma ed_creates s p : fd_sigma (ed_med s) <> 0 -> p <> ed_loc s ->
  let extra := if is_True (fd_qs (ed_med s)) then 0 else (2 * PI * fd_freq (ed_med s)) ^ 2 * fd_mu (ed_med s) * fd_eps (ed_med s) / fd_sigma (ed_med s) * amplitude (ed_H s p) ^ 2 / 2 in
  is_div (fun q => poynting (ed_E s q) (ed_H s q)) p (extra - heating (fd_sigma (ed_med s)) (ed_E s p)).
Proof.
  intros S N extra. destruct (ed_maxwell_general s p S N) as (_ & H & E & _). pose proof (poynting_theorem _ _ _ _ _ E H) as D.
  match type of D with is_div _ _ ?v => match goal with |- is_div _ _ ?u => replace u with v; [exact D|] end end.
  unfold heating, extra. destruct (is_True (fd_qs (ed_med s))); cbn; field; nra.
Qed.
Lemma ed_absorbs s p : fd_sigma (ed_med s) <> 0 -> p <> ed_loc s -> is_True (fd_qs (ed_med s)) = true ->
  is_div (fun q => poynting (ed_E s q) (ed_H s q)) p (- heating (fd_sigma (ed_med s)) (ed_E s p)).
Proof. intros S N Q. pose proof (ed_creates s p S N) as D. cbv zeta in D. rewrite Q in D. now rewrite Rminus_0_l in D. Qed.
Lemma amplitude_pos F : F <> cvzero -> 0 < amplitude F.
Proof.
  intro N. apply sqrt_lt_R0. destruct F as [[a b] [c d] [e f]]. unfold vnorm2. cbn.
  destruct (Rle_lt_dec (a * a + c * c + e * e + (b * b + d * d + f * f)) 0) as [L|L]; [|lra]. exfalso. apply N.
  assert (a = 0) by nra. assert (b = 0) by nra. assert (c = 0) by nra. assert (d = 0) by nra. assert (e = 0) by nra. assert (f = 0) by nra. subst. reflexivity.
Qed.
Lemma ed_not_absorbed s p : physical (ed_med s) -> 0 < fd_eps (ed_med s) -> is_True (fd_qs (ed_med s)) = false -> ed_H s p <> cvzero -> p <> ed_loc s ->
  ~ is_div (fun q => poynting (ed_E s q) (ed_H s q)) p (- heating (fd_sigma (ed_med s)) (ed_E s p)).
Proof.
  intros (F & S & M) E Q NH N D. pose proof (ed_creates s p ltac:(lra) N) as D'. cbv zeta in D'. rewrite Q in D'.
  pose proof (is_div_unique _ _ _ _ D D') as X. pose proof (amplitude_pos _ NH) as A. pose proof PI_RGT_0.
  assert (0 < (2 * PI * fd_freq (ed_med s)) ^ 2 * fd_mu (ed_med s) * fd_eps (ed_med s) / fd_sigma (ed_med s) * amplitude (ed_H s p) ^ 2 / 2); [|lra].
  apply Rdiv_lt_0_compat; [|lra]. apply Rmult_lt_0_compat; [|apply pow_lt, A]. apply Rdiv_lt_0_compat; [|exact S].
  assert (0 < (2 * PI * fd_freq (ed_med s)) ^ 2) by (apply pow_lt; nra). apply Rmult_lt_0_compat; [apply Rmult_lt_0_compat|]; assumption.
Qed.
(** ** The plane wave *)
Lemma pw_flow s p : 0 < fd_freq (pw_med s) -> 0 < fd_mu (pw_med s) -> vz (pw_orient s) = 0 ->
  poynting (pw_E s p) (pw_H s p) = V3 0 0 (- (ka (pw_med s) / (2 * (2 * PI * fd_freq (pw_med s)) * fd_mu (pw_med s)) * amplitude (pw_E s p) ^ 2)).
Proof.
  intros F M Z. rewrite amplitude_sq. pose proof PI_RGT_0. pose proof (omega_pos _ F) as W. unfold pw_H, pw_B, pw_E. cbv zeta.
  replace (Ci * (fd_k (pw_med s) * RtoC (vz p)))%C with (Ci * fd_k (pw_med s) * RtoC (vz p))%C by ring. set (e := cexp _). clearbody e.
  set (k := fd_k (pw_med s)). rewrite (k_eq (pw_med s) : k = _). clear k. unfold fd_omega. set (a := ka _). set (b := kb _). clearbody a b.
  change (2 * PI * fd_freq (pw_med s)) with (omega (fd_freq (pw_med s))). set (w := omega _) in *. clearbody w.
  set (m := fd_mu _) in *. clearbody m. set (A := pw_amp s). clearbody A. destruct (pw_orient s) as [x y z]. cbn in Z. subst z. destruct e as [e1 e2].
  unfold vnorm2. apply vec3_eq; cbn; field; split; lra.
Qed.
