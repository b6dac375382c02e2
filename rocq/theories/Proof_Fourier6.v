(** The transient and the harmonic sources are transforms of one another. *)
From Coq Require Import Reals Lra Lia.
From Coquelicot Require Import Coquelicot.
From Verif Require Import Vec3 Calculus Deriv Integral Cplx CplxTaylor SpecFun Model_Spatial Model_Static Model_TDEM Model_FDEM Spec_TDEM Proof_Static2 Proof_FDEM Proof_TDEM Proof_TDEM3 Cerf Spec_Fourier
  Proof_Fourier Proof_Fourier2 Proof_Fourier3 Proof_Fourier4 Proof_Fourier5.
Open Scope R_scope.

Lemma frq_simple a w e c2 c3 c4 : 0 < a -> frq a w e 0 0 c2 c3 c4 =
  ((RtoC (2 * c2 / a) + RtoC (4 * c3 / a ^ 3) * (RtoC 1 + RtoC a * w) + RtoC (8 * c4 / a ^ 5) * (RtoC 3 + RtoC 3 * (RtoC a * w) + (RtoC a * w) * (RtoC a * w))) * e)%C.
Proof.
  intro Ha. unfold frq. replace (2 * c2 / a) with (c2 * (2 / a)) by (field; lra). replace (4 * c3 / a ^ 3) with (c3 * (4 / a ^ 3)) by (field; lra).
  replace (8 * c4 / a ^ 5) with (c4 * (8 / a ^ 5)) by (field; lra). rewrite !(RtoC_mult _ (_ / _)). unfold Cdiv. ring.
Qed.
Lemma RtoC_0s x : x = 0 -> RtoC x = RtoC 0. Proof. now intros ->. Qed.
Lemma RtoC_s x y : x = y -> RtoC x = RtoC y. Proof. now intros ->. Qed.

Lemma gg_theta t sg mu r : 0 < t -> 0 < sg -> 0 < mu -> exp (- (theta t sg mu * r) ^ 2) = gg (sqrt (mu * sg) * r) t.
Proof. intros Ht Hs Hm. rewrite theta_half, half_root by assumption. reflexivity. Qed.
Lemma ef_theta t sg mu r : 0 < t -> 0 < sg -> 0 < mu -> erf (theta t sg mu * r) = ef (sqrt (mu * sg) * r) t.
Proof. intros Ht Hs Hm. rewrite theta_half by assumption. reflexivity. Qed.
Lemma x_kk a t : 0 < t -> a / (2 * sqrt t) / sqrt PI = a / 2 * kk 0 t.
Proof. intro Ht. pose proof (sqrt_lt_R0 t Ht). pose proof sqrt_PI_pos. unfold kk. cbn [pow]. field. lra. Qed.
Lemma kk_S n t : 0 < t -> kk (S n) t = kk n t / t.
Proof. intro Ht. pose proof (sqrt_lt_R0 t Ht). pose proof sqrt_PI_pos. pose proof (pow_lt t n Ht). unfold kk. cbn [pow]. field. repeat split; lra. Qed.

Section Steps.
  Variables (f sg mu r : R).
  Hypotheses (Hf : 0 < f) (Hs : 0 < sg) (Hm : 0 < mu) (Hr : 0 < r).
  Let a := sqrt (mu * sg) * r.
  Let u := (RtoC a * ww (bf f))%C.
  Let e := wexp (- (a * bf f)).
  Let x t := theta t sg mu * r.
  Lemma a_pos : 0 < a.
  Proof. unfold a. apply Rmult_lt_0_compat; [apply sqrt_lt_R0; nra|exact Hr]. Qed.

  Lemma step_erf h c : (forall t, 0 < t -> h t = c * erf (x t)) -> is_step_off h f (RtoC c * e)%C.
  Proof.
    intro H. pose proof a_pos as Ha. assert (S : is_step_off h f (frq a (ww (bf f)) e 0 0 (c * a / 2 + 0 / 2) (3 * 0 / 2 - 0 * a ^ 2 / 4) (- (0 * a ^ 2 / 4)))).
    { apply tim_step; [exact Ha|exact Hf|]. intros t Ht. rewrite (H t Ht). unfold x. rewrite ef_theta by assumption. fold a. unfold tim. ring. }
    rewrite frq_simple in S by exact Ha.
    rewrite (RtoC_s (2 * (c * a / 2 + 0 / 2) / a) c) in S by (field; lra). rewrite (RtoC_0s (4 * (3 * 0 / 2 - 0 * a ^ 2 / 4) / a ^ 3)) in S by (field; lra).
    rewrite (RtoC_0s (8 * - (0 * a ^ 2 / 4) / a ^ 5)) in S by (field; lra). replace (RtoC c * e)%C with ((RtoC c + RtoC 0 * (RtoC 1 + RtoC a * ww (bf f)) + RtoC 0 * (RtoC 3 + RtoC 3 * (RtoC a * ww (bf f)) + RtoC a * ww (bf f) * (RtoC a * ww (bf f)))) * e)%C by ring. exact S.
  Qed.
  Lemma step_curl h c : (forall t, 0 < t -> h t = c * (erf (x t) - 2 / sqrt PI * x t * exp (- x t ^ 2))) -> is_step_off h f (RtoC c * ((u + RtoC 1) * e))%C.
  Proof.
    intro H. pose proof a_pos as Ha. assert (S : is_step_off h f (frq a (ww (bf f)) e 0 0 (c * a / 2 + (- (c * a)) / 2) (3 * 0 / 2 - (- (c * a)) * a ^ 2 / 4) (- (0 * a ^ 2 / 4)))).
    { apply tim_step; [exact Ha|exact Hf|]. intros t Ht. rewrite (H t Ht). unfold x. rewrite ef_theta, gg_theta by assumption. fold a.
      replace (2 / sqrt PI * (theta t sg mu * r)) with (2 * (theta t sg mu * r / sqrt PI)) by (unfold Rdiv; ring). rewrite theta_half by assumption. fold a. rewrite x_kk by exact Ht. unfold tim. field. }
    rewrite frq_simple in S by exact Ha.
    rewrite (RtoC_0s (2 * (c * a / 2 + (- (c * a)) / 2) / a)) in S by (field; lra). rewrite (RtoC_s (4 * (3 * 0 / 2 - (- (c * a)) * a ^ 2 / 4) / a ^ 3) c) in S by (field; lra).
    rewrite (RtoC_0s (8 * - (0 * a ^ 2 / 4) / a ^ 5)) in S by (field; lra). match type of S with is_step_off _ _ ?L => replace (RtoC c * ((u + RtoC 1) * e))%C with L by (unfold u; ring) end. exact S.
  Qed.
  Lemma step_E h cs co : (forall t, 0 < t -> h t = cs * (3 * erf (x t) - (4 * x t ^ 2 + 6) * (x t / sqrt PI * exp (- x t ^ 2)))
                                              - co * (erf (x t) - (4 * x t ^ 2 + 2) * (x t / sqrt PI * exp (- x t ^ 2)))) ->
    is_step_off h f (RtoC cs * ((u * u + RtoC 3 * u + RtoC 3) * e) - RtoC co * ((u * u + u + RtoC 1) * e))%C.
  Proof.
    intro H. pose proof a_pos as Ha. set (c0 := 3 * cs - co). set (c1 := - 3 * a * cs + a * co). set (c2 := - (a ^ 3 / 2) * (cs - co)).
    assert (S : is_step_off h f (frq a (ww (bf f)) e 0 0 (c0 * a / 2 + c1 / 2) (3 * c2 / 2 - c1 * a ^ 2 / 4) (- (c2 * a ^ 2 / 4)))).
    { apply tim_step; [exact Ha|exact Hf|]. intros t Ht. rewrite (H t Ht). unfold x. rewrite ef_theta, gg_theta by assumption. rewrite theta_half by assumption. fold a.
      rewrite x_kk, half_root by exact Ht. unfold tim. rewrite (kk_S 0) by exact Ht. unfold c0, c1, c2. field. lra. }
    rewrite frq_simple in S by exact Ha.
    rewrite (RtoC_0s (2 * (c0 * a / 2 + c1 / 2) / a)) in S by (unfold c0, c1; field; lra).
    rewrite (RtoC_s (4 * (3 * c2 / 2 - c1 * a ^ 2 / 4) / a ^ 3) (2 * co)) in S by (unfold c1, c2; field; lra).
    rewrite (RtoC_s (8 * - (c2 * a ^ 2 / 4) / a ^ 5) (cs - co)) in S by (unfold c2; field; lra).
    match type of S with is_step_off _ _ ?L => match goal with |- is_step_off _ _ ?M => replace M with L; [exact S|] end end.
    rewrite RtoC_minus, RtoC_mult. unfold u. replace (RtoC 3) with (RtoC 1 + RtoC 2)%C by (rewrite <- RtoC_plus; f_equal; ring).
    replace (RtoC 2) with (RtoC 1 + RtoC 1)%C by (rewrite <- RtoC_plus; f_equal; ring). ring.
  Qed.

  Lemma ikr eps : (Ci * (wavenumber f sg mu eps PyTrue * RtoC r))%C = u.
  Proof. rewrite Cmult_assoc, ik_qs by assumption. unfold u, a. rewrite RtoC_mult. ring. Qed.
  Lemma ikr' eps : (- Ci * wavenumber f sg mu eps PyTrue * RtoC r)%C = (- u)%C.
  Proof. rewrite <- (ikr eps). ring. Qed.
  Lemma exp_u : cexp (- u)%C = e.
  Proof. unfold u, e. apply wexp_ww. Qed.
  Lemma kr2 eps : ((wavenumber f sg mu eps PyTrue * RtoC r) * (wavenumber f sg mu eps PyTrue * RtoC r))%C = (- (u * u))%C.
  Proof. rewrite <- (ikr eps). generalize (wavenumber f sg mu eps PyTrue * RtoC r)%C. intro z. replace (Ci * z * (Ci * z))%C with (Ci * Ci * (z * z))%C by ring. replace (Ci * Ci)%C with (- RtoC 1)%C by (apply C_eq; cbn; ring). ring. Qed.
End Steps.

Section ElectricDipole.
  Variables (s : tedip) (p : vec3) (f eps : R).
  Let sg := td_sigma (te_med s).
  Let mu := td_mu (te_med s).
  Hypotheses (Hf : 0 < f) (Hs : 0 < sg) (Hm : 0 < mu) (Hp : p <> te_loc s).
  Let d := ED (FD f sg mu eps PyTrue) (te_current s) (te_length s) (te_orient s) (te_loc s).
  Let r := vnorm (vsub p (te_loc s)).
  Lemma rp : 0 < r. Proof. apply vnorm_pos, vsub_nz, Hp. Qed.

  Lemma ed_A_step : is_vstep_off (fun t => te_A (te_at s t) p) f (ed_A d p).
  Proof.
    pose proof rp as Hr. unfold ed_A, d, fd_k. cbn [ed_med ed_current ed_length ed_orient ed_loc fd_freq fd_sigma fd_mu fd_eps fd_qs]. fold r.
    rewrite ikr', exp_u by assumption. split; [|split]; cbn [cvof cvx cvy cvz];
      match goal with |- is_step_off _ _ (?A * ?B * RtoC ?c)%C => replace (A * B * RtoC c)%C with (RtoC (te_current s * te_length s / (4 * PI * r) * c) * B)%C by (rewrite (RtoC_mult _ c); ring) end;
      (apply step_erf; [assumption..|]); intros t Ht; unfold te_A, te_at, td_theta; cbn [te_med te_current te_length te_orient te_loc at_time td_time td_sigma td_mu vscal vx vy vz]; fold r sg mu; ring.
  Qed.
  Lemma ed_H_step : is_vstep_off (fun t => te_H (te_at s t) p) f (ed_H d p).
  Proof.
    pose proof rp as Hr. unfold ed_H, d, fd_k. cbn [ed_med ed_current ed_length ed_orient ed_loc fd_freq fd_sigma fd_mu fd_eps fd_qs]. fold r.
    rewrite ikr, exp_u by assumption. split; [|split]; cbn [cvof cvx cvy cvz];
      match goal with |- is_step_off _ _ (?A * ?B * ?E * RtoC ?c)%C => replace (A * B * E * RtoC c)%C with (RtoC (te_current s * te_length s / (4 * PI * r ^ 2) * c) * (B * E))%C by (rewrite (RtoC_mult _ c); ring) end;
      (apply step_curl; [assumption..|]); intros t Ht; unfold te_H, te_at, td_theta; cbn [te_med te_current te_length te_orient te_loc at_time td_time td_sigma td_mu vscal vx vy vz]; fold r sg mu; ring.
  Qed.
  Lemma step_scal m h H : is_step_off h f H -> is_step_off (fun t => m * h t) f (RtoC m * H)%C.
  Proof.
    intros [D F]. split; [intros t Ht; apply ex_derive_scal, D, Ht|]. unfold is_fourier in *. eapply cint_ext; [|exact (cint_scal (RtoC m) _ _ F)].
    intros t Ht. cbv beta. replace (Derive (fun t0 => m * h t0) t) with (m * Derive h t) by (symmetry; apply Derive_scal). rewrite !RtoC_opp, (RtoC_mult m). ring.
  Qed.
  Lemma vstep_scal m (h : R -> vec3) H : is_vstep_off h f H -> is_vstep_off (fun t => vscal m (h t)) f (cvscal (RtoC m) H).
  Proof. intros (A & B & D). split; [|split]; cbn [vscal vx vy vz cvscal cvx cvy cvz]; apply step_scal; assumption. Qed.
  Lemma ed_B_step : is_vstep_off (fun t => te_B (te_at s t) p) f (ed_B d p).
  Proof. exact (vstep_scal mu _ _ ed_H_step). Qed.
  Lemma ed_E_step : is_vstep_off (fun t => te_E (te_at s t) p) f (ed_E d p).
  Proof.
    pose proof rp as Hr. pose proof PI_RGT_0. unfold ed_E, d, fd_k, dipole_terms. cbn [ed_med ed_current ed_length ed_orient ed_loc fd_freq fd_sigma fd_mu fd_eps fd_qs]. fold r.
    cbn [cpow]. set (kr := (wavenumber f sg mu eps PyTrue * RtoC r)%C).
    replace (kr * (kr * RtoC 1))%C with (kr * kr)%C by ring. unfold kr. rewrite !ikr, kr2, exp_u by assumption.
    set (rh := vdiv (vsub p (te_loc s)) r). set (o := te_orient s).
    assert (K : forall c1 c2, let u := (RtoC (sqrt (mu * sg) * r) * ww (bf f))%C in let e := wexp (- (sqrt (mu * sg) * r * bf f)) in
      is_step_off (fun t => te_current s * te_length s / (4 * PI * sg * r ^ 3) * ((3 * erf (theta t sg mu * r) - (4 * (theta t sg mu * r) ^ 2 + 6) * (theta t sg mu * r / sqrt PI * exp (- (theta t sg mu * r) ^ 2))) * (vdot rh o * c1)
        - (erf (theta t sg mu * r) - (4 * (theta t sg mu * r) ^ 2 + 2) * (theta t sg mu * r / sqrt PI * exp (- (theta t sg mu * r) ^ 2))) * c2)) f
      (RtoC (te_current s * te_length s / (4 * PI * sg * r ^ 3)) * e * (RtoC (vdot rh o) * (- - (u * u) + RtoC 3 * u + RtoC 3) * RtoC c1 + (- (u * u) - u - RtoC 1) * RtoC c2))%C).
    { intros c1 c2 u e. set (q := te_current s * te_length s / (4 * PI * sg * r ^ 3)).
      match goal with |- is_step_off _ _ ?M => replace M with (RtoC (q * vdot rh o * c1) * ((u * u + RtoC 3 * u + RtoC 3) * e) - RtoC (q * c2) * ((u * u + u + RtoC 1) * e))%C by (rewrite !RtoC_mult; ring) end.
      apply step_E; [assumption..|]. intros t Ht. ring. }
    cbv zeta in K. unfold te_E, te_at, td_theta. split; [|split]; cbn [cvof cvx cvy cvz cvscal cvadd te_med te_current te_length te_orient te_loc at_time td_time td_sigma td_mu vscal vsub vx vy vz]; fold r sg mu;
      fold (vsub p (te_loc s)); fold r rh o; [apply (K (vx rh) (vx o))|apply (K (vy rh) (vy o))|apply (K (vz rh) (vz o))].
  Qed.
  Lemma ed_J_step : is_vstep_off (fun t => te_J (te_at s t) p) f (ed_J d p).
  Proof. exact (vstep_scal sg _ _ ed_E_step). Qed.
End ElectricDipole.
