(** The building blocks of the transient responses, their transforms and their time derivatives. *)
From Coq Require Import Reals Lra Lia.
From Coquelicot Require Import Coquelicot.
From Verif Require Import Vec3 Calculus Deriv Integral Cplx CplxTaylor SpecFun Model_TDEM Model_FDEM Proof_FDEM Cerf Spec_Fourier
  Proof_Fourier Proof_Fourier2 Proof_Fourier3 Proof_Fourier4.
Open Scope R_scope.

Definition ef (a t : R) : R := erf (a / (2 * sqrt t)).
Definition gg (a t : R) : R := exp (- (a ^ 2 / (4 * t))).
Definition ee (b t : R) : C := cexp (- Ci * RtoC (2 * b ^ 2 * t))%C.

Lemma half_root a t : 0 < t -> (a / (2 * sqrt t)) ^ 2 = a ^ 2 / (4 * t).
Proof.
  intro Ht. pose proof (sqrt_lt_R0 t Ht) as Hs. assert (Hss : sqrt t * sqrt t = t) by (apply sqrt_sqrt; lra).
  generalize dependent (sqrt t). intros u Hu Hss. subst t. field. lra.
Qed.
Lemma D_ef a t : 0 < t -> is_derive (ef a) t (- (a / 2) * (kk 1 t * gg a t)).
Proof.
  intro Ht. pose proof (sqrt_lt_R0 t Ht) as Hs. assert (Hss : sqrt t * sqrt t = t) by (apply sqrt_sqrt; lra). pose proof sqrt_PI_pos.
  unfold ef. eapply is_derive_eq.
  - apply D_erf_comp. apply D_div; [apply D_const|apply D_scal, D_sqrt; [apply D_id|exact Ht]|lra].
  - rchg. rewrite half_root by exact Ht. unfold gg. generalize (exp (- (a ^ 2 / (4 * t)))). intro X. unfold kk. cbn [pow].
    generalize dependent (sqrt t). intros u Hu Hss. subst t. field. lra.
Qed.
Lemma D_gg a t : 0 < t -> is_derive (gg a) t (a ^ 2 / (4 * t ^ 2) * gg a t).
Proof.
  intro Ht. unfold gg. eapply is_derive_eq.
  - apply D_exp, D_opp. apply D_div; [apply D_const|apply D_scal, D_id|lra].
  - rchg. field. lra.
Qed.
Lemma D_kg n a t : 0 < t -> is_derive (fun t => kk n t * gg a t) t (- (INR n + / 2) * (kk (S n) t * gg a t) + a ^ 2 / 4 * (kk (S (S n)) t * gg a t)).
Proof.
  intro Ht. pose proof (sqrt_lt_R0 t Ht) as Hs. pose proof sqrt_PI_pos. pose proof (pow_lt t n Ht) as Hn.
  eapply is_derive_eq; [apply D_mult; [apply D_kk, Ht|apply D_gg, Ht]|]. rchg.
  replace (kk (S (S n)) t) with (/ t ^ 2 * kk n t) by (unfold kk; cbn [pow]; field; repeat split; lra). field. lra.
Qed.

(** ** the transform of the error function *)
Lemma erf_lin x : 0 <= x -> 0 <= erf x <= 2 * x.
Proof.
  intro Hx. pose proof root_pi_1 as P1. pose proof sqrt_PI_pos as P0.
  destruct (Req_dec x 0) as [-> |N]; [rewrite erf_0; lra|].
  destruct (MVT_gen erf 0 x (fun x => 2 / sqrt PI * exp (- x ^ 2))) as (c & Hc & E).
  - intros y _. apply D_erf.
  - intros y _. apply continuity_pt_filterlim. apply (ex_derive_continuous erf). eexists. apply D_erf.
  - rewrite erf_0 in E. assert (0 < exp (- c ^ 2) <= 1).
    { split; [apply exp_pos|]. rewrite <- exp_0. destruct (Req_dec c 0) as [-> |Nc]; [apply Req_le; f_equal; ring|left; apply exp_increasing; nra]. }
    assert (0 < / sqrt PI <= 1) by (split; [apply Rinv_0_lt_compat, P0|rewrite <- Rinv_1; apply Rinv_le_contravar; lra]).
    replace (erf x) with (2 * (/ sqrt PI) * exp (- c ^ 2) * x) by (unfold Rdiv in E; lra).
    split; [|assert (/ sqrt PI * exp (- c ^ 2) <= 1) by nra; nra]. apply Rmult_le_pos; [|exact Hx]. apply Rmult_le_pos; nra.
Qed.
Lemma erf_one x : 0 < x -> 0 <= 1 - erf x <= 4 / x ^ 2.
Proof.
  intro Hx. pose proof (erf_near_1 x Hx). pose proof (erf_lt_1 x). split; [lra|].
  pose proof PI_RGT_0. assert (P3 : 1 <= PI) by (pose proof PI_4; pose proof PI2_1; lra).
  pose proof (exp_inv (x ^ 2) ltac:(nra)) as E. pose proof (exp_pos (- x ^ 2)).
  assert (0 < 4 / PI <= 4). { split; [apply Rdiv_lt_0_compat; lra|]. apply Rmult_le_reg_r with PI; [lra|]. unfold Rdiv. rewrite Rmult_assoc, Rinv_l by lra. lra. }
  unfold Rdiv at 1. apply Rle_trans with (4 / PI * exp (- x ^ 2)); [lra|]. apply Rmult_le_compat; lra.
Qed.
Lemma CD_ee b t : is_cderive (ee b) t (- (Ci * RtoC (2 * b ^ 2)) * ee b t)%C.
Proof.
  unfold ee. eapply is_cderive_eq; [apply CD_exp; apply CD_scal; apply CD_real; apply D_scal, D_id|]. cbv beta.
  replace (2 * b ^ 2 * 1) with (2 * b ^ 2) by ring. ring.
Qed.
Lemma Cmod_ee b t : Cmod (ee b t) = 1.
Proof.
  unfold ee. rewrite Cmod_cexp. replace (Re (- Ci * RtoC (2 * b ^ 2 * t))%C) with 0 by (cbn; ring). apply exp_0.
Qed.
Lemma ee_0 b : clim (at_right 0) (ee b) (RtoC 1).
Proof.
  assert (E0 : ee b 0 = RtoC 1) by (unfold ee; replace (- Ci * RtoC (2 * b ^ 2 * 0))%C with (RtoC 0) by (apply C_eq; cbn; ring); apply cexp_0).
  destruct (CD_ee b 0) as [D1 D2]. rewrite <- E0. split.
  - apply (filterlim_filter_le_1 (fun t => Re (ee b t)) (filter_le_within (F := locally 0) (fun u => 0 < u))). apply (ex_derive_continuous (fun t => Re (ee b t))). eexists. exact D1.
  - apply (filterlim_filter_le_1 (fun t => Im (ee b t)) (filter_le_within (F := locally 0) (fun u => 0 < u))). apply (ex_derive_continuous (fun t => Im (ee b t))). eexists. exact D2.
Qed.
Lemma ef_ee_0 a b : 0 < a -> clim (at_right 0) (fun t => RtoC (ef a t) * ee b t)%C (RtoC 1).
Proof.
  intro Ha. apply clim_ext with (fun t => (RtoC (ef a t) - RtoC 1) * ee b t + ee b t)%C; [apply at_right_proper_filter|apply filter_forall; intro t; ring|].
  replace (clim (at_right 0) (fun t => (RtoC (ef a t) - RtoC 1) * ee b t + ee b t)%C (RtoC 1)) with (clim (at_right 0) (fun t => (RtoC (ef a t) - RtoC 1) * ee b t + ee b t)%C (RtoC 0 + RtoC 1)%C) by (f_equal; ring). apply clim_plus; [apply at_right_proper_filter| |apply ee_0].
  apply (clim_0_small _ _ (16 / a ^ 2) 1); [left; apply Rdiv_lt_0_compat; nra|lra|]. intros t Ht.
  replace ((RtoC (ef a t) - RtoC 1) * ee b t - RtoC 0)%C with (RtoC (ef a t - 1) * ee b t)%C by (rewrite RtoC_minus; ring).
  rewrite Cmod_mult, Cmod_ee, Cmod_R, Rmult_1_r. pose proof (sqrt_lt_R0 t ltac:(lra)) as Hs.
  assert (X : 0 < a / (2 * sqrt t)) by (apply Rdiv_lt_0_compat; lra).
  pose proof (erf_one _ X) as Q. rewrite half_root in Q by lra. fold (ef a t) in Q. rewrite Rabs_left1 by lra.
  apply Rle_trans with (16 / a ^ 2 * t); [replace (16 / a ^ 2 * t) with (4 / (a ^ 2 / (4 * t))) by (field; lra); lra|].
  apply Rmult_le_compat_l; [left; apply Rdiv_lt_0_compat; nra|]. assert (Hss : sqrt t * sqrt t = t) by (apply sqrt_sqrt; lra).
  assert (sqrt t <= 1) by (rewrite <- sqrt_1; apply sqrt_le_1; lra). nra.
Qed.
Lemma ef_ee_inf a b : 0 < a -> clim inf (fun t => RtoC (ef a t) * ee b t)%C (RtoC 0).
Proof.
  intro Ha. apply (clim_inf _ _ a 0); [lra|]. intros t Ht _. replace (RtoC (ef a t) * ee b t - RtoC 0)%C with (RtoC (ef a t) * ee b t)%C by ring.
  rewrite Cmod_mult, Cmod_ee, Cmod_R, Rmult_1_r. pose proof (sqrt_lt_R0 t ltac:(lra)) as Hs.
  assert (X : 0 < a / (2 * sqrt t)) by (apply Rdiv_lt_0_compat; lra). pose proof (erf_lin _ (Rlt_le _ _ X)) as Q. fold (ef a t) in Q.
  rewrite Rabs_pos_eq by lra. replace (a / sqrt t) with (2 * (a / (2 * sqrt t))) by (field; lra). lra.
Qed.

Lemma int_erf a b : 0 < a -> 0 < b -> is_cint (fun t => RtoC (ef a t) * ee b t)%C ((RtoC 1 - wexp (- (a * b))) / (ww b * ww b))%C.
Proof.
  intros Ha Hb. pose proof (ww_neq b ltac:(lra)) as Nw. assert (N2 : RtoC 2 <> RtoC 0) by (apply RtoC_neq; lra).
  set (c := (- / (ww b * ww b))%C).
  assert (L0 : clim (at_right 0) (fun t => RtoC (ef a t) * ee b t + RtoC (/ 2) * Phi (RtoC 1) a b t)%C (RtoC 1 + RtoC (/ 2) * RtoC 0)%C).
  { apply clim_plus; [apply at_right_proper_filter|now apply ef_ee_0|]. apply clim_scal; [apply at_right_proper_filter|].
    replace (RtoC 0) with (wexp (a * b)%R * RtoC 0 + RtoC 1 * (wexp (a * - b)%R * RtoC 0))%C by ring.
    unfold Phi. apply clim_plus; [apply at_right_proper_filter|apply clim_scal, E1_0; [apply at_right_proper_filter|lra|lra]|].
    apply clim_scal; [apply at_right_proper_filter|]. apply clim_scal; [apply at_right_proper_filter|apply E2_0; lra]. }
  assert (L1 : clim inf (fun t => RtoC (ef a t) * ee b t + RtoC (/ 2) * Phi (RtoC 1) a b t)%C (RtoC 0 + RtoC (/ 2) * (RtoC 2 * wexp (- (a * b))))%C).
  { apply clim_plus; [apply Rbar_locally_filter|now apply ef_ee_inf|]. apply clim_scal; [apply Rbar_locally_filter|].
    replace (RtoC 2 * wexp (- (a * b)))%C with (wexp (a * b)%R * RtoC 0 + RtoC 1 * (wexp (a * - b)%R * RtoC 2))%C.
    - unfold Phi. apply clim_plus; [apply Rbar_locally_filter|apply clim_scal, E1_inf; [apply Rbar_locally_filter|lra|lra]|].
      apply clim_scal; [apply Rbar_locally_filter|]. apply clim_scal; [apply Rbar_locally_filter|apply E2_inf; lra].
    - replace (a * - b) with (- (a * b)) by ring. ring. }
  assert (I : is_cint (fun t => RtoC (ef a t) * ee b t)%C (c * (RtoC 0 + RtoC (/ 2) * (RtoC 2 * wexp (- (a * b)))) - c * (RtoC 1 + RtoC (/ 2) * RtoC 0))%C).
  { apply (cint_FTC (fun t => c * (RtoC (ef a t) * ee b t + RtoC (/ 2) * Phi (RtoC 1) a b t))%C).
    - intros t Ht. pose proof (sqrt_lt_R0 t Ht) as Hs. pose proof sqrt_PI_pos.
      eapply is_cderive_eq; [apply CD_scal, CD_plus; [apply CD_mult; [apply CD_real, D_ef, Ht|apply CD_ee]|apply CD_scal, CD_Phi, Ht]|]. cbv beta.
      replace (RtoC (- (2 / sqrt PI)) * (dzz a b t + RtoC 1 * dzz a (- b) t))%C with (RtoC (a * kk 1 t)) by (unfold dzz, kk; cbn [pow]; apply C_eq; cbn; field; lra).
      change (Gk a b t) with (RtoC (gg a t) * ee b t)%C. rewrite <- ww_sq.
      replace (RtoC (- (a / 2) * (kk 1 t * gg a t))) with (- (RtoC (/ 2) * RtoC (a * kk 1 t) * RtoC (gg a t)))%C by (rewrite <- !RtoC_mult, <- RtoC_opp; f_equal; field).
      unfold c. field. exact Nw.
    - intros t Ht. eexists. apply CD_mult; [apply CD_real, D_ef, Ht|apply CD_ee].
    - apply clim_scal; [apply at_right_proper_filter|exact L0].
    - apply clim_scal; [apply Rbar_locally_filter|exact L1]. }
  match goal with |- is_cint _ ?L => match type of I with is_cint _ ?M => replace L with M; [exact I|] end end.
  unfold c. rewrite RtoC_inv by lra. field. split; assumption.
Qed.

(** ** linear combinations *)
Definition tim (a c0 c1 c2 c3 c4 t : R) : R := c0 * ef a t + (c1 * kk 0 t + c2 * kk 1 t + c3 * kk 2 t + c4 * kk 3 t) * gg a t.
Definition frq (a : R) (w e : C) (c0 c1 c2 c3 c4 : R) : C :=
  (RtoC c0 * ((RtoC 1 - e) / (w * w)) + (RtoC c1 * (e / w) + (RtoC c2 * (RtoC (2 / a) * e)
   + (RtoC c3 * (RtoC (4 / a ^ 3) * ((RtoC 1 + RtoC a * w) * e))
   + RtoC c4 * (RtoC (8 / a ^ 5) * ((RtoC 3 + RtoC 3 * (RtoC a * w) + (RtoC a * w) * (RtoC a * w)) * e))))))%C.

Definition bf (f : R) : R := sqrt (PI * f).
Lemma bf_pos f : 0 < f -> 0 < bf f.
Proof. intro H. apply sqrt_lt_R0. pose proof PI_RGT_0. nra. Qed.
Lemma bf_sq f : 0 < f -> bf f ^ 2 = PI * f.
Proof. intro H. unfold bf. rewrite <- Rsqr_pow2. apply Rsqr_sqrt. pose proof PI_RGT_0. nra. Qed.

Lemma tim_fourier a f c0 c1 c2 c3 c4 h : 0 < a -> 0 < f -> (forall t, 0 < t -> h t = tim a c0 c1 c2 c3 c4 t) ->
  is_fourier h f (frq a (ww (bf f)) (wexp (- (a * bf f))) c0 c1 c2 c3 c4).
Proof.
  intros Ha Hf H. pose proof (bf_pos f Hf) as Hb. pose proof (bf_sq f Hf) as Hb2. set (b := bf f) in *.
  pose proof (cint_plus _ _ _ _ (cint_scal (RtoC c0) _ _ (int_erf a b Ha Hb)) (cint_plus _ _ _ _ (cint_scal (RtoC c1) _ _ (int1 a b (Rlt_le _ _ Ha) Hb))
   (cint_plus _ _ _ _ (cint_scal (RtoC c2) _ _ (int3 a b Ha Hb)) (cint_plus _ _ _ _ (cint_scal (RtoC c3) _ _ (int5 a b Ha Hb)) (cint_scal (RtoC c4) _ _ (int7 a b Ha Hb)))))) as HI.
  unfold is_fourier. eapply cint_ext; [|exact HI]. intros t Ht. cbv beta. rewrite (H t Ht). unfold tim.
  replace (2 * PI * f * t) with (2 * b ^ 2 * t) by (rewrite Hb2; ring). fold (ee b t). change (Gk a b t) with (RtoC (gg a t) * ee b t)%C.
  rewrite !RtoC_plus, !RtoC_mult, !RtoC_plus, !RtoC_mult. ring.
Qed.
Lemma fourier_0 f h : (forall t, 0 < t -> h t = 0) -> is_fourier h f (RtoC 0).
Proof.
  intro H. unfold is_fourier. replace (RtoC 0) with (RtoC 0 - RtoC 0)%C by ring. eapply cint_ext; [|apply (cint_FTC (fun _ => RtoC 0) (fun _ => RtoC 0))].
  - intros t Ht. cbv beta. rewrite (H t Ht). ring.
  - intros t _. apply CD_const.
  - intros t _. eexists. apply CD_const.
  - apply clim_const. apply at_right_proper_filter.
  - apply clim_const. apply Rbar_locally_filter.
Qed.

Lemma D_tim a c0 c1 c2 t : 0 < t -> is_derive (tim a c0 c1 c2 0 0) t (tim a 0 0 (- (c0 * a / 2) - c1 / 2) (c1 * a ^ 2 / 4 - 3 * c2 / 2) (c2 * a ^ 2 / 4) t).
Proof.
  intro Ht. apply D_ext with (fun t => c0 * ef a t + (c1 * (kk 0 t * gg a t) + c2 * (kk 1 t * gg a t))); [intro u; unfold tim; ring|].
  eapply is_derive_eq; [apply D_plus; [apply D_scal, D_ef, Ht|apply D_plus; apply D_scal, D_kg, Ht]|]. rchg. unfold tim. cbn [INR]. field.
Qed.
Lemma tim_step a f c0 c1 c2 h : 0 < a -> 0 < f -> (forall t, 0 < t -> h t = tim a c0 c1 c2 0 0 t) ->
  is_step_off h f (frq a (ww (bf f)) (wexp (- (a * bf f))) 0 0 (c0 * a / 2 + c1 / 2) (3 * c2 / 2 - c1 * a ^ 2 / 4) (- (c2 * a ^ 2 / 4))).
Proof.
  intros Ha Hf H.
  assert (D : forall t, 0 < t -> is_derive h t (tim a 0 0 (- (c0 * a / 2) - c1 / 2) (c1 * a ^ 2 / 4 - 3 * c2 / 2) (c2 * a ^ 2 / 4) t)).
  { intros t Ht. apply (D_ext_loc (tim a c0 c1 c2 0 0) h t _ t Ht); [|apply D_tim, Ht]. intros u Hu. symmetry. apply H. apply Rabs_def2 in Hu. lra. }
  split; [intros t Ht; eexists; exact (D t Ht)|]. apply tim_fourier; [exact Ha|exact Hf|]. intros t Ht.
  rewrite (is_derive_unique _ _ _ (D t Ht)). unfold tim. field.
Qed.
Lemma known_step f h dh H : (forall t, 0 < t -> is_derive h t (dh t)) -> is_fourier (fun t => - dh t) f H -> is_step_off h f H.
Proof.
  intros D F. split; [intros t Ht; eexists; exact (D t Ht)|]. unfold is_fourier in *. eapply cint_ext; [|exact F].
  intros t Ht. cbv beta. rewrite (is_derive_unique _ _ _ (D t Ht)). reflexivity.
Qed.

(** ** the wavenumber *)
Lemma ik_root f m : 0 < f -> 0 < m -> forall k : C, 0 < Re k -> (k * k)%C = (- Ci * RtoC (2 * PI * f * m))%C -> (Ci * k)%C = (RtoC (sqrt m) * ww (bf f))%C.
Proof.
  intros Hf Hm k Hk E. pose proof (sqrt_lt_R0 m Hm) as Hs. pose proof (bf_pos f Hf) as Hb.
  assert (K : k = (sqrt m * bf f, - (sqrt m * bf f))).
  { rewrite (csqrt_unique _ k Hk E). symmetry. apply csqrt_unique; [cbn; nra|].
    assert (Hss : sqrt m * sqrt m = m) by (apply sqrt_sqrt; lra). pose proof (bf_sq f Hf) as Hb2.
    apply C_eq; cbn; [ring|]. replace (sqrt m * bf f * - (sqrt m * bf f) + - (sqrt m * bf f) * (sqrt m * bf f)) with (-2 * (sqrt m * sqrt m) * bf f ^ 2) by ring.
    rewrite Hss, Hb2. ring. }
  rewrite K. unfold ww. apply C_eq; cbn; ring.
Qed.
Lemma ik_qs f sg mu e : 0 < f -> 0 < sg -> 0 < mu -> (Ci * wavenumber f sg mu e PyTrue)%C = (RtoC (sqrt (mu * sg)) * ww (bf f))%C.
Proof.
  intros Hf Hs Hm. apply ik_root; [exact Hf|nra|apply wavenumber_branch; assumption|]. rewrite wavenumber_sq. cbn [sigma_hat is_True]. unfold omega. rewrite !RtoC_mult. ring.
Qed.
Lemma wexp_ww x b : cexp (- (RtoC x * ww b))%C = wexp (- (x * b)).
Proof. unfold wexp, ww. f_equal. apply C_eq; cbn; ring. Qed.
Lemma theta_half t sg mu r : 0 < t -> 0 < sg -> 0 < mu -> theta t sg mu * r = sqrt (mu * sg) * r / (2 * sqrt t).
Proof.
  intros Ht Hs Hm. unfold theta. assert (0 < mu * sg) by nra. rewrite sqrt_div by lra.
  replace (sqrt (4 * t)) with (2 * sqrt t) by (rewrite sqrt_mult by lra; replace 4 with (2 * 2) by ring; rewrite sqrt_square; lra).
  pose proof (sqrt_lt_R0 t Ht). field. lra.
Qed.
