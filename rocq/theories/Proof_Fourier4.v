(** The transforms of t^(-n/2) exp(-a^2/(4t)) for n = 1, 3, 5, 7. *)
From Coq Require Import Reals Lra Lia.
From Coquelicot Require Import Coquelicot.
From Verif Require Import Vec3 Calculus Deriv Integral Cplx CplxTaylor SpecFun Model_TDEM Proof_FDEM Cerf Spec_Fourier Proof_Fourier Proof_Fourier2 Proof_Fourier3.
Open Scope R_scope.

Definition ww (b : R) : C := (b, b).
Lemma ww_neq b : b <> 0 -> ww b <> RtoC 0.
Proof. intros H E. apply H. exact (f_equal fst E). Qed.
Lemma ww_sq b : (ww b * ww b)%C = (Ci * RtoC (2 * b ^ 2))%C.
Proof. unfold ww. apply C_eq; cbn; ring. Qed.
Lemma wexp_opp x : (wexp x * wexp (- x))%C = RtoC 1.
Proof. unfold wexp. rewrite <- cexp_plus. replace ((x, x) + ((- x)%R, (- x)%R))%C with (RtoC 0) by (apply C_eq; cbn; ring). apply cexp_0. Qed.

(** the antiderivative; [s] is 1 or -1 *)
Definition Phi (s : C) (a b t : R) : C := (wexp (a * b)%R * E1 a b t + s * (wexp (a * - b)%R * E1 a (- b) t))%C.

Lemma CD_Phi s a b t : 0 < t -> is_cderive (Phi s a b) t (RtoC (- (2 / sqrt PI)) * (dzz a b t + s * dzz a (- b) t) * Gk a b t)%C.
Proof.
  intro Ht. unfold Phi, E1. eapply is_cderive_eq.
  - apply CD_plus; [|apply CD_scal]; apply CD_scal; (apply CD_minus; [apply CD_const|apply CD_zz, Ht]).
  - cbv beta.
    transitivity (RtoC (- (2 / sqrt PI)) * (dzz a b t * (wexp (a * b)%R * cexp (- (zz a b t * zz a b t))) + s * (dzz a (- b) t * (wexp (a * - b)%R * cexp (- (zz a (- b) t * zz a (- b) t))))))%C.
    + rewrite RtoC_opp. ring.
    + rewrite (Gk_path a b b) by (lra || reflexivity). rewrite (Gk_path a b (- b)) by (lra || ring). ring.
Qed.

Lemma kG_diff n a b t : 0 < t -> exists d, is_cderive (fun t => RtoC (kk n t) * Gk a b t)%C t d.
Proof. intro Ht. eexists. exact (CD_kG n a b t Ht). Qed.
Lemma scal_diff c (F : R -> C) t : (exists d, is_cderive F t d) -> exists d, is_cderive (fun t => c * F t)%C t d.
Proof. intros [d H]. eexists. exact (CD_scal c F t d H). Qed.

Lemma int1 a b : 0 <= a -> 0 < b -> is_cint (fun t => RtoC (kk 0 t) * Gk a b t)%C (wexp (- (a * b)) / ww b)%C.
Proof.
  intros Ha Hb.
  set (c := (- / (RtoC 2 * ww b))%C). assert (N2 : RtoC 2 <> RtoC 0) by (apply RtoC_neq; lra). pose proof (ww_neq b ltac:(lra)) as Nw.
  assert (L0 : clim (at_right 0) (Phi (RtoC (-1)) a b) (RtoC 0)).
  { destruct (Req_dec a 0) as [-> |N].
    - replace (RtoC 0) with (wexp (0 * b)%R * RtoC 1 + RtoC (-1) * (wexp (0 * - b)%R * RtoC 1))%C.
      + unfold Phi. apply clim_plus; [apply at_right_proper_filter|apply clim_scal, E1_0_a0; apply at_right_proper_filter|].
        apply clim_scal; [apply at_right_proper_filter|]. apply clim_scal; [apply at_right_proper_filter|apply E1_0_a0].
      + rewrite !Rmult_0_l. replace (RtoC (-1)) with (- RtoC 1)%C by (rewrite <- RtoC_opp; reflexivity). ring.
    - replace (RtoC 0) with (wexp (a * b)%R * RtoC 0 + RtoC (-1) * (wexp (a * - b)%R * RtoC 0))%C by ring.
      unfold Phi. apply clim_plus; [apply at_right_proper_filter|apply clim_scal, E1_0; [apply at_right_proper_filter|lra|lra]|].
      apply clim_scal; [apply at_right_proper_filter|]. apply clim_scal; [apply at_right_proper_filter|apply E2_0; lra]. }
  assert (L1 : clim inf (Phi (RtoC (-1)) a b) (RtoC (-2) * wexp (- (a * b)))%C).
  { replace (RtoC (-2) * wexp (- (a * b)))%C with (wexp (a * b)%R * RtoC 0 + RtoC (-1) * (wexp (a * - b)%R * RtoC 2))%C.
    - unfold Phi. apply clim_plus; [apply Rbar_locally_filter|apply clim_scal, E1_inf; [apply Rbar_locally_filter|lra|lra]|].
      apply clim_scal; [apply Rbar_locally_filter|]. apply clim_scal; [apply Rbar_locally_filter|apply E2_inf; lra].
    - replace (a * - b) with (- (a * b)) by ring. replace (RtoC (-2)) with (RtoC (-1) * RtoC 2)%C by (rewrite <- RtoC_mult; f_equal; ring). ring. }
  assert (I : is_cint (fun t => RtoC (kk 0 t) * Gk a b t)%C (c * (RtoC (-2) * wexp (- (a * b))) - c * RtoC 0)%C).
  { apply (cint_FTC (fun t => c * Phi (RtoC (-1)) a b t)%C).
    - intros t Ht. eapply is_cderive_eq; [apply CD_scal, CD_Phi, Ht|]. pose proof (sqrt_lt_R0 t Ht) as Hs. pose proof sqrt_PI_pos.
      replace (RtoC (- (2 / sqrt PI)) * (dzz a b t + RtoC (-1) * dzz a (- b) t))%C with (- (RtoC 2 * ww b) * RtoC (kk 0 t))%C.
      + unfold c. field. split; assumption.
      + unfold dzz, ww, kk. cbn [pow]. apply C_eq; cbn; field; lra.
    - intros t Ht. now apply kG_diff.
    - apply clim_scal; [apply at_right_proper_filter|exact L0].
    - apply clim_scal; [apply Rbar_locally_filter|exact L1]. }
  replace (wexp (- (a * b)) / ww b)%C with (c * (RtoC (-2) * wexp (- (a * b))) - c * RtoC 0)%C; [exact I|].
  unfold c. replace (RtoC (-2)) with (- RtoC 2)%C by (rewrite <- RtoC_opp; f_equal; ring). field. split; assumption.
Qed.

Lemma int3 a b : 0 < a -> 0 < b -> is_cint (fun t => RtoC (kk 1 t) * Gk a b t)%C (RtoC (2 / a) * wexp (- (a * b)))%C.
Proof.
  intros Ha Hb. assert (Na : RtoC a <> RtoC 0) by (apply RtoC_neq; lra).
  assert (L0 : clim (at_right 0) (Phi (RtoC 1) a b) (RtoC 0)).
  { replace (RtoC 0) with (wexp (a * b)%R * RtoC 0 + RtoC 1 * (wexp (a * - b)%R * RtoC 0))%C by ring.
    unfold Phi. apply clim_plus; [apply at_right_proper_filter|apply clim_scal, E1_0; [apply at_right_proper_filter|lra|lra]|].
    apply clim_scal; [apply at_right_proper_filter|]. apply clim_scal; [apply at_right_proper_filter|apply E2_0; lra]. }
  assert (L1 : clim inf (Phi (RtoC 1) a b) (RtoC 2 * wexp (- (a * b)))%C).
  { replace (RtoC 2 * wexp (- (a * b)))%C with (wexp (a * b)%R * RtoC 0 + RtoC 1 * (wexp (a * - b)%R * RtoC 2))%C.
    - unfold Phi. apply clim_plus; [apply Rbar_locally_filter|apply clim_scal, E1_inf; [apply Rbar_locally_filter|lra|lra]|].
      apply clim_scal; [apply Rbar_locally_filter|]. apply clim_scal; [apply Rbar_locally_filter|apply E2_inf; lra].
    - replace (a * - b) with (- (a * b)) by ring. ring. }
  assert (I : is_cint (fun t => RtoC (kk 1 t) * Gk a b t)%C (RtoC (/ a) * (RtoC 2 * wexp (- (a * b))) - RtoC (/ a) * RtoC 0)%C).
  { apply (cint_FTC (fun t => RtoC (/ a) * Phi (RtoC 1) a b t)%C).
    - intros t Ht. eapply is_cderive_eq; [apply CD_scal, CD_Phi, Ht|]. pose proof (sqrt_lt_R0 t Ht) as Hs. pose proof sqrt_PI_pos.
      replace (RtoC (- (2 / sqrt PI)) * (dzz a b t + RtoC 1 * dzz a (- b) t))%C with (RtoC (a * kk 1 t)).
      + rewrite RtoC_mult, RtoC_inv by lra. field. assumption.
      + unfold dzz, kk. cbn [pow]. apply C_eq; cbn; field; lra.
    - intros t Ht. now apply kG_diff.
    - apply clim_scal; [apply at_right_proper_filter|exact L0].
    - apply clim_scal; [apply Rbar_locally_filter|exact L1]. }
  replace (RtoC (2 / a) * wexp (- (a * b)))%C with (RtoC (/ a) * (RtoC 2 * wexp (- (a * b))) - RtoC (/ a) * RtoC 0)%C; [exact I|].
  unfold Rdiv. rewrite RtoC_mult. ring.
Qed.

(** integrate the derivative of kk n * Gk *)
Lemma int_step n a b L M : (n <= 1)%nat -> 0 < a -> is_cint (fun t => RtoC (kk n t) * Gk a b t)%C L -> is_cint (fun t => RtoC (kk (S n) t) * Gk a b t)%C M ->
  is_cint (fun t => RtoC (kk (S (S n)) t) * Gk a b t)%C (RtoC (4 / a ^ 2) * (RtoC (INR n + / 2) * M + Ci * RtoC (2 * b ^ 2) * L))%C.
Proof.
  intros Hn Ha I0 I1. assert (A2 : a ^ 2 <> 0) by nra.
  assert (Z : is_cint (fun t => RtoC (- (INR n + / 2)) * (RtoC (kk (S n) t) * Gk a b t) + RtoC (a ^ 2 / 4) * (RtoC (kk (S (S n)) t) * Gk a b t) - Ci * RtoC (2 * b ^ 2) * (RtoC (kk n t) * Gk a b t))%C (RtoC 0 - RtoC 0)%C).
  { apply (cint_FTC (fun t => RtoC (kk n t) * Gk a b t)%C).
    - intros t Ht. exact (CD_kG n a b t Ht).
    - intros t Ht. eexists. apply CD_minus; [apply CD_plus|]; apply CD_scal; apply CD_kG, Ht.
    - now apply kG_0.
    - apply kG_inf. }
  pose proof (cint_scal (RtoC (4 / a ^ 2)) _ _ (cint_plus _ _ _ _ Z (cint_plus _ _ _ _ (cint_scal (RtoC (INR n + / 2)) _ _ I1) (cint_scal (Ci * RtoC (2 * b ^ 2))%C _ _ I0)))) as HI.
  replace (RtoC (4 / a ^ 2) * (RtoC (INR n + / 2) * M + Ci * RtoC (2 * b ^ 2) * L))%C with (RtoC (4 / a ^ 2) * (RtoC 0 - RtoC 0 + (RtoC (INR n + / 2) * M + Ci * RtoC (2 * b ^ 2) * L)))%C by ring.
  eapply cint_ext; [|exact HI]. intros t Ht. cbv beta.
  assert (Q : (RtoC (4 / a ^ 2) * RtoC (a ^ 2 / 4))%C = RtoC 1) by (rewrite <- RtoC_mult; f_equal; field; lra).
  rewrite (RtoC_opp (INR n + / 2)). transitivity (RtoC (4 / a ^ 2) * RtoC (a ^ 2 / 4) * (RtoC (kk (S (S n)) t) * Gk a b t))%C; [ring|rewrite Q; ring].
Qed.

Lemma int5 a b : 0 < a -> 0 < b -> is_cint (fun t => RtoC (kk 2 t) * Gk a b t)%C (RtoC (4 / a ^ 3) * ((RtoC 1 + RtoC a * ww b) * wexp (- (a * b))))%C.
Proof.
  intros Ha Hb. pose proof (int_step 0 a b _ _ ltac:(lia) Ha (int1 a b ltac:(lra) Hb) (int3 a b Ha Hb)) as HI.
  replace (RtoC (4 / a ^ 3) * ((RtoC 1 + RtoC a * ww b) * wexp (- (a * b))))%C with
    (RtoC (4 / a ^ 2) * (RtoC (INR 0 + / 2) * (RtoC (2 / a) * wexp (- (a * b))) + Ci * RtoC (2 * b ^ 2) * (wexp (- (a * b)) / ww b)))%C; [exact HI|].
  rewrite <- ww_sq. pose proof (ww_neq b ltac:(lra)) as Nw. generalize (wexp (- (a * b))). intro e. cbn [INR].
  replace (ww b * ww b * (e / ww b))%C with (ww b * e)%C by (field; assumption).
  replace (4 / a ^ 3) with (4 / a ^ 2 * / a) by (field; lra). replace (RtoC (0 + / 2) * (RtoC (2 / a) * e))%C with (RtoC (/ a) * e)%C.
  - rewrite RtoC_mult. replace (ww b * e)%C with (RtoC (/ a) * (RtoC a * ww b * e))%C; [ring|]. rewrite RtoC_inv by lra. field. apply RtoC_neq; lra.
  - replace (/ a) with ((0 + / 2) * (2 / a)) by (field; lra). rewrite RtoC_mult. ring.
Qed.

Lemma int7 a b : 0 < a -> 0 < b -> is_cint (fun t => RtoC (kk 3 t) * Gk a b t)%C
  (RtoC (8 / a ^ 5) * ((RtoC 3 + RtoC 3 * (RtoC a * ww b) + (RtoC a * ww b) * (RtoC a * ww b)) * wexp (- (a * b))))%C.
Proof.
  intros Ha Hb. pose proof (int_step 1 a b _ _ ltac:(lia) Ha (int3 a b Ha Hb) (int5 a b Ha Hb)) as HI.
  match goal with |- is_cint _ ?L => match type of HI with is_cint _ ?M => replace L with M; [exact HI|] end end.
  rewrite <- ww_sq. generalize (wexp (- (a * b))) (ww b). intros e w. cbn [INR].
  replace (8 / a ^ 5) with (4 / a ^ 2 * (2 / a ^ 3)) by (field; lra).
  replace (RtoC (1 + / 2) * (RtoC (4 / a ^ 3) * ((RtoC 1 + RtoC a * w) * e)))%C with (RtoC (2 / a ^ 3) * (RtoC 3 * ((RtoC 1 + RtoC a * w) * e)))%C.
  - replace (w * w * (RtoC (2 / a) * e))%C with (RtoC (2 / a ^ 3) * ((RtoC a * w) * (RtoC a * w) * e))%C; [rewrite RtoC_mult; ring|].
    replace (2 / a) with (2 / a ^ 3 * a * a) by (field; lra). rewrite !RtoC_mult. ring.
  - rewrite !Cmult_assoc, <- !RtoC_mult. do 3 f_equal. field. lra.
Qed.
