(** The transforms of t^(-n/2) exp(-a^2/(4t)). *)
From Coq Require Import Reals Lra Lia.
From Coquelicot Require Import Coquelicot.
From Verif Require Import Vec3 Calculus Deriv Integral Cplx CplxTaylor SpecFun Model_TDEM Cerf Spec_Fourier Proof_Fourier.
Open Scope R_scope.

Ltac rchg := match goal with |- ?x = ?y => change (@eq R x y) end; cbv beta.

Lemma CD_comp (F : R -> C) (g : R -> R) x a d : is_cderive F (g x) d -> is_derive g x a -> is_cderive (fun t => F (g t)) x (RtoC a * d)%C.
Proof.
  intros [A B] D. split.
  - eapply is_derive_eq; [exact (D_comp (fun u => Re (F u)) g x _ _ A D)|]. cbn. unfold Re. ring.
  - eapply is_derive_eq; [exact (D_comp (fun u => Im (F u)) g x _ _ B D)|]. cbn. unfold Im, Re. ring.
Qed.
Lemma CD_pair (f g : R -> R) x a b : is_derive f x a -> is_derive g x b -> is_cderive (fun t => (f t, g t)) x (a, b).
Proof. intros A B. split; assumption. Qed.

(** ** the two paths *)
Definition zz (a c t : R) : C := (a / (2 * sqrt t) + c * sqrt t, c * sqrt t).
Definition dzz (a c t : R) : C := (- a / (4 * (t * sqrt t)) + c / (2 * sqrt t), c / (2 * sqrt t)).

Lemma exp_half_ln t : 0 < t -> exp (ln t / 2) = sqrt t.
Proof.
  intro H. apply Rsqr_inj; [left; apply exp_pos|apply sqrt_pos|]. rewrite Rsqr_sqrt by lra. unfold Rsqr. rewrite <- exp_plus.
  replace (ln t / 2 + ln t / 2) with (ln t) by field. now apply exp_ln.
Qed.

Lemma CD_zz a c t : 0 < t -> is_cderive (fun t => cerf (zz a c t)) t (RtoC (2 / sqrt PI) * (dzz a c t * cexp (- (zz a c t * zz a c t))))%C.
Proof.
  intro Ht. pose proof (sqrt_lt_R0 t Ht) as Hs. assert (Hss : sqrt t * sqrt t = t) by (apply sqrt_sqrt; lra).
  set (Z := fun v => (a / 2 * exp (- v) + c * exp v, c * exp v) : C).
  set (dZ := fun v => (- (a / 2) * exp (- v) + c * exp v, c * exp v) : C).
  set (ddZ := fun v => (a / 2 * exp (- v) + c * exp v, c * exp v) : C).
  assert (De : forall k v, is_derive (fun v => k * exp v) v (k * exp v)).
  { intros k v. eapply is_derive_eq; [apply D_scal, D_exp, D_id|]. rchg. ring. }
  assert (Dn : forall k v, is_derive (fun v => k * exp (- v)) v (- k * exp (- v))).
  { intros k v. eapply is_derive_eq; [apply D_scal, D_exp, D_opp, D_id|]. rchg. ring. }
  assert (DZ : forall v, is_cderive Z v (dZ v)) by (intro v; apply CD_pair; [apply D_plus; [apply Dn|apply De]|apply De]).
  assert (DdZ : forall v, is_cderive dZ v (ddZ v)).
  { intro v. eapply is_cderive_eq; [apply CD_pair; [apply D_plus; [apply Dn|apply De]|apply De]|]. unfold ddZ. rewrite Ropp_involutive. reflexivity. }
  assert (Eq : forall s, 0 < s -> Z (ln s / 2) = zz a c s).
  { intros s Hp. unfold Z, zz. rewrite exp_Ropp, exp_half_ln by lra. pose proof (sqrt_lt_R0 s Hp). f_equal. field. lra. }
  eapply is_cderive_ext_loc with (f := fun s => cerf (Z (ln s / 2))).
  - exists (mkposreal t Ht). intros s Hb. rewrite Eq; [reflexivity|]. unfold ball in Hb; cbn in Hb.
    unfold AbsRing_ball, abs, minus, plus, opp in Hb; cbn in Hb. apply Rabs_lt_between in Hb. lra.
  - eapply is_cderive_eq.
    + refine (CD_comp (fun v => cerf (Z v)) (fun s => ln s / 2) t (/ (2 * t)) _ (CD_cerf Z dZ ddZ (ln t / 2) DZ DdZ) _).
      eapply is_derive_eq; [apply D_div; [apply D_ln; [apply D_id|exact Ht]|apply D_const|lra]|]. rchg. field. lra.
    + cbv beta. rewrite Eq by exact Ht. assert (RtoC (/ (2 * t)) * dZ (ln t / 2)%R = dzz a c t)%C as <-; [|ring].
      unfold dZ, dzz. rewrite exp_Ropp, exp_half_ln by lra. generalize dependent (sqrt t). intros u Hu Hss. subst t. apply C_eq; cbn; field; nra.
Qed.

(** ** the common exponential exp(-a^2/(4t)) exp(-i w t), w = 2 b^2 *)
Definition Gk (a b t : R) : C := (RtoC (exp (- (a ^ 2 / (4 * t)))) * cexp (- Ci * RtoC (2 * b ^ 2 * t)))%C.

Definition wexp (x : R) : C := cexp (x, x).
Lemma Gk_path a b c t : 0 < t -> c ^ 2 = b ^ 2 -> (wexp (a * c)%R * cexp (- (zz a c t * zz a c t)))%C = Gk a b t.
Proof.
  intros Ht Hc. pose proof (sqrt_lt_R0 t Ht) as Hs. assert (Hss : sqrt t * sqrt t = t) by (apply sqrt_sqrt; lra).
  unfold wexp. rewrite <- cexp_plus. unfold Gk.
  replace (RtoC (exp (- (a ^ 2 / (4 * t))))) with (cexp (RtoC (- (a ^ 2 / (4 * t))))) by (unfold cexp; apply C_eq; cbn; rewrite ?cos_0, ?sin_0; ring).
  rewrite <- cexp_plus. f_equal. rewrite <- Hc. unfold zz. generalize dependent (sqrt t). intros u Hu Hss. subst t. apply C_eq; cbn; field; lra.
Qed.

Lemma CD_Gk a b t : 0 < t -> is_cderive (Gk a b) t ((RtoC (a ^ 2 / (4 * t ^ 2)) - Ci * RtoC (2 * b ^ 2)) * Gk a b t)%C.
Proof.
  intro Ht. unfold Gk. eapply is_cderive_eq.
  - apply CD_mult.
    + apply CD_real, D_exp, D_opp. apply D_div; [apply D_const|apply D_scal, D_id|lra].
    + apply CD_exp. apply CD_scal. apply CD_real. apply D_scal, D_id.
  - cbv beta. replace (- ((0 * (4 * t) - a ^ 2 * (4 * 1)) / (4 * t * (4 * t)))) with (a ^ 2 / (4 * t ^ 2)) by (field; lra).
    rewrite RtoC_mult. replace (2 * b ^ 2 * 1) with (2 * b ^ 2) by ring. ring.
Qed.

(** 1 / (sqrt(pi) t^(n+1/2)) *)
Definition kk (n : nat) (t : R) : R := / (sqrt PI * t ^ n * sqrt t).
Lemma D_kk n t : 0 < t -> is_derive (kk n) t (- (INR n + / 2) * kk (S n) t).
Proof.
  intro Ht. pose proof (sqrt_lt_R0 t Ht) as Hs. assert (Hss : sqrt t * sqrt t = t) by (apply sqrt_sqrt; lra). pose proof sqrt_PI_pos.
  pose proof (pow_lt t n Ht) as Hn.
  unfold kk. eapply is_derive_eq.
  - apply D_inv; [apply D_mult; [apply D_scal, D_pow, D_id|apply D_sqrt; [apply D_id|exact Ht]]|]. apply Rmult_integral_contrapositive_currified; nra.
  - rchg. destruct n as [|n].
    + cbn [pow INR pred] in *. generalize dependent (sqrt t). intros u Hu Hss. subst t. field. lra.
    + change (pred (S n)) with n. cbn [pow] in *. pose proof (pow_lt t n Ht) as Hq. generalize dependent (t ^ n). intros q _ Hq. generalize dependent (INR (S n)). intros m.
      generalize dependent (sqrt t). intros u Hu Hss. subst t. field. repeat split; lra.
Qed.
Lemma CD_kG n a b t : 0 < t -> is_cderive (fun t => RtoC (kk n t) * Gk a b t)%C t
  (RtoC (- (INR n + / 2)) * (RtoC (kk (S n) t) * Gk a b t) + RtoC (a ^ 2 / 4) * (RtoC (kk (S (S n)) t) * Gk a b t) - Ci * RtoC (2 * b ^ 2) * (RtoC (kk n t) * Gk a b t))%C.
Proof.
  intro Ht. pose proof (sqrt_lt_R0 t Ht) as Hs. pose proof sqrt_PI_pos. pose proof (pow_lt t n Ht) as Hn.
  eapply is_cderive_eq; [apply CD_mult; [apply CD_real, D_kk, Ht|apply CD_Gk, Ht]|]. cbv beta.
  replace (a ^ 2 / (4 * t ^ 2)) with (a ^ 2 / 4 * / t ^ 2) by (field; lra). rewrite !RtoC_mult.
  replace (kk (S (S n)) t) with (/ t ^ 2 * kk n t) by (unfold kk; cbn [pow]; field; repeat split; lra). rewrite !RtoC_mult. ring.
Qed.

Lemma Cmod_G a b t : Cmod (Gk a b t) = exp (- (a ^ 2 / (4 * t))).
Proof.
  unfold Gk. rewrite Cmod_mult, Cmod_R, Rabs_right by (left; apply exp_pos). rewrite Cmod_cexp. cbn.
  replace (- 0 * (2 * (b * (b * 1)) * t) - - (1) * 0) with 0 by ring. rewrite exp_0. ring.
Qed.

Lemma exp_inv y : 0 < y -> exp (- y) <= / y.
Proof. intro H. rewrite exp_Ropp. apply Rinv_le_contravar; [exact H|]. pose proof (exp_ineq1 y). lra. Qed.
Lemma exp_inv2 y : 0 < y -> exp (- y) <= 4 / y ^ 2.
Proof.
  intro H. replace (- y) with (- (y / 2) + - (y / 2)) by field. rewrite exp_plus. pose proof (exp_inv (y / 2)). pose proof (exp_pos (- (y / 2))).
  replace (4 / y ^ 2) with (/ (y / 2) * / (y / 2)) by (field; lra). apply Rmult_le_compat; lra.
Qed.

Lemma root_pi_1 : 1 <= sqrt PI.
Proof. pose proof PI2_1. rewrite <- sqrt_1. apply sqrt_le_1_alt. lra. Qed.

(** boundary terms vanish *)
Lemma kG_0 a b n : (n <= 1)%nat -> 0 < a -> clim (at_right 0) (fun t => RtoC (kk n t) * Gk a b t)%C (RtoC 0).
Proof.
  intros Hn Ha. assert (A2 : 0 < a ^ 2) by nra. assert (A4 : 0 < a ^ 4) by (replace (a ^ 4) with (a ^ 2 * a ^ 2) by ring; nra).
  assert (0 < 64 / a ^ 4) by (apply Rdiv_lt_0_compat; lra).
  apply (clim_0_small _ _ (64 / a ^ 4) 1); [lra|lra|]. intros t Ht.
  replace (RtoC (kk n t) * Gk a b t - RtoC 0)%C with (RtoC (kk n t) * Gk a b t)%C by ring.
  pose proof (sqrt_lt_R0 t (proj1 Ht)) as Hs. assert (Hss : sqrt t * sqrt t = t) by (apply sqrt_sqrt; lra). pose proof root_pi_1. pose proof sqrt_PI_pos.
  pose proof (pow_lt t n (proj1 Ht)) as Hp.
  assert (K : 0 < kk n t <= / (t * sqrt t)).
  { unfold kk. split; [apply Rinv_0_lt_compat; repeat apply Rmult_lt_0_compat; lra|]. apply Rinv_le_contravar; [apply Rmult_lt_0_compat; lra|]. assert (t <= t ^ n) by (destruct n as [|[|n]]; cbn; [lra|lra|lia]).
    apply Rmult_le_compat_r; [lra|]. nra. }
  rewrite Cmod_mult, Cmod_R, Rabs_right, Cmod_G by lra.
  assert (E : exp (- (a ^ 2 / (4 * t))) <= 64 / a ^ 4 * t ^ 2).
  { assert (0 < a ^ 2 / (4 * t)) by (apply Rdiv_lt_0_compat; lra). eapply Rle_trans; [now apply exp_inv2|]. right. field. lra. }
  apply Rle_trans with (/ (t * sqrt t) * (64 / a ^ 4 * t ^ 2)); [apply Rmult_le_compat; [lra|left; apply exp_pos|lra|exact E]|].
  right. rewrite <- Hss at 1 3. field. lra.
Qed.
Lemma kG_inf a b n : clim inf (fun t => RtoC (kk n t) * Gk a b t)%C (RtoC 0).
Proof.
  apply (clim_inf _ _ 1 1); [lra|]. intros t Ht H1. replace (RtoC (kk n t) * Gk a b t - RtoC 0)%C with (RtoC (kk n t) * Gk a b t)%C by ring.
  pose proof (sqrt_lt_R0 t Ht) as Hs. pose proof root_pi_1. pose proof (pow_R1_Rle t n). assert (1 <= t ^ n) by (apply H0; lra).
  assert (K : 0 < kk n t <= / sqrt t).
  { unfold kk. split; [apply Rinv_0_lt_compat; repeat apply Rmult_lt_0_compat; lra|]. apply Rinv_le_contravar; [lra|]. assert (1 <= sqrt PI * t ^ n) by nra. nra. }
  rewrite Cmod_mult, Cmod_R, Rabs_right, Cmod_G by lra.
  assert (E : exp (- (a ^ 2 / (4 * t))) <= 1).
  { rewrite <- exp_0. assert (0 <= a ^ 2 / (4 * t)) by (apply Rdiv_le_0_compat; nra). destruct (Req_dec (a ^ 2 / (4 * t)) 0) as [-> |N]; [rewrite Ropp_0; lra|left; apply exp_increasing; lra]. }
  pose proof (exp_pos (- (a ^ 2 / (4 * t)))). unfold Rdiv. rewrite Rmult_1_l. nra.
Qed.
