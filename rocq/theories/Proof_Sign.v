(** The profile of the central loop and of vertical coplanar coils at every frequency (C141). *)
From Coq Require Import Reals Lra Psatz.
From Coquelicot Require Import Coquelicot.
From Verif Require Import Calculus Deriv Cplx Proof_Induction Proof_Fourier2 Proof_McNeill2.
Open Scope R_scope.

Definition fq (x : R) : R := exp (- x) * ((3 + 3 * x) * cos x + (3 * x + 2 * x ^ 2) * sin x).
Definition gq (x : R) : R := exp (- x) * ((3 + 3 * x) * sin x - (3 * x + 2 * x ^ 2) * cos x).
Lemma D_fq x : is_derive fq x (2 * x * exp (- x) * (x * cos x - (1 + x) * sin x)).
Proof. unfold fq. auto_derive; [auto|]. unfold plus, scal, mult; cbn. ring. Qed.
Lemma D_gq x : is_derive gq x (2 * x * exp (- x) * ((1 + x) * cos x + x * sin x)).
Proof. unfold gq. auto_derive; [auto|]. unfold plus, scal, mult; cbn. ring. Qed.

Lemma grow (f df : R -> R) x : 0 < x -> (forall t, is_derive f t (df t)) -> (forall t, 0 < t -> t < x -> 0 < df t) -> f 0 < f x.
Proof.
  intros X D P. destruct (MVT_cor2 f df 0 x X) as [w [W V]].
  - intros c _. apply is_derive_Reals, D.
  - assert (0 < df w) by (apply P; lra). nra.
Qed.
Lemma sin_lt x : 0 < x -> sin x < x.
Proof. exact (sin_lt_x x). Qed.
Lemma exp_quad x : 0 < x -> 1 + x + x ^ 2 / 2 + x ^ 3 / 6 < exp x.
Proof.
  intros X.
  assert (A : forall t, 0 < t -> 1 + t + t ^ 2 / 2 < exp t).
  { intros t T. cut (0 < exp t - (1 + t + t ^ 2 / 2)); [lra|]. replace 0 with ((fun t => exp t - (1 + t + t ^ 2 / 2)) 0) by (cbv beta; rewrite exp_0; field).
    apply (grow (fun t => exp t - (1 + t + t ^ 2 / 2)) (fun t => exp t - (1 + t))); [exact T| |].
    - intros y. auto_derive; [auto|]. field.
    - intros y Y _. pose proof (exp_ineq1 y ltac:(lra)). lra. }
  cut (0 < exp x - (1 + x + x ^ 2 / 2 + x ^ 3 / 6)); [lra|]. replace 0 with ((fun t => exp t - (1 + t + t ^ 2 / 2 + t ^ 3 / 6)) 0) by (cbv beta; rewrite exp_0; field).
  apply (grow (fun t => exp t - (1 + t + t ^ 2 / 2 + t ^ 3 / 6)) (fun t => exp t - (1 + t + t ^ 2 / 2))); [exact X| |].
  - intros y. auto_derive; [auto|]. field.
  - intros y Y _. pose proof (A y Y). lra.
Qed.
(** the quadrature part has one sign *)
Lemma f_lt_3 x : 0 < x -> fq x < 3.
Proof.
  intros X. destruct (Rle_lt_dec x PI) as [L|L].
  - assert (F0 : fq 0 = 3) by (unfold fq; rewrite Ropp_0, exp_0, cos_0, sin_0; ring).
    cut (- fq 0 < - fq x); [lra|]. apply (grow (fun t => - fq t) (fun t => - (2 * t * exp (- t) * (t * cos t - (1 + t) * sin t)))); [exact X| |].
    + intros t. apply @is_derive_opp. exact (D_fq t).
    + intros t T Tx. assert (S : 0 < sin t) by (apply sin_gt_0; lra).
      assert (K : 0 < sin t - t * cos t).
      { replace 0 with ((fun t => sin t - t * cos t) 0) by (cbv beta; rewrite sin_0; ring). apply (grow (fun t => sin t - t * cos t) (fun t => t * sin t)); [exact T| |].
        - intros y. auto_derive; [auto|]. ring.
        - intros y Y Yt. assert (0 < sin y) by (apply sin_gt_0; lra). nra. }
      pose proof (exp_pos (- t)) as E. assert (A : 0 < 2 * t * exp (- t)) by nra. assert (B : 0 < (1 + t) * sin t - t * cos t) by nra. nra.
  - assert (X3 : 3 < x) by (pose proof PI2_3_2 as Z; unfold PI2 in Z; lra).
    pose proof (exp_quad x X) as E. pose proof (COS_bound x). pose proof (SIN_bound x).
    assert (Q : (3 + 3 * x) * cos x + (3 * x + 2 * x ^ 2) * sin x <= 3 + 6 * x + 2 * x ^ 2) by nra.
    assert (W : 3 + 6 * x + 2 * x ^ 2 < 3 * exp x) by nra.
    unfold fq. rewrite exp_Ropp. apply (Rmult_lt_reg_l (exp x)); [apply exp_pos|]. rewrite <- Rmult_assoc, Rinv_r, Rmult_1_l by (pose proof (exp_pos x); lra). lra.
Qed.
Lemma ray x : 0 < x -> ((1 + x) ^ 2 + x ^ 2) * exp (- x) ^ 2 < 1.
Proof.
  intros X. pose proof (exp_quad (2 * x) ltac:(lra)) as E. replace (exp (- x) ^ 2) with (/ exp (2 * x)).
  - apply (Rmult_lt_reg_r (exp (2 * x))); [apply exp_pos|]. rewrite Rmult_assoc, Rinv_l by (pose proof (exp_pos (2 * x)); lra). nra.
  - rewrite <- exp_Ropp. replace (exp (- x) ^ 2) with (exp (- x) * exp (- x)) by ring. rewrite <- exp_plus. f_equal. ring.
Qed.
Lemma trig1 x : cos x ^ 2 + sin x ^ 2 = 1.
Proof. pose proof (sin2_cos2 x) as H. unfold Rsqr in H. lra. Qed.
(** so has the in-phase part *)
Lemma g_lt x : 0 < x -> gq x < x ^ 2.
Proof.
  intros X. cut (0 < x ^ 2 - gq x); [lra|]. replace 0 with ((fun t => t ^ 2 - gq t) 0) by (cbv beta; unfold gq; rewrite sin_0; ring).
  apply (grow (fun t => t ^ 2 - gq t) (fun t => 2 * t - 2 * t * exp (- t) * ((1 + t) * cos t + t * sin t))); [exact X| |].
  - intros t. apply (is_derive_eq _ _ (2 * t - 2 * t * exp (- t) * ((1 + t) * cos t + t * sin t))); [|reflexivity]. apply @is_derive_minus; [auto_derive; [auto|ring]|exact (D_gq t)].
  - intros t T _. pose proof (ray t T) as R. pose proof (trig1 t) as C. set (e := exp (- t)) in *. assert (E : 0 < e) by apply exp_pos. set (v := (1 + t) * cos t + t * sin t).
    assert (V : v ^ 2 <= (1 + t) ^ 2 + t ^ 2).
    { unfold v. assert (0 <= ((1 + t) * sin t - t * cos t) ^ 2) by apply pow2_ge_0. nra. }
    assert (W : (e * v) ^ 2 < 1) by (rewrite Rpow_mult_distr; assert (0 < e ^ 2) by (apply pow_lt; lra); nra).
    assert (e * v < 1) by nra. replace (2 * t - 2 * t * e * v) with (2 * t * (1 - e * v)) by ring. apply Rmult_lt_0_compat; lra.
Qed.
(** the quadrature part is below its low-frequency asymptote *)
Lemma f_gt x : 0 < x -> 3 - fq x < x ^ 4 / 2.
Proof.
  intros X. cut (0 < x ^ 4 / 2 - 3 + fq x); [lra|]. replace 0 with ((fun t => t ^ 4 / 2 - 3 + fq t) 0) by (cbv beta; unfold fq; rewrite Ropp_0, exp_0, cos_0, sin_0; field).
  apply (grow (fun t => t ^ 4 / 2 - 3 + fq t) (fun t => 2 * t ^ 3 + 2 * t * exp (- t) * (t * cos t - (1 + t) * sin t))); [exact X| |].
  - intros t. apply @is_derive_plus; [auto_derive; [auto|field]|exact (D_fq t)].
  - intros t T _.
    assert (H : 0 < t ^ 2 * exp t - ((1 + t) * sin t - t * cos t)).
    { replace 0 with ((fun t => t ^ 2 * exp t - ((1 + t) * sin t - t * cos t)) 0) by (cbv beta; rewrite sin_0; ring).
      apply (grow (fun t => t ^ 2 * exp t - ((1 + t) * sin t - t * cos t)) (fun t => (t ^ 2 + 2 * t) * exp t - ((1 + t) * sin t + t * cos t))); [exact T| |].
      - intros y. auto_derive; [auto|]. ring.
      - intros y Y _. pose proof (sin_lt y Y). pose proof (COS_bound y). pose proof (exp_ineq1 y ltac:(lra)). assert ((1 + y) * sin y + y * cos y <= (1 + y) * y + y) by nra. nra. }
    pose proof (exp_pos (- t)) as E. assert (I : exp (- t) * exp t = 1) by (rewrite <- exp_plus; replace (- t + t) with 0 by ring; apply exp_0).
    replace (2 * t ^ 3 + 2 * t * exp (- t) * (t * cos t - (1 + t) * sin t)) with (2 * t * exp (- t) * (t ^ 2 * exp t - ((1 + t) * sin t - t * cos t))).
    + apply Rmult_lt_0_compat; [nra|exact H].
    + transitivity (2 * t ^ 3 * (exp (- t) * exp t) + 2 * t * exp (- t) * (t * cos t - (1 + t) * sin t)); [ring|rewrite I; ring].
Qed.
(** and the whole is bounded by its value at frequency zero *)
Lemma q_mod x : 0 < x -> Cmod (3 - fq x, gq x) <= x ^ 2.
Proof.
  intros X. pose proof (Cmod_increment (fun t => (3 - fq t, gq t)) (fun t => (- (2 * t * exp (- t) * (t * cos t - (1 + t) * sin t)), 2 * t * exp (- t) * ((1 + t) * cos t + t * sin t)))
    (fun t => t ^ 2) (fun t => 2 * t) 0 x ltac:(lra)) as H.
  cbv beta in H.
  assert (Z : (((3 - fq x)%R, gq x) - ((3 - fq 0)%R, gq 0))%C = ((3 - fq x)%R, gq x)).
  { assert (F0 : fq 0 = 3) by (unfold fq; rewrite Ropp_0, exp_0, cos_0, sin_0; ring). assert (G0 : gq 0 = 0) by (unfold gq; rewrite Ropp_0, exp_0, cos_0, sin_0; ring). rewrite F0, G0. apply C_eq; cbn; ring. }
  rewrite Z in H. replace (x ^ 2 - 0 ^ 2) with (x ^ 2) in H by ring. apply H; clear H Z.
  - intros t _. apply CD_pair; [|exact (D_gq t)]. apply (is_derive_eq _ _ (0 - 2 * t * exp (- t) * (t * cos t - (1 + t) * sin t))); [|ring]. apply @is_derive_minus; [apply @is_derive_const|exact (D_fq t)].
  - intros t _. auto_derive; [auto|ring].
  - intros t [T0 _]. destruct T0 as [T|<-].
    + apply Rsqr_incr_0_var; [|lra]. unfold Rsqr. rewrite Cmod_sqr. cbn [Re Im fst snd].
      pose proof (ray t T) as R. pose proof (trig1 t) as C.
      match goal with |- ?l <= _ => replace l with (4 * t ^ 2 * ((((1 + t) ^ 2 + t ^ 2) * exp (- t) ^ 2) * (cos t ^ 2 + sin t ^ 2))) by (cbn; ring) end. rewrite C. assert (0 < t ^ 2) by (apply pow_lt; lra). nra.
    + match goal with |- Cmod ?z <= _ => replace z with (RtoC 0) by (apply C_eq; cbn; ring) end. rewrite Cmod_0. lra.
Qed.

(** the profile of the code at [u = (1 + i) x] *)
Lemma profile_at x (u : C) : 0 < x -> u = (x, x) ->
  ((3 - (3 + 3 * u + u * u) * cexp (- u)) / (u * u))%C = (gq x / (2 * x ^ 2), - ((3 - fq x) / (2 * x ^ 2))).
Proof.
  intros X ->. set (u := (x, x) : C). assert (Nu : u <> RtoC 0) by (intros E; apply (f_equal fst) in E; cbn in E; lra).
  assert (P : 0 < x ^ 2) by (apply pow_lt; lra).
  assert (E : (3 - (3 + 3 * u + u * u) * cexp (- u))%C = (3 - fq x, gq x)).
  { unfold cexp, fq, gq, u. apply C_eq; cbn; rewrite cos_neg, sin_neg; ring. }
  rewrite E. assert (N2 : (u * u)%C <> RtoC 0) by (apply Cmult_neq_0; exact Nu).
  set (v := (gq x / (2 * x ^ 2), - ((3 - fq x) / (2 * x ^ 2))) : C).
  transitivity (v * (u * u) / (u * u))%C; [|field; exact Nu].
  f_equal. unfold u, v. apply C_eq; cbn; field; lra.
Qed.
Lemma p1_props x (u : C) : 0 < x -> u = (x, x) -> let p := ((3 - (3 + 3 * u + u * u) * cexp (- u)) / (u * u))%C in
  Re p < 1 / 2 /\ - (x ^ 2 / 4) < Im p < 0 /\ Cmod p <= 1 / 2.
Proof.
  intros X E p. assert (P : 0 < x ^ 2) by (apply pow_lt; lra). pose proof (profile_at x u X E) as Ep. fold p in Ep.
  pose proof (g_lt x X). pose proof (f_lt_3 x X). pose proof (f_gt x X). pose proof (q_mod x X) as Q.
  assert (I : 0 < / (2 * x ^ 2)) by (apply Rinv_0_lt_compat; lra). assert (I1 : / (2 * x ^ 2) * x ^ 2 = 1 / 2) by (field; lra).
  split; [|split; [split|]].
  - rewrite Ep. cbn [Re fst]. unfold Rdiv at 1. nra.
  - rewrite Ep. cbn [Im snd]. apply Ropp_lt_contravar. unfold Rdiv at 1. replace (x ^ 4) with (x ^ 2 * x ^ 2) in * by ring. nra.
  - rewrite Ep. cbn [Im snd]. cut (0 < (3 - fq x) / (2 * x ^ 2)); [lra|]. apply Rmult_lt_0_compat; lra.
  - assert (D : p = (- Ci * RtoC (/ (2 * x ^ 2)) * ((3 - fq x)%R, gq x))%C) by (rewrite Ep; apply C_eq; cbn; unfold Rdiv; ring).
    rewrite D, !Cmod_mult, Cmod_opp, Cmod_i, Cmod_R, (Rabs_pos_eq (/ _)) by lra. nra.
Qed.
(** the vertical profile far out *)
Lemma tail_small x : 5 <= x -> (9 / x ^ 2 + 13 / x + 8 + 3 * x) * exp (- x) < 9 / x ^ 2.
Proof.
  intros X. assert (E5 : 9 + 13 * x + 8 * x ^ 2 + 3 * x ^ 3 < 9 * exp x).
  { set (h := x / 2). assert (Eh : exp x = exp h * exp h) by (rewrite <- exp_plus; f_equal; unfold h; field). pose proof (exp_quad h ltac:(unfold h; lra)) as Q.
    assert (H : 5 / 2 <= h) by (unfold h; lra). replace x with (2 * h) by (unfold h; field). replace (2 * h) with x at 4 by (unfold h; field). rewrite Eh.
    set (w := 1 + h + h ^ 2 / 2 + h ^ 3 / 6) in *. assert (W : w * w <= exp h * exp h) by (assert (0 < w) by (unfold w; nra); nra).
    assert (Z : 9 + 13 * (2 * h) + 8 * (2 * h) ^ 2 + 3 * (2 * h) ^ 3 < 9 * (w * w)); [|lra].
    unfold w. assert (exists d, h = 5 / 2 + d /\ 0 <= d) as (d & -> & D) by (exists (h - 5 / 2); lra).
    assert (0 <= d ^ 2) by nra. assert (0 <= d ^ 3) by (apply pow_le; lra). assert (0 <= d ^ 4) by (apply pow_le; lra). assert (0 <= d ^ 5) by (apply pow_le; lra). assert (0 <= d ^ 6) by (apply pow_le; lra). nra. }
  assert (P : 0 < x ^ 2) by (apply pow_lt; lra). pose proof (exp_pos x) as Ex. rewrite exp_Ropp.
  apply (Rmult_lt_reg_r (x ^ 2 * exp x)); [nra|]. replace ((9 / x ^ 2 + 13 / x + 8 + 3 * x) * / exp x * (x ^ 2 * exp x)) with (9 + 13 * x + 8 * x ^ 2 + 3 * x ^ 3) by (field; lra).
  replace (9 / x ^ 2 * (x ^ 2 * exp x)) with (9 * exp x) by (field; lra). exact E5.
Qed.
