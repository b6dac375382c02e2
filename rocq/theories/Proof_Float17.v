(** The vertical field of a vertical dipole on a half-space in floating point (C142). *)
From Coq Require Import ZArith Reals Lra Lia Psatz.
From Flocq Require Import Core.
From Coquelicot Require Import Coquelicot.
From Verif Require Import Vec3 Calculus Deriv Cplx Model_FDEM Model_Float Model_Float3 Model_Float6 Model_Float8 Spec_Float Spec_Float2 Spec_Float5
  Proof_FDEM Proof_FDEM5 Proof_Float Proof_Float2 Proof_Float3 Proof_Float5 Proof_Float6 Proof_Float7 Proof_Float8 Proof_Float9 Proof_Float11 Proof_Float12 Proof_Float13.
Open Scope R_scope.

(** the exact response in terms of x = r / skin depth *)
Definition Pv (x : R) : R := exp (- x) * ((9 + 9 * x - 2 * x ^ 3) * cos x + (9 * x + 8 * x ^ 2 + 2 * x ^ 3) * sin x).
Definition Jv (x : R) : R := exp (- x) * ((9 * x + 8 * x ^ 2 + 2 * x ^ 3) * cos x - (9 + 9 * x - 2 * x ^ 3) * sin x).
Definition dPv (x : R) : R := 2 * x * exp (- x) * ((1 + x) * sin x - (x + 2 * x ^ 2) * cos x).
Lemma Pv_deriv x : is_derive (fun t => 9 - Pv t) x (dPv x).
Proof. unfold Pv, dPv. auto_derive; [exact Logic.I|]. ring. Qed.
Lemma Pv_0 : 9 - Pv 0 = 0.
Proof. unfold Pv. rewrite Ropp_0, exp_0, cos_0. ring. Qed.
Lemma bracket c : 0 < c <= / 4 -> - (2 * c ^ 2) <= (1 + c) * sin c - (c + 2 * c ^ 2) * cos c < 0.
Proof.
  intros [A B]. pose proof (sin_le c ltac:(lra)) as S. pose proof (cos_low c ltac:(lra)) as L. pose proof (COS_bound c) as CB.
  pose proof PI_gt3. pose proof (sin_ge_xcos c ltac:(lra)) as T. split.
  - assert (T2 : c - c ^ 3 / 2 <= sin c) by nra. assert ((1 + c) * (c - c ^ 3 / 2) <= (1 + c) * sin c) by (apply Rmult_le_compat_l; lra).
    assert ((c + 2 * c ^ 2) * cos c <= c + 2 * c ^ 2) by nra. assert (0 < c ^ 2) by nra. assert (c ^ 3 <= c ^ 2 * / 4) by nra. assert (c ^ 4 <= c ^ 2 * / 16) by nra. nra.
  - assert ((1 + c) * sin c <= (1 + c) * c) by (apply Rmult_le_compat_l; lra).
    assert ((c + 2 * c ^ 2) * (1 - c ^ 2 / 2) <= (c + 2 * c ^ 2) * cos c) by (apply Rmult_le_compat_l; nra).
    assert (0 < c ^ 2) by nra. assert (c ^ 3 <= c ^ 2 * / 4) by nra. assert (c ^ 4 <= c ^ 2 * / 16) by nra. nra.
Qed.
Lemma Pv_small x : 0 < x <= / 4 -> - x ^ 4 <= 9 - Pv x < 0.
Proof.
  intros [X X4]. split.
  - assert (D : forall c, 0 <= c <= x -> derivable_pt_lim (fun t => (9 - Pv t) + t ^ 4) c (dPv c + 4 * c ^ 3)).
    { intros c _. apply is_derive_Reals. apply (is_derive_plus (fun t => 9 - Pv t) (fun t => t ^ 4)); [apply Pv_deriv|auto_derive; [exact Logic.I|cbn; ring]]. }
    destruct (MVT_cor2 _ _ 0 x X D) as (c & E & C1 & C2). rewrite Pv_0 in E. replace (0 + 0 ^ 4) with 0 in E by ring.
    destruct (bracket c ltac:(lra)) as [B _]. pose proof (exp_pos (- c)) as EP. assert (E1 : exp (- c) <= 1) by (rewrite <- exp_0; apply exp_le; lra).
    assert (0 <= dPv c + 4 * c ^ 3).
    { unfold dPv. set (b := (1 + c) * sin c - (c + 2 * c ^ 2) * cos c) in *. assert (- (2 * c ^ 2) <= exp (- c) * b) by (assert (0 <= c ^ 2) by nra; nra).
      replace (2 * c * exp (- c) * b + 4 * c ^ 3) with (2 * c * (exp (- c) * b + 2 * c ^ 2)) by ring. apply Rmult_le_pos; lra. }
    assert (0 <= (dPv c + 4 * c ^ 3) * (x - 0)) by (apply Rmult_le_pos; lra). lra.
  - assert (D : forall c, 0 <= c <= x -> derivable_pt_lim (fun t => 9 - Pv t) c (dPv c)).
    { intros c _. apply is_derive_Reals, Pv_deriv. }
    destruct (MVT_cor2 _ _ 0 x X D) as (c & E & C1 & C2). rewrite Pv_0 in E. destruct (bracket c ltac:(lra)) as [_ B]. pose proof (exp_pos (- c)) as EP.
    assert (dPv c < 0). { unfold dPv. assert (0 < 2 * c * exp (- c)) by (apply Rmult_lt_0_compat; lra). nra. }
    assert (dPv c * (x - 0) < 0) by nra. lra.
Qed.

Lemma div_imag o d : 0 < d -> float d -> cfdiv (creal o) (0, - d) = (0, fl (fl o * fl (1 / d))).
Proof.
  intros DP FD. unfold cfdiv, creal. cbn [fst snd]. destruct (Rle_dec _ _) as [L|L].
  - exfalso. rewrite Rabs_Ropp, Rabs_R0, Rabs_pos_eq in L by lra. lra.
  - replace (0 / - d) with 0 by (field; lra). z. rewrite (fl_id d FD).
    replace (1 / - d) with (- (1 / d)) by (field; lra). z. reflexivity.
Qed.
Lemma vert_im m F e (z1 z2 : C) (sec : bool) :
  let em := cfadd (creal 0) (cfmul (0, F) (cfsub (creal 9) (cfmul z1 z2))) in
  snd (cfmul (creal m) (if sec then cfsub em (creal e) else em)) = fl (m * fl (F * fl (9 - fst (cfmul z1 z2)))).
Proof.
  intro em. unfold em. set (Pc := cfmul z1 z2). destruct Pc as [a b]. destruct sec; unfold cfmul, cfsub, cfadd, creal; cbn [fst snd]; z; reflexivity.
Qed.

Section Vert.
  Variables (csq cex cube : C -> C) (pow : R -> nat -> R) (mu_0 : R) (s : mhalf) (p : vec3).
  Hypothesis GS : good_csqrt csq.
  Hypothesis GP : good_pow pow.
  Hypothesis M0 : 0 < mu_0. Hypothesis F0 : 0 < fd_freq (mh_med s). Hypothesis S0 : 0 < fd_sigma (mh_med s).
  Hypothesis Q : is_True (fd_qs (mh_med s)) = true.
  Hypothesis OX : vx (mh_orient s) = 0. Hypothesis OY : vy (mh_orient s) = 0.
  Hypothesis O : off s p.
  Notation f := (fd_freq (mh_med s)). Notation sg := (fd_sigma (mh_med s)).
  Notation K := (kap f sg mu_0).
  Let r := sqrt ((vx p - vx (mh_loc s)) ^ 2 + (vy p - vy (mh_loc s)) ^ 2).
  Notation x := (K * r).
  Let RP : 0 < r := proj1 (off_pos s p O).
  Lemma Kp : 0 < K. Proof. apply K_pos; assumption. Qed.
  Lemma x0 : 0 < x. Proof. apply Rmult_lt_0_compat; [exact Kp|exact RP]. Qed.
  Definition vamp := vz (mh_orient s) / (K * K * r ^ 5).
  Lemma exact_val iv kv sec : cvz (mh_H iv kv mu_0 s sec p) =
    (mh_moment s / (4 * PI) * (vamp * Jv x - if sec then - vz (mh_orient s) / r ^ 3 else 0), mh_moment s / (4 * PI) * (vamp * (9 - Pv x))).
  Proof.
    rewrite (mh_form iv kv mu_0 s sec p O). cbv zeta. unfold mh_vec. fold r. rewrite OX, OY. 
    assert (EK : mh_k mu_0 s = (K, - K)).
    { unfold mh_k, fd_sigma_hat, sigma_hat. rewrite Q. change (2 * PI * f) with (omega f). apply k_is; assumption. }
    rewrite EK. pose proof Kp as KP. rewrite !Rmult_0_l, Rplus_0_l.
    set (j := Jv x).
    assert (EH : mh_hz (K, (- K)%R) r = ((0, (/ (K * K * r ^ 5))%R) * ((9 - Pv x)%R, (- j)%R))%C).
    { unfold mh_hz. set (kc := ((K, - K) : C)).
      replace (- Ci * kc * r)%C with ((- x, - x) : C) by (unfold kc; apply C_eq; cbn; ring).
      unfold cexp. cbn [Re Im fst snd]. rewrite cos_neg, sin_neg.
      assert (D : (kc ^ 2 * r ^ 5)%C = ((0, - (2 * (K * K) * r ^ 5)) : C)) by (unfold kc; apply C_eq; cbn; ring). rewrite D.
      assert (B : (9 + 9 * Ci * kc * r - 4 * kc ^ 2 * r ^ 2 - Ci * kc ^ 3 * r ^ 3)%C = ((9 + 9 * x - 2 * x ^ 3, 9 * x + 8 * x ^ 2 + 2 * x ^ 3) : C)) by (unfold kc; apply C_eq; cbn; ring). rewrite B.
      assert (R5 : 0 < r ^ 5) by (apply pow_lt, RP). assert (KK : 0 < K * K) by (apply Rmult_lt_0_compat; exact KP).
      assert (Q2 : Cdiv 2 (0, - (2 * (K * K) * r ^ 5)) = ((0, / (K * K * r ^ 5)) : C)) by (clear -R5 KK; revert R5 KK; generalize (K * K) (r ^ 5); intros a b A B; apply C_eq; cbn; field; lra).
      rewrite Q2. f_equal. unfold Pv, j, Jv. apply C_eq; cbn; ring. }
    rewrite EH. unfold vamp. set (w := / (K * K * r ^ 5)). unfold Rdiv. fold w. generalize (9 - Pv x). intros q. clearbody j w. fold (vz (mh_orient s) / r ^ 3).
    destruct sec; apply C_eq; cbn [cvz cvscal cvsub cvof cvzero mh_prim vz]; fold r; unfold Rdiv; cbn; ring.
  Qed.
  Lemma exact_im iv kv sec : Im (cvz (mh_H iv kv mu_0 s sec p)) = mh_moment s / (4 * PI) * (vamp * (9 - Pv x)).
  Proof. rewrite exact_val. reflexivity. Qed.

  (** ** the computed value *)
  Notation rc := (fmh_r s p).
  Lemma near_r : near 3 rc r.
  Proof.
    unfold fmh_r. apply near_round. apply near_sqrt; [pose proof (pow2_ge_0 (vx p - vx (mh_loc s))); pose proof (pow2_ge_0 (vy p - vy (mh_loc s))); lra|]. change (2 * 2)%nat with 4%nat. apply near_round.
    assert (S : forall t, near 3 (fl (fl t * fl t)) (t ^ 2)). { intro t. replace (t ^ 2) with (t * t) by ring. apply near_round. change 2%nat with (1 + 1)%nat. apply near_mult; apply near_fl. }
    apply near_plus; try apply pow2_ge_0; apply S.
  Qed.
  Lemma near_pw n : (n <= 5)%nat -> near 24 (pow rc n) (r ^ n).
  Proof.
    intros L. replace 24%nat with (9 + 15)%nat by lia. apply near_trans with (rc ^ n); [apply pow_near, GP|]. apply (near_weaken (n * 3)); [lia|].
    induction n as [|n IH]; [apply near_refl|]. cbn [Rpow_def.pow]. replace (S n * 3)%nat with (3 + n * 3)%nat by lia. apply near_mult; [apply near_r|apply IH; lia].
  Qed.
  Lemma vert_structure : exists Fc P, near 56 Fc vamp /\ float P /\ forall sec,
    snd (fmh_hz csq cex cube pow mu_0 s sec p) = fl (fl (mh_moment s / fl (4 * fpi)) * fl (Fc * fl (9 - P))).
  Proof.
    pose proof Kp as KP. pose proof (near_y' f sg mu_0) as NY. set (y := fl (fl (fl (fl (2 * fpi) * f) * mu_0) * sg)) in *.
    pose proof (omega_pos f F0) as OP. assert (WP : 0 < omega f * mu_0 * sg) by (apply Rmult_lt_0_compat; [apply Rmult_lt_0_compat|]; assumption).
    assert (YP : 0 < y) by (apply (near_pos 5 y _ NY WP)).
    destruct (GS y YP) as (h & HE & HW).
    assert (NH : near 12 h K).
    { replace 12%nat with (9 + 3)%nat by lia. apply near_trans with (sqrt (y / 2)); [apply (within_near 8); [lra|cbn; lra|lra|exact HW]|].
      unfold kap. apply near_sqrt; [lra|]. apply (near_weaken 5); [lia|]. replace 5%nat with (5 + 0)%nat by lia. apply near_div; [exact NY|apply near_refl]. }
    assert (NG : near 26 (fl (2 * fl (h * h))) (2 * (K * K))).
    { apply near_round. replace 25%nat with (0 + 25)%nat by lia. apply near_mult; [apply near_refl|]. apply near_round. replace 24%nat with (12 + 12)%nat by lia. apply near_mult; exact NH. }
    set (g := fl (2 * fl (h * h))) in *.
    assert (ND : near 51 (fl (g * pow rc 5%nat)) (2 * (K * K) * r ^ 5)).
    { apply near_round. replace 50%nat with (26 + 24)%nat by lia. apply near_mult; [exact NG|apply near_pw; lia]. }
    assert (R5 : 0 < r ^ 5) by (apply pow_lt, RP). assert (KK : 0 < K * K) by (apply Rmult_lt_0_compat; exact KP).
    set (d := fl (g * pow rc 5%nat)) in *.
    assert (DP : 0 < d) by (apply (near_pos 51 _ _ ND); apply Rmult_lt_0_compat; [lra|exact R5]).
    set (o := fl (vz (mh_orient s) * 2)).
    set (z1 := cfsub (cfsub (cfadd (creal 9) (cfmul (cfmul (0, 9) (h, - h)) (creal rc))) (cfmul (cfmul (creal 4) (cfmul (h, - h) (h, - h))) (creal (pow rc 2%nat)))) (cfmul (cfmul (0, 1) (cube (h, - h))) (creal (pow rc 3%nat)))).
    set (z2 := cex (cfmul (cfmul (0, - (1)) (h, - h)) (creal rc))).
    exists (fl (fl o * fl (1 / d))), (fst (cfmul z1 z2)). split; [|split].
    - unfold vamp. replace (vz (mh_orient s) / (K * K * r ^ 5)) with (vz (mh_orient s) * 2 * (1 / (2 * (K * K) * r ^ 5))) by (revert R5 KK; clear; generalize (K * K) (r ^ 5); intros a b B A; field; lra).
      apply near_round. change 55%nat with (2 + 53)%nat. apply near_mult; [apply near_round, near_fl|]. apply (near_weaken 52); [lia|]. apply near_round. replace 51%nat with (0 + 51)%nat by lia. apply near_div; [apply near_refl|exact ND].
    - apply fl_float.
    - intro sec. unfold fmh_hz. cbv zeta.
      assert (Ek : fmh_k csq mu_0 s = (h, - h)).
      { unfold fmh_k. cbv zeta. rewrite (m1 f sg mu_0). exact HE. }
      rewrite Ek. fold z1 z2. rewrite (m2 h). fold g. pose proof (m3 h (pow rc 5%nat)) as E3. fold g in E3. rewrite E3. fold d. fold o.
      rewrite (div_imag o d DP (fl_float _)). apply vert_im.
  Qed.
  Lemma vert_lost iv kv sec : mh_moment s <> 0 -> vz (mh_orient s) <> 0 -> x <= / 2 ^ 13 ->
    useless 7 (snd (fmh_hz csq cex cube pow mu_0 s sec p)) (Im (cvz (mh_H iv kv mu_0 s sec p))).
  Proof.
    intros NM NZ XL. destruct vert_structure as (Fc & P & NF & FP & CE). rewrite CE, exact_im. clear CE. pose proof x0 as XP.
    destruct (Pv_small x ltac:(lra)) as [RL RN]. assert (R5 : 0 < r ^ 5) by (apply pow_lt, RP). pose proof Kp as KP. assert (KK : 0 < K * K) by (apply Rmult_lt_0_compat; exact KP). pose proof PI_RGT_0 as Pi.
    assert (CN : vamp <> 0) by (unfold vamp; apply Rmult_integral_contrapositive_currified; [exact NZ|apply Rinv_neq_0_compat; nra]).
    assert (MN : mh_moment s / (4 * PI) <> 0) by (apply Rmult_integral_contrapositive_currified; [exact NM|apply Rinv_neq_0_compat; lra]).
    set (n := mh_moment s / (4 * PI)) in *. set (c := vamp) in *. set (q0 := 9 - Pv x) in *.
    assert (NN : near 4 (fl (mh_moment s / fl (4 * fpi))) n).
    { unfold n. apply (near_weaken 3); [lia|]. apply near_round. change 2%nat with (0 + 2)%nat. apply near_div; [apply near_refl|]. apply near_round. change 1%nat with (0 + 1)%nat. apply near_mult; [apply near_refl|apply near_pi]. }
    split.
    { apply Rmult_integral_contrapositive_currified; [exact MN|]. apply Rmult_integral_contrapositive_currified; [exact CN|lra]. }
    assert (GG : fl (9 - P) = 0 \/ / 2 ^ 49 <= Rabs (fl (9 - P))).
    { destruct (Rle_dec 8 P) as [L|L].
      - assert (G : grid (-49) (9 - P)).
        { apply grid_minus; [|apply grid_float; [exact FP|cbn; lra]].
          apply grid_float; [replace 9 with (IZR 9 * bpow radix2 0) by (cbn; ring); apply float_int; lia|cbn; lra]. }
        destruct (grid_gap _ _ (grid_fl _ _ G)) as [Z|Z]; [left; exact Z|right]. eapply Rle_trans; [|exact Z]. cbn. lra.
      - right. assert (1 <= fl (9 - P)).
        { rewrite <- (fl_id 1) by (replace 1 with (IZR 1 * bpow radix2 0) by (cbn; ring); apply float_int; lia). apply fl_mono. lra. }
        rewrite Rabs_pos_eq by lra. lra. }
    destruct GG as [Z|Z].
    - left. rewrite Z. rewrite !Rmult_0_r, fl0, Rmult_0_r, fl0. ring.
    - right. assert (X4 : x ^ 4 <= / 2 ^ 52).
      { replace (/ 2 ^ 52) with ((/ 2 ^ 13) ^ 4) by (rewrite <- Rinv_pow by lra; rewrite <- pow_mult; reflexivity). apply pow_incr. lra. }
      set (q := fl (9 - P)) in *.
      assert (NQ : near 62 (fl (fl (mh_moment s / fl (4 * fpi)) * fl (Fc * q))) (n * (c * q))).
      { apply near_round. replace 61%nat with (4 + 57)%nat by lia. apply near_mult; [exact NN|]. apply near_round. replace 56%nat with (56 + 0)%nat by lia. apply near_mult; [exact NF|apply near_refl]. }
      destruct (near_abs 62 _ _ ltac:(lia) NQ) as [LQ _].
      apply Rlt_le_trans with (2 := LQ). rewrite !Rabs_mult, (Rabs_left q0) by lra.
      assert (0 < Rabs n) by (apply Rabs_pos_lt, MN). assert (0 < Rabs c) by (apply Rabs_pos_lt, CN).
      replace (7 * (Rabs n * (Rabs c * - q0))) with (Rabs n * Rabs c * (7 * - q0)) by ring. replace (999 / 1000 * (Rabs n * (Rabs c * Rabs q))) with (Rabs n * Rabs c * (999 / 1000 * Rabs q)) by ring.
      apply Rmult_lt_compat_l; [apply Rmult_lt_0_compat; assumption|].
      apply Rle_lt_trans with (7 * / 2 ^ 52); [lra|]. apply Rlt_le_trans with (999 / 1000 * / 2 ^ 49); [lra|]. lra.
  Qed.
End Vert.
