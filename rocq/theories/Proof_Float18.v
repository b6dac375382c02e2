(** The vertical field of a vertical dipole on a half-space in floating point (C142): accuracy. *)
From Coq Require Import ZArith Reals Lra Lia Psatz.
From Flocq Require Import Core.
From Coquelicot Require Import Coquelicot.
From Verif Require Import Vec3 Calculus Deriv Cplx Model_FDEM Model_Float Model_Float3 Model_Float6 Model_Float8 Spec_Float Spec_Float2 Spec_Float5 Spec_Float6
  Proof_FDEM Proof_FDEM5 Proof_Float Proof_Float2 Proof_Float3 Proof_Float5 Proof_Float6 Proof_Float7 Proof_Float8 Proof_Float9 Proof_Float11 Proof_Float12 Proof_Float13 Proof_Float14 Proof_Float17.
Open Scope R_scope.

(** absolute errors in units of roundoff of a magnitude *)
Definition ae (c M a b : R) : Prop := Rabs (a - b) <= c * u * M /\ Rabs b <= M.
Lemma ae_weaken c d M N a b : 0 <= c <= d -> M <= N -> ae c M a b -> ae d N a b.
Proof.
  intros [C D] L [A B]. pose proof u_lt. pose proof (Rabs_pos b). split; [|lra]. eapply Rle_trans; [exact A|].
  apply Rmult_le_compat; [apply Rmult_le_pos; lra|lra|apply Rmult_le_compat_r; lra|lra].
Qed.
Lemma ae_mag c M a b : 0 <= c <= 100000 -> ae c M a b -> Rabs a <= 11 / 10 * M.
Proof.
  intros [C D] [A B]. pose proof u_lt. pose proof (Rabs_pos b). replace a with ((a - b) + b) by ring. eapply Rle_trans; [apply abs_sum; [exact A|exact B]|].
  assert (c * u <= / 10) by nra. nra.
Qed.
Lemma ae_round c M a b : 0 <= c <= 100000 -> ae c M a b -> ae (c + 3) M (fl a) b.
Proof.
  intros C H. pose proof (ae_mag c M a b C H) as G. destruct H as [A B]. split; [|exact B]. pose proof u_lt. pose proof (fl_err a) as F. pose proof (Rabs_pos b).
  replace (fl a - b) with ((fl a - a) + (a - b)) by ring. eapply Rle_trans; [apply abs_sum; [exact F|exact A]|]. nra.
Qed.
Lemma ae_add c M N a b x y : ae c M a b -> ae c N x y -> ae c (M + N) (a + x) (b + y).
Proof.
  intros [A B] [X Y]. split; [|apply abs_sum; assumption]. replace (a + x - (b + y)) with ((a - b) + (x - y)) by ring. eapply Rle_trans; [apply abs_sum; [exact A|exact X]|]. right. ring.
Qed.
Lemma ae_opp c M a b : ae c M a b -> ae c M (- a) (- b).
Proof. intros [A B]. split; [|rewrite Rabs_Ropp; exact B]. replace (- a - - b) with (- (a - b)) by ring. rewrite Rabs_Ropp. exact A. Qed.
Lemma ae_sub c M N a b x y : ae c M a b -> ae c N x y -> ae c (M + N) (a - x) (b - y).
Proof. intros A B. apply ae_add; [exact A|apply ae_opp, B]. Qed.
Lemma ae_mul c d M N a b x y : 0 <= c <= 100000 -> 0 <= d <= 100000 -> ae c M a b -> ae d N x y -> ae (2 * c + d) (M * N) (a * x) (b * y).
Proof.
  intros C D H1 H2. pose proof (ae_mag d N x y D H2) as G. destruct H1 as [A B], H2 as [X Y]. pose proof u_lt as U. pose proof (Rabs_pos b). pose proof (Rabs_pos y). split.
  - replace (a * x - b * y) with ((a - b) * x + b * (x - y)) by ring.
    eapply Rle_trans; [apply abs_sum; [apply abs_prod_le; [exact A|exact G]|apply abs_prod_le; [exact B|exact X]]|].
    assert (0 <= M * N) by (apply Rmult_le_pos; lra). assert (0 <= u * (M * N)) by (apply Rmult_le_pos; lra). assert (0 <= c * (u * (M * N))) by (apply Rmult_le_pos; lra). nra.
  - apply abs_prod_le; assumption.
Qed.
Lemma ae_near k c M a b : (k <= 500)%nat -> INR k + 1 <= c -> Rabs b <= M -> near k a b -> ae c M a b.
Proof.
  intros K C B N. split; [|exact B]. eapply Rle_trans; [apply (near_err k c a b K C N)|]. pose proof u_lt. pose proof (pos_INR k). apply Rmult_le_compat_l; [nra|exact B].
Qed.

Section Prod.
  Variables x v er ei A B : R.
  Hypothesis X : 0 < x.
  Let M := 9 + 9 * x + 8 * x ^ 2 + 2 * x ^ 3.
  Let ez := exp (- (999 / 1000 * x)).
  Hypothesis NV : near 17 v x.
  Hypothesis ER : near 17 er (exp (- v) * cos (- v)).
  Hypothesis EI : near 17 ei (exp (- v) * sin (- v)).
  Hypothesis HA : ae 75 M A (9 + 9 * x - 2 * x ^ 3).
  Hypothesis HB : ae 75 M B (9 * x + 8 * x ^ 2 + 2 * x ^ 3).
  Let N := (1 + x) * ez.
  Lemma v_b : 999 / 1000 * x <= v <= 1001 / 1000 * x.
  Proof. exact (near_low 17 v x ltac:(lia) (Rlt_le _ _ X) NV). Qed.
  Lemma v_e : Rabs (v - x) <= 18 * u * x.
  Proof. pose proof (near_err 17 18 v x ltac:(lia) ltac:(cbn; lra) NV) as H. rewrite (Rabs_pos_eq x) in H by lra. exact H. Qed.
  Lemma part (g : R -> R) e : (forall t, Rabs (g t) <= 1) -> (forall a b, Rabs (g a - g b) <= Rabs (a - b)) -> near 17 e (exp (- v) * g v) -> ae 37 N e (exp (- x) * g x).
  Proof.
    intros G1 GL NE. pose proof u_lt as U. assert (EZ : 0 < ez) by apply exp_pos. pose proof v_b as VB. pose proof v_e as VE.
    assert (EV : 0 < exp (- v) <= ez) by (split; [apply exp_pos|unfold ez; apply exp_le; lra]).
    assert (EX : 0 < exp (- x) <= ez) by (split; [apply exp_pos|unfold ez; apply exp_le; lra]).
    assert (EE : Rabs (exp (- v) - exp (- x)) <= 18 * u * x * ez).
    { eapply Rle_trans; [apply (exp_lip v x (999 / 1000 * x)); lra|]. fold ez. apply Rmult_le_compat_r; lra. }
    pose proof (near_err 17 18 _ _ ltac:(lia) ltac:(cbn; lra) NE) as H1.
    assert (H2 : Rabs (exp (- v) * g v) <= ez * 1) by (apply abs_prod_le; [rewrite Rabs_pos_eq; lra|apply G1]).
    split.
    - replace (e - exp (- x) * g x) with ((e - exp (- v) * g v) + ((exp (- v) - exp (- x)) * g v + exp (- x) * (g v - g x))) by ring.
      eapply Rle_trans; [apply abs_sum; [exact H1|apply abs_sum; apply abs_prod_le; [exact EE|apply G1|rewrite Rabs_pos_eq by lra; apply EX|eapply Rle_trans; [apply GL|exact VE]]]|].
      assert (0 < u * ez) by (apply Rmult_lt_0_compat; lra). assert (0 < u * ez * x) by (apply Rmult_lt_0_compat; lra).
      assert (18 * u * Rabs (exp (- v) * g v) <= 18 * u * (ez * 1)) by (apply Rmult_le_compat_l; lra). unfold N. lra.
    - eapply Rle_trans; [apply (abs_prod_le _ _ ez 1); [rewrite Rabs_pos_eq; lra|apply G1]|]. unfold N. nra.
  Qed.
  Lemma n_c : ae 37 N er (exp (- x) * cos x).
  Proof. apply (part cos). - intro t. apply Rabs_le, COS_bound. - intros a b. apply cos_lip. - rewrite <- (cos_neg v). exact ER. Qed.
  Lemma n_s : ae 37 N ei (- (exp (- x) * sin x)).
  Proof.
    replace ei with (- - ei) by ring. apply ae_opp, (part sin). - intro t. apply Rabs_le, SIN_bound. - intros a b. apply sin_lip.
    - replace (exp (- v) * sin v) with (- (exp (- v) * sin (- v))) by (rewrite sin_neg; ring). apply near_opp, EI.
  Qed.
  Lemma MN : 0 <= M * N <= 58.
  Proof.
    assert (EZ : 0 < ez) by apply exp_pos. pose proof (e_le1 x X) as E1. pose proof (xe1 x X) as Y1. pose proof (xe2 x X) as Y2. pose proof (xe3 x X) as Y3. fold ez in E1, Y1, Y2, Y3.
    pose proof (xe2 (x / 2) ltac:(lra)) as Z. assert (EH : exp (- (999 / 1000 * (x / 2))) * exp (- (999 / 1000 * (x / 2))) = ez) by (rewrite <- exp_plus; unfold ez; f_equal; field).
    set (eh := exp (- (999 / 1000 * (x / 2)))) in *. assert (0 < eh) by apply exp_pos. assert (Y4 : x ^ 4 * ez <= 66 / 10).
    { rewrite <- EH. replace (x ^ 4 * (eh * eh)) with (16 * (((x / 2) ^ 2 * eh) * ((x / 2) ^ 2 * eh))) by field. assert (0 <= (x / 2) ^ 2 * eh) by (apply Rmult_le_pos; [apply pow2_ge_0|lra]). nra. }
    unfold M, N. split.
    - apply Rmult_le_pos; [|apply Rmult_le_pos; lra]. assert (0 <= x ^ 2) by apply pow2_ge_0. assert (0 < x ^ 3) by (apply pow_lt, X). lra.
    - replace ((9 + 9 * x + 8 * x ^ 2 + 2 * x ^ 3) * ((1 + x) * ez)) with (9 * ez + 18 * (x * ez) + 17 * (x ^ 2 * ez) + 10 * (x ^ 3 * ez) + 2 * (x ^ 4 * ez)) by ring. lra.
  Qed.
  Lemma big c a b : 0 <= c -> ae c (M * N + M * N) a b -> ae c 116 a b.
  Proof. intros C. apply ae_weaken; [lra|]. pose proof MN. lra. Qed.
  Lemma P_err : ae 196 116 (fl (fl (A * er) - fl (B * ei))) (Pv x).
  Proof.
    apply big; [lra|]. replace 196 with (193 + 3) by ring. apply ae_round; [lra|].
    replace (Pv x) with ((9 + 9 * x - 2 * x ^ 3) * (exp (- x) * cos x) - (9 * x + 8 * x ^ 2 + 2 * x ^ 3) * (- (exp (- x) * sin x))) by (unfold Pv; ring).
    apply (ae_weaken 190 193 (M * N + M * N) (M * N + M * N)); [lra|lra|]. replace 190 with (2 * 75 + 37 + 3) by ring.
    apply ae_sub; (apply ae_round; [lra|apply ae_mul; [lra|lra| |]]); [exact HA|exact n_c|exact HB|exact n_s].
  Qed.
  Lemma J_err : ae 196 116 (fl (fl (A * ei) + fl (B * er))) (Jv x).
  Proof.
    apply big; [lra|]. replace 196 with (193 + 3) by ring. apply ae_round; [lra|].
    replace (Jv x) with ((9 + 9 * x - 2 * x ^ 3) * (- (exp (- x) * sin x)) + (9 * x + 8 * x ^ 2 + 2 * x ^ 3) * (exp (- x) * cos x)) by (unfold Jv; ring).
    apply (ae_weaken 190 193 (M * N + M * N) (M * N + M * N)); [lra|lra|]. replace 190 with (2 * 75 + 37 + 3) by ring.
    apply ae_add; (apply ae_round; [lra|apply ae_mul; [lra|lra| |]]); [exact HA|exact n_s|exact HB|exact n_c].
  Qed.
End Prod.

Lemma whole m F e (z1 z2 : C) (sec : bool) :
  let em := cfadd (creal 0) (cfmul (0, F) (cfsub (creal 9) (cfmul z1 z2))) in
  fst (cfmul (creal m) (if sec then cfsub em (creal e) else em)) = fl (m * if sec then fl (fl (F * snd (cfmul z1 z2)) - e) else fl (F * snd (cfmul z1 z2))).
Proof.
  intro em. unfold em. assert (FJ : fl (snd (cfmul z1 z2)) = snd (cfmul z1 z2)) by apply flfl. set (Pc := cfmul z1 z2) in *. destruct Pc as [a b]. cbn [snd] in FJ. destruct sec; unfold cfmul, cfsub, cfadd, creal; cbn [fst snd]; z; rewrite ?FJ; reflexivity.
Qed.

Section Acc.
  Variables (csq cex cube : C -> C) (pow : R -> nat -> R) (mu_0 : R) (s : mhalf) (p : vec3).
  Hypothesis GS : good_csqrt csq.
  Hypothesis GX : good_cexp cex.
  Hypothesis GC : good_cube cube.
  Hypothesis GP : good_pow pow.
  Hypothesis M0 : 0 < mu_0. Hypothesis F0 : 0 < fd_freq (mh_med s). Hypothesis S0 : 0 < fd_sigma (mh_med s).
  Hypothesis Q : is_True (fd_qs (mh_med s)) = true.
  Hypothesis OX : vx (mh_orient s) = 0. Hypothesis OY : vy (mh_orient s) = 0.
  Hypothesis O : off s p.
  Notation f := (fd_freq (mh_med s)). Notation sg := (fd_sigma (mh_med s)).
  Notation K := (kap f sg mu_0).
  Let r := sqrt ((vx p - vx (mh_loc s)) ^ 2 + (vy p - vy (mh_loc s)) ^ 2).
  Notation x := (K * r).
  Let RP : 0 < r := proj1 (off_pos s p O).
  Let XP : 0 < x := x0 mu_0 s p M0 F0 S0 O.
  Let KP : 0 < K := Kp mu_0 s M0 F0 S0.
  Notation rc := (fmh_r s p).
  Notation amp := (vamp mu_0 s p).
  Lemma structure2 : exists Fc P J e m, near 56 Fc amp /\ ae 196 116 P (Pv x) /\ ae 196 116 J (Jv x) /\ near 25 e (- vz (mh_orient s) / r ^ 3) /\ near 4 m (mh_moment s / (4 * PI)) /\ forall sec,
    fmh_hz csq cex cube pow mu_0 s sec p = (fl (m * if sec then fl (fl (Fc * J) - e) else fl (Fc * J)), fl (m * fl (Fc * fl (9 - P)))).
  Proof.
    pose proof (near_y' f sg mu_0) as NY. set (y := fl (fl (fl (fl (2 * fpi) * f) * mu_0) * sg)) in *.
    pose proof (omega_pos f F0) as OP. assert (WP : 0 < omega f * mu_0 * sg) by (apply Rmult_lt_0_compat; [apply Rmult_lt_0_compat|]; assumption).
    assert (YP : 0 < y) by (apply (near_pos 5 y _ NY WP)).
    destruct (GS y YP) as (h & HE & HW).
    assert (NH : near 12 h K).
    { replace 12%nat with (9 + 3)%nat by lia. apply near_trans with (sqrt (y / 2)); [apply (within_near 8); [lra|cbn; lra|lra|exact HW]|].
      unfold kap. apply near_sqrt; [lra|]. apply (near_weaken 5); [lia|]. replace 5%nat with (5 + 0)%nat by lia. apply near_div; [exact NY|apply near_refl]. }
    assert (NG : near 26 (fl (2 * fl (h * h))) (2 * (K * K))).
    { apply near_round. replace 25%nat with (0 + 25)%nat by lia. apply near_mult; [apply near_refl|]. apply near_round. replace 24%nat with (12 + 12)%nat by lia. apply near_mult; exact NH. }
    set (g := fl (2 * fl (h * h))) in *.
    pose proof (near_pw pow s p GP) as PW. fold r in PW. pose proof (near_r s p) as NR. fold r in NR.
    assert (ND : near 51 (fl (g * pow rc 5%nat)) (2 * (K * K) * r ^ 5)).
    { apply near_round. replace 50%nat with (26 + 24)%nat by lia. apply near_mult; [exact NG|apply PW; lia]. }
    assert (R5 : 0 < r ^ 5) by (apply pow_lt, RP). assert (KK : 0 < K * K) by (apply Rmult_lt_0_compat; exact KP).
    set (d := fl (g * pow rc 5%nat)) in *.
    assert (DP : 0 < d) by (apply (near_pos 51 _ _ ND); apply Rmult_lt_0_compat; [lra|exact R5]).
    set (o := fl (vz (mh_orient s) * 2)).
    set (t := fl (fl (9 * h) * rc)). set (s2 := fl (fl (4 * g) * pow rc 2%nat)). set (c3r := fl (fl (snd (cube (h, - h))) * pow rc 3%nat)). set (c3i := fl (fl (fst (cube (h, - h))) * pow rc 3%nat)).
    set (A := fl (fl (9 + t) - - c3r)). set (B := fl (fl (t + s2) - c3i)). set (v := fl (fl h * rc)). set (er := fst (cex (- v, - v))). set (ei := snd (cex (- v, - v))).
    exists (fl (fl o * fl (1 / d))), (fl (fl (A * er) - fl (B * ei))), (fl (fl (A * ei) + fl (B * er))), (fl (- vz (mh_orient s) / pow rc 3%nat)), (fl (mh_moment s / fl (4 * fpi))).
    assert (NT : near 17 t (9 * x)).
    { unfold t. replace (9 * x) with (9 * K * r) by ring. apply near_round. change 16%nat with (13 + 3)%nat. apply near_mult; [|exact NR]. apply near_round. change 12%nat with (0 + 12)%nat. apply near_mult; [apply near_refl|exact NH]. }
    assert (N2 : near 52 s2 (8 * x ^ 2)).
    { unfold s2. replace (8 * x ^ 2) with (4 * (2 * (K * K)) * r ^ 2) by ring. apply near_round. change 51%nat with (27 + 24)%nat. apply near_mult; [|apply PW; lia]. apply near_round. change 26%nat with (0 + 26)%nat. apply near_mult; [apply near_refl|exact NG]. }
    assert (N3 : forall w, within 8 w (- (2 * h ^ 3)) -> near 71 (fl (fl w * pow rc 3%nat)) (- (2 * x ^ 3))).
    { intros w W. replace (- (2 * x ^ 3)) with (- (2 * K ^ 3) * r ^ 3) by ring. apply near_round. change 70%nat with (46 + 24)%nat. apply near_mult; [|apply PW; lia]. apply near_round.
      change 45%nat with (9 + 36)%nat. apply near_trans with (- (2 * h ^ 3)); [apply (within_near 8); [lra|cbn; lra|lra|exact W]|]. apply near_opp. change 36%nat with (0 + 36)%nat. apply near_mult; [apply near_refl|].
      replace (h ^ 3) with (h * (h * h)) by ring. replace (K ^ 3) with (K * (K * K)) by ring. change 36%nat with (12 + (12 + 12))%nat. repeat apply near_mult; exact NH. }
    destruct (GC h) as [G1 G2]. pose proof (N3 _ G1) as N3i. pose proof (N3 _ G2) as N3r. fold c3i in N3i. fold c3r in N3r.
    assert (X2 : 0 < x ^ 2) by (apply pow_lt, XP). assert (X3 : 0 < x ^ 3) by (apply pow_lt, XP).
    set (M := 9 + 9 * x + 8 * x ^ 2 + 2 * x ^ 3).
    assert (A3 : forall w, near 71 w (- (2 * x ^ 3)) -> ae 72 (2 * x ^ 3) w (- (2 * x ^ 3))).
    { intros w W. apply (ae_near 71); [lia|rewrite INR_IZR_INZ; cbn; lra|rewrite Rabs_Ropp, Rabs_pos_eq; lra|exact W]. }
    assert (HA : ae 75 M A (9 + 9 * x - 2 * x ^ 3)).
    { apply (ae_weaken 75 75 (9 + 9 * x + 2 * x ^ 3)); [lra|unfold M; lra|]. unfold A. replace 75 with (72 + 3) by ring. apply ae_round; [lra|].
      replace (9 + 9 * x - 2 * x ^ 3) with (9 + 9 * x + - (2 * x ^ 3)) by ring. replace (fl (9 + t) - - c3r) with (fl (9 + t) + c3r) by ring. apply ae_add; [|apply A3, N3r].
      apply (ae_near 18); [lia|rewrite INR_IZR_INZ; cbn; lra|rewrite Rabs_pos_eq; lra|]. apply near_round. apply near_plus; [lra|lra|apply near_refl|exact NT]. }
    assert (HB : ae 75 M B (9 * x + 8 * x ^ 2 + 2 * x ^ 3)).
    { apply (ae_weaken 75 75 (9 * x + 8 * x ^ 2 + 2 * x ^ 3)); [lra|unfold M; lra|]. unfold B. replace 75 with (72 + 3) by ring. apply ae_round; [lra|].
      replace (9 * x + 8 * x ^ 2 + 2 * x ^ 3) with (9 * x + 8 * x ^ 2 - - (2 * x ^ 3)) at 2 by ring. apply ae_sub; [|apply A3, N3i].
      apply (ae_near 53); [lia|rewrite INR_IZR_INZ; cbn; lra|rewrite Rabs_pos_eq; lra|]. apply near_round. apply near_plus; [lra|lra|apply (near_weaken 17); [lia|exact NT]|exact N2]. }
    assert (NV : near 17 v x). { unfold v. apply near_round. change 16%nat with (13 + 3)%nat. apply near_mult; [apply near_round; exact NH|exact NR]. }
    destruct (GX (- v) (- v)) as [GR GI].
    apply (within_near 16 16) in GR; [|lra|cbn; lra|lra]. apply (within_near 16 16) in GI; [|lra|cbn; lra|lra].
    split; [|split; [|split; [|split; [|split]]]].
    - unfold vamp. fold r. replace (vz (mh_orient s) / (K * K * r ^ 5)) with (vz (mh_orient s) * 2 * (1 / (2 * (K * K) * r ^ 5))) by (revert R5 KK; clear; generalize (K * K) (r ^ 5); intros a b B A; field; lra).
      apply near_round. change 55%nat with (2 + 53)%nat. apply near_mult; [apply near_round, near_fl|]. apply (near_weaken 52); [lia|]. apply near_round. replace 51%nat with (0 + 51)%nat by lia. apply near_div; [apply near_refl|exact ND].
    - apply P_err with (v := v); assumption.
    - apply J_err with (v := v); assumption.
    - apply near_round. change 24%nat with (0 + 24)%nat. apply near_div; [apply near_refl|apply PW; lia].
    - apply (near_weaken 3); [lia|]. apply near_round. change 2%nat with (0 + 2)%nat. apply near_div; [apply near_refl|]. apply near_round. change 1%nat with (0 + 1)%nat. apply near_mult; [apply near_refl|apply near_pi].
    - intro sec.
      assert (Ek : fmh_k csq mu_0 s = (h, - h)).
      { unfold fmh_k. cbv zeta. rewrite (m1 f sg mu_0). exact HE. }
      assert (EZ : cfsub (cfsub (cfadd (creal 9) (cfmul (cfmul (0, 9) (h, - h)) (creal rc))) (cfmul (cfmul (creal 4) (0, - g)) (creal (pow rc 2%nat)))) (cfmul (cfmul (0, 1) (cube (h, - h))) (creal (pow rc 3%nat))) = (A, B)).
      { unfold A, B, t, s2, c3r, c3i. destruct (cube (h, - h)) as [ca cb]. unfold cfsub, cfadd, cfmul, creal. cbn [fst snd]. z. unfold Rminus. z. reflexivity. }
      assert (EV : cfmul (cfmul (0, - (1)) (h, - h)) (creal rc) = (- v, - v)) by (unfold cfmul, creal; cbn [fst snd]; z; reflexivity).
      unfold fmh_hz. cbv zeta. rewrite Ek, (m2 h). fold g. pose proof (m3 h (pow rc 5%nat)) as E3. fold g in E3. rewrite E3. fold d. fold o.
      rewrite EZ, EV, (div_imag o d DP (fl_float _)). apply injective_projections; [rewrite whole|rewrite vert_im]; unfold cfmul at 1; cbn [fst snd]; fold er ei; reflexivity.
  Qed.
  Let D := Rabs (vz (mh_orient s) / r ^ 3).
  Lemma amp_is : Rabs amp = D * / x ^ 2.
  Proof.
    assert (R3 : 0 < r ^ 3) by (apply pow_lt, RP). unfold vamp, D. fold r. replace (vz (mh_orient s) / (K * K * r ^ 5)) with (vz (mh_orient s) / r ^ 3 * / x ^ 2) by (field; split; lra).
    rewrite Rabs_mult, (Rabs_pos_eq (/ x ^ 2)); [reflexivity|]. left. apply Rinv_0_lt_compat, pow_lt, XP.
  Qed.
  Lemma vert_err iv kv sec : let H := cvz (mh_H iv kv mu_0 s sec p) in let Hc := fmh_hz csq cex cube pow mu_0 s sec p in
    let n := mh_moment s / (4 * PI) * (vz (mh_orient s) / r ^ 3) in
    Rabs (fst Hc - Re H) <= 42000 * (1 + / x ^ 2) * u * Rabs n /\ Rabs (snd Hc - Im H) <= 42000 * / x ^ 2 * u * Rabs n.
  Proof.
    intros H Hc n. unfold H, Hc. rewrite (exact_val mu_0 s p M0 F0 S0 Q OX OY O). destruct structure2 as (Fc & P & J & e & m & NF & HP & HJ & NE & NM & ->). fold r. cbn [fst snd Re Im].
    set (w := mh_moment s / (4 * PI)) in *. assert (En : Rabs n = Rabs w * D) by (unfold n, D; apply Rabs_mult). rewrite En.
    pose proof (Rabs_pos w) as W0. assert (D0 : 0 <= D) by apply Rabs_pos. pose proof u_lt as U. assert (I0 : 0 < / x ^ 2) by (apply Rinv_0_lt_compat, pow_lt, XP).
    assert (aF : ae 57 (D * / x ^ 2) Fc amp) by (apply (ae_near 56); [lia|rewrite INR_IZR_INZ; cbn; lra|rewrite amp_is; lra|exact NF]).
    assert (aM : ae 5 (Rabs w) m w) by (apply (ae_near 4); [lia|rewrite INR_IZR_INZ; cbn; lra|lra|exact NM]).
    assert (aE : ae 26 D e (- vz (mh_orient s) / r ^ 3)).
    { apply (ae_near 25); [lia|rewrite INR_IZR_INZ; cbn; lra| |exact NE]. unfold D. replace (- vz (mh_orient s) / r ^ 3) with (- (vz (mh_orient s) / r ^ 3)) by (unfold Rdiv; ring). rewrite Rabs_Ropp. lra. }
    assert (A0 : 0 <= D * / x ^ 2) by (apply Rmult_le_pos; lra).
    assert (UD : 0 <= u * (Rabs w * D)) by (apply Rmult_le_pos; [lra|apply Rmult_le_pos; assumption]). assert (UI : 0 <= u * (Rabs w * D) * / x ^ 2) by (apply Rmult_le_pos; lra).
    split.
    - assert (aFJ : ae 313 (D * / x ^ 2 * 116) (fl (Fc * J)) (amp * Jv x)).
      { replace 313 with (2 * 57 + 196 + 3 - 0) by ring. rewrite Rminus_0_r. apply ae_round; [lra|]. apply ae_mul; [lra|lra|exact aF|exact HJ]. }
      assert (aS : ae 316 (D * / x ^ 2 * 116 + D) (if sec then fl (fl (Fc * J) - e) else fl (Fc * J)) (amp * Jv x - if sec then - vz (mh_orient s) / r ^ 3 else 0)).
      { destruct sec.
        - replace 316 with (313 + 3) by ring. apply ae_round; [lra|]. apply ae_sub; [exact aFJ|]. apply (ae_weaken 26 313 D D); [lra|lra|exact aE].
        - rewrite Rminus_0_r. apply (ae_weaken 313 316 (D * / x ^ 2 * 116)); [lra|lra|exact aFJ]. }
      assert (aR := ae_mul 5 316 _ _ _ _ _ _ ltac:(lra) ltac:(lra) aM aS). apply ae_round in aR; [|lra]. destruct aR as [aR _]. eapply Rle_trans; [exact aR|].
      replace ((2 * 5 + 316 + 3) * u * (Rabs w * (D * / x ^ 2 * 116 + D))) with (38164 * (u * (Rabs w * D) * / x ^ 2) + 329 * (u * (Rabs w * D))) by ring.
      replace (42000 * (1 + / x ^ 2) * u * (Rabs w * D)) with (42000 * (u * (Rabs w * D)) + 42000 * (u * (Rabs w * D) * / x ^ 2)) by ring. lra.
    - assert (a9 : ae 199 125 (fl (9 - P)) (9 - Pv x)).
      { replace 199 with (196 + 3) by ring. apply ae_round; [lra|]. replace 125 with (9 + 116) by ring. apply ae_sub; [|exact HP]. split; [rewrite Rminus_eq_0, Rabs_R0; nra|rewrite Rabs_pos_eq; lra]. }
      assert (aQ := ae_mul 57 199 _ _ _ _ _ _ ltac:(lra) ltac:(lra) aF a9). apply ae_round in aQ; [|lra].
      assert (aR := ae_mul 5 (2 * 57 + 199 + 3) _ _ _ _ _ _ ltac:(lra) ltac:(lra) aM aQ). apply ae_round in aR; [|lra]. destruct aR as [aR _]. eapply Rle_trans; [exact aR|].
      replace ((2 * 5 + (2 * 57 + 199 + 3) + 3) * u * (Rabs w * (D * / x ^ 2 * 125))) with (41125 * (u * (Rabs w * D) * / x ^ 2)) by ring.
      replace (42000 * / x ^ 2 * u * (Rabs w * D)) with (42000 * (u * (Rabs w * D) * / x ^ 2)) by ring. lra.
  Qed.
End Acc.
