(** Late times: the power laws of the transient sources (C125). *)
From Coq Require Import Reals Lra.
From Coquelicot Require Import Coquelicot.
From Verif Require Import Vec3 Calculus Deriv Integral Numpy Model_Spatial Model_TDEM Model_Static SpecFun Spec_TDEM Proof_Static2 Proof_Loop2 Proof_FDEM2 Proof_FDEM3 Proof_Fourier5 Proof_TDEM Proof_TDEM2 Proof_TDEM2 Proof_TDEM3 Spec_Limits Proof_Limits Proof_Limits3 Proof_Limits4 Proof_Late.
Open Scope R_scope.

(** a field k g(c / sqrt t) whose profile behaves like L u^n decays like sqrt t ^ -n *)
Lemma power_law n (P x g : R -> R) c k L : 0 < c -> (forall t, 0 < t -> P t = sqrt t ^ n) -> (forall t, 0 < t -> x t = k * g (c / sqrt t)) ->
  late (fun u => g u / u ^ n) L -> ends_at (fun t => P t * x t) (k * c ^ n * L).
Proof.
  intros C HP X G. apply (late_lim _ (fun u => k * c ^ n * (g u / u ^ n)) c); [exact C| |now apply late_scal].
  intros t Ht. pose proof (sqrt_lt_R0 t Ht) as W. assert (W1 : / sqrt t <> 0) by (apply Rinv_neq_0_compat; lra).
  rewrite HP, X by exact Ht. cbn beta. set (q := g _). clearbody q.
  replace ((c / sqrt t) ^ n) with (c ^ n / sqrt t ^ n) by (unfold Rdiv; rewrite Rpow_mult_distr, pow_inv; reflexivity). pose proof (pow_lt _ n W). pose proof (pow_lt _ n C). field. split; lra.
Qed.
Lemma p3 t : 0 < t -> t * sqrt t = sqrt t ^ 3.
Proof. intro H. pose proof (sqrt_sqrt t ltac:(lra)) as S. set (w := sqrt t) in *. clearbody w. subst t. ring. Qed.
Lemma p4 t : 0 < t -> t ^ 2 = sqrt t ^ 4.
Proof. intro H. pose proof (sqrt_sqrt t ltac:(lra)) as S. set (w := sqrt t) in *. clearbody w. subst t. ring. Qed.
Lemma p5 t : 0 < t -> t ^ 2 * sqrt t = sqrt t ^ 5.
Proof. intro H. pose proof (sqrt_sqrt t ltac:(lra)) as S. set (w := sqrt t) in *. clearbody w. subst t. ring. Qed.
Lemma p6 t : 0 < t -> t ^ 3 = sqrt t ^ 6.
Proof. intro H. pose proof (sqrt_sqrt t ltac:(lra)) as S. set (w := sqrt t) in *. clearbody w. subst t. ring. Qed.
Lemma p1 t : 0 < t -> sqrt t = sqrt t ^ 1.
Proof. intros _. ring. Qed.
Lemma late_exp1 : late (fun u => exp (- u ^ 2)) 1.
Proof.
  apply (late_poly _ _ 2); [lra|]. intros u Hu. destruct (exp_poly u ltac:(lra)) as (h & Hh & ->). exists (u * (- 1 + u ^ 2 / 2 - h * u ^ 4)). split; [field|].
  assert (0 <= u ^ 2 <= 1) by nra. assert (0 <= u ^ 4 <= 1) by nra. assert (0 <= h * u ^ 4 <= 1 / 6) by nra. assert (-2 <= - 1 + u ^ 2 / 2 - h * u ^ 4 <= 2) by lra. apply Rabs_le. nra.
Qed.
Lemma late_gauss_n n : late (fun u => u ^ n * exp (- u ^ 2) / u ^ n) 1.
Proof. apply (late_ext (fun u => exp (- u ^ 2))); [|exact late_exp1]. intros u Hu. pose proof (pow_lt u n ltac:(lra)). field. lra. Qed.
Lemma late_n3 : late (fun u => nloop u / u ^ 3) 0.
Proof.
  apply (late_ext (fun u => u * (u * (nloop u / u ^ 5)))); [intros u Hu; field; lra|].
  destruct late_n5 as (K & K0 & H). exists (K + Rabs (8 / 5 / sqrt PI)). pose proof (Rabs_pos (8 / 5 / sqrt PI)). split; [lra|]. intros u Hu. rewrite Rminus_0_r. specialize (H u Hu). set (q := nloop u / u ^ 5) in *. clearbody q.
  rewrite !Rabs_mult, (Rabs_pos_eq u) by lra. assert (Rabs q <= K + Rabs (8 / 5 / sqrt PI)).
  { replace q with ((q - 8 / 5 / sqrt PI) + 8 / 5 / sqrt PI) at 1 by ring. eapply Rle_trans; [apply Rabs_triang|]. nra. }
  pose proof (Rabs_pos q). set (B := K + _) in *. clearbody B. assert (u * Rabs q <= B) by nra. nra.
Qed.

Section Loop.
  Variables sg mu a I n : R.
  Hypothesis Hs : 0 < sg.
  Hypothesis Hm : 0 < mu.
  Hypothesis Ha : 0 < a.
  Let s := sqrt (mu * sg).
  Let c := s * a / 2.
  Lemma s2 : s ^ 2 = mu * sg. Proof. unfold s. apply pow2_sqrt. nra. Qed.
  Lemma loop_late : ends_at (fun t => t * sqrt t * tloop_hz t sg mu a I n) (n * I * a ^ 2 * s ^ 3 / (30 * sqrt PI)).
  Proof.
    pose proof (lc sg mu a Hs Hm Ha) as C. pose proof sqrt_PI_pos.
    replace (n * I * a ^ 2 * s ^ 3 / (30 * sqrt PI)) with (n * I / (2 * a) * c ^ 3 * (8 / 15 / sqrt PI)) by (unfold c; field; split; lra).
    apply (power_law 3 _ _ gloop); [exact C|exact p3| |exact late_g3].
    intros t Ht. rewrite tloop_hz_g, theta_u by assumption. fold s. fold c. unfold Rdiv. ring.
  Qed.
  Lemma dloop_late : ends_at (fun t => t ^ 2 * sqrt t * tloop_dbz t sg mu a I n) (- (mu * (n * I * a ^ 2 * s ^ 3 / (20 * sqrt PI)))).
  Proof.
    pose proof (lc sg mu a Hs Hm Ha) as C. pose proof sqrt_PI_pos.
    replace (- (mu * (n * I * a ^ 2 * s ^ 3 / (20 * sqrt PI)))) with (- n * I / (sg * a ^ 3) * c ^ 5 * (8 / 5 / sqrt PI)).
    2:{ unfold c. replace ((s * a / 2) ^ 5) with (s ^ 2 * s ^ 3 * a ^ 5 / 32) by field. rewrite s2. field. repeat split; lra. }
    apply (power_law 5 _ _ nloop); [exact C|exact p5| |exact late_n5].
    intros t Ht. rewrite tloop_dbz_n, theta_u by assumption. reflexivity.
  Qed.
End Loop.

Section Vmd.
  Variables sg mu m x y : R.
  Hypothesis Hs : 0 < sg.
  Hypothesis Hm : 0 < mu.
  Hypothesis O : x <> 0 \/ y <> 0.
  Let s := sqrt (mu * sg).
  Let r := vmd_off x y.
  Let c := s * r / 2.
  Let k := m / (4 * PI) / r ^ 3.
  Lemma dir : cos (atan2 y x) = x / r /\ sin (atan2 y x) = y / r.
  Proof. apply (atan2_dir x y). destruct O; [|rewrite Rplus_comm]; apply Rplus_lt_le_0_compat; try apply pow2_ge_0; apply pow2_gt_0; assumption. Qed.
  Lemma s4 : s ^ 4 = (mu * sg) ^ 2. Proof. rewrite <- (s2 sg mu Hs Hm). unfold s. ring. Qed.
  Lemma vmd_late : ends_at (fun t => t ^ 2 * vx (vmd_H t sg mu m x y)) (m * (mu * sg) ^ 2 / (128 * PI) * x) /\
    ends_at (fun t => t ^ 2 * vy (vmd_H t sg mu m x y)) (m * (mu * sg) ^ 2 / (128 * PI) * y) /\
    ends_at (fun t => t * sqrt t * vz (vmd_H t sg mu m x y)) (m * s ^ 3 / (30 * PI * sqrt PI)).
  Proof.
    pose proof (vc sg mu x y Hs Hm O) as C. fold r in C. fold s in C. pose proof sqrt_PI_pos as W. pose proof PI_RGT_0 as P. pose proof (vr x y O) as Rp. fold r in Rp. destruct dir as [Ec Es].
    assert (X : forall z, m * (mu * sg) ^ 2 / (128 * PI) * z = k * (z / r) * c ^ 4 * (1 / 2)) by (intro z; rewrite <- s4; unfold k, c; field; lra).
    split; [|split].
    - rewrite X. apply (power_law 4 _ _ gr); [exact C|exact p4| |exact late_gr4]. intros t Ht. rewrite vmd_H_u by assumption. cbn [vx]. rewrite Ec. reflexivity.
    - rewrite X. apply (power_law 4 _ _ gr); [exact C|exact p4| |exact late_gr4]. intros t Ht. rewrite vmd_H_u by assumption. cbn [vy]. rewrite Es. reflexivity.
    - replace (m * s ^ 3 / (30 * PI * sqrt PI)) with (k * c ^ 3 * (16 / 15 / sqrt PI)) by (unfold k, c; field; lra).
      apply (power_law 3 _ _ gz); [exact C|exact p3| |exact late_gz3]. intros t Ht. rewrite vmd_H_u by assumption. reflexivity.
  Qed.
  Lemma dvmd_late : ends_at (fun t => t ^ 3 * vx (vmd_dH t sg mu m x y)) (- (m * (mu * sg) ^ 2 / (64 * PI) * x)) /\
    ends_at (fun t => t ^ 3 * vy (vmd_dH t sg mu m x y)) (- (m * (mu * sg) ^ 2 / (64 * PI) * y)) /\
    ends_at (fun t => t ^ 2 * sqrt t * vz (vmd_dH t sg mu m x y)) (- (m * s ^ 3 / (20 * PI * sqrt PI))).
  Proof.
    pose proof (vc sg mu x y Hs Hm O) as C. fold r in C. fold s in C. pose proof sqrt_PI_pos as W. pose proof PI_RGT_0 as P. pose proof (vr x y O) as Rp. fold r in Rp. destruct dir as [Ec Es].
    assert (S0 : 0 < s) by (apply sqrt_lt_R0; nra). change (0 < c) in C.
    assert (X : forall z, - (m * (mu * sg) ^ 2 / (64 * PI) * z) = k / c ^ 2 * (z / r) * c ^ 6 * -1) by (intro z; rewrite <- s4; unfold k, c; field; lra).
    assert (G6 : late (fun u => u ^ 2 * dgr u / u ^ 6) (-1)) by (apply (late_ext (fun u => dgr u / u ^ 4)); [intros u Hu; field; lra|exact late_dgr4]).
    assert (G5 : late (fun u => u ^ 2 * dgz u / u ^ 5) (- (8 / 5) / sqrt PI)) by (apply (late_ext (fun u => dgz u / u ^ 3)); [intros u Hu; field; lra|exact late_dgz3]).
    split; [|split].
    - rewrite X. apply (power_law 6 _ _ (fun u => u ^ 2 * dgr u)); [exact C|exact p6| |exact G6]. intros t Ht. rewrite vmd_dH_u by assumption. cbn [vx]. rewrite Ec. reflexivity.
    - rewrite X. apply (power_law 6 _ _ (fun u => u ^ 2 * dgr u)); [exact C|exact p6| |exact G6]. intros t Ht. rewrite vmd_dH_u by assumption. cbn [vy]. rewrite Es. reflexivity.
    - replace (- (m * s ^ 3 / (20 * PI * sqrt PI))) with (k / c ^ 2 * c ^ 5 * (- (8 / 5) / sqrt PI)) by (unfold k, c; field; lra).
      apply (power_law 5 _ _ (fun u => u ^ 2 * dgz u)); [exact C|exact p5| |exact G5]. intros t Ht. rewrite vmd_dH_u by assumption. reflexivity.
  Qed.
End Vmd.

Lemma ends_mul_scal (P : R -> R) a A v : ends_at (fun t => P t * a t) A -> vends_at (fun t => vscal (P t) (vscal (a t) v)) (vscal A v).
Proof. intro E. eapply vends_ext; [|exact (vends_scal _ _ v E)]. intros t _. cbn beta. veq; ring. Qed.

Section Dipole.
  Variables (s : tedip) (p : vec3).
  Hypothesis Hs : 0 < td_sigma (te_med s).
  Hypothesis Hm : 0 < td_mu (te_med s).
  Hypothesis N : p <> te_loc s.
  Let q := vsub p (te_loc s).
  Let r := vnorm q.
  Let k := sqrt (td_mu (te_med s) * td_sigma (te_med s)).
  Let c := k * r / 2.
  Let Il := te_current s * te_length s.
  Lemma dr : 0 < r. Proof. apply vnorm_pos, vsub_nz, N. Qed.
  Lemma dk : 0 < k. Proof. apply sqrt_lt_R0. nra. Qed.
  Lemma dc : 0 < c. Proof. pose proof dr. pose proof dk. unfold c. nra. Qed.
  Lemma te_A_late : vends_at (fun t => vscal (sqrt t) (te_A (te_at s t) p)) (vscal (Il * k / (4 * PI * sqrt PI)) (te_orient s)).
  Proof.
    pose proof sqrt_PI_pos. pose proof PI_RGT_0. pose proof dr.
    eapply vends_ext; [intros t Ht; rewrite (te_A_u s p Hs Hm t Ht); reflexivity|]. apply ends_mul_scal.
    replace (Il * k / (4 * PI * sqrt PI)) with (Il / (4 * PI * r) * c ^ 1 * (2 / sqrt PI)) by (unfold c; field; lra).
    apply (power_law 1 _ _ erf); [exact dc|exact p1|reflexivity|]. apply (late_ext (fun u => erf u / u)); [intros u Hu; field; lra|exact late_erf1].
  Qed.
  Lemma te_H_late : vends_at (fun t => vscal (t * sqrt t) (te_H (te_at s t) p)) (vscal (Il * k ^ 3 / (24 * PI * sqrt PI)) (vcross (te_orient s) q)).
  Proof.
    pose proof sqrt_PI_pos. pose proof PI_RGT_0. pose proof dr.
    eapply vends_ext; [intros t Ht; rewrite (te_H_u s p Hs Hm N t Ht); reflexivity|]. apply ends_mul_scal.
    replace (Il * k ^ 3 / (24 * PI * sqrt PI)) with (Il / (4 * PI * r ^ 3) * c ^ 3 * (4 / 3 / sqrt PI)) by (unfold c; field; lra).
    apply (power_law 3 _ _ uH); [exact dc|exact p3|reflexivity|exact late_H3].
  Qed.
  Lemma te_dH_late : vends_at (fun t => vscal (t ^ 2 * sqrt t) (te_dH (te_at s t) p)) (vscal (- (Il * k ^ 3 / (16 * PI * sqrt PI))) (vcross (te_orient s) q)).
  Proof.
    pose proof sqrt_PI_pos. pose proof PI_RGT_0. pose proof dr. pose proof dk. pose proof dc.
    eapply vends_ext; [intros t Ht; rewrite (te_dH_u s p Hs Hm N t Ht); reflexivity|]. apply ends_mul_scal.
    replace (- (Il * k ^ 3 / (16 * PI * sqrt PI))) with (Il / (4 * PI * r ^ 3) * (-2 / (sqrt PI * c ^ 2)) * c ^ 5 * 1) by (unfold c; field; lra).
    apply (power_law 5 _ _ (fun u => u ^ 5 * exp (- u ^ 2))); [exact dc|exact p5| |apply late_gauss_n].
    intros t Ht. cbn beta. fold q. fold r. fold k. fold c. fold Il. clearbody c. set (e := exp _). clearbody e. unfold Rdiv. ring.
  Qed.
  Lemma te_E_late : vends_at (fun t => vscal (t * sqrt t) (te_E (te_at s t) p)) (vscal (Il * td_mu (te_med s) * k / (12 * PI * sqrt PI)) (te_orient s)).
  Proof.
    pose proof sqrt_PI_pos. pose proof PI_RGT_0. pose proof dr. set (sg := td_sigma (te_med s)) in *.
    apply (vends_ext (fun t => vadd (vscal (t * sqrt t) (vscal (- (Il / (4 * PI * sg * r ^ 3)) * uO (c / sqrt t)) (te_orient s)))
        (vscal (t * sqrt t) (vscal (Il / (4 * PI * sg * r ^ 5) * vdot (te_orient s) q * nloop (c / sqrt t)) q)))).
    { intros t Ht. rewrite (te_E_u s p Hs Hm N t Ht). fold sg. fold q. fold r. fold k. fold c. fold Il. generalize (- (Il / (4 * PI * sg * r ^ 3)) * uO (c / sqrt t)).
      generalize (Il / (4 * PI * sg * r ^ 5) * vdot (te_orient s) q * nloop (c / sqrt t)). intros A B. clearbody q. veq; ring. }
    replace (vscal (Il * td_mu (te_med s) * k / (12 * PI * sqrt PI)) (te_orient s)) with
      (vadd (vscal (- (Il / (4 * PI * sg * r ^ 3)) * c ^ 3 * (- (8 / 3) / sqrt PI)) (te_orient s)) (vscal (Il / (4 * PI * sg * r ^ 5) * vdot (te_orient s) q * c ^ 3 * 0) q)).
    2:{ rewrite Rmult_0_r, vscal_0l. assert (E : - (Il / (4 * PI * sg * r ^ 3)) * c ^ 3 * (- (8 / 3) / sqrt PI) = Il * td_mu (te_med s) * k / (12 * PI * sqrt PI)).
        { unfold c. replace ((k * r / 2) ^ 3) with (k ^ 2 * k * r ^ 3 / 8) by field. unfold k at 1. rewrite s2 by assumption. fold sg. field. repeat split; lra. }
        rewrite E. veq; ring. }
    apply vends_plus; apply ends_mul_scal.
    - apply (power_law 3 _ _ uO); [exact dc|exact p3|reflexivity|exact late_O3].
    - apply (power_law 3 _ _ nloop); [exact dc|exact p3|reflexivity|exact late_n3].
  Qed.
End Dipole.

Section Wave.
  Variables (s : tpwave) (p : vec3).
  Hypothesis Hs : 0 < td_sigma (tp_med s).
  Hypothesis Hm : 0 < td_mu (tp_med s).
  Let z := vz p.
  Let a := sqrt (td_mu (tp_med s) * td_sigma (tp_med s)).
  Let c := a * Rabs z / 2.
  Lemma tp_E_late : vends_at (fun t => vscal (t * sqrt t) (tp_E (tp_at s t) p)) (vscal (- (tp_amp s * a * z / (2 * sqrt PI))) (tp_orient s)).
  Proof.
    destruct (Req_dec z 0) as [Z|Z].
    - apply (vends_ext (fun _ => vzero)). { intros t Ht. rewrite tp_E_z. unfold kwE. cbn [tp_at tp_amp tp_med at_time td_mu td_sigma td_time tp_orient]. fold z. rewrite Z.
        rewrite Rmult_0_r, Rmult_0_l. unfold Rdiv. rewrite Rmult_0_l, vscal_0l. symmetry. apply vscal_zero. }
      rewrite Z. replace (- (tp_amp s * a * 0 / (2 * sqrt PI))) with 0 by (unfold Rdiv; ring). rewrite vscal_0l. split; [|split]; apply filterlim_const.
    - pose proof (c2 s p Hs Hm Z) as C. change (0 < c) in C. pose proof sqrt_PI_pos. eapply vends_ext; [intros t Ht; rewrite (tp_E_u s p Hs Hm t Ht Z); reflexivity|]. apply ends_mul_scal.
      fold z. fold a. fold c. replace (- (tp_amp s * a * z / (2 * sqrt PI))) with (- tp_amp s * a * z / (2 * sqrt PI * c ^ 3) * c ^ 3 * 1) by (field; lra).
      apply (power_law 3 _ _ (fun u => u ^ 3 * exp (- u ^ 2))); [exact C|exact p3|reflexivity|apply late_gauss_n].
  Qed.
  Lemma tp_B_late : vends_at (fun t => vscal (sqrt t) (tp_B (tp_at s t) p)) (vscal (- (tp_amp s * a / sqrt PI)) (V3 (- vy (tp_orient s)) (vx (tp_orient s)) 0)).
  Proof.
    eapply vends_ext; [intros t Ht; rewrite (tp_B_u s p Hs Hm t Ht); reflexivity|]. apply ends_mul_scal. fold z. fold a. fold c.
    replace (- (tp_amp s * a / sqrt PI)) with (- tp_amp s * a / sqrt PI * 1 ^ 1 * 1) by (unfold Rdiv; ring).
    apply (power_law 1 _ _ (fun u => u * exp (- (c * u) ^ 2))); [lra|exact p1| |].
    - intros t Ht. pose proof (sqrt_lt_R0 t Ht). replace (c * (1 / sqrt t)) with (c / sqrt t) by (field; lra). unfold Rdiv. now rewrite Rmult_1_l.
    - apply (late_ext (fun u => exp (- (c * u) ^ 2))); [intros u Hu; field; lra|].
      exists (c ^ 2). split; [apply pow2_ge_0|]. intros u Hu. destruct (Req_dec (c * u) 0) as [E|E]; [rewrite E; replace (- 0 ^ 2) with 0 by ring; rewrite exp_0, Rminus_diag_eq, Rabs_R0 by reflexivity; pose proof (pow2_ge_0 c); nra|].
      destruct (exp_1 ((c * u) ^ 2)) as (e & He & ->); [now apply pow2_gt_0|]. replace (1 - e * (c * u) ^ 2 - 1) with (- (e * (c * u) ^ 2)) by ring. rewrite Rabs_Ropp. pose proof (pow2_ge_0 c). replace (e * (c * u) ^ 2) with (c ^ 2 * (e * u ^ 2)) by ring. assert (0 <= e * u ^ 2 <= u) by nra. rewrite Rabs_pos_eq by nra. nra.
  Qed.
End Wave.
