(** Early- and late-time limits of the transient fields (C100): plane wave, loop and half-space dipole. *)
From Coq Require Import Reals Lra String List.
From Coquelicot Require Import Coquelicot.
From Verif Require Import Vec3 Calculus Deriv Integral Numpy Model_Spatial Model_TDEM Model_Static SpecFun Spec_TDEM Spec_Fourier Proof_Static2 Proof_Loop2 Proof_FDEM2 Proof_FDEM3 Proof_Fourier Proof_Fourier2 Proof_Fourier5 Proof_TDEM Proof_TDEM2 Proof_TDEM3 Proof_TDEM4 Spec_Limits Proof_Limits Proof_Limits2 Proof_Limits3.
Import ListNotations.
Open Scope R_scope.

(** ** plane wave *)
Section Wave.
  Variables (s : tpwave) (p : vec3).
  Hypothesis Hs : 0 < td_sigma (tp_med s).
  Hypothesis Hm : 0 < td_mu (tp_med s).
  Let z := vz p.
  Let a := sqrt (td_mu (tp_med s) * td_sigma (tp_med s)).
  Let c := a * Rabs z / 2.
  Lemma a_pos : 0 < a. Proof. apply sqrt_lt_R0. nra. Qed.
  Lemma c2 : z <> 0 -> 0 < c.
  Proof. intro Z. pose proof a_pos. pose proof (Rabs_pos_lt z Z). unfold c. nra. Qed.
  Lemma wave_exp t : 0 < t -> exp (- (td_mu (tp_med s) * td_sigma (tp_med s) * z ^ 2) / (4 * t)) = exp (- (c / sqrt t) ^ 2).
  Proof.
    intro Ht. f_equal. pose proof (sqrt_lt_R0 t Ht) as W. pose proof (sqrt_sqrt t ltac:(lra)) as S.
    assert (E : td_mu (tp_med s) * td_sigma (tp_med s) = a * a) by (unfold a; rewrite sqrt_sqrt; nra).
    assert (Z2 : z ^ 2 = Rabs z * Rabs z) by (rewrite <- (pow2_abs z); ring). rewrite E, Z2. unfold c. generalize dependent (sqrt t). intros w W S. subst t. field. lra.
  Qed.
  Lemma tp_E_u t : 0 < t -> z <> 0 -> tp_E (tp_at s t) p = vscal (- tp_amp s * a * z / (2 * sqrt PI * c ^ 3) * ((c / sqrt t) ^ 3 * exp (- (c / sqrt t) ^ 2))) (tp_orient s).
  Proof.
    intros Ht Z. pose proof (c2 Z) as C. rewrite tp_E_z. unfold kwE. cbn [tp_at tp_amp tp_med at_time td_mu td_sigma td_time tp_orient]. fold z. fold a. rewrite wave_exp by exact Ht.
    f_equal. set (e := exp _). clearbody e. pose proof (sqrt_lt_R0 t Ht) as W. pose proof (sqrt_sqrt t ltac:(lra)) as S. pose proof sqrt_PI_pos. clearbody c. clearbody a.
    generalize dependent (sqrt t). intros w W S. subst t. field. repeat split; lra.
  Qed.
  Lemma tp_B_u t : 0 < t -> tp_B (tp_at s t) p = vscal (- tp_amp s * a / sqrt PI * (/ sqrt t * exp (- (c / sqrt t) ^ 2))) (V3 (- vy (tp_orient s)) (vx (tp_orient s)) 0).
  Proof.
    intros Ht. unfold tp_B. cbn [tp_at tp_amp tp_med at_time td_mu td_sigma td_time tp_orient]. fold z.
    replace (- td_mu (tp_med s) * td_sigma (tp_med s) * z ^ 2 / (4 * t)) with (- (td_mu (tp_med s) * td_sigma (tp_med s) * z ^ 2) / (4 * t)) by (field; lra).
    rewrite wave_exp by exact Ht. set (e := exp _). clearbody e.
    assert (E : sqrt (td_sigma (tp_med s) * td_mu (tp_med s) / (PI * t)) = a / sqrt PI * / sqrt t).
    { pose proof PI_RGT_0. assert (0 < PI * t) by nra. rewrite sqrt_div_alt by exact H0. rewrite (sqrt_mult PI t) by lra. rewrite (Rmult_comm (td_sigma _)). fold a. pose proof sqrt_PI_pos. pose proof (sqrt_lt_R0 t Ht). field. lra. }
    rewrite E. set (k := a / sqrt PI * / sqrt t) in *. replace (- tp_amp s * a / sqrt PI * (/ sqrt t * e)) with (- tp_amp s * k * e) by (unfold k, Rdiv; ring). clearbody k. veq; ring.
  Qed.
  Lemma tp_E_starts : z <> 0 -> vstarts_at (fun t => tp_E (tp_at s t) p) vzero.
  Proof.
    intro Z. eapply vstarts_ext; [intros t Ht; symmetry; exact (tp_E_u t Ht Z)|]. rewrite <- (vscal_0l (tp_orient s)). apply vstarts_scal.
    set (k := - tp_amp s * a * z / (2 * sqrt PI * c ^ 3)). apply (early_lim _ (fun u => k * (u ^ 3 * exp (- u ^ 2))) c); [exact (c2 Z)|reflexivity|].
    rewrite <- (Rmult_0_r k). apply early_scal, early_gauss. repeat constructor.
  Qed.
  Lemma tp_E_ends : vends_at (fun t => tp_E (tp_at s t) p) vzero.
  Proof.
    destruct (Req_dec z 0) as [Z|Z].
    - apply (vends_ext (fun _ => vzero)). { intros t Ht. rewrite tp_E_z. unfold kwE. cbn [tp_at tp_amp tp_med at_time td_mu td_sigma td_time tp_orient]. fold z. rewrite Z.
        rewrite Rmult_0_r, Rmult_0_l. unfold Rdiv. rewrite Rmult_0_l, vscal_0l. reflexivity. }
      split; [|split]; apply filterlim_const.
    - eapply vends_ext; [intros t Ht; symmetry; exact (tp_E_u t Ht Z)|]. rewrite <- (vscal_0l (tp_orient s)). apply vends_scal.
      set (k := - tp_amp s * a * z / (2 * sqrt PI * c ^ 3)). apply (late_lim _ (fun u => k * (u ^ 3 * exp (- u ^ 2))) c); [exact (c2 Z)|reflexivity|].
      rewrite <- (Rmult_0_r k). apply late_scal, late_gauss.
  Qed.
  Lemma tp_B_starts : z <> 0 -> vstarts_at (fun t => tp_B (tp_at s t) p) vzero.
  Proof.
    intro Z. eapply vstarts_ext; [intros t Ht; symmetry; exact (tp_B_u t Ht)|]. rewrite <- (vscal_0l (V3 (- vy (tp_orient s)) (vx (tp_orient s)) 0)). apply vstarts_scal.
    set (k := - tp_amp s * a / sqrt PI). pose proof (c2 Z) as C. apply (early_lim _ (fun u => k / c * (u ^ 1 * exp (- u ^ 2))) c); [exact C| |].
    - intros t Ht. pose proof (sqrt_lt_R0 t Ht). set (e := exp _). clearbody e. field. lra.
    - rewrite <- (Rmult_0_r (k / c)). apply early_scal, early_gauss. repeat constructor.
  Qed.
  Lemma tp_B_ends : vends_at (fun t => tp_B (tp_at s t) p) vzero.
  Proof.
    eapply vends_ext; [intros t Ht; symmetry; exact (tp_B_u t Ht)|]. rewrite <- (vscal_0l (V3 (- vy (tp_orient s)) (vx (tp_orient s)) 0)). apply vends_scal.
    set (k := - tp_amp s * a / sqrt PI). apply (late_lim _ (fun u => k * (exp (- (c * u) ^ 2) * u)) 1); [lra| |].
    - intros t Ht. pose proof (sqrt_lt_R0 t Ht). replace (c * (1 / sqrt t)) with (c / sqrt t) by (field; lra). set (e := exp _). clearbody e. field. lra.
    - rewrite <- (Rmult_0_r k). apply late_scal. apply (late_damp (fun u => u) (fun u => exp (- (c * u) ^ 2))); [exact late_id|].
      intros u _. pose proof (exp_le1 (c * u)). rewrite Rabs_right; lra.
  Qed.
End Wave.

(** ** loop *)
Section Loop.
  Variables sg mu a I n : R.
  Hypothesis Hs : 0 < sg.
  Hypothesis Hm : 0 < mu.
  Hypothesis Ha : 0 < a.
  Let c := sqrt (mu * sg) * a / 2.
  Lemma lc : 0 < c. Proof. now apply dd_pos. Qed.
  Lemma loop_starts : starts_at (fun t => tloop_hz t sg mu a I n) (n * I / (2 * a)).
  Proof.
    apply (early_lim _ (fun u => n * I / (2 * a) * gloop u) c); [exact lc| |].
    - intros t Ht. rewrite tloop_hz_g, theta_u by assumption. fold c. unfold Rdiv. ring.
    - set (q := n * I / (2 * a)). pose proof (early_scal q _ _ early_gloop) as E. rewrite Rmult_1_r in E. exact E.
  Qed.
  Lemma loop_ends : ends_at (fun t => tloop_hz t sg mu a I n) 0.
  Proof.
    apply (late_lim _ (fun u => n * I / (2 * a) * gloop u) c); [exact lc| |].
    - intros t Ht. rewrite tloop_hz_g, theta_u by assumption. fold c. unfold Rdiv. ring.
    - rewrite <- (Rmult_0_r (n * I / (2 * a))). apply late_scal, late_gloop.
  Qed.
  Lemma dloop_starts : starts_at (fun t => tloop_dbz t sg mu a I n) (- (3 * n * I / (sg * a ^ 3))).
  Proof.
    apply (early_lim _ (fun u => - n * I / (sg * a ^ 3) * nloop u) c); [exact lc| |].
    - intros t Ht. rewrite tloop_dbz_n, theta_u by assumption. reflexivity.
    - replace (- (3 * n * I / (sg * a ^ 3))) with (- n * I / (sg * a ^ 3) * 3) by (field; lra). apply early_scal, early_n.
  Qed.
  Lemma dloop_ends : ends_at (fun t => tloop_dbz t sg mu a I n) 0.
  Proof.
    apply (late_lim _ (fun u => - n * I / (sg * a ^ 3) * nloop u) c); [exact lc| |].
    - intros t Ht. rewrite tloop_dbz_n, theta_u by assumption. reflexivity.
    - rewrite <- (Rmult_0_r (- n * I / (sg * a ^ 3))). apply late_scal, late_n.
  Qed.
  Lemma loop_total : total (fun t => tloop_dhz t sg mu a I n) (- (n * I / (2 * a))).
  Proof.
    pose proof (int_FTC (fun t => tloop_hz t sg mu a I n) (fun t => tloop_dhz t sg mu a I n) (n * I / (2 * a)) 0 (fun t Ht => tloop_hz_time t sg mu a I n Ht Hs Hm Ha)) as E.
    rewrite <- Rminus_0_l. apply E; [|exact loop_starts|exact loop_ends].
    intros t Ht. apply (continuous_ext_loc _ (fun t => - n * I / (sg * a ^ 3) * nloop (c / sqrt t) / mu)).
    - exists (mkposreal t Ht). intros y Hy. unfold ball in Hy; cbn in Hy. unfold AbsRing_ball, abs, minus, plus, opp in Hy; cbn in Hy. apply Rabs_lt_between in Hy.
      unfold tloop_dhz. rewrite tloop_dbz_n, theta_u by lra. reflexivity.
    - apply continuity_pt_filterlim. pose proof (sqrt_lt_R0 t Ht) as W. assert (X : exists d, is_derive (fun t => nloop (c / sqrt t)) t d).
      { eexists. apply (D_comp nloop (fun t => c / sqrt t)); [|der; lra]. unfold nloop. pose proof (D_erf (c / sqrt t)). pose proof sqrt_PI_pos. der; lra. }
      destruct X as [d D]. eapply derive_continuity. der; lra.
  Qed.
End Loop.

(** ** vertical dipole on a half-space *)
(** the fundamental theorem of calculus over all times, component by component *)
Lemma vtotal_FTC (h dh : R -> vec3) L0 L1 L : (forall t, 0 < t -> is_vderive h t (dh t)) -> vstarts_at h L0 -> vends_at h L1 ->
  (forall t, 0 < t -> continuous (fun t => vx (dh t)) t) -> (forall t, 0 < t -> continuous (fun t => vy (dh t)) t) ->
  (forall t, 0 < t -> continuous (fun t => vz (dh t)) t) -> L = vsub L1 L0 -> vtotal dh L.
Proof.
  intros D (X & Y & Z) (X' & Y' & Z') Cx Cy Cz ->. split; [|split]; cbn [vx vy vz vsub].
  - exact (int_FTC _ _ _ _ (fun t Ht => proj1 (D t Ht)) Cx X X').
  - exact (int_FTC _ _ _ _ (fun t Ht => proj1 (proj2 (D t Ht))) Cy Y Y').
  - exact (int_FTC _ _ _ _ (fun t Ht => proj2 (proj2 (D t Ht))) Cz Z Z').
Qed.

Section Vmd.
  Variables sg mu m x y : R.
  Hypothesis Hs : 0 < sg.
  Hypothesis Hm : 0 < mu.
  Hypothesis O : x <> 0 \/ y <> 0.
  Let r := vmd_off x y.
  Let c := sqrt (mu * sg) * r / 2.
  Lemma vr : 0 < r. Proof. now apply vmd_off_pos. Qed.
  Lemma vc : 0 < c. Proof. apply dd_pos; [exact Hs|exact Hm|exact vr]. Qed.
  Let k := m / (4 * PI) / r ^ 3.
  Lemma vmd_H_u t : 0 < t -> vmd_H t sg mu m x y =
    V3 (k * cos (atan2 y x) * gr (c / sqrt t)) (k * sin (atan2 y x) * gr (c / sqrt t)) (k * gz (c / sqrt t)).
  Proof. intro Ht. rewrite vmd_H_g. fold r. rewrite theta_u by assumption. fold c. fold k. veq; ring. Qed.
  Lemma vmd_dH_u t : 0 < t -> vmd_dH t sg mu m x y =
    V3 (k / c ^ 2 * cos (atan2 y x) * ((c / sqrt t) ^ 2 * dgr (c / sqrt t))) (k / c ^ 2 * sin (atan2 y x) * ((c / sqrt t) ^ 2 * dgr (c / sqrt t))) (k / c ^ 2 * ((c / sqrt t) ^ 2 * dgz (c / sqrt t))).
  Proof.
    intro Ht. pose proof vr. pose proof PI_RGT_0. rewrite vmd_dH_g. fold r. rewrite theta_u by assumption. fold c. pose proof vc.
    replace (m / (4 * PI) * / (r ^ 3 * t)) with (k * / t) by (unfold k; field; repeat split; lra). rewrite (t_of_u c t Ht vc). set (u := c / sqrt t). clearbody u.
    clearbody k. clearbody c. veq; field; lra.
  Qed.
  Lemma vmd_starts : vstarts_at (fun t => vmd_H t sg mu m x y) (V3 0 0 (- (m / (4 * PI * r ^ 3)))).
  Proof.
    eapply vstarts_ext; [intros t Ht; symmetry; exact (vmd_H_u t Ht)|]. split; [|split]; cbn [vx vy vz].
    - apply (early_lim _ (fun u => k * cos (atan2 y x) * gr u) c); [exact vc|reflexivity|]. rewrite <- (Rmult_0_r (k * cos (atan2 y x))). apply early_scal, early_gr.
    - apply (early_lim _ (fun u => k * sin (atan2 y x) * gr u) c); [exact vc|reflexivity|]. rewrite <- (Rmult_0_r (k * sin (atan2 y x))). apply early_scal, early_gr.
    - apply (early_lim _ (fun u => k * gz u) c); [exact vc|reflexivity|]. replace (- (m / (4 * PI * r ^ 3))) with (k * -1). { apply early_scal, early_gz. }
      unfold k. pose proof vr. pose proof PI_RGT_0. field. repeat split; lra.
  Qed.
  Lemma vmd_ends : vends_at (fun t => vmd_H t sg mu m x y) vzero.
  Proof.
    eapply vends_ext; [intros t Ht; symmetry; exact (vmd_H_u t Ht)|]. split; [|split]; cbn [vx vy vz vzero].
    - apply (late_lim _ (fun u => k * cos (atan2 y x) * gr u) c); [exact vc|reflexivity|]. rewrite <- (Rmult_0_r (k * cos (atan2 y x))). apply late_scal, late_gr.
    - apply (late_lim _ (fun u => k * sin (atan2 y x) * gr u) c); [exact vc|reflexivity|]. rewrite <- (Rmult_0_r (k * sin (atan2 y x))). apply late_scal, late_gr.
    - apply (late_lim _ (fun u => k * gz u) c); [exact vc|reflexivity|]. rewrite <- (Rmult_0_r k). apply late_scal, late_gz.
  Qed.
  Lemma dvmd_ends : vends_at (fun t => vmd_dH t sg mu m x y) vzero.
  Proof.
    eapply vends_ext; [intros t Ht; symmetry; exact (vmd_dH_u t Ht)|]. split; [|split]; cbn [vx vy vz vzero].
    - apply (late_lim _ (fun u => k / c ^ 2 * cos (atan2 y x) * (u ^ 2 * dgr u)) c); [exact vc|reflexivity|]. rewrite <- (Rmult_0_r (k / c ^ 2 * cos (atan2 y x))). apply late_scal, late_dgr.
    - apply (late_lim _ (fun u => k / c ^ 2 * sin (atan2 y x) * (u ^ 2 * dgr u)) c); [exact vc|reflexivity|]. rewrite <- (Rmult_0_r (k / c ^ 2 * sin (atan2 y x))). apply late_scal, late_dgr.
    - apply (late_lim _ (fun u => k / c ^ 2 * (u ^ 2 * dgz u)) c); [exact vc|reflexivity|]. rewrite <- (Rmult_0_r (k / c ^ 2)). apply late_scal, late_dgz.
  Qed.
  Lemma dgr_D u : 0 < u -> exists d, is_derive dgr u d.
  Proof.
    intro Hu. assert (W : u ^ 2 / 2 <> 0) by nra. eexists.
    apply (is_derive_ext (fun s => -2 * s ^ 2 * ((1 + s ^ 2) * (iv 0 (s ^ 2 / 2) * exp (- (s ^ 2 / 2))) - (2 + s ^ 2 + 4 / s ^ 2) * (iv 1 (s ^ 2 / 2) * exp (- (s ^ 2 / 2)))))).
    { intro s. unfold dgr. rewrite !ive_half. reflexivity. }
    assert (Dw : is_derive (fun s : R => s ^ 2 / 2) u u) by (eapply is_derive_eq; [der; lra|]; cbn [INR Init.Nat.pred]; field).
    pose proof (D_comp (iv 1) (fun s => s ^ 2 / 2) u _ _ (D_iv_1 _ W) Dw) as D1.
    pose proof (D_comp (iv 0) (fun s => s ^ 2 / 2) u _ _ (D_iv_0 _) Dw) as D2. cbv beta in D1, D2. der; nra.
  Qed.
  Lemma dgz_D u : 0 < u -> exists d, is_derive dgz u d.
  Proof. intro Hu. pose proof sqrt_PI_pos. pose proof (D_erf u). eexists. unfold dgz. der; nra. Qed.
  Lemma cont_u (g : R -> R) K t : (forall u, 0 < u -> exists d, is_derive g u d) -> 0 < t -> continuous (fun t => K * ((c / sqrt t) ^ 2 * g (c / sqrt t))) t.
  Proof.
    intros G Ht. pose proof (sqrt_lt_R0 t Ht) as W. pose proof vc as Vc. destruct (G (c / sqrt t)) as [d D]; [apply Rdiv_lt_0_compat; lra|]. clearbody c.
    assert (Du : is_derive (fun t => c / sqrt t) t (- c * / (2 * sqrt t) / sqrt t ^ 2)) by (eapply is_derive_eq; [der; lra|]; field; lra).
    pose proof (D_comp g (fun t => c / sqrt t) t _ _ D Du) as E. apply continuity_pt_filterlim. eapply derive_continuity.
    apply (D_scal K (fun t => (c / sqrt t) ^ 2 * g (c / sqrt t))). apply (D_mult (fun t => (c / sqrt t) ^ 2) (fun t => g (c / sqrt t))); [|exact E]. der; lra.
  Qed.
  Lemma vmd_total : vtotal (fun t => vmd_dH t sg mu m x y) (V3 0 0 (m / (4 * PI * r ^ 3))).
  Proof.
    assert (D : forall t, 0 < t -> is_vderive (fun t => vmd_H t sg mu m x y) t (vmd_dH t sg mu m x y)) by (intros t Ht; now apply vmd_time).
    assert (Ce : forall (f : R -> R) g K, (forall t, 0 < t -> f t = K * ((c / sqrt t) ^ 2 * g (c / sqrt t))) -> (forall u, 0 < u -> exists d, is_derive g u d) -> forall t, 0 < t -> continuous f t).
    { intros f g K E G t Ht. eapply continuous_ext_loc; [|exact (cont_u g K t G Ht)].
      exists (mkposreal t Ht). intros w Hw. unfold ball in Hw; cbn in Hw. unfold AbsRing_ball, abs, minus, plus, opp in Hw; cbn in Hw. apply Rabs_lt_between in Hw.
      symmetry. apply E. lra. }
    apply (vtotal_FTC _ _ _ _ _ D vmd_starts vmd_ends).
    - apply (Ce _ dgr (k / c ^ 2 * cos (atan2 y x))); [intros t Ht; now rewrite vmd_dH_u|exact dgr_D].
    - apply (Ce _ dgr (k / c ^ 2 * sin (atan2 y x))); [intros t Ht; now rewrite vmd_dH_u|exact dgr_D].
    - apply (Ce _ dgz (k / c ^ 2)); [intros t Ht; now rewrite vmd_dH_u|exact dgz_D].
    - apply vec3_eq; cbn [vx vy vz vsub vzero]; ring.
  Qed.
End Vmd.

(** the static field of a vertical dipole at its own level *)
Lemma vmd_static m mu loc x y : mu <> 0 -> x <> vx loc \/ y <> vy loc ->
  mdipole_field (MD m (V3 0 0 1) loc mu) "cartesian"%string (V3 x y (vz loc)) = Ok (V3 0 0 (- (m / (4 * PI * vmd_off (x - vx loc) (y - vy loc) ^ 3)))).
Proof.
  intros M O. assert (NE : V3 x y (vz loc) <> loc) by (intro E; destruct loc; cbn in *; injection E; intros; destruct O; congruence).
  pose proof (static_is_static (MD m (V3 0 0 1) loc mu) (V3 x y (vz loc)) NE M) as E. cbn [md_moment md_orient md_loc] in E. rewrite E. f_equal.
  assert (Nr : vnorm (vsub (V3 x y (vz loc)) loc) = vmd_off (x - vx loc) (y - vy loc)).
  { unfold vnorm, vnorm2, vmd_off, vsub; cbn [vx vy vz]. f_equal. ring. }
  pose proof (vnorm_pos _ (vsub_nz _ _ NE)) as P. unfold static_dipole. rewrite Nr in *. set (r := vmd_off _ _) in *. clearbody r. pose proof PI_RGT_0.
  unfold vdot, vsub. cbn [vx vy vz]. veq; field; repeat split; lra.
Qed.
