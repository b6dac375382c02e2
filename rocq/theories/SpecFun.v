(** The error function and the modified Bessel functions of integer order, as defined by
    integrals in Model_TDEM.v: derivatives, the Gaussian integral, recurrences. *)
From Coq Require Import Reals Lra.
From Coquelicot Require Import Coquelicot.
From Verif Require Import Vec3 Calculus Deriv Integral Model_TDEM.
Open Scope R_scope.

(** derivative under the integral sign, with the derivative given *)
Lemma derive_param (f df : R -> R -> R) a b x : a <= b ->
  (forall u t, is_derive (fun u => f u t) u (df u t)) ->
  (forall t, continuity_2d_pt df x t) ->
  (forall u t, continuous (f u) t) ->
  is_derive (fun u => RInt (f u) a b) x (RInt (df x) a b).
Proof.
  intros L D C2 C1.
  eapply is_derive_eq.
  - apply is_derive_RInt_param.
    + exists (mkposreal 1 Rlt_0_1). intros u _ t _. eexists. apply D.
    + intros t _. apply continuity_2d_pt_ext_loc with (f := df).
      * exists (mkposreal 1 Rlt_0_1). intros u v _ _. symmetry. apply is_derive_unique, D.
      * apply C2.
    + exists (mkposreal 1 Rlt_0_1). intros u _. apply (ex_RInt_continuous (V:=R_CompleteNormedModule)). intros t _. apply C1.
  - apply RInt_ext. intros t _. apply is_derive_unique, D.
Qed.

Ltac Rring := lazymatch goal with |- @eq _ ?a ?b => change (@eq R a b) end; ring.

Lemma c2_fst x y : continuity_2d_pt (fun u _ => u) x y.
Proof. intros e. exists e. intros u v Hu _. exact Hu. Qed.
Lemma c2_snd x y : continuity_2d_pt (fun _ v => v) x y.
Proof. intros e. exists e. intros u v _ Hv. exact Hv. Qed.

(** ** erf *)
Definition gauss (t : R) : R := exp (- t ^ 2).
Lemma gauss_cont t : continuous gauss t.
Proof. apply continuity_pt_filterlim. eapply derive_continuity. unfold gauss. der. Qed.
Lemma gauss_int a b : ex_RInt gauss a b.
Proof. apply (ex_RInt_continuous (V:=R_CompleteNormedModule)). intros t _. apply gauss_cont. Qed.
Lemma gauss_pos t : 0 < gauss t. Proof. apply exp_pos. Qed.

Lemma D_gint x : is_derive (fun x => RInt gauss 0 x) x (gauss x).
Proof.
  apply (is_derive_RInt gauss (fun x => RInt gauss 0 x) 0 x).
  - exists (mkposreal 1 Rlt_0_1). intros y _. apply (RInt_correct (V:=R_CompleteNormedModule)), gauss_int.
  - apply gauss_cont.
Qed.

Lemma sqrt_PI_pos : 0 < sqrt PI. Proof. apply sqrt_lt_R0, PI_RGT_0. Qed.

Lemma D_erf x : is_derive erf x (2 / sqrt PI * exp (- x ^ 2)).
Proof.
  unfold erf. eapply is_derive_eq; [apply is_derive_scal; apply D_gint|]. reflexivity.
Qed.

Lemma erf_0 : erf 0 = 0.
Proof. unfold erf. rewrite RInt_point. unfold zero; cbn. ring. Qed.

(** the Gaussian integral: F^2 + D = pi/4 *)
Definition gaux (x t : R) : R := exp (- x ^ 2 * (1 + t ^ 2)) / (1 + t ^ 2).
Lemma gaux_den t : 0 < 1 + t ^ 2. Proof. nra. Qed.

Lemma D_gaux x t : is_derive (fun x => gaux x t) x (-2 * x * exp (- x ^ 2 * (1 + t ^ 2))).
Proof.
  pose proof (gaux_den t). unfold gaux. eapply is_derive_eq; [der; lra|]. cbn [INR Init.Nat.pred]. field. lra.
Qed.

Lemma D_gaux_int x : is_derive (fun x => RInt (gaux x) 0 1) x (RInt (fun t => -2 * x * exp (- x ^ 2 * (1 + t ^ 2))) 0 1).
Proof.
  apply (derive_param gaux (fun x t => -2 * x * exp (- x ^ 2 * (1 + t ^ 2)))); [lra| | |].
  - intros u t. apply D_gaux.
  - intro t. apply (continuity_2d_pt_mult (fun u _ => -2 * u) (fun u v => exp (- u ^ 2 * (1 + v ^ 2)))).
    + apply (continuity_2d_pt_mult (fun _ _ => -2) (fun u _ => u)); [apply continuity_2d_pt_const|apply c2_fst].
    + apply (continuity_1d_2d_pt_comp exp (fun u v => - u ^ 2 * (1 + v ^ 2))).
      * apply (derive_continuity _ _ (exp (- x ^ 2 * (1 + t ^ 2)))). apply is_derive_exp.
      * apply (continuity_2d_pt_mult (fun u _ => - u ^ 2) (fun _ v => 1 + v ^ 2)).
        -- apply (continuity_1d_2d_pt_comp (fun u => - u ^ 2) (fun u _ => u)); [|apply c2_fst]. eapply derive_continuity. der.
        -- apply (continuity_1d_2d_pt_comp (fun v => 1 + v ^ 2) (fun _ v => v)); [|apply c2_snd]. eapply derive_continuity. der.
  - intros u t. apply continuity_pt_filterlim. pose proof (gaux_den t). eapply derive_continuity. unfold gaux. der. lra.
Qed.

Lemma gauss_subst x : RInt (fun t => -2 * x * exp (- x ^ 2 * (1 + t ^ 2))) 0 1 = -2 * exp (- x ^ 2) * RInt gauss 0 x.
Proof.
  transitivity (RInt (fun t => scal (-2 * exp (- x ^ 2)) (scal x (gauss (x * t + 0)))) 0 1).
  - apply RInt_ext. intros t _. unfold scal; cbn [scal]. change (-2 * x * exp (- x ^ 2 * (1 + t ^ 2)) = (-2 * exp (- x ^ 2)) * (x * exp (- (x * t + 0) ^ 2))).
    replace (- x ^ 2 * (1 + t ^ 2)) with (- x ^ 2 + - (x * t + 0) ^ 2) by ring.
    rewrite exp_plus. ring.


  - rewrite (RInt_scal (V:=R_CompleteNormedModule)).
    + rewrite (RInt_comp_lin (V:=R_CompleteNormedModule)); [|apply gauss_int].
      replace (x * 0 + 0) with 0 by ring. replace (x * 1 + 0) with x by ring. reflexivity.
    + apply (ex_RInt_comp_lin (V:=R_NormedModule)). apply gauss_int.
Qed.

Lemma gaussian_integral x : RInt gauss 0 x ^ 2 + RInt (gaux x) 0 1 = PI / 4.
Proof.
  set (phi := fun x => RInt gauss 0 x ^ 2 + RInt (gaux x) 0 1).
  assert (Dphi : forall y, is_derive phi y 0).
  { intro y. unfold phi. eapply is_derive_eq.
    - apply (is_derive_plus (K:=R_AbsRing) (V:=R_NormedModule)); [apply (D_pow (fun x => RInt gauss 0 x) 2); apply D_gint|apply D_gaux_int].
    - rewrite gauss_subst. unfold plus; cbn [INR Init.Nat.pred]; cbn. unfold gauss at 1. cbn [pow]. ring. }
  assert (E : phi x = phi 0).
  { destruct (Rle_dec 0 x) as [L|L].
    - pose proof (FTC phi (fun _ => 0) 0 x L (fun y _ => Dphi y) (fun y _ => continuous_const 0 y)) as X.
      apply (is_RInt_unique (V:=R_CompleteNormedModule)) in X. rewrite RInt_const in X. unfold scal in X; cbn in X. unfold mult in X; cbn in X. lra.
    - pose proof (FTC phi (fun _ => 0) x 0 ltac:(lra) (fun y _ => Dphi y) (fun y _ => continuous_const 0 y)) as X.
      apply (is_RInt_unique (V:=R_CompleteNormedModule)) in X. rewrite RInt_const in X. unfold scal in X; cbn in X. unfold mult in X; cbn in X. lra. }
  unfold phi in E. rewrite E. rewrite RInt_point. change (zero : R) with 0.
  assert (G : is_RInt (gaux 0) 0 1 (atan 1 - atan 0)).
  { apply (FTC atan (gaux 0)); [lra| |].
    - intros t _. eapply is_derive_eq; [apply is_derive_atan|]. unfold gaux.
      replace (- 0 ^ 2 * (1 + t ^ 2)) with 0 by ring. rewrite exp_0. unfold Rsqr. cbn [pow]. rewrite Rmult_1_r. unfold Rdiv. rewrite Rmult_1_l. f_equal. try ring.
    - intros t _. apply continuity_pt_filterlim. pose proof (gaux_den t). eapply derive_continuity. unfold gaux. der. lra. }
  apply (is_RInt_unique (V:=R_CompleteNormedModule)) in G. rewrite G, atan_1, atan_0. change (@zero _) with 0. cbn [pow]. lra.
Qed.

Lemma gaux_int_bound x : 0 < RInt (gaux x) 0 1 <= exp (- x ^ 2).
Proof.
  assert (Ex : ex_RInt (gaux x) 0 1).
  { apply (ex_RInt_continuous (V:=R_CompleteNormedModule)). intros t _. apply continuity_pt_filterlim. pose proof (gaux_den t). eapply derive_continuity. unfold gaux. der. lra. }
  split.
  - apply RInt_gt_0; [lra| |].
    + intros t _. unfold gaux. apply Rdiv_lt_0_compat; [apply exp_pos|apply gaux_den].
    + intros t _. apply continuity_pt_filterlim. pose proof (gaux_den t). eapply derive_continuity. unfold gaux. der. lra.
  - replace (exp (- x ^ 2)) with (RInt (fun _ => exp (- x ^ 2)) 0 1).
    2:{ rewrite RInt_const. change (scal (1 - 0) (exp (- x ^ 2))) with ((1 - 0) * exp (- x ^ 2)). lra. }
    apply RInt_le; [lra|exact Ex|apply ex_RInt_const|].
    intros t _. unfold gaux. pose proof (gaux_den t).
    assert (exp (- x ^ 2 * (1 + t ^ 2)) <= exp (- x ^ 2)).
    { destruct (Req_dec (- x ^ 2 * (1 + t ^ 2)) (- x ^ 2)) as [->|N]; [lra|]. left. apply exp_increasing.
      assert (0 <= x ^ 2) by nra. assert (0 <= t ^ 2) by nra. assert (0 <= x ^ 2 * t ^ 2) by (apply Rmult_le_pos; assumption). lra. }
    apply Rle_div_l; [lra|]. pose proof (exp_pos (- x ^ 2)). assert (0 <= t ^ 2) by nra. nra.
Qed.

Lemma erf_sq x : 0 < 1 - erf x ^ 2 <= 4 / PI * exp (- x ^ 2).
Proof.
  pose proof (gaussian_integral x) as G. pose proof (gaux_int_bound x) as [L U]. pose proof PI_RGT_0.
  assert (E : 1 - erf x ^ 2 = 4 / PI * RInt (gaux x) 0 1).
  { unfold erf. change (fun t => exp (- t ^ 2)) with gauss.
    replace ((2 / sqrt PI * RInt gauss 0 x) ^ 2) with (4 / (sqrt PI * sqrt PI) * RInt gauss 0 x ^ 2).
    2:{ pose proof sqrt_PI_pos. field. lra. }
    rewrite sqrt_sqrt by lra. replace (RInt (gaux x) 0 1) with (PI / 4 - RInt gauss 0 x ^ 2) by lra. field. lra. }
  rewrite E. assert (0 < 4 / PI) by (apply Rdiv_lt_0_compat; lra). split.
  - apply Rmult_lt_0_compat; lra.
  - apply Rmult_le_compat_l; lra.
Qed.

Lemma erf_lt_1 x : -1 < erf x < 1.
Proof. pose proof (erf_sq x) as [L _]. split; nra. Qed.

Lemma erf_pos x : 0 < x -> 0 < erf x.
Proof.
  intro Hx. unfold erf. apply Rmult_lt_0_compat; [apply Rdiv_lt_0_compat; [lra|apply sqrt_PI_pos]|].
  apply RInt_gt_0; [exact Hx|intros t _; apply gauss_pos|intros t _; apply gauss_cont].
Qed.

Lemma erf_near_1 x : 0 < x -> 1 - 4 / PI * exp (- x ^ 2) <= erf x.
Proof. intro Hx. pose proof (erf_sq x). pose proof (erf_pos x Hx). pose proof (erf_lt_1 x). nra. Qed.

Lemma D_erf_comp (f : R -> R) x a : is_derive f x a -> is_derive (fun t => erf (f t)) x (a * (2 / sqrt PI * exp (- f x ^ 2))).
Proof. intro D. apply (D_comp erf f); [apply D_erf|exact D]. Qed.

(** ** Bessel functions *)
Definition bker (n : nat) (z t : R) : R := exp (z * cos t) * cos (INR n * t).
Lemma bker_cont n z t : continuous (bker n z) t.
Proof. apply continuity_pt_filterlim. eapply derive_continuity. unfold bker. der. Qed.
Lemma bker_int n z a b : ex_RInt (bker n z) a b.
Proof. apply (ex_RInt_continuous (V:=R_CompleteNormedModule)). intros t _. apply bker_cont. Qed.

Lemma bker_cos n z t : cos t * bker (S n) z t = / 2 * (bker n z t + bker (S (S n)) z t).
Proof.
  unfold bker. rewrite !S_INR.
  replace ((INR n + 1 + 1) * t) with ((INR n + 1) * t + t) by ring.
  replace (INR n * t) with ((INR n + 1) * t - t) by ring. rewrite cos_plus, cos_minus. field.
Qed.
Lemma bker_sin n z t : sin t * (exp (z * cos t) * sin (INR (S n) * t)) = / 2 * (bker n z t - bker (S (S n)) z t).
Proof.
  unfold bker. rewrite !S_INR.
  replace ((INR n + 1 + 1) * t) with ((INR n + 1) * t + t) by ring.
  replace (INR n * t) with ((INR n + 1) * t - t) by ring. rewrite cos_plus, cos_minus. field.
Qed.

Lemma D_bker_int n z : is_derive (fun z => RInt (bker n z) 0 PI) z (RInt (fun t => cos t * bker n z t) 0 PI).
Proof.
  pose proof PI_RGT_0.
  apply (derive_param (bker n) (fun z t => cos t * bker n z t)); [lra| | |].
  - intros u t. unfold bker. eapply is_derive_eq; [der|]. ring.
  - intro t. apply (continuity_2d_pt_mult (fun _ v => cos v) (fun u v => bker n u v)).
    + apply (continuity_1d_2d_pt_comp cos (fun _ v => v)); [apply continuity_cos|apply c2_snd].
    + unfold bker. apply (continuity_2d_pt_mult (fun u v => exp (u * cos v)) (fun _ v => cos (INR n * v))).
      * apply (continuity_1d_2d_pt_comp exp (fun u v => u * cos v)).
        -- apply derivable_continuous, derivable_exp.
        -- apply (continuity_2d_pt_mult (fun u _ => u) (fun _ v => cos v)); [apply c2_fst|].
           apply (continuity_1d_2d_pt_comp cos (fun _ v => v)); [apply continuity_cos|apply c2_snd].
      * apply (continuity_1d_2d_pt_comp (fun v => cos (INR n * v)) (fun _ v => v)); [|apply c2_snd]. eapply derive_continuity. der.
  - intros u t. apply bker_cont.
Qed.

Lemma iv_eq n z : iv n z = / PI * RInt (bker n z) 0 PI. Proof. reflexivity. Qed.

Lemma D_iv_0 z : is_derive (iv 0) z (iv 1 z).
Proof.
  apply D_ext with (f := fun z => / PI * RInt (bker 0 z) 0 PI); [reflexivity|]. eapply is_derive_eq; [apply D_scal, D_bker_int|].
  rewrite iv_eq. f_equal. apply RInt_ext. intros t _. unfold bker. cbn [INR]. rewrite !Rmult_0_l, cos_0, Rmult_1_l. Rring.
Qed.

Lemma RInt_lin2 (f g : R -> R) c a b (k : R) : (forall t, continuous f t) -> (forall t, continuous g t) ->
  RInt (fun t => k * (f t + c * g t)) a b = k * (RInt f a b + c * RInt g a b).
Proof.
  intros Cf Cg.
  assert (If : ex_RInt f a b) by (apply (ex_RInt_continuous (V:=R_CompleteNormedModule)); intros t _; apply Cf).
  assert (Ig : ex_RInt g a b) by (apply (ex_RInt_continuous (V:=R_CompleteNormedModule)); intros t _; apply Cg).
  apply (is_RInt_unique (V:=R_CompleteNormedModule)).
  apply (is_RInt_scal (V:=R_NormedModule)). apply (is_RInt_plus (V:=R_NormedModule)).
  - apply (RInt_correct (V:=R_CompleteNormedModule)), If.
  - apply (is_RInt_scal (V:=R_NormedModule)). apply (RInt_correct (V:=R_CompleteNormedModule)), Ig.
Qed.

Lemma D_iv_S n z : is_derive (iv (S n)) z (/ 2 * (iv n z + iv (S (S n)) z)).
Proof.
  apply D_ext with (f := fun z => / PI * RInt (bker (S n) z) 0 PI); [reflexivity|]. eapply is_derive_eq; [apply D_scal, D_bker_int|].
  rewrite !iv_eq. rewrite (RInt_ext _ (fun t => / 2 * (bker n z t + 1 * bker (S (S n)) z t))).
  - rewrite RInt_lin2; [Rring|apply bker_cont|apply bker_cont].
  - intros t _. rewrite bker_cos. Rring.
Qed.

Lemma sin_INR_PI n : sin (INR n * PI) = 0.
Proof.
  induction n as [|n IH]; [cbn [INR]; rewrite Rmult_0_l; apply sin_0|].
  rewrite S_INR. replace ((INR n + 1) * PI) with (INR n * PI + PI) by ring. rewrite neg_sin, IH. ring.
Qed.

Lemma iv_rec n z : z * (iv n z - iv (S (S n)) z) = 2 * INR (S n) * iv (S n) z.
Proof.
  pose proof PI_RGT_0.
  assert (F : is_RInt (fun t => INR (S n) * bker (S n) z t - z * / 2 * (bker n z t - bker (S (S n)) z t)) 0 PI
            (exp (z * cos PI) * sin (INR (S n) * PI) - exp (z * cos 0) * sin (INR (S n) * 0))).
  { apply (FTC (fun t => exp (z * cos t) * sin (INR (S n) * t))); [lra| |].
    - intros t _. eapply is_derive_eq; [der|].
      replace (z * / 2 * (bker n z t - bker (S (S n)) z t)) with (z * (/ 2 * (bker n z t - bker (S (S n)) z t))) by ring.
      rewrite <- bker_sin. unfold bker. ring.
    - intros t _. apply continuity_pt_filterlim. eapply derive_continuity. unfold bker. der. }
  rewrite sin_INR_PI, (Rmult_0_r (INR (S n))), sin_0, !Rmult_0_r, Rminus_0_r in F. apply (is_RInt_unique (V:=R_CompleteNormedModule)) in F.
  rewrite (RInt_ext _ (fun t => 1 * (INR (S n) * bker (S n) z t + (- z * / 2) * (bker n z t - bker (S (S n)) z t)))) in F by (intros t _; Rring).
  rewrite (RInt_lin2 (fun t => INR (S n) * bker (S n) z t) (fun t => bker n z t - bker (S (S n)) z t)) in F.
  - rewrite !iv_eq.
    assert (E1 : RInt (fun t => INR (S n) * bker (S n) z t) 0 PI = INR (S n) * RInt (bker (S n) z) 0 PI).
    { rewrite (RInt_ext _ (fun t => INR (S n) * (bker (S n) z t + 0 * bker n z t))) by (intros t _; Rring).
      rewrite RInt_lin2; [Rring|apply bker_cont|apply bker_cont]. }
    assert (E2 : RInt (fun t => bker n z t - bker (S (S n)) z t) 0 PI = RInt (bker n z) 0 PI - RInt (bker (S (S n)) z) 0 PI).
    { rewrite (RInt_ext _ (fun t => 1 * (bker n z t + (-1) * bker (S (S n)) z t))) by (intros t _; Rring).
      rewrite RInt_lin2; [Rring|apply bker_cont|apply bker_cont]. }
    rewrite E1, E2 in F.
    set (a := RInt (bker n z) 0 PI) in *. set (b := RInt (bker (S (S n)) z) 0 PI) in *. set (c := RInt (bker (S n) z) 0 PI) in *.
    clearbody a b c. set (N := INR (S n)) in *. clearbody N.
    assert (G : z * (a - b) = 2 * N * c) by lra.
    replace (z * (/ PI * a - / PI * b)) with (/ PI * (z * (a - b))) by ring. rewrite G. ring.
  - intro t. apply continuity_pt_filterlim. eapply derive_continuity. unfold bker. der.
  - intro t. apply continuity_pt_filterlim. eapply derive_continuity. unfold bker. der.
Qed.

(** the three forms used by the half-space dipole *)
Lemma D_iv_1 z : z <> 0 -> is_derive (iv 1) z (iv 0 z - iv 1 z / z).
Proof.
  intro Hz. eapply is_derive_eq; [apply D_iv_S|]. pose proof (iv_rec 0 z) as E. cbn [INR] in E.
  assert (iv 2 z = iv 0 z - 2 * iv 1 z / z) as ->. { apply (Rmult_eq_reg_l z); [|exact Hz]. field_simplify; [|exact Hz]. lra. }
  field. exact Hz.
Qed.
Lemma iv_2 z : z <> 0 -> iv 2 z = iv 0 z - 2 * iv 1 z / z.
Proof. intro Hz. pose proof (iv_rec 0 z) as E. cbn [INR] in E. apply (Rmult_eq_reg_l z); [|exact Hz]. field_simplify; [|exact Hz]. lra. Qed.
