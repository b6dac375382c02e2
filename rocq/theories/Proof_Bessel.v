(** The Bessel functions J0 and J1: bounds, decay and Laplace transform.  Generic mathematics. *)
From Coq Require Import Reals Lra.
From Coquelicot Require Import Coquelicot.
From Verif Require Import Vec3 Calculus Deriv Integral Cplx CplxTaylor SpecFun Spec_Fourier Spec_Hankel Proof_Fourier Proof_Hankel Proof_RTE6 Proof_RTE9.
Open Scope R_scope.

(** ** Bounds *)
Lemma sin_le_1 x : Rabs (sin x) <= 1. Proof. apply Rabs_le. pose proof (SIN_bound x). lra. Qed.
Lemma cos_le_1 x : Rabs (cos x) <= 1. Proof. apply Rabs_le. pose proof (COS_bound x). lra. Qed.
Lemma mean_bound (g : R -> R) M : (forall t, exists d, is_derive g t d) -> (forall t, Rabs (g t) <= M) -> Rabs (RInt g 0 PI / PI) <= M.
Proof.
  intros D B. pose proof PI_RGT_0 as P.
  assert (X : ex_RInt g 0 PI).
  { apply (ex_RInt_continuous (V:=R_CompleteNormedModule)). intros t _. destruct (D t) as [d Hd]. apply continuity_pt_filterlim. eapply derive_continuity. exact Hd. }
  pose proof (abs_RInt_le_const g 0 PI M (Rlt_le _ _ P) X (fun t _ => B t)) as H.
  unfold Rdiv. rewrite Rabs_mult, (Rabs_right (/ PI)) by (left; now apply Rinv_0_lt_compat).
  apply (Rmult_le_compat_r (/ PI)) in H; [|left; now apply Rinv_0_lt_compat]. eapply Rle_trans; [exact H|]. right. field. lra.
Qed.
Lemma J0_bound x : Rabs (bessel0 x) <= 1.
Proof. apply (mean_bound (fun t => cos (x * sin t))); intros t; [eexists; der|]. apply cos_le_1. Qed.
Lemma J1_bound x : Rabs (bessel1 x) <= 1.
Proof.
  apply (mean_bound (fun t => sin t * sin (x * sin t))); intros t; [eexists; der|]. rewrite Rabs_mult.
  pose proof (sin_le_1 t). pose proof (sin_le_1 (x * sin t)).
  pose proof (Rabs_pos (sin t)). pose proof (Rabs_pos (sin (x * sin t))). rewrite <- (Rmult_1_r 1). apply Rmult_le_compat; lra.
Qed.
Lemma sin_abs_le x : Rabs (sin x) <= Rabs x.
Proof.
  destruct (MVT_gen sin 0 x cos) as [c [_ E]].
  - intros t _. apply is_derive_sin.
  - intros t _. apply continuity_sin.
  - rewrite sin_0, Rminus_0_r, Rminus_0_r in E. rewrite E, Rabs_mult. pose proof (cos_le_1 c). pose proof (Rabs_pos x). nra.
Qed.
Lemma J1_small x : Rabs (bessel1 x) <= Rabs x.
Proof.
  apply (mean_bound (fun t => sin t * sin (x * sin t))); intros t; [eexists; der|]. rewrite Rabs_mult.
  pose proof (sin_le_1 t). pose proof (sin_abs_le (x * sin t)) as Hs. rewrite Rabs_mult in Hs.
  pose proof (Rabs_pos (sin t)). pose proof (Rabs_pos (sin (x * sin t))). pose proof (Rabs_pos x).
  rewrite <- (Rmult_1_l (Rabs x)). apply Rmult_le_compat; try lra. assert (Rabs x * Rabs (sin t) <= Rabs x * 1) by (apply Rmult_le_compat_l; lra). lra.
Qed.

(** ** Decay: x (J0^2 + J1^2) is bounded *)
Definition energy (x : R) : R := x * (bessel0 x * bessel0 x + bessel1 x * bessel1 x) - bessel0 x * bessel1 x + bessel0 x * bessel0 x / (2 * x).
Lemma D_energy x : 0 < x -> is_derive energy x (- (bessel0 x * bessel0 x) / (2 * (x * x))).
Proof.
  intros P. pose proof (D_bessel0 x) as D0. pose proof (D_bessel1 x ltac:(lra)) as D1. unfold energy.
  eapply is_derive_eq; [der; lra|]. field. lra.
Qed.
Lemma energy_le x : 1 <= x -> energy x <= energy 1.
Proof.
  intros P. destruct (Req_dec x 1) as [->|N]; [lra|].
  destruct (MVT_gen energy 1 x (fun x => - (bessel0 x * bessel0 x) / (2 * (x * x)))) as [c [Hc E]].
  - intros t Ht. rewrite Rmin_left, Rmax_right in Ht by lra. apply D_energy. lra.
  - intros t Ht. rewrite Rmin_left, Rmax_right in Ht by lra. eapply derive_continuity, D_energy. lra.
  - rewrite Rmin_left, Rmax_right in Hc by lra. assert (0 <= bessel0 c * bessel0 c / (2 * (c * c))) by (apply Rdiv_le_0_compat; nra).
    assert (- (bessel0 c * bessel0 c) / (2 * (c * c)) = - (bessel0 c * bessel0 c / (2 * (c * c)))) as E2 by (field; lra).
    rewrite E2 in E. nra.
Qed.
Definition bC : R := sqrt (2 * energy 1).
Lemma J_decay x : 1 <= x -> Rabs (bessel0 x) <= bC / sqrt x /\ Rabs (bessel1 x) <= bC / sqrt x.
Proof.
  intros P. pose proof (energy_le x P) as H. unfold energy at 1 in H. unfold bC.
  assert (A : 0 <= bessel0 x * bessel0 x / (2 * x)) by (apply Rdiv_le_0_compat; [apply Rle_0_sqr|lra]).
  assert (B : x * (bessel0 x * bessel0 x + bessel1 x * bessel1 x) <= 2 * energy 1).
  { pose proof (Rle_0_sqr (bessel0 x - bessel1 x)) as S1. pose proof (Rle_0_sqr (bessel0 x)) as S2. pose proof (Rle_0_sqr (bessel1 x)) as S3. unfold Rsqr in S1, S2, S3.
    remember (bessel0 x) as a. remember (bessel1 x) as b. clear Heqa Heqb.
    assert (0 <= (x - 1) * (a * a + b * b)) by (apply Rmult_le_pos; lra). lra. }
  pose proof (Rle_0_sqr (bessel0 x)) as S2. pose proof (Rle_0_sqr (bessel1 x)) as S3. unfold Rsqr in S2, S3.
  rewrite <- sqrt_div_alt by lra.
  split; rewrite <- sqrt_Rsqr_abs; apply sqrt_le_1_alt; unfold Rsqr; apply (proj1 (Rle_div_r _ _ x ltac:(lra))).
  - assert (0 <= x * (bessel1 x * bessel1 x)) by (apply Rmult_le_pos; lra). lra.
  - assert (0 <= x * (bessel0 x * bessel0 x)) by (apply Rmult_le_pos; lra). lra.
Qed.
Lemma bC_pos : 0 <= bC. Proof. apply sqrt_pos. Qed.

(** ** Parameter integrals of complex functions *)
Definition cInt (F : R -> C) (a b : R) : C := (RInt (fun t => Re (F t)) a b, RInt (fun t => Im (F t)) a b).
Definition c2c (F : R -> R -> C) (x t : R) : Prop := continuity_2d_pt (fun u v => Re (F u v)) x t /\ continuity_2d_pt (fun u v => Im (F u v)) x t.
Lemma c2c_const c x t : c2c (fun _ _ => c) x t.
Proof. split; apply continuity_2d_pt_const. Qed.
Lemma c2c_real (f : R -> R -> R) x t : continuity_2d_pt f x t -> c2c (fun u v => RtoC (f u v)) x t.
Proof. intros H. split; cbn; [exact H|apply continuity_2d_pt_const]. Qed.
Lemma c2c_plus F G x t : c2c F x t -> c2c G x t -> c2c (fun u v => F u v + G u v)%C x t.
Proof. intros [A B] [A' B']. split; cbn; [exact (continuity_2d_pt_plus _ _ _ _ A A')|exact (continuity_2d_pt_plus _ _ _ _ B B')]. Qed.
Lemma c2c_opp F x t : c2c F x t -> c2c (fun u v => - F u v)%C x t.
Proof. intros [A B]. split; cbn; [exact (continuity_2d_pt_opp _ _ _ A)|exact (continuity_2d_pt_opp _ _ _ B)]. Qed.
Lemma c2c_minus F G x t : c2c F x t -> c2c G x t -> c2c (fun u v => F u v - G u v)%C x t.
Proof. intros A B. apply (c2c_plus F (fun u v => - G u v)%C); [exact A|now apply c2c_opp]. Qed.
Lemma c2c_mult F G x t : c2c F x t -> c2c G x t -> c2c (fun u v => F u v * G u v)%C x t.
Proof.
  intros [A B] [A' B']. split; cbn.
  - apply continuity_2d_pt_minus; apply continuity_2d_pt_mult; assumption.
  - apply continuity_2d_pt_plus; apply continuity_2d_pt_mult; assumption.
Qed.
Lemma c2c_inv F x t : c2c F x t -> F x t <> RtoC 0 -> c2c (fun u v => / F u v)%C x t.
Proof.
  intros [A B] N.
  assert (M : Re (F x t) ^ 2 + Im (F x t) ^ 2 <> 0).
  { intro E. apply N. apply C_eq; simpl; nra. }
  assert (S : continuity_2d_pt (fun u v => / (Re (F u v) ^ 2 + Im (F u v) ^ 2)) x t).
  { apply continuity_2d_pt_inv; [|exact M]. cbn [pow].
    apply continuity_2d_pt_plus; apply continuity_2d_pt_mult; try assumption; apply continuity_2d_pt_mult; try assumption; apply continuity_2d_pt_const. }
  split; cbn [Cinv Re Im fst snd].
  - exact (continuity_2d_pt_mult _ _ _ _ A S).
  - exact (continuity_2d_pt_mult _ _ _ _ (continuity_2d_pt_opp _ _ _ B) S).
Qed.
Lemma c2c_exp F x t : c2c F x t -> c2c (fun u v => cexp (F u v)) x t.
Proof.
  intros [A B]. unfold cexp. split; cbn.
  - apply continuity_2d_pt_mult.
    + apply (continuity_1d_2d_pt_comp exp (fun u v => Re (F u v))); [apply derivable_continuous, derivable_exp|exact A].
    + apply (continuity_1d_2d_pt_comp cos (fun u v => Im (F u v))); [apply continuity_cos|exact B].
  - apply continuity_2d_pt_mult.
    + apply (continuity_1d_2d_pt_comp exp (fun u v => Re (F u v))); [apply derivable_continuous, derivable_exp|exact A].
    + apply (continuity_1d_2d_pt_comp sin (fun u v => Im (F u v))); [apply continuity_sin|exact B].
Qed.
Lemma c2_slice (f : R -> R -> R) x t : continuity_2d_pt f x t -> continuous (f x) t.
Proof.
  intros H P [e He]. destruct (H e) as [d Hd]. exists d. intros v Hv. apply He. apply Hd.
  - rewrite Rminus_eq_0, Rabs_R0. apply cond_pos.
  - exact Hv.
Qed.
Lemma c2c_ex F x a b : (forall t, c2c F x t) -> ex_RInt (fun t => Re (F x t)) a b /\ ex_RInt (fun t => Im (F x t)) a b.
Proof.
  intros H. split; apply (ex_RInt_continuous (V:=R_CompleteNormedModule)); intros t _.
  - exact (c2_slice (fun u v => Re (F u v)) x t (proj1 (H t))).
  - exact (c2_slice (fun u v => Im (F u v)) x t (proj2 (H t))).
Qed.
Lemma CD_param (F dF : R -> R -> C) a b x : a <= b ->
  (forall u t, is_cderive (fun u => F u t) u (dF u t)) -> (forall u t, c2c F u t) -> (forall t, c2c dF x t) ->
  is_cderive (fun u => cInt (F u) a b) x (cInt (dF x) a b).
Proof.
  intros L D C1 C2. split; unfold cInt; cbn [Re Im fst snd].
  - apply (derive_param (fun u t => Re (F u t)) (fun u t => Re (dF u t))); [exact L|intros u t; exact (proj1 (D u t))|intros t; exact (proj1 (C2 t))|].
    intros u t. exact (c2_slice (fun u v => Re (F u v)) u t (proj1 (C1 u t))).
  - apply (derive_param (fun u t => Im (F u t)) (fun u t => Im (dF u t))); [exact L|intros u t; exact (proj2 (D u t))|intros t; exact (proj2 (C2 t))|].
    intros u t. exact (c2_slice (fun u v => Im (F u v)) u t (proj2 (C1 u t))).
Qed.
Lemma cInt_FTC (F dF : R -> C) a b : a <= b -> (forall t, is_cderive F t (dF t)) -> (forall t, exists d, is_cderive dF t d) -> cInt dF a b = (F b - F a)%C.
Proof.
  intros L D DD. unfold cInt. apply C_eq; cbn [Re Im fst snd Cminus Cplus Copp]; apply (is_RInt_unique (V:=R_CompleteNormedModule)).
  - apply (FTC (fun t => Re (F t)) (fun t => Re (dF t))); [exact L|intros t _; exact (proj1 (D t))|].
    intros t _. destruct (DD t) as [d Hd]. apply continuity_pt_filterlim. exact (derive_continuity _ _ _ (proj1 Hd)).
  - apply (FTC (fun t => Im (F t)) (fun t => Im (dF t))); [exact L|intros t _; exact (proj2 (D t))|].
    intros t _. destruct (DD t) as [d Hd]. apply continuity_pt_filterlim. exact (derive_continuity _ _ _ (proj2 Hd)).
Qed.
Lemma cInt_ext F G a b : (forall t, F t = G t) -> cInt F a b = cInt G a b.
Proof. intros E. unfold cInt. f_equal; apply (RInt_ext (V:=R_CompleteNormedModule)); intros t _; rewrite E; reflexivity. Qed.
Lemma cInt_scal c (F : R -> C) a b : ex_RInt (fun t => Re (F t)) a b -> ex_RInt (fun t => Im (F t)) a b -> cInt (fun t => c * F t)%C a b = (c * cInt F a b)%C.
Proof.
  intros A B. unfold cInt. apply C_eq; cbn [Re Im fst snd Cmult]; apply (is_RInt_unique (V:=R_CompleteNormedModule)).
  - apply (is_RInt_minus (V:=R_NormedModule)); apply (is_RInt_scal (V:=R_NormedModule)); apply (RInt_correct (V:=R_CompleteNormedModule)); assumption.
  - apply (is_RInt_plus (V:=R_NormedModule)); apply (is_RInt_scal (V:=R_NormedModule)); apply (RInt_correct (V:=R_CompleteNormedModule)); assumption.
Qed.
Lemma cInt_minus (F G : R -> C) a b : ex_RInt (fun t => Re (F t)) a b -> ex_RInt (fun t => Im (F t)) a b -> ex_RInt (fun t => Re (G t)) a b -> ex_RInt (fun t => Im (G t)) a b ->
  cInt (fun t => F t - G t)%C a b = (cInt F a b - cInt G a b)%C.
Proof.
  intros A B A' B'. unfold cInt. apply C_eq; cbn [Re Im fst snd Cminus Cplus Copp]; apply (is_RInt_unique (V:=R_CompleteNormedModule));
    apply (is_RInt_minus (V:=R_NormedModule)); apply (RInt_correct (V:=R_CompleteNormedModule)); assumption.
Qed.
Lemma cInt_real (g : R -> R) a b : cInt (fun t => RtoC (g t)) a b = RtoC (RInt g a b).
Proof.
  unfold cInt. cbn [Re Im RtoC fst snd]. rewrite (RInt_const (V:=R_CompleteNormedModule)). unfold scal; cbn; unfold mult; cbn. rewrite Rmult_0_r. reflexivity.
Qed.
Lemma cInt_bound F a b M : a <= b -> ex_RInt (fun t => Re (F t)) a b -> ex_RInt (fun t => Im (F t)) a b -> (forall t, Cmod (F t) <= M) -> Cmod (cInt F a b) <= 2 * ((b - a) * M).
Proof.
  intros L A B H. eapply Rle_trans; [apply Cmod_le_parts|]. unfold cInt; cbn [Re Im fst snd].
  pose proof (abs_RInt_le_const _ a b M L A (fun t _ => Rle_trans _ _ _ (proj1 (parts_le_Cmod (F t))) (H t))).
  pose proof (abs_RInt_le_const _ a b M L B (fun t _ => Rle_trans _ _ _ (proj2 (parts_le_Cmod (F t))) (H t))). lra.
Qed.

(** ** Laplace transform of J0 *)
Lemma den_nz (k : C) s : 0 < Re k -> 0 <= s -> (k * k + RtoC s)%C <> RtoC 0.
Proof.
  destruct k as [a b]. unfold Re. cbn [fst]. intros P S E. apply (f_equal Re) in E as E1. apply (f_equal Im) in E as E2. cbn in E1, E2.
  assert (H : a * b = 0) by lra. apply Rmult_integral in H. destruct H as [H|H]; [lra|]. subst b. nra.
Qed.
Lemma k_nz (k : C) : 0 < Re k -> k <> RtoC 0.
Proof. intros P ->. cbn in P. lra. Qed.
Lemma cconst (f : R -> C) x : (forall t, is_cderive f t (RtoC 0)) -> f x = f 0.
Proof.
  intros D. apply C_eq.
  - destruct (MVT_gen (fun t => Re (f t)) 0 x (fun _ => 0)) as [c [_ E]]; [intros t _; exact (proj1 (D t))|intros t _; eapply derive_continuity, (proj1 (D t))|lra].
  - destruct (MVT_gen (fun t => Im (f t)) 0 x (fun _ => 0)) as [c [_ E]]; [intros t _; exact (proj2 (D t))|intros t _; eapply derive_continuity, (proj2 (D t))|lra].
Qed.

Section Laplace.
  Variable k : C.
  Hypothesis K : 0 < Re k.
  Let den (la t : R) : C := (k * k + RtoC ((la * sin t) * (la * sin t)))%C.
  Lemma den_neq la t : den la t <> RtoC 0. Proof. apply den_nz; [exact K|apply Rle_0_sqr]. Qed.
  Lemma c2c_den la t : c2c den la t.
  Proof.
    unfold den. apply (c2c_plus (fun _ _ => k * k)%C (fun u v => RtoC ((u * sin v) * (u * sin v)))); [apply c2c_const|].
    apply c2c_real, continuity_2d_pt_mult; apply c2_xsin.
  Qed.

  (** its value as an integral over the angle of Bessel's integral *)
  Definition angle_int (la : R) : C := cInt (fun t => k * / den la t)%C 0 PI.
  Definition d_den (la t : R) : C := (- (RtoC (2 * (la * (sin t * sin t))) * k) * (/ den la t * / den la t))%C.
  Lemma CD_quot la t : is_cderive (fun la => k * / den la t)%C la (d_den la t).
  Proof.
    unfold d_den. eapply is_cderive_eq.
    - apply CD_scal. apply CD_inv; [|apply den_neq]. unfold den. apply CD_plus; [apply CD_const|].
      apply (CD_real (fun la => la * sin t * (la * sin t)) la (2 * (la * (sin t * sin t)))). eapply is_derive_eq; [der|]. ring.
    - cbv beta. pose proof (den_neq la t) as N. fold (den la t). generalize dependent (den la t). intros d N. field. exact N.
  Qed.
  Lemma c2c_quot la t : c2c (fun la t => k * / den la t)%C la t.
  Proof. apply (c2c_mult (fun _ _ => k) (fun u v => / den u v)%C); [apply c2c_const|]. apply c2c_inv; [apply c2c_den|apply den_neq]. Qed.
  Lemma c2c_ddquot la t : c2c d_den la t.
  Proof.
    unfold d_den. apply (c2c_mult (fun u v => - (RtoC (2 * (u * (sin v * sin v))) * k))%C (fun u v => / den u v * / den u v)%C).
    - apply c2c_opp, (c2c_mult (fun u v => RtoC (2 * (u * (sin v * sin v)))) (fun _ _ => k)); [|apply c2c_const]. apply c2c_real.
      apply continuity_2d_pt_mult; [apply continuity_2d_pt_const|]. apply continuity_2d_pt_mult; [apply c2_fst|]. apply continuity_2d_pt_mult; apply c2_sin.
    - apply c2c_mult; apply c2c_inv; solve [apply c2c_den|apply den_neq].
  Qed.
  Lemma CD_angle la : is_cderive angle_int la (cInt (d_den la) 0 PI).
  Proof. apply (CD_param (fun la t => k * / den la t)%C d_den); [apply Rlt_le, PI_RGT_0|intros; apply CD_quot|intros; apply c2c_quot|intros; apply c2c_ddquot]. Qed.
  (** (k^2 + la^2) d angle_int + la angle_int = 0 *)
  Lemma angle_ode la : ((k * k + RtoC (la * la)) * cInt (d_den la) 0 PI + RtoC la * angle_int la)%C = RtoC 0.
  Proof.
    destruct (c2c_ex (fun la t => k * / den la t)%C la 0 PI (c2c_quot la)) as [A B].
    destruct (c2c_ex d_den la 0 PI (c2c_ddquot la)) as [A' B'].
    assert (Ed : forall (F G : R -> C), ex_RInt (fun t => Re (F t)) 0 PI -> ex_RInt (fun t => Im (F t)) 0 PI -> ex_RInt (fun t => Re (G t)) 0 PI -> ex_RInt (fun t => Im (G t)) 0 PI ->
       forall a b, (a * cInt F 0 PI + b * cInt G 0 PI)%C = cInt (fun t => a * F t + b * G t)%C 0 PI).
    { intros F G F1 F2 G1 G2 a b. unfold cInt. apply C_eq; cbn [Re Im fst snd Cmult Cplus]; symmetry; apply (is_RInt_unique (V:=R_CompleteNormedModule));
        apply (is_RInt_plus (V:=R_NormedModule)).
      1, 2: apply (is_RInt_minus (V:=R_NormedModule)); apply (is_RInt_scal (V:=R_NormedModule)); apply (RInt_correct (V:=R_CompleteNormedModule)); assumption.
      1, 2: apply (is_RInt_plus (V:=R_NormedModule)); apply (is_RInt_scal (V:=R_NormedModule)); apply (RInt_correct (V:=R_CompleteNormedModule)); assumption. }
    unfold angle_int. rewrite (Ed _ _ A' B' A B).
    set (dq := fun t => (RtoC (cos t * cos t - sin t * sin t) * / den la t - RtoC (2 * (la * la) * (sin t * cos t) * (sin t * cos t)) * (/ den la t * / den la t))%C).
    assert (CDd : forall t, is_cderive (den la) t (RtoC (2 * (la * la) * (sin t * cos t)))).
    { intros t. unfold den. eapply is_cderive_eq; [apply CD_plus; [apply CD_const|apply (CD_real (fun t => la * sin t * (la * sin t)) t (2 * (la * la) * (sin t * cos t)))]|ring]. eapply is_derive_eq; [der|]. ring. }
    assert (CDi : forall t, is_cderive (fun t => / den la t)%C t (- RtoC (2 * (la * la) * (sin t * cos t)) * (/ den la t * / den la t))%C).
    { intros t. eapply is_cderive_eq; [apply CD_inv; [apply CDd|apply den_neq]|]. pose proof (den_neq la t) as N. generalize dependent (den la t). intros d N. field. exact N. }
    rewrite (cInt_ext _ (fun t => k * RtoC la * dq t)%C).
    - assert (Dq : forall t, is_cderive (fun t => RtoC (sin t * cos t) * / den la t)%C t (dq t)).
      { intros t. unfold dq. eapply is_cderive_eq; [apply CD_mult; [apply (CD_real (fun t => sin t * cos t) t (cos t * cos t - sin t * sin t)); eapply is_derive_eq; [der|ring]|apply CDi]|].
        cbv beta. rewrite (RtoC_mult (2 * (la * la) * (sin t * cos t))). ring. }
      assert (Dq2 : forall t, exists d, is_cderive dq t d).
      { intros t. eexists. unfold dq. apply CD_minus; apply CD_mult.
        - apply (CD_real (fun t => cos t * cos t - sin t * sin t)). der.
        - apply CDi.
        - apply (CD_real (fun t => 2 * (la * la) * (sin t * cos t) * (sin t * cos t))). der.
        - apply CD_mult; apply CDi. }
      rewrite cInt_scal.
      + rewrite (cInt_FTC _ dq 0 PI (Rlt_le _ _ PI_RGT_0) Dq Dq2). cbv beta. rewrite sin_PI, sin_0, !Rmult_0_l. ring.
      + apply (ex_RInt_continuous (V:=R_CompleteNormedModule)). intros t _. destruct (Dq2 t) as [d Hd]. apply continuity_pt_filterlim. exact (derive_continuity _ _ _ (proj1 Hd)).
      + apply (ex_RInt_continuous (V:=R_CompleteNormedModule)). intros t _. destruct (Dq2 t) as [d Hd]. apply continuity_pt_filterlim. exact (derive_continuity _ _ _ (proj2 Hd)).
    - intros t. unfold dq, d_den. pose proof (den_neq la t) as N. pose proof (sin2_cos2 t) as T. unfold Rsqr in T.
      replace (RtoC (2 * (la * la) * (sin t * cos t) * (sin t * cos t))) with (RtoC (2 * (la * la) * (sin t * sin t) * (1 - sin t * sin t))).
      2:{ f_equal. replace (cos t) with (cos t) by reflexivity. transitivity (2 * (la * la) * (sin t * sin t) * (cos t * cos t)); [|ring]. f_equal. lra. }
      replace (cos t * cos t - sin t * sin t) with (1 - 2 * (sin t * sin t)) by lra.
      assert (Ek : (k * k)%C = (den la t - RtoC (la * la * (sin t * sin t)))%C). { unfold den. replace (la * sin t * (la * sin t)) with (la * la * (sin t * sin t)) by ring. ring. }
      generalize dependent (den la t). intros d N Ek. rewrite Ek. generalize (sin t * sin t) as s. intros s.
      rewrite !RtoC_minus, !RtoC_mult, !RtoC_minus, ?RtoC_mult. field. exact N.
  Qed.

  (** the vertical wavenumber *)
  Definition uu (la : R) : C := csqrt (RtoC (la ^ 2) + k * k)%C.
  Lemma uu_sq la : (uu la * uu la)%C = (k * k + RtoC (la * la))%C.
  Proof. unfold uu. rewrite csqrt_sq. replace (la ^ 2) with (la * la) by ring. ring. Qed.
  Lemma uu_arg la : 0 < Cmod (RtoC (la ^ 2) + k * k)%C + Re (RtoC (la ^ 2) + k * k)%C.
  Proof.
    set (z := (RtoC (la ^ 2) + k * k)%C). destruct (Cmod_re_bounds z) as [H _]. destruct H as [H|H]; [exact H|exfalso].
    pose proof (Cmod_sqr z) as S. assert (E : Cmod z = - Re z) by lra. rewrite E in S. assert (I0 : Im z = 0) by nra.
    pose proof (Cmod_ge_0 z) as G. assert (R0 : Re z <= 0) by lra.
    unfold z in I0, R0. destruct k as [a b]. unfold Re in K. cbn in I0, R0, K.
    assert (X : a * b = 0) by lra. apply Rmult_integral in X. destruct X as [X|X]; [lra|]. subst b. nra.
  Qed.
  Lemma uu_nz la : uu la <> RtoC 0.
  Proof. intros E. apply (den_nz k (la * la) K (Rle_0_sqr la)). rewrite <- uu_sq, E. ring. Qed.
  Lemma uu_re la : 0 < Re (uu la).
  Proof.
    destruct (csqrt_re_nonneg (RtoC (la ^ 2) + k * k)%C) as [H|H]; [exact H|exfalso]. fold (uu la) in H.
    pose proof (uu_arg la) as A. unfold uu, csqrt in H. cbn [Re fst] in H. symmetry in H. apply sqrt_eq_0 in H; lra.
  Qed.
  Lemma CD_uu la : is_cderive uu la (RtoC la * / uu la)%C.
  Proof.
    unfold uu. eapply is_cderive_eq.
    - apply (CD_csqrt (fun la => RtoC (la ^ 2) + k * k)%C la (RtoC (2 * la))); [|apply uu_arg].
      eapply is_cderive_eq; [apply CD_plus; [apply (CD_real (fun la => la ^ 2) la (2 * la)); eapply is_derive_eq; [der|cbn; ring]|apply CD_const]|]. ring.
    - fold (uu la). rewrite RtoC_mult. pose proof (uu_nz la). field. split; [assumption|]. intros E. apply (f_equal Re) in E. cbn in E. lra.
  Qed.
  Lemma uu_0 : uu 0 = k.
  Proof. unfold uu. symmetry. apply csqrt_unique; [exact K|]. replace (0 ^ 2) with 0 by ring. ring. Qed.
  Lemma angle_value la : angle_int la = (RtoC PI * / uu la)%C.
  Proof.
    assert (W : (uu la * angle_int la)%C = (uu 0 * angle_int 0)%C).
    { apply (cconst (fun la => uu la * angle_int la)%C). intros t. eapply is_cderive_eq; [apply CD_mult; [apply CD_uu|apply CD_angle]|].
      pose proof (angle_ode t) as O. pose proof (uu_nz t) as N. rewrite <- uu_sq in O.
      transitivity (/ uu t * (uu t * uu t * cInt (d_den t) 0 PI + RtoC t * angle_int t))%C; [field; exact N|]. rewrite O. ring. }
    assert (A0 : angle_int 0 = (RtoC PI * / k)%C).
    { unfold angle_int. rewrite (cInt_ext _ (fun _ => / k)%C).
      - generalize (/ k)%C. intros [a b]. unfold cInt. cbn [Re Im fst snd]. rewrite !(RInt_const (V:=R_CompleteNormedModule)). unfold scal; cbn; unfold mult; cbn. apply C_eq; cbn; ring.
      - intros t. unfold den. rewrite Rmult_0_l, Rmult_0_l. field. apply k_nz, K. }
    rewrite A0, uu_0 in W. assert (X : (uu la * angle_int la)%C = RtoC PI) by (rewrite W; field; apply k_nz, K).
    rewrite <- X. field. apply uu_nz.
  Qed.

  (** the integral up to x *)
  Definition upto (la x t : R) : C :=
    ((k + cexp (- (RtoC x * k)) * (RtoC (la * sin t * sin (la * sin t * x)) - k * RtoC (cos (la * sin t * x)))) * / den la t)%C.
  Lemma CD_upto la x t : is_cderive (fun x => upto la x t) x (cexp (- (RtoC x * k)) * RtoC (cos (la * sin t * x)))%C.
  Proof.
    unfold upto. eapply is_cderive_eq.
    - apply CD_mult; [|apply CD_const]. apply CD_plus; [apply CD_const|]. apply CD_mult; [apply CD_expline|].
      apply CD_minus; [apply (CD_real (fun x => la * sin t * sin (la * sin t * x)) x (la * sin t * (la * sin t) * cos (la * sin t * x))); eapply is_derive_eq; [der|ring]|].
      apply CD_scal, (CD_real (fun x => cos (la * sin t * x)) x (- (la * sin t) * sin (la * sin t * x))). eapply is_derive_eq; [der|ring].
    - cbv beta. pose proof (den_neq la t) as N. unfold den in *. rewrite !RtoC_mult, RtoC_opp, RtoC_mult in *.
      generalize dependent (RtoC la). generalize (RtoC (sin t)) (RtoC (sin (la * sin t * x))) (RtoC (cos (la * sin t * x))) (cexp (- (RtoC x * k))%C). intros s si co e l N. field. exact N.
  Qed.
  Lemma c2_lsx la x t : continuity_2d_pt (fun u v => la * sin v * u) x t.
  Proof. apply continuity_2d_pt_mult; [|apply c2_fst]. apply continuity_2d_pt_mult; [apply continuity_2d_pt_const|apply c2_sin]. Qed.
  Lemma c2c_ex1 x t : c2c (fun u _ => cexp (- (RtoC u * k)))%C x t.
  Proof. apply c2c_exp, c2c_opp, (c2c_mult (fun u _ => RtoC u) (fun _ _ => k)); [apply c2c_real, c2_fst|apply c2c_const]. Qed.
  Lemma c2c_upto la x t : c2c (upto la) x t.
  Proof.
    unfold upto. apply (c2c_mult (fun x t => k + cexp (- (RtoC x * k)) * (RtoC (la * sin t * sin (la * sin t * x)) - k * RtoC (cos (la * sin t * x))))%C (fun _ t => / den la t)%C).
    - apply (c2c_plus (fun _ _ => k)); [apply c2c_const|]. apply (c2c_mult (fun u _ => cexp (- (RtoC u * k)))%C); [apply c2c_ex1|].
      apply (c2c_minus (fun x t => RtoC (la * sin t * sin (la * sin t * x)))).
      + apply c2c_real. apply (continuity_2d_pt_mult (fun _ v => la * sin v) (fun u v => sin (la * sin v * u))).
        * apply continuity_2d_pt_mult; [apply continuity_2d_pt_const|apply c2_sin].
        * apply (continuity_1d_2d_pt_comp sin (fun u v => la * sin v * u)); [apply continuity_sin|apply c2_lsx].
      + apply (c2c_mult (fun _ _ => k)); [apply c2c_const|]. apply c2c_real, (continuity_1d_2d_pt_comp cos (fun u v => la * sin v * u)); [apply continuity_cos|apply c2_lsx].
    - apply c2c_inv; [|apply den_neq]. unfold den. apply (c2c_plus (fun _ _ => k * k)%C (fun u v => RtoC ((la * sin v) * (la * sin v)))); [apply c2c_const|].
      apply c2c_real, continuity_2d_pt_mult; (apply continuity_2d_pt_mult; [apply continuity_2d_pt_const|apply c2_sin]).
  Qed.
  Lemma c2c_dupto la x t : c2c (fun x t => cexp (- (RtoC x * k)) * RtoC (cos (la * sin t * x)))%C x t.
  Proof.
    apply (c2c_mult (fun u _ => cexp (- (RtoC u * k)))%C); [apply c2c_ex1|].
    apply c2c_real, (continuity_1d_2d_pt_comp cos (fun u v => la * sin v * u)); [apply continuity_cos|apply c2_lsx].
  Qed.
  Lemma ex_cos la x : ex_RInt (fun t => cos (la * x * sin t)) 0 PI.
  Proof. apply (ex_RInt_continuous (V:=R_CompleteNormedModule)). intros t _. apply continuity_pt_filterlim. eapply derive_continuity. der. Qed.
  Lemma cInt_bessel la x : cInt (fun t => cexp (- (RtoC x * k)) * RtoC (cos (la * sin t * x)))%C 0 PI = (RtoC PI * (cexp (- (RtoC x * k)) * RtoC (bessel0 (la * x))))%C.
  Proof.
    rewrite (cInt_ext _ (fun t => cexp (- (RtoC x * k)) * RtoC (cos (la * x * sin t)))%C) by (intros t; do 3 f_equal; ring).
    rewrite cInt_scal.
    - rewrite cInt_real. unfold bessel0. generalize (RInt (fun t => cos (la * x * sin t)) 0 PI). intros v. pose proof PI_neq0.
      rewrite RtoC_div by assumption. field. intros E. apply H. now apply RtoC_inj.
    - cbn. apply ex_cos.
    - cbn. apply (ex_RInt_const (V:=R_NormedModule)).
  Qed.

  Lemma den_big la t : Re k * Re k <= Cmod (den la t).
  Proof.
    set (w := la * sin t). assert (E : den la t = ((k + Ci * RtoC w) * (k - Ci * RtoC w))%C).
    { unfold den. fold w. apply C_eq; cbn; ring. }
    rewrite E, Cmod_mult. pose proof (proj1 (parts_le_Cmod (k + Ci * RtoC w)%C)) as A. pose proof (proj1 (parts_le_Cmod (k - Ci * RtoC w)%C)) as B.
    replace (Re (k + Ci * RtoC w)%C) with (Re k) in A by (destruct k; cbn; ring). replace (Re (k - Ci * RtoC w)%C) with (Re k) in B by (destruct k; cbn; ring).
    rewrite Rabs_right in A, B by lra. apply Rmult_le_compat; lra.
  Qed.
  Lemma exp_decay a x : 0 < a -> 1 <= x -> exp (- (a * x)) <= / a / sqrt x.
  Proof.
    intros A X. assert (S : 1 <= sqrt x) by (rewrite <- sqrt_1; apply sqrt_le_1_alt; lra). assert (S2 : sqrt x * sqrt x = x) by (apply sqrt_sqrt; lra).
    rewrite exp_Ropp. pose proof (exp_ineq1 (a * x)) as H. assert (0 < a * x) by nra. assert (a * sqrt x <= exp (a * x)) by (specialize (H ltac:(lra)); nra).
    replace (/ a / sqrt x) with (/ (a * sqrt x)) by (field; split; lra). apply Rinv_le_contravar; [nra|assumption].
  Qed.
  Lemma CD_clim0 F d : is_cderive F 0 d -> clim (at_right 0) F (F 0).
  Proof.
    intros [A B]. split.
    - apply (filterlim_filter_le_1 (F := locally 0)); [intros P [e He]; exists e; intros y Hy _; now apply He|]. apply continuity_pt_filterlim. exact (derive_continuity _ _ _ A).
    - apply (filterlim_filter_le_1 (F := locally 0)); [intros P [e He]; exists e; intros y Hy _; now apply He|]. apply continuity_pt_filterlim. exact (derive_continuity _ _ _ B).
  Qed.
  Lemma RPI : RtoC PI <> RtoC 0. Proof. intros E. apply RtoC_inj in E. pose proof PI_RGT_0. lra. Qed.
  Lemma laplace_prim la : exists A : R -> C, A 0 = RtoC 0 /\ (forall t, is_cderive A t (cexp (- (RtoC t * k)) * RtoC (bessel0 (la * t)))%C) /\ clim inf A (/ uu la)%C.
  Proof.
    assert (D : forall t, is_cderive (fun x => / RtoC PI * cInt (upto la x) 0 PI)%C t (cexp (- (RtoC t * k)) * RtoC (bessel0 (la * t)))%C).
    { intros t. eapply is_cderive_eq; [apply CD_scal, (CD_param (upto la) (fun x t => cexp (- (RtoC x * k)) * RtoC (cos (la * sin t * x)))%C)|].
      - apply Rlt_le, PI_RGT_0.
      - intros u v. apply CD_upto.
      - intros u v. apply c2c_upto.
      - intros v. apply c2c_dupto.
      - rewrite cInt_bessel. field. exact RPI. }
    exists (fun x => / RtoC PI * cInt (upto la x) 0 PI)%C. split; [|split; [exact D|]].
    - rewrite (cInt_ext _ (fun _ => RtoC 0)).
      + unfold cInt. cbn [Re Im RtoC fst snd]. rewrite !(RInt_const (V:=R_CompleteNormedModule)). unfold scal; cbn; unfold mult; cbn.
        replace ((PI - 0) * 0) with 0 by ring. change (0, 0) with (RtoC 0). ring.
      + intros t. unfold upto. rewrite Rmult_0_r, sin_0, cos_0, Rmult_0_r. replace (- (RtoC 0 * k))%C with (RtoC 0) by ring. rewrite cexp_0. ring.
    - apply (clim_inf _ _ (2 * (/ Re k * ((Rabs la + Cmod k) * / (Re k * Re k)))) 1).
      + pose proof (Rabs_pos la). pose proof (Cmod_ge_0 k). assert (0 < / Re k) by now apply Rinv_0_lt_compat. assert (0 < / (Re k * Re k)) by (apply Rinv_0_lt_compat; nra).
        apply Rmult_le_pos; [lra|]. apply Rmult_le_pos; [lra|]. apply Rmult_le_pos; lra.
      + intros x _ X.
        destruct (c2c_ex (upto la) x 0 PI (c2c_upto la x)) as [A B]. destruct (c2c_ex (fun la t => k * / den la t)%C la 0 PI (c2c_quot la)) as [A' B'].
        assert (E : (/ RtoC PI * cInt (upto la x) 0 PI - / uu la)%C = (/ RtoC PI * cInt (fun t => upto la x t - k * / den la t) 0 PI)%C).
        { rewrite (cInt_minus _ _ 0 PI A B A' B'). fold (angle_int la). rewrite angle_value. field. split; [apply uu_nz|exact RPI]. }
        rewrite E, Cmod_mult. pose proof PI_RGT_0 as P. rewrite <- RtoC_inv by lra. rewrite Cmod_R, Rabs_right by (left; now apply Rinv_0_lt_compat).
        set (M := exp (- (Re k * x)) * ((Rabs la + Cmod k) * / (Re k * Re k))).
        assert (Bd : Cmod (cInt (fun t => upto la x t - k * / den la t)%C 0 PI) <= 2 * ((PI - 0) * M)).
        { apply cInt_bound; [lra| | |].
          - apply (ex_RInt_minus (V:=R_NormedModule) (fun t => Re (upto la x t))); assumption.
          - apply (ex_RInt_minus (V:=R_NormedModule) (fun t => Im (upto la x t))); assumption.
          - intros t. unfold upto.
            replace ((k + cexp (- (RtoC x * k)) * (RtoC (la * sin t * sin (la * sin t * x)) - k * RtoC (cos (la * sin t * x)))) * / den la t - k * / den la t)%C
              with (cexp (- (RtoC x * k)) * ((RtoC (la * sin t * sin (la * sin t * x)) - k * RtoC (cos (la * sin t * x))) * / den la t))%C by ring.
            rewrite !Cmod_mult, Cmod_cexp, Cmod_inv by apply den_neq. unfold M. assert (Er : Re (- (RtoC x * k))%C = - (Re k * x)) by (cbn; ring). rewrite Er.
            apply Rmult_le_compat_l; [left; apply exp_pos|]. apply Rmult_le_compat; [apply Cmod_ge_0|left; apply Rinv_0_lt_compat, (proj1 (Cmod_gt_0 _)), den_neq| |].
            + eapply Rle_trans; [apply Cmod_triangle|]. rewrite Cmod_opp, Cmod_mult, !Cmod_R, !Rabs_mult.
              pose proof (sin_le_1 t). pose proof (sin_le_1 (la * sin t * x)). pose proof (cos_le_1 (la * sin t * x)).
              pose proof (Rabs_pos la). pose proof (Rabs_pos (sin t)). pose proof (Rabs_pos (sin (la * sin t * x))). pose proof (Cmod_ge_0 k).
              assert (Rabs la * Rabs (sin t) <= Rabs la) by nra. assert (0 <= Rabs la * Rabs (sin t)) by nra.
              assert (Rabs la * Rabs (sin t) * Rabs (sin (la * sin t * x)) <= Rabs la) by nra. assert (Cmod k * Rabs (cos (la * sin t * x)) <= Cmod k) by nra. lra.
            + apply Rinv_le_contravar; [nra|apply den_big]. }
        apply (Rmult_le_compat_l (/ PI)) in Bd; [|left; now apply Rinv_0_lt_compat].
        replace (/ PI * (2 * ((PI - 0) * M))) with (2 * M) in Bd by (field; lra). eapply Rle_trans; [exact Bd|].
        pose proof (exp_decay (Re k) x K ltac:(lra)) as Ed. unfold M.
        set (c := (Rabs la + Cmod k) * / (Re k * Re k)).
        assert (Pc : 0 <= c). { pose proof (Rabs_pos la). pose proof (Cmod_ge_0 k). apply Rmult_le_pos; [lra|]. left. apply Rinv_0_lt_compat. nra. }
        replace (2 * (/ Re k * c) / sqrt x) with (2 * (/ Re k / sqrt x * c)) by (unfold Rdiv; ring).
        apply Rmult_le_compat_l; [lra|]. apply Rmult_le_compat_r; assumption.
  Qed.
  Lemma D_J0l la t : is_derive (fun x => bessel0 (la * x)) t (- (la * bessel1 (la * t))).
  Proof. replace (- (la * bessel1 (la * t))) with (la * - bessel1 (la * t)) by ring. apply (D_comp bessel0 (fun x => la * x)); [apply D_bessel0|]. eapply is_derive_eq; [der|ring]. Qed.
  Lemma laplace_J0 la : is_cint (fun x => cexp (- (RtoC x * k)) * RtoC (bessel0 (la * x)))%C (/ uu la)%C.
  Proof.
    destruct (laplace_prim la) as (A & A0 & D & L). replace (/ uu la)%C with (/ uu la - 0)%C by ring. apply (cint_FTC A).
    - intros t _. apply D.
    - intros t _. eexists. apply CD_mult; [apply CD_expline|apply (CD_real (fun x => bessel0 (la * x))), D_J0l].
    - rewrite <- A0. exact (CD_clim0 _ _ (D 0)).
    - exact L.
  Qed.
End Laplace.
