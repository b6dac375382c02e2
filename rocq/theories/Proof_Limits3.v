(** Early- and late-time limits of the transient fields (C100): the sources. *)
From Coq Require Import Reals Lra List.
From Coquelicot Require Import Coquelicot.
From Verif Require Import Vec3 Calculus Deriv Integral Numpy Model_TDEM Model_Static SpecFun Spec_TDEM Spec_Fourier Proof_Static2 Proof_Loop2 Proof_FDEM2 Proof_FDEM3 Proof_Fourier Proof_Fourier2 Proof_Fourier5 Proof_TDEM Proof_TDEM2 Proof_TDEM3 Proof_TDEM4 Spec_Limits Proof_Limits Proof_Limits2.
Import ListNotations.
Open Scope R_scope.

Definition has_lim (F : (R -> Prop) -> Prop) (x : R -> R) (L : R) : Prop := filterlim x F (locally L).
Lemma lim_scal_r F {FF : Filter F} k (f : R -> R) L : filterlim f F (locally L) -> filterlim (fun t => f t * k) F (locally (L * k)).
Proof. intro A. apply (filterlim_ext (fun t => k * f t)); [intro; ring|]. rewrite Rmult_comm. now apply lim_scal. Qed.
Lemma vstarts_scal a A v : starts_at a A -> vstarts_at (fun t => vscal (a t) v) (vscal A v).
Proof. intro H. split; [|split]; apply (lim_scal_r _ _ a A H). Qed.
Lemma vends_scal a A v : ends_at a A -> vends_at (fun t => vscal (a t) v) (vscal A v).
Proof. intro H. split; [|split]; apply (lim_scal_r _ _ a A H). Qed.
Lemma vstarts_by k f L : vstarts_at f L -> vstarts_at (fun t => vscal k (f t)) (vscal k L).
Proof. intros (X & Y & Z). split; [|split]; [exact (lim_scal _ k _ _ X)|exact (lim_scal _ k _ _ Y)|exact (lim_scal _ k _ _ Z)]. Qed.
Lemma vends_by k f L : vends_at f L -> vends_at (fun t => vscal k (f t)) (vscal k L).
Proof. intros (X & Y & Z). split; [|split]; [exact (lim_scal _ k _ _ X)|exact (lim_scal _ k _ _ Y)|exact (lim_scal _ k _ _ Z)]. Qed.
Lemma vstarts_plus f g L M : vstarts_at f L -> vstarts_at g M -> vstarts_at (fun t => vadd (f t) (g t)) (vadd L M).
Proof.
  intros (X & Y & Z) (X' & Y' & Z'). split; [|split]; [exact (lim_plus _ _ _ _ _ X X')|exact (lim_plus _ _ _ _ _ Y Y')|exact (lim_plus _ _ _ _ _ Z Z')].
Qed.
Lemma vends_plus f g L M : vends_at f L -> vends_at g M -> vends_at (fun t => vadd (f t) (g t)) (vadd L M).
Proof.
  intros (X & Y & Z) (X' & Y' & Z'). split; [|split]; [exact (lim_plus _ _ _ _ _ X X')|exact (lim_plus _ _ _ _ _ Y Y')|exact (lim_plus _ _ _ _ _ Z Z')].
Qed.
Lemma pos_right (P : R -> Prop) : (forall t, 0 < t -> P t) -> at_right 0 P.
Proof. intro H. exists (mkposreal 1 Rlt_0_1). intros t _ Ht. now apply H. Qed.
Lemma pos_inf (P : R -> Prop) : (forall t, 0 < t -> P t) -> Rbar_locally p_infty P.
Proof. intro H. exists 0. exact H. Qed.
Lemma starts_ext f g L : (forall t, 0 < t -> f t = g t) -> starts_at f L -> starts_at g L.
Proof. intros E. apply filterlim_ext_loc. now apply pos_right. Qed.
Lemma ends_ext f g L : (forall t, 0 < t -> f t = g t) -> ends_at f L -> ends_at g L.
Proof. intros E. apply filterlim_ext_loc. now apply pos_inf. Qed.
Lemma vstarts_ext f g L : (forall t, 0 < t -> f t = g t) -> vstarts_at f L -> vstarts_at g L.
Proof. intros E (X & Y & Z). split; [|split]; (eapply starts_ext; [|eassumption]); intros t Ht; cbv beta; now rewrite E. Qed.
Lemma vends_ext f g L : (forall t, 0 < t -> f t = g t) -> vends_at f L -> vends_at g L.
Proof. intros E (X & Y & Z). split; [|split]; (eapply ends_ext; [|eassumption]); intros t Ht; cbv beta; now rewrite E. Qed.
Lemma vscal_0l v : vscal 0 v = vzero. Proof. veq; ring. Qed.
Lemma vscal_zero k : vscal k vzero = vzero. Proof. veq; ring. Qed.

(** ** electric dipole in a whole space *)
Section Dipole.
  Variables (s : tedip) (p : vec3).
  Hypothesis Hs : 0 < td_sigma (te_med s).
  Hypothesis Hm : 0 < td_mu (te_med s).
  Hypothesis N : p <> te_loc s.
  Let r := vnorm (vsub p (te_loc s)).
  Let c := sqrt (td_mu (te_med s) * td_sigma (te_med s)) * r / 2.
  Let Il := te_current s * te_length s.
  Lemma r_pos : 0 < r. Proof. apply vnorm_pos, vsub_nz, N. Qed.
  Lemma c_pos : 0 < c. Proof. apply dd_pos; [exact Hs|exact Hm|exact r_pos]. Qed.
  Lemma th_u t : 0 < t -> td_theta (te_med (te_at s t)) * r = c / sqrt t.
  Proof. intro Ht. unfold td_theta. cbn [te_at te_med at_time td_time td_sigma td_mu]. now apply theta_u. Qed.

  Lemma te_A_u t : 0 < t -> te_A (te_at s t) p = vscal (Il / (4 * PI * r) * erf (c / sqrt t)) (te_orient s).
  Proof. intro Ht. unfold te_A. cbn [te_at te_loc]. fold r. change (TED _ _ _ _ (te_loc s)) with (te_at s t). rewrite th_u by exact Ht. reflexivity. Qed.
  Lemma te_H_u t : 0 < t -> te_H (te_at s t) p = vscal (Il / (4 * PI * r ^ 3) * uH (c / sqrt t)) (vcross (te_orient s) (vsub p (te_loc s))).
  Proof.
    intro Ht. unfold te_H. cbn [te_at te_loc]. fold r. change (TED _ _ _ _ (te_loc s)) with (te_at s t). rewrite th_u by exact Ht. fold (uH (c / sqrt t)).
    cbn [te_at te_current te_length te_orient]. fold Il. generalize (uH (c / sqrt t)). intro g. pose proof r_pos. pose proof PI_RGT_0.
    set (v := vsub p (te_loc s)). clearbody r. clearbody v. unfold vdiv; veq; field; split; lra.
  Qed.
  Lemma te_dH_u t : 0 < t -> te_dH (te_at s t) p = vscal (Il / (4 * PI * r ^ 3) * (-2 / (sqrt PI * c ^ 2) * ((c / sqrt t) ^ 5 * exp (- (c / sqrt t) ^ 2)))) (vcross (te_orient s) (vsub p (te_loc s))).
  Proof.
    intro Ht. unfold te_dH. cbn [te_at te_loc]. fold r. change (TED _ _ _ _ (te_loc s)) with (te_at s t). rewrite th_u by exact Ht.
    cbn [te_at te_current te_length te_orient te_med at_time td_time]. fold Il. pose proof (t_of_u c t Ht c_pos) as T. pose proof r_pos. pose proof c_pos. pose proof PI_RGT_0. pose proof sqrt_PI_pos.
    replace (-2 * (c / sqrt t) ^ 3 / (sqrt PI * t)) with (-2 * (c / sqrt t) ^ 3 / sqrt PI * / t) by (set (u := c / sqrt t); clearbody u; field; lra). rewrite T.
    set (g := exp _). clearbody g. set (u := c / sqrt t). clearbody u.
    set (v := vsub p (te_loc s)). clearbody c. clearbody r. clearbody v. set (w := sqrt PI) in *. clearbody w. unfold vdiv; veq; field; repeat split; lra.
  Qed.
  Definition uO (u : R) : R := erf u - (4 * u ^ 2 + 2) * (u / sqrt PI * exp (- u ^ 2)).
  Lemma te_E_u t : 0 < t -> te_E (te_at s t) p = vadd (vscal (- (Il / (4 * PI * td_sigma (te_med s) * r ^ 3)) * uO (c / sqrt t)) (te_orient s))
     (vscal (Il / (4 * PI * td_sigma (te_med s) * r ^ 5) * vdot (te_orient s) (vsub p (te_loc s)) * nloop (c / sqrt t)) (vsub p (te_loc s))).
  Proof.
    intro Ht. unfold te_E. cbn [te_at te_loc]. fold r. change (TED _ _ _ _ (te_loc s)) with (te_at s t). rewrite th_u by exact Ht.
    fold (uO (c / sqrt t)). replace (3 * erf (c / sqrt t) - (4 * (c / sqrt t) ^ 2 + 6) * (c / sqrt t / sqrt PI * exp (- (c / sqrt t) ^ 2))) with (nloop (c / sqrt t)).
    2:{ unfold nloop. set (u := c / sqrt t). clearbody u. pose proof sqrt_PI_pos. field. lra. }
    cbn [te_at te_current te_length te_orient te_med at_time td_sigma]. fold Il. pose proof r_pos. pose proof PI_RGT_0.
    set (g := nloop _). set (h := uO _). clearbody g h. set (v := vsub p (te_loc s)). clearbody c. clearbody r. clearbody v.
    unfold vdot, vdiv. veq; field; repeat split; lra.
  Qed.
  Lemma early_O : early uO 1.
  Proof.
    replace 1 with (1 + (- (2 / sqrt PI) * 0 + - (4 / sqrt PI) * 0)) by ring.
    apply (early_ext (fun u => erf u + (- (2 / sqrt PI) * (u ^ 1 * exp (- u ^ 2)) + - (4 / sqrt PI) * (u ^ 3 * exp (- u ^ 2))))).
    - intros u _. unfold uO. pose proof sqrt_PI_pos. field. lra.
    - apply early_plus; [exact early_erf|]. apply early_plus; apply early_scal, early_gauss; repeat constructor.
  Qed.
  Lemma late_O : late uO 0.
  Proof.
    replace 0 with (0 + (- (2 / sqrt PI) * 0 + - (4 / sqrt PI) * 0)) at 1 by ring.
    apply (late_ext (fun u => erf u + (- (2 / sqrt PI) * (u ^ 1 * exp (- u ^ 2)) + - (4 / sqrt PI) * (u ^ 3 * exp (- u ^ 2))))).
    - intros u _. unfold uO. pose proof sqrt_PI_pos. field. lra.
    - apply late_plus; [exact late_erf|]. apply late_plus; apply late_scal, late_gauss.
  Qed.

  Lemma of_early k g L : early g L -> starts_at (fun t => k * g (c / sqrt t)) (k * L).
  Proof. intro E. apply (early_lim _ (fun u => k * g u) c); [exact c_pos|reflexivity|now apply early_scal]. Qed.
  Lemma of_late k g L : late g L -> ends_at (fun t => k * g (c / sqrt t)) (k * L).
  Proof. intro E. apply (late_lim _ (fun u => k * g u) c); [exact c_pos|reflexivity|now apply late_scal]. Qed.

  Lemma te_A_starts : vstarts_at (fun t => te_A (te_at s t) p) (vscal (Il / (4 * PI * r)) (te_orient s)).
  Proof.
    eapply vstarts_ext; [intros t Ht; symmetry; exact (te_A_u t Ht)|]. replace (vscal (Il / (4 * PI * r)) (te_orient s)) with (vscal (Il / (4 * PI * r) * 1) (te_orient s)) by (now rewrite Rmult_1_r). apply vstarts_scal.
    apply (of_early _ erf 1 early_erf).
  Qed.
  Lemma te_A_ends : vends_at (fun t => te_A (te_at s t) p) vzero.
  Proof.
    eapply vends_ext; [intros t Ht; symmetry; exact (te_A_u t Ht)|]. rewrite <- (vscal_0l (te_orient s)). apply vends_scal.
    rewrite <- (Rmult_0_r (Il / (4 * PI * r))). apply (of_late _ erf 0 late_erf).
  Qed.
  Lemma te_H_starts : vstarts_at (fun t => te_H (te_at s t) p) (vscal (Il / (4 * PI * r ^ 3)) (vcross (te_orient s) (vsub p (te_loc s)))).
  Proof.
    eapply vstarts_ext; [intros t Ht; symmetry; exact (te_H_u t Ht)|]. replace (vscal (Il / (4 * PI * r ^ 3)) (vcross (te_orient s) (vsub p (te_loc s)))) with (vscal (Il / (4 * PI * r ^ 3) * 1) (vcross (te_orient s) (vsub p (te_loc s)))) by (now rewrite Rmult_1_r). apply vstarts_scal.
    apply (of_early _ uH 1 early_H).
  Qed.
  Lemma te_H_ends : vends_at (fun t => te_H (te_at s t) p) vzero.
  Proof.
    eapply vends_ext; [intros t Ht; symmetry; exact (te_H_u t Ht)|]. rewrite <- (vscal_0l (vcross (te_orient s) (vsub p (te_loc s)))). apply vends_scal.
    rewrite <- (Rmult_0_r (Il / (4 * PI * r ^ 3))). apply (of_late _ uH 0 late_H).
  Qed.
  Lemma te_dH_starts : vstarts_at (fun t => te_dH (te_at s t) p) vzero.
  Proof.
    eapply vstarts_ext; [intros t Ht; symmetry; exact (te_dH_u t Ht)|]. rewrite <- (vscal_0l (vcross (te_orient s) (vsub p (te_loc s)))). apply vstarts_scal.
    rewrite <- (Rmult_0_r (Il / (4 * PI * r ^ 3))). apply (of_early _ (fun u => -2 / (sqrt PI * c ^ 2) * (u ^ 5 * exp (- u ^ 2))) 0).
    rewrite <- (Rmult_0_r (-2 / (sqrt PI * c ^ 2))). apply early_scal, early_gauss. repeat constructor.
  Qed.
  Lemma te_dH_ends : vends_at (fun t => te_dH (te_at s t) p) vzero.
  Proof.
    eapply vends_ext; [intros t Ht; symmetry; exact (te_dH_u t Ht)|]. rewrite <- (vscal_0l (vcross (te_orient s) (vsub p (te_loc s)))). apply vends_scal.
    rewrite <- (Rmult_0_r (Il / (4 * PI * r ^ 3))). apply (of_late _ (fun u => -2 / (sqrt PI * c ^ 2) * (u ^ 5 * exp (- u ^ 2))) 0).
    rewrite <- (Rmult_0_r (-2 / (sqrt PI * c ^ 2))). apply late_scal, late_gauss.
  Qed.
  Lemma te_E_starts : vstarts_at (fun t => te_E (te_at s t) p) (static_dipole (Il / (4 * PI * td_sigma (te_med s))) (te_orient s) (vsub p (te_loc s))).
  Proof.
    eapply vstarts_ext; [intros t Ht; symmetry; exact (te_E_u t Ht)|].
    replace (static_dipole _ _ _) with (vadd (vscal (- (Il / (4 * PI * td_sigma (te_med s) * r ^ 3)) * 1) (te_orient s))
     (vscal (Il / (4 * PI * td_sigma (te_med s) * r ^ 5) * vdot (te_orient s) (vsub p (te_loc s)) * 3) (vsub p (te_loc s)))).
    - apply vstarts_plus; apply vstarts_scal; [apply (of_early _ uO 1 early_O)|apply (of_early _ nloop 3 early_n)].
    - unfold static_dipole. fold r. pose proof r_pos. pose proof PI_RGT_0. unfold vdot. veq; field; repeat split; lra.
  Qed.
  Lemma te_E_ends : vends_at (fun t => te_E (te_at s t) p) vzero.
  Proof.
    eapply vends_ext; [intros t Ht; symmetry; exact (te_E_u t Ht)|].
    replace vzero with (vadd (vscal (- (Il / (4 * PI * td_sigma (te_med s) * r ^ 3)) * 0) (te_orient s))
     (vscal (Il / (4 * PI * td_sigma (te_med s) * r ^ 5) * vdot (te_orient s) (vsub p (te_loc s)) * 0) (vsub p (te_loc s)))) by (rewrite !Rmult_0_r, !vscal_0l; veq; ring).
    apply vends_plus; apply vends_scal; [apply (of_late _ uO 0 late_O)|apply (of_late _ nloop 0 late_n)].
  Qed.

  (** the derivative integrates to minus the static field *)
  Lemma te_dH_total : vtotal (fun t => te_dH (te_at s t) p) (vopp (vscal (Il / (4 * PI * r ^ 3)) (vcross (te_orient s) (vsub p (te_loc s))))).
  Proof.
    assert (D : forall t, 0 < t -> is_vderive (fun t => te_H (te_at s t) p) t (te_dH (te_at s t) p)).
    { intros t Ht. exact (te_H_time (te_at s t) p (conj Ht (conj Hs Hm)) N). }
    destruct te_H_starts as (X & Y & Z). destruct te_H_ends as (X' & Y' & Z').
    assert (Cn : forall k t, 0 < t -> continuous (fun t => Il / (4 * PI * r ^ 3) * (-2 / (sqrt PI * c ^ 2) * ((c / sqrt t) ^ 5 * exp (- (c / sqrt t) ^ 2))) * k) t).
    { intros k t Ht. pose proof (sqrt_lt_R0 t Ht). apply continuity_pt_filterlim. eapply derive_continuity.
      apply (D_mult (fun t => Il / (4 * PI * r ^ 3) * (-2 / (sqrt PI * c ^ 2) * ((c / sqrt t) ^ 5 * exp (- (c / sqrt t) ^ 2)))) (fun _ => k)); [|der].
      apply (D_scal (Il / (4 * PI * r ^ 3)) (fun t => -2 / (sqrt PI * c ^ 2) * ((c / sqrt t) ^ 5 * exp (- (c / sqrt t) ^ 2)))).
      apply (D_scal (-2 / (sqrt PI * c ^ 2)) (fun t => (c / sqrt t) ^ 5 * exp (- (c / sqrt t) ^ 2))). der; lra. }
    assert (Ce : forall (f : vec3 -> R) , (forall k v, f (vscal k v) = k * f v) -> forall t, 0 < t -> continuous (fun t => f (te_dH (te_at s t) p)) t).
    { intros f L t Ht. eapply continuous_ext_loc; [|exact (Cn (f (vcross (te_orient s) (vsub p (te_loc s)))) t Ht)].
      exists (mkposreal t Ht). intros y Hy. unfold ball in Hy; cbn in Hy. unfold AbsRing_ball, abs, minus, plus, opp in Hy; cbn in Hy. apply Rabs_lt_between in Hy.
      rewrite te_dH_u by lra. rewrite L. reflexivity. }
    split; [|split].
    - pose proof (int_FTC (fun t => vx (te_H (te_at s t) p)) _ _ _ (fun t Ht => proj1 (D t Ht)) (Ce vx ltac:(reflexivity)) X X') as E. cbn [vx vopp vzero] in *. rewrite Rminus_0_l in E. exact E.
    - pose proof (int_FTC (fun t => vy (te_H (te_at s t) p)) _ _ _ (fun t Ht => proj1 (proj2 (D t Ht))) (Ce vy ltac:(reflexivity)) Y Y') as E. cbn [vy vopp vzero] in *. rewrite Rminus_0_l in E. exact E.
    - pose proof (int_FTC (fun t => vz (te_H (te_at s t) p)) _ _ _ (fun t Ht => proj2 (proj2 (D t Ht))) (Ce vz ltac:(reflexivity)) Z Z') as E. cbn [vz vopp vzero] in *. rewrite Rminus_0_l in E. exact E.
  Qed.
End Dipole.
