(** The prism's potential and field at every point of space. *)
From Coq Require Import Reals Lra Lia List Bool.
From Coquelicot Require Import Coquelicot.
From Verif Require Import Vec3 Calculus Deriv Numpy Integral Model_Prism Spec_Prism Proof_Prism Proof_Prism2 Proof_Prism3 Proof_Sphere Proof_Loop2.
Import ListNotations.
Open Scope R_scope.

(** *** the derivative of the potential kernel, with no exception *)
Lemma D_F_edge y : y <> 0 -> is_derive (fun t => - (t * y * ln (rad t y 0))) 0 (- (y * ln (Rabs y))).
Proof.
  intros N. assert (E : rad 0 y 0 = Rabs y) by (unfold rad; replace (0 * 0 + y * y + 0 * 0) with (Rsqr y) by (unfold Rsqr; ring); apply sqrt_Rsqr_abs).
  assert (P : 0 < rad 0 y 0) by (rewrite E; apply Rabs_pos_lt, N). pose proof (rad_d1 0 y 0 P) as D. rewrite <- E. eapply is_derive_eq; [der; exact P|]. ring.
Qed.
Lemma reg_or x y z : reg x y z \/ (y = 0 /\ z = 0) \/ (x = 0 /\ z = 0) \/ (x = 0 /\ y = 0).
Proof.
  pose proof (rad_sqr x y z) as Q. pose proof (rad_abs x y z) as (A & B & C).
  destruct (Req_dec x 0) as [X|X], (Req_dec y 0) as [Y|Y], (Req_dec z 0) as [Z|Z]; auto; left.
  - subst x. split; [|split]; nra.
  - subst y. split; [|split]; nra.
  - subst z. split; [|split]; nra.
  - apply reg_of_nonzero; assumption.
Qed.
Lemma dF_all x y z : is_derive (fun t => F t y z) x (- Gk x y z - ext2 x y - ext2 x z).
Proof.
  destruct (reg_or x y z) as [H|[[-> ->]|[[-> ->]|[-> ->]]]]; [apply dF_x, H| | |].
  - apply (D_ext (fun _ => 0)).
    + intros t. unfold F. replace (0 * 0 / (t * rad t 0 0)) with 0 by (unfold Rdiv; ring). rewrite atan_0. ring.
    + eapply is_derive_eq; [apply D_const|]. unfold Gk, ext2. replace (0 * 0 / (x * rad x 0 0)) with 0 by (unfold Rdiv; ring). rewrite atan_0. unfold Rdiv. ring.
  - destruct (Req_dec y 0) as [->|N].
    + apply (D_ext (fun _ => 0)).
      * intros t. unfold F. replace (0 * 0 / (t * rad t 0 0)) with 0 by (unfold Rdiv; ring). rewrite atan_0. ring.
      * eapply is_derive_eq; [apply D_const|]. unfold Gk, ext2, Rdiv. ring.
    + apply (D_ext (fun t => - (t * y * ln (rad t y 0)))).
      * intros t. unfold F. replace (y * 0 / (t * rad t y 0)) with 0 by (unfold Rdiv; ring). replace (0 * t / (y * rad t y 0)) with 0 by (unfold Rdiv; ring). rewrite atan_0, Rplus_0_l. ring.
      * eapply is_derive_eq; [apply D_F_edge, N|]. unfold Gk, ext2.
        assert (E : rad 0 y 0 = Rabs y) by (unfold rad; replace (0 * 0 + y * y + 0 * 0) with (Rsqr y) by (unfold Rsqr; ring); apply sqrt_Rsqr_abs).
        rewrite E, Rplus_0_l. unfold Rdiv. ring.
  - destruct (Req_dec z 0) as [->|N].
    + apply (D_ext (fun _ => 0)).
      * intros t. unfold F. replace (0 * 0 / (t * rad t 0 0)) with 0 by (unfold Rdiv; ring). rewrite atan_0. ring.
      * eapply is_derive_eq; [apply D_const|]. unfold Gk, ext2, Rdiv. ring.
    + apply (D_ext (fun t => - (t * z * ln (rad t z 0)))).
      * intros t. unfold F. replace (0 * z / (t * rad t 0 z)) with 0 by (unfold Rdiv; ring). replace (t * 0 / (z * rad t 0 z)) with 0 by (unfold Rdiv; ring). rewrite atan_0, Rplus_0_l, (rad_swap2 t z 0). ring.
      * eapply is_derive_eq; [apply D_F_edge, N|]. unfold Gk, ext2.
        assert (E : rad 0 0 z = Rabs z) by (unfold rad; replace (0 * 0 + 0 * 0 + z * z) with (Rsqr z) by (unfold Rsqr; ring); apply sqrt_Rsqr_abs).
        rewrite E, Rplus_0_l. unfold Rdiv. ring.
Qed.

Lemma F_grad_everywhere b p : is_grad (fun q => eval_def_int b prism_f q 0) p (fieldsum b p).
Proof.
  unfold is_grad, is_dx, is_dy, is_dz, fieldsum; cbn [vx vy vz].
  assert (E : forall q, eval_def_int b prism_f q 0 = csum F (ax b q) (zx b q) (ay b q) (zy b q) (az b q) (zz b q)).
  { intro q. rewrite eval0. apply csum_ext. intros. apply prism_f_form. }
  destruct p as [x y z]; cbn [vx vy vz] in *. unfold ax, ay, az, zx, zy, zz in *; cbn [vx vy vz] in *.
  refine (conj _ (conj _ _)).
  - apply (D_ext (fun t => csum F (vx (b_min b) - t) (vx (b_max b) - t) (vy (b_min b) - y) (vy (b_max b) - y) (vz (b_min b) - z) (vz (b_max b) - z)));
      [intro t; rewrite E; reflexivity|].
    eapply is_derive_eq.
    + apply (D_csum1 F (fun x y z => - Gk x y z - ext2 x y - ext2 x z)). intros. apply dF_all.
    + rewrite <- csum_opp. rewrite <- (csum_cancel Gk ext2 (fun _ _ => 0) (fun x z => ext2 x z)). apply csum_ext; intros; ring.
  - apply (D_ext (fun t => csum F (vx (b_min b) - x) (vx (b_max b) - x) (vy (b_min b) - t) (vy (b_max b) - t) (vz (b_min b) - z) (vz (b_max b) - z)));
      [intro t; rewrite E; reflexivity|].
    eapply is_derive_eq.
    + apply (D_csum2 F (fun x y z => - Gk y z x - ext2 y z - ext2 y x)).
      intros x0 y0 z0 ? ? ?. apply (D_ext (fun s => F s z0 x0)); [intro; apply F_rot|]. apply dF_all.
    + rewrite <- csum_opp. rewrite <- (csum_cancel (fun x y z => Gk y z x) (fun x y => ext2 y x) ext2 (fun _ _ => 0)). apply csum_ext; intros; ring.
  - apply (D_ext (fun t => csum F (vx (b_min b) - x) (vx (b_max b) - x) (vy (b_min b) - y) (vy (b_max b) - y) (vz (b_min b) - t) (vz (b_max b) - t)));
      [intro t; rewrite E; reflexivity|].
    eapply is_derive_eq.
    + apply (D_csum3 F (fun x y z => - Gk z x y - ext2 z x - ext2 z y)).
      intros x0 y0 z0 ? ? ?. apply (D_ext (fun s => F s x0 y0)); [intro; apply F_rot2|]. apply dF_all.
    + rewrite <- csum_opp. rewrite <- (csum_cancel (fun x y z => Gk z x y) (fun _ _ => 0) (fun y z => ext2 z y) (fun x z => ext2 z x)). apply csum_ext; intros; ring.
Qed.

(** *** continuity of the kernels *)
Lemma is_cont_squeeze f h p : (forall q, vnorm (vsub q p) < 1 -> Rabs (f q - f p) <= h q) -> is_cont h p -> h p = 0 -> is_cont f p.
Proof.
  intros B H Z e He. destruct (H e He) as [d [D1 D2]]. exists (Rmin d 1). split; [apply Rmin_glb_lt; lra|]. intros q Hq.
  pose proof (Rmin_l d 1). pose proof (Rmin_r d 1). specialize (D2 q ltac:(lra)). rewrite Z, Rminus_0_r in D2. specialize (B q ltac:(lra)). pose proof (Rle_abs (h q)). lra.
Qed.
Lemma is_cont_comp (g : R -> R) f p : is_cont f p -> continuous g (f p) -> is_cont (fun q => g (f q)) p.
Proof.
  intros F G e He. apply continuity_pt_filterlim in G. destruct (G e He) as [a [A1 A2]]. destruct (F a A1) as [d [D1 D2]]. exists d. split; [exact D1|]. intros q Hq.
  specialize (D2 q Hq). destruct (Req_dec (f q) (f p)) as [->|N]; [rewrite Rminus_eq_0, Rabs_R0; exact He|]. apply (A2 (f q)). split; [split; [exact I|congruence]|exact D2].
Qed.
Lemma is_cont_x p : is_cont vx p.
Proof. destruct (is_cont_coord p vzero) as [A _]. eapply is_cont_ext; [|exact A]. intros q. destruct q; unfold vsub, vzero; cbn; ring. Qed.
Lemma is_cont_y p : is_cont vy p.
Proof. destruct (is_cont_coord p vzero) as [_ [A _]]. eapply is_cont_ext; [|exact A]. intros q. destruct q; unfold vsub, vzero; cbn; ring. Qed.
Lemma is_cont_z p : is_cont vz p.
Proof. destruct (is_cont_coord p vzero) as [_ [_ A]]. eapply is_cont_ext; [|exact A]. intros q. destruct q; unfold vsub, vzero; cbn; ring. Qed.
Lemma rad_norm q : rad (vx q) (vy q) (vz q) = vnorm q.
Proof. reflexivity. Qed.
Lemma is_cont_norm p : is_cont vnorm p.
Proof. intros e He. exists e. split; [exact He|]. intros q Hq. eapply Rle_lt_trans; [apply vnorm_triangle_inv|exact Hq]. Qed.

Lemma xlnx x : 0 < x <= 1 -> x * Rabs (ln x) <= 2 * sqrt x.
Proof.
  intros H. assert (S : 0 < sqrt x) by (apply sqrt_lt_R0; lra). assert (Q : sqrt x * sqrt x = x) by (apply sqrt_sqrt; lra).
  assert (L : ln x <= 0) by (rewrite <- ln_1; destruct (Req_dec x 1) as [->|N]; [lra|left; apply ln_increasing; lra]).
  rewrite Rabs_left1 by exact L. assert (E : ln x = - (2 * ln (/ sqrt x))) by (rewrite ln_Rinv by exact S; rewrite <- Q at 1; rewrite ln_mult by exact S; ring).
  assert (U : ln (/ sqrt x) <= / sqrt x).
  { pose proof (exp_ineq1_le (ln (/ sqrt x))) as K. rewrite exp_ln in K by (apply Rinv_0_lt_compat; exact S). lra. }
  rewrite E, Ropp_involutive. replace (2 * sqrt x) with (x * (2 * / sqrt x)); [apply Rmult_le_compat_l; lra|]. rewrite <- Q at 1. field. lra.
Qed.
(** near the half line on which the logarithm blows up it is multiplied by something that vanishes *)
Lemma log_bound M u c r : 1 <= M -> 0 < u <= 1 -> u * u <= (c + r) * (r - c) -> 0 < r -> Rabs c <= r -> r <= M -> u * Rabs (ln (c + r)) <= u * (2 * ln (2 * M)) + 4 * sqrt u.
Proof.
  intros HM Hu Q Hr Hc HrM. pose proof (Rle_abs c). pose proof (Rle_abs (- c)) as A. rewrite Rabs_Ropp in A.
  assert (P : 0 < c + r) by nra. assert (L1 : ln (c + r) <= ln (2 * M)) by (apply Rcomplements.ln_le; lra).
  assert (L2 : ln (u * u / (2 * M)) <= ln (c + r)).
  { apply Rcomplements.ln_le; [apply Rdiv_lt_0_compat; nra|]. apply Rmult_le_reg_r with (2 * M); [lra|]. unfold Rdiv. rewrite Rmult_assoc, Rinv_l by lra. nra. }
  rewrite ln_div in L2 by nra. rewrite ln_mult in L2 by lra. pose proof (xlnx u Hu) as X. assert (L0 : ln u <= 0) by (rewrite <- ln_1; apply Rcomplements.ln_le; lra).
  rewrite Rabs_left1 in X by exact L0. assert (LM : 0 <= ln (2 * M)) by (rewrite <- ln_1; apply Rcomplements.ln_le; lra).
  assert (B : Rabs (ln (c + r)) <= 2 * ln (2 * M) - 2 * ln u) by (apply Rabs_le; lra). nra.
Qed.

(** [u ln (c + r)], where [u] and [c] are two different coordinates of q *)
Lemma is_cont_ulog (u c : vec3 -> R) p : (forall q, is_cont u q) -> (forall q, is_cont c q) -> (forall q, u q * u q + c q * c q <= vnorm q * vnorm q) ->
  (forall q, (vnorm q + c q = 0 -> u q = 0)) -> is_cont (fun q => u q * ln (c q + vnorm q)) p.
Proof.
  intros U C B Z. pose proof (vnorm_nonneg p) as N0.
  assert (LE : forall q, Rabs (u q) <= vnorm q /\ Rabs (c q) <= vnorm q).
  { intros q. specialize (B q). pose proof (vnorm_nonneg q). split; apply Rabs_le; nra. }
  destruct (Rlt_le_dec 0 (c p + vnorm p)) as [P|P].
  - apply is_cont_mult; [apply U|]. apply (is_cont_comp ln (fun q => c q + vnorm q)); [apply is_cont_plus; [apply C|apply is_cont_norm]|]. apply continuity_pt_filterlim.
    apply derivable_continuous_pt. exists (/ (c p + vnorm p)). apply derivable_pt_lim_ln. exact P.
  - destruct (LE p) as [_ L]. pose proof (Rle_abs (- c p)) as A. rewrite Rabs_Ropp in A. assert (E : vnorm p + c p = 0) by lra. pose proof (Z p E) as U0.
    set (M := vnorm p + 1). assert (HM : 1 <= M) by (unfold M; lra).
    (* u is at most 1 close to p only if we shrink; use the bound with min *)
    destruct (U p 1 ltac:(lra)) as [d [D1 D2]]. rewrite U0 in D2.
    assert (K : forall q, vnorm (vsub q p) < Rmin d 1 -> Rabs (u q * ln (c q + vnorm q)) <= Rabs (u q) * (2 * ln (2 * M)) + 4 * sqrt (Rabs (u q))).
    { intros q Hq. pose proof (Rmin_l d 1). pose proof (Rmin_r d 1). specialize (D2 q ltac:(lra)). rewrite Rminus_0_r in D2.
      destruct (Req_dec (u q) 0) as [->|Nu]; [rewrite Rmult_0_l, Rabs_R0, sqrt_0; lra|]. rewrite Rabs_mult.
      assert (Pu : 0 < Rabs (u q)) by (apply Rabs_pos_lt; exact Nu). destruct (LE q) as [L1 L2].
      apply log_bound; try assumption; [lra| |lra|].
      - rewrite <- Rabs_mult, Rabs_pos_eq by nra. specialize (B q). nra.
      - pose proof (vnorm_triangle_inv q p) as T. pose proof (Rle_abs (vnorm q - vnorm p)). unfold M. lra. }
    assert (Hc : is_cont (fun q => Rabs (u q) * (2 * ln (2 * M)) + 4 * sqrt (Rabs (u q))) p).
    { assert (Ua : is_cont (fun q => Rabs (u q)) p) by (apply (is_cont_comp Rabs u); [apply U|apply continuous_Rabs]).
      apply is_cont_plus; [apply (is_cont_mult (fun q => Rabs (u q)) (fun _ => 2 * ln (2 * M))); [exact Ua|apply is_cont_const]|].
      apply is_cont_scal. apply (is_cont_comp sqrt (fun q => Rabs (u q))); [exact Ua|apply continuous_sqrt]. }
    intros e He. destruct (Hc e He) as [d' [E1 E2]]. rewrite U0, Rabs_R0, sqrt_0 in E2.
    exists (Rmin d' (Rmin d 1)). split; [repeat apply Rmin_glb_lt; lra|]. intros q Hq. pose proof (Rmin_l d' (Rmin d 1)). pose proof (Rmin_r d' (Rmin d 1)).
    specialize (E2 q ltac:(lra)). specialize (K q ltac:(lra)). rewrite U0, Rmult_0_l, Rminus_0_r. pose proof (Rle_abs (Rabs (u q) * (2 * ln (2 * M)) + 4 * sqrt (Rabs (u q)) - (0 * (2 * ln (2 * M)) + 4 * 0))). lra.
Qed.
(** [u atan (v w / (u r))] for the three coordinates of q in some order *)
Lemma is_cont_uatan (u v w : vec3 -> R) p : (forall q, is_cont u q) -> (forall q, is_cont v q) -> (forall q, is_cont w q) -> (forall q, Rabs (u q) <= vnorm q) ->
  is_cont (fun q => u q * atan (v q * w q / (u q * vnorm q))) p.
Proof.
  intros U V W B. destruct (Req_dec (u p) 0) as [Z|N].
  - apply (is_cont_squeeze _ (fun q => 2 * Rabs (u q))).
    + intros q _. rewrite Z, Rmult_0_l, Rminus_0_r, Rabs_mult. rewrite Rmult_comm. apply Rmult_le_compat_r; [apply Rabs_pos|apply atan_abs].
    + apply is_cont_scal. apply (is_cont_comp Rabs u); [apply U|apply continuous_Rabs].
    + rewrite Z, Rabs_R0. ring.
  - assert (P : 0 < vnorm p) by (pose proof (B p); pose proof (Rabs_pos_lt _ N); lra).
    apply is_cont_mult; [apply U|]. apply (is_cont_comp atan (fun q => v q * w q / (u q * vnorm q))); [|apply continuous_atan].
    unfold Rdiv. apply is_cont_mult; [apply is_cont_mult; [apply V|apply W]|]. apply (is_cont_comp Rinv (fun q => u q * vnorm q)).
    + apply is_cont_mult; [apply U|apply is_cont_norm].
    + apply continuous_Rinv. apply Rmult_integral_contrapositive. split; [exact N|lra].
Qed.

Definition coord (u : vec3 -> R) : Prop := u = vx \/ u = vy \/ u = vz.
Lemma coord_cont u p : coord u -> is_cont u p.
Proof. intros [-> |[-> | ->]]; [apply is_cont_x|apply is_cont_y|apply is_cont_z]. Qed.
Lemma norm_sq q : vnorm q * vnorm q = vx q * vx q + vy q * vy q + vz q * vz q.
Proof. rewrite vnorm_sqr. reflexivity. Qed.
Lemma coord_abs u q : coord u -> Rabs (u q) <= vnorm q.
Proof. intros H. pose proof (norm_sq q). pose proof (vnorm_nonneg q). apply Rabs_le. destruct H as [-> |[-> | ->]]; nra. Qed.
Lemma coord_two u c q : coord u -> coord c -> u <> c -> u q * u q + c q * c q <= vnorm q * vnorm q.
Proof. intros [-> |[-> | ->]] [-> |[-> | ->]] N; try (exfalso; apply N; reflexivity); rewrite norm_sq; nra. Qed.
Lemma cont_ulog u c p : coord u -> coord c -> u <> c -> is_cont (fun q => u q * ln (c q + vnorm q)) p.
Proof.
  intros U C N. apply is_cont_ulog; [intros; apply coord_cont, U|intros; apply coord_cont, C|intros; apply coord_two; assumption|].
  intros q E. pose proof (coord_two u c q U C N). nra.
Qed.
Lemma cont_uatan u v w p : coord u -> coord v -> coord w -> is_cont (fun q => u q * atan (v q * w q / (u q * vnorm q))) p.
Proof. intros U V W. apply is_cont_uatan; intros; first [apply coord_cont; assumption|apply coord_abs; assumption]. Qed.
Lemma xy_ne : vx <> vy. Proof. intros E. pose proof (f_equal (fun f => f (V3 0 1 2)) E) as K. cbn in K. lra. Qed.
Lemma xz_ne : vx <> vz. Proof. intros E. pose proof (f_equal (fun f => f (V3 0 1 2)) E) as K. cbn in K. lra. Qed.
Lemma yz_ne : vy <> vz. Proof. intros E. pose proof (f_equal (fun f => f (V3 0 1 2)) E) as K. cbn in K. lra. Qed.
Definition kcont (f : R -> R -> R -> R) : Prop := forall p, is_cont (fun q => f (vx q) (vy q) (vz q)) p.
Ltac co := first [left; reflexivity|right; left; reflexivity|right; right; reflexivity].
Ltac cne := first [exact xy_ne|exact xz_ne|exact yz_ne|exact (not_eq_sym xy_ne)|exact (not_eq_sym xz_ne)|exact (not_eq_sym yz_ne)].
Lemma is_cont_opp f p : is_cont f p -> is_cont (fun q => - f q) p.
Proof. intros H. apply (is_cont_ext (fun q => -1 * f q)); [intros; ring|]. apply is_cont_scal, H. Qed.
Lemma Gk_general u v w p : coord u -> coord v -> coord w -> v <> w -> is_cont (fun q => v q * ln (w q + vnorm q) + w q * ln (v q + vnorm q) - u q * atan (v q * w q / (u q * vnorm q))) p.
Proof.
  intros U V W N. apply (is_cont_plus (fun q => v q * ln (w q + vnorm q) + w q * ln (v q + vnorm q)) (fun q => - (u q * atan (v q * w q / (u q * vnorm q))))).
  - apply is_cont_plus; apply cont_ulog; try assumption. apply not_eq_sym, N.
  - apply is_cont_opp. apply cont_uatan; assumption.
Qed.
Lemma Gk1 : kcont Gk. Proof. intros p. apply (Gk_general vx vy vz); try co. exact yz_ne. Qed.
Lemma Gk2 : kcont (fun x y z => Gk y z x).
Proof. intros p. eapply is_cont_ext; [|apply (Gk_general vy vz vx p); [co|co|co|apply not_eq_sym, xz_ne]]. intros q. unfold Gk. rewrite (rad_rot (vx q) (vy q) (vz q)). reflexivity. Qed.
Lemma Gk3 : kcont (fun x y z => Gk z x y).
Proof. intros p. eapply is_cont_ext; [|apply (Gk_general vz vx vy p); [co|co|co|exact xy_ne]]. intros q. unfold Gk. rewrite (rad_rot2 (vx q) (vy q) (vz q)). reflexivity. Qed.
Lemma F_cont3 : kcont F.
Proof.
  intros p. unfold F. cbv zeta. 
  apply (is_cont_ext (fun q => - (vy q * (vx q * ln (vz q + vnorm q))) + - (vz q * (vy q * ln (vx q + vnorm q))) + - (vx q * (vz q * ln (vy q + vnorm q)))
    + 1 / 2 * (vx q * (vx q * atan (vy q * vz q / (vx q * vnorm q)))) + 1 / 2 * (vy q * (vy q * atan (vz q * vx q / (vy q * vnorm q)))) + 1 / 2 * (vz q * (vz q * atan (vx q * vy q / (vz q * vnorm q)))))).
  { intros q. rewrite rad_norm. ring. }
  repeat apply is_cont_plus; first [apply is_cont_opp|apply is_cont_scal]; (apply is_cont_mult; [apply coord_cont; co|]); first [apply cont_ulog; [co|co|cne]|apply cont_uatan; co].
Qed.

(** *** corner sums *)
Lemma is_cont_corner f a b c p : kcont f -> is_cont (fun q => f (a - vx q) (b - vy q) (c - vz q)) p.
Proof.
  intros H e He. destruct (H (V3 (a - vx p) (b - vy p) (c - vz p)) e He) as [d [D1 D2]]. cbn [vx vy vz] in D2. exists d. split; [exact D1|]. intros q Hq.
  apply (D2 (V3 (a - vx q) (b - vy q) (c - vz q))). replace (vsub _ _) with (vsub p q); [rewrite vnorm_sub_sym; exact Hq|].
  destruct p, q; unfold vsub; cbn; f_equal; ring.
Qed.
Lemma is_cont_csum f b p : kcont f -> is_cont (fun q => csum f (ax b q) (zx b q) (ay b q) (zy b q) (az b q) (zz b q)) p.
Proof.
  intros H. unfold csum, ax, ay, az, zx, zy, zz.
  assert (K : forall a b c, is_cont (fun q => f (a - vx q) (b - vy q) (c - vz q)) p) by (intros; apply is_cont_corner, H).
  assert (M : forall g h, is_cont g p -> is_cont h p -> is_cont (fun q => g q - h q) p) by (intros g h Hg Hh; apply (is_cont_plus g (fun q => - h q)); [exact Hg|apply is_cont_opp, Hh]).
  repeat first [apply K|apply M|apply is_cont_plus].
Qed.
Lemma pot_sum_cont b p : is_cont (fun q => eval_def_int b prism_f q 0) p.
Proof. eapply is_cont_ext; [|apply (is_cont_csum F b p F_cont3)]. intros q. rewrite eval0. apply csum_ext. intros; symmetry; apply prism_f_form. Qed.
Lemma field_sum_cont b p : is_cont (fun q => eval_def_int b prism_fz q 1) p /\ is_cont (fun q => eval_def_int b prism_fz q 2) p /\ is_cont (fun q => eval_def_int b prism_fz q 0) p.
Proof.
  refine (conj _ (conj _ _)).
  - eapply is_cont_ext; [|apply (is_cont_csum _ b p Gk1)]. intros q. rewrite eval1. apply csum_ext. intros; symmetry; apply prism_fz_form.
  - eapply is_cont_ext; [|apply (is_cont_csum _ b p Gk2)]. intros q. rewrite eval2. apply csum_ext. intros; symmetry; apply prism_fz_form.
  - eapply is_cont_ext; [|apply (is_cont_csum _ b p Gk3)]. intros q. rewrite eval0. apply csum_ext. intros; symmetry; apply prism_fz_form.
Qed.

(** *** the model *)
Lemma grav_cont G b rho p : is_cont (gravitational_potential G b rho) p /\
  is_cont (fun q => vx (gravitational_field G b rho q)) p /\ is_cont (fun q => vy (gravitational_field G b rho q)) p /\ is_cont (fun q => vz (gravitational_field G b rho q)) p.
Proof.
  destruct (field_sum_cont b p) as (A & B & C). unfold gravitational_potential, gravitational_field. cbv zeta. cbn [vscal vx vy vz].
  repeat split; apply is_cont_scal; first [apply pot_sum_cont|assumption].
Qed.
Lemma grav_grad_everywhere G b rho p : is_grad (gravitational_potential G b rho) p (gravitational_field G b rho p).
Proof. unfold gravitational_field. cbv zeta. rewrite field_form. apply (is_grad_scal (- G * rho) (fun q => eval_def_int b prism_f q 0)), F_grad_everywhere. Qed.
Lemma scalar_cont b m p : is_cont (scalar_potential b m) p.
Proof.
  destruct (field_sum_cont b p) as (A & B & C). unfold scalar_potential. cbv zeta. apply is_cont_scal.
  assert (K : forall g k, is_cont g p -> is_cont (fun q => g q * k) p) by (intros g k Hg; apply (is_cont_mult g (fun _ => k)); [exact Hg|apply is_cont_const]).
  repeat apply is_cont_plus; apply K; assumption.
Qed.
