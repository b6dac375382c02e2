(** Prisms as superpositions of point masses and dipoles (C111): differentiating
    the Newtonian volume integral. *)
From Coq Require Import Reals Lra Psatz.
From Coquelicot Require Import Coquelicot.
From Verif Require Import Vec3 Calculus Deriv Integral TripleParam Model_Prism Spec_Prism Spec_Super.
Open Scope R_scope.

(** ** bounded Lipschitz functions on shells *)
Definition shell (d M : R) (u : vec3) : Prop := d <= vnorm u <= M.
Definition nice (f : vec3 -> R) : Prop :=
  forall d M, 0 < d -> exists K B, 0 <= K /\ 0 <= B /\ (forall u, shell d M u -> Rabs (f u) <= B) /\
    (forall u v, shell d M u -> shell d M v -> Rabs (f u - f v) <= K * vnorm (vsub u v)).
Lemma nice_const c : nice (fun _ => c).
Proof.
  intros d M D. exists 0, (Rabs c). split; [lra|split; [apply Rabs_pos|split]]; intros; [lra|].
  rewrite Rminus_eq_0, Rabs_R0. lra.
Qed.
Lemma nice_mult f g : nice f -> nice g -> nice (fun u => f u * g u).
Proof.
  intros F G d M D. destruct (F d M D) as (K & B & K0 & B0 & FB & FL). destruct (G d M D) as (K' & B' & K0' & B0' & GB & GL).
  exists (B * K' + B' * K), (B * B'). split; [|split; [|split]].
  - assert (0 <= B * K') by (apply Rmult_le_pos; assumption). assert (0 <= B' * K) by (apply Rmult_le_pos; assumption). lra.
  - apply Rmult_le_pos; assumption.
  - intros u U. rewrite Rabs_mult. apply Rmult_le_compat; try apply Rabs_pos; auto.
  - intros u v U V. replace (f u * g u - f v * g v) with (f u * (g u - g v) + g v * (f u - f v)) by ring.
    eapply Rle_trans; [apply Rabs_triang|]. rewrite (Rabs_mult (f u)), (Rabs_mult (g v)).
    pose proof (FB u U). pose proof (GB v V). pose proof (FL u v U V). pose proof (GL u v U V).
    rewrite Rmult_plus_distr_r, !Rmult_assoc. apply Rplus_le_compat; apply Rmult_le_compat; try apply Rabs_pos; assumption.
Qed.
Lemma nice_plus f g : nice f -> nice g -> nice (fun u => f u + g u).
Proof.
  intros F G d M D. destruct (F d M D) as (K & B & K0 & B0 & FB & FL). destruct (G d M D) as (K' & B' & K0' & B0' & GB & GL).
  exists (K + K'), (B + B'). split; [lra|split; [lra|split]].
  - intros u U. eapply Rle_trans; [apply Rabs_triang|]. pose proof (FB u U). pose proof (GB u U). lra.
  - intros u v U V. replace (f u + g u - (f v + g v)) with ((f u - f v) + (g u - g v)) by ring.
    eapply Rle_trans; [apply Rabs_triang|]. pose proof (FL u v U V). pose proof (GL u v U V). lra.
Qed.
Lemma nice_ext f g : (forall u, f u = g u) -> nice f -> nice g.
Proof.
  intros E F d M D. destruct (F d M D) as (K & B & K0 & B0 & FB & FL). exists K, B. split; [exact K0|split; [exact B0|split]].
  - intros u U. rewrite <- E. auto.
  - intros u v U V. rewrite <- !E. auto.
Qed.
Lemma nice_coord : nice vx /\ nice vy /\ nice vz.
Proof.
  refine (conj _ (conj _ _)); intros d M D; exists 1, (Rabs M); (split; [lra|split; [apply Rabs_pos|split]]).
  1,3,5: intros u U; destruct (coord_le_norm u) as (X & Y & Z); destruct U; pose proof (Rle_abs M); lra.
  all: intros u v _ _; destruct (coord_le_norm (vsub u v)) as (X & Y & Z); cbn in X, Y, Z; cbn; lra.
Qed.
Lemma nice_inv : nice (fun u => / vnorm u).
Proof.
  intros d M D. exists (/ d * / d), (/ d). assert (P : 0 < / d) by (apply Rinv_0_lt_compat, D).
  split; [apply Rmult_le_pos; lra|split; [lra|split]].
  - intros u [U _]. rewrite Rabs_right by (apply Rle_ge; left; apply Rinv_0_lt_compat; lra). apply Rinv_le_contravar; assumption.
  - intros u v [U _] [V _]. replace (/ vnorm u - / vnorm v) with (/ vnorm u * / vnorm v * (vnorm v - vnorm u)) by (field; lra).
    rewrite Rabs_mult. apply Rmult_le_compat; [apply Rabs_pos|apply Rabs_pos| |].
    + assert (A : 0 < / vnorm u) by (apply Rinv_0_lt_compat; lra). assert (A' : 0 < / vnorm v) by (apply Rinv_0_lt_compat; lra).
      rewrite Rabs_right by (apply Rle_ge, Rmult_le_pos; lra).
      apply Rmult_le_compat; [lra|lra|apply Rinv_le_contravar; assumption|apply Rinv_le_contravar; assumption].
    + rewrite Rabs_minus_sym. apply vnorm_triangle_inv.
Qed.

(** ** the box seen from outside *)
Definition in_box (b : box) (q : vec3) : Prop :=
  vx (b_min b) <= vx q <= vx (b_max b) /\ vy (b_min b) <= vy q <= vy (b_max b) /\ vz (b_min b) <= vz q <= vz (b_max b).
Lemma norm_le_l1 v : vnorm v <= Rabs (vx v) + Rabs (vy v) + Rabs (vz v).
Proof.
  pose proof (Rabs_pos (vx v)). pose proof (Rabs_pos (vy v)). pose proof (Rabs_pos (vz v)).
  apply Rsqr_incr_0_var; [|lra]. unfold Rsqr. rewrite vnorm_sqr. unfold vnorm2.
  assert (Q : forall a, a * a = Rabs a * Rabs a) by (intro a; rewrite <- Rabs_mult; symmetry; apply Rabs_right; nra).
  rewrite (Q (vx v)), (Q (vy v)), (Q (vz v)). nra.
Qed.
Lemma away b p : outside b p -> exists d, 0 < d /\ forall q, in_box b q -> d <= vnorm (vsub p q).
Proof.
  assert (A : forall u, Rabs (vx u) <= vnorm u /\ Rabs (vy u) <= vnorm u /\ Rabs (vz u) <= vnorm u) by apply coord_le_norm.
  intros [[H|H]|[[H|H]|[H|H]]].
  - exists (vx (b_min b) - vx p). split; [lra|]. intros q (X & Y & Z). destruct (A (vsub p q)) as (E & _ & _). cbn in E.
    revert E. unfold Rabs; destruct Rcase_abs; lra.
  - exists (vx p - vx (b_max b)). split; [lra|]. intros q (X & Y & Z). destruct (A (vsub p q)) as (E & _ & _). cbn in E.
    revert E. unfold Rabs; destruct Rcase_abs; lra.
  - exists (vy (b_min b) - vy p). split; [lra|]. intros q (X & Y & Z). destruct (A (vsub p q)) as (_ & E & _). cbn in E.
    revert E. unfold Rabs; destruct Rcase_abs; lra.
  - exists (vy p - vy (b_max b)). split; [lra|]. intros q (X & Y & Z). destruct (A (vsub p q)) as (_ & E & _). cbn in E.
    revert E. unfold Rabs; destruct Rcase_abs; lra.
  - exists (vz (b_min b) - vz p). split; [lra|]. intros q (X & Y & Z). destruct (A (vsub p q)) as (_ & _ & E). cbn in E.
    revert E. unfold Rabs; destruct Rcase_abs; lra.
  - exists (vz p - vz (b_max b)). split; [lra|]. intros q (X & Y & Z). destruct (A (vsub p q)) as (_ & _ & E). cbn in E.
    revert E. unfold Rabs; destruct Rcase_abs; lra.
Qed.
Lemma within b p : exists M, 0 <= M /\ forall q, in_box b q -> vnorm (vsub p q) <= M.
Proof.
  exists (Rabs (vx p) + Rabs (vx (b_min b)) + Rabs (vx (b_max b)) + (Rabs (vy p) + Rabs (vy (b_min b)) + Rabs (vy (b_max b)))
          + (Rabs (vz p) + Rabs (vz (b_min b)) + Rabs (vz (b_max b)))).
  split.
  - repeat apply Rplus_le_le_0_compat; apply Rabs_pos.
  - intros q (X & Y & Z). eapply Rle_trans; [apply norm_le_l1|]. cbn.
    assert (T : forall a l h t, l <= t <= h -> Rabs (a - t) <= Rabs a + Rabs l + Rabs h)
      by (intros; unfold Rabs; repeat destruct Rcase_abs; lra).
    apply Rplus_le_compat; [apply Rplus_le_compat|]; apply T; assumption.
Qed.
Definition weak_ordered (b : box) : Prop :=
  vx (b_min b) <= vx (b_max b) /\ vy (b_min b) <= vy (b_max b) /\ vz (b_min b) <= vz (b_max b).
Lemma nice_integral k b p : weak_ordered b -> outside b p -> nice k -> exists I, box_integral (fun q => k (vsub p q)) b I.
Proof.
  intros (A & B & C) O N. destruct (away b p O) as (d & D & DH). destruct (within b p) as (M & M0 & MH).
  destruct (N d M D) as (K & Bd & K0 & _ & _ & L).
  apply (triple_exists _ _ _ _ _ _ _ K A B C K0). intros x y z x' y' z' X Y Z X' Y' Z'.
  assert (Q : in_box b (V3 x y z)) by (split; [|split]; assumption).
  assert (Q' : in_box b (V3 x' y' z')) by (split; [|split]; assumption).
  eapply Rle_trans; [apply L; split; auto|]. apply Rmult_le_compat_l; [exact K0|].
  eapply Rle_trans; [apply norm_le_l1|]. cbn.
  replace (vx p - x - (vx p - x')) with (- (x - x')) by ring. replace (vy p - y - (vy p - y')) with (- (y - y')) by ring.
  replace (vz p - z - (vz p - z')) with (- (z - z')) by ring. rewrite !Rabs_Ropp. lra.
Qed.

(** ** the gradient of the integral of a kernel is the integral of its gradient *)
Lemma line_derive k gk1 b p e (I : vec3 -> R) J : weak_ordered b -> outside b p -> vnorm e = 1 -> nice gk1 ->
  (forall u, u <> vzero -> is_derive (fun t => k (vadd u (vscal t e))) 0 (gk1 u)) ->
  near p (fun p' => box_integral (fun q => k (vsub p' q)) b (I p')) ->
  box_integral (fun q => gk1 (vsub p q)) b J ->
  is_derive (fun t => I (vadd p (vscal t e))) 0 J.
Proof.
  intros (A & B & C) O E1 N D (r & R0 & RH) HJ.
  destruct (away b p O) as (d & D0 & DH). destruct (within b p) as (M & M0 & MH).
  destruct (N (d / 2) (M + d) ltac:(lra)) as (K & Bd & K0 & _ & _ & L).
  assert (Q : forall t x y z, Rabs t < d / 2 -> in_box b (V3 x y z) -> shell (d / 2) (M + d) (vsub (vadd p (vscal t e)) (V3 x y z))).
  { intros t x y z T B0. specialize (DH _ B0). specialize (MH _ B0).
    assert (W : Rabs (vnorm (vsub (vadd p (vscal t e)) (V3 x y z)) - vnorm (vsub p (V3 x y z))) <= Rabs t).
    { eapply Rle_trans; [apply vnorm_triangle_inv|].
      replace (vsub (vsub (vadd p (vscal t e)) (V3 x y z)) (vsub p (V3 x y z))) with (vscal t e) by (apply vec3_eq; cbn; ring).
      rewrite vnorm_scal, E1. lra. }
    split; revert W; unfold Rabs at 1; destruct Rcase_abs; lra. }
  apply (triple_derive (fun t x y z => k (vsub (vadd p (vscal t e)) (V3 x y z))) (fun t x y z => gk1 (vsub (vadd p (vscal t e)) (V3 x y z)))
           _ J 0 (Rmin (d / 2) r) K _ _ _ _ _ _ A B C).
  - apply Rmin_pos; lra.
  - exact K0.
  - intros t T. rewrite Rminus_0_r in T. apply RH.
    replace (vsub (vadd p (vscal t e)) p) with (vscal t e) by (apply vec3_eq; cbn; ring).
    rewrite vnorm_scal, E1, Rmult_1_r. eapply Rlt_le_trans; [exact T|apply Rmin_r].
  - replace (vadd p (vscal 0 e)) with p by (apply vec3_eq; cbn; ring). exact HJ.
  - intros t x y z T X Y Z. rewrite Rminus_0_r in T.
    assert (T2 : Rabs t < d / 2) by (eapply Rlt_le_trans; [exact T|apply Rmin_l]).
    assert (B0 : in_box b (V3 x y z)) by (split; [|split]; assumption).
    split.
    + assert (U : vsub (vadd p (vscal t e)) (V3 x y z) <> vzero).
      { intro H. destruct (Q t x y z T2 B0) as [W _]. rewrite H, vnorm_zero in W. lra. }
      pose proof (D _ U) as D'.
      assert (S0 : is_derive (fun s => k (vadd (vsub (vadd p (vscal t e)) (V3 x y z)) (vscal (s - t) e))) t (gk1 (vsub (vadd p (vscal t e)) (V3 x y z)))).
      { apply (is_derive_shift (fun s => k (vadd (vsub (vadd p (vscal t e)) (V3 x y z)) (vscal s e))) t t). rewrite Rminus_eq_0. exact D'. }
      eapply D_ext; [|exact S0]. intro s. cbv beta. f_equal. apply vec3_eq; cbn; ring.
    + rewrite Rminus_0_r. eapply Rle_trans; [apply L; apply Q; try assumption; rewrite Rabs_R0; lra|]. apply Rmult_le_compat_l; [exact K0|].
      replace (vsub (vsub (vadd p (vscal t e)) (V3 x y z)) (vsub (vadd p (vscal 0 e)) (V3 x y z))) with (vscal t e) by (apply vec3_eq; cbn; ring).
      rewrite vnorm_scal, E1. lra.
Qed.
Lemma line_dx f p d : is_derive (fun t => f (vadd p (vscal t (V3 1 0 0)))) 0 d <-> is_dx f p d.
Proof.
  unfold is_dx. split; intro H.
  - apply (D_ext (fun t => f (vadd p (vscal (t - vx p) (V3 1 0 0))))); [intro t; f_equal; apply vec3_eq; cbn; ring|].
    apply (is_derive_shift (fun t => f (vadd p (vscal t (V3 1 0 0))))). rewrite Rminus_eq_0. exact H.
  - apply (D_ext (fun t => f (V3 (t - - vx p) (vy p) (vz p)))); [intro t; f_equal; apply vec3_eq; cbn; ring|].
    apply (is_derive_shift (fun t => f (V3 t (vy p) (vz p)))). replace (0 - - vx p) with (vx p) by ring. exact H.
Qed.
Lemma line_dy f p d : is_derive (fun t => f (vadd p (vscal t (V3 0 1 0)))) 0 d <-> is_dy f p d.
Proof.
  unfold is_dy. split; intro H.
  - apply (D_ext (fun t => f (vadd p (vscal (t - vy p) (V3 0 1 0))))); [intro t; f_equal; apply vec3_eq; cbn; ring|].
    apply (is_derive_shift (fun t => f (vadd p (vscal t (V3 0 1 0))))). rewrite Rminus_eq_0. exact H.
  - apply (D_ext (fun t => f (V3 (vx p) (t - - vy p) (vz p)))); [intro t; f_equal; apply vec3_eq; cbn; ring|].
    apply (is_derive_shift (fun t => f (V3 (vx p) t (vz p)))). replace (0 - - vy p) with (vy p) by ring. exact H.
Qed.
Lemma line_dz f p d : is_derive (fun t => f (vadd p (vscal t (V3 0 0 1)))) 0 d <-> is_dz f p d.
Proof.
  unfold is_dz. split; intro H.
  - apply (D_ext (fun t => f (vadd p (vscal (t - vz p) (V3 0 0 1))))); [intro t; f_equal; apply vec3_eq; cbn; ring|].
    apply (is_derive_shift (fun t => f (vadd p (vscal t (V3 0 0 1))))). rewrite Rminus_eq_0. exact H.
  - apply (D_ext (fun t => f (V3 (vx p) (vy p) (t - - vz p)))); [intro t; f_equal; apply vec3_eq; cbn; ring|].
    apply (is_derive_shift (fun t => f (V3 (vx p) (vy p) t))). replace (0 - - vz p) with (vz p) by ring. exact H.
Qed.
Lemma unit_axes : vnorm (V3 1 0 0) = 1 /\ vnorm (V3 0 1 0) = 1 /\ vnorm (V3 0 0 1) = 1.
Proof. rewrite vnorm_axis_x, vnorm_axis_y, vnorm_axis_z, Rabs_R1. auto. Qed.

Definition vnice (F : vec3 -> vec3) : Prop := nice (fun u => vx (F u)) /\ nice (fun u => vy (F u)) /\ nice (fun u => vz (F u)).
Theorem integral_grad k gk b p (I : vec3 -> R) : weak_ordered b -> outside b p -> vnice gk ->
  (forall u, u <> vzero -> is_grad k u (gk u)) ->
  near p (fun p' => box_integral (fun q => k (vsub p' q)) b (I p')) ->
  exists J, box_vintegral (fun q => gk (vsub p q)) b J /\ is_grad I p J.
Proof.
  intros W O (NX & NY & NZ) G N. destruct unit_axes as (UX & UY & UZ).
  destruct (nice_integral _ b p W O NX) as [X HX]. destruct (nice_integral _ b p W O NY) as [Y HY]. destruct (nice_integral _ b p W O NZ) as [Z HZ].
  exists (V3 X Y Z). split; [exact (conj HX (conj HY HZ))|]. refine (conj _ (conj _ _)).
  - apply line_dx. apply (line_derive k (fun u => vx (gk u)) b p (V3 1 0 0) I X W O UX NX); [|exact N|exact HX].
    intros u U. apply line_dx, (G u U).
  - apply line_dy. apply (line_derive k (fun u => vy (gk u)) b p (V3 0 1 0) I Y W O UY NY); [|exact N|exact HY].
    intros u U. apply line_dy, (G u U).
  - apply line_dz. apply (line_derive k (fun u => vz (gk u)) b p (V3 0 0 1) I Z W O UZ NZ); [|exact N|exact HZ].
    intros u U. apply line_dz, (G u U).
Qed.
