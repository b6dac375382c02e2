(** The guarded prism kernels are right limits along the diagonal, also on the planes of the faces (C111). *)
From Coq Require Import Reals Lra Psatz.
From Coquelicot Require Import Coquelicot.
From Verif Require Import Vec3 Numpy Calculus Deriv Model_Prism Spec_Prism Proof_Prism Proof_Prism2.
Open Scope R_scope.

(** ** continuity from the right at 0 *)
Definition rc (f : R -> R) : Prop := forall e, 0 < e -> exists d, 0 < d /\ forall t, 0 < t < d -> Rabs (f t - f 0) < e.
Lemma rc_cont f : continuity_pt f 0 -> rc f.
Proof.
  intros C e He. destruct (C e He) as (d & D & H). exists d. split; [exact D|]. intros t T. apply H. split.
  - split; [exact Logic.I|]. lra.
  - cbn. unfold R_dist. rewrite Rminus_0_r, Rabs_right; lra.
Qed.
Lemma rc_derive f d : is_derive f 0 d -> rc f.
Proof. intro H. apply rc_cont. eapply derive_continuity, H. Qed.
Lemma rc_const c : rc (fun _ => c).
Proof. intros e He. exists 1. split; [lra|]. intros. rewrite Rminus_eq_0, Rabs_R0. exact He. Qed.
Lemma rc_plus f g : rc f -> rc g -> rc (fun t => f t + g t).
Proof.
  intros F G e He. destruct (F (e / 2) ltac:(lra)) as (d & D & H). destruct (G (e / 2) ltac:(lra)) as (d' & D' & H').
  exists (Rmin d d'). split; [apply Rmin_pos; assumption|]. intros t T.
  pose proof (Rmin_l d d'). pose proof (Rmin_r d d'). specialize (H t ltac:(lra)). specialize (H' t ltac:(lra)).
  replace (f t + g t - (f 0 + g 0)) with ((f t - f 0) + (g t - g 0)) by ring. eapply Rle_lt_trans; [apply Rabs_triang|]. lra.
Qed.
Lemma rc_opp f : rc f -> rc (fun t => - f t).
Proof.
  intros F e He. destruct (F e He) as (d & D & H). exists d. split; [exact D|]. intros t T.
  replace (- f t - - f 0) with (- (f t - f 0)) by ring. rewrite Rabs_Ropp. auto.
Qed.
Lemma rc_minus f g : rc f -> rc g -> rc (fun t => f t - g t).
Proof. intros F G. apply (rc_plus f (fun t => - g t)); [exact F|apply rc_opp, G]. Qed.
Lemma rc_ext d0 f g : 0 < d0 -> (forall t, 0 <= t < d0 -> f t = g t) -> rc f -> rc g.
Proof.
  intros D0 E F e He. destruct (F e He) as (d & D & H). exists (Rmin d d0). split; [apply Rmin_pos; assumption|].
  intros t T. pose proof (Rmin_l d d0). pose proof (Rmin_r d d0). rewrite <- !E by lra. apply H. lra.
Qed.
Lemma rc_scal k f : rc f -> rc (fun t => k * f t).
Proof.
  intros F e He. assert (K : 0 < Rabs k + 1) by (pose proof (Rabs_pos k); lra).
  destruct (F (e / (Rabs k + 1)) ltac:(apply Rdiv_lt_0_compat; lra)) as (d & D & H). exists d. split; [exact D|]. intros t T. specialize (H t T).
  replace (k * f t - k * f 0) with (k * (f t - f 0)) by ring. rewrite Rabs_mult.
  apply (Rmult_lt_compat_l (Rabs k + 1)) in H; [|exact K]. replace ((Rabs k + 1) * (e / (Rabs k + 1))) with e in H by (field; lra).
  pose proof (Rabs_pos (f t - f 0)). lra.
Qed.
Lemma rc_unique f g d0 : 0 < d0 -> (forall t, 0 < t < d0 -> f t = g t) -> rc f -> rc g -> f 0 = g 0.
Proof.
  intros D0 E F G. destruct (Req_dec (f 0) (g 0)) as [|N]; [assumption|exfalso].
  set (e := Rabs (f 0 - g 0) / 2). assert (He : 0 < e) by (unfold e; pose proof (Rabs_pos_lt (f 0 - g 0)); lra).
  destruct (F e He) as (d & D & H). destruct (G e He) as (d' & D' & H').
  set (m := Rmin d0 (Rmin d d')). assert (M : 0 < m) by (unfold m; repeat apply Rmin_pos; assumption).
  pose proof (Rmin_l d0 (Rmin d d')). pose proof (Rmin_r d0 (Rmin d d')). pose proof (Rmin_l d d'). pose proof (Rmin_r d d').
  fold m in H0, H1.
  specialize (H (m / 2) ltac:(lra)). specialize (H' (m / 2) ltac:(lra)). rewrite <- (E (m / 2)) in H' by lra.
  revert H H' He. unfold e, Rabs. repeat destruct Rcase_abs; lra.
Qed.
(** squeezed by a multiple of the square root *)
Lemma rc_sqrt f M d0 : 0 < d0 -> f 0 = 0 -> (forall t, 0 < t < d0 -> Rabs (f t) <= M * sqrt t) -> rc f.
Proof.
  intros D0 Z B e He. assert (K : 0 < Rabs M + 1) by (pose proof (Rabs_pos M); lra).
  set (s := e / (Rabs M + 1)). assert (S0 : 0 < s) by (apply Rdiv_lt_0_compat; lra).
  exists (Rmin d0 (s * s)). split; [apply Rmin_pos; [exact D0|apply Rmult_lt_0_compat; exact S0]|]. intros t T.
  pose proof (Rmin_l d0 (s * s)). pose proof (Rmin_r d0 (s * s)). rewrite Z, Rminus_0_r.
  eapply Rle_lt_trans; [apply B; lra|].
  assert (Q : sqrt t < s) by (rewrite <- (sqrt_square s) by lra; apply sqrt_lt_1; lra).
  pose proof (sqrt_pos t). pose proof (Rle_abs M).
  apply (Rmult_lt_compat_l (Rabs M + 1)) in Q; [|exact K]. replace ((Rabs M + 1) * s) with e in Q by (unfold s; field; lra).
  assert (M * sqrt t <= Rabs M * sqrt t) by (apply Rmult_le_compat_r; assumption). lra.
Qed.

(** ** corner sums *)
Section Corner.
Variable f : R -> R -> R -> R.
Variables a1 a2 b1 b2 c1 c2 : R.
Let g x y z t := f (x + t) (y + t) (z + t).
Definition moved (t : R) : R := csum f (a1 + t) (a2 + t) (b1 + t) (b2 + t) (c1 + t) (c2 + t).
Lemma csum_rc : (forall x y z, (x = a1 \/ x = a2) -> (y = b1 \/ y = b2) -> (z = c1 \/ z = c2) -> rc (g x y z)) -> rc moved.
Proof.
  intro H. unfold moved, csum.
  repeat first [apply rc_minus | apply rc_plus | apply H]; tauto.
Qed.
Lemma csum_rc_x : (forall y z, (y = b1 \/ y = b2) -> (z = c1 \/ z = c2) -> rc (fun t => g a2 y z t - g a1 y z t)) -> rc moved.
Proof.
  intro H. apply (rc_ext 1 (fun t => (g a2 b2 c2 t - g a1 b2 c2 t) - (g a2 b2 c1 t - g a1 b2 c1 t) - (g a2 b1 c2 t - g a1 b1 c2 t) + (g a2 b1 c1 t - g a1 b1 c1 t))).
  - lra.
  - intros t _. unfold moved, csum, g. ring.
  - apply rc_plus; [apply rc_minus; [apply rc_minus|]|]; apply H; tauto.
Qed.
Lemma csum_rc_y : (forall x z, (x = a1 \/ x = a2) -> (z = c1 \/ z = c2) -> rc (fun t => g x b2 z t - g x b1 z t)) -> rc moved.
Proof.
  intro H. apply (rc_ext 1 (fun t => (g a2 b2 c2 t - g a2 b1 c2 t) - (g a2 b2 c1 t - g a2 b1 c1 t) - (g a1 b2 c2 t - g a1 b1 c2 t) + (g a1 b2 c1 t - g a1 b1 c1 t))).
  - lra.
  - intros t _. unfold moved, csum, g. ring.
  - apply rc_plus; [apply rc_minus; [apply rc_minus|]|]; apply H; tauto.
Qed.
Lemma csum_rc_z : (forall x y, (x = a1 \/ x = a2) -> (y = b1 \/ y = b2) -> rc (fun t => g x y c2 t - g x y c1 t)) -> rc moved.
Proof.
  intro H. apply (rc_ext 1 (fun t => (g a2 b2 c2 t - g a2 b2 c1 t) - (g a2 b1 c2 t - g a2 b1 c1 t) - (g a1 b2 c2 t - g a1 b2 c1 t) + (g a1 b1 c2 t - g a1 b1 c1 t))).
  - lra.
  - intros t _. unfold moved, csum, g. ring.
  - apply rc_plus; [apply rc_minus; [apply rc_minus|]|]; apply H; tauto.
Qed.
End Corner.

(** ** the field kernel *)
Lemma nonzero_true x : x <> 0 -> nonzero x = true.
Proof. intro H. unfold nonzero, Reqb. destruct (Req_EM_T x 0); [contradiction|reflexivity]. Qed.
Lemma nonzero_0 : nonzero 0 = false.
Proof. unfold nonzero, Reqb. destruct (Req_EM_T 0 0); [reflexivity|lra]. Qed.
Lemma rad_pos x y z : x <> 0 \/ y <> 0 \/ z <> 0 -> 0 < x * x + y * y + z * z /\ 0 < rad x y z.
Proof.
  intro H. assert (P : 0 < x * x + y * y + z * z) by (destruct H as [H|[H|H]]; nra).
  split; [exact P|apply sqrt_lt_R0, P].
Qed.
Lemma rad_sqr x y z : rad x y z * rad x y z = x * x + y * y + z * z.
Proof. apply sqrt_sqrt. nra. Qed.
Lemma y_rad_pos x y z : x <> 0 \/ z <> 0 -> 0 < y + rad x y z.
Proof.
  intro H. pose proof (rad_sqr x y z) as S. assert (0 <= rad x y z) by apply sqrt_pos.
  assert (0 < x * x + z * z) by (destruct H; nra). apply Rnot_le_lt. intro L. nra.
Qed.
Lemma stays x : x <> 0 -> forall t, 0 <= t < Rabs x -> x + t <> 0.
Proof. intros H t T. revert T. unfold Rabs. destruct Rcase_abs; lra. Qed.

Lemma abs_sq a : a * a = Rabs a * Rabs a.
Proof. rewrite <- Rabs_mult. symmetry. apply Rabs_right, Rle_ge, Rle_0_sqr. Qed.
Definition xlog (x y z : R) : R := if nonzero x then x * ln (y + rad x y z) else 0.
Lemma xlog_rc x y z : rc (fun t => xlog (x + t) (y + t) (z + t)).
Proof.
  destruct (Req_dec x 0) as [E|N].
  - subst x. set (M := 2 * (3 + Rabs y + Rabs z)).
    pose proof (Rabs_pos y) as Y. pose proof (Rabs_pos z) as Z. assert (M6 : 6 <= M) by (unfold M; lra).
    assert (LM : 0 < ln M) by (rewrite <- ln_1; apply ln_increasing; lra).
    apply (rc_sqrt _ (ln M + 4) 1); [lra| |].
    + unfold xlog. rewrite Rplus_0_r, nonzero_0. reflexivity.
    + intros t T. unfold xlog. rewrite nonzero_true by lra. rewrite !Rplus_0_l.
      set (r := rad t (y + t) (z + t)). assert (R2 : r * r = t * t + (y + t) * (y + t) + (z + t) * (z + t)) by apply rad_sqr.
      assert (R0 : 0 < r) by (apply rad_pos; lra).
      assert (V0 : 0 < y + t + r) by (apply y_rad_pos; lra). set (v := y + t + r) in *.
      assert (RM : r <= 3 + Rabs y + Rabs z).
      { apply Rnot_lt_le. intro H. assert (A : Rabs (y + t) <= Rabs y + 1) by (unfold Rabs; repeat destruct Rcase_abs; lra).
        assert (B : Rabs (z + t) <= Rabs z + 1) by (unfold Rabs; repeat destruct Rcase_abs; lra).
        assert (A2 : (y + t) * (y + t) = Rabs (y + t) * Rabs (y + t)) by apply abs_sq.
        assert (B2 : (z + t) * (z + t) = Rabs (z + t) * Rabs (z + t)) by apply abs_sq.
        pose proof (Rabs_pos (y + t)). pose proof (Rabs_pos (z + t)). rewrite A2, B2 in R2. nra. }
      assert (YR : Rabs (y + t) <= r).
      { rewrite <- (Rabs_right r) by lra. apply Rsqr_le_abs_0. unfold Rsqr. rewrite R2. pose proof (Rle_0_sqr t). pose proof (Rle_0_sqr (z + t)). unfold Rsqr in *. lra. }
      apply Rabs_le_between in YR.
      assert (VM : v <= M) by (unfold v, M; lra).
      assert (VL : t * t <= v * M).
      { assert (F : v * (r - (y + t)) = t * t + (z + t) * (z + t)) by (unfold v; replace ((y + t + r) * (r - (y + t))) with (r * r - (y + t) * (y + t)) by ring; rewrite R2; ring).
        apply Rle_trans with (v * (r - (y + t))); [rewrite F; pose proof (Rle_0_sqr (z + t)) as SQ; unfold Rsqr in SQ; lra|]. apply Rmult_le_compat_l; [lra|]. unfold M. lra. }
      assert (LU : ln v <= ln M) by (apply ln_le; assumption).
      assert (LL : 2 * ln t - ln M <= ln v).
      { assert (X : ln (t * t) <= ln (v * M)) by (apply ln_le; [apply Rmult_lt_0_compat; lra|exact VL]). rewrite (ln_mult t t), (ln_mult v M) in X by lra. lra. }
      assert (ST : 0 < sqrt t) by (apply sqrt_lt_R0; lra). assert (SS : sqrt t * sqrt t = t) by (apply sqrt_sqrt; lra).
      assert (S1 : sqrt t <= 1) by (rewrite <- sqrt_1; apply sqrt_le_1_alt; lra).
      assert (LT : - (2 / sqrt t) <= ln t).
      { rewrite <- SS at 2. rewrite ln_mult by assumption.
        assert (Q : ln (/ sqrt t) <= / sqrt t - 1).
        { pose proof (exp_ineq1_le (ln (/ sqrt t))) as X. rewrite exp_ln in X by (apply Rinv_0_lt_compat, ST). lra. }
        rewrite ln_Rinv in Q by exact ST. unfold Rdiv. lra. }
      assert (B : Rabs (ln v) <= ln M + 4 / sqrt t).
      { assert (0 < / sqrt t) by (apply Rinv_0_lt_compat, ST). unfold Rdiv in *. apply Rabs_le. lra. }
      rewrite Rabs_mult, (Rabs_right t) by lra.
      apply Rle_trans with (t * (ln M + 4 / sqrt t)); [apply Rmult_le_compat_l; lra|].
      assert (E4 : t * (4 / sqrt t) = 4 * sqrt t) by (rewrite <- SS at 1; field; lra).
      rewrite Rmult_plus_distr_l, E4. assert (t <= sqrt t) by (rewrite <- SS at 1; rewrite <- (Rmult_1_r (sqrt t)) at 3; apply Rmult_le_compat_l; lra).
      assert (t * ln M <= sqrt t * ln M) by (apply Rmult_le_compat_r; lra). lra.
  - apply (rc_ext (Rabs x) (fun t => (x + t) * ln (y + t + rad (x + t) (y + t) (z + t)))).
    + apply Rabs_pos_lt, N.
    + intros t T. unfold xlog. rewrite nonzero_true; [reflexivity|apply stays; assumption].
    + assert (A := proj1 (rad_pos (x + 0) (y + 0) (z + 0) ltac:(left; lra))). assert (B := y_rad_pos (x + 0) (y + 0) (z + 0) ltac:(left; lra)).
      unfold rad in *. eapply rc_derive. der; [exact A|exact B].
Qed.
Definition zatan (x y z : R) : R := if nonzero z then z * atan (x * y / (z * rad x y z)) else 0.
Lemma zatan_rc x y z : rc (fun t => zatan (x + t) (y + t) (z + t)).
Proof.
  destruct (Req_dec z 0) as [E|N].
  - subst z. apply (rc_sqrt _ (PI / 2) 1); [lra| |].
    + unfold zatan. rewrite Rplus_0_r, nonzero_0. reflexivity.
    + intros t T. unfold zatan. rewrite Rplus_0_l, nonzero_true by lra. rewrite Rabs_mult, (Rabs_right t) by lra.
      assert (SS : sqrt t * sqrt t = t) by (apply sqrt_sqrt; lra). pose proof (sqrt_pos t). assert (sqrt t <= 1) by (rewrite <- sqrt_1; apply sqrt_le_1_alt; lra).
      assert (t <= sqrt t) by (rewrite <- SS at 1; rewrite <- (Rmult_1_r (sqrt t)) at 3; apply Rmult_le_compat_l; lra).
      assert (A : Rabs (atan ((x + t) * (y + t) / (t * rad (x + t) (y + t) t))) <= PI / 2).
      { pose proof (atan_bound ((x + t) * (y + t) / (t * rad (x + t) (y + t) t))). apply Rabs_le. lra. }
      rewrite (Rmult_comm (PI / 2)). apply Rmult_le_compat; [lra|apply Rabs_pos|assumption|exact A].
  - apply (rc_ext (Rabs z) (fun t => (z + t) * atan ((x + t) * (y + t) / ((z + t) * rad (x + t) (y + t) (z + t))))).
    + apply Rabs_pos_lt, N.
    + intros t T. unfold zatan. rewrite nonzero_true; [reflexivity|apply stays; assumption].
    + destruct (rad_pos (x + 0) (y + 0) (z + 0) ltac:(right; right; lra)) as [A B].
      unfold rad in *. eapply rc_derive. der; [exact A|]. apply Rmult_integral_contrapositive. lra.
Qed.
Lemma fz_split x y z : prism_fz x y z = xlog x y z + xlog y x z - zatan x y z.
Proof.
  unfold prism_fz, xlog, zatan. cbv zeta.
  assert (E : rad y x z = rad x y z) by (unfold rad; f_equal; ring). rewrite E.
  assert (T1 : x <> 0 -> Rltb 0 (y + rad x y z) = true) by (intro X; apply Rltb_true, y_rad_pos; tauto).
  assert (T2 : y <> 0 -> Rltb 0 (x + rad x y z) = true) by (intro Y; rewrite <- E; apply Rltb_true, y_rad_pos; tauto).
  destruct (Req_dec x 0) as [X|X]; [replace (nonzero x) with false by (rewrite X; symmetry; apply nonzero_0)|rewrite (nonzero_true x X), (T1 X)];
  (destruct (Req_dec y 0) as [Y|Y]; [replace (nonzero y) with false by (rewrite Y; symmetry; apply nonzero_0)|rewrite (nonzero_true y Y), (T2 Y)]);
  (destruct (Req_dec z 0) as [Z|Z]; [replace (nonzero z) with false by (rewrite Z; symmetry; apply nonzero_0)|rewrite (nonzero_true z Z)]); ring.
Qed.

(** ** the logarithmic kernel *)
Definition apart (a1 a2 : R) : Prop := (0 < a1 /\ 0 < a2) \/ (a1 < 0 /\ a2 < 0).
Lemma apart_nz a1 a2 a : apart a1 a2 -> a = a1 \/ a = a2 -> a <> 0.
Proof. intros [[A B]|[A B]] [E|E]; subst; lra. Qed.
Lemma fzx_pos x y z : 0 < y + rad x y z -> prism_fzx x y z = - ln (y + rad x y z).
Proof. intro H. unfold prism_fzx. cbv zeta. unfold Reqb. destruct (Req_EM_T (y + rad x y z) 0); [lra|reflexivity]. Qed.
Lemma fzx_rc_pos x y z : 0 < y + rad x y z -> rc (fun t => prism_fzx (x + t) (y + t) (z + t)).
Proof.
  intro H.
  assert (A : 0 < x * x + y * y + z * z).
  { destruct (Req_dec x 0) as [X|X]; [|apply rad_pos; tauto]. destruct (Req_dec y 0) as [Y|Y]; [|apply rad_pos; tauto].
    destruct (Req_dec z 0) as [Z|Z]; [|apply rad_pos; tauto]. exfalso. subst. unfold rad in H. replace (0 * 0 + 0 * 0 + 0 * 0) with 0 in H by ring. rewrite sqrt_0 in H. lra. }
  assert (D : exists d, is_derive (fun t => - ln (y + t + rad (x + t) (y + t) (z + t))) 0 d).
  { unfold rad in *. eexists. der; rewrite !Rplus_0_r; [exact A|exact H]. }
  destruct D as [d D].
  assert (P : exists e, 0 < e /\ forall t, 0 <= t < e -> 0 < y + t + rad (x + t) (y + t) (z + t)).
  { assert (D' : exists d', is_derive (fun t => y + t + rad (x + t) (y + t) (z + t)) 0 d') by (unfold rad in *; eexists; der; rewrite !Rplus_0_r; exact A).
    destruct D' as [d' D']. apply rc_derive in D'. destruct (D' _ H) as (e & E & K). exists e. split; [exact E|]. intros t T.
    destruct (Req_dec t 0) as [->|N]; [rewrite !Rplus_0_r; exact H|]. specialize (K t ltac:(lra)). rewrite !Rplus_0_r in K. apply Rabs_def2 in K. lra. }
  destruct P as (e & E & P).
  apply (rc_ext e (fun t => - ln (y + t + rad (x + t) (y + t) (z + t)))); [exact E| |eapply rc_derive, D].
  intros t T. symmetry. apply fzx_pos, P, T.
Qed.
(** below the edge, the logarithm of the distance to its line splits off *)
Lemma fzx_neg x y z : y < 0 -> prism_fzx x y z = ln (rad x y z - y) - (if Reqb (x * x + z * z) 0 then 0 else ln (x * x + z * z)).
Proof.
  intro Y. pose proof (rad_sqr x y z) as S. assert (R0 : 0 < rad x y z) by (apply rad_pos; lra).
  unfold prism_fzx. cbv zeta. unfold Reqb. destruct (Req_EM_T (x * x + z * z) 0) as [E|N].
  - assert (R : rad x y z = - y) by nra. rewrite R. destruct (Req_EM_T (y + - y) 0); [|lra].
    destruct (Rltb 0 0) eqn:Q; rewrite (proj2 (Rltb_true y 0) Y); rewrite Rminus_0_r; f_equal; lra.
  - assert (P : 0 < x * x + z * z) by (assert (0 <= x * x) by nra; assert (0 <= z * z) by nra; lra).
    assert (V : 0 < y + rad x y z) by (apply Rnot_le_lt; intro L; nra).
    destruct (Req_EM_T (y + rad x y z) 0); [lra|].
    replace (x * x + z * z) with ((y + rad x y z) * (rad x y z - y)) by (replace ((y + rad x y z) * (rad x y z - y)) with (rad x y z * rad x y z - y * y) by ring; rewrite S; ring).
    rewrite ln_mult by lra. ring.
Qed.
Lemma fzx_rc_pair x y1 y2 z : apart y1 y2 ->
  rc (fun t => prism_fzx (x + t) (y2 + t) (z + t) - prism_fzx (x + t) (y1 + t) (z + t)).
Proof.
  intros [[A B]|[A B]].
  - apply rc_minus; apply fzx_rc_pos; [pose proof (proj2 (rad_pos x y2 z ltac:(lra)))|pose proof (proj2 (rad_pos x y1 z ltac:(lra)))]; lra.
  - apply (rc_ext (Rmin (- y1) (- y2)) (fun t => ln (rad (x + t) (y2 + t) (z + t) - (y2 + t)) - ln (rad (x + t) (y1 + t) (z + t) - (y1 + t)))).
    + apply Rmin_pos; lra.
    + intros t T. pose proof (Rmin_l (- y1) (- y2)). pose proof (Rmin_r (- y1) (- y2)). rewrite !fzx_neg by lra. ring.
    + assert (K : forall y, y < 0 -> exists d, is_derive (fun t => ln (rad (x + t) (y + t) (z + t) - (y + t))) 0 d).
      { intros y Y. destruct (rad_pos (x + 0) (y + 0) (z + 0) ltac:(right; left; lra)) as [P Q]. unfold rad in *. eexists. der; [exact P|]. lra. }
      destruct (K _ A) as [d D]. destruct (K _ B) as [d' D']. apply rc_minus; eapply rc_derive; eassumption.
Qed.
Lemma fzx_csum_rc a1 a2 b1 b2 c1 c2 : apart a1 a2 \/ apart b1 b2 \/ apart c1 c2 -> rc (moved prism_fzx a1 a2 b1 b2 c1 c2).
Proof.
  intros [A|[B|C]].
  - apply csum_rc. intros x y z X _ _. apply fzx_rc_pos, y_rad_pos. left. apply (apart_nz _ _ _ A X).
  - apply csum_rc_y. intros x z _ _. apply fzx_rc_pair, B.
  - apply csum_rc. intros x y z _ _ Z. apply fzx_rc_pos, y_rad_pos. right. apply (apart_nz _ _ _ C Z).
Qed.

(** ** the arctangent kernel *)
Lemma fzz_rc x y z : z <> 0 -> rc (fun t => prism_fzz (x + t) (y + t) (z + t)).
Proof.
  intro N. apply (rc_ext (Rabs z) (fun t => atan ((x + t) * (y + t) / ((z + t) * rad (x + t) (y + t) (z + t))))).
  - apply Rabs_pos_lt, N.
  - intros t T. unfold prism_fzz. rewrite nonzero_true; [reflexivity|apply stays; assumption].
  - destruct (rad_pos (x + 0) (y + 0) (z + 0) ltac:(right; right; lra)) as [A B].
    unfold rad in *. eapply rc_derive. der; [exact A|]. apply Rmult_integral_contrapositive. lra.
Qed.
Lemma atan_diff u v : 0 <= u * v -> atan u - atan v = atan ((u - v) / (1 + u * v)).
Proof.
  intro H. pose proof (atan_bound u). pose proof (atan_bound v). pose proof PI_RGT_0.
  assert (S0 : 0 <= atan u /\ 0 <= atan v \/ atan u <= 0 /\ atan v <= 0).
  { assert (M : forall a, 0 <= a -> 0 <= atan a) by (intros a [A|A]; [rewrite <- atan_0; left; apply atan_increasing, A|rewrite <- A, atan_0; lra]).
    assert (M' : forall a, a <= 0 -> atan a <= 0) by (intros a [A|A]; [rewrite <- atan_0; left; apply atan_increasing, A|rewrite A, atan_0; lra]).
    destruct (Rle_lt_dec 0 u) as [U|U], (Rle_lt_dec 0 v) as [V|V].
    - left. auto.
    - assert (u = 0) by nra. subst. rewrite atan_0. right. split; [lra|apply M'; lra].
    - assert (v = 0) by nra. subst. rewrite atan_0. right. split; [apply M'; lra|lra].
    - right. split; apply M'; lra. }
  pose proof (atan_bound ((u - v) / (1 + u * v))).
  rewrite (atan_sub_correct u v); unfold atan_sub; lra.
Qed.
Definition pair_atan (x1 x2 y z : R) : R :=
  let A x := x / rad x y z in
  atan (y * z * (A x2 - A x1) / (z * z + y * y * (A x1 * A x2))).
Lemma fzz_pair x1 x2 y z : apart x1 x2 -> prism_fzz x2 y z - prism_fzz x1 y z = pair_atan x1 x2 y z.
Proof.
  intro H. unfold pair_atan. cbv zeta. assert (N1 : x1 <> 0) by (destruct H; lra). assert (N2 : x2 <> 0) by (destruct H; lra).
  assert (R1 : 0 < rad x1 y z) by (apply rad_pos; tauto). assert (R2 : 0 < rad x2 y z) by (apply rad_pos; tauto).
  assert (XX : 0 < x1 * x2) by (destruct H as [[A B]|[A B]]; nra).
  assert (AA : 0 < x1 / rad x1 y z * (x2 / rad x2 y z)).
  { replace (x1 / rad x1 y z * (x2 / rad x2 y z)) with (x1 * x2 / (rad x1 y z * rad x2 y z)) by (field; lra).
    apply Rdiv_lt_0_compat; [exact XX|apply Rmult_lt_0_compat; assumption]. }
  destruct (Req_dec z 0) as [E|N].
  - subst z. unfold prism_fzz. rewrite nonzero_0. replace (y * 0 * (x2 / rad x2 y 0 - x1 / rad x1 y 0)) with 0 by ring. unfold Rdiv at 1. rewrite Rmult_0_l, atan_0. ring.
  - unfold prism_fzz. rewrite nonzero_true by exact N.
    assert (U2 : x2 * y / (z * rad x2 y z) = y / z * (x2 / rad x2 y z)) by (field; lra).
    assert (U1 : x1 * y / (z * rad x1 y z) = y / z * (x1 / rad x1 y z)) by (field; lra).
    rewrite U1, U2. set (A1 := x1 / rad x1 y z) in *. set (A2 := x2 / rad x2 y z) in *.
    assert (Q : 0 <= (y / z) * (y / z) * (A1 * A2)) by (apply Rmult_le_pos; [apply Rle_0_sqr|lra]).
    assert (ZZ : 0 < z * z) by nra. assert (YY : 0 <= y * y) by nra.
    assert (YA : 0 <= y * y * (A1 * A2)) by (apply Rmult_le_pos; lra).
    rewrite atan_diff by (replace (y / z * A2 * (y / z * A1)) with ((y / z) * (y / z) * (A1 * A2)) by ring; exact Q).
    f_equal. clearbody A1 A2. field. repeat split; try exact N; lra.
Qed.
(** on the line of an edge *)
Lemma axis_pair x1 x2 t : apart x1 x2 -> let A x := x / rad x (0 + t) (0 + t) in
  (A x2 - A x1) / (1 + A x1 * A x2) = (0 + t) * (0 + t) * (A x2 - A x1) / ((0 + t) * (0 + t) + (0 + t) * (0 + t) * (A x1 * A x2)).
Proof.
  intros AT A. assert (W1 : 0 < rad x1 (0 + t) (0 + t)) by (apply rad_pos; left; destruct AT; lra). assert (W2 : 0 < rad x2 (0 + t) (0 + t)) by (apply rad_pos; left; destruct AT; lra).
  assert (A12 : 0 < A x1 * A x2).
  { replace (A x1 * A x2) with (x1 * x2 / (rad x1 (0 + t) (0 + t) * rad x2 (0 + t) (0 + t))) by (unfold A; field; lra).
    apply Rdiv_lt_0_compat; [destruct AT as [[? ?]|[? ?]]; nra|apply Rmult_lt_0_compat; assumption]. }
  destruct (Req_dec t 0) as [T0|T0].
  - assert (E : A x2 - A x1 = 0).
    { unfold A, rad. rewrite T0, !Rplus_0_r. replace (x2 * x2 + 0 * 0 + 0 * 0) with (Rsqr x2) by (unfold Rsqr; ring). replace (x1 * x1 + 0 * 0 + 0 * 0) with (Rsqr x1) by (unfold Rsqr; ring).
      rewrite !sqrt_Rsqr_abs. destruct AT as [[? ?]|[? ?]]; [rewrite (Rabs_right x2), (Rabs_right x1) by lra | rewrite (Rabs_left x2), (Rabs_left x1) by lra]; field; lra. }
    rewrite E. unfold Rdiv. ring.
  - set (B1 := A x1) in *. set (B2 := A x2) in *. clearbody B1 B2. assert (0 < t * t) by nra.
    assert (0 < t * t + t * t * (B1 * B2)) by (apply Rplus_lt_le_0_compat; [assumption|]; apply Rmult_le_pos; lra).
    rewrite !Rplus_0_l. field. repeat split; lra.
Qed.
Lemma fzz_rc_pair x1 x2 y z : apart x1 x2 -> rc (fun t => prism_fzz (x2 + t) (y + t) (z + t) - prism_fzz (x1 + t) (y + t) (z + t)).
Proof.
  intro H. assert (N1 : x1 <> 0) by (destruct H; lra). assert (N2 : x2 <> 0) by (destruct H; lra).
  assert (XX : 0 < x1 * x2) by (destruct H as [[A B]|[A B]]; nra).
  assert (AP : forall t, 0 <= t < Rmin (Rabs x1) (Rabs x2) -> apart (x1 + t) (x2 + t)).
  { intros t T. pose proof (Rmin_l (Rabs x1) (Rabs x2)). pose proof (Rmin_r (Rabs x1) (Rabs x2)).
    destruct H as [[A B]|[A B]]; [left; lra|right]. rewrite (Rabs_left x1), (Rabs_left x2) in * by lra. lra. }
  assert (M : 0 < Rmin (Rabs x1) (Rabs x2)) by (apply Rmin_pos; apply Rabs_pos_lt; assumption).
  assert (R1 : forall y z, 0 < rad x1 y z) by (intros; apply rad_pos; tauto). assert (R2 : forall y z, 0 < rad x2 y z) by (intros; apply rad_pos; tauto).
  assert (AA : forall y z, 0 < x1 / rad x1 y z * (x2 / rad x2 y z)).
  { intros y0 z0. specialize (R1 y0 z0). specialize (R2 y0 z0).
    replace (x1 / rad x1 y0 z0 * (x2 / rad x2 y0 z0)) with (x1 * x2 / (rad x1 y0 z0 * rad x2 y0 z0)) by (field; lra).
    apply Rdiv_lt_0_compat; [exact XX|apply Rmult_lt_0_compat; assumption]. }
  apply (rc_ext _ (fun t => pair_atan (x1 + t) (x2 + t) (y + t) (z + t)) _ M).
  { intros t T. symmetry. apply fzz_pair, AP, T. }
  assert (P1 := proj1 (rad_pos (x1 + 0) (y + 0) (z + 0) ltac:(left; lra))). assert (P2 := proj1 (rad_pos (x2 + 0) (y + 0) (z + 0) ltac:(left; lra))).
  assert (Q1 : 0 < sqrt ((x1 + 0) * (x1 + 0) + (y + 0) * (y + 0) + (z + 0) * (z + 0))) by (apply sqrt_lt_R0, P1).
  assert (Q2 : 0 < sqrt ((x2 + 0) * (x2 + 0) + (y + 0) * (y + 0) + (z + 0) * (z + 0))) by (apply sqrt_lt_R0, P2).
  destruct (Req_dec y 0) as [Y|Y]; [destruct (Req_dec z 0) as [Z|Z]|].
  - subst y z.
    apply (rc_ext _ (fun t => atan (((x2 + t) / rad (x2 + t) (0 + t) (0 + t) - (x1 + t) / rad (x1 + t) (0 + t) (0 + t)) /
       (1 + (x1 + t) / rad (x1 + t) (0 + t) (0 + t) * ((x2 + t) / rad (x2 + t) (0 + t) (0 + t))))) _ M).
    + intros t T. unfold pair_atan. cbv zeta. f_equal. destruct (AP t T) as [AT|AT].
      * exact (axis_pair _ _ t (or_introl AT)).
      * exact (axis_pair _ _ t (or_intror AT)).
    + specialize (AA (0 + 0) (0 + 0)). rewrite <- (Rplus_0_r x1), <- (Rplus_0_r x2) in AA. unfold rad in *. eapply rc_derive.
      der; try assumption; lra.
  - specialize (AA (y + 0) (z + 0)). rewrite <- (Rplus_0_r x1), <- (Rplus_0_r x2) in AA. unfold pair_atan, rad in *. cbv zeta. eapply rc_derive.
    der; try assumption; try lra.
    assert (0 < (z + 0) * (z + 0)) by nra. apply Rgt_not_eq, Rlt_gt. apply Rplus_lt_le_0_compat; [assumption|]. apply Rmult_le_pos; [apply Rle_0_sqr|lra].
  - specialize (AA (y + 0) (z + 0)). rewrite <- (Rplus_0_r x1), <- (Rplus_0_r x2) in AA. unfold pair_atan, rad in *. cbv zeta. eapply rc_derive.
    der; try assumption; try lra.
    assert (0 < (y + 0) * (y + 0)) by nra. apply Rgt_not_eq, Rlt_gt. apply Rplus_le_lt_0_compat; [apply Rle_0_sqr|]. apply Rmult_lt_0_compat; assumption.
Qed.
Lemma fzz_sym x y z : prism_fzz x y z = prism_fzz y x z.
Proof. unfold prism_fzz. assert (E : rad y x z = rad x y z) by (unfold rad; f_equal; ring). rewrite E, (Rmult_comm x y). reflexivity. Qed.
Lemma fzz_csum_rc a1 a2 b1 b2 c1 c2 : apart a1 a2 \/ apart b1 b2 \/ apart c1 c2 -> rc (moved prism_fzz a1 a2 b1 b2 c1 c2).
Proof.
  intros [A|[B|C]].
  - apply csum_rc_x. intros y z _ _. apply fzz_rc_pair, A.
  - apply csum_rc_y. intros x z _ _. eapply (rc_ext 1); [lra| |apply (fzz_rc_pair b1 b2 x z B)]. intros t _. cbv beta. rewrite !(fzz_sym (x + t)). reflexivity.
  - apply csum_rc. intros x y z _ _ Z. apply fzz_rc, (apart_nz _ _ _ C Z).
Qed.
Lemma fz_csum_rc a1 a2 b1 b2 c1 c2 : rc (moved prism_fz a1 a2 b1 b2 c1 c2).
Proof.
  apply csum_rc. intros x y z _ _ _. eapply (rc_ext 1); [lra| |apply (rc_minus _ _ (rc_plus _ _ (xlog_rc x y z) (xlog_rc y x z)) (zatan_rc x y z))].
  intros t _. cbv beta. symmetry. apply fz_split.
Qed.
