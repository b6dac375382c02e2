(** The gravity of a prism in floating point (C134). *)
From Coq Require Import ZArith Reals Lra Lia Psatz.
From Flocq Require Import Core.
From Coquelicot Require Import Coquelicot.
From Verif Require Import Vec3 Numpy Model_Gravity Model_Prism Spec_Prism Model_Float Model_Float4 Spec_Float Spec_Float2 Spec_Float3 Proof_Float Proof_Float2 Proof_Float3 Proof_Float5 Proof_Float7 Proof_Float8 Proof_Oksar4.
Open Scope R_scope.

(** ** the arctangent *)
Lemma half_le a : a / (1 + a ^ 2) <= / 2.
Proof.
  pose proof (pow2_ge_0 a). pose proof (pow2_ge_0 (a - 1)). apply Rmult_le_reg_r with (1 + a ^ 2); [lra|].
  replace (a / (1 + a ^ 2) * (1 + a ^ 2)) with a by (field; lra). nra.
Qed.
Lemma atan_lip_pos a b m : 0 <= m -> m <= a -> m <= b -> Rabs (atan a - atan b) <= Rabs (a - b) / (1 + m ^ 2).
Proof.
  intros M A B.
  assert (W : forall s t, m <= s -> s <= t -> 0 <= atan t - atan s <= (t - s) / (1 + m ^ 2)).
  { intros s t S [T| <-]; [|unfold Rdiv; replace (s - s) with 0 by ring; rewrite Rmult_0_l; lra].
    destruct (MVT_cor2 atan (fun c => / (1 + c ^ 2)) s t T) as (c & E & C1 & C2).
    { intros c _. apply derivable_pt_lim_atan. }
    rewrite E. assert (P : 0 < / (1 + c ^ 2) <= / (1 + m ^ 2)).
    { split; [apply Rinv_0_lt_compat; nra|apply Rinv_le_contravar; nra]. }
    unfold Rdiv. nra. }
  destruct (Rle_dec a b) as [L|L].
  - specialize (W a b A L). rewrite Rabs_minus_sym, (Rabs_minus_sym a), !Rabs_pos_eq by lra. lra.
  - specialize (W b a B ltac:(lra)). rewrite !Rabs_pos_eq by lra. lra.
Qed.
Lemma atan_near_pos k a b : (k <= 100)%nat -> 0 <= b -> near k a b -> Rabs (atan a - atan b) <= (INR k + 1) * u.
Proof.
  intros L P N. pose proof (near_diff_le k a b ltac:(lia) P N) as D. pose proof (near_low k a b ltac:(lia) P N) as W.
  pose proof (pos_INR k). pose proof u_pos.
  eapply Rle_trans; [apply (atan_lip_pos a b (999 / 1000 * b)); lra|].
  apply Rle_trans with ((INR k + 1) * u * b / (1 + (999 / 1000 * b) ^ 2)).
  - unfold Rdiv. apply Rmult_le_compat_r; [left; apply Rinv_0_lt_compat; nra|exact D].
  - pose proof (half_le (999 / 1000 * b)) as F. set (q := 1 + (999 / 1000 * b) ^ 2) in *. assert (0 < q) by (unfold q; nra).
    replace ((INR k + 1) * u * b / q) with ((INR k + 1) * u * (1000 / 999 * (999 / 1000 * b / q))) by (field; lra).
    assert (0 <= (INR k + 1) * u) by nra. assert (1000 / 999 * (999 / 1000 * b / q) <= 1) by lra. nra.
Qed.
Lemma atan_near k a b : (k <= 100)%nat -> near k a b -> Rabs (atan a - atan b) <= (INR k + 1) * u.
Proof.
  intros L N. destruct (Rle_dec 0 b) as [P|P]; [apply atan_near_pos; assumption|].
  pose proof (atan_near_pos k (- a) (- b) L ltac:(lra) (near_opp _ _ _ N)) as H. rewrite !atan_opp in H.
  replace (- atan a - - atan b) with (- (atan a - atan b)) in H by ring. rewrite Rabs_Ropp in H. exact H.
Qed.
Lemma atan_abs t : Rabs (atan t) < 158 / 100.
Proof. pose proof (atan_bound t). pose proof PI_bounds. apply Rabs_def1; lra. Qed.

(** ** one corner *)
Lemma near_fradius k x x' y y' z z' : near k x x' -> near k y y' -> near k z z' -> near (k + 3) (fradius x y z) (rad x' y' z').
Proof.
  intros X Y Z. unfold fradius, rad. replace (k + 3)%nat with (S (k + 2)) by lia. apply near_round, near_sqrt; [nra|].
  replace (2 * (k + 2))%nat with (S (2 * k + 3)) by lia. apply near_round, near_plus; [nra|nra| |].
  - apply (near_weaken (S (S (k + k)))); [lia|]. apply near_round, near_plus; [nra|nra| |]; apply near_round, near_mult; assumption.
  - apply (near_weaken (S (k + k))); [lia|]. apply near_round, near_mult; assumption.
Qed.
Lemma near_arg x x' y y' z z' : near 1 x x' -> near 1 y y' -> near 1 z z' ->
  near 10 (fl (fl (x * y) / fl (z * fradius x y z))) (x' * y' / (z' * rad x' y' z')).
Proof.
  intros X Y Z. apply near_round. change 9%nat with (3 + 6)%nat. apply near_div; [apply (near_round 2), (near_mult 1 1); assumption|].
  apply (near_round 5), (near_mult 1 4); [assumption|]. apply (near_fradius 1); assumption.
Qed.
Lemma near_0 k a : near k a 0 -> a = 0. Proof. intros (d & -> & _). ring. Qed.
Lemma near_n0 k a b : near k a b -> b <> 0 -> a <> 0.
Proof. intros (d & -> & A & _) N. pose proof (wk_pos k). apply Rmult_integral_contrapositive_currified; lra. Qed.
Lemma fzz_corner arctan x x' y y' z z' : good_atan arctan -> near 1 x x' -> near 1 y y' -> near 1 z z' ->
  Rabs (fprism_fzz arctan x y z - prism_fzz x' y' z') <= 24 * u /\ Rabs (fprism_fzz arctan x y z) <= 16 / 10.
Proof.
  intros G X Y Z. unfold fprism_fzz, prism_fzz, nonzero, Reqb. pose proof u_pos. pose proof u_small.
  destruct (Req_EM_T z' 0) as [E|E]; cbn [negb].
  - rewrite E in Z. apply near_0 in Z. destruct (Req_EM_T z 0); [|contradiction]. rewrite Rminus_0_r, Rabs_R0. lra.
  - pose proof (near_n0 _ _ _ Z E). destruct (Req_EM_T z 0); [contradiction|].
    pose proof (near_arg _ _ _ _ _ _ X Y Z) as A. set (t := fl (fl (x * y) / _)) in *. set (t' := x' * y' / _) in *.
    destruct (G t) as (_ & L). unfold within in L. fold u in L. pose proof (atan_abs t). pose proof (atan_near 10 t t' ltac:(lia) A) as D. cbn [INR] in D.
    assert (Rabs (arctan t - atan t) <= 8 * u * (158 / 100)) by (eapply Rle_trans; [exact L|]; apply Rmult_le_compat_l; lra).
    split.
    + replace (arctan t - atan t') with ((arctan t - atan t) + (atan t - atan t')) by ring. eapply Rle_trans; [apply Rabs_triang|]. lra.
    + replace (arctan t) with ((arctan t - atan t) + atan t) by ring. eapply Rle_trans; [apply Rabs_triang|]. lra.
Qed.

(** ** a sum, rounded *)
Lemma fl_err x : Rabs (fl x - x) <= 2 * u * Rabs x.
Proof. pose proof (near_within 1 _ _ ltac:(lia) (near_fl x)) as H. unfold within in H. fold u in H. cbn [INR] in H. lra. Qed.
(** [acc s s' e m]: the computed [s] is within [e] units of [s'], and at most [m] *)
Definition acc (s s' e m : R) : Prop := Rabs (s - s') <= e * u /\ Rabs s <= m.
Lemma acc_opp s s' e m : acc s s' e m -> acc (- s) (- s') e m.
Proof. unfold acc. intros (A & B). rewrite Rabs_Ropp. replace (- s - - s') with (- (s - s')) by ring. rewrite Rabs_Ropp. split; assumption. Qed.
Lemma acc_plus s s' e m v v' f n e' m' : 0 <= m + n <= 16 -> acc s s' e m -> acc v v' f n -> e + f + 2 * (m + n) <= e' -> m + n + / 1000 <= m' -> acc (fl (s + v)) (s' + v') e' m'.
Proof.
  unfold acc. intros M (A & B) (D & E) F H. pose proof (fl_err (s + v)) as W. pose proof u_pos. pose proof u_small.
  pose proof (Rabs_triang s v) as T. assert (W' : Rabs (fl (s + v) - (s + v)) <= 2 * u * (m + n)) by (eapply Rle_trans; [exact W|]; apply Rmult_le_compat_l; lra).
  split.
  - replace (fl (s + v) - (s' + v')) with ((fl (s + v) - (s + v)) + ((s - s') + (v - v'))) by ring.
    eapply Rle_trans; [apply Rabs_triang|]. pose proof (Rabs_triang (s - s') (v - v')). nra.
  - replace (fl (s + v)) with ((fl (s + v) - (s + v)) + (s + v)) by ring. eapply Rle_trans; [apply Rabs_triang|]. nra.
Qed.
Lemma acc_minus s s' e m v v' f n e' m' : 0 <= m + n <= 16 -> acc s s' e m -> acc v v' f n -> e + f + 2 * (m + n) <= e' -> m + n + / 1000 <= m' -> acc (fl (s - v)) (s' - v') e' m'.
Proof. intros M A B. apply (acc_plus s s' e m (- v) (- v') f n); [exact M|exact A|apply acc_opp, B]. Qed.

Lemma near_rot k c : forall a a', vnear k a a' -> vnear k (Nat.iter c rotate_axes a) (Nat.iter c rotate_axes a').
Proof. induction c as [|c IH]; intros a a' H; [exact H|]. destruct (IH a a' H) as (X & Y & Z). cbn [Nat.iter]. repeat split; cbn [rotate_axes vx vy vz]; assumption. Qed.
Lemma fzz_sum arctan b p c : good_atan arctan -> acc (feval_def_int b (fprism_fzz arctan) p c) (eval_def_int b prism_fzz p c) 320 14.
Proof.
  intros G. unfold feval_def_int, eval_def_int. cbv zeta.
  pose proof (near_rot 1 c _ _ (vnear_diff (b_min b) p)) as (X & Y & Z). pose proof (near_rot 1 c _ _ (vnear_diff (b_max b) p)) as (X1 & Y1 & Z1).
  assert (K : forall x x' y y' z z', near 1 x x' -> near 1 y y' -> near 1 z z' -> acc (fprism_fzz arctan x y z) (prism_fzz x' y' z') 24 (16 / 10)).
  { intros. apply fzz_corner; assumption. }
  eapply (acc_minus _ _ 258 (11.26)); [| |apply K; assumption| |]; try lra.
  eapply (acc_plus _ _ 211 (9.65)); [| |apply K; assumption| |]; try lra.
  eapply (acc_plus _ _ 167 (8.04)); [| |apply K; assumption| |]; try lra.
  eapply (acc_minus _ _ 126 (6.43)); [| |apply K; assumption| |]; try lra.
  eapply (acc_plus _ _ 89 (4.82)); [| |apply K; assumption| |]; try lra.
  eapply (acc_minus _ _ 55 (3.21)); [| |apply K; assumption| |]; try lra.
  eapply (acc_minus _ _ 24 1.6); [| |apply K; assumption| |]; try lra.
  apply K; assumption.
Qed.

Lemma near_K rho : near 2 (fl (- fG * rho)) (- G_newton * rho).
Proof. apply near_round. apply (near_mult 1 0); [apply near_opp, near_G|apply near_refl]. Qed.
Lemma acc_scaled rho v v' : acc v v' 320 14 -> Rabs (fl (fl (- fG * rho) * v) - - G_newton * rho * v') <= 400 * u * (G_newton * Rabs rho).
Proof.
  intros (A & B). pose proof (near_round 2 _ _ (near_mult 2 0 _ _ v v (near_K rho) (near_refl 0 v))) as N. cbn [Nat.add] in N.
  pose proof (near_within 3 _ _ ltac:(lia) N) as W. unfold within in W. fold u in W. cbn [INR] in W.
  assert (K : Rabs (- G_newton * rho) = G_newton * Rabs rho).
  { rewrite Rabs_mult, Rabs_Ropp. f_equal. apply Rabs_pos_eq. unfold G_newton. lra. }
  rewrite Rabs_mult, K in W. set (k := G_newton * Rabs rho) in *. assert (0 <= k) by (rewrite <- K; apply Rabs_pos). pose proof u_pos. pose proof u_small.
  replace (fl _ - - G_newton * rho * v') with ((fl (fl (- fG * rho) * v) - - G_newton * rho * v) + (- G_newton * rho) * (v - v')) by ring.
  eapply Rle_trans; [apply Rabs_triang|]. rewrite (Rabs_mult (- G_newton * rho)), K.
  assert (Rabs (fl (fl (- fG * rho) * v) - - G_newton * rho * v) <= 4 * u * (k * 14)).
  { eapply Rle_trans; [exact W|]. replace (1 + 1 + 1 + 1) with 4 by ring. apply Rmult_le_compat_l; [lra|]. apply Rmult_le_compat_l; lra. }
  assert (k * Rabs (v - v') <= k * (320 * u)) by (apply Rmult_le_compat_l; lra). assert (0 <= u * k) by nra. lra.
Qed.
Lemma diagonal log arctan b rho p : good_atan arctan -> let e := 400 * u * (G_newton * Rabs rho) in
  let c := fgravitational_gradient log arctan b rho p in let x := gravitational_gradient G_newton b rho p in
  Rabs (vx (m0 c) - vx (m0 x)) <= e /\ Rabs (vy (m1 c) - vy (m1 x)) <= e /\ Rabs (vz (m2 c) - vz (m2 x)) <= e.
Proof. intros G e c x. unfold c, x, e. repeat split; cbn [m0 m1 m2 fgravitational_gradient gravitational_gradient vx vy vz vscal fvscal]; apply acc_scaled, fzz_sum, G. Qed.

(** ** multiples of a power of two *)
Definition grid (k : Z) (x : R) : Prop := exists m : Z, x = IZR m * bpow radix2 k.
Lemma grid_0 k : grid k 0. Proof. exists 0%Z. ring. Qed.
Lemma grid_plus k a b : grid k a -> grid k b -> grid k (a + b).
Proof. intros (m & ->) (n & ->). exists (m + n)%Z. rewrite plus_IZR. ring. Qed.
Lemma grid_opp k a : grid k a -> grid k (- a).
Proof. intros (m & ->). exists (- m)%Z. rewrite opp_IZR. ring. Qed.
Lemma grid_minus k a b : grid k a -> grid k b -> grid k (a - b).
Proof. intros A B. apply grid_plus; [exact A|apply grid_opp, B]. Qed.
Lemma grid_fine k j a : (j <= k)%Z -> grid k a -> grid j a.
Proof.
  intros L (m & ->). exists (m * 2 ^ (k - j))%Z. rewrite mult_IZR, Rmult_assoc. f_equal. rewrite (IZR_Zpower radix2) by lia. rewrite <- bpow_plus. f_equal. lia.
Qed.
Lemma fl_opp x : fl (- x) = - fl x. Proof. apply round_NE_opp. Qed.
Lemma grid_fl_pos k a : 0 <= a -> grid k a -> grid k (fl a).
Proof.
  intros P (m & E). pose proof (bpow_gt_0 radix2 k) as Q. assert (M : (0 <= m)%Z) by (apply le_IZR; apply Rmult_le_reg_r with (bpow radix2 k); [exact Q|lra]).
  destruct (Z_lt_le_dec m (2 ^ 53)) as [L|L].
  - rewrite fl_id; [exists m; exact E|]. rewrite E. apply float_int. rewrite Z.abs_eq by exact M. exact L.
  - assert (B : bpow radix2 (53 + k) <= a).
    { rewrite E, bpow_plus. apply Rmult_le_compat_r; [lra|]. rewrite <- (IZR_Zpower radix2) by lia. apply IZR_le, L. }
    destruct (float_grid (fl a) (53 + k) (fl_float a) (fl_ge _ _ (float_bpow _) B)) as (n & N).
    apply (grid_fine (53 + k - 52)); [lia|]. exists n. exact N.
Qed.
Lemma grid_fl k a : grid k a -> grid k (fl a).
Proof.
  intros H. destruct (Rle_dec 0 a) as [P|P]; [apply grid_fl_pos; assumption|].
  replace a with (- (- a)) by ring. rewrite fl_opp. apply grid_opp, grid_fl_pos; [lra|apply grid_opp, H].
Qed.
Lemma grid_float k a : float a -> bpow radix2 (k + 52) <= a -> grid k a.
Proof. intros F B. destruct (float_grid a (k + 52) F B) as (m & E). exists m. rewrite E. f_equal. f_equal. lia. Qed.
Lemma grid_gap k a : grid k a -> a = 0 \/ bpow radix2 k <= Rabs a.
Proof.
  intros (m & ->). destruct (Z.eq_dec m 0) as [->|N]; [left; ring|right]. rewrite Rabs_mult, (Rabs_pos_eq (bpow _ _)) by (left; apply bpow_gt_0).
  assert (1 <= Rabs (IZR m)) by (rewrite <- abs_IZR; apply IZR_le; lia). pose proof (bpow_gt_0 radix2 k). nra.
Qed.
Lemma grid_sum k b func p c : (forall x y z, (x = vx (Nat.iter c rotate_axes (fdiff (b_min b) p)) \/ x = vx (Nat.iter c rotate_axes (fdiff (b_max b) p))) ->
    (y = vy (Nat.iter c rotate_axes (fdiff (b_min b) p)) \/ y = vy (Nat.iter c rotate_axes (fdiff (b_max b) p))) ->
    (z = vz (Nat.iter c rotate_axes (fdiff (b_min b) p)) \/ z = vz (Nat.iter c rotate_axes (fdiff (b_max b) p))) -> grid k (func x y z)) ->
  grid k (feval_def_int b func p c).
Proof. intros H. unfold feval_def_int. cbv zeta. repeat (apply grid_fl; first [apply grid_minus|apply grid_plus]; [|apply H; auto]). apply H; auto. Qed.

(** ** far away *)
Lemma atan_eighth t : 1 / 8 <= t -> 12 / 100 <= atan t.
Proof.
  intros H. apply Rle_trans with (atan (1 / 8)); [|destruct H as [H| <-]; [left; apply atan_increasing, H|lra]].
  destruct (MVT_cor2 atan (fun c => / (1 + c ^ 2)) 0 (1 / 8) ltac:(lra)) as (c & E & C1 & C2); [intros; apply derivable_pt_lim_atan|].
  rewrite atan_0 in E. assert (64 / 65 <= / (1 + c ^ 2)). { replace (64 / 65) with (/ (65 / 64)) by field. apply Rinv_le_contravar; nra. } lra.
Qed.
Definition mid (d x : R) : Prop := 999 / 1000 * d <= x <= 2002 / 1000 * d.
Section Far.
  Variables (log arctan : R -> R) (d : R).
  Hypotheses (GL : float_log log) (GA : good_atan arctan) (D1 : 1 <= d).
  Lemma far_rad x y z : mid d x -> mid d y -> mid d z -> 17 / 10 * d <= rad x y z <= 3472 / 1000 * d.
  Proof.
    unfold mid, rad. intros X Y Z.
    assert (S : forall t, 999 / 1000 * d <= t <= 2002 / 1000 * d -> 999 / 1000 * d * (999 / 1000 * d) <= t * t <= 2002 / 1000 * d * (2002 / 1000 * d)).
    { intros t T. split; apply Rmult_le_compat; lra. }
    pose proof (S x X). pose proof (S y Y). pose proof (S z Z). assert (0 < d * d) by nra. split.
    - rewrite <- (sqrt_Rsqr (17 / 10 * d)) by lra. apply sqrt_le_1_alt. unfold Rsqr. lra.
    - rewrite <- (sqrt_Rsqr (3472 / 1000 * d)) by lra. apply sqrt_le_1_alt. unfold Rsqr. lra.
  Qed.
  Lemma far_fradius x y z : mid d x -> mid d y -> mid d z -> 169 / 100 * d <= fradius x y z <= 3476 / 1000 * d.
  Proof.
    intros X Y Z. pose proof (far_rad x y z X Y Z). assert (0 <= rad x y z) by lra. pose proof (near_low 3 _ (rad x y z) ltac:(lia) ltac:(assumption) (near_fradius 0 x x y y z z (near_refl 0 x) (near_refl 0 y) (near_refl 0 z))). lra.
  Qed.
  Lemma fl_low x : 0 <= x -> 999 / 1000 * x <= fl x <= 1001 / 1000 * x.
  Proof. intros P. apply (near_low 1); [lia|exact P|apply near_fl]. Qed.
  Lemma far_log t : 2 <= t -> 49 / 100 <= log t.
  Proof.
    intros T. destruct (GL t ltac:(lra)) as (_ & W). apply (within_near 8 8) in W; [|lra|cbn; lra|lra].
    assert (/ 2 <= ln t). { apply Rle_trans with (ln 2); [left; apply ln_lt_2|]. destruct T as [T| <-]; [left; apply ln_increasing; lra|lra]. }
    assert (P : 0 <= ln t) by lra. pose proof (near_low 9 _ _ ltac:(lia) P W). lra.
  Qed.
  Lemma far_arctan x y z : mid d x -> mid d y -> mid d z -> 119 / 1000 <= arctan (fl (fl (x * y) / fl (z * fradius x y z))).
  Proof.
    intros X Y Z. pose proof (far_fradius x y z X Y Z) as B. unfold mid in *. set (r := fradius x y z) in *.
    assert (P : 998 / 1000 * (d * d) <= x * y) by nra. pose proof (fl_low (x * y) ltac:(nra)) as P1.
    assert (Q : 0 < z * r) by nra. assert (Q' : z * r <= 696 / 100 * (d * d)) by nra. pose proof (fl_low (z * r) ltac:(lra)) as Q1. assert (Q2 : 0 < fl (z * r)) by lra.
    assert (W : 14 / 100 <= fl (x * y) / fl (z * r)).
    { apply Rmult_le_reg_r with (fl (z * r)); [exact Q2|]. unfold Rdiv at 2. rewrite (Rmult_assoc (fl (x * y))), Rinv_l by lra. nra. }
    pose proof (fl_low (fl (x * y) / fl (z * r)) ltac:(lra)) as W1. set (t := fl (fl (x * y) / fl (z * r))) in *.
    pose proof (atan_eighth t ltac:(lra)) as A. destruct (GA t) as (_ & L). apply (within_near 8 8) in L; [|lra|cbn; lra|lra].
    assert (P2 : 0 <= atan t) by lra. pose proof (near_low 9 _ _ ltac:(lia) P2 L). lra.
  Qed.
  Lemma far_fz k x y z : bpow radix2 (k + 52) <= d / 16 -> mid d x -> mid d y -> mid d z -> grid k (fprism_fz log arctan x y z).
  Proof.
    intros K X Y Z. pose proof (far_fradius x y z X Y Z) as B. pose proof (far_arctan x y z X Y Z) as A. unfold fprism_fz. cbv zeta. set (r := fradius x y z) in *. unfold mid in *.
    destruct (Req_EM_T x 0); [lra|]. destruct (Req_EM_T y 0); [lra|]. destruct (Req_EM_T z 0); [lra|].
    pose proof (fl_low (y + r) ltac:(lra)). pose proof (fl_low (x + r) ltac:(lra)).
    destruct (Rlt_dec 0 (fl (y + r))); [|lra]. destruct (Rlt_dec 0 (fl (x + r))); [|lra].
    pose proof (far_log (fl (y + r)) ltac:(lra)) as L1. pose proof (far_log (fl (x + r)) ltac:(lra)) as L2.
    assert (T : forall a v, 999 / 1000 * d <= a -> 119 / 1000 <= v -> grid k (fl (a * v))).
    { intros a v Ha Hv. apply grid_float; [apply fl_float|]. assert (11 / 100 * d <= a * v) by nra. pose proof (fl_low (a * v) ltac:(nra)). lra. }
    apply grid_fl, grid_minus; [|apply T; lra]. apply grid_fl, grid_plus; [|apply T; lra]. apply grid_fl, grid_plus; [apply grid_0|apply T; lra].
  Qed.
  Lemma far_fzz x y z : mid d x -> mid d y -> mid d z -> grid (-56) (fprism_fzz arctan x y z).
  Proof.
    intros X Y Z. pose proof (far_arctan x y z X Y Z) as A. unfold fprism_fzz. unfold mid in *. destruct (Req_EM_T z 0); [lra|].
    apply grid_float; [apply GA|]. replace (bpow radix2 (-56 + 52)) with (/ 16) by reflexivity. lra.
  Qed.
  Variables (b : box) (p : vec3).
  Hypotheses (O : ordered b) (F : beyond d b p).
  Lemma mid_diff a q : d <= a - q <= 2 * d -> mid d (fl (a - q)).
  Proof. intros H. pose proof (fl_low (a - q) ltac:(lra)). unfold mid. lra. Qed.
  Definition vmid (v : vec3) : Prop := mid d (vx v) /\ mid d (vy v) /\ mid d (vz v).
  Lemma vmid_rot c v : vmid v -> vmid (Nat.iter c rotate_axes v).
  Proof. intros H. induction c as [|c IH]; [exact H|]. destruct IH as (X & Y & Z). cbn [Nat.iter]. repeat split; cbn [rotate_axes vx vy vz]; assumption || apply X || apply Y || apply Z. Qed.
  Lemma mid_min : vmid (fdiff (b_min b) p).
  Proof. destruct O as (X & Y & Z). destruct F as (A1 & A2 & A3 & A4 & A5 & A6). unfold vmid, fdiff; cbn [vx vy vz]; repeat split; apply mid_diff; lra. Qed.
  Lemma mid_max : vmid (fdiff (b_max b) p).
  Proof. destruct O as (X & Y & Z). destruct F as (A1 & A2 & A3 & A4 & A5 & A6). unfold vmid, fdiff; cbn [vx vy vz]; repeat split; apply mid_diff; lra. Qed.
  Lemma far_sum_fz k c : bpow radix2 (k + 52) <= d / 16 -> grid k (feval_def_int b (fprism_fz log arctan) p c).
  Proof.
    intros K. destruct (vmid_rot c _ mid_min) as (X & Y & Z). destruct (vmid_rot c _ mid_max) as (X1 & Y1 & Z1).
    apply grid_sum. intros x y z [-> | ->] [-> | ->] [-> | ->]; apply far_fz; assumption.
  Qed.
  Lemma far_sum_fzz c : grid (-56) (feval_def_int b (fprism_fzz arctan) p c).
  Proof.
    destruct (vmid_rot c _ mid_min) as (X & Y & Z). destruct (vmid_rot c _ mid_max) as (X1 & Y1 & Z1).
    apply grid_sum. intros x y z [-> | ->] [-> | ->] [-> | ->]; apply far_fzz; assumption.
  Qed.
End Far.
