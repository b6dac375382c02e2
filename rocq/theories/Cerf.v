(** The error function of a complex argument, as the integral from 0 along a straight line. *)
From Coq Require Import Reals Lra.
From Coquelicot Require Import Coquelicot.
From Verif Require Import Vec3 Calculus Deriv Integral Cplx CplxTaylor SpecFun Model_TDEM.
Open Scope R_scope.

(** ** Complex valued functions of two real variables *)
Definition c2C (F : R -> R -> C) (x y : R) : Prop :=
  continuity_2d_pt (fun u v => Re (F u v)) x y /\ continuity_2d_pt (fun u v => Im (F u v)) x y.

Lemma c2C_const c x y : c2C (fun _ _ => c) x y.
Proof. split; apply continuity_2d_pt_const. Qed.
Lemma c2C_snd x y : c2C (fun _ v => RtoC v) x y.
Proof. split; cbn; [apply continuity_2d_pt_id2|apply continuity_2d_pt_const]. Qed.
Lemma c2C_fst (f : R -> C) d x y : is_cderive f x d -> c2C (fun u _ => f u) x y.
Proof.
  intros [A B]. split.
  - apply (continuity_1d_2d_pt_comp (fun u => Re (f u)) (fun u _ => u)); [exact (derive_continuity _ _ _ A)|apply c2_fst].
  - apply (continuity_1d_2d_pt_comp (fun u => Im (f u)) (fun u _ => u)); [exact (derive_continuity _ _ _ B)|apply c2_fst].
Qed.
Lemma c2C_plus F G x y : c2C F x y -> c2C G x y -> c2C (fun u v => F u v + G u v)%C x y.
Proof. intros [A B] [A' B']. split; cbn; now apply continuity_2d_pt_plus. Qed.
Lemma c2C_opp F x y : c2C F x y -> c2C (fun u v => - F u v)%C x y.
Proof. intros [A B]. split; cbn; now apply continuity_2d_pt_opp. Qed.
Lemma c2C_mult F G x y : c2C F x y -> c2C G x y -> c2C (fun u v => F u v * G u v)%C x y.
Proof.
  intros [A B] [A' B']. split; cbn.
  - apply continuity_2d_pt_minus; now apply continuity_2d_pt_mult.
  - apply continuity_2d_pt_plus; now apply continuity_2d_pt_mult.
Qed.
Lemma c2C_exp F x y : c2C F x y -> c2C (fun u v => cexp (F u v)) x y.
Proof.
  intros [A B]. split; cbn [cexp Re Im fst snd]; apply continuity_2d_pt_mult.
  - apply (continuity_1d_2d_pt_comp exp (fun u v => Re (F u v))); [apply derivable_continuous, derivable_exp|exact A].
  - apply (continuity_1d_2d_pt_comp cos (fun u v => Im (F u v))); [apply continuity_cos|exact B].
  - apply (continuity_1d_2d_pt_comp exp (fun u v => Re (F u v))); [apply derivable_continuous, derivable_exp|exact A].
  - apply (continuity_1d_2d_pt_comp sin (fun u v => Im (F u v))); [apply continuity_sin|exact B].
Qed.
Lemma c2C_snd_cont F x y : c2C F x y -> continuous (fun v => Re (F x v)) y /\ continuous (fun v => Im (F x v)) y.
Proof.
  intros [A B]. split; apply continuity_pt_filterlim; intros eps He.
  - destruct (A (mkposreal eps He)) as [d Hd]. exists d. split; [apply cond_pos|]. intros v [_ Hv]. cbn in *. unfold R_dist in *.
    apply Hd; [rewrite Rminus_eq_0, Rabs_R0; apply cond_pos|exact Hv].
  - destruct (B (mkposreal eps He)) as [d Hd]. exists d. split; [apply cond_pos|]. intros v [_ Hv]. cbn in *. unfold R_dist in *.
    apply Hd; [rewrite Rminus_eq_0, Rabs_R0; apply cond_pos|exact Hv].
Qed.

(** ** z |-> integral of exp(-s^2) ds from 0 to z *)
Definition qker (z : C) (s : R) : C := (z * cexp (- (RtoC s * RtoC s * (z * z))))%C.
Definition cQ (z : C) : C := (RInt (fun s => Re (qker z s)) 0 1, RInt (fun s => Im (qker z s)) 0 1).

Lemma c2C_qker (z : R -> C) d x y : is_cderive z x d -> c2C (fun u s => qker (z u) s) x y.
Proof.
  intro D. unfold qker. pose proof (c2C_fst z d x y D) as Z. apply c2C_mult; [exact Z|]. apply c2C_exp, c2C_opp, c2C_mult; [|now apply c2C_mult].
  apply c2C_mult; apply c2C_snd.
Qed.

Lemma CD_cQ (z dz ddz : R -> C) x : (forall u, is_cderive z u (dz u)) -> (forall u, is_cderive dz u (ddz u)) ->
  is_cderive (fun u => cQ (z u)) x (dz x * cexp (- (z x * z x)))%C.
Proof.
  intros D DD.
  set (df := fun u s => (dz u * (RtoC 1 + - (RtoC 2 * (RtoC s * RtoC s) * (z u * z u))) * cexp (- (RtoC s * RtoC s * (z u * z u))))%C).
  assert (Dk : forall u s, is_cderive (fun u => qker (z u) s) u (df u s)).
  { intros u s. unfold qker, df. eapply is_cderive_eq; [apply CD_mult; [apply D|apply CD_exp, CD_opp, CD_scal, CD_mult; apply D]|].
    replace (RtoC 2) with (RtoC 1 + RtoC 1)%C by (rewrite <- RtoC_plus; f_equal; ring). ring. }
  assert (C2 : forall t, c2C df x t).
  { intro t. unfold df. pose proof (c2C_fst z _ x t (D x)) as Z. pose proof (c2C_fst dz _ x t (DD x)) as Z'. pose proof (c2C_snd x t) as S.
    apply c2C_mult; [apply c2C_mult; [exact Z'|]|].
    - apply c2C_plus; [apply c2C_const|]. apply c2C_opp, c2C_mult; [|now apply c2C_mult]. apply c2C_mult; [apply c2C_const|now apply c2C_mult].
    - apply c2C_exp, c2C_opp, c2C_mult; now apply c2C_mult. }
  assert (I : forall s, is_cderive (fun s => RtoC s * dz x * cexp (- (RtoC s * RtoC s * (z x * z x))))%C s (df x s)).
  { intro s. unfold df. eapply is_cderive_eq.
    - apply CD_mult; [apply CD_mult; [apply CD_id|apply CD_const]|]. apply CD_exp, CD_opp, CD_mult; [apply CD_mult; apply CD_id|apply CD_const].
    - cbv beta. replace (RtoC 2) with (RtoC 1 + RtoC 1)%C by (rewrite <- RtoC_plus; f_equal; ring). ring. }
  assert (E : forall P : C -> R, (forall s, is_derive (fun s => P (RtoC s * dz x * cexp (- (RtoC s * RtoC s * (z x * z x))))%C) s (P (df x s))) ->
     (forall s, continuous (fun s => P (df x s)) s) -> P (RtoC 0) = 0 -> RInt (fun s => P (df x s)) 0 1 = P (dz x * cexp (- (z x * z x)))%C).
  { intros P DP CP P0. apply is_RInt_unique. eapply is_RInt_ext_in; [lra|intros; reflexivity|].
    replace (P (dz x * cexp (- (z x * z x)))%C) with
      (P (RtoC 1 * dz x * cexp (- (RtoC 1 * RtoC 1 * (z x * z x))))%C - P (RtoC 0 * dz x * cexp (- (RtoC 0 * RtoC 0 * (z x * z x))))%C).
    - apply (FTC (fun s => P (RtoC s * dz x * cexp (- (RtoC s * RtoC s * (z x * z x))))%C) (fun s => P (df x s)) 0 1); [lra|intros; apply DP|intros; apply CP].
    - replace (RtoC 0 * dz x * cexp (- (RtoC 0 * RtoC 0 * (z x * z x))))%C with (RtoC 0) by ring. rewrite P0, Rminus_0_r. f_equal.
      replace (RtoC 1 * dz x)%C with (dz x) by ring. replace (RtoC 1 * RtoC 1 * (z x * z x))%C with (z x * z x)%C by ring. reflexivity. }
  assert (Cq : forall u t, continuous (fun s => Re (qker (z u) s)) t /\ continuous (fun s => Im (qker (z u) s)) t).
  { intros u t. exact (c2C_snd_cont (fun u s => qker (z u) s) u t (c2C_qker z (dz u) u t (D u))). }
  assert (Cd : forall t, continuous (fun s => Re (df x s)) t /\ continuous (fun s => Im (df x s)) t) by (intro t; exact (c2C_snd_cont df x t (C2 t))).
  split.
  - change (is_derive (fun u => RInt (fun s => Re (qker (z u) s)) 0 1) x (Re (dz x * cexp (- (z x * z x)))%C)). eapply is_derive_eq.
    + refine (derive_param (fun u s => Re (qker (z u) s)) (fun u s => Re (df u s)) 0 1 x _ _ _ _); [lra|intros u t; exact (proj1 (Dk u t))|intro t; exact (proj1 (C2 t))|intros u t; exact (proj1 (Cq u t))].
    + refine (E Re _ _ _); [intro s; exact (proj1 (I s))|intro s; exact (proj1 (Cd s))|reflexivity].
  - change (is_derive (fun u => RInt (fun s => Im (qker (z u) s)) 0 1) x (Im (dz x * cexp (- (z x * z x)))%C)). eapply is_derive_eq.
    + refine (derive_param (fun u s => Im (qker (z u) s)) (fun u s => Im (df u s)) 0 1 x _ _ _ _); [lra|intros u t; exact (proj2 (Dk u t))|intro t; exact (proj2 (C2 t))|intros u t; exact (proj2 (Cq u t))].
    + refine (E Im _ _ _); [intro s; exact (proj2 (I s))|intro s; exact (proj2 (Cd s))|reflexivity].
Qed.

Lemma qker_cont z t : continuous (fun s => Re (qker z s)) t /\ continuous (fun s => Im (qker z s)) t.
Proof. exact (c2C_snd_cont (fun _ s => qker z s) 0 t (c2C_qker (fun _ => z) _ 0 t (CD_const z 0))). Qed.

Lemma cQ_opp z : cQ (- z)%C = (- cQ z)%C.
Proof.
  assert (Q : forall s, qker (- z)%C s = (- qker z s)%C) by (intro s; unfold qker; replace (- z * - z)%C with (z * z)%C by ring; ring).
  apply C_eq; cbn [cQ Re Im fst snd Copp].
  - rewrite (RInt_ext _ (fun s => - Re (qker z s))) by (intros s _; rewrite Q; reflexivity).
    apply (RInt_opp (V:=R_CompleteNormedModule)), (ex_RInt_continuous (V:=R_CompleteNormedModule)). intros t _. exact (proj1 (qker_cont z t)).
  - rewrite (RInt_ext _ (fun s => - Im (qker z s))) by (intros s _; rewrite Q; reflexivity).
    apply (RInt_opp (V:=R_CompleteNormedModule)), (ex_RInt_continuous (V:=R_CompleteNormedModule)). intros t _. exact (proj2 (qker_cont z t)).
Qed.

Lemma cQ_0 : cQ (RtoC 0) = RtoC 0.
Proof.
  assert (Q : forall s, qker (RtoC 0) s = RtoC 0) by (intro s; unfold qker; ring).
  apply C_eq; cbn [cQ Re Im fst snd RtoC].
  - rewrite (RInt_ext _ (fun _ => 0)) by (intros s _; rewrite Q; reflexivity). rewrite RInt_const. unfold scal; cbn; unfold mult; cbn. ring.
  - rewrite (RInt_ext _ (fun _ => 0)) by (intros s _; rewrite Q; reflexivity). rewrite RInt_const. unfold scal; cbn; unfold mult; cbn. ring.
Qed.

(** a function with zero derivative on the reals is constant *)
Lemma zero_derive_const (f : R -> R) a b : (forall x, is_derive f x 0) -> f a = f b.
Proof.
  intro D. destruct (MVT_gen f a b (fun _ => 0)) as [c [_ H]].
  - intros x _. apply D.
  - intros x _. exact (derive_continuity _ _ _ (D x)).
  - lra.
Qed.

Lemma cQ_real x : cQ (RtoC x) = RtoC (RInt gauss 0 x).
Proof.
  assert (D : forall u, is_cderive (fun u => cQ (RtoC u) - RtoC (RInt gauss 0 u))%C u (RtoC 0)).
  { intro u. eapply is_cderive_eq; [apply CD_minus; [apply (CD_cQ (fun u => RtoC u) (fun _ => RtoC 1) (fun _ => RtoC 0)); intro; [apply CD_id|apply CD_const]|]|].
    - apply CD_real, D_gint.
    - cbv beta. unfold gauss. rewrite <- RtoC_mult, <- RtoC_opp. unfold cexp. apply C_eq; cbn; rewrite ?cos_0, ?sin_0; replace (u * (u * 1)) with (u * u) by ring; ring. }
  assert (E : (cQ (RtoC x) - RtoC (RInt gauss 0 x))%C = RtoC 0).
  { apply C_eq; cbn [RtoC Re Im fst snd].
    - rewrite (zero_derive_const (fun u => Re (cQ (RtoC u) - RtoC (RInt gauss 0 u))%C) x 0) by (intro u; exact (proj1 (D u))). rewrite cQ_0, RInt_point. cbn. unfold zero; cbn. ring.
    - rewrite (zero_derive_const (fun u => Im (cQ (RtoC u) - RtoC (RInt gauss 0 u))%C) x 0) by (intro u; exact (proj2 (D u))). rewrite cQ_0, RInt_point. cbn. unfold zero; cbn. ring. }
  replace (cQ (RtoC x)) with (cQ (RtoC x) - RtoC (RInt gauss 0 x) + RtoC (RInt gauss 0 x))%C by ring. rewrite E. ring.
Qed.

Definition cerf (z : C) : C := (RtoC (2 / sqrt PI) * cQ z)%C.

Lemma cerf_real x : cerf (RtoC x) = RtoC (erf x).
Proof. unfold cerf. rewrite cQ_real, <- RtoC_mult. reflexivity. Qed.
Lemma cerf_opp z : cerf (- z)%C = (- cerf z)%C.
Proof. unfold cerf. rewrite cQ_opp. ring. Qed.
Lemma CD_cerf (z dz ddz : R -> C) x : (forall u, is_cderive z u (dz u)) -> (forall u, is_cderive dz u (ddz u)) ->
  is_cderive (fun u => cerf (z u)) x (RtoC (2 / sqrt PI) * (dz x * cexp (- (z x * z x))))%C.
Proof. intros D DD. unfold cerf. apply CD_scal. now apply (CD_cQ z dz ddz). Qed.

(** ** How far from the real error function *)
Lemma derive_compare (f df g dg : R -> R) a b : a <= b -> (forall x, a <= x <= b -> is_derive f x (df x)) -> (forall x, a <= x <= b -> is_derive g x (dg x)) ->
  (forall x, a <= x <= b -> Rabs (df x) <= dg x) -> Rabs (f b - f a) <= g b - g a.
Proof.
  intros L Df Dg B.
  assert (M : forall s, s = 1 \/ s = -1 -> 0 <= (g b - s * f b) - (g a - s * f a)).
  { intros s Hs. destruct (MVT_gen (fun x => g x - s * f x) a b (fun x => dg x - s * df x)) as [c [Hc H]].
    - rewrite Rmin_left, Rmax_right by lra. intros x Hx. apply D_minus; [apply Dg; lra|apply D_scal, Df; lra].
    - rewrite Rmin_left, Rmax_right by lra. intros x Hx. apply (derive_continuity (fun x => g x - s * f x) x (dg x - s * df x)). apply D_minus; [apply Dg; lra|apply D_scal, Df; lra].
    - rewrite Rmin_left, Rmax_right in Hc by lra. rewrite H. apply Rmult_le_pos; [|lra]. specialize (B c Hc). apply Rabs_le_between in B. destruct Hs as [-> | ->]; lra. }
  apply Rabs_le. pose proof (M 1 (or_introl eq_refl)). pose proof (M (-1) (or_intror eq_refl)). lra.
Qed.

Lemma CD_vertical x y : is_cderive (fun v => cerf (x, v)) y (RtoC (2 / sqrt PI) * (Ci * cexp (- ((x, y) * (x, y)))))%C.
Proof.
  apply (CD_cerf (fun v => (x, v)) (fun _ => Ci) (fun _ => RtoC 0)); intro u; [|apply CD_const].
  split; [exact (D_const x u)|exact (D_id u)].
Qed.

Lemma two_root_pi : 0 < 2 / sqrt PI <= 2.
Proof.
  pose proof PI_RGT_0. pose proof PI2_1. assert (1 <= sqrt PI) by (rewrite <- sqrt_1; apply sqrt_le_1_alt; lra).
  split; [apply Rdiv_lt_0_compat; lra|]. apply Rle_div_l; lra.
Qed.

(** size of the integrand on the vertical line *)
Lemma vertical_size x y : let d := (RtoC (2 / sqrt PI) * (Ci * cexp (- ((x, y) * (x, y)))))%C in
  Rabs (Re d) <= 2 * exp (y ^ 2 - x ^ 2) /\ Rabs (Im d) <= 2 * exp (y ^ 2 - x ^ 2).
Proof.
  cbv zeta. pose proof two_root_pi. assert (M : Cmod (RtoC (2 / sqrt PI) * (Ci * cexp (- ((x, y) * (x, y)))))%C <= 2 * exp (y ^ 2 - x ^ 2)).
  { rewrite !Cmod_mult, Cmod_R, Rabs_right, Cmod_cexp by lra. replace (Cmod Ci) with 1.
    - cbn [Re Copp Cmult fst snd]. replace (- (x * x - y * y)) with (y ^ 2 - x ^ 2) by ring. pose proof (exp_pos (y ^ 2 - x ^ 2)). nra.
    - unfold Cmod, Ci. cbn. replace (0 * (0 * 1) + 1 * (1 * 1)) with 1 by ring. symmetry. apply sqrt_1. }
  destruct (parts_le_Cmod (RtoC (2 / sqrt PI) * (Ci * cexp (- ((x, y) * (x, y)))))%C) as [A B]. lra.
Qed.

Definition cerf_near (x y e : R) : Prop := Rabs (Re (cerf (x, y)) - erf x) <= e /\ Rabs (Im (cerf (x, y))) <= e.

Lemma cerf_at0 x : Re (cerf (x, 0)) = erf x /\ Im (cerf (x, 0)) = 0.
Proof. change (x, 0) with (RtoC x). rewrite cerf_real. split; reflexivity. Qed.

(** above the real axis, for points far up *)
Lemma cerf_up x y : 0 < y -> cerf_near x y (2 * exp (y ^ 2 - x ^ 2) / y).
Proof.
  intro Hy. destruct (cerf_at0 x) as [A0 B0].
  set (g := fun v => 2 * exp (v * y - x ^ 2) / y).
  assert (Dg : forall v, 0 <= v <= y -> is_derive g v (2 * exp (v * y - x ^ 2))).
  { intros v _. unfold g. eapply is_derive_eq; [apply D_div; [apply D_scal, D_exp, D_minus; [apply D_mult; [apply D_id|apply D_const]|apply D_const]|apply D_const|lra]|]. match goal with |- ?x = ?y => change (@eq R x y) end. cbv beta. field. lra. }
  assert (Le : forall v, 0 <= v <= y -> 2 * exp (v ^ 2 - x ^ 2) <= 2 * exp (v * y - x ^ 2)).
  { intros v Hv. apply Rmult_le_compat_l; [lra|]. destruct (Req_dec (v ^ 2) (v * y)) as [-> |N]; [lra|]. left. apply exp_increasing. nra. }
  assert (G : g y - g 0 <= 2 * exp (y ^ 2 - x ^ 2) / y).
  { unfold g. replace (y * y) with (y ^ 2) by ring. assert (0 < 2 * exp (0 * y - x ^ 2) / y); [|lra]. apply Rdiv_lt_0_compat; [|lra]. pose proof (exp_pos (0 * y - x ^ 2)). lra. }
  split.
  - eapply Rle_trans; [|exact G]. rewrite <- A0.
    apply (derive_compare (fun v => Re (cerf (x, v))) (fun v => Re (RtoC (2 / sqrt PI) * (Ci * cexp (- ((x, v) * (x, v)))))%C) g (fun v => 2 * exp (v * y - x ^ 2))); [lra| |exact Dg|].
    + intros v _. exact (proj1 (CD_vertical x v)).
    + intros v Hv. eapply Rle_trans; [exact (proj1 (vertical_size x v))|now apply Le].
  - eapply Rle_trans; [|exact G]. replace (Im (cerf (x, y))) with (Im (cerf (x, y)) - Im (cerf (x, 0))) by (rewrite B0; ring).
    apply (derive_compare (fun v => Im (cerf (x, v))) (fun v => Im (RtoC (2 / sqrt PI) * (Ci * cexp (- ((x, v) * (x, v)))))%C) g (fun v => 2 * exp (v * y - x ^ 2))); [lra| |exact Dg|].
    + intros v _. exact (proj2 (CD_vertical x v)).
    + intros v Hv. eapply Rle_trans; [exact (proj2 (vertical_size x v))|now apply Le].
Qed.

(** near the real axis *)
Lemma cerf_low x y : 0 <= y -> cerf_near x y (2 * y * exp (y ^ 2 - x ^ 2)).
Proof.
  intro Hy. destruct (cerf_at0 x) as [A0 B0].
  set (e := 2 * exp (y ^ 2 - x ^ 2)).
  assert (Dg : forall v, 0 <= v <= y -> is_derive (fun v => e * v) v e).
  { intros v _. eapply is_derive_eq; [apply D_scal, D_id|]. ring. }
  assert (Le : forall v, 0 <= v <= y -> 2 * exp (v ^ 2 - x ^ 2) <= e).
  { intros v Hv. unfold e. apply Rmult_le_compat_l; [lra|]. destruct (Req_dec (v ^ 2) (y ^ 2)) as [-> |N]; [lra|]. left. apply exp_increasing. nra. }
  replace (2 * y * exp (y ^ 2 - x ^ 2)) with (e * y - e * 0) by (unfold e; ring).
  split.
  - rewrite <- A0.
    apply (derive_compare (fun v => Re (cerf (x, v))) (fun v => Re (RtoC (2 / sqrt PI) * (Ci * cexp (- ((x, v) * (x, v)))))%C) (fun v => e * v) (fun _ => e)); [lra| |exact Dg|].
    + intros v _. exact (proj1 (CD_vertical x v)).
    + intros v Hv. eapply Rle_trans; [exact (proj1 (vertical_size x v))|now apply Le].
  - replace (Im (cerf (x, y))) with (Im (cerf (x, y)) - Im (cerf (x, 0))) by (rewrite B0; ring).
    apply (derive_compare (fun v => Im (cerf (x, v))) (fun v => Im (RtoC (2 / sqrt PI) * (Ci * cexp (- ((x, v) * (x, v)))))%C) (fun v => e * v) (fun _ => e)); [lra| |exact Dg|].
    + intros v _. exact (proj2 (CD_vertical x v)).
    + intros v Hv. eapply Rle_trans; [exact (proj2 (vertical_size x v))|now apply Le].
Qed.

(** below the axis the values are conjugate *)
Lemma cexp_conj z : cexp (Cconj z) = Cconj (cexp z).
Proof. unfold cexp, Cconj. apply C_eq; cbn; rewrite ?cos_neg, ?sin_neg; ring. Qed.
Lemma Cconj_mult' a b : Cconj (a * b)%C = (Cconj a * Cconj b)%C.
Proof. unfold Cconj. apply C_eq; cbn; ring. Qed.
Lemma Cconj_opp' a : Cconj (- a)%C = (- Cconj a)%C.
Proof. unfold Cconj. apply C_eq; cbn; ring. Qed.
Lemma Cconj_R r : Cconj (RtoC r) = RtoC r.
Proof. unfold Cconj. apply C_eq; cbn; ring. Qed.

Lemma cerf_conj z : cerf (Cconj z) = Cconj (cerf z).
Proof.
  assert (Q : forall s, qker (Cconj z) s = Cconj (qker z s)).
  { intro s. unfold qker. rewrite !Cconj_mult', <- cexp_conj, Cconj_opp', !Cconj_mult', Cconj_R. reflexivity. }
  unfold cerf. rewrite Cconj_mult', Cconj_R. f_equal. apply C_eq; cbn [cQ Re Im fst snd Cconj].
  - apply RInt_ext. intros s _. rewrite Q. reflexivity.
  - rewrite (RInt_ext _ (fun s => - Im (qker z s))) by (intros s _; rewrite Q; reflexivity).
    apply (RInt_opp (V:=R_CompleteNormedModule)), (ex_RInt_continuous (V:=R_CompleteNormedModule)). intros t _. exact (proj2 (qker_cont z t)).
Qed.

Lemma cerf_below x y e : cerf_near x y e -> cerf_near x (- y) e.
Proof.
  intros [A B]. change (x, - y) with (Cconj (x, y)). unfold cerf_near. change (x, - y) with (Cconj (x, y)). rewrite cerf_conj.
  split; cbn [Cconj Re Im fst snd] in *; [exact A|]. rewrite Rabs_Ropp. exact B.
Qed.
