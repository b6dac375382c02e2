(** Improper integrals of complex functions over the positive half-line, and the Fourier transforms of
    t^(-n/2) exp(-a^2/(4t)). *)
From Coq Require Import Reals Lra.
From Coquelicot Require Import Coquelicot.
From Verif Require Import Vec3 Calculus Deriv Integral Cplx CplxTaylor SpecFun Model_TDEM Cerf Spec_Fourier.
Open Scope R_scope.

Notation inf := (Rbar_locally p_infty).

(** ** Limits at 0+ and at infinity *)
Definition clim (F : (R -> Prop) -> Prop) (f : R -> C) (L : C) : Prop :=
  filterlim (fun t => Re (f t)) F (locally (Re L)) /\ filterlim (fun t => Im (f t)) F (locally (Im L)).

Lemma lim_abs (F : (R -> Prop) -> Prop) {FF : Filter F} (f : R -> R) L :
  (forall e, 0 < e -> F (fun t => Rabs (f t - L) < e)) -> filterlim f F (locally L).
Proof. intros H P [e He]. unfold filtermap. apply (filter_imp (fun t => Rabs (f t - L) < e)); [intros t Ht; now apply He|]. apply H, cond_pos. Qed.

Lemma clim_abs (F : (R -> Prop) -> Prop) {FF : Filter F} (f : R -> C) L :
  (forall e, 0 < e -> F (fun t => Cmod (f t - L)%C < e)) -> clim F f L.
Proof.
  intros H. split; apply lim_abs; try exact FF; intros e He; apply (filter_imp (fun t => Cmod (f t - L)%C < e)); try (apply H; exact He); intros t Ht;
    destruct (parts_le_Cmod (f t - L)%C) as [A B]; cbn [Cminus Re Im fst snd Cplus Copp] in A, B; unfold Rminus; cbn in *; lra.
Qed.

Lemma lim_plus F {FF : Filter F} (f g : R -> R) L M : filterlim f F (locally L) -> filterlim g F (locally M) -> filterlim (fun t => f t + g t) F (locally (L + M)).
Proof. intros A B. eapply filterlim_comp_2; [exact A|exact B|exact (filterlim_plus (V:=R_NormedModule) L M)]. Qed.
Lemma lim_scal F {FF : Filter F} k (f : R -> R) L : filterlim f F (locally L) -> filterlim (fun t => k * f t) F (locally (k * L)).
Proof. intros A. eapply filterlim_comp; [exact A|exact (filterlim_scal_r (V:=R_NormedModule) k L)]. Qed.
Lemma clim_plus F {FF : Filter F} f g L M : clim F f L -> clim F g M -> clim F (fun t => f t + g t)%C (L + M)%C.
Proof.
  intros [A B] [A' B']. split.
  - exact (lim_plus F _ _ _ _ A A').
  - exact (lim_plus F _ _ _ _ B B').
Qed.

(** growth bounds *)
Lemma at_0_sqrt e K : 0 < e -> 0 <= K -> at_right 0 (fun t => 0 < t /\ K * sqrt t < e).
Proof.
  intros He HK. assert (0 < e / (K + 1)) by (apply Rdiv_lt_0_compat; lra). assert (0 < (e / (K + 1)) ^ 2) by nra. remember ((e / (K + 1)) ^ 2) as d eqn:Ed.
  exists (mkposreal d H0). intros t Ht Hp. split; [exact Hp|]. unfold ball in Ht; cbn in Ht. unfold AbsRing_ball, abs, minus, plus, opp in Ht; cbn in Ht.
  rewrite Rabs_right in Ht by lra. assert (S : sqrt t < e / (K + 1)).
  { rewrite <- (sqrt_pow2 (e / (K + 1))) by lra. apply sqrt_lt_1; rewrite <- ?Ed; lra. }
  assert (K * sqrt t <= K * (e / (K + 1))) by (apply Rmult_le_compat_l; lra).
  assert (K * (e / (K + 1)) < e). { replace e with ((K + 1) * (e / (K + 1))) at 2 by (field; lra). apply Rmult_lt_compat_r; lra. } lra.
Qed.
Lemma at_inf_sqrt e K M : 0 < e -> 0 <= K -> inf (fun t => 0 < t /\ M < t /\ K / sqrt t < e).
Proof.
  intros He HK. exists (Rmax M ((K / e) ^ 2 + 1)). intros t Ht. pose proof (Rmax_l M ((K / e) ^ 2 + 1)). pose proof (Rmax_r M ((K / e) ^ 2 + 1)).
  assert (0 <= K / e) by (apply Rdiv_le_0_compat; lra). assert (0 < t) by nra. repeat split; [lra|lra|].
  assert (S : K / e < sqrt t). { rewrite <- (sqrt_pow2 (K / e)) by lra. apply sqrt_lt_1; nra. }
  apply Rlt_div_l; [apply sqrt_lt_R0; lra|]. apply (Rmult_lt_compat_r e) in S; [|lra]. replace (K / e * e) with K in S by (field; lra). lra.
Qed.

Lemma clim_0 f L K : 0 <= K -> (forall t, 0 < t -> Cmod (f t - L)%C <= K * sqrt t) -> clim (at_right 0) f L.
Proof.
  intros HK H. apply clim_abs; [apply at_right_proper_filter|]. intros e He. eapply filter_imp; [|exact (at_0_sqrt e K He HK)].
  intros t [Hp Ht]. specialize (H t Hp). lra.
Qed.
Lemma clim_0_small f L K d : 0 <= K -> 0 < d -> (forall t, 0 < t < d -> Cmod (f t - L)%C <= K * sqrt t) -> clim (at_right 0) f L.
Proof.
  intros HK Hd H. apply clim_abs; [apply at_right_proper_filter|]. intros e He.
  apply (filter_imp (fun t => (0 < t /\ K * sqrt t < e) /\ t < d)).
  - intros t [[Hp Ht] Hl]. specialize (H t (conj Hp Hl)). lra.
  - apply filter_and; [exact (at_0_sqrt e K He HK)|]. exists (mkposreal d Hd). intros t Ht Hp. unfold ball in Ht; cbn in Ht.
    unfold AbsRing_ball, abs, minus, plus, opp in Ht; cbn in Ht. rewrite Rabs_right in Ht by lra. lra.
Qed.
Lemma clim_inf f L K M : 0 <= K -> (forall t, 0 < t -> M < t -> Cmod (f t - L)%C <= K / sqrt t) -> clim inf f L.
Proof.
  intros HK H. apply clim_abs; [apply Rbar_locally_filter|]. intros e He. eapply filter_imp; [|exact (at_inf_sqrt e K M He HK)].
  intros t (Hp & HM & Ht). specialize (H t Hp HM). lra.
Qed.
Lemma clim_const F {FF : Filter F} c : clim F (fun _ => c) c.
Proof. split; apply filterlim_const. Qed.
Lemma clim_ext F {FF : Filter F} f g L : F (fun t => f t = g t) -> clim F f L -> clim F g L.
Proof.
  intros E [A B]. split.
  - eapply filterlim_ext_loc; [|exact A]. eapply filter_imp; [|exact E]. intros t Ht. cbv beta in *. rewrite Ht. reflexivity.
  - eapply filterlim_ext_loc; [|exact B]. eapply filter_imp; [|exact E]. intros t Ht. cbv beta in *. rewrite Ht. reflexivity.
Qed.
Lemma clim_scal F {FF : Filter F} c f L : clim F f L -> clim F (fun t => c * f t)%C (c * L)%C.
Proof.
  intros [A B]. split; cbn [Cmult Re Im fst snd].
  - replace (fst c * fst L - snd c * snd L) with (fst c * fst L + (- snd c) * snd L) by ring.
    eapply filterlim_ext; [|exact (lim_plus F _ _ _ _ (lim_scal F (fst c) _ _ A) (lim_scal F (- snd c) _ _ B))]. intro t. cbv beta. unfold Re, Im. ring.
  - exact (lim_plus F _ _ _ _ (lim_scal F (fst c) _ _ B) (lim_scal F (snd c) _ _ A)).
Qed.

(** ** Integrals *)
Lemma pos_range : filter_prod (at_right 0) inf (fun ab => forall x, Rmin (fst ab) (snd ab) <= x <= Rmax (fst ab) (snd ab) -> 0 < x).
Proof.
  exists (fun a => 0 < a) (fun b => 0 < b).
  - exists (mkposreal 1 Rlt_0_1). intros t _ H. exact H.
  - exists 0. intros t H. exact H.
  - intros a b Ha Hb x [Hx _]. cbn in Hx. unfold Rmin in Hx. destruct (Rle_dec a b); lra.
Qed.

Lemma int_FTC (f df : R -> R) L0 L1 : (forall t, 0 < t -> is_derive f t (df t)) -> (forall t, 0 < t -> continuous df t) ->
  filterlim f (at_right 0) (locally L0) -> filterlim f inf (locally L1) -> is_RInt_gen df (at_right 0) inf (L1 - L0).
Proof.
  intros D Cd l0 l1. apply (is_RInt_gen_ext (Derive f)).
  - eapply filter_imp; [|exact pos_range]. intros [a b] H x Hx. apply is_derive_unique, D, H. lra.
  - apply is_RInt_gen_Derive; try exact l0; try exact l1.
    + eapply filter_imp; [|exact pos_range]. intros [a b] H x Hx. eexists. apply D, H, Hx.
    + eapply filter_imp; [|exact pos_range]. intros [a b] H x Hx. specialize (H x Hx). apply (continuous_ext_loc _ df).
      * exists (mkposreal x H). intros y Hy. symmetry. apply is_derive_unique, D. unfold ball in Hy; cbn in Hy.
        unfold AbsRing_ball, abs, minus, plus, opp in Hy; cbn in Hy. apply Rabs_lt_between in Hy. lra.
      * apply Cd, H.
Qed.

Lemma cint_FTC (F dF : R -> C) L0 L1 : (forall t, 0 < t -> is_cderive F t (dF t)) -> (forall t, 0 < t -> exists d, is_cderive dF t d) ->
  clim (at_right 0) F L0 -> clim inf F L1 -> is_cint dF (L1 - L0)%C.
Proof.
  intros D DD [A B] [A' B']. split.
  - refine (int_FTC (fun t => Re (F t)) (fun t => Re (dF t)) (Re L0) (Re L1) _ _ A A').
    + intros t Ht. exact (proj1 (D t Ht)).
    + intros t Ht. destruct (DD t Ht) as [d Hd]. apply continuity_pt_filterlim. exact (derive_continuity _ _ _ (proj1 Hd)).
  - refine (int_FTC (fun t => Im (F t)) (fun t => Im (dF t)) (Im L0) (Im L1) _ _ B B').
    + intros t Ht. exact (proj2 (D t Ht)).
    + intros t Ht. destruct (DD t Ht) as [d Hd]. apply continuity_pt_filterlim. exact (derive_continuity _ _ _ (proj2 Hd)).
Qed.

Lemma cint_ext F G L : (forall t, 0 < t -> F t = G t) -> is_cint F L -> is_cint G L.
Proof.
  intros E [A B]. split.
  - eapply is_RInt_gen_ext; [|exact A]. eapply filter_imp; [|exact pos_range]. intros [a b] H x Hx. cbv beta. rewrite E; [reflexivity|]. apply H. lra.
  - eapply is_RInt_gen_ext; [|exact B]. eapply filter_imp; [|exact pos_range]. intros [a b] H x Hx. cbv beta. rewrite E; [reflexivity|]. apply H. lra.
Qed.
Lemma cint_plus F G L M : is_cint F L -> is_cint G M -> is_cint (fun t => F t + G t)%C (L + M)%C.
Proof.
  intros [A B] [A' B']. split.
  - exact (is_RInt_gen_plus _ _ (Re L) (Re M) A A').
  - exact (is_RInt_gen_plus _ _ (Im L) (Im M) B B').
Qed.
Lemma cint_scal c F L : is_cint F L -> is_cint (fun t => c * F t)%C (c * L)%C.
Proof.
  intros [A B]. split.
  - exact (is_RInt_gen_minus _ _ _ _ (is_RInt_gen_scal _ (Re c) _ A) (is_RInt_gen_scal _ (Im c) _ B)).
  - exact (is_RInt_gen_plus _ _ _ _ (is_RInt_gen_scal _ (Re c) _ B) (is_RInt_gen_scal _ (Im c) _ A)).
Qed.
