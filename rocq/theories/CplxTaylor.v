(** Taylor bounds for the complex exponential.  Generic mathematics. *)
From Coq Require Import Reals Lra.
From Coquelicot Require Import Coquelicot.
From Verif Require Import Vec3 Calculus Deriv Cplx.
Open Scope R_scope.

Lemma Cmod_le_parts z : Cmod z <= Rabs (Re z) + Rabs (Im z).
Proof.
  pose proof (Cmod_sqr z) as H. pose proof (Cmod_ge_0 z).
  pose proof (Rabs_pos (Re z)). pose proof (Rabs_pos (Im z)).
  assert (A : Rabs (Re z) * Rabs (Re z) = Re z * Re z) by (rewrite <- Rabs_mult; apply Rabs_right; nra).
  assert (B : Rabs (Im z) * Rabs (Im z) = Im z * Im z) by (rewrite <- Rabs_mult; apply Rabs_right; nra).
  nra.
Qed.

Lemma parts_le_Cmod z : Rabs (Re z) <= Cmod z /\ Rabs (Im z) <= Cmod z.
Proof.
  pose proof (Cmod_sqr z) as H. pose proof (Cmod_ge_0 z).
  split; apply Rabs_le; split; nra.
Qed.

(** mean value inequality on [0,1] *)
Lemma cmvt (f df : R -> C) (M : R) :
  (forall t, 0 <= t <= 1 -> is_cderive f t (df t)) ->
  (forall t, 0 <= t <= 1 -> Cmod (df t) <= M) -> Cmod (f 1 - f 0)%C <= 2 * M.
Proof.
  intros D B.
  assert (X : forall g dg : R -> R, (forall t, 0 <= t <= 1 -> is_derive g t (dg t)) ->
     (forall t, 0 <= t <= 1 -> Rabs (dg t) <= M) -> Rabs (g 1 - g 0) <= M).
  { intros g dg Dg Bg.
    destruct (MVT_gen g 0 1 dg) as [c [Hc E]].
    - intros t Ht. rewrite Rmin_left, Rmax_right in Ht by lra. apply Dg; lra.
    - intros t Ht. rewrite Rmin_left, Rmax_right in Ht by lra. apply derive_continuity with (dg t). apply Dg; lra.
    - rewrite Rmin_left, Rmax_right in Hc by lra. rewrite E. replace (dg c * (1 - 0)) with (dg c) by ring. apply Bg; lra. }
  eapply Rle_trans; [apply Cmod_le_parts|]. simpl.
  assert (A1 : Rabs (Re (f 1) - Re (f 0)) <= M).
  { apply (X (fun t => Re (f t)) (fun t => Re (df t))).
    - intros t Ht. apply (D t Ht).
    - intros t Ht. eapply Rle_trans; [apply parts_le_Cmod|apply B, Ht]. }
  assert (A2 : Rabs (Im (f 1) - Im (f 0)) <= M).
  { apply (X (fun t => Im (f t)) (fun t => Im (df t))).
    - intros t Ht. apply (D t Ht).
    - intros t Ht. eapply Rle_trans; [apply parts_le_Cmod|apply B, Ht]. }
  unfold Rminus in *. lra.
Qed.

Definition e0 (u : C) : C := (cexp (- u) - 1)%C.
Definition e1 (u : C) : C := (cexp (- u) - 1 + u)%C.
Definition e2 (u : C) : C := (cexp (- u) - 1 + u - / RtoC 2 * (u * u))%C.

Lemma CD_line u (x : R) : is_cderive (fun t => RtoC t * u)%C x u.
Proof. eapply is_cderive_eq; [apply CD_mult; [apply CD_id|apply CD_const]|]. cbv beta. ring. Qed.

Lemma CD_expline u (x : R) : is_cderive (fun t => cexp (- (RtoC t * u)))%C x (- u * cexp (- (RtoC x * u)))%C.
Proof. apply (CD_exp (fun t => - (RtoC t * u))%C). apply CD_opp, CD_line. Qed.

Lemma Cmod_line (t : R) u : 0 <= t <= 1 -> Cmod (RtoC t * u)%C <= Cmod u.
Proof.
  intro H. rewrite Cmod_mult, Cmod_R, Rabs_right by lra. pose proof (Cmod_ge_0 u). nra.
Qed.

Lemma exp1_le : exp 1 <= 3.
Proof. apply exp_le_3. Qed.

Lemma e0_bound u : Cmod u <= 1 -> Cmod (e0 u) <= 6 * Cmod u.
Proof.
  intro H.
  assert (X : Cmod (cexp (- (RtoC 1 * u)) - cexp (- (RtoC 0 * u)))%C <= 2 * (3 * Cmod u)).
  { apply (cmvt (fun t => cexp (- (RtoC t * u)))%C (fun t => - u * cexp (- (RtoC t * u)))%C).
    - intros t _. apply CD_expline.
    - intros t Ht. rewrite Cmod_mult, Cmod_opp, Cmod_cexp. pose proof (Cmod_ge_0 u).
      assert (exp (Re (- (RtoC t * u))%C) <= 3).
      { eapply Rle_trans; [|exact exp1_le].
        assert (Re (- (RtoC t * u))%C <= 1).
        { pose proof (proj1 (parts_le_Cmod (- (RtoC t * u))%C)) as P. rewrite Cmod_opp in P.
          pose proof (Cmod_line t u Ht). pose proof (Rle_abs (Re (- (RtoC t * u))%C)). lra. }
        destruct (Rle_lt_or_eq_dec _ _ H1) as [L|E]; [left; apply exp_increasing, L|rewrite E; lra]. }
      pose proof (exp_pos (Re (- (RtoC t * u))%C)). nra. }
  unfold e0. replace (- u)%C with (- (RtoC 1 * u))%C by ring.
  replace (RtoC 1) with (cexp (- (RtoC 0 * u)))%C at 2.
  - lra.
  - replace (- (RtoC 0 * u))%C with (RtoC 0) by ring. apply cexp_0.
Qed.

Lemma e1_bound u : Cmod u <= 1 -> Cmod (e1 u) <= 12 * (Cmod u * Cmod u).
Proof.
  intro H. pose proof (Cmod_ge_0 u) as P.
  assert (X : Cmod (e1 (RtoC 1 * u) - e1 (RtoC 0 * u))%C <= 2 * (6 * (Cmod u * Cmod u))).
  { apply (cmvt (fun t => e1 (RtoC t * u))%C (fun t => - u * e0 (RtoC t * u))%C).
    - intros t _. unfold e1, e0. eapply is_cderive_eq.
      + apply CD_plus; [apply CD_minus; [apply CD_expline|apply CD_const]|apply CD_line].
      + ring.
    - intros t Ht. rewrite Cmod_mult, Cmod_opp. pose proof (Cmod_line t u Ht).
      pose proof (e0_bound (RtoC t * u)%C ltac:(lra)). pose proof (Cmod_ge_0 (e0 (RtoC t * u))%C). nra. }
  replace (RtoC 1 * u)%C with u in X by ring. replace (RtoC 0 * u)%C with (RtoC 0) in X by ring.
  replace (e1 (RtoC 0)) with (RtoC 0) in X.
  - replace (e1 u - RtoC 0)%C with (e1 u) in X by ring. lra.
  - unfold e1. replace (- RtoC 0)%C with (RtoC 0) by ring. rewrite cexp_0. ring.
Qed.

Lemma half2 : (/ RtoC 2 * (1 + 1))%C = RtoC 1.
Proof. rewrite <- RtoC_inv by lra. ceq; field. Qed.

Lemma e2_bound u : Cmod u <= 1 -> Cmod (e2 u) <= 24 * (Cmod u * Cmod u * Cmod u).
Proof.
  intro H. pose proof (Cmod_ge_0 u) as P.
  assert (X : Cmod (e2 (RtoC 1 * u) - e2 (RtoC 0 * u))%C <= 2 * (12 * (Cmod u * Cmod u * Cmod u))).
  { apply (cmvt (fun t => e2 (RtoC t * u))%C (fun t => - u * e1 (RtoC t * u))%C).
    - intros t _. unfold e2, e1. eapply is_cderive_eq.
      + apply CD_minus; [apply CD_plus; [apply CD_minus; [apply CD_expline|apply CD_const]|apply CD_line]|].
        apply CD_scal, CD_mult; apply CD_line.
      + cbv beta. replace (/ RtoC 2 * (u * (RtoC t * u) + RtoC t * u * u))%C
          with ((/ RtoC 2 * (1 + 1)) * (RtoC t * u * u))%C by ring. rewrite half2. ring.
    - intros t Ht. rewrite Cmod_mult, Cmod_opp. pose proof (Cmod_line t u Ht).
      pose proof (e1_bound (RtoC t * u)%C ltac:(lra)). pose proof (Cmod_ge_0 (e1 (RtoC t * u))%C).
      pose proof (Cmod_ge_0 (RtoC t * u)%C). set (a := Cmod (RtoC t * u)%C) in *. set (b := Cmod u) in *.
      assert (a * a <= b * b) by nra. assert (Cmod (e1 (RtoC t * u))%C <= 12 * (b * b)) by lra. nra. }
  replace (RtoC 1 * u)%C with u in X by ring. replace (RtoC 0 * u)%C with (RtoC 0) in X by ring.
  replace (e2 (RtoC 0)) with (RtoC 0) in X.
  - replace (e2 u - RtoC 0)%C with (e2 u) in X by ring. lra.
  - unfold e2. replace (- RtoC 0)%C with (RtoC 0) by ring. rewrite cexp_0. ring.
Qed.

Lemma cexp_e2 u : cexp (- u)%C = (1 - u + / RtoC 2 * (u * u) + e2 u)%C.
Proof. unfold e2. ring. Qed.
