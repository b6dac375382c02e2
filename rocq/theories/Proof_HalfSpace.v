(** Hankel transforms of the closed-form half-space potentials.  Generic mathematics. *)
From Coq Require Import Reals Lra Psatz.
From Coquelicot Require Import Coquelicot.
From Verif Require Import Vec3 Calculus Deriv Integral Cplx CplxTaylor SpecFun Spec_Fourier Spec_Hankel Proof_Fourier Proof_Hankel Proof_RTE6 Proof_RTE9 Proof_FDEM Proof_Bessel Proof_Bessel2.
Open Scope R_scope.

(** fourth order *)
Lemma six : (/ RtoC 6 * (1 + 1 + 1))%C = (/ RtoC 2)%C.
Proof. rewrite <- !RtoC_inv by lra. ceq; field. Qed.
Definition e3 (u : C) : C := (e2 u + / RtoC 6 * (u * u * u))%C.
Lemma e3_bound u : Cmod u <= 1 -> Cmod (e3 u) <= 48 * (Cmod u * Cmod u * (Cmod u * Cmod u)).
Proof.
  intro H. pose proof (Cmod_ge_0 u) as P.
  assert (X : Cmod (e3 (RtoC 1 * u) - e3 (RtoC 0 * u))%C <= 2 * (24 * (Cmod u * Cmod u * (Cmod u * Cmod u)))).
  { apply (cmvt (fun t => e3 (RtoC t * u))%C (fun t => - u * e2 (RtoC t * u))%C).
    - intros t _. unfold e3, e2. eapply is_cderive_eq.
      + apply CD_plus; [apply CD_minus; [apply CD_plus; [apply CD_minus; [apply CD_expline|apply CD_const]|apply CD_line]|]|].
        * apply CD_scal, CD_mult; apply CD_line.
        * apply CD_scal, CD_mult; [apply CD_mult; apply CD_line|apply CD_line].
      + cbv beta. replace (/ RtoC 2 * (u * (RtoC t * u) + RtoC t * u * u))%C
          with ((/ RtoC 2 * (1 + 1)) * (RtoC t * u * u))%C by ring. rewrite half2.
        replace (/ RtoC 6 * ((u * (RtoC t * u) + RtoC t * u * u) * (RtoC t * u) + RtoC t * u * (RtoC t * u) * u))%C
          with ((/ RtoC 6 * (1 + 1 + 1)) * (RtoC t * u * (RtoC t * u) * u))%C by ring. rewrite six. ring.
    - intros t Ht. rewrite Cmod_mult, Cmod_opp. pose proof (Cmod_line t u Ht).
      pose proof (e2_bound (RtoC t * u)%C ltac:(lra)). pose proof (Cmod_ge_0 (e2 (RtoC t * u))%C).
      pose proof (Cmod_ge_0 (RtoC t * u)%C). set (a := Cmod (RtoC t * u)%C) in *. set (b := Cmod u) in *.
      assert (a * a <= b * b) by nra. assert (a * a * a <= b * b * b) by nra. assert (Cmod (e2 (RtoC t * u))%C <= 24 * (b * b * b)) by lra. nra. }
  replace (RtoC 1 * u)%C with u in X by ring. replace (RtoC 0 * u)%C with (RtoC 0) in X by ring.
  replace (e3 (RtoC 0)) with (RtoC 0) in X.
  - replace (e3 u - RtoC 0)%C with (e3 u) in X by ring. lra.
  - unfold e3, e2. replace (- RtoC 0)%C with (RtoC 0) by ring. rewrite cexp_0. ring.
Qed.

Section Half.
  Variable k : C.
  Hypothesis K : 0 < Re k.
  Let kn : k <> RtoC 0 := k_nz k K.
  Notation ex r := (cexp (- (RtoC r * k))%C).
  (** derivative of the static-limit-free potential: mh_phi - 1/r^2 *)
  Definition tp (r : R) : C :=
    (- / (k * k) * (RtoC 6 * (/ RtoC r * / RtoC r * / RtoC r * / RtoC r) - k * k * (/ RtoC r * / RtoC r)
       - RtoC 2 * (ex r * (RtoC 3 * (/ RtoC r * / RtoC r * / RtoC r * / RtoC r) + RtoC 3 * (k * (/ RtoC r * / RtoC r * / RtoC r)) + k * k * (/ RtoC r * / RtoC r)))))%C.

  Section Lam.
  Variable la : R.
  Hypothesis L : 0 < la.
  Definition al (r : R) : C := (- RtoC 2 * RtoC la * / k * ex r + - RtoC 2 * RtoC la * / (k * k) * ((ex r - 1) * / RtoC r))%C.
  Definition be (r : R) : C := (RtoC 2 * RtoC la * RtoC la * / (k * k) * ex r + - RtoC 2 * / k * (ex r * / RtoC r) + - RtoC 2 * / (k * k) * ((ex r - 1) * (/ RtoC r * / RtoC r)))%C.
  Definition pr (r : R) : C := (al r * RtoC (bessel0 (la * r)) + be r * RtoC (bessel1 (la * r)))%C.
  Lemma CD_J0 r : is_cderive (fun x => RtoC (bessel0 (la * x))) r (- (RtoC la * RtoC (bessel1 (la * r))))%C.
  Proof. rewrite <- RtoC_mult, <- RtoC_opp. apply CD_real, D_J0l. Qed.
  Lemma CD_J1 r : 0 < r -> is_cderive (fun x => RtoC (bessel1 (la * x))) r (RtoC la * RtoC (bessel0 (la * r)) - RtoC (bessel1 (la * r)) * / RtoC r)%C.
  Proof. intros P. eapply is_cderive_eq; [apply (CD_real (fun x => bessel1 (la * x))), D_J1l; lra|]. rewrite RtoC_minus, RtoC_mult, RtoC_div by lra. reflexivity. Qed.
  Lemma rn r : 0 < r -> RtoC r <> RtoC 0. Proof. intros P E. apply RtoC_inj in E. lra. Qed.
  Lemma CD_pr r : 0 < r -> is_cderive pr r
    (RtoC 2 * RtoC la * (k * k + RtoC la * RtoC la) * / (k * k) * (ex r * RtoC (bessel0 (la * r)))
     + (RtoC r * tp r - (1 + RtoC 2 * RtoC la * RtoC la * / (k * k)) * / RtoC r) * RtoC (bessel1 (la * r)))%C.
  Proof.
    intros P. unfold pr, al, be. eapply is_cderive_eq.
    - apply CD_plus; apply CD_mult.
      + apply CD_plus; [apply CD_scal, CD_expline|]. apply CD_scal, CD_mult; [apply CD_minus; [apply CD_expline|apply CD_const]|apply CD_it; lra].
      + apply CD_J0.
      + apply CD_plus; [apply CD_plus|]; [apply CD_scal, CD_expline|apply CD_scal, CD_mult; [apply CD_expline|apply CD_it; lra]|].
        apply CD_scal, CD_mult; [apply CD_minus; [apply CD_expline|apply CD_const]|apply CD_mult; apply CD_it; lra].
      + apply CD_J1, P.
    - cbv beta. unfold tp. pose proof (rn r P) as N. replace (RtoC 6) with (RtoC 3 * RtoC 2)%C by (rewrite <- RtoC_mult; f_equal; ring).
      replace (RtoC 3) with (1 + RtoC 2)%C by (rewrite <- RtoC_plus; f_equal; ring). replace (RtoC 2) with (1 + 1)%C by (rewrite <- RtoC_plus; f_equal; ring).
      generalize (ex r) (RtoC (bessel0 (la * r))) (RtoC (bessel1 (la * r))) (RtoC la). generalize dependent (RtoC r). intros x N e j0 j1 l. field. split; assumption.
  Qed.
  (** *** limits *)
  Let kp : 0 < Cmod k := proj1 (Cmod_gt_0 k) kn.
  Lemma ex_le r : 0 <= r -> Cmod (ex r) <= 1.
  Proof.
    intros P. rewrite Cmod_cexp. replace (Re (- (RtoC r * k))%C) with (- (Re k * r)) by (cbn; ring). destruct (Req_dec r 0) as [->|N]; [rewrite Rmult_0_r, Ropp_0, exp_0; lra|].
    rewrite <- exp_0. left. apply exp_increasing. nra.
  Qed.
  Lemma ex_decay r : 1 <= r -> Cmod (ex r) <= / Re k / sqrt r.
  Proof. intros P. rewrite Cmod_cexp. replace (Re (- (RtoC r * k))%C) with (- (Re k * r)) by (cbn; ring). now apply exp_decay. Qed.
  Lemma inv_decay r : 1 <= r -> 0 < / r /\ / r <= 1 /\ / r <= / sqrt r.
  Proof.
    intros P. assert (S1 : 1 <= sqrt r) by (rewrite <- sqrt_1; apply sqrt_le_1_alt; lra). assert (S2 : sqrt r * sqrt r = r) by (apply sqrt_sqrt; lra).
    split; [apply Rinv_0_lt_compat; lra|]. split; [rewrite <- Rinv_1; apply Rinv_le_contravar; lra|apply Rinv_le_contravar; nra].
  Qed.
  Lemma Cmod_ir r : 0 < r -> Cmod (/ RtoC r)%C = / r.
  Proof. intros P. rewrite <- RtoC_inv, Cmod_R by lra. apply Rabs_right. left. now apply Rinv_0_lt_compat. Qed.
  Lemma Cmod_ik : Cmod (/ k)%C = / Cmod k. Proof. apply Cmod_inv, kn. Qed.
  Lemma Cmod_ikk : Cmod (/ (k * k))%C = / (Cmod k * Cmod k).
  Proof. rewrite Cmod_inv, Cmod_mult; [reflexivity|]. now apply Cmult_neq_0. Qed.
  Lemma Cm2 : Cmod (- RtoC 2)%C = 2. Proof. rewrite Cmod_opp, Cmod_R. apply Rabs_right. lra. Qed.
  Lemma Cp2 : Cmod (RtoC 2) = 2. Proof. rewrite Cmod_R. apply Rabs_right. lra. Qed.
  Lemma Cla : Cmod (RtoC la) = la. Proof. rewrite Cmod_R. apply Rabs_right. lra. Qed.
  Lemma ex1_le r : 0 <= r -> Cmod (ex r - 1)%C <= 2.
  Proof. intros P. eapply Rle_trans; [apply Cmod_triangle|]. rewrite Cmod_opp, Cmod_1. pose proof (ex_le r P). lra. Qed.
  Lemma pr_inf : clim inf (pr) (RtoC 0).
  Proof.
    set (q := Cmod k) in *. assert (Kp : 0 < / Re k) by now apply Rinv_0_lt_compat. assert (Q : 0 < / q) by now apply Rinv_0_lt_compat.
    assert (Q2 : 0 < / (q * q)) by (apply Rinv_0_lt_compat; nra).
    assert (C1 : 0 < 2 * la * / q) by nra. assert (C2 : 0 < 2 * la * / (q * q)) by nra. assert (C3 : 0 < 2 * la * la * / (q * q)) by nra.
    apply (clim_inf _ _ (2 * la * / q * / Re k + 2 * la * / (q * q) * 2 + (2 * la * la * / (q * q) * / Re k + 2 * / q + 2 * / (q * q) * 2)) 1).
    { assert (0 < 2 * la * / q * / Re k) by nra. assert (0 < 2 * la * la * / (q * q) * / Re k) by nra. nra. }
    intros r P P1. destruct (inv_decay r ltac:(lra)) as (I0 & I1 & I2). pose proof (ex_decay r ltac:(lra)) as E. pose proof (ex_le r ltac:(lra)) as El. pose proof (ex1_le r ltac:(lra)) as E1.
    replace (pr r - RtoC 0)%C with (pr r) by ring.
    assert (A : Cmod (al r) <= (2 * la * / q * / Re k + 2 * la * / (q * q) * 2) / sqrt r).
    { unfold al. eapply Rle_trans; [apply Cmod_triangle|]. rewrite !Cmod_mult, Cm2, Cla, Cmod_ik, Cmod_ikk, Cmod_ir by lra. fold q.
      unfold Rdiv in *. rewrite Rmult_plus_distr_r. apply Rplus_le_compat.
      - rewrite (Rmult_assoc (2 * la * / q)). apply Rmult_le_compat_l; lra.
      - rewrite (Rmult_assoc (2 * la * / (q * q))). apply Rmult_le_compat_l; [lra|]. apply Rmult_le_compat; [apply Cmod_ge_0|lra|lra|lra]. }
    assert (B : Cmod (be r) <= (2 * la * la * / (q * q) * / Re k + 2 * / q + 2 * / (q * q) * 2) / sqrt r).
    { unfold be. eapply Rle_trans; [apply Cmod_triangle|]. eapply Rle_trans; [apply Rplus_le_compat_r, Cmod_triangle|]. rewrite !Cmod_mult, Cm2, Cp2, Cla, Cmod_ik, Cmod_ikk, Cmod_ir by lra. fold q.
      unfold Rdiv in *. rewrite !Rmult_plus_distr_r. apply Rplus_le_compat; [apply Rplus_le_compat|].
      - rewrite (Rmult_assoc (2 * la * la * / (q * q))). apply Rmult_le_compat_l; lra.
      - apply Rmult_le_compat_l; [lra|]. rewrite <- (Rmult_1_l (/ sqrt r)). apply Rmult_le_compat; [apply Cmod_ge_0|lra|lra|lra].
      - rewrite (Rmult_assoc (2 * / (q * q))). apply Rmult_le_compat_l; [lra|]. apply Rmult_le_compat; [apply Cmod_ge_0|nra|lra|]. rewrite <- (Rmult_1_l (/ sqrt r)). apply Rmult_le_compat; lra. }
    unfold pr. eapply Rle_trans; [apply Cmod_triangle|]. rewrite !Cmod_mult, !Cmod_R. pose proof (J0_bound (la * r)). pose proof (J1_bound (la * r)).
    pose proof (Cmod_ge_0 (al r)). pose proof (Cmod_ge_0 (be r)). pose proof (Rabs_pos (bessel0 (la * r))). pose proof (Rabs_pos (bessel1 (la * r))).
    unfold Rdiv in *. rewrite Rmult_plus_distr_r. nra.
  Qed.
  Lemma pr_zero : clim (at_right 0) (pr) (RtoC 0).
  Proof.
    set (q := Cmod k) in *. assert (Q : 0 < / q) by now apply Rinv_0_lt_compat. assert (Q2 : 0 < / (q * q)) by (apply Rinv_0_lt_compat; nra).
    apply (clim_0_small _ _ (36 * la + (14 * la * la * / (q * q) + 36) * la) (Rmin 1 (/ q))).
    { assert (Z0 : 0 < la * la * / (q * q)) by (apply Rmult_lt_0_compat; [nra|exact Q2]). assert (Z1 : 0 < (14 * la * la * / (q * q) + 36) * la) by (apply Rmult_lt_0_compat; lra). lra. }
    { apply Rmin_pos; lra. }
    intros r [P P1]. pose proof (Rmin_l 1 (/ q)). pose proof (Rmin_r 1 (/ q)).
    assert (S2 : r <= sqrt r). { assert (S1 : sqrt r <= 1) by (rewrite <- sqrt_1; apply sqrt_le_1_alt; lra). assert (sqrt r * sqrt r = r) by (apply sqrt_sqrt; lra). pose proof (sqrt_pos r). nra. }
    replace (pr r - RtoC 0)%C with (pr r) by ring.
    assert (U : Cmod (RtoC r * k)%C = r * q) by (rewrite Cmod_mult, Cmod_R, Rabs_right by lra; reflexivity).
    assert (U1 : r * q <= 1). { assert (r * q <= / q * q) by (apply Rmult_le_compat_r; lra). rewrite Rinv_l in H1 by lra. exact H1. }
    pose proof (e0_bound (RtoC r * k)%C ltac:(lra)) as B0. pose proof (e1_bound (RtoC r * k)%C ltac:(lra)) as B1. rewrite U in B0, B1.
    pose proof (rn r P) as N. pose proof (Cmod_ge_0 (e0 (RtoC r * k)%C)) as G0. pose proof (Cmod_ge_0 (e1 (RtoC r * k)%C)) as G1.
    assert (I : 0 < / r) by now apply Rinv_0_lt_compat.
    assert (B1r : Cmod (e1 (RtoC r * k)%C) * / r <= 12 * (q * q) * r). { apply (proj2 (Rle_div_l _ _ r P)). lra. }
    assert (A : Cmod (al r) <= 36 * la * r).
    { replace (al r) with (- RtoC 2 * RtoC la * / k * e0 (RtoC r * k) + - RtoC 2 * RtoC la * / (k * k) * (e1 (RtoC r * k) * / RtoC r))%C by (unfold al, e0, e1; field; split; assumption).
      eapply Rle_trans; [apply Cmod_triangle|]. rewrite !Cmod_mult, Cm2, Cla, Cmod_ik, Cmod_ikk, Cmod_ir by lra. fold q.
      apply Rle_trans with (2 * la * / q * (6 * (r * q)) + 2 * la * / (q * q) * (12 * (q * q) * r)).
      - apply Rplus_le_compat; apply Rmult_le_compat_l; try assumption; nra.
      - right. field. lra. }
    assert (B : Cmod (RtoC r * be r)%C <= (14 * la * la * / (q * q) + 36) * r).
    { replace (RtoC r * be r)%C with (RtoC 2 * RtoC la * RtoC la * / (k * k) * (RtoC r * ex r) + (- RtoC 2 * / k * e0 (RtoC r * k) + - RtoC 2 * / (k * k) * (e1 (RtoC r * k) * / RtoC r)))%C by (unfold be, e0, e1; field; split; assumption).
      eapply Rle_trans; [apply Cmod_triangle|]. eapply Rle_trans; [apply Rplus_le_compat_l, Cmod_triangle|]. rewrite !Cmod_mult, Cm2, Cp2, Cla, Cmod_ik, Cmod_ikk, Cmod_ir, (Cmod_R r), (Rabs_right r) by lra. fold q.
      pose proof (ex_le r ltac:(lra)) as El. pose proof (Cmod_ge_0 (ex r)).
      apply Rle_trans with (2 * la * la * / (q * q) * (r * 1) + (2 * / q * (6 * (r * q)) + 2 * / (q * q) * (12 * (q * q) * r))).
      - apply Rplus_le_compat; [|apply Rplus_le_compat]; apply Rmult_le_compat_l; try assumption; try nra.
      - assert (Z0 : 0 < la * la * / (q * q) * r) by (repeat apply Rmult_lt_0_compat; lra). replace (2 * / q * (6 * (r * q)) + 2 * / (q * q) * (12 * (q * q) * r)) with (36 * r) by (field; lra). lra. }
    unfold pr. eapply Rle_trans; [apply Cmod_triangle|].
    assert (J0 : Cmod (RtoC (bessel0 (la * r))) <= 1) by (rewrite Cmod_R; apply J0_bound).
    assert (J1 : Cmod (RtoC (bessel1 (la * r))) <= la * r) by (rewrite Cmod_R; pose proof (J1_small (la * r)) as Hj; rewrite (Rabs_right (la * r)) in Hj by nra; exact Hj).
    assert (T1 : Cmod (al r * RtoC (bessel0 (la * r)))%C <= 36 * la * r).
    { rewrite Cmod_mult. pose proof (Cmod_ge_0 (al r)). pose proof (Cmod_ge_0 (RtoC (bessel0 (la * r)))). nra. }
    assert (T2 : Cmod (be r * RtoC (bessel1 (la * r)))%C <= (14 * la * la * / (q * q) + 36) * la * r).
    { rewrite Cmod_mult. apply Rle_trans with (Cmod (be r) * (la * r)); [apply Rmult_le_compat_l; [apply Cmod_ge_0|exact J1]|].
      rewrite Cmod_mult, Cmod_R, Rabs_right in B by lra. replace (Cmod (be r) * (la * r)) with (la * (r * Cmod (be r))) by ring.
      replace ((14 * la * la * / (q * q) + 36) * la * r) with (la * ((14 * la * la * / (q * q) + 36) * r)) by ring. apply Rmult_le_compat_l; lra. }
    apply Rle_trans with ((36 * la + (14 * la * la * / (q * q) + 36) * la) * r); [lra|]. apply Rmult_le_compat_l; [|exact S2].
    assert (Z0 : 0 < la * la * / (q * q)) by (apply Rmult_lt_0_compat; [nra|exact Q2]). assert (Z1 : 0 < (14 * la * la * / (q * q) + 36) * la) by (apply Rmult_lt_0_compat; lra). lra.
  Qed.
  Definition refl : C := (- (1 + RtoC 2 * RtoC la * RtoC la * / (k * k) - RtoC 2 * RtoC la * uu k la * / (k * k)))%C.
  Lemma CD_tp_ex r : 0 < r -> exists d, is_cderive tp r d.
  Proof.
    intros P. unfold tp. assert (I : is_cderive (fun r => / RtoC r)%C r (- (/ RtoC r * / RtoC r))%C) by (apply CD_it; lra).
    assert (I2 := CD_mult _ _ _ _ _ I I). assert (I3 := CD_mult _ _ _ _ _ I2 I). assert (I4 := CD_mult _ _ _ _ _ I3 I). cbv beta in *.
    eexists. apply CD_scal, CD_minus; [apply CD_minus; [apply CD_scal, I4|apply CD_scal, I2]|]. apply CD_scal, CD_mult; [apply CD_expline|].
    apply CD_plus; [apply CD_plus|]; [apply CD_scal, I4|apply CD_scal, CD_scal, I3|apply CD_scal, I2].
  Qed.
  Lemma int_tp : is_cint (fun r => - (RtoC r * tp r) * RtoC (bessel1 (la * r)))%C refl.
  Proof.
    assert (F : is_cint (fun r => RtoC 2 * RtoC la * (k * k + RtoC la * RtoC la) * / (k * k) * (ex r * RtoC (bessel0 (la * r)))
     + (RtoC r * tp r - (1 + RtoC 2 * RtoC la * RtoC la * / (k * k)) * / RtoC r) * RtoC (bessel1 (la * r)))%C (RtoC 0 - RtoC 0)%C).
    { apply (cint_FTC pr); [intros t T; now apply CD_pr| |exact pr_zero|exact pr_inf].
      intros t T. destruct (CD_tp_ex t T) as [d D]. eexists. apply CD_plus; [apply CD_scal, CD_mult; [apply CD_expline|apply CD_J0]|].
      apply CD_mult; [|apply CD_J1, T]. apply CD_minus; [apply CD_mult; [apply CD_id|exact D]|apply CD_scal, CD_it; lra]. }
    pose proof (cint_scal (RtoC (-1)) _ _ F) as F1.
    pose proof (cint_scal (RtoC 2 * RtoC la * (k * k + RtoC la * RtoC la) * / (k * k))%C _ _ (laplace_J0 k K la)) as F2.
    pose proof (cint_scal (- (1 + RtoC 2 * RtoC la * RtoC la * / (k * k)))%C _ _ (int_J1_over la L)) as F3.
    pose proof (cint_plus _ _ _ _ (cint_plus _ _ _ _ F1 F2) F3) as G. clear F F1 F2 F3.
    assert (M1 : RtoC (-1) = (- RtoC 1)%C) by (now rewrite <- RtoC_opp).
    replace refl with (RtoC (-1) * (RtoC 0 - RtoC 0) + RtoC 2 * RtoC la * (k * k + RtoC la * RtoC la) * / (k * k) * / uu k la + - (1 + RtoC 2 * RtoC la * RtoC la * / (k * k)) * RtoC 1)%C.
    - eapply cint_ext; [|exact G]. intros r P. cbv beta. rewrite RtoC_div by lra. rewrite M1. pose proof (rn r P) as N. unfold Cdiv. generalize (tp r) (ex r) (RtoC (bessel0 (la * r))) (RtoC (bessel1 (la * r))). generalize dependent (RtoC r). intros x N y e j0 j1. field. split; assumption.
    - unfold refl. pose proof (uu_sq k la) as E. rewrite RtoC_mult in E. rewrite <- E. rewrite M1. field. split; [apply kn|apply uu_nz, K].
  Qed.

  (** *** r tp *)
  Lemma rtp_small r : 0 < r -> r * Cmod k <= 1 -> Cmod (RtoC r * tp r)%C <= (/ 3 * (Cmod k * Cmod k * Cmod k) * r + 672 * (Cmod k * Cmod k)) * r.
  Proof.
    intros P U1. set (q := Cmod k) in *. pose proof (rn r P) as N.
    assert (U : Cmod (RtoC r * k)%C = r * q) by (rewrite Cmod_mult, Cmod_R, Rabs_right by lra; reflexivity).
    pose proof (e3_bound (RtoC r * k)%C ltac:(lra)) as B. rewrite U in B.
    assert (T6 : RtoC 6 = (RtoC 2 * RtoC 3)%C) by (rewrite <- RtoC_mult; f_equal; ring).
    assert (T3 : RtoC 3 = (1 + RtoC 2)%C) by (rewrite <- RtoC_plus; f_equal; ring).
    assert (T2 : RtoC 2 = (1 + 1)%C) by (rewrite <- RtoC_plus; f_equal; ring).
    assert (N2 : RtoC 2 <> RtoC 0) by (apply rn; lra). assert (N3 : RtoC 3 <> RtoC 0) by (apply rn; lra).
    assert (X : (RtoC r * tp r)%C = (- (/ RtoC 3 * (k * k * k) * (RtoC r * RtoC r)) + RtoC 2 * (/ (k * k) * (/ RtoC r * / RtoC r * / RtoC r)) * (e3 (RtoC r * k) * (RtoC 3 + RtoC 3 * (RtoC r * k) + RtoC r * k * (RtoC r * k))))%C).
    { unfold tp, e3, e2. rewrite T6. generalize (ex r). intros e. assert (N6 := Cmult_neq_0 _ _ N2 N3). rewrite T3 in *. rewrite T2 in *. field. split; [exact N6|split; [exact N2|split; [exact N|split; [exact kn|exact N3]]]]. }
    rewrite X. eapply Rle_trans; [apply Cmod_triangle|]. rewrite Cmod_opp.
    assert (W : Cmod (RtoC 3 + RtoC 3 * (RtoC r * k) + RtoC r * k * (RtoC r * k))%C <= 7).
    { eapply Rle_trans; [apply Cmod_triangle|]. eapply Rle_trans; [apply Rplus_le_compat_r, Cmod_triangle|]. rewrite (Cmod_mult (RtoC 3)), (Cmod_mult (RtoC r * k)%C), U, Cmod_R, Rabs_right by lra. assert (0 <= r * q) by nra. assert (r * q * (r * q) <= 1) by nra. lra. }
    rewrite !Cmod_mult, Cmod_ikk, (Cmod_ir r), Cp2, (Cmod_ir 3) by lra. rewrite (Cmod_R r), (Rabs_right r) by lra. fold q.
    assert (Q : 0 < / (q * q)) by (apply Rinv_0_lt_compat; nra). assert (I : 0 < / r) by now apply Rinv_0_lt_compat.
    assert (Z : Cmod (e3 (RtoC r * k)%C) * Cmod (RtoC 3 + RtoC 3 * (RtoC r * k) + RtoC r * k * (RtoC r * k))%C <= 48 * (r * q * (r * q) * (r * q * (r * q))) * 7) by (apply Rmult_le_compat; [apply Cmod_ge_0|apply Cmod_ge_0|exact B|exact W]).
    apply Rle_trans with (/ 3 * (q * q * q) * (r * r) + 2 * (/ (q * q) * (/ r * / r * / r)) * (48 * (r * q * (r * q) * (r * q * (r * q))) * 7)).
    - apply Rplus_le_compat_l. apply Rmult_le_compat_l; [|exact Z]. assert (0 < / r * / r * / r) by (repeat apply Rmult_lt_0_compat; exact I). nra.
    - right. field. split; lra.
  Qed.
  Lemma rtp_zero : clim (at_right 0) (fun r => RtoC r * tp r * RtoC (bessel0 (la * r)))%C (RtoC 0).
  Proof.
    set (q := Cmod k) in *. assert (Q : 0 < / q) by now apply Rinv_0_lt_compat.
    apply (clim_0_small _ _ (/ 3 * (q * q * q) + 672 * (q * q)) (Rmin 1 (/ q))).
    { assert (0 < q * q) by nra. assert (0 < q * q * q) by nra. lra. }
    { apply Rmin_pos; lra. }
    intros r [P P1]. pose proof (Rmin_l 1 (/ q)). pose proof (Rmin_r 1 (/ q)).
    assert (S2 : r <= sqrt r). { assert (S1 : sqrt r <= 1) by (rewrite <- sqrt_1; apply sqrt_le_1_alt; lra). assert (sqrt r * sqrt r = r) by (apply sqrt_sqrt; lra). pose proof (sqrt_pos r). nra. }
    assert (U1 : r * q <= 1). { assert (r * q <= / q * q) by (apply Rmult_le_compat_r; lra). rewrite Rinv_l in H1 by lra. exact H1. }
    pose proof (rtp_small r P U1) as B. fold q in B.
    replace (RtoC r * tp r * RtoC (bessel0 (la * r)) - RtoC 0)%C with (RtoC r * tp r * RtoC (bessel0 (la * r)))%C by ring.
    rewrite Cmod_mult, (Cmod_R (bessel0 _)). pose proof (J0_bound (la * r)). pose proof (Rabs_pos (bessel0 (la * r))). pose proof (Cmod_ge_0 (RtoC r * tp r)%C).
    assert (0 < q * q) by nra. assert (0 < q * q * q) by nra.
    assert (Cmod (RtoC r * tp r)%C <= (/ 3 * (q * q * q) + 672 * (q * q)) * r). { eapply Rle_trans; [exact B|]. apply Rmult_le_compat_r; [lra|]. nra. }
    assert ((/ 3 * (q * q * q) + 672 * (q * q)) * r <= (/ 3 * (q * q * q) + 672 * (q * q)) * sqrt r) by (apply Rmult_le_compat_l; lra). nra.
  Qed.
  Lemma rtp_inf : clim inf (fun r => RtoC r * tp r * RtoC (bessel0 (la * r)))%C (RtoC 0).
  Proof.
    set (q := Cmod k) in *. assert (Q2 : 0 < / (q * q)) by (apply Rinv_0_lt_compat; nra).
    apply (clim_inf _ _ (/ (q * q) * (6 + q * q + 2 * (3 + 3 * q + q * q))) 1); [nra|].
    intros r P P1. destruct (inv_decay r ltac:(lra)) as (I0 & I1 & I2). pose proof (ex_le r ltac:(lra)) as El. pose proof (rn r P) as N.
    replace (RtoC r * tp r * RtoC (bessel0 (la * r)) - RtoC 0)%C with (RtoC r * tp r * RtoC (bessel0 (la * r)))%C by ring.
    rewrite Cmod_mult, (Cmod_R (bessel0 _)). pose proof (J0_bound (la * r)). pose proof (Rabs_pos (bessel0 (la * r))). pose proof (Cmod_ge_0 (RtoC r * tp r)%C).
    assert (B : Cmod (RtoC r * tp r)%C <= / (q * q) * (6 + q * q + 2 * (3 + 3 * q + q * q)) * / r).
    { replace (RtoC r * tp r)%C with (- / (k * k) * (RtoC 6 * (/ RtoC r * / RtoC r) - k * k - RtoC 2 * (ex r * (RtoC 3 * (/ RtoC r * / RtoC r) + RtoC 3 * (k * / RtoC r) + k * k))) * / RtoC r)%C.
      2:{ unfold tp. field. split; assumption. }
      rewrite !Cmod_mult, Cmod_opp, Cmod_ikk, Cmod_ir by lra. fold q. apply Rmult_le_compat_r; [lra|]. apply Rmult_le_compat_l; [lra|].
      eapply Rle_trans; [apply Cmod_triangle|]. rewrite Cmod_opp. eapply Rle_trans; [apply Rplus_le_compat_r, Cmod_triangle|]. rewrite Cmod_opp, !Cmod_mult, Cp2, Cmod_ir, !Cmod_R by lra. rewrite (Rabs_right 6) by lra. fold q.
      assert (J : / r * / r <= 1) by nra. assert (J0 : 0 <= / r * / r) by nra.
      apply Rplus_le_compat; [apply Rplus_le_compat_r; lra|]. apply Rmult_le_compat_l; [lra|].
      assert (W : Cmod (RtoC 3 * (/ RtoC r * / RtoC r) + RtoC 3 * (k * / RtoC r) + k * k)%C <= 3 + 3 * q + q * q).
      { eapply Rle_trans; [apply Cmod_triangle|]. eapply Rle_trans; [apply Rplus_le_compat_r, Cmod_triangle|]. rewrite !Cmod_mult, Cmod_ir, !Cmod_R by lra. rewrite (Rabs_right 3) by lra. fold q. nra. }
      pose proof (Cmod_ge_0 (RtoC 3 * (/ RtoC r * / RtoC r) + RtoC 3 * (k * / RtoC r) + k * k)%C). pose proof (Cmod_ge_0 (ex r)). nra. }
    assert (0 < / (q * q) * (6 + q * q + 2 * (3 + 3 * q + q * q))) by (apply Rmult_lt_0_compat; nra).
    unfold Rdiv. assert (/ (q * q) * (6 + q * q + 2 * (3 + 3 * q + q * q)) * / r <= / (q * q) * (6 + q * q + 2 * (3 + 3 * q + q * q)) * / sqrt r) by (apply Rmult_le_compat_l; lra). nra.
  Qed.
  Lemma int_dtp dtp : (forall r, 0 < r -> is_cderive tp r (dtp r)) -> (forall r, 0 < r -> exists d, is_cderive dtp r d) ->
    is_cint (fun r => - (dtp r + tp r * / RtoC r) * RtoC r * RtoC (bessel0 (la * r)))%C (RtoC la * refl)%C.
  Proof.
    intros D DD.
    assert (F : is_cint (fun r => (1 * tp r + RtoC r * dtp r) * RtoC (bessel0 (la * r)) + RtoC r * tp r * - (RtoC la * RtoC (bessel1 (la * r))))%C (RtoC 0 - RtoC 0)%C).
    { apply (cint_FTC (fun r => RtoC r * tp r * RtoC (bessel0 (la * r)))%C); [| |exact rtp_zero|exact rtp_inf].
      - intros t T. apply (CD_mult (fun r => RtoC r * tp r)%C (fun r => RtoC (bessel0 (la * r)))); [apply (CD_mult (fun r => RtoC r) tp); [apply CD_id|now apply D]|apply CD_J0].
      - intros t T. destruct (DD t T) as [d Hd]. eexists. apply CD_plus.
        + apply (CD_mult (fun r => 1 * tp r + RtoC r * dtp r)%C (fun r => RtoC (bessel0 (la * r)))); [apply CD_plus; [apply CD_scal, D, T|apply (CD_mult (fun r => RtoC r) dtp); [apply CD_id|exact Hd]]|apply CD_J0].
        + apply (CD_mult (fun r => RtoC r * tp r)%C (fun r => - (RtoC la * RtoC (bessel1 (la * r))))%C); [apply (CD_mult (fun r => RtoC r) tp); [apply CD_id|apply D, T]|apply CD_opp, CD_scal, CD_J1, T]. }
    pose proof (cint_plus _ _ _ _ (cint_scal (RtoC (-1)) _ _ F) (cint_scal (RtoC la) _ _ int_tp)) as G.
    assert (M1 : RtoC (-1) = (- RtoC 1)%C) by (now rewrite <- RtoC_opp).
    replace (RtoC la * refl)%C with (RtoC (-1) * (RtoC 0 - RtoC 0) + RtoC la * refl)%C by ring.
    eapply cint_ext; [|exact G]. intros r P. cbv beta. rewrite M1. pose proof (rn r P). field. assumption.
  Qed.
  End Lam.
End Half.
