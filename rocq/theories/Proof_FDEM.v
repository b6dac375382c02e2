(** Proofs about the harmonic whole-space sources (C57-C63). *)
From Coq Require Import Reals Lra List.
From Coquelicot Require Import Coquelicot.
From Verif Require Import Vec3 Calculus Deriv Cplx Radial Numpy Model_Static Model_FDEM Proof_Static2.
Open Scope R_scope.

Lemma C2 : RtoC 2 = (1 + 1)%C. Proof. ceq; ring. Qed.
Lemma C3 : RtoC 3 = (1 + 1 + 1)%C. Proof. ceq; ring. Qed.
Lemma C4 : RtoC 4 = (1 + 1 + 1 + 1)%C. Proof. ceq; ring. Qed.
Lemma C5 : RtoC 5 = (1 + 1 + 1 + 1 + 1)%C. Proof. ceq; ring. Qed.
Lemma C9 : RtoC 9 = ((1 + 1 + 1) * (1 + 1 + 1))%C. Proof. ceq; ring. Qed.
Lemma C12 : RtoC 12 = ((1 + 1 + 1) * (1 + 1 + 1 + 1))%C. Proof. ceq; ring. Qed.
Lemma Cm1 : RtoC (-1) = (- (1))%C. Proof. ceq; ring. Qed.
Lemma Cm2 : RtoC (-2) = (- (1 + 1))%C. Proof. ceq; ring. Qed.
Lemma Ci2 : (Ci * Ci)%C = (- (1))%C. Proof. ceq; ring. Qed.
Ltac cnum := rewrite ?C2, ?C3, ?C4, ?C5, ?C9, ?C12, ?Cm1, ?Cm2; cbn [cpow].

Lemma RtoC_neq r : r <> 0 -> RtoC r <> RtoC 0.
Proof. intros H E. apply H. exact (RtoC_inj _ _ E). Qed.

(** ** the wavenumber *)
Lemma wavenumber_sq f sg mu e q :
  (wavenumber f sg mu e q * wavenumber f sg mu e q)%C = (- Ci * omega f * mu * sigma_hat f sg e q)%C.
Proof.
  unfold wavenumber, sigma_hat. destruct (is_True q); rewrite csqrt_sq.
  - reflexivity.
  - ceq; ring.
Qed.

Lemma omega_pos f : 0 < f -> 0 < omega f.
Proof. intro. unfold omega. pose proof PI_RGT_0. nra. Qed.

Lemma wavenumber_branch f sg mu e q : 0 < f -> 0 < sg -> 0 < mu ->
  0 < Re (wavenumber f sg mu e q) /\ Im (wavenumber f sg mu e q) < 0.
Proof.
  intros F S M. pose proof (omega_pos f F) as W.
  assert (X : 0 < omega f * mu * sg) by (apply Rmult_lt_0_compat; [apply Rmult_lt_0_compat|]; assumption).
  unfold wavenumber. destruct (is_True q); apply csqrt_lower; simpl; nra.
Qed.

Lemma sigma_hat_true f sg e : sigma_hat f sg e PyTrue = RtoC sg.
Proof. reflexivity. Qed.

(** ** radial profiles *)
Definition pA (c u : C) (t : R) : C := (c * / RtoC t * cexp (- (u * t)))%C.
Definition pH (c u : C) (t : R) : C := (c * (/ RtoC t * / RtoC t * / RtoC t) * ((u * t + 1) * cexp (- (u * t))))%C.
Definition pE0 (c u : C) (t : R) : C :=
  (c * (/ RtoC t * / RtoC t * / RtoC t) * ((- (u * t * (u * t)) - u * t - 1) * cexp (- (u * t))))%C.
Definition pE1 (c u : C) (t : R) : C :=
  (c * (/ RtoC t * / RtoC t * / RtoC t * / RtoC t * / RtoC t) * ((u * t * (u * t) + 3 * (u * t) + 3) * cexp (- (u * t))))%C.

Lemma CD_ut u (x : R) : is_cderive (fun t => u * RtoC t)%C x u.
Proof. eapply is_cderive_eq; [apply CD_scal, CD_id|]. ring. Qed.
Lemma CD_eut u (x : R) : is_cderive (fun t => cexp (- (u * RtoC t)))%C x (- u * cexp (- (u * x)))%C.
Proof. apply (CD_exp (fun t => - (u * RtoC t))%C). apply CD_opp, CD_ut. Qed.
Lemma CD_it (x : R) : x <> 0 -> is_cderive (fun t => / RtoC t)%C x (- (/ RtoC x * / RtoC x))%C.
Proof.
  intro H. eapply is_cderive_eq; [apply CD_inv; [apply CD_id|apply RtoC_neq, H]|].
  field. apply RtoC_neq, H.
Qed.

Ltac cder :=
  lazymatch goal with
  | |- is_cderive (fun _ => ?c) ?x _ => apply (CD_const c x)
  | |- is_cderive (fun t => RtoC t * RtoC t)%C ?x _ => apply (CD_mult (fun t => RtoC t) (fun t => RtoC t) x); cder
  | |- is_cderive (fun t => ?u * RtoC t)%C ?x _ => apply (CD_ut u x)
  | |- is_cderive (fun t => cexp (- (?u * RtoC t)))%C ?x _ => apply (CD_eut u x)
  | |- is_cderive (fun t => RtoC t) ?x _ => apply (CD_id x)
  | |- is_cderive (fun t => / RtoC t)%C ?x _ => apply (CD_it x)
  | |- is_cderive (fun t => @?f t + @?g t)%C ?x _ => apply (CD_plus f g x); cder
  | |- is_cderive (fun t => @?f t - @?g t)%C ?x _ => apply (CD_minus f g x); cder
  | |- is_cderive (fun t => @?f t * @?g t)%C ?x _ => apply (CD_mult f g x); cder
  | |- is_cderive (fun t => - @?f t)%C ?x _ => apply (CD_opp f x); cder
  | |- _ => idtac
  end.

Ltac cfin r E := cbv beta; cnum; set (E := cexp _); generalize E; intro; field; apply RtoC_neq; lra.

Lemma D_pA c u r : 0 < r -> is_cderive (pA c u) r (- (r * pH c u r))%C.
Proof.
  intro H. unfold pA, pH. eapply is_cderive_eq; [cder; lra|]. cfin r E.
Qed.

(** H = h(r) n x R is c curl of the profile of E *)
Definition dH (c u : C) (r : R) : C :=
  (- c * (/ RtoC r * / RtoC r * / RtoC r * / RtoC r) * ((u * r * (u * r) + 3 * (u * r) + 3) * cexp (- (u * r))))%C.
Lemma D_pH c u r : 0 < r -> is_cderive (pH c u) r (dH c u r).
Proof.
  intro H. unfold pH, dH. eapply is_cderive_eq; [cder; lra|]. cfin r E.
Qed.

Definition dE0 (c u : C) (r : R) : C :=
  (c * (/ RtoC r * / RtoC r * / RtoC r * / RtoC r)
   * ((u * r * (u * r) * (u * r) + 2 * (u * r * (u * r)) + 3 * (u * r) + 3) * cexp (- (u * r))))%C.
Lemma D_pE0 c u r : 0 < r -> is_cderive (pE0 c u) r (dE0 c u r).
Proof.
  intro H. unfold pE0, dE0. eapply is_cderive_eq; [cder; lra|]. cfin r E.
Qed.

Definition dE1 (c u : C) (r : R) : C :=
  (- c * (/ RtoC r * / RtoC r * / RtoC r * / RtoC r * / RtoC r * / RtoC r)
   * ((u * r * (u * r) * (u * r) + 6 * (u * r * (u * r)) + 15 * (u * r) + 15) * cexp (- (u * r))))%C.
Lemma D_pE1 c u r : 0 < r -> is_cderive (pE1 c u) r (dE1 c u r).
Proof.
  intro H. unfold pE1, dE1. eapply is_cderive_eq; [cder; lra|].
  assert (C6 : RtoC 6 = (1 + 1 + 1 + 1 + 1 + 1)%C) by (ceq; ring).
  assert (C15 : RtoC 15 = ((1 + 1 + 1) * (1 + 1 + 1 + 1 + 1))%C) by (ceq; ring).
  rewrite C6, C15. cfin r E.
Qed.

(** ** the dipole of vector potential pA: three first-order relations *)
Section Dipole.
  Variables (c u : C) (n q : vec3).
  Hypothesis Hq : q <> vzero.
  Let r := vnorm q.

  Lemma curl_pA : is_ccurl (crfield (pA c u) (fun _ => RtoC 0) n) q (cxfield (pH c u) n q).
  Proof.
    pose proof (vnorm_pos _ Hq) as Hp. fold r in Hp.
    eapply is_ccurl_ext; [reflexivity| |exact (crfield_curl _ _ _ _ n q Hq (D_pA c u _ Hp) (CD_const _ _))].
    unfold cxfield. fold r. generalize (pH c u r). intro h.
    assert (RtoC r <> RtoC 0) by (apply RtoC_neq; lra).
    replace (- (r * h) / r - 0)%C with (- h)%C by (field; assumption).
    unfold cvof, vcross. apply cvec_eq; simpl; rewrite !RtoC_minus, !RtoC_mult; ring.
  Qed.

  Lemma curl_pH : is_ccurl (cxfield (pH c u) n) q (crfield (pE0 c u) (pE1 c u) n q).
  Proof.
    pose proof (vnorm_pos _ Hq) as Hp. fold r in Hp.
    eapply is_ccurl_ext; [reflexivity| |exact (cxfield_curl _ _ n q Hq (D_pH c u _ Hp))].
    unfold crfield. fold r. f_equal; f_equal.
    - unfold dH, pH, pE0. cfin r E.
    - f_equal. unfold dH, pE1. cfin r E.
  Qed.

  Lemma curl_pE : is_ccurl (crfield (pE0 c u) (pE1 c u) n) q (cvscal (- (u * u))%C (cxfield (pH c u) n q)).
  Proof.
    pose proof (vnorm_pos _ Hq) as Hp. fold r in Hp.
    eapply is_ccurl_ext; [reflexivity| |exact (crfield_curl _ _ _ _ n q Hq (D_pE0 c u _ Hp) (D_pE1 c u _ Hp))].
    unfold cxfield. fold r.
    replace (dE0 c u r / r - pE1 c u r)%C with (u * u * pH c u r)%C.
    - unfold cvof, cvscal, vcross. apply cvec_eq; simpl; rewrite !RtoC_minus, !RtoC_mult; ring.
    - unfold dE0, pE1, pH. cfin r E.
  Qed.

  Lemma div_pH : is_cdiv (cxfield (pH c u) n) q (RtoC 0).
  Proof.
    pose proof (vnorm_pos _ Hq) as Hp. exact (cxfield_div _ _ n q Hq (D_pH c u _ Hp)).
  Qed.

  Lemma div_pE : is_cdiv (crfield (pE0 c u) (pE1 c u) n) q (RtoC 0).
  Proof.
    pose proof (vnorm_pos _ Hq) as Hp. fold r in Hp.
    eapply is_cdiv_ext; [reflexivity| |exact (crfield_div _ _ _ _ n q Hq (D_pE0 c u _ Hp) (D_pE1 c u _ Hp))].
    fold r. match goal with |- (?a * _)%C = _ => replace a with (RtoC 0) end; [ring|].
    unfold dE0, dE1, pE1.
    assert (C6 : RtoC 6 = (1 + 1 + 1 + 1 + 1 + 1)%C) by (ceq; ring).
    assert (C15 : RtoC 15 = ((1 + 1 + 1) * (1 + 1 + 1 + 1 + 1))%C) by (ceq; ring).
    rewrite C6, C15. cfin r E.
  Qed.
End Dipole.
