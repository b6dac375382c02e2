(** How far the layered reflection coefficient sees into the ground *)
From Coq Require Import Reals List Lia Lra Psatz.
From Coquelicot Require Import Coquelicot.
From Verif Require Import Calculus Cplx Deriv Proof_FDEM Numpy Model_RTE Proof_RTE Proof_RTE2 Proof_RTE6 Proof_RTE7 Proof_RTE8 Proof_RTE11 Spec_RTE.
Import ListNotations.
Open Scope R_scope.

Lemma nondec_on (f df : R -> R) a b : a <= b -> (forall x, a <= x <= b -> is_derive f x (df x)) ->
  (forall x, a <= x <= b -> 0 <= df x) -> f a <= f b.
Proof.
  intros H D P. destruct (MVT_gen f a b df) as (c & Hc & E).
  - intros x Hx. rewrite Rmin_left, Rmax_right in Hx by assumption. apply D. lra.
  - intros x Hx. rewrite Rmin_left, Rmax_right in Hx by assumption.
    apply continuity_pt_filterlim. apply (ex_derive_continuous f x). exists (df x). apply D. assumption.
  - rewrite Rmin_left, Rmax_right in Hc by assumption. specialize (P c Hc). nra.
Qed.

(** ** e'' = (lamb^2 + i al) e, in real and imaginary parts *)
Section Wave2.
  Variables (lamb al : R) (er ei dr di : R -> R).
  Hypothesis Pl : 0 < lamb.
  Hypothesis Pa : 0 <= al.
  Hypothesis Der : forall x, is_derive er x (dr x).
  Hypothesis Dei : forall x, is_derive ei x (di x).
  Hypothesis Ddr : forall x, is_derive dr x (lamb ^ 2 * er x - al * ei x).
  Hypothesis Ddi : forall x, is_derive di x (lamb ^ 2 * ei x + al * er x).
  Hypothesis E0r : er 0 = 1.
  Hypothesis E0i : ei 0 = 0.
  Hypothesis B0r : lamb <= dr 0.
  Hypothesis B0i : 0 <= di 0.

  Ltac dd := lazymatch goal with
    | |- is_derive er _ _ => apply Der | |- is_derive ei _ _ => apply Dei
    | |- is_derive dr _ _ => apply Ddr | |- is_derive di _ _ => apply Ddi
    | |- is_derive (fun t => er t) _ _ => apply Der | |- is_derive (fun t => ei t) _ _ => apply Dei
    | |- is_derive (fun t => dr t) _ _ => apply Ddr | |- is_derive (fun t => di t) _ _ => apply Ddi
    | |- is_derive (fun t => lamb * _) _ _ => eapply D_scal; dd
    | |- is_derive (fun t => ?m ^ 2 * _) _ _ => eapply D_scal; dd
    | |- is_derive (fun t => _ + _) _ _ => eapply D_plus; dd
    | |- is_derive (fun t => _ - _) _ _ => eapply D_minus; dd
    | |- is_derive (fun t => _ * _) _ _ => eapply D_mult; dd
    end.

  (** the flux never points up *)
  Lemma flux_im h : 0 <= h -> 0 <= di h * er h - dr h * ei h.
  Proof.
    intros H.
    assert (K := nondec_on (fun x => di x * er x - dr x * ei x) (fun x => al * (er x ^ 2 + ei x ^ 2)) 0 h H).
    cbv beta in K. rewrite E0r, E0i in K. assert (0 <= al * (er h ^ 2 + ei h ^ 2)) by nra.
    enough (di 0 * 1 - dr 0 * 0 <= di h * er h - dr h * ei h) by lra.
    apply K.
    - intros x _. eapply is_derive_eq; [dd|]. cbv beta; ring.
    - intros x _. pose proof (pow2_ge_0 (er x)). pose proof (pow2_ge_0 (ei x)). nra.
  Qed.
  Lemma flux_re h : 0 <= h -> 0 <= dr h * er h + di h * ei h - lamb * (er h * er h + ei h * ei h).
  Proof.
    intros H.
    assert (K := nondec_on (fun x => dr x * er x + di x * ei x - lamb * (er x * er x + ei x * ei x)) (fun x => (dr x - lamb * er x) ^ 2 + (di x - lamb * ei x) ^ 2) 0 h H).
    cbv beta in K. rewrite E0r, E0i in K.
    enough (dr 0 * 1 + di 0 * 0 - lamb * (1 * 1 + 0 * 0) <= dr h * er h + di h * ei h - lamb * (er h * er h + ei h * ei h)) by lra.
    apply K.
    - intros x _. eapply is_derive_eq; [dd|]. cbv beta; ring.
    - intros x _. pose proof (pow2_ge_0 (dr x - lamb * er x)). pose proof (pow2_ge_0 (di x - lamb * ei x)). lra.
  Qed.
  Definition ysq x := (lamb * er x + dr x) ^ 2 + (lamb * ei x + di x) ^ 2.
  Definition xsq x := (lamb * er x - dr x) ^ 2 + (lamb * ei x - di x) ^ 2.
  Lemma D_exp2 x : is_derive (fun x => exp (- (2 * lamb) * x)) x (- (2 * lamb) * exp (- (2 * lamb) * x)).
  Proof. auto_derive; [exact Logic.I|ring]. Qed.
  Lemma growth h : 0 <= h -> exp (2 * lamb * h) * ysq 0 <= ysq h.
  Proof.
    intros H.
    assert (K := nondec_on (fun x => exp (- (2 * lamb) * x) * ((lamb * er x + dr x) * (lamb * er x + dr x) + (lamb * ei x + di x) * (lamb * ei x + di x)))
      (fun x => exp (- (2 * lamb) * x) * (2 * al * (di x * er x - dr x * ei x))) 0 h H). cbv beta in K.
    assert (G : exp (- (2 * lamb) * 0) * ysq 0 <= exp (- (2 * lamb) * h) * ysq h).
    { unfold ysq. rewrite <- !Rsqr_pow2. unfold Rsqr. apply K.
      - intros x _. eapply is_derive_eq; [eapply D_mult; [apply D_exp2|dd]|]. cbv beta; ring.
      - intros x Hx. pose proof (flux_im x ltac:(lra)). pose proof (exp_pos (- (2 * lamb) * x)). apply Rmult_le_pos; [lra|]. nra. }
    replace (- (2 * lamb) * 0) with 0 in G by ring. rewrite exp_0, Rmult_1_l in G.
    apply (Rmult_le_compat_l (exp (2 * lamb * h))) in G; [|left; apply exp_pos].
    rewrite <- Rmult_assoc, <- exp_plus in G. replace (2 * lamb * h + - (2 * lamb) * h) with 0 in G by ring. rewrite exp_0, Rmult_1_l in G. exact G.
  Qed.
  Lemma contained h : 0 <= h -> 4 * lamb ^ 2 * (er h ^ 2 + ei h ^ 2) <= ysq h.
  Proof.
    intros H. pose proof (flux_re h H) as K. unfold ysq.
    pose proof (pow2_ge_0 (dr h - lamb * er h)). pose proof (pow2_ge_0 (di h - lamb * ei h)). nra.
  Qed.
  Lemma small m h : 0 <= m -> al <= 4 * lamb ^ 2 * m -> xsq 0 <= m ^ 2 * ysq 0 -> 0 <= h -> xsq h <= m ^ 2 * ysq h.
  Proof.
    intros Pm Am I0 H.
    assert (K := nondec_on (fun x => m ^ 2 * ((lamb * er x + dr x) * (lamb * er x + dr x) + (lamb * ei x + di x) * (lamb * ei x + di x))
        - ((lamb * er x - dr x) * (lamb * er x - dr x) + (lamb * ei x - di x) * (lamb * ei x - di x)))
      (fun x => 2 * lamb * m ^ 2 * ysq x + 2 * m ^ 2 * al * (di x * er x - dr x * ei x) + 2 * lamb * xsq x
         + 2 * al * (er x * (lamb * ei x - di x) - ei x * (lamb * er x - dr x))) 0 h H). cbv beta in K.
    enough (m ^ 2 * ysq 0 - xsq 0 <= m ^ 2 * ysq h - xsq h) by lra.
    match type of K with _ -> _ -> ?c => enough (G : c) by (unfold ysq, xsq; lra) end. apply K.
    - intros x _. eapply is_derive_eq; [dd|]. unfold ysq, xsq; cbv beta; ring.
    - intros x Hx. pose proof (flux_im x ltac:(lra)) as F. pose proof (contained x ltac:(lra)) as Cn.
      assert (Q1 : 0 <= ysq x) by (apply Rplus_le_le_0_compat; apply pow2_ge_0). assert (Q2 : 0 <= xsq x) by (apply Rplus_le_le_0_compat; apply pow2_ge_0).
      set (y := sqrt (ysq x)). set (z := sqrt (xsq x)).
      assert (Ey : y * y = ysq x) by (apply sqrt_sqrt; assumption). assert (Ez : z * z = xsq x) by (apply sqrt_sqrt; assumption).
      assert (Py : 0 <= y) by apply sqrt_pos. assert (Pz : 0 <= z) by apply sqrt_pos.
      set (X := er x * (lamb * ei x - di x) - ei x * (lamb * er x - dr x)).
      assert (BX : (2 * lamb * X) ^ 2 <= (y * z) ^ 2).
      { replace ((y * z) ^ 2) with (ysq x * xsq x) by (rewrite <- Ey, <- Ez; ring).
        apply Rle_trans with (4 * lamb ^ 2 * (er x ^ 2 + ei x ^ 2) * xsq x).
        - unfold X, xsq. pose proof (pow2_ge_0 (er x * (lamb * er x - dr x) + ei x * (lamb * ei x - di x))). nra.
        - apply Rmult_le_compat_r; assumption. }
      assert (BX' : - (y * z) <= 2 * lamb * X).
      { assert (0 <= y * z) by (apply Rmult_le_pos; assumption). apply Rnot_lt_le. intros L. nra. }
      assert (BX2 : - (4 * lamb * m * (y * z)) <= 2 * al * X).
      { assert (0 <= y * z) by (apply Rmult_le_pos; assumption).
        apply Rmult_le_reg_r with lamb; [assumption|].
        assert (- (al * (y * z)) <= al * (2 * lamb * X)) by nra.
        assert (al * (y * z) <= 4 * lamb ^ 2 * m * (y * z)) by (apply Rmult_le_compat_r; assumption).
        nra. }
      rewrite <- Ey, <- Ez. fold X.
      assert (0 <= 2 * (m * m) * al * (di x * er x - dr x * ei x)) by (apply Rmult_le_pos; [nra|assumption]).
      assert (0 <= 2 * lamb * ((m * y - z) * (m * y - z))) by (apply Rmult_le_pos; [lra|apply Rle_0_sqr]).
      nra.
  Qed.
End Wave2.

(** ** one layer *)
Lemma C2_eq : RtoC 2 = (RtoC 1 + RtoC 1)%C.
Proof. rewrite <- RtoC_plus. f_equal; try ring. Qed.
Definition slab (u V : C) (h : R) : C := (u * (V + u * ctanh (u * RtoC h)) / (u + V * ctanh (u * RtoC h)))%C.
Definition rho (lamb : R) (V : C) : C := ((RtoC lamb - V) / (RtoC lamb + V))%C.
Definition inq (lamb : R) (V : C) : Prop := lamb <= Re V /\ 0 <= Im V.

Lemma inq_neq lamb V : 0 < lamb -> inq lamb V -> (RtoC lamb + V)%C <> RtoC 0.
Proof. intros Pl [A B] E. apply (f_equal Re) in E. revert E. reim. lra. Qed.
Lemma Cmod_sq_le a b : Re a * Re a + Im a * Im a <= Re b * Re b + Im b * Im b -> Cmod a <= Cmod b.
Proof. intros H. rewrite <- !Cmod_sqr in H. pose proof (Cmod_ge_0 a). pose proof (Cmod_ge_0 b). nra. Qed.
Lemma Cmod_div_le a b m : b <> RtoC 0 -> Cmod a <= m * Cmod b -> Cmod (a / b)%C <= m.
Proof.
  intros N H. rewrite Cmod_div by exact N. assert (P : 0 < Cmod b) by (apply Cmod_gt_0; exact N).
  apply (Rmult_le_reg_r _ _ _ P). unfold Rdiv. rewrite Rmult_assoc, Rinv_l, Rmult_1_r by lra. exact H.
Qed.

Lemma Cinv_neq z : z <> RtoC 0 -> (/ z)%C <> RtoC 0.
Proof. intros N E. assert (K := Cinv_r z N). rewrite E in K. apply (f_equal Re) in K. revert K. reim. lra. Qed.

Section Layer.
  Variables (lamb al : R) (u : C).
  Hypothesis Pl : 0 < lamb.
  Hypothesis Pa : 0 <= al.
  Hypothesis Usq : (u * u)%C = (lamb ^ 2, al).
  Hypothesis Pu : 0 < Re u.

  Definition ee (V : C) (x : R) : C := (((u + V) * cexp (u * RtoC x) + (u - V) * cexp (- (u * RtoC x))) / (RtoC 2 * u))%C.
  Definition de (V : C) (x : R) : C := (((u + V) * cexp (u * RtoC x) - (u - V) * cexp (- (u * RtoC x))) / RtoC 2)%C.
  Lemma u_neq : u <> RtoC 0.
  Proof. intros E. rewrite E in Pu. cbn in Pu. lra. Qed.
  Lemma D_ee V x : is_cderive (ee V) x (de V x).
  Proof.
    pose proof u_neq as N. pose proof C2_neq as N2.
    apply is_cderive_ext with (fun x => / (RtoC 2 * u) * ((u + V) * cexp (u * RtoC x) + (u - V) * cexp (- (u * RtoC x))))%C.
    { intros t. unfold ee, Cdiv. ring. }
    eapply is_cderive_eq.
    - apply CD_scal. apply CD_plus; apply CD_scal; [apply D_ep|apply D_em].
    - unfold de. field. split; assumption.
  Qed.
  Lemma D_de V x : is_cderive (de V) x (u * u * ee V x)%C.
  Proof.
    pose proof u_neq as N. pose proof C2_neq as N2.
    apply is_cderive_ext with (fun x => / RtoC 2 * ((u + V) * cexp (u * RtoC x) - (u - V) * cexp (- (u * RtoC x))))%C.
    { intros t. unfold de, Cdiv. ring. }
    eapply is_cderive_eq.
    - apply CD_scal. apply CD_minus; apply CD_scal; [apply D_ep|apply D_em].
    - unfold ee. field. split; assumption.
  Qed.
  Lemma ee_0 V : ee V 0 = RtoC 1.
  Proof.
    pose proof u_neq as N. pose proof C2_neq as N2. unfold ee.
    replace (- (u * RtoC 0))%C with (RtoC 0) by ring. replace (u * RtoC 0)%C with (RtoC 0) by ring. rewrite cexp_0.
    replace ((u + V) * RtoC 1 + (u - V) * RtoC 1)%C with (RtoC 2 * u)%C by (rewrite C2_eq; ring). unfold Cdiv. apply Cinv_r. apply Cmult_neq; assumption.
  Qed.
  Lemma de_0 V : de V 0 = V.
  Proof.
    pose proof C2_neq as N2. unfold de.
    replace (- (u * RtoC 0))%C with (RtoC 0) by ring. replace (u * RtoC 0)%C with (RtoC 0) by ring. rewrite cexp_0. rewrite C2_eq in *. field. exact N2.
  Qed.
  Lemma wronskian Va Vb x : (ee Va x * de Vb x - de Va x * ee Vb x)%C = (Vb - Va)%C.
  Proof.
    pose proof u_neq as N. pose proof C2_neq as N2. unfold ee, de.
    pose proof (epm u x) as E. set (p := cexp (u * RtoC x)%C) in *. set (q := cexp (- (u * RtoC x))%C) in *.
    transitivity ((Vb - Va) * (p * q))%C; [|rewrite E; ring]. rewrite C2_eq in *. field. split; assumption.
  Qed.
  (** real and imaginary parts *)
  Section Parts.
    Variable V : C.
    Hypothesis HV : inq lamb V.
    Let er x := Re (ee V x). Let ei x := Im (ee V x). Let dr x := Re (de V x). Let di x := Im (de V x).
    Lemma P1 x : is_derive er x (dr x). Proof. apply (D_ee V x). Qed.
    Lemma P2 x : is_derive ei x (di x). Proof. apply (D_ee V x). Qed.
    Lemma P3 x : is_derive dr x (lamb ^ 2 * er x - al * ei x).
    Proof. eapply is_derive_eq; [apply (D_de V x)|]. rewrite Usq. reim. reflexivity. Qed.
    Lemma P4 x : is_derive di x (lamb ^ 2 * ei x + al * er x).
    Proof. eapply is_derive_eq; [apply (D_de V x)|]. rewrite Usq. reim. reflexivity. Qed.
    Lemma I1 : er 0 = 1. Proof. unfold er. rewrite ee_0. reflexivity. Qed.
    Lemma I2 : ei 0 = 0. Proof. unfold ei. rewrite ee_0. reflexivity. Qed.
    Lemma I3 : lamb <= dr 0. Proof. unfold dr. rewrite de_0. apply HV. Qed.
    Lemma I4 : 0 <= di 0. Proof. unfold di. rewrite de_0. apply HV. Qed.
    Definition L_im := flux_im lamb al er ei dr di Pa P1 P2 P3 P4 I1 I2 I4.
    Definition L_re := flux_re lamb al er ei dr di P1 P2 P3 P4 I1 I2 I3.
    Definition L_gr := growth lamb al er ei dr di Pa P1 P2 P3 P4 I1 I2 I4.
    Definition L_sm := small lamb al er ei dr di Pl Pa P1 P2 P3 P4 I1 I2 I3 I4.
  End Parts.

  Lemma slab_eq V h : 0 <= h -> inq lamb V -> ee V h <> RtoC 0 /\ slab u V h = (de V h / ee V h)%C.
  Proof.
    intros Hh HV.
    assert (HU : upper (u * u)%C).
    { rewrite Usq. unfold upper. cbn [Re Im fst snd]. destruct Pa as [P|P]; [left; exact P|right; split; [symmetry; exact P|nra]]. }
    assert (HW : upper V). { destruct HV as [A B]. destruct B as [B|B]; [left; exact B|right; split; [symmetry; exact B|lra]]. }
    destruct (step_upper u V 1 Rlt_0_1 Pu h Hh HU HW) as (K & N & _). cbv zeta in K, N.
    pose proof u_neq as Nu. pose proof C2_neq as N2.
    replace (u / RtoC 1)%C with u in N by (field; apply RtoC_neq; lra).
    assert (E : ee V h = ((u + V * ctanh (u * RtoC h)%C) * (twice_cosh (u * RtoC h)%C / (RtoC 2 * u)))%C).
    { rewrite ctanh_eq. unfold ee. revert K. unfold twice_cosh, twice_sinh. intros K. field. repeat split; assumption. }
    assert (E' : de V h = ((V + u * ctanh (u * RtoC h)%C) * (twice_cosh (u * RtoC h)%C / RtoC 2))%C).
    { rewrite ctanh_eq. unfold de. revert K. unfold twice_cosh, twice_sinh. intros K. field. split; assumption. }
    assert (Z : ee V h <> RtoC 0).
    { rewrite E. apply Cmult_neq; [exact N|]. unfold Cdiv. apply Cmult_neq; [exact K|]. apply Cinv_neq. apply Cmult_neq; assumption. }
    split; [exact Z|]. unfold slab. rewrite E, E'. field. repeat split; assumption.
  Qed.
  Lemma sq_pos (z : C) : z <> RtoC 0 -> 0 < Re z * Re z + Im z * Im z.
  Proof. intros N. rewrite <- Cmod_sqr. assert (0 < Cmod z) by (apply Cmod_gt_0; exact N). nra. Qed.
  Lemma slab_inq V h : 0 <= h -> inq lamb V -> inq lamb (slab u V h).
  Proof.
    intros Hh HV. destruct (slab_eq V h Hh HV) as [N E]. rewrite E.
    pose proof (L_im V HV h Hh) as A. pose proof (L_re V HV h Hh) as B. cbv beta in A, B.
    pose proof (sq_pos _ N) as P. set (e := ee V h) in *. set (d := de V h) in *. 
    split; reim.
    - match goal with |- _ <= ?a => replace a with ((Re d * Re e + Im d * Im e) / (Re e * Re e + Im e * Im e)) by (field; lra) end.
      apply (Rmult_le_reg_r _ _ _ P). unfold Rdiv. rewrite Rmult_assoc, Rinv_l, Rmult_1_r by lra. lra.
    - match goal with |- _ <= ?a => replace a with ((Im d * Re e - Re d * Im e) / (Re e * Re e + Im e * Im e)) by (field; lra) end.
      apply Rdiv_le_0_compat; lra.
  Qed.
  Definition yv (V : C) (x : R) : C := (RtoC lamb * ee V x + de V x)%C.
  Definition xv (V : C) (x : R) : C := (RtoC lamb * ee V x - de V x)%C.
  Lemma yv_0 V : yv V 0 = (RtoC lamb + V)%C.
  Proof. unfold yv. rewrite ee_0, de_0. ring. Qed.
  Lemma xv_0 V : xv V 0 = (RtoC lamb - V)%C.
  Proof. unfold xv. rewrite ee_0, de_0. ring. Qed.
  Lemma yv_sq V x : Cmod (yv V x) * Cmod (yv V x) = ysq lamb (fun x => Re (ee V x)) (fun x => Im (ee V x)) (fun x => Re (de V x)) (fun x => Im (de V x)) x.
  Proof. rewrite Cmod_sqr. unfold yv, ysq. reim. ring. Qed.
  Lemma xv_sq V x : Cmod (xv V x) * Cmod (xv V x) = xsq lamb (fun x => Re (ee V x)) (fun x => Im (ee V x)) (fun x => Re (de V x)) (fun x => Im (de V x)) x.
  Proof. rewrite Cmod_sqr. unfold xv, xsq. reim. ring. Qed.
  Lemma yv_grow V h : 0 <= h -> inq lamb V -> exp (lamb * h) * Cmod (RtoC lamb + V)%C <= Cmod (yv V h).
  Proof.
    intros Hh HV. pose proof (L_gr V HV h Hh) as G. cbv zeta in G. rewrite <- !yv_sq in G. rewrite yv_0 in G.
    replace (exp (2 * lamb * h)) with (exp (lamb * h) * exp (lamb * h)) in G by (rewrite <- exp_plus; f_equal; ring).
    pose proof (exp_pos (lamb * h)). pose proof (Cmod_ge_0 (RtoC lamb + V)%C). pose proof (Cmod_ge_0 (yv V h)).
    set (a := Cmod (RtoC lamb + V)%C) in *. set (b := Cmod (yv V h)) in *. set (c := exp (lamb * h)) in *.
    assert (0 <= c * a) by nra. nra.
  Qed.
  Lemma rho_slab V h : 0 <= h -> inq lamb V -> yv V h <> RtoC 0 /\ rho lamb (slab u V h) = (xv V h / yv V h)%C.
  Proof.
    intros Hh HV. destruct (slab_eq V h Hh HV) as [N E]. pose proof (slab_inq V h Hh HV) as Q. pose proof (inq_neq _ _ Pl Q) as N2.
    assert (NY : yv V h <> RtoC 0).
    { unfold yv. intros Z. apply N2. rewrite E. replace (RtoC lamb + de V h / ee V h)%C with ((RtoC lamb * ee V h + de V h) / ee V h)%C by (field; exact N). rewrite Z. unfold Cdiv. ring. }
    split; [exact NY|]. unfold rho. rewrite E. revert NY. unfold xv, yv. intros NY. field. split; assumption.
  Qed.
  Lemma rho_diff (Va Vb : C) : inq lamb Va -> inq lamb Vb -> (rho lamb Va - rho lamb Vb)%C = (RtoC 2 * RtoC lamb * (Vb - Va) / ((RtoC lamb + Va) * (RtoC lamb + Vb)))%C.
  Proof. intros A B. unfold rho. rewrite C2_eq. field. split; apply inq_neq; assumption. Qed.
  Lemma slab_contract Va Vb h : 0 <= h -> inq lamb Va -> inq lamb Vb ->
    Cmod (rho lamb (slab u Va h) - rho lamb (slab u Vb h))%C <= exp (- 2 * lamb * h) * Cmod (rho lamb Va - rho lamb Vb)%C.
  Proof.
    intros Hh HA HB. destruct (rho_slab Va h Hh HA) as [NA EA]. destruct (rho_slab Vb h Hh HB) as [NB EB].
    rewrite EA, EB, rho_diff by assumption.
    replace (xv Va h / yv Va h - xv Vb h / yv Vb h)%C with (RtoC 2 * RtoC lamb * (Vb - Va) / (yv Va h * yv Vb h))%C.
    2:{ rewrite <- (wronskian Va Vb h). revert NA NB. unfold xv, yv. rewrite C2_eq. intros NA NB. field. split; assumption. }
    pose proof (inq_neq _ _ Pl HA) as MA. pose proof (inq_neq _ _ Pl HB) as MB.
    rewrite !Cmod_div by (apply Cmult_neq; assumption). rewrite !(Cmod_mult (yv _ _)), !(Cmod_mult (RtoC lamb + _)%C).
    set (k := Cmod (RtoC 2 * RtoC lamb * (Vb - Va))%C). assert (Pk : 0 <= k) by apply Cmod_ge_0.
    pose proof (yv_grow Va h Hh HA) as GA. pose proof (yv_grow Vb h Hh HB) as GB.
    apply Cmod_gt_0 in MA, MB, NA, NB.
    set (a := Cmod (RtoC lamb + Va)%C) in *. set (b := Cmod (RtoC lamb + Vb)%C) in *.
    set (p := Cmod (yv Va h)) in *. set (q := Cmod (yv Vb h)) in *.
    replace (- 2 * lamb * h) with (- (lamb * h + lamb * h)) by ring. rewrite exp_Ropp, exp_plus. pose proof (exp_pos (lamb * h)) as Pc.
    set (c := exp (lamb * h)) in *.
    replace (/ (c * c) * (k / (a * b))) with (k * / ((c * a) * (c * b))) by (field; lra).
    unfold Rdiv. apply Rmult_le_compat_l; [assumption|].
    assert (0 < c * a) by (apply Rmult_lt_0_compat; assumption). assert (0 < c * b) by (apply Rmult_lt_0_compat; assumption).
    apply Rinv_le_contravar; [apply Rmult_lt_0_compat; assumption|]. apply Rmult_le_compat; lra.
  Qed.
  Lemma slab_small V h m : 0 <= h -> inq lamb V -> al <= 4 * lamb ^ 2 * m -> Cmod (rho lamb V) <= m -> Cmod (rho lamb (slab u V h)) <= m.
  Proof.
    intros Hh HV Am HM. destruct (rho_slab V h Hh HV) as [N E]. rewrite E. apply Cmod_div_le; [exact N|].
    pose proof (Cmod_ge_0 (rho lamb V)) as Pr. assert (Pm : 0 <= m) by lra.
    assert (I0 : Cmod (RtoC lamb - V)%C <= m * Cmod (RtoC lamb + V)%C).
    { pose proof (inq_neq _ _ Pl HV) as N0. replace (RtoC lamb - V)%C with (rho lamb V * (RtoC lamb + V))%C by (unfold rho; field; exact N0).
      rewrite Cmod_mult. apply Rmult_le_compat_r; [apply Cmod_ge_0|exact HM]. }
    pose proof (L_sm V HV m h Pm Am) as S. cbv zeta in S. rewrite <- !xv_sq, <- !yv_sq, xv_0, yv_0 in S.
    pose proof (Cmod_ge_0 (RtoC lamb - V)%C). pose proof (Cmod_ge_0 (RtoC lamb + V)%C). pose proof (Cmod_ge_0 (xv V h)). pose proof (Cmod_ge_0 (yv V h)).
    assert (S' : Cmod (xv V h) * Cmod (xv V h) <= m ^ 2 * (Cmod (yv V h) * Cmod (yv V h))) by (apply S; [nra|assumption]).
    assert (0 <= m * Cmod (yv V h)) by (apply Rmult_le_pos; assumption). nra.
  Qed.
  Lemma rho_disc V : inq lamb V -> Cmod (rho lamb V + RtoC (/ 2))%C <= / 2 /\ Im (rho lamb V) <= 0.
  Proof.
    intros HV. pose proof (inq_neq _ _ Pl HV) as N. destruct HV as [A B]. split.
    - replace (rho lamb V + RtoC (/ 2))%C with ((RtoC (3 * lamb) - V) / (RtoC 2 * (RtoC lamb + V)))%C.
      + apply Cmod_div_le; [apply Cmult_neq; [apply C2_neq|exact N]|]. rewrite Cmod_mult, Cmod_R, Rabs_right by lra.
        replace (/ 2 * (2 * Cmod (RtoC lamb + V)%C)) with (Cmod (RtoC lamb + V)%C) by field.
        apply Cmod_sq_le. reim. nra.
      + unfold rho. rewrite RtoC_inv by lra. replace (RtoC (3 * lamb)) with (RtoC lamb + RtoC lamb + RtoC lamb)%C by (rewrite <- !RtoC_plus; f_equal; ring).
        rewrite C2_eq. field. split; [intros E; apply (f_equal Re) in E; cbn in E; lra|exact N].
    - unfold rho. pose proof (sq_pos _ N) as P. revert P. reim. intros P.
      match goal with |- ?a <= 0 => replace a with (- ((2 * lamb * Im V) / ((lamb + Re V) * (lamb + Re V) + (0 + Im V) * (0 + Im V)))) by (field; lra) end.
      assert (0 <= 2 * lamb * Im V / ((lamb + Re V) * (lamb + Re V) + (0 + Im V) * (0 + Im V))) by (apply Rdiv_le_0_compat; [nra|lra]). lra.
  Qed.
  Lemma rho_base m : inq lamb u -> al <= 4 * lamb ^ 2 * m -> Cmod (rho lamb u) <= m.
  Proof.
    intros HV Am. unfold rho. pose proof (inq_neq _ _ Pl HV) as N. destruct HV as [A B].
    apply Cmod_div_le; [exact N|].
    assert (P : 0 < Cmod (RtoC lamb + u)%C) by (apply Cmod_gt_0; exact N).
    apply Rmult_le_reg_r with (Cmod (RtoC lamb + u)%C); [exact P|]. rewrite <- Cmod_mult.
    replace ((RtoC lamb - u) * (RtoC lamb + u))%C with ((0, - al) : C).
    - rewrite Rmult_assoc, Cmod_sqr. replace (Cmod (0, - al)) with al.
      + assert (4 * lamb ^ 2 <= Re (RtoC lamb + u)%C * Re (RtoC lamb + u)%C + Im (RtoC lamb + u)%C * Im (RtoC lamb + u)%C) by (reim; nra).
        assert (Pk : 0 < 4 * lamb ^ 2) by (pose proof (pow_lt lamb 2 Pl); lra).
        assert (Pm : 0 <= m) by (apply Rmult_le_reg_l with (4 * lamb ^ 2); [exact Pk|lra]).
        rewrite Rmult_comm in Am. apply Rle_trans with (m * (4 * lamb ^ 2)); [exact Am|]. apply Rmult_le_compat_l; assumption.
      + unfold Cmod. cbn [fst snd]. replace (0 ^ 2 + (- al) ^ 2) with (al * al) by ring. symmetry. apply sqrt_square. exact Pa.
    - replace ((RtoC lamb - u) * (RtoC lamb + u))%C with (RtoC lamb * RtoC lamb - u * u)%C by ring. rewrite Usq. apply C_eq; cbn; ring.
  Qed.
End Layer.
