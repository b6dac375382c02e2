(** Weak induction in a layered ground: the reflection coefficient is linear in the conductivities up to a quadratic error *)
From Coq Require Import Reals List Lia Lra Psatz.
From Coquelicot Require Import Coquelicot.
From Verif Require Import Calculus Cplx Deriv Proof_FDEM Numpy Model_RTE Proof_RTE Proof_RTE2 Proof_RTE6 Proof_RTE7 Proof_RTE8 Proof_RTE9 Proof_RTE10 Proof_RTE11 Proof_RTE12 Proof_RTE13 Spec_RTE Spec_Depth Spec_Induction.
Import ListNotations.
Open Scope R_scope.

(** a complex function changes by no more than a real one with a larger derivative *)
Lemma Cmod_increment (F F' : R -> C) (g g' : R -> R) a b : a <= b ->
  (forall x, a <= x <= b -> is_cderive F x (F' x)) -> (forall x, a <= x <= b -> is_derive g x (g' x)) ->
  (forall x, a <= x <= b -> Cmod (F' x) <= g' x) -> Cmod (F b - F a)%C <= g b - g a.
Proof.
  intros Hab DF Dg B.
  assert (P : forall p q, p * p + q * q = 1 -> p * Re (F b - F a)%C + q * Im (F b - F a)%C <= g b - g a).
  { intros p q U.
    assert (K := nondec_on (fun x => g x - (p * Re (F x) + q * Im (F x))) (fun x => g' x - (p * Re (F' x) + q * Im (F' x))) a b Hab).
    cbv beta in K. reim. enough (g a - (p * Re (F a) + q * Im (F a)) <= g b - (p * Re (F b) + q * Im (F b))) by lra.
    apply K.
    - intros x Hx. destruct (DF x Hx) as [D1 D2].
      apply (is_derive_minus (K := R_AbsRing) (V := R_NormedModule)); [apply Dg; exact Hx|].
      apply (is_derive_plus (K := R_AbsRing) (V := R_NormedModule)); apply (is_derive_scal (fun t => _ (F t))); assumption.
    - intros x Hx. specialize (B x Hx). pose proof (Cmod_ge_0 (F' x)) as M.
      pose proof (Cmod_sqr (F' x)) as E. set (m := Cmod (F' x)) in *. set (r := Re (F' x)) in *. set (i := Im (F' x)) in *.
      enough (p * r + q * i <= m) by lra.
      apply Rnot_lt_le. intros L. assert (m * m < (p * r + q * i) * (p * r + q * i)) by nra.
      pose proof (Rle_0_sqr (p * i - q * r)) as Q. unfold Rsqr in Q. nra. }
  set (d := (F b - F a)%C) in *. pose proof (Cmod_ge_0 d) as [M|M].
  - pose proof (Cmod_sqr d) as E. specialize (P (Re d / Cmod d) (Im d / Cmod d)).
    replace (Re d / Cmod d * Re d + Im d / Cmod d * Im d) with (Cmod d) in P.
    2:{ replace (Re d / Cmod d * Re d + Im d / Cmod d * Im d) with ((Re d * Re d + Im d * Im d) / Cmod d) by (field; lra).
        rewrite <- E. field. lra. }
    apply P. replace (Re d / Cmod d * (Re d / Cmod d) + Im d / Cmod d * (Im d / Cmod d)) with ((Re d * Re d + Im d * Im d) / (Cmod d * Cmod d)) by (field; lra).
    rewrite E. field. rewrite <- E. nra.
  - rewrite <- M. assert (D : d = RtoC 0) by (apply Cmod_eq_0; lra). specialize (P 1 0). rewrite D in P. cbn in P. lra.
Qed.

Lemma disc_two (r : C) : Cmod (r + RtoC (/ 2))%C <= / 2 -> Cmod (r + RtoC 2)%C <= 2.
Proof.
  intros H. replace (r + RtoC 2)%C with ((r + RtoC (/ 2)) + RtoC (3 / 2))%C.
  - eapply Rle_trans; [apply Cmod_triangle|]. rewrite Cmod_R, Rabs_right by lra. lra.
  - replace (RtoC 2) with (RtoC (/ 2) + RtoC (3 / 2))%C by (rewrite <- RtoC_plus; f_equal; field). ring.
Qed.

Section Layer.
  Variables (lamb al : R) (u : C).
  Hypothesis Pl : 0 < lamb.
  Hypothesis Pa : 0 <= al.
  Hypothesis Usq : (u * u)%C = (lamb ^ 2, al).
  Hypothesis Pu : 0 < Re u.

  Lemma usq_C : (u * u)%C = (RtoC lamb * RtoC lamb + Ci * RtoC al)%C.
  Proof. rewrite Usq. apply C_eq; cbn; ring. Qed.
  (** Riccati equation of the reflection seen at the height x above the bottom of the layer *)
  Lemma riccati V x : inq lamb V -> 0 <= x ->
    is_cderive (fun x => (RtoC (exp (2 * lamb * x)) * (xv lamb u V x / yv lamb u V x))%C) x
      (RtoC (exp (2 * lamb * x)) * (- (Ci * RtoC al) / (RtoC 2 * RtoC lamb) *
         ((RtoC 1 + xv lamb u V x / yv lamb u V x) * (RtoC 1 + xv lamb u V x / yv lamb u V x))))%C.
  Proof.
    intros HV Hx. destruct (rho_slab lamb al u Pl Pa Usq Pu V x Hx HV) as [N _].
    assert (Dx : is_cderive (xv lamb u V) x (RtoC lamb * de u V x - u * u * ee u V x)%C).
    { unfold xv. apply CD_minus; [apply CD_scal; apply (D_ee u Pu)|apply (D_de u Pu)]. }
    assert (Dy : is_cderive (yv lamb u V) x (RtoC lamb * de u V x + u * u * ee u V x)%C).
    { unfold yv. apply CD_plus; [apply CD_scal; apply (D_ee u Pu)|apply (D_de u Pu)]. }
    eapply is_cderive_eq.
    - apply CD_mult; [|apply CD_div; [exact Dx|exact Dy|exact N]].
      instantiate (1 := RtoC (2 * lamb * exp (2 * lamb * x))). split; cbn [Re Im RtoC fst snd].
      + auto_derive; [exact Logic.I|ring].
      + apply (is_derive_const (K := R_AbsRing) (V := R_NormedModule)).
    - rewrite usq_C. revert N. cbn beta. unfold xv, yv. intros N. assert (L : RtoC lamb <> RtoC 0) by (apply RtoC_neq; lra). rewrite !RtoC_mult, C2_eq.
      field. repeat split; first [assumption|apply C2_neq|rewrite <- C2_eq; apply C2_neq|let E := fresh in intros E; apply (f_equal fst) in E; cbn in E; lra].
  Qed.

  Lemma slab_linear V h m : 0 <= h -> inq lamb V -> al <= 4 * lamb ^ 2 * m -> Cmod (rho lamb V) <= m ->
    Cmod (rho lamb (slab u V h) - (RtoC (exp (- 2 * lamb * h)) * rho lamb V
       + RtoC (al / (4 * lamb ^ 2) * (1 - exp (- 2 * lamb * h))) * - Ci))%C <= 2 * m ^ 2 * (1 - exp (- 2 * lamb * h)).
  Proof.
    intros Hh HV Am HM.
    pose (r x := (xv lamb u V x / yv lamb u V x)%C).
    assert (Er : forall x, 0 <= x -> r x = rho lamb (slab u V x)).
    { intros x Hx. symmetry. apply (rho_slab lamb al u Pl Pa Usq Pu V x Hx HV). }
    assert (E0 : r 0 = rho lamb V) by (unfold r, rho; rewrite (xv_0 lamb u Pu), (yv_0 lamb u Pu); reflexivity).
    assert (Pk : 0 < 4 * lamb ^ 2) by (pose proof (pow_lt lamb 2 Pl); lra).
    pose proof (Cmod_ge_0 (rho lamb V)) as P0.
    pose (F x := (RtoC (exp (2 * lamb * x)) * r x - RtoC (al / (4 * lamb ^ 2) * exp (2 * lamb * x)) * - Ci)%C).
    assert (K : Cmod (F h - F 0)%C <= 2 * m ^ 2 * exp (2 * lamb * h) - 2 * m ^ 2 * exp (2 * lamb * 0)).
    { apply (Cmod_increment F (fun x => RtoC (exp (2 * lamb * x)) * (- (Ci * RtoC al) / (RtoC 2 * RtoC lamb) * (r x * (r x + RtoC 2))))%C
        (fun x => 2 * m ^ 2 * exp (2 * lamb * x)) (fun x => 4 * lamb * m ^ 2 * exp (2 * lamb * x)) 0 h Hh).
      - intros x Hx. unfold F. eapply is_cderive_eq.
        + apply CD_minus; [apply riccati; [exact HV|lra]|].
          instantiate (1 := (RtoC (al / (2 * lamb) * exp (2 * lamb * x)) * - Ci)%C). split; reim; cbn [Re Im fst snd Ci].
          * apply (is_derive_ext (fun _ : R => 0)); [intros t; cbn; ring|]. 
            match goal with |- is_derive _ _ ?v => replace v with 0 by ring end. apply (is_derive_const (K := R_AbsRing) (V := R_NormedModule)).
          * apply (is_derive_ext (fun t : R => - (al / (4 * lamb ^ 2) * exp (2 * lamb * t)))); [intros t; cbn; ring|].
            match goal with |- is_derive _ _ ?v => replace v with (- (al / (2 * lamb) * exp (2 * lamb * x))) by (cbn; ring) end.
            auto_derive; [exact Logic.I|field; lra].
        + fold (r x). replace (RtoC (al / (2 * lamb) * exp (2 * lamb * x))) with (RtoC al / (RtoC 2 * RtoC lamb) * RtoC (exp (2 * lamb * x)))%C.
          * assert (L : RtoC lamb <> RtoC 0) by (apply RtoC_neq; lra). rewrite C2_eq. field. repeat split; first [assumption|apply C2_neq|rewrite <- C2_eq; apply C2_neq|let E := fresh in intros E; apply (f_equal fst) in E; cbn in E; lra].
          * rewrite RtoC_mult, RtoC_div, RtoC_mult by lra. reflexivity.
      - intros x Hx. auto_derive; [exact Logic.I|ring].
      - intros x Hx. rewrite (Er x) by lra.
        pose proof (slab_small lamb al u Pl Pa Usq Pu V x m ltac:(lra) HV Am HM) as S.
        pose proof (slab_inq lamb al u Pl Pa Usq Pu V x ltac:(lra) HV) as Q.
        destruct (rho_disc lamb Pl _ Q) as [D _]. apply disc_two in D. set (z := rho lamb (slab u V x)) in *.
        rewrite !Cmod_mult, Cmod_R, Rabs_right by (left; apply exp_pos).
        rewrite Cmod_div by (apply Cmult_neq; [apply C2_neq|apply RtoC_neq; lra]).
        rewrite Cmod_opp, !Cmod_mult, !Cmod_R, (Rabs_right al), (Rabs_right 2), (Rabs_right lamb) by lra.
        replace (Cmod Ci) with 1 by (unfold Cmod, Ci; cbn; replace (0 * (0 * 1) + 1 * (1 * 1)) with 1 by ring; symmetry; apply sqrt_1).
        pose proof (Cmod_ge_0 z) as Pz. pose proof (Cmod_ge_0 (z + RtoC 2)%C) as Pz2. pose proof (exp_pos (2 * lamb * x)) as Pe.
        set (e := exp (2 * lamb * x)) in *. set (a := Cmod z) in *. set (b := Cmod (z + RtoC 2)%C) in *.
        replace (4 * lamb * m ^ 2 * e) with (e * (4 * lamb * m ^ 2)) by ring. apply Rmult_le_compat_l; [lra|].
        assert (A : 1 * al / (2 * lamb) <= 2 * lamb * m).
        { apply Rmult_le_reg_r with (2 * lamb); [lra|]. replace (1 * al / (2 * lamb) * (2 * lamb)) with al by (field; lra). lra. }
        assert (A0 : 0 <= 1 * al / (2 * lamb)) by (apply Rdiv_le_0_compat; lra).
        assert (B : a * b <= m * 2) by (apply Rmult_le_compat; assumption).
        assert (B0 : 0 <= a * b) by (apply Rmult_le_pos; assumption).
        apply Rle_trans with ((2 * lamb * m) * (m * 2)); [apply Rmult_le_compat; assumption|]. apply Req_le. ring. }
    unfold F in K. rewrite E0, (Er h Hh) in K. replace (2 * lamb * 0) with 0 in K by ring. rewrite exp_0 in K.
    set (R1 := rho lamb (slab u V h)) in *. set (R0 := rho lamb V) in *. set (c := al / (4 * lamb ^ 2)) in *.
    assert (Ex : exp (- 2 * lamb * h) * exp (2 * lamb * h) = 1) by (rewrite <- exp_plus; replace (- 2 * lamb * h + 2 * lamb * h) with 0 by ring; apply exp_0).
    pose proof (exp_pos (- 2 * lamb * h)) as Pd. set (d := exp (- 2 * lamb * h)) in *. set (e := exp (2 * lamb * h)) in *.
    apply (Rmult_le_compat_l d) in K; [|lra].
    replace (d * (2 * m ^ 2 * e - 2 * m ^ 2 * 1)) with (2 * m ^ 2 * (1 - d)) in K.
    2:{ replace (2 * m ^ 2 * (1 - d)) with (2 * m ^ 2 * (d * e - d)) by (rewrite Ex; reflexivity). ring. }
    rewrite <- (Rabs_right d) in K at 1 by lra. rewrite <- Cmod_R, <- Cmod_mult in K.
    eapply Rle_trans; [|exact K]. apply Req_le. f_equal.
    assert (Ex' : (RtoC d * RtoC e)%C = RtoC 1) by (rewrite <- RtoC_mult, Ex; reflexivity).
    rewrite !RtoC_mult, RtoC_minus. 
    replace (RtoC d * (RtoC e * R1 - RtoC c * RtoC e * - Ci - (RtoC 1 * R0 - RtoC c * RtoC 1 * - Ci)))%C
      with ((RtoC d * RtoC e) * R1 - (RtoC d * RtoC e) * (RtoC c * - Ci) - RtoC d * (R0 - RtoC c * - Ci))%C by ring.
    rewrite Ex'. ring.
  Qed.
  Lemma base_linear m : inq lamb u -> al <= 4 * lamb ^ 2 * m ->
    Cmod (rho lamb u - RtoC (al / (4 * lamb ^ 2)) * - Ci)%C <= 2 * m ^ 2.
  Proof.
    intros Q Am. assert (Pk : 0 < 4 * lamb ^ 2) by (pose proof (pow_lt lamb 2 Pl); lra).
    pose proof (rho_base lamb al u Pl Pa Usq Pu m Q Am) as S. destruct (rho_disc lamb Pl _ Q) as [D _]. apply disc_two in D.
    set (z := rho lamb u) in *.
    assert (E : z = (RtoC (al / (4 * lamb ^ 2)) * - Ci * ((RtoC 1 + z) * (RtoC 1 + z)))%C).
    { unfold z, rho. pose proof (inq_neq _ _ Pl Q) as N.
      assert (L : RtoC lamb <> RtoC 0) by (apply RtoC_neq; lra).
      replace (RtoC (al / (4 * lamb ^ 2)) * - Ci)%C with ((RtoC lamb * RtoC lamb - u * u) / ((RtoC 2 * RtoC lamb) * (RtoC 2 * RtoC lamb)))%C.
      - rewrite C2_eq. field. repeat split; first [assumption|apply C2_neq|rewrite <- C2_eq; apply C2_neq|let E := fresh in intros E; apply (f_equal fst) in E; cbn in E; lra].
      - rewrite usq_C, RtoC_div by lra. replace (RtoC (4 * lamb ^ 2)) with ((RtoC 2 * RtoC lamb) * (RtoC 2 * RtoC lamb))%C by (rewrite <- !RtoC_mult; f_equal; ring).
        unfold Cdiv. ring. }
    replace (z - RtoC (al / (4 * lamb ^ 2)) * - Ci)%C with (RtoC (al / (4 * lamb ^ 2)) * - Ci * (z * (z + RtoC 2)))%C.
    2:{ rewrite E at 3. rewrite C2_eq. ring. }
    assert (A : al / (4 * lamb ^ 2) <= m).
    { apply Rmult_le_reg_r with (4 * lamb ^ 2); [lra|]. replace (al / (4 * lamb ^ 2) * (4 * lamb ^ 2)) with al by (field; lra). lra. }
    assert (A0 : 0 <= al / (4 * lamb ^ 2)) by (apply Rdiv_le_0_compat; lra).
    rewrite !Cmod_mult, Cmod_opp, Cmod_R, Rabs_right by lra.
    replace (Cmod Ci) with 1 by (unfold Cmod, Ci; cbn; replace (0 * (0 * 1) + 1 * (1 * 1)) with 1 by ring; symmetry; apply sqrt_1).
    pose proof (Cmod_ge_0 z) as Pz. pose proof (Cmod_ge_0 (z + RtoC 2)%C) as Pz2.
    assert (B : Cmod z * Cmod (z + RtoC 2)%C <= m * 2) by (apply Rmult_le_compat; assumption).
    assert (B0 : 0 <= Cmod z * Cmod (z + RtoC 2)%C) by (apply Rmult_le_pos; assumption).
    rewrite Rmult_1_r. apply Rle_trans with (m * (m * 2)); [apply Rmult_le_compat; assumption|]. apply Req_le. ring.
  Qed.
End Layer.

Lemma cumulative_shift lamb sg : forall th z, cumulative lamb z sg th = exp (- 2 * lamb * z) * cumulative lamb 0 sg th.
Proof.
  induction sg as [|s sg IH]; intros [|h th] z; cbn [cumulative]; try ring.
  - replace (- 2 * lamb * 0) with 0 by ring. rewrite exp_0. ring.
  - rewrite (IH th (z + h)), (IH th (0 + h)). replace (- 2 * lamb * 0) with 0 by ring. rewrite exp_0.
    replace (- 2 * lamb * (z + h)) with (- 2 * lamb * z + - 2 * lamb * (0 + h)) by ring. rewrite exp_plus. ring.
Qed.

Lemma vst_linear mu0 w lamb m : 0 < mu0 -> 0 < w -> 0 < lamb -> forall th sg, earth sg th ->
  (forall s, In s sg -> w * mu0 * s <= 4 * lamb ^ 2 * m) ->
  Cmod (rho lamb (vst mu0 w lamb sg th) - RtoC (w * mu0 / (4 * lamb ^ 2) * cumulative lamb 0 sg th) * - Ci)%C <= 2 * m ^ 2.
Proof.
  intros Pm Pw Pl. induction th as [|h th IH]; intros [|s sg] H HM; try (destruct H as (L & _); cbn in L; lia).
  - destruct sg; [|destruct H as (L & _); cbn in L; lia]. rewrite vst_base by assumption. assert (Ps : 0 <= s) by (destruct H as (_ & S & _); apply S; left; reflexivity).
    cbn [cumulative]. replace (- 2 * lamb * 0) with 0 by ring. rewrite exp_0.
    replace (w * mu0 / (4 * lamb ^ 2) * (s * 1)) with (w * mu0 * s / (4 * lamb ^ 2)) by (unfold Rdiv; ring).
    apply (base_linear lamb (w * mu0 * s) (us mu0 w lamb s) Pl (al_pos mu0 w Pm Pw s Ps) (us_sq mu0 w lamb s) (us_re mu0 w lamb Pm Pw Pl s Ps)); [apply us_inq; assumption|].
    apply HM. left; reflexivity.
  - rewrite vst_cons by assumption. destruct (earth_inv _ _ _ _ H) as (Ps & Ph & HE).
    assert (HM' : forall x, In x sg -> w * mu0 * x <= 4 * lamb ^ 2 * m) by (intros x Hx; apply HM; right; exact Hx).
    pose proof (slab_linear lamb (w * mu0 * s) (us mu0 w lamb s) Pl (al_pos mu0 w Pm Pw s Ps) (us_sq mu0 w lamb s) (us_re mu0 w lamb Pm Pw Pl s Ps)
      (vst mu0 w lamb sg th) h m Ph (vst_inq mu0 w lamb Pm Pw Pl th sg HE) (HM s (or_introl eq_refl)) (vst_small mu0 w lamb Pm Pw Pl m th sg HE HM')) as S.
    specialize (IH sg HE HM'). cbn [cumulative]. rewrite (cumulative_shift lamb sg th (0 + h)), Rplus_0_l.
    replace (- 2 * lamb * 0) with 0 by ring. rewrite exp_0.
    pose proof (exp_pos (- 2 * lamb * h)) as Pd. set (d := exp (- 2 * lamb * h)) in *.
    set (R1 := rho lamb (slab (us mu0 w lamb s) (vst mu0 w lamb sg th) h)) in *. set (R0 := rho lamb (vst mu0 w lamb sg th)) in *.
    set (cu := cumulative lamb 0 sg th) in *.
    replace (R1 - RtoC (w * mu0 / (4 * lamb ^ 2) * (s * (1 - d) + d * cu)) * - Ci)%C with
      ((R1 - (RtoC d * R0 + RtoC (w * mu0 * s / (4 * lamb ^ 2) * (1 - d)) * - Ci)) + RtoC d * (R0 - RtoC (w * mu0 / (4 * lamb ^ 2) * cu) * - Ci))%C.
    + eapply Rle_trans; [apply Cmod_triangle|]. rewrite Cmod_mult, Cmod_R, (Rabs_right d) by lra.
      assert (d * Cmod (R0 - RtoC (w * mu0 / (4 * lamb ^ 2) * cu) * - Ci)%C <= d * (2 * m ^ 2)) by (apply Rmult_le_compat_l; [lra|exact IH]). lra.
    + replace (w * mu0 / (4 * lamb ^ 2) * (s * (1 - d) + d * cu)) with (w * mu0 * s / (4 * lamb ^ 2) * (1 - d) + d * (w * mu0 / (4 * lamb ^ 2) * cu)) by (unfold Rdiv; ring).
      rewrite !RtoC_plus, !(RtoC_mult d). ring.
Qed.

Lemma C127_linear_lemma mu0 f lamb sg th smax : 0 < mu0 -> 0 < f -> 0 < lamb -> earth sg th -> (forall s, In s sg -> s <= smax) ->
  Cmod (py_rTE mu0 f lamb (conductivities sg) (nonmagnetic mu0 sg) th - linear_response mu0 f lamb sg th)%C <= 2 * induction mu0 f lamb smax ^ 2.
Proof.
  intros Pm Pf Pl H HM. pose proof (omega_pos f Pf) as Pw. rewrite rTE_rho by assumption. unfold linear_response, induction.
  replace ((2 * lamb) ^ 2) with (4 * lamb ^ 2) by ring. apply vst_linear; try assumption.
  intros s Hs. replace (4 * lamb ^ 2 * (2 * PI * f * mu0 * smax / (4 * lamb ^ 2))) with (2 * PI * f * mu0 * smax) by (field; lra).
  apply Rmult_le_compat_l; [left; apply Rmult_lt_0_compat; assumption|auto].
Qed.
