(** The reflection coefficient solves the layered TE boundary-value problem *)
From Coq Require Import Reals List Lia Lra.
From Coquelicot Require Import Coquelicot.
From Verif Require Import Calculus Cplx Deriv Proof_FDEM Numpy Model_RTE Proof_RTE Proof_RTE2 Proof_RTE6 Proof_RTE7 Proof_RTE8 Spec_RTE Spec_RTE2.
Import ListNotations.
Open Scope R_scope.

Lemma const_on (f : R -> R) a b : a <= b -> (forall x, a <= x <= b -> is_derive f x 0) -> f b = f a.
Proof.
  intros H D. destruct (MVT_gen f a b (fun _ => 0)) as (c & _ & E).
  - intros x Hx. rewrite Rmin_left, Rmax_right in Hx by assumption. apply D. lra.
  - intros x Hx. rewrite Rmin_left, Rmax_right in Hx by assumption.
    apply continuity_pt_filterlim. apply (ex_derive_continuous f x). exists 0. apply D. assumption.
  - lra.
Qed.
Lemma Cconst_on (f : R -> C) a b : a <= b -> (forall x, a <= x <= b -> is_cderive f x (RtoC 0)) -> f b = f a.
Proof.
  intros H D. apply C_eq.
  - apply (const_on (fun x => Re (f x))); [assumption|]. intros x Hx. apply (D x Hx).
  - apply (const_on (fun x => Im (f x))); [assumption|]. intros x Hx. apply (D x Hx).
Qed.

Lemma Ceq_minus (a b : C) : (a - b)%C = RtoC 0 -> a = b.
Proof. intros H. replace a with (a - b + b)%C by ring. rewrite H. ring. Qed.

Section Wave.
  Variable u : C.
  Lemma D_lin x : is_cderive (fun x => u * RtoC x)%C x u.
  Proof. apply is_cderive_eq with (u * RtoC 1)%C; [apply CD_scal, CD_id|ring]. Qed.
  Lemma D_ep x : is_cderive (fun x => cexp (u * RtoC x)%C) x (u * cexp (u * RtoC x)%C)%C.
  Proof. apply CD_exp, D_lin. Qed.
  Lemma D_em x : is_cderive (fun x => cexp (- (u * RtoC x))%C) x (- u * cexp (- (u * RtoC x))%C)%C.
  Proof. apply CD_exp, CD_opp, D_lin. Qed.
  Lemma epm x : (cexp (u * RtoC x)%C * cexp (- (u * RtoC x))%C)%C = RtoC 1.
  Proof. rewrite <- cexp_plus. replace (u * RtoC x + - (u * RtoC x))%C with (RtoC 0) by ring. apply cexp_0. Qed.

  Lemma wave_modes F G h : 0 <= h ->
    (forall z, 0 <= z <= h -> is_cderive F z (G z) /\ is_cderive G z (u * u * F z)%C) ->
    (G h + u * F h)%C = ((G 0 + u * F 0) * cexp (u * RtoC h)%C)%C /\
    (G h - u * F h)%C = ((G 0 - u * F 0) * cexp (- (u * RtoC h))%C)%C.
  Proof.
    intros Hh D.
    assert (E0 : cexp (u * RtoC 0)%C = RtoC 1) by (replace (u * RtoC 0)%C with (RtoC 0) by ring; apply cexp_0).
    assert (E0' : cexp (- (u * RtoC 0))%C = RtoC 1) by (replace (- (u * RtoC 0))%C with (RtoC 0) by ring; apply cexp_0).
    split.
    - assert (K := Cconst_on (fun z => (G z + u * F z) * cexp (- (u * RtoC z))%C)%C 0 h Hh).
      cbv beta in K. rewrite E0' in K.
      assert (K' : ((G h + u * F h) * cexp (- (u * RtoC h))%C)%C = ((G 0 + u * F 0) * RtoC 1)%C).
      { apply K. intros x Hx. destruct (D x Hx) as [D1 D2]. eapply is_cderive_eq.
        - apply CD_mult; [apply CD_plus; [exact D2|apply CD_scal; exact D1]|apply D_em].
        - cbv beta. ring. }
      replace (G h + u * F h)%C with ((G h + u * F h) * (cexp (u * RtoC h)%C * cexp (- (u * RtoC h))%C))%C by (rewrite epm; ring).
      replace ((G h + u * F h) * (cexp (u * RtoC h)%C * cexp (- (u * RtoC h))%C))%C with ((G h + u * F h) * cexp (- (u * RtoC h))%C * cexp (u * RtoC h)%C)%C by ring.
      rewrite K'. ring.
    - assert (K := Cconst_on (fun z => (G z - u * F z) * cexp (u * RtoC z)%C)%C 0 h Hh).
      cbv beta in K. rewrite E0 in K.
      assert (K' : ((G h - u * F h) * cexp (u * RtoC h)%C)%C = ((G 0 - u * F 0) * RtoC 1)%C).
      { apply K. intros x Hx. destruct (D x Hx) as [D1 D2]. eapply is_cderive_eq.
        - apply CD_mult; [apply CD_minus; [exact D2|apply CD_scal; exact D1]|apply D_ep].
        - cbv beta. ring. }
      replace (G h - u * F h)%C with ((G h - u * F h) * (cexp (u * RtoC h)%C * cexp (- (u * RtoC h))%C))%C by (rewrite epm; ring).
      replace ((G h - u * F h) * (cexp (u * RtoC h)%C * cexp (- (u * RtoC h))%C))%C with ((G h - u * F h) * cexp (u * RtoC h)%C * cexp (- (u * RtoC h))%C)%C by ring.
      rewrite K'. ring.
  Qed.

  Hypothesis Pu : 0 < Re u.
  Lemma u_neq : u <> RtoC 0.
  Proof. intros E. rewrite E in Pu. cbn in Pu. lra. Qed.

  (** the solution with F(0) = f, G(0) = g *)
  Definition solF (f g : C) (z : R) : C := (((g + u * f) * cexp (u * RtoC z)%C - (g - u * f) * cexp (- (u * RtoC z))%C) / (RtoC 2 * u))%C.
  Definition solG (f g : C) (z : R) : C := (((g + u * f) * cexp (u * RtoC z)%C + (g - u * f) * cexp (- (u * RtoC z))%C) / RtoC 2)%C.
  Lemma two_eq : RtoC 2 = (RtoC 1 + RtoC 1)%C.
  Proof. apply C_eq; cbn; ring. Qed.
  Lemma two_neq : (RtoC 1 + RtoC 1)%C <> RtoC 0.
  Proof. rewrite <- two_eq. apply C2_neq. Qed.
  Lemma sol_0 f g : solF f g 0 = f /\ solG f g 0 = g.
  Proof.
    unfold solF, solG.
    assert (E0 : cexp (u * RtoC 0)%C = RtoC 1) by (replace (u * RtoC 0)%C with (RtoC 0) by ring; apply cexp_0).
    assert (E0' : cexp (- (u * RtoC 0))%C = RtoC 1) by (replace (- (u * RtoC 0))%C with (RtoC 0) by ring; apply cexp_0).
    rewrite E0, E0', two_eq. pose proof two_neq. pose proof u_neq. split; field; auto.
  Qed.
  Lemma D_sol f g z : is_cderive (solF f g) z (solG f g z) /\ is_cderive (solG f g) z (u * u * solF f g z)%C.
  Proof.
    pose proof two_neq. pose proof u_neq. split.
    - eapply is_cderive_eq.
      + apply is_cderive_ext with (fun z => / (RtoC 2 * u) * ((g + u * f) * cexp (u * RtoC z)%C - (g - u * f) * cexp (- (u * RtoC z))%C))%C.
        { intros t. unfold solF, Cdiv. ring. }
        apply CD_scal, CD_minus; apply CD_scal; [apply D_ep|apply D_em].
      + unfold solG. rewrite two_eq. field; auto.
    - eapply is_cderive_eq.
      + apply is_cderive_ext with (fun z => / RtoC 2 * ((g + u * f) * cexp (u * RtoC z)%C + (g - u * f) * cexp (- (u * RtoC z))%C))%C.
        { intros t. unfold solG, Cdiv. ring. }
        apply CD_scal, CD_plus; apply CD_scal; [apply D_ep|apply D_em].
      + unfold solF. rewrite two_eq. field; auto.
  Qed.

  (** decay *)
  Lemma exp_decay : is_lim (fun z => exp (- (Re u * z))) p_infty 0.
  Proof.
    apply is_lim_comp with m_infty.
    - apply is_lim_exp_m.
    - apply is_lim_ext with (fun z => (- Re u) * z); [intros; ring|].
      evar_last; [apply is_lim_scal_l; apply is_lim_id|].
      cbn. destruct (Rle_dec 0 (- Re u)) as [L|L]; [exfalso; lra|reflexivity].
    - exists 0. intros; discriminate.
  Qed.
  Lemma Cmod_ep z : Cmod (cexp (u * RtoC z)%C) = exp (Re u * z).
  Proof. rewrite Cmod_cexp. f_equal. reim. ring. Qed.
  Lemma Cmod_em z : Cmod (cexp (- (u * RtoC z))%C) = exp (- (Re u * z)).
  Proof. rewrite Cmod_cexp. f_equal. reim. ring. Qed.
  Lemma decaying F G :
    (forall z, 0 <= z -> is_cderive F z (G z) /\ is_cderive G z (u * u * F z)%C) ->
    is_lim (fun z => Cmod (F z)) p_infty 0 -> G 0 = (- u * F 0)%C.
  Proof.
    intros D L. set (A := (G 0 + u * F 0)%C). set (B := (G 0 - u * F 0)%C).
    assert (K : forall z, 0 <= z -> Cmod A <= Cmod (RtoC 2 * u)%C * Cmod (F z) + Cmod B * exp (- (Re u * z))).
    { intros z Hz. destruct (wave_modes F G z Hz) as [E1 E2].
      { intros x Hx. apply D. lra. }
      fold A in E1. fold B in E2.
      assert (E : (A * cexp (u * RtoC z)%C = RtoC 2 * u * F z + B * cexp (- (u * RtoC z))%C)%C).
      { rewrite <- E1, <- E2, two_eq. ring. }
      apply Rle_trans with (Cmod (A * cexp (u * RtoC z)%C)%C).
      - rewrite Cmod_mult, Cmod_ep. assert (1 <= exp (Re u * z)).
        { rewrite <- exp_0. destruct (Req_dec z 0) as [->|N]; [rewrite Rmult_0_r; lra|]. left. apply exp_increasing. nra. }
        pose proof (Cmod_ge_0 A). nra.
      - rewrite E. eapply Rle_trans; [apply Cmod_triangle|]. rewrite (Cmod_mult _ (F z)), (Cmod_mult B), Cmod_em. lra. }
    assert (Z : Rbar_le (Cmod A) 0).
    { apply is_lim_le_loc with (fun _ : R => Cmod A) (fun z => Cmod (RtoC 2 * u)%C * Cmod (F z) + Cmod B * exp (- (Re u * z))) p_infty.
      - exists 0. intros z Hz. apply K. lra.
      - apply is_lim_const.
      - replace (Finite 0) with (Finite (Cmod (RtoC 2 * u)%C * 0 + Cmod B * 0)) by (f_equal; ring).
        apply is_lim_plus'; [apply (is_lim_scal_l _ _ _ (Finite 0)); exact L|apply (is_lim_scal_l _ _ _ (Finite 0)); exact exp_decay]. }
    cbn in Z. assert (Cmod A = 0) by (pose proof (Cmod_ge_0 A); lra).
    assert (HA : A = RtoC 0) by (apply Cmod_eq_0; assumption).
    replace (G 0) with (A - u * F 0)%C by (unfold A; ring). rewrite HA. ring.
  Qed.
  Lemma sol_decay f : (forall z, solF f (- u * f)%C z = (f * cexp (- (u * RtoC z))%C)%C) /\ is_lim (fun z => Cmod (solF f (- u * f)%C z)) p_infty 0.
  Proof.
    assert (E : forall z, solF f (- u * f)%C z = (f * cexp (- (u * RtoC z))%C)%C).
    { intros z. unfold solF. pose proof two_neq. pose proof u_neq. rewrite two_eq. field; auto. }
    split; [exact E|].
    apply is_lim_ext with (fun z => Cmod f * exp (- (Re u * z))).
    { intros z. rewrite E, Cmod_mult, Cmod_em. reflexivity. }
    evar_last; [apply is_lim_scal_l; exact exp_decay|]. cbn. f_equal. ring.
  Qed.

  (** the impedance relation G = - k y F goes through the layer *)
  Lemma through F G h (k Y y : C) : 0 <= h -> k <> RtoC 0 -> u = (k * Y)%C ->
    (forall z, 0 <= z <= h -> is_cderive F z (G z) /\ is_cderive G z (u * u * F z)%C) ->
    twice_cosh (u * RtoC h)%C <> RtoC 0 ->
    let t := ctanh (u * RtoC h)%C in (Y + y * t)%C <> RtoC 0 ->
    ((G h = - k * y * F h)%C <-> (G 0 = - k * (Y * (y + Y * t) / (Y + y * t)) * F 0)%C).
  Proof.
    intros Hh Hk Hu D HC t N. destruct (wave_modes F G h Hh D) as [E1 E2].
    set (A := (G 0 + u * F 0)%C) in *. set (B := (G 0 - u * F 0)%C) in *.
    set (ep := cexp (u * RtoC h)%C) in *. set (em := cexp (- (u * RtoC h))%C) in *.
    assert (Ht : (t * (ep + em) = ep - em)%C).
    { unfold t. rewrite ctanh_eq. unfold twice_cosh, twice_sinh in *. fold ep em in HC |- *. field. exact HC. }
    assert (HC' : (ep + em)%C <> RtoC 0) by exact HC.
    pose proof two_neq as T2. pose proof u_neq as Nu.
    assert (HY : Y <> RtoC 0) by (intros Z; apply Nu; rewrite Hu, Z; ring).
    assert (FH : (F h = (A * ep - B * em) / ((RtoC 1 + RtoC 1) * u))%C) by (rewrite <- E1, <- E2; field; auto).
    assert (GH : (G h = (A * ep + B * em) / (RtoC 1 + RtoC 1))%C) by (rewrite <- E1, <- E2; field; auto).
    assert (F0 : (F 0 = (A - B) / ((RtoC 1 + RtoC 1) * u))%C) by (unfold A, B; field; auto).
    assert (G0 : (G 0 = (A + B) / (RtoC 1 + RtoC 1))%C) by (unfold A, B; field; auto).
    set (X := (A * ep * (Y + y) + B * em * (Y - y))%C).
    assert (I1 : (G h - - k * y * F h = X / ((RtoC 1 + RtoC 1) * Y))%C).
    { rewrite FH, GH, Hu. unfold X. field. auto. }
    assert (I2 : (G 0 - - k * (Y * (y + Y * t) / (Y + y * t)) * F 0 = X / ((Y + y * t) * (ep + em)))%C).
    { rewrite F0, G0, Hu. unfold X.
      transitivity (((A + B) * (Y * (ep + em) + y * (t * (ep + em))) + (A - B) * (y * (ep + em) + Y * (t * (ep + em)))) / ((RtoC 1 + RtoC 1) * ((Y + y * t) * (ep + em))))%C.
      - field. auto.
      - rewrite Ht. field. auto. }
    split; intros H.
    - assert (X0 : X = RtoC 0).
      { replace X with ((G h - - k * y * F h) * ((RtoC 1 + RtoC 1) * Y))%C by (rewrite I1; field; auto). rewrite H. ring. }
      rewrite X0 in I2. unfold Cdiv at 2 in I2. rewrite Cmult_0_l in I2. apply Ceq_minus. exact I2.
    - assert (X0 : X = RtoC 0).
      { replace X with ((G 0 - - k * (Y * (y + Y * t) / (Y + y * t)) * F 0) * ((Y + y * t) * (ep + em)))%C by (rewrite I2; field; auto). rewrite H. ring. }
      rewrite X0 in I1. unfold Cdiv at 1 in I1. rewrite Cmult_0_l in I1. apply Ceq_minus. exact I1.
  Qed.
End Wave.

Section Stack.
  Variables (w lamb : R).
  Hypothesis Pw : 0 < w.
  Lemma usq_eq s m : (uu w lamb s m * uu w lamb s m)%C = (RtoC (lamb ^ 2) + Ci * RtoC w * m * s)%C.
  Proof. unfold uu. rewrite csqrt_sq. replace (lamb ^ 2) with (lamb * lamb) by ring. ring. Qed.
  Lemma wave_eq s m F G z : te_wave w lamb s m F G z <-> is_cderive F z (G z) /\ is_cderive G z (uu w lamb s m * uu w lamb s m * F z)%C.
  Proof. unfold te_wave. rewrite usq_eq. reflexivity. Qed.
  Lemma layer_facts s m : layer_ok w lamb s m ->
    m <> RtoC 0 /\ (Ci * RtoC w * m)%C <> RtoC 0 /\ uu w lamb s m = (Ci * RtoC w * m * yy w lamb s m)%C /\ 0 < Re (uu w lamb s m).
  Proof.
    intros H. destruct (good_u w lamb Pw s m H) as (r & Pr & -> & _ & P & _).
    assert (N : RtoC r <> RtoC 0) by (apply RtoC_neq; lra).
    assert (K : (Ci * RtoC w * RtoC r)%C <> RtoC 0) by (apply Cmult_neq; [apply iw_neq; assumption|assumption]).
    split; [exact N|]. split; [exact K|]. split; [|exact P].
    unfold yy. transitivity ((Ci * RtoC w * RtoC r) * (uu w lamb s (RtoC r) / (Ci * RtoC w * RtoC r)))%C; [|reflexivity].
    generalize dependent (Ci * RtoC w * RtoC r)%C. intros k Hk. field. exact Hk.
  Qed.
  Lemma flux_eq (m k g y f : C) : m <> RtoC 0 -> ((g / m = - k * y * f)%C <-> (g = - (k * m) * y * f)%C).
  Proof.
    intros N. split; intros H.
    - replace g with (g / m * m)%C by (field; exact N). rewrite H. ring.
    - rewrite H. field. exact N.
  Qed.

  Lemma ground_yl : forall th sigma mu E H, stack (layer_ok w lamb) sigma mu th ->
    (te_ground w lamb sigma mu th E H <-> H = (- (Ci * RtoC w) * yl w lamb sigma mu th * E)%C).
  Proof.
    induction th as [|h th IH]; intros sg mm E H HS.
    - assert (HS' := HS). destruct HS' as (L & F2 & _). destruct sg as [|s [|? ?]]; cbn in L; try lia.
      inversion F2 as [|? m ? mm' HL HN]; subst. inversion HN; subst. cbn [yl].
      destruct (layer_facts s m HL) as (Nm & Nk & Eu & Pu).
      split; intros K.
      + inversion K as [? ? F G D LM|]; subst. rewrite flux_eq by assumption.
        rewrite (decaying (uu w lamb s m) Pu F G); [|intros z Hz; apply wave_eq, D; exact Hz|exact LM].
        rewrite Eu. ring.
      + assert (X : te_ground w lamb [s] [m] [] (solF (uu w lamb s m) E (- uu w lamb s m * E)%C 0) (solG (uu w lamb s m) E (- uu w lamb s m * E)%C 0 / m)%C).
        { apply te_basement.
          - intros z _. apply wave_eq. apply D_sol. exact Pu.
          - apply sol_decay. exact Pu. }
        destruct (sol_0 _ Pu E (- uu w lamb s m * E)%C) as [A B]. rewrite A, B in X.
        rewrite K. replace (- (Ci * RtoC w) * yy w lamb s m * E)%C with (- uu w lamb s m * E / m)%C; [exact X|].
        rewrite Eu. field. exact Nm.
    - assert (HS' := HS). destruct HS' as (L & F2 & _). destruct sg as [|s sg]; [cbn in L; lia|].
      inversion F2 as [|? m ? mm' HL HN]; subst.
      destruct (stack_inv _ _ _ _ _ _ _ HS) as (_ & Hh & HS').
      destruct (layer_facts s m HL) as (Nm & Nk & Eu & Pu).
      destruct (step_ground w lamb Pw s m h (yl w lamb sg mm' th) HL Hh (stack_upper w lamb Pw th sg mm' HS')) as (HC & HN' & _).
      cbn [yl]. unfold tt in *.
      split; intros K.
      + inversion K as [|? ? ? ? ? ? F G D LM]; subst. rewrite flux_eq by assumption.
        apply IH in LM; [|exact HS']. rewrite flux_eq in LM by assumption.
        refine (proj1 (through (uu w lamb s m) Pu F G h _ (yy w lamb s m) (yl w lamb sg mm' th) Hh Nk Eu _ HC HN') LM).
        intros z Hz. apply wave_eq, D. exact Hz.
      + assert (X : te_ground w lamb (s :: sg) (m :: mm') (h :: th) (solF (uu w lamb s m) E (m * H)%C 0) (solG (uu w lamb s m) E (m * H)%C 0 / m)%C).
        { apply te_layer.
          - intros z _. apply wave_eq. apply D_sol. exact Pu.
          - apply IH; [exact HS'|]. apply flux_eq; [exact Nm|].
            refine (proj2 (through (uu w lamb s m) Pu _ _ h _ (yy w lamb s m) (yl w lamb sg mm' th) Hh Nk Eu _ HC HN') _).
            + intros z _. apply D_sol. exact Pu.
            + destruct (sol_0 _ Pu E (m * H)%C) as [A B]. rewrite A, B, K. ring. }
        destruct (sol_0 _ Pu E (m * H)%C) as [A B]. rewrite A, B in X.
        replace (m * H / m)%C with H in X; [exact X|]. field. exact Nm.
  Qed.
End Stack.

Lemma C93_lemma mu0 f lamb sigma mu th r : 0 < mu0 -> 0 < f -> 0 < lamb -> ground f lamb sigma mu th ->
  (reflects mu0 (2 * PI * f) lamb sigma mu th r <-> r = py_rTE mu0 f lamb sigma mu th).
Proof.
  intros Pm Pf Pl HG. pose proof (omega_pos f Pf) as Pw. destruct (stack_lengths _ _ _ _ HG) as [L1 L2].
  rewrite py_rTE_yl by assumption. unfold reflects. rewrite (ground_yl _ _ Pw) by exact HG.
  unfold te_air, te_air'. rewrite !Rmult_0_r, exp_0, !Rmult_1_r.
  set (w := 2 * PI * f) in *. set (y := yl w lamb sigma mu th).
  pose proof (top_neq w lamb mu0 y Pw Pl Pm (stack_upper w lamb Pw th sigma mu HG)) as N.
  pose proof (iw_neq w Pw) as NI. assert (Nm : RtoC mu0 <> RtoC 0) by (apply RtoC_neq; lra).
  set (iw := (Ci * RtoC w)%C) in *.
  replace (RtoC (- lamb)) with (- RtoC lamb)%C by (apply C_eq; cbn; ring).
  assert (I : ((- RtoC lamb + r * RtoC lamb) / RtoC mu0 - - iw * y * (RtoC 1 + r * RtoC 1) = iw * (r * (RtoC lamb / (iw * RtoC mu0) + y) - (RtoC lamb / (iw * RtoC mu0) - y)))%C).
  { field. auto. }
  split; intros K.
  - apply Ceq_minus. rewrite K in I.
    assert (Z : (r * (RtoC lamb / (iw * RtoC mu0) + y) - (RtoC lamb / (iw * RtoC mu0) - y))%C = RtoC 0).
    { replace (r * (RtoC lamb / (iw * RtoC mu0) + y) - (RtoC lamb / (iw * RtoC mu0) - y))%C with (/ iw * (iw * (r * (RtoC lamb / (iw * RtoC mu0) + y) - (RtoC lamb / (iw * RtoC mu0) - y))))%C.
      - rewrite <- I. ring.
      - rewrite Cmult_assoc, Cinv_l by exact NI. ring. }
    revert Z N. generalize (RtoC lamb / (iw * RtoC mu0) + y)%C. generalize (RtoC lamb / (iw * RtoC mu0) - y)%C. intros a b Z N.
    replace (r - a / b)%C with ((r * b - a) / b)%C by (field; exact N). rewrite Z. unfold Cdiv. ring.
  - apply Ceq_minus. rewrite I, K.
    revert N. generalize (RtoC lamb / (iw * RtoC mu0) + y)%C. generalize (RtoC lamb / (iw * RtoC mu0) - y)%C. intros a b N.
    replace (a / b * b)%C with a by (field; exact N). ring.
Qed.

(** ** air layers *)
Lemma uu_air w lamb mu0 : 0 < lamb -> uu w lamb (RtoC 0) (RtoC mu0) = RtoC lamb.
Proof.
  intros H. unfold uu. replace (RtoC (lamb * lamb) - - Ci * RtoC w * RtoC mu0 * RtoC 0)%C with (RtoC (lamb * lamb)) by ring.
  unfold csqrt. rewrite Cmod_R, Rabs_right by nra. cbn [Re Im RtoC fst snd].
  destruct (Rle_dec 0 0) as [_|N]; [|exfalso; apply N; lra].
  replace ((lamb * lamb + lamb * lamb) / 2) with (lamb * lamb) by field.
  replace ((lamb * lamb - lamb * lamb) / 2) with 0 by field. rewrite sqrt_0, sqrt_square by lra.
  apply C_eq; cbn; ring.
Qed.
Lemma tanh_real lamb h : let t := ctanh (RtoC lamb * RtoC h)%C in
  (RtoC 1 + t)%C <> RtoC 0 /\ ((RtoC 1 - t) / (RtoC 1 + t))%C = RtoC (exp (- 2 * lamb * h)).
Proof.
  cbv zeta. rewrite ctanh_eq. unfold twice_sinh, twice_cosh.
  assert (E1 : cexp (RtoC lamb * RtoC h)%C = RtoC (exp (lamb * h))).
  { rewrite <- RtoC_mult. unfold cexp. cbn. rewrite cos_0, sin_0. apply C_eq; cbn; ring. }
  assert (E2 : cexp (- (RtoC lamb * RtoC h))%C = RtoC (exp (- (lamb * h)))).
  { rewrite <- RtoC_mult, <- RtoC_opp. unfold cexp. cbn. rewrite cos_0, sin_0. apply C_eq; cbn; ring. }
  rewrite E1, E2, <- RtoC_plus, <- RtoC_minus.
  pose proof (exp_pos (lamb * h)) as P1. pose proof (exp_pos (- (lamb * h))) as P2.
  rewrite <- RtoC_div by lra. rewrite <- RtoC_plus, <- RtoC_minus.
  assert (E : exp (- 2 * lamb * h) * exp (lamb * h) = exp (- (lamb * h))) by (rewrite <- exp_plus; f_equal; ring).
  assert (K : 1 + (exp (lamb * h) - exp (- (lamb * h))) / (exp (lamb * h) + exp (- (lamb * h))) = 2 * exp (lamb * h) / (exp (lamb * h) + exp (- (lamb * h)))) by (field; lra).
  assert (K' : 2 * exp (lamb * h) / (exp (lamb * h) + exp (- (lamb * h))) <> 0).
  { apply Rgt_not_eq. apply Rdiv_lt_0_compat; lra. }
  rewrite K. split; [apply RtoC_neq; exact K'|]. rewrite <- RtoC_div by exact K'. f_equal.
  set (a := exp (lamb * h)) in *. set (b := exp (- (lamb * h))) in *.
  apply Rmult_eq_reg_r with a; [|lra]. rewrite E. field. split; lra.
Qed.
Lemma C93_air_lemma mu0 f lamb h sigma mu th : 0 < mu0 -> 0 < f -> 0 < lamb -> 0 <= h -> ground f lamb sigma mu th ->
  py_rTE mu0 f lamb (RtoC 0 :: sigma) (RtoC mu0 :: mu) (h :: th) = (RtoC (exp (- 2 * lamb * h)) * py_rTE mu0 f lamb sigma mu th)%C.
Proof.
  intros Pm Pf Pl Hh HG. pose proof (omega_pos f Pf) as Pw. destruct (stack_lengths _ _ _ _ HG) as [L1 L2].
  rewrite !py_rTE_yl by (cbn [length]; congruence). cbn [yl].
  set (w := 2 * PI * f) in *. set (y := yl w lamb sigma mu th).
  pose proof (top_neq w lamb mu0 y Pw Pl Pm (stack_upper w lamb Pw th sigma mu HG)) as N.
  assert (HL : layer_ok w lamb (RtoC 0) (RtoC mu0)).
  { exists mu0. split; [assumption|]. split; [reflexivity|]. right. cbn. split; [reflexivity|]. nra. }
  destruct (step_ground w lamb Pw _ _ h y HL Hh (stack_upper w lamb Pw th sigma mu HG)) as (_ & N1 & UP).
  pose proof (top_neq w lamb mu0 _ Pw Pl Pm UP) as N2.
  pose proof (yy_neq w lamb Pw _ _ HL) as NY.
  unfold yy, tt in *. rewrite uu_air in * by assumption.
  destruct (tanh_real lamb h) as [T1 T2]. rewrite <- T2.
  set (Y := (RtoC lamb / (Ci * RtoC w * RtoC mu0))%C) in *. set (t := ctanh (RtoC lamb * RtoC h)%C) in *.
  assert (N3 : (Y * (Y + y * t) + Y * (y + Y * t))%C <> RtoC 0).
  { intros E. apply N2. replace (Y + Y * (y + Y * t) / (Y + y * t))%C with ((Y * (Y + y * t) + Y * (y + Y * t)) / (Y + y * t))%C by (field; exact N1). rewrite E. unfold Cdiv. ring. }
  field. repeat split; auto.
Qed.
Lemma C93_nothing_lemma mu0 f lamb : 0 < mu0 -> 0 < f -> 0 < lamb -> py_rTE mu0 f lamb [RtoC 0] [RtoC mu0] [] = RtoC 0.
Proof.
  intros Pm Pf Pl. rewrite py_rTE_yl by reflexivity. cbn [yl]. unfold yy. rewrite uu_air by assumption. unfold Cdiv. ring.
Qed.
