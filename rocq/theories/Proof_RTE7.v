(** Layered ground: nothing vanishes, passivity, splitting *)
From Coq Require Import Reals List Lia Lra.
From Coquelicot Require Import Coquelicot.
From Verif Require Import Calculus Cplx Deriv Proof_FDEM Numpy Model_RTE Proof_RTE Proof_RTE2 Proof_RTE6 Spec_RTE.
Import ListNotations.
Open Scope R_scope.

Section Rec.
  Variables (w lamb : R).
  Definition uu (s m : C) : C := csqrt (RtoC (lamb * lamb) - (- Ci * RtoC w * m * s))%C.
  Definition yy (s m : C) : C := (uu s m / (Ci * RtoC w * m))%C.
  Definition tt (s m : C) (h : R) : C := ctanh (uu s m * RtoC h)%C.
  Fixpoint yl (sigma mu : list C) (th : list R) : C :=
    match sigma, mu, th with
    | s :: sg, m :: mm, h :: hh => let y := yl sg mm hh in (yy s m * (y + yy s m * tt s m h) / (yy s m + y * tt s m h))%C
    | s :: _, m :: _, [] => yy s m
    | _, _, _ => RtoC 0
    end.
  Lemma down_shift Y t m : forall k b, down Y t m (S k) b = down (fun j => Y (S j)) (fun j => t (S j)) m k b.
  Proof. induction m as [|m IH]; intros k b; [reflexivity|]. cbn [down]. rewrite IH. reflexivity. Qed.
  Lemma yl_eq : forall th sigma mu, length sigma = S (length th) -> length mu = S (length th) -> yh_val w lamb sigma mu th 0 = yl sigma mu th.
  Proof.
    induction th as [|h th IH]; intros [|s sg] [|m mm] L1 L2; cbn in L1, L2; try lia.
    - destruct sg; [|cbn in L1; lia]. destruct mm; [|cbn in L2; lia]. reflexivity.
    - injection L1 as L1. injection L2 as L2. specialize (IH sg mm L1 L2).
      cbn [yl]. rewrite <- IH. unfold yh_val. cbn [length]. rewrite !Nat.sub_0_r.
      rewrite down_S, down_shift. reflexivity.
  Qed.
End Rec.

Section Ground.
  Variables (w lamb : R).
  Hypothesis Pw : 0 < w.
  Let iw := (Ci * RtoC w)%C.
  Lemma iw_neq : (Ci * RtoC w)%C <> RtoC 0.
  Proof. intros E. apply (f_equal Im) in E. revert E. reim. cbn. lra. Qed.

  Lemma usq s r : (uu w lamb s (RtoC r) * uu w lamb s (RtoC r))%C = (lamb ^ 2 - w * r * Im s, w * r * Re s).
  Proof. unfold uu. rewrite csqrt_sq. apply C_eq; reim; cbn; ring. Qed.
  Lemma good_u s m : layer_ok w lamb s m -> exists r, 0 < r /\ m = RtoC r /\ upper (uu w lamb s m * uu w lamb s m)%C /\ 0 < Re (uu w lamb s m) /\ 0 <= Im (uu w lamb s m).
  Proof.
    intros (r & Pr & -> & H). exists r. split; [assumption|]. split; [reflexivity|].
    assert (H' : upper (uu w lamb s (RtoC r) * uu w lamb s (RtoC r))%C).
    { rewrite usq. unfold upper. cbn [Re Im fst snd].
      assert (0 < w * r) by (apply Rmult_lt_0_compat; assumption).
      destruct H as [H|[H G]]; [left|right]; unfold Re, Im in *; cbn [fst snd] in *; [nra|]. split; [rewrite H; ring|lra]. }
    split; [exact H'|]. apply csqrt_upper. unfold uu in H'. rewrite csqrt_sq in H'. exact H'.
  Qed.
  (** iw Y = u / m *)
  Lemma iwY s r : 0 < r -> (iw * yy w lamb s (RtoC r) = uu w lamb s (RtoC r) / RtoC r)%C.
  Proof. intros H. unfold yy, iw. field. split; [apply RtoC_neq; lra|]. split; [apply RtoC_neq; lra|]. intros E. apply (f_equal Im) in E. cbn in E. lra. Qed.
  Lemma upper_base s m : layer_ok w lamb s m -> upper (iw * yy w lamb s m)%C.
  Proof.
    intros H. destruct (good_u s m H) as (r & Pr & -> & _ & P1 & P2). rewrite iwY by assumption.
    assert (J : 0 < / r) by (apply Rinv_0_lt_compat; assumption).
    replace (uu w lamb s (RtoC r) / RtoC r)%C with (RtoC (/ r) * uu w lamb s (RtoC r))%C by (rewrite RtoC_inv by lra; unfold Cdiv; ring).
    apply upper_scal; [assumption|]. destruct P2 as [P2|P2]; [left; assumption|right; split; [symmetry|]; assumption].
  Qed.

  Lemma step_ground s m h y : layer_ok w lamb s m -> 0 <= h -> upper (iw * y)%C ->
    let Y := yy w lamb s m in let t := tt w lamb s m h in
    twice_cosh (uu w lamb s m * RtoC h)%C <> RtoC 0 /\ (Y + y * t)%C <> RtoC 0 /\ upper (iw * (Y * (y + Y * t) / (Y + y * t)))%C.
  Proof.
    intros H Hh Hy. destruct (good_u s m H) as (r & Pr & -> & Hu & P1 & P2). cbv zeta.
    pose proof (step_upper (uu w lamb s (RtoC r)) (iw * y)%C r Pr P1 h Hh Hu Hy) as (A & B & C).
    split; [exact A|].
    rewrite <- iwY in B, C by assumption. fold (tt w lamb s (RtoC r) h) in B, C.
    set (Y := yy w lamb s (RtoC r)) in *. set (t := tt w lamb s (RtoC r) h) in *.
    assert (N : (Y + y * t)%C <> RtoC 0).
    { intros E. apply B. replace (iw * Y + iw * y * t)%C with (iw * (Y + y * t))%C by ring. rewrite E. ring. }
    split; [exact N|]. revert C. match goal with |- upper ?a -> upper ?b => replace b with a; [auto|] end.
    field. split; [exact N|exact B].
  Qed.

  Lemma yy_neq s m : layer_ok w lamb s m -> yy w lamb s m <> RtoC 0.
  Proof. intros H E. apply (upper_neq_0 _ (upper_base s m H)). rewrite E. unfold iw. ring. Qed.

  Lemma stack_inv good s sg m mm h hh : stack good (s :: sg) (m :: mm) (h :: hh) -> good s m /\ 0 <= h /\ stack good sg mm hh.
  Proof. intros (L & F & T). inversion F; subst. inversion T; subst. repeat split; auto. Qed.

  Lemma stack_upper : forall th sigma mu, stack (layer_ok w lamb) sigma mu th -> upper (iw * yl w lamb sigma mu th)%C.
  Proof.
    induction th as [|h th IH]; intros sg mm HS.
    - destruct HS as (L & F & T). destruct sg as [|s sg]; [cbn in L; lia|]. inversion F; subst. cbn [yl]. apply upper_base; assumption.
    - assert (HS' := HS). destruct HS' as (L & F & T). destruct sg as [|s sg]; [cbn in L; lia|]. inversion F; subst.
      destruct (stack_inv _ _ _ _ _ _ _ HS) as (G & Hh & HS'). cbn [yl]. apply step_ground; auto.
  Qed.
End Ground.

(** ** passivity *)
Section Passive.
  Variables (w lamb : R).
  Hypothesis Pw : 0 < w.
  Let iw := (Ci * RtoC w)%C.
  Lemma slow_ok s m : slow_layer w lamb s m -> layer_ok w lamb s m.
  Proof. intros (r & P & E & R1 & R2). exists r. split; [assumption|]. split; [assumption|]. destruct R1 as [R1|R1]; [left; assumption|right; split; [symmetry|]; assumption]. Qed.
  Lemma Forall2_impl' {A B} (P Q : A -> B -> Prop) a b : (forall x y, P x y -> Q x y) -> Forall2 P a b -> Forall2 Q a b.
  Proof. intros H F. induction F; constructor; auto. Qed.
  Lemma slow_stack sigma mu th : stack (slow_layer w lamb) sigma mu th -> stack (layer_ok w lamb) sigma mu th.
  Proof. intros (L & F & T). split; [assumption|]. split; [|assumption]. revert F. apply Forall2_impl'. apply slow_ok. Qed.

  Lemma base_re s m : layer_ok w lamb s m -> 0 < Re (iw * yy w lamb s m)%C.
  Proof.
    intros H. destruct (good_u w lamb Pw s m H) as (r & Pr & -> & _ & P1 & P2). unfold iw. rewrite iwY by assumption.
    replace (uu w lamb s (RtoC r) / RtoC r)%C with (RtoC (/ r) * uu w lamb s (RtoC r))%C by (rewrite RtoC_inv by lra; unfold Cdiv; ring).
    assert (J : 0 < / r) by (apply Rinv_0_lt_compat; assumption). reim. nra.
  Qed.

  Lemma stack_re : forall th sigma mu, stack (slow_layer w lamb) sigma mu th -> 0 < Re (iw * yl w lamb sigma mu th)%C.
  Proof.
    induction th as [|h th IH]; intros sg mm HS.
    - destruct HS as (L & F & T). destruct sg as [|s sg]; [cbn in L; lia|]. inversion F; subst. cbn [yl]. apply base_re. apply slow_ok; assumption.
    - assert (HS' := HS). destruct HS' as (L & F & T). destruct sg as [|s sg]; [cbn in L; lia|]. inversion F; subst.
      destruct (stack_inv _ _ _ _ _ _ _ HS) as (G & Hh & HS'). cbn [yl].
      specialize (IH sg l' HS').
      pose proof (stack_upper w lamb Pw _ _ _ (slow_stack _ _ _ HS')) as IU.
      assert (G' := slow_ok _ _ G).
      destruct (step_ground w lamb Pw s y h (yl w lamb sg l' th) G' Hh IU) as (A & B & _). cbv zeta in A, B.
      destruct (good_u w lamb Pw s y G') as (r & Pr & -> & Hu & P1 & P2).
      set (Y := yy w lamb s (RtoC r)) in *. set (t := tt w lamb s (RtoC r) h) in *. set (z := yl w lamb sg l' th) in *.
      replace (iw * (Y * (z + Y * t) / (Y + z * t)))%C with ((iw * Y) * (iw * z + (iw * Y) * t) / (iw * Y + iw * z * t))%C.
      + unfold iw, Y. rewrite iwY by assumption. apply step_re; auto.
        rewrite usq by assumption. destruct G as (r' & Pr' & E & R1 & R2). apply RtoC_inj in E. subst r'.
        change (0 <= lamb ^ 2 - w * r * Im s). lra.
      + field. split; [exact B|]. intros E. apply B.
        assert (N := iw_neq w Pw). fold iw in N.
        replace (Y + z * t)%C with ((iw * Y + iw * z * t) / iw)%C by (field; exact N). rewrite E. unfold Cdiv. ring.
  Qed.
End Passive.

Lemma Cmod_sq_lt a b : Re a * Re a + Im a * Im a < Re b * Re b + Im b * Im b -> Cmod a < Cmod b.
Proof.
  intros H. rewrite <- !Cmod_sqr in H. pose proof (Cmod_ge_0 a). pose proof (Cmod_ge_0 b). nra.
Qed.

Lemma py_rTE_yl mu0 f lamb sigma mu th : length sigma = S (length th) -> length mu = S (length th) ->
  py_rTE mu0 f lamb sigma mu th =
  ((RtoC lamb / (Ci * RtoC (2 * PI * f) * RtoC mu0) - yl (2 * PI * f) lamb sigma mu th) / (RtoC lamb / (Ci * RtoC (2 * PI * f) * RtoC mu0) + yl (2 * PI * f) lamb sigma mu th))%C.
Proof. intros H1 H2. rewrite py_rTE_val by assumption. cbv zeta. rewrite yl_eq by assumption. reflexivity. Qed.

Lemma stack_lengths good sigma mu th : stack good sigma mu th -> length sigma = S (length th) /\ length mu = S (length th).
Proof. intros (L & F & _). assert (length sigma = length mu) by (clear L; induction F; cbn in *; auto). lia. Qed.

Lemma omega_pos f : 0 < f -> 0 < 2 * PI * f.
Proof. intros H. pose proof PI_RGT_0. nra. Qed.

(** Y0 + Yh <> 0 *)
Lemma top_neq w lamb mu0 y : 0 < w -> 0 < lamb -> 0 < mu0 -> upper (Ci * RtoC w * y)%C ->
  (RtoC lamb / (Ci * RtoC w * RtoC mu0) + y)%C <> RtoC 0.
Proof.
  intros Pw Pl Pm H E.
  assert (K : (RtoC (lamb / mu0) + Ci * RtoC w * y)%C = RtoC 0).
  { replace (RtoC (lamb / mu0) + Ci * RtoC w * y)%C with (Ci * RtoC w * (RtoC lamb / (Ci * RtoC w * RtoC mu0) + y))%C.
    - rewrite E. ring.
    - rewrite RtoC_div by lra. field. split; [apply RtoC_neq; lra|]. split; [apply RtoC_neq; lra|]. intros F. apply (f_equal Im) in F. cbn in F. lra. }
  assert (0 < lamb / mu0) by (apply Rdiv_lt_0_compat; assumption).
  revert K H. generalize (Ci * RtoC w * y)%C. intros z K H.
  assert (K1 := f_equal Re K). assert (K2 := f_equal Im K). revert K1 K2. reim. intros K1 K2.
  destruct H as [H|[H G]]; lra.
Qed.

Lemma C22_lemma mu0 f lamb sigma mu th : 0 < mu0 -> 0 < f -> 0 < lamb -> slow_ground f lamb sigma mu th ->
  Cmod (py_rTE mu0 f lamb sigma mu th) < 1.
Proof.
  intros Pm Pf Pl HS. destruct (stack_lengths _ _ _ _ HS) as [L1 L2]. rewrite py_rTE_yl by assumption.
  pose proof (omega_pos f Pf) as Pw. unfold slow_ground in HS. set (w := 2 * PI * f) in *.
  pose proof (stack_re w lamb Pw _ _ _ HS) as R. pose proof (stack_upper w lamb Pw _ _ _ (slow_stack w lamb _ _ _ HS)) as U.
  set (y := yl w lamb sigma mu th) in *.
  pose proof (top_neq w lamb mu0 y Pw Pl Pm U) as N.
  rewrite Cmod_div by exact N.
  assert (P : 0 < Cmod (RtoC lamb / (Ci * RtoC w * RtoC mu0) + y)%C) by (apply Cmod_gt_0; exact N).
  apply (Rmult_lt_reg_r _ _ _ P). unfold Rdiv. rewrite Rmult_assoc, Rinv_l, Rmult_1_r, Rmult_1_l by lra.
  apply Cmod_sq_lt.
  replace (RtoC lamb / (Ci * RtoC w * RtoC mu0))%C with ((0, - (lamb / (w * mu0))) : C).
  - revert R. reim. cbn [Re Im Ci fst snd]. intros R.
    assert (0 < lamb / (w * mu0)) by (apply Rdiv_lt_0_compat; [assumption|apply Rmult_lt_0_compat; assumption]).
    assert (Im y < 0) by nra. change (Re (0, - (lamb / (w * mu0)))) with 0. change (Im (0, - (lamb / (w * mu0)))) with (- (lamb / (w * mu0))). nra.
  - assert (w * mu0 <> 0) by nra. apply C_eq; reim; cbn; field; nra.
Qed.
