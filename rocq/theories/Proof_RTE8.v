(** Splitting layers *)
From Coq Require Import Reals List Lia Lra.
From Coquelicot Require Import Coquelicot.
From Verif Require Import Calculus Cplx Deriv Proof_FDEM Numpy Model_RTE Proof_RTE Proof_RTE2 Proof_RTE6 Proof_RTE7 Spec_RTE.
Import ListNotations.
Open Scope R_scope.

Lemma C2_neq : RtoC 2 <> RtoC 0.
Proof. apply RtoC_neq; lra. Qed.
Lemma Cmult_neq a b : a <> RtoC 0 -> b <> RtoC 0 -> (a * b)%C <> RtoC 0.
Proof. apply Cmult_neq_0. Qed.

Lemma tanh_add a b : twice_cosh a <> RtoC 0 -> twice_cosh b <> RtoC 0 -> twice_cosh (a + b)%C <> RtoC 0 ->
  (RtoC 1 + ctanh a * ctanh b)%C <> RtoC 0 /\ ctanh (a + b)%C = ((ctanh a + ctanh b) / (RtoC 1 + ctanh a * ctanh b))%C.
Proof.
  intros A B AB.
  assert (EC : (RtoC 2 * twice_cosh (a + b) = twice_cosh a * twice_cosh b + twice_sinh a * twice_sinh b)%C).
  { unfold twice_cosh, twice_sinh. replace (- (a + b))%C with (- a + - b)%C by ring. rewrite !cexp_plus.
    replace (RtoC 2) with (RtoC 1 + RtoC 1)%C by (apply C_eq; cbn; ring). ring. }
  assert (ES : (RtoC 2 * twice_sinh (a + b) = twice_sinh a * twice_cosh b + twice_cosh a * twice_sinh b)%C).
  { unfold twice_cosh, twice_sinh. replace (- (a + b))%C with (- a + - b)%C by ring. rewrite !cexp_plus.
    replace (RtoC 2) with (RtoC 1 + RtoC 1)%C by (apply C_eq; cbn; ring). ring. }
  rewrite !ctanh_eq. pose proof C2_neq as T.
  set (c1 := twice_cosh a) in *. set (c2 := twice_cosh b) in *. set (c3 := twice_cosh (a + b)%C) in *.
  set (s1 := twice_sinh a) in *. set (s2 := twice_sinh b) in *. set (s3 := twice_sinh (a + b)%C) in *.
  assert (N : (c1 * c2 + s1 * s2)%C <> RtoC 0) by (rewrite <- EC; apply Cmult_neq; assumption).
  split.
  - intros E. apply N. replace (c1 * c2 + s1 * s2)%C with (c1 * c2 * (RtoC 1 + s1 / c1 * (s2 / c2)))%C by (field; auto). rewrite E. ring.
  - replace c3 with ((c1 * c2 + s1 * s2) / RtoC 2)%C by (rewrite <- EC; field; exact T).
    replace s3 with ((s1 * c2 + c1 * s2) / RtoC 2)%C by (rewrite <- ES; field; exact T).
    field. repeat split; try assumption.
Qed.

(** the admittance of two slabs of the same material *)
Lemma slab_add (Y y t1 t2 : C) : Y <> RtoC 0 -> (RtoC 1 + t1 * t2)%C <> RtoC 0 -> (Y + y * t2)%C <> RtoC 0 ->
  (Y + y * ((t1 + t2) / (RtoC 1 + t1 * t2)))%C <> RtoC 0 ->
  let y2 := (Y * (y + Y * t2) / (Y + y * t2))%C in
  (Y * (y2 + Y * t1) / (Y + y2 * t1) = Y * (y + Y * ((t1 + t2) / (RtoC 1 + t1 * t2))) / (Y + y * ((t1 + t2) / (RtoC 1 + t1 * t2))))%C.
Proof.
  intros HY H1 H2 H3. cbv zeta.
  assert (H4 : (Y * (RtoC 1 + t1 * t2) + y * (t1 + t2))%C <> RtoC 0).
  { intros E. apply H3. replace (Y + y * ((t1 + t2) / (RtoC 1 + t1 * t2)))%C with ((Y * (RtoC 1 + t1 * t2) + y * (t1 + t2)) / (RtoC 1 + t1 * t2))%C by (field; exact H1). rewrite E. unfold Cdiv. ring. }
  assert (H5 : (Y * (Y * (RtoC 1 + t1 * t2) + y * (t1 + t2)))%C <> RtoC 0) by (apply Cmult_neq; assumption).
  field. repeat split; try assumption.
  - intros E. apply H5. rewrite <- E. ring.
Qed.

Section Split.
  Variables (w lamb : R).
  Hypothesis Pw : 0 < w.

  Lemma tt_0 s m : tt w lamb s m 0 = RtoC 0.
  Proof.
    unfold tt. replace (uu w lamb s m * RtoC 0)%C with (RtoC 0) by ring. rewrite ctanh_eq. unfold twice_sinh.
    replace (- RtoC 0)%C with (RtoC 0) by ring. unfold Cdiv. ring.
  Qed.

  Lemma prefix_congr : forall t1 s1 m1 sa ma ta sb mb tb, length s1 = length t1 -> length m1 = length t1 ->
    yl w lamb sa ma ta = yl w lamb sb mb tb ->
    yl w lamb (s1 ++ sa) (m1 ++ ma) (t1 ++ ta) = yl w lamb (s1 ++ sb) (m1 ++ mb) (t1 ++ tb).
  Proof.
    induction t1 as [|h t1 IH]; intros [|s s1] [|m m1] sa ma ta sb mb tb L1 L2 E; cbn in L1, L2; try lia.
    - exact E.
    - cbn [app yl]. rewrite (IH s1 m1 sa ma ta sb mb tb) by (auto; lia). reflexivity.
  Qed.

  Lemma stack_app good : forall t1 s1 m1 sa ma ta, length s1 = length t1 -> length m1 = length t1 ->
    stack good (s1 ++ sa) (m1 ++ ma) (t1 ++ ta) -> stack good sa ma ta.
  Proof.
    induction t1 as [|h t1 IH]; intros [|s s1] [|m m1] sa ma ta L1 L2 HS; cbn in L1, L2; try lia; [exact HS|].
    cbn [app] in HS. apply stack_inv in HS. destruct HS as (_ & _ & HS). apply (IH s1 m1); auto; lia.
  Qed.

  Lemma split_head s m sg mm h1 h2 tt_ : 0 <= h1 -> 0 <= h2 -> stack (layer_ok w lamb) (s :: sg) (m :: mm) (h1 + h2 :: tt_) ->
    yl w lamb (s :: s :: sg) (m :: m :: mm) (h1 :: h2 :: tt_) = yl w lamb (s :: sg) (m :: mm) (h1 + h2 :: tt_).
  Proof.
    intros P1 P2 HS. destruct (stack_inv _ _ _ _ _ _ _ HS) as (G & Hh & HS').
    cbn [yl]. pose proof (stack_upper w lamb Pw _ _ _ HS') as U. set (y := yl w lamb sg mm tt_) in *.
    destruct (step_ground w lamb Pw s m (h1 + h2) y G Hh U) as (A & B & _).
    destruct (step_ground w lamb Pw s m h2 y G P2 U) as (A2 & B2 & U2).
    destruct (step_ground w lamb Pw s m h1 y G P1 U) as (A1 & _ & _).
    cbv zeta in *.
    assert (Eu : (uu w lamb s m * RtoC (h1 + h2))%C = (uu w lamb s m * RtoC h1 + uu w lamb s m * RtoC h2)%C) by (rewrite RtoC_plus; ring).
    rewrite Eu in A. destruct (tanh_add _ _ A1 A2 A) as [N E].
    assert (ET : tt w lamb s m (h1 + h2) = ((tt w lamb s m h1 + tt w lamb s m h2) / (RtoC 1 + tt w lamb s m h1 * tt w lamb s m h2))%C) by (unfold tt at 1; rewrite Eu; exact E).
    rewrite ET in B |- *. apply slab_add; auto. apply yy_neq; assumption.
  Qed.

  Lemma basement s m h : layer_ok w lamb s m -> 0 <= h -> yl w lamb [s; s] [m; m] [h] = yl w lamb [s] [m] [].
  Proof.
    intros G Hh. cbn [yl].
    destruct (step_ground w lamb Pw s m h _ G Hh (upper_base w lamb Pw s m G)) as (_ & B & _). cbv zeta in B.
    unfold Cdiv. rewrite <- Cmult_assoc, Cinv_r by exact B. ring.
  Qed.

  Lemma thin s m sg mm ts : layer_ok w lamb s m -> yl w lamb (s :: sg) (m :: mm) (0 :: ts) = yl w lamb sg mm ts.
  Proof. intros G. cbn [yl]. rewrite tt_0. field. replace (yy w lamb s m + yl w lamb sg mm ts * RtoC 0)%C with (yy w lamb s m) by ring || idtac. pose proof (yy_neq w lamb Pw s m G). auto. Qed.
End Split.


Lemma py_rTE_congr mu0 f lamb sa ma ta sb mb tb :
  length sa = S (length ta) -> length ma = S (length ta) -> length sb = S (length tb) -> length mb = S (length tb) ->
  yl (2 * PI * f) lamb sa ma ta = yl (2 * PI * f) lamb sb mb tb ->
  py_rTE mu0 f lamb sa ma ta = py_rTE mu0 f lamb sb mb tb.
Proof. intros A B D E H. rewrite !py_rTE_yl by assumption. rewrite H. reflexivity. Qed.

Ltac lens := rewrite ?app_length in *; cbn [length] in *; lia.

Lemma C21_split_lemma mu0 f lamb s1 s s2 m1 m m2 t1 h1 h2 t2 : 0 < f -> length s1 = length t1 -> length m1 = length t1 -> 0 <= h1 -> 0 <= h2 ->
  ground f lamb (s1 ++ s :: s2) (m1 ++ m :: m2) (t1 ++ (h1 + h2) :: t2) ->
  py_rTE mu0 f lamb (s1 ++ s :: s :: s2) (m1 ++ m :: m :: m2) (t1 ++ h1 :: h2 :: t2) = py_rTE mu0 f lamb (s1 ++ s :: s2) (m1 ++ m :: m2) (t1 ++ (h1 + h2) :: t2).
Proof.
  intros Pf L1 L2 P1 P2 HS. pose proof (omega_pos f Pf) as Pw.
  destruct (stack_lengths _ _ _ _ HS) as [LS LM].
  apply py_rTE_congr; try lens.
  apply prefix_congr; [assumption|assumption|].
  apply split_head; auto. apply (stack_app _ t1 s1 m1); auto.
Qed.
Lemma C21_basement_lemma mu0 f lamb s1 s m1 m t1 h : 0 < f -> 0 <= h ->
  ground f lamb (s1 ++ [s]) (m1 ++ [m]) t1 ->
  py_rTE mu0 f lamb (s1 ++ [s; s]) (m1 ++ [m; m]) (t1 ++ [h]) = py_rTE mu0 f lamb (s1 ++ [s]) (m1 ++ [m]) t1.
Proof.
  intros Pf Ph HS. pose proof (omega_pos f Pf) as Pw.
  destruct (stack_lengths _ _ _ _ HS) as [LS LM].
  apply py_rTE_congr; try lens.
  rewrite <- (app_nil_r t1) at 2. apply prefix_congr; [lens|lens|].
  apply basement; auto.
  rewrite <- (app_nil_r t1) in HS. apply stack_app in HS; [|lens|lens]. destruct HS as (_ & F & _). inversion F; assumption.
Qed.
Lemma C21_thin_lemma mu0 f lamb s1 s s2 m1 m m2 t1 t2 : 0 < f -> length s1 = length t1 -> length m1 = length t1 ->
  layer_ok (2 * PI * f) lamb s m -> ground f lamb (s1 ++ s2) (m1 ++ m2) (t1 ++ t2) ->
  py_rTE mu0 f lamb (s1 ++ s :: s2) (m1 ++ m :: m2) (t1 ++ 0 :: t2) = py_rTE mu0 f lamb (s1 ++ s2) (m1 ++ m2) (t1 ++ t2).
Proof.
  intros Pf L1 L2 G HS. pose proof (omega_pos f Pf) as Pw.
  destruct (stack_lengths _ _ _ _ HS) as [LS LM].
  apply py_rTE_congr; try lens.
  apply prefix_congr; [assumption|assumption|].
  apply thin; auto.
Qed.
