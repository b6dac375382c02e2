(** How far the layered reflection coefficient sees into the ground: whole stacks *)
From Coq Require Import Reals List Lia Lra Psatz.
From Coquelicot Require Import Coquelicot.
From Verif Require Import Calculus Cplx Deriv Proof_FDEM Numpy Model_RTE Proof_RTE Proof_RTE2 Proof_RTE6 Proof_RTE7 Proof_RTE8 Proof_RTE10 Proof_RTE11 Proof_RTE12 Spec_RTE Spec_Depth.
Import ListNotations.
Open Scope R_scope.

Section Stack.
  Variables (mu0 w lamb : R).
  Hypothesis Pm : 0 < mu0.
  Hypothesis Pw : 0 < w.
  Hypothesis Pl : 0 < lamb.
  Let iwm := (Ci * RtoC w * RtoC mu0)%C.
  Definition us (s : R) : C := uu w lamb (RtoC s) (RtoC mu0).
  Definition vst (sg th : list R) : C := (iwm * yl w lamb (map RtoC sg) (map (fun _ => RtoC mu0) sg) th)%C.

  Lemma iwm_neq : iwm <> RtoC 0.
  Proof. apply Cmult_neq; [apply iw_neq; assumption|apply RtoC_neq; lra]. Qed.
  Lemma us_sq s : (us s * us s)%C = (lamb ^ 2, w * mu0 * s).
  Proof. unfold us. rewrite usq. apply C_eq; cbn; ring. Qed.
  Lemma layer_s s : 0 <= s -> layer_ok w lamb (RtoC s) (RtoC mu0).
  Proof.
    intros H. exists mu0. split; [assumption|]. split; [reflexivity|]. cbn. destruct H as [H|H]; [left; assumption|right].
    split; [symmetry; exact H|]. nra.
  Qed.
  Lemma al_pos s : 0 <= s -> 0 <= w * mu0 * s.
  Proof. intros H. apply Rmult_le_pos; [|assumption]. apply Rmult_le_pos; lra. Qed.
  Lemma us_re s : 0 <= s -> 0 < Re (us s).
  Proof. intros H. destruct (good_u w lamb Pw _ _ (layer_s s H)) as (r & _ & _ & _ & P & _). exact P. Qed.
  Lemma us_inq s : 0 <= s -> inq lamb (us s).
  Proof.
    intros H. pose proof (us_re s H) as P. pose proof (us_sq s) as E. pose proof (al_pos s H) as A.
    assert (E1 := f_equal Re E). assert (E2 := f_equal Im E). revert E1 E2. reim. cbn [Re Im fst snd]. intros E1 E2.
    split; [|nra]. apply Rnot_lt_le. intros L. nra.
  Qed.
  Lemma iwm_yy s : (iwm * yy w lamb (RtoC s) (RtoC mu0))%C = us s.
  Proof. unfold yy, us. pose proof iwm_neq as N. unfold iwm in *. set (k := (Ci * RtoC w * RtoC mu0)%C) in *. field. exact N. Qed.
  Lemma vst_base s : vst [s] [] = us s.
  Proof. unfold vst. cbn [map yl]. apply iwm_yy. Qed.

  Lemma earth_stack sg th : earth sg th -> stack (layer_ok w lamb) (map RtoC sg) (map (fun _ => RtoC mu0) sg) th.
  Proof.
    intros (L & S & T). split; [rewrite map_length; exact L|]. split.
    - clear L. induction sg as [|s sg IH]; cbn [map]; constructor.
      + apply layer_s. apply S. left; reflexivity.
      + apply IH. intros x Hx. apply S. right; assumption.
    - apply List.Forall_forall. exact T.
  Qed.
  Lemma earth_inv s sg h th : earth (s :: sg) (h :: th) -> 0 <= s /\ 0 <= h /\ earth sg th.
  Proof.
    intros (L & S & T). split; [apply S; left; reflexivity|]. split; [apply T; left; reflexivity|].
    split; [cbn in L; lia|]. split; intros x Hx; [apply S|apply T]; right; assumption.
  Qed.
  Lemma vst_cons s sg h th : earth (s :: sg) (h :: th) -> vst (s :: sg) (h :: th) = slab (us s) (vst sg th) h.
  Proof.
    intros H. destruct (earth_inv _ _ _ _ H) as (Ps & Ph & HE). unfold vst. cbn [map yl].
    pose proof (stack_upper w lamb Pw _ _ _ (earth_stack _ _ HE)) as U.
    destruct (step_ground w lamb Pw _ _ h _ (layer_s s Ps) Ph U) as (_ & N & _). cbv zeta in N.
    set (y := yl w lamb (map RtoC sg) (map (fun _ => RtoC mu0) sg) th) in *.
    unfold slab. rewrite <- iwm_yy. fold (us s). 
    replace (ctanh (us s * RtoC h)%C) with (tt w lamb (RtoC s) (RtoC mu0) h) by reflexivity.
    replace (ctanh (iwm * yy w lamb (RtoC s) (RtoC mu0) * RtoC h)%C) with (tt w lamb (RtoC s) (RtoC mu0) h) by (rewrite iwm_yy; reflexivity).
    set (Y := yy w lamb (RtoC s) (RtoC mu0)) in *. set (t := tt w lamb (RtoC s) (RtoC mu0) h) in *.
    pose proof iwm_neq as K. field. split; [|exact N].
    replace (iwm * Y + iwm * y * t)%C with (iwm * (Y + y * t))%C by ring. apply Cmult_neq; assumption.
  Qed.
  Lemma vst_inq : forall th sg, earth sg th -> inq lamb (vst sg th).
  Proof.
    induction th as [|h th IH]; intros [|s sg] H; try (destruct H as (L & _); cbn in L; lia).
    - destruct sg; [|destruct H as (L & _); cbn in L; lia]. rewrite vst_base. apply us_inq. destruct H as (_ & S & _). apply S. left; reflexivity.
    - rewrite vst_cons by assumption. destruct (earth_inv _ _ _ _ H) as (Ps & Ph & HE).
      apply (slab_inq lamb (w * mu0 * s) (us s) Pl (al_pos s Ps) (us_sq s) (us_re s Ps)); auto.
  Qed.
  Lemma vst_small m : forall th sg, earth sg th -> (forall s, In s sg -> w * mu0 * s <= 4 * lamb ^ 2 * m) -> Cmod (rho lamb (vst sg th)) <= m.
  Proof.
    induction th as [|h th IH]; intros [|s sg] H HM; try (destruct H as (L & _); cbn in L; lia).
    - destruct sg; [|destruct H as (L & _); cbn in L; lia]. rewrite vst_base. assert (Ps : 0 <= s) by (destruct H as (_ & S & _); apply S; left; reflexivity).
      apply (rho_base lamb (w * mu0 * s) (us s) Pl (al_pos s Ps) (us_sq s) (us_re s Ps)); [apply us_inq; exact Ps|]. apply HM. left; reflexivity.
    - rewrite vst_cons by assumption. destruct (earth_inv _ _ _ _ H) as (Ps & Ph & HE).
      apply (slab_small lamb (w * mu0 * s) (us s) Pl (al_pos s Ps) (us_sq s) (us_re s Ps)); [exact Ph|apply vst_inq; exact HE| |].
      + apply HM. left; reflexivity.
      + apply IH; [exact HE|]. intros x Hx. apply HM. right; exact Hx.
  Qed.
  Lemma pack_app s1 t1 : forall st tt, pack st tt -> earth s1 t1 -> earth (st ++ s1) (tt ++ t1).
  Proof.
    intros st tt (L & S & T) (L1 & S1 & T1). split; [rewrite !app_length; lia|].
    split; intros x Hx; apply in_app_or in Hx; destruct Hx; auto.
  Qed.
  Lemma pack_inv s sg h th : pack (s :: sg) (h :: th) -> pack sg th.
  Proof. intros (L & S & T). split; [cbn in L; lia|]. split; intros x Hx; [apply S|apply T]; right; assumption. Qed.
  Lemma vst_contract s1 t1 s2 t2 : earth s1 t1 -> earth s2 t2 -> forall tt st, pack st tt ->
    Cmod (rho lamb (vst (st ++ s1) (tt ++ t1)) - rho lamb (vst (st ++ s2) (tt ++ t2)))%C <=
    exp (- 2 * lamb * depth tt) * Cmod (rho lamb (vst s1 t1) - rho lamb (vst s2 t2))%C.
  Proof.
    intros H1 H2. induction tt as [|h tt IH]; intros [|s st] HP; try (destruct HP as (L & _); cbn in L; lia).
    - cbn [app depth fold_right]. replace (- 2 * lamb * 0) with 0 by ring. rewrite exp_0. lra.
    - pose proof (pack_inv _ _ _ _ HP) as HP'.
      pose proof (pack_app s1 t1 _ _ HP H1) as E1. pose proof (pack_app s2 t2 _ _ HP H2) as E2. cbn [app] in *.
      rewrite !vst_cons by assumption. destruct (earth_inv _ _ _ _ E1) as (Ps & Ph & F1). destruct (earth_inv _ _ _ _ E2) as (_ & _ & F2).
      eapply Rle_trans; [apply (slab_contract lamb (w * mu0 * s) (us s) Pl (al_pos s Ps) (us_sq s) (us_re s Ps)); [exact Ph|apply vst_inq; exact F1|apply vst_inq; exact F2]|].
      cbn [depth fold_right]. fold (depth tt). replace (- 2 * lamb * (h + depth tt)) with (- 2 * lamb * h + - 2 * lamb * depth tt) by ring.
      rewrite exp_plus, (Rmult_assoc (exp _)). apply Rmult_le_compat_l; [left; apply exp_pos|]. apply IH. exact HP'.
  Qed.
  Lemma disc_diff (a b : C) : Cmod (a + RtoC (/ 2))%C <= / 2 -> Cmod (b + RtoC (/ 2))%C <= / 2 -> Cmod (a - b)%C <= 1.
  Proof.
    intros A B. replace (a - b)%C with ((a + RtoC (/ 2)) + - (b + RtoC (/ 2)))%C by ring.
    eapply Rle_trans; [apply Cmod_triangle|]. rewrite Cmod_opp. lra.
  Qed.
End Stack.

Lemma rTE_rho mu0 f lamb sg th : 0 < mu0 -> 0 < f -> 0 < lamb -> earth sg th ->
  py_rTE mu0 f lamb (conductivities sg) (nonmagnetic mu0 sg) th = rho lamb (vst mu0 (2 * PI * f) lamb sg th).
Proof.
  intros Pm Pf Pl H. pose proof (omega_pos f Pf) as Pw. unfold conductivities, nonmagnetic.
  destruct (stack_lengths _ _ _ _ (earth_stack mu0 (2 * PI * f) lamb Pm Pl sg th H)) as [L1 L2].
  rewrite py_rTE_yl by assumption. unfold rho, vst. set (w := 2 * PI * f) in *.
  pose proof (top_neq w lamb mu0 _ Pw Pl Pm (stack_upper w lamb Pw _ _ _ (earth_stack mu0 w lamb Pm Pl sg th H))) as N.
  set (y := yl w lamb (map RtoC sg) (map (fun _ => RtoC mu0) sg) th) in *.
  pose proof (iwm_neq mu0 w Pm Pw) as K. cbv zeta in K. set (k := (Ci * RtoC w * RtoC mu0)%C) in *.
  assert (M : (RtoC lamb + k * y)%C <> RtoC 0).
  { intros E. apply N. replace (RtoC lamb / k + y)%C with ((RtoC lamb + k * y) / k)%C by (field; exact K). rewrite E. unfold Cdiv. ring. }
  field. repeat split; auto.
Qed.

Lemma C115_disc_lemma mu0 f lamb sg th : 0 < mu0 -> 0 < f -> 0 < lamb -> earth sg th ->
  let r := py_rTE mu0 f lamb (conductivities sg) (nonmagnetic mu0 sg) th in Cmod (r + RtoC (/ 2))%C <= / 2 /\ Im r <= 0.
Proof.
  intros Pm Pf Pl H. cbv zeta. rewrite rTE_rho by assumption. pose proof (omega_pos f Pf) as Pw.
  apply rho_disc; [exact Pl|]. apply vst_inq; assumption.
Qed.
Lemma C115_unseen_lemma mu0 f lamb st tt s1 t1 s2 t2 : 0 < mu0 -> 0 < f -> 0 < lamb -> pack st tt -> earth s1 t1 -> earth s2 t2 ->
  Cmod (py_rTE mu0 f lamb (conductivities (st ++ s1)) (nonmagnetic mu0 (st ++ s1)) (tt ++ t1)
      - py_rTE mu0 f lamb (conductivities (st ++ s2)) (nonmagnetic mu0 (st ++ s2)) (tt ++ t2))%C <= 
  exp (- 2 * lamb * depth tt) * Cmod (py_rTE mu0 f lamb (conductivities s1) (nonmagnetic mu0 s1) t1
      - py_rTE mu0 f lamb (conductivities s2) (nonmagnetic mu0 s2) t2)%C /\
  Cmod (py_rTE mu0 f lamb (conductivities s1) (nonmagnetic mu0 s1) t1
      - py_rTE mu0 f lamb (conductivities s2) (nonmagnetic mu0 s2) t2)%C <= 1.
Proof.
  intros Pm Pf Pl HP H1 H2. pose proof (omega_pos f Pf) as Pw. split.
  - rewrite !rTE_rho by (assumption || apply pack_app; assumption). apply vst_contract; assumption.
  - apply disc_diff; apply C115_disc_lemma; assumption.
Qed.
Lemma C115_cover_lemma mu0 f lamb st tt s s1 t1 : 0 < mu0 -> 0 < f -> 0 < lamb -> forall h, pack st tt -> earth (s :: s1) (h :: t1) ->
  Cmod (py_rTE mu0 f lamb (conductivities (st ++ s :: s1)) (nonmagnetic mu0 (st ++ s :: s1)) (tt ++ h :: t1)
      - py_rTE mu0 f lamb (conductivities (st ++ [s])) (nonmagnetic mu0 (st ++ [s])) tt)%C <= exp (- 2 * lamb * (depth tt + h)).
Proof.
  intros Pm Pf Pl h HP HE. destruct (earth_inv _ _ _ _ HE) as (Ps & Ph & H1). pose proof (omega_pos f Pf) as Pw.
  assert (HB : earth [s] []) by (split; [reflexivity|]; split; [intros x [<-|[]]; exact Ps|intros x []]).
  assert (HC : earth [s; s] [h]) by (split; [reflexivity|]; split; [intros x [<-|[<-|[]]]; exact Ps|intros x [<-|[]]; exact Ph]).
  assert (HP2 : pack (st ++ [s]) (tt ++ [h])).
  { destruct HP as (L & S & T). split; [rewrite !app_length; cbn; lia|]. split; intros x Hx; apply in_app_or in Hx; destruct Hx as [Hx|[<-|[]]]; auto. }
  pose proof (C115_unseen_lemma mu0 f lamb (st ++ [s]) (tt ++ [h]) s1 t1 [s] [] Pm Pf Pl HP2 H1 HB) as [K K1].
  rewrite <- !app_assoc in K. cbn [app] in K.
  replace (depth (tt ++ [h])) with (depth tt + h) in K.
  2:{ clear. induction tt as [|x tt IH]; cbn [app depth fold_right]; [ring|]. fold (depth tt). fold (depth (tt ++ [h])). rewrite <- IH. ring. }
  assert (E : py_rTE mu0 f lamb (conductivities (st ++ [s; s])) (nonmagnetic mu0 (st ++ [s; s])) (tt ++ [h]) =
    py_rTE mu0 f lamb (conductivities (st ++ [s])) (nonmagnetic mu0 (st ++ [s])) tt).
  { unfold conductivities, nonmagnetic. rewrite !map_app. cbn [map]. apply C21_basement_lemma; [assumption|assumption|].
    pose proof (earth_stack mu0 (2 * PI * f) lamb Pm Pl _ _ (pack_app [s] [] _ _ HP HB)) as G. rewrite app_nil_r, !map_app in G. exact G. }
  rewrite E in K. eapply Rle_trans; [exact K|]. pose proof (exp_pos (- 2 * lamb * (depth tt + h))). nra.
Qed.
Lemma C115_low_lemma mu0 f lamb sg th smax : 0 < mu0 -> 0 < f -> 0 < lamb -> earth sg th -> (forall s, In s sg -> s <= smax) ->
  Cmod (py_rTE mu0 f lamb (conductivities sg) (nonmagnetic mu0 sg) th) <= 2 * PI * f * mu0 * smax / (4 * lamb ^ 2).
Proof.
  intros Pm Pf Pl H HM. pose proof (omega_pos f Pf) as Pw. rewrite rTE_rho by assumption. apply vst_small; try assumption.
  intros s Hs. replace (4 * lamb ^ 2 * (2 * PI * f * mu0 * smax / (4 * lamb ^ 2))) with (2 * PI * f * mu0 * smax) by (field; lra).
  apply Rmult_le_compat_l; [left; apply Rmult_lt_0_compat; assumption|auto].
Qed.
Lemma C115_high_lemma mu0 f lamb s : 0 < mu0 -> 0 < f -> 0 < lamb -> 0 < s ->
  Cmod (py_rTE mu0 f lamb (conductivities [s]) (nonmagnetic mu0 [s]) [] + RtoC 1)%C <= 2 * lamb / sqrt (2 * PI * f * mu0 * s).
Proof.
  intros Pm Pf Pl Ps. pose proof (omega_pos f Pf) as Pw.
  assert (HB : earth [s] []) by (split; [reflexivity|]; split; [intros x [<-|[]]; lra|intros x []]).
  rewrite rTE_rho by assumption. rewrite vst_base by assumption. set (w := 2 * PI * f) in *.
  assert (Q : inq lamb (us mu0 w lamb s)) by (apply us_inq; lra).
  pose proof (us_sq mu0 w lamb s) as E. set (u := us mu0 w lamb s) in *.
  pose proof (inq_neq _ _ Pl Q) as N.
  replace (rho lamb u + RtoC 1)%C with (RtoC (2 * lamb) / (RtoC lamb + u))%C by (unfold rho; rewrite RtoC_mult, C2_eq; field; exact N).
  assert (P : 0 < w * mu0 * s) by (apply Rmult_lt_0_compat; [apply Rmult_lt_0_compat|]; assumption).
  rewrite Cmod_div by exact N. rewrite Cmod_R, Rabs_right by lra.
  unfold Rdiv. apply Rmult_le_compat_l; [lra|]. apply Rinv_le_contravar; [apply sqrt_lt_R0; exact P|].
  apply Rle_trans with (sqrt (Cmod (RtoC lamb + u)%C * Cmod (RtoC lamb + u)%C)).
  - apply sqrt_le_1_alt. rewrite Cmod_sqr. destruct Q as [Q1 Q2].
    assert (E1 := f_equal Re E). assert (E2 := f_equal Im E). revert E1 E2. reim. cbn [Re Im fst snd]. intros E1 E2. nra.
  - rewrite sqrt_square by apply Cmod_ge_0. lra.
Qed.
Lemma C115_damps_lemma mu0 f lamb st tt s1 t1 s2 t2 : 0 < mu0 -> 0 < f -> 0 < lamb -> pack st tt -> earth s1 t1 -> earth s2 t2 ->
  Cmod (py_rTE mu0 f lamb (conductivities (st ++ s1)) (nonmagnetic mu0 (st ++ s1)) (tt ++ t1)
      - py_rTE mu0 f lamb (conductivities (st ++ s2)) (nonmagnetic mu0 (st ++ s2)) (tt ++ t2))%C <= 
  exp (- 2 * lamb * depth tt) * Cmod (py_rTE mu0 f lamb (conductivities s1) (nonmagnetic mu0 s1) t1
      - py_rTE mu0 f lamb (conductivities s2) (nonmagnetic mu0 s2) t2)%C.
Proof. intros. apply C115_unseen_lemma; assumption. Qed.
Lemma C115_hidden_lemma mu0 f lamb st tt s1 t1 s2 t2 : 0 < mu0 -> 0 < f -> 0 < lamb -> pack st tt -> earth s1 t1 -> earth s2 t2 ->
  Cmod (py_rTE mu0 f lamb (conductivities (st ++ s1)) (nonmagnetic mu0 (st ++ s1)) (tt ++ t1)
      - py_rTE mu0 f lamb (conductivities (st ++ s2)) (nonmagnetic mu0 (st ++ s2)) (tt ++ t2))%C <= 
  exp (- 2 * lamb * depth tt).
Proof.
  intros A B D E F G. destruct (C115_unseen_lemma mu0 f lamb st tt s1 t1 s2 t2 A B D E F G) as [K L].
  eapply Rle_trans; [exact K|]. pose proof (exp_pos (- 2 * lamb * depth tt)). nra.
Qed.
Lemma C115_half_disc_lemma mu0 f lamb sg th : 0 < mu0 -> 0 < f -> 0 < lamb -> earth sg th ->
  let r := py_rTE mu0 f lamb (conductivities sg) (nonmagnetic mu0 sg) th in Cmod (r - RtoC (- / 2))%C <= / 2 /\ Im r <= 0.
Proof.
  intros A B D E r. destruct (C115_disc_lemma mu0 f lamb sg th A B D E) as [K L]. fold r in K, L. split; [|exact L].
  replace (r - RtoC (- / 2))%C with (r + RtoC (/ 2))%C by (rewrite RtoC_opp; ring). exact K.
Qed.
Lemma C115_weak_lemma mu0 f lamb sg th smax : 0 < mu0 -> 0 < f -> 0 < lamb -> earth sg th -> (forall s, In s sg -> s <= smax) ->
  Cmod (py_rTE mu0 f lamb (conductivities sg) (nonmagnetic mu0 sg) th) <= 2 * PI * f * mu0 * smax / (2 * lamb) ^ 2.
Proof. intros. replace ((2 * lamb) ^ 2) with (4 * lamb ^ 2) by ring. apply C115_low_lemma; assumption. Qed.
Lemma C115_strong_lemma mu0 f lamb s : 0 < mu0 -> 0 < f -> 0 < lamb -> 0 < s ->
  Cmod (py_rTE mu0 f lamb (conductivities [s]) (nonmagnetic mu0 [s]) [] - RtoC (- 1))%C <= 2 * lamb / sqrt (2 * PI * f * mu0 * s) /\
  forall h sb tb, earth (s :: sb) (h :: tb) ->
  Cmod (py_rTE mu0 f lamb (conductivities (s :: sb)) (nonmagnetic mu0 (s :: sb)) (h :: tb) - RtoC (- 1))%C
  <= 2 * lamb / sqrt (2 * PI * f * mu0 * s) + exp (- 2 * lamb * h).
Proof.
  intros A B D E. pose proof (C115_high_lemma mu0 f lamb s A B D E) as K.
  assert (M : forall z, (z - RtoC (- 1))%C = (z + RtoC 1)%C) by (intros z; replace (RtoC (- 1)) with (- RtoC 1)%C by (rewrite <- RtoC_opp; f_equal; ring); ring).
  split; [rewrite M; exact K|]. intros h sb tb HE. rewrite M.
  assert (HP : pack [] []) by (split; [reflexivity|]; split; intros x []).
  pose proof (C115_cover_lemma mu0 f lamb [] [] s sb tb A B D h HP HE) as L. cbn [app depth fold_right] in L. rewrite Rplus_0_l in L.
  set (p := py_rTE mu0 f lamb (conductivities (s :: sb)) (nonmagnetic mu0 (s :: sb)) (h :: tb)) in *.
  set (q := py_rTE mu0 f lamb (conductivities [s]) (nonmagnetic mu0 [s]) []) in *.
  replace (p + RtoC 1)%C with ((q + RtoC 1) + (p - q))%C by ring. eapply Rle_trans; [apply Cmod_triangle|]. lra.
Qed.
Lemma differ_example : py_rTE 1 1 1 (conductivities [5]) (nonmagnetic 1 [5]) [] <> py_rTE 1 1 1 (conductivities [0]) (nonmagnetic 1 [0]) [].
Proof.
  intros H. change (conductivities [0]) with [RtoC 0] in H. change (nonmagnetic 1 [0]) with [RtoC 1] in H.
  rewrite (C93_nothing_lemma 1 1 1) in H by lra. rewrite rTE_rho in H; try lra.
  2:{ split; [reflexivity|]. split; [intros x [<-|[]]; lra|intros x []]. }
  rewrite vst_base in H by (lra || apply omega_pos; lra).
  pose proof PI_RGT_0 as PP.
  assert (Q : inq 1 (us 1 (2 * PI * 1) 1 5)) by (apply us_inq; lra).
  pose proof (inq_neq 1 _ Rlt_0_1 Q) as N. pose proof (us_sq 1 (2 * PI * 1) 1 5) as E. set (u := us 1 (2 * PI * 1) 1 5) in *.
  assert (K : (RtoC 1 - u)%C = RtoC 0). { replace (RtoC 1 - u)%C with (rho 1 u * (RtoC 1 + u))%C by (unfold rho; field; exact N). rewrite H. ring. }
  assert (E' : u = RtoC 1) by (replace u with (RtoC 1 - (RtoC 1 - u))%C by ring; rewrite K; ring).
  rewrite E' in E. apply (f_equal Im) in E. revert E. reim. cbn [Im snd]. intros E. lra.
Qed.
