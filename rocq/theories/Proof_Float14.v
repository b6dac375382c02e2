(** The harmonic central loop in floating point (C137): accuracy. *)
From Coq Require Import ZArith Reals Lra Lia Psatz.
From Flocq Require Import Core.
From Coquelicot Require Import Coquelicot.
From Verif Require Import Vec3 Calculus Deriv Cplx Model_FDEM Model_Float Model_Float3 Model_Float6 Spec_Float Spec_Float2 Spec_Float5
  Proof_FDEM Proof_Float Proof_Float2 Proof_Float3 Proof_Float5 Proof_Float6 Proof_Float7 Proof_Float8 Proof_Float9 Proof_Float11 Proof_Float12 Proof_Float13.
Open Scope R_scope.

Lemma near_err k e a b : (k <= 500)%nat -> INR k + 1 <= e -> near k a b -> Rabs (a - b) <= e * u * Rabs b.
Proof. intros L E N. exact (near_within' e k a b L E N). Qed.
Lemma abs_prod_le a b p q : Rabs a <= p -> Rabs b <= q -> Rabs (a * b) <= p * q.
Proof. intros A B. rewrite Rabs_mult. apply Rmult_le_compat; try apply Rabs_pos; assumption. Qed.

Section Err.
  Variables x v br bi er ei : R.
  Hypothesis X : 0 < x.
  Hypothesis NV : near 14 v x.
  Hypothesis NR : near 15 br (3 + 3 * x).
  Hypothesis NI : near 37 bi (3 * x + 2 * x ^ 2).
  Hypothesis ER : near 17 er (exp (- v) * cos (- v)).
  Hypothesis EI : near 17 ei (exp (- v) * sin (- v)).
  Let zz := 999 / 1000 * x.
  Let ez := exp (- zz).
  Let B := 3 * x + 2 * x ^ 2.
  Let cx := exp (- x) * cos x.
  Let sx := - (exp (- x) * sin x).
  Let cv := exp (- v) * cos v.
  Let sv := - (exp (- v) * sin v).

  Lemma e_pos : 0 < ez. Proof. apply exp_pos. Qed.
  Lemma e_le1 : ez <= 1. Proof. unfold ez. rewrite <- exp_0. apply exp_le. unfold zz. lra. Qed.
  Lemma xe1 : x * ez <= 4005 / 10000.
  Proof. pose proof (zexp1 zz ltac:(unfold zz; lra)) as H. fold ez in H. unfold zz in H. pose proof e_pos. nra. Qed.
  Lemma xe2 : x ^ 2 * ez <= 642 / 1000.
  Proof. pose proof (zexp2 zz ltac:(unfold zz; lra)) as H. fold ez in H. unfold zz in H. replace ((999 / 1000 * x) ^ 2 * ez) with (998001 / 1000000 * (x ^ 2 * ez)) in H by field. lra. Qed.
  Lemma xe3 : x ^ 3 * ez <= 1734 / 1000.
  Proof. pose proof (zexp3 zz ltac:(unfold zz; lra)) as H. fold ez in H. unfold zz in H. replace ((999 / 1000 * x) ^ 3 * ez) with (997002999 / 1000000000 * (x ^ 3 * ez)) in H by field. lra. Qed.
  Lemma v_bounds : zz <= v <= 1001 / 1000 * x.
  Proof. exact (near_low 14 v x ltac:(lia) (Rlt_le _ _ X) NV). Qed.
  Lemma v_err : Rabs (v - x) <= 15 * u * x.
  Proof. pose proof (near_err 14 15 v x ltac:(lia) ltac:(cbn; lra) NV) as H. rewrite (Rabs_pos_eq x) in H by lra. exact H. Qed.
  Lemma ev_le : 0 < exp (- v) <= ez. Proof. split; [apply exp_pos|]. apply exp_le. pose proof v_bounds. lra. Qed.
  Lemma ex_le : 0 < exp (- x) <= ez. Proof. split; [apply exp_pos|]. apply exp_le. unfold zz. lra. Qed.
  Lemma ev_err : Rabs (exp (- v) - exp (- x)) <= 15 * u * x * ez.
  Proof.
    eapply Rle_trans; [apply (exp_lip v x zz); [apply v_bounds|unfold zz; lra]|]. apply Rmult_le_compat_r; [apply Rlt_le, e_pos|apply v_err].
  Qed.
  Lemma cv_le : Rabs cv <= ez. Proof. unfold cv. rewrite <- (Rmult_1_r ez). destruct ev_le. apply abs_prod_le; [rewrite Rabs_pos_eq; lra|apply Rabs_le, COS_bound]. Qed.
  Lemma sv_le : Rabs sv <= ez. Proof. unfold sv. rewrite Rabs_Ropp, <- (Rmult_1_r ez). destruct ev_le. apply abs_prod_le; [rewrite Rabs_pos_eq; lra|apply Rabs_le, SIN_bound]. Qed.
  Lemma sin_abs_le y : 0 <= y -> Rabs (sin y) <= y.
  Proof. intro H. pose proof (sin_lip y 0) as L. rewrite sin_0, !Rminus_0_r, (Rabs_pos_eq y) in L by exact H. exact L. Qed.
  Lemma sv_le' : Rabs sv <= 1001 / 1000 * x * ez.
  Proof.
    unfold sv. rewrite Rabs_Ropp, (Rmult_comm (1001 / 1000 * x)). destruct ev_le. pose proof v_bounds. apply abs_prod_le; [rewrite Rabs_pos_eq; lra|].
    eapply Rle_trans; [apply sin_abs_le; unfold zz in *; lra|lra].
  Qed.
  Lemma sx_le' : Rabs sx <= x * ez.
  Proof. unfold sx. rewrite Rabs_Ropp, (Rmult_comm x). destruct ex_le. apply abs_prod_le; [rewrite Rabs_pos_eq; lra|apply sin_abs_le; lra]. Qed.
  Lemma cx_le : Rabs cx <= ez. Proof. unfold cx. rewrite <- (Rmult_1_r ez). destruct ex_le. apply abs_prod_le; [rewrite Rabs_pos_eq; lra|apply Rabs_le, COS_bound]. Qed.
  Lemma sx_le : Rabs sx <= ez. Proof. unfold sx. rewrite Rabs_Ropp, <- (Rmult_1_r ez). destruct ex_le. apply abs_prod_le; [rewrite Rabs_pos_eq; lra|apply Rabs_le, SIN_bound]. Qed.
  Lemma cdiff : Rabs (cv - cx) <= 30 * u * x * ez.
  Proof.
    unfold cv, cx. replace (exp (- v) * cos v - exp (- x) * cos x) with ((exp (- v) - exp (- x)) * cos v + exp (- x) * (cos v - cos x)) by ring.
    replace (30 * u * x * ez) with (15 * u * x * ez * 1 + ez * (15 * u * x)) by ring. destruct ex_le. apply abs_sum; apply abs_prod_le.
    - apply ev_err. - apply Rabs_le, COS_bound. - rewrite Rabs_pos_eq; lra. - eapply Rle_trans; [apply cos_lip|apply v_err].
  Qed.
  Lemma sdiff : Rabs (sv - sx) <= 30 * u * x * ez.
  Proof.
    unfold sv, sx. replace (- (exp (- v) * sin v) - - (exp (- x) * sin x)) with (- ((exp (- v) - exp (- x)) * sin v + exp (- x) * (sin v - sin x))) by ring. rewrite Rabs_Ropp.
    replace (30 * u * x * ez) with (15 * u * x * ez * 1 + ez * (15 * u * x)) by ring. destruct ex_le. apply abs_sum; apply abs_prod_le.
    - apply ev_err. - apply Rabs_le, SIN_bound. - rewrite Rabs_pos_eq; lra. - eapply Rle_trans; [apply sin_lip|apply v_err].
  Qed.
  Lemma Bpos : 0 < B. Proof. unfold B. pose proof (pow2_ge_0 x). lra. Qed.
  Lemma Ae : (3 + 3 * x) * ez <= 421 / 100. Proof. pose proof xe1. pose proof e_le1. lra. Qed.
  Lemma Be : B * ez <= 249 / 100. Proof. unfold B. pose proof xe1. pose proof xe2. lra. Qed.
  Lemma Be' : B * ez <= 3801 / 1000 * x.
  Proof. unfold B. replace ((3 * x + 2 * x ^ 2) * ez) with (x * (3 * ez + 2 * (x * ez))) by ring. rewrite (Rmult_comm (3801 / 1000)). apply Rmult_le_compat_l; [lra|]. pose proof xe1. pose proof e_le1. lra. Qed.
  Lemma Axe : (3 + 3 * x) * (x * ez) <= 3134 / 1000. Proof. pose proof xe1. pose proof xe2. lra. Qed.
  Lemma Bxe : B * (x * ez) <= 5394 / 1000.
  Proof. unfold B. pose proof xe2. pose proof xe3. replace ((3 * x + 2 * x ^ 2) * (x * ez)) with (3 * (x ^ 2 * ez) + 2 * (x ^ 3 * ez)) by ring. lra. Qed.

  Lemma n_cv : near 17 er cv. Proof. unfold cv. rewrite <- (cos_neg v). exact ER. Qed.
  Lemma n_sv : near 17 ei sv. Proof. unfold sv. rewrite <- Ropp_mult_distr_r_reverse, <- sin_neg. exact EI. Qed.

  Lemma term k (b b' e e' : R) l : (k <= 100)%nat -> (l <= 100)%nat -> near k b b' -> near l e e' -> near (S (k + l)) (fl (b * e)) (b' * e').
  Proof. intros. apply near_round, near_mult; assumption. Qed.
  Lemma tA e e' : near 17 e e' -> Rabs (fl (br * e) - (3 + 3 * x) * e') <= 34 * u * ((3 + 3 * x) * Rabs e').
  Proof.
    intro N. pose proof (near_err 33 34 _ _ ltac:(lia) ltac:(cbn; lra) (term 15 _ _ _ _ 17 ltac:(lia) ltac:(lia) NR N)) as H.
    rewrite Rabs_mult, (Rabs_pos_eq (3 + 3 * x)) in H by lra. exact H.
  Qed.
  Lemma tB e e' : near 17 e e' -> Rabs (fl (bi * e) - B * e') <= 56 * u * (B * Rabs e').
  Proof.
    intro N. pose proof (near_err 55 56 _ _ ltac:(lia) ltac:(cbn; lra) (term 37 _ _ _ _ 17 ltac:(lia) ltac:(lia) NI N)) as H.
    pose proof Bpos. fold B in H. rewrite Rabs_mult, (Rabs_pos_eq B) in H by lra. exact H.
  Qed.
  Lemma Pex_is : Pex x = (3 + 3 * x) * cx - B * sx.
  Proof. unfold Pex, cx, sx, B. ring. Qed.
  Lemma Iex_is : Iex x = (3 + 3 * x) * sx + B * cx.
  Proof. unfold Iex, cx, sx, B. ring. Qed.
  Lemma u_lt : 0 < u < / 1000000. Proof. unfold u. split; lra. Qed.

  Lemma Pex_le : Rabs (Pex x) <= 67 / 10.
  Proof.
    rewrite Pex_is. pose proof Ae. pose proof Be. pose proof Bpos.
    eapply Rle_trans; [apply (abs_dif _ _ ((3 + 3 * x) * ez) (B * ez)); apply abs_prod_le; try (rewrite Rabs_pos_eq; lra); [apply cx_le|apply sx_le]|lra].
  Qed.
  Lemma Iex_le : Rabs (Iex x) <= 802 / 100 * x.
  Proof.
    rewrite Iex_is. pose proof Ae. pose proof Be'. pose proof Bpos.
    eapply Rle_trans; [apply (abs_sum _ _ ((3 + 3 * x) * (x * ez)) (B * ez)); apply abs_prod_le; try (rewrite Rabs_pos_eq; lra); [apply sx_le'|apply cx_le]|].
    replace ((3 + 3 * x) * (x * ez)) with ((3 + 3 * x) * ez * x) by ring. nra.
  Qed.

  Lemma real_err : Rabs (fl (fl (br * er) - fl (bi * ei)) - Pex x) <= 560 * u.
  Proof.
    pose proof (tA er cv n_cv) as T1. pose proof (tB ei sv n_sv) as T2. set (p1 := fl (br * er)) in *. set (p2 := fl (bi * ei)) in *.
    pose proof u_lt as U. pose proof Ae as HA. pose proof Be as HB. pose proof Axe as HAx. pose proof Bxe as HBx. pose proof Bpos as BP. pose proof e_pos as EP.
    pose proof cv_le as C1. pose proof sv_le as S1. pose proof cdiff as CD. pose proof sdiff as SD.
    assert (A1 : (3 + 3 * x) * Rabs cv <= 421 / 100) by (eapply Rle_trans; [apply Rmult_le_compat_l; [lra|exact C1]|exact HA]).
    assert (B1 : B * Rabs sv <= 249 / 100) by (eapply Rle_trans; [apply Rmult_le_compat_l; [lra|exact S1]|exact HB]).
    assert (D1 : Rabs ((3 + 3 * x) * (cv - cx)) <= 30 * u * (3134 / 1000)).
    { rewrite Rabs_mult, (Rabs_pos_eq (3 + 3 * x)) by lra. eapply Rle_trans; [apply Rmult_le_compat_l; [lra|exact CD]|].
      replace ((3 + 3 * x) * (30 * u * x * ez)) with (30 * u * ((3 + 3 * x) * (x * ez))) by ring. apply Rmult_le_compat_l; lra. }
    assert (D2 : Rabs (B * (sv - sx)) <= 30 * u * (5394 / 1000)).
    { rewrite Rabs_mult, (Rabs_pos_eq B) by lra. eapply Rle_trans; [apply Rmult_le_compat_l; [lra|exact SD]|].
      replace (B * (30 * u * x * ez)) with (30 * u * (B * (x * ez))) by ring. apply Rmult_le_compat_l; lra. }
    assert (E1 : Rabs (p1 - (3 + 3 * x) * cv) <= 34 * u * (421 / 100)) by (eapply Rle_trans; [exact T1|apply Rmult_le_compat_l; lra]).
    assert (E2 : Rabs (p2 - B * sv) <= 56 * u * (249 / 100)) by (eapply Rle_trans; [exact T2|apply Rmult_le_compat_l; lra]).
    assert (M : Rabs (p1 - p2 - Pex x) <= 539 * u).
    { rewrite Pex_is. replace (p1 - p2 - ((3 + 3 * x) * cx - B * sx)) with ((p1 - (3 + 3 * x) * cv) - (p2 - B * sv) + ((3 + 3 * x) * (cv - cx) - B * (sv - sx))) by ring.
      eapply Rle_trans; [apply abs_sum; apply abs_dif; [exact E1|exact E2|exact D1|exact D2]|]. lra. }
    pose proof (fl_err (p1 - p2)) as R1. pose proof Pex_le as PL.
    assert (L : Rabs (p1 - p2) <= 68 / 10) by (replace (p1 - p2) with ((p1 - p2 - Pex x) + Pex x) by ring; eapply Rle_trans; [apply abs_sum; [exact M|exact PL]|]; lra).
    replace (fl (p1 - p2) - Pex x) with ((fl (p1 - p2) - (p1 - p2)) + (p1 - p2 - Pex x)) by ring.
    eapply Rle_trans; [apply abs_sum; [exact R1|exact M]|]. nra.
  Qed.
  Lemma imag_err : Rabs (fl (fl (br * ei) + fl (bi * er)) - Iex x) <= 600 * u * x.
  Proof.
    pose proof (tA ei sv n_sv) as T1. pose proof (tB er cv n_cv) as T2. set (p1 := fl (br * ei)) in *. set (p2 := fl (bi * er)) in *.
    pose proof u_lt as U. pose proof Ae as HA. pose proof Be as HB. pose proof Be' as HB'. pose proof Bpos as BP. pose proof e_pos as EP.
    pose proof cv_le as C1. pose proof sv_le' as S1. pose proof cdiff as CD. pose proof sdiff as SD.
    assert (UX : 0 < u * x) by (apply Rmult_lt_0_compat; lra).
    assert (A1 : (3 + 3 * x) * Rabs sv <= 4215 / 1000 * x).
    { eapply Rle_trans; [apply Rmult_le_compat_l; [lra|exact S1]|]. replace ((3 + 3 * x) * (1001 / 1000 * x * ez)) with (1001 / 1000 * x * ((3 + 3 * x) * ez)) by ring.
      apply Rle_trans with (1001 / 1000 * x * (421 / 100)); [apply Rmult_le_compat_l; lra|lra]. }
    assert (B1 : B * Rabs cv <= 3801 / 1000 * x) by (eapply Rle_trans; [apply Rmult_le_compat_l; [lra|exact C1]|exact HB']).
    assert (D1 : Rabs ((3 + 3 * x) * (sv - sx)) <= 30 * (421 / 100) * (u * x)).
    { rewrite Rabs_mult, (Rabs_pos_eq (3 + 3 * x)) by lra. eapply Rle_trans; [apply Rmult_le_compat_l; [lra|exact SD]|].
      replace ((3 + 3 * x) * (30 * u * x * ez)) with (30 * (u * x) * ((3 + 3 * x) * ez)) by ring. apply Rle_trans with (30 * (u * x) * (421 / 100)); [apply Rmult_le_compat_l; lra|lra]. }
    assert (D2 : Rabs (B * (cv - cx)) <= 30 * (249 / 100) * (u * x)).
    { rewrite Rabs_mult, (Rabs_pos_eq B) by lra. eapply Rle_trans; [apply Rmult_le_compat_l; [lra|exact CD]|].
      replace (B * (30 * u * x * ez)) with (30 * (u * x) * (B * ez)) by ring. apply Rle_trans with (30 * (u * x) * (249 / 100)); [apply Rmult_le_compat_l; lra|lra]. }
    assert (E1 : Rabs (p1 - (3 + 3 * x) * sv) <= 34 * (4215 / 1000) * (u * x)).
    { eapply Rle_trans; [exact T1|]. apply Rle_trans with (34 * u * (4215 / 1000 * x)); [apply Rmult_le_compat_l; lra|lra]. }
    assert (E2 : Rabs (p2 - B * cv) <= 56 * (3801 / 1000) * (u * x)).
    { eapply Rle_trans; [exact T2|]. apply Rle_trans with (56 * u * (3801 / 1000 * x)); [apply Rmult_le_compat_l; lra|lra]. }
    assert (M : Rabs (p1 + p2 - Iex x) <= 558 * (u * x)).
    { rewrite Iex_is. replace (p1 + p2 - ((3 + 3 * x) * sx + B * cx)) with ((p1 - (3 + 3 * x) * sv) + (p2 - B * cv) + ((3 + 3 * x) * (sv - sx) + B * (cv - cx))) by ring.
      eapply Rle_trans; [apply abs_sum; apply abs_sum; [exact E1|exact E2|exact D1|exact D2]|]. lra. }
    pose proof (fl_err (p1 + p2)) as R1. pose proof Iex_le as PL. assert (UX' : u * x <= / 1000000 * x) by (apply Rmult_le_compat_r; lra).
    assert (L : Rabs (p1 + p2) <= 81 / 10 * x) by (replace (p1 + p2) with ((p1 + p2 - Iex x) + Iex x) by ring; eapply Rle_trans; [apply abs_sum; [exact M|exact PL]|]; lra).
    replace (fl (p1 + p2) - Iex x) with ((fl (p1 + p2) - (p1 + p2)) + (p1 + p2 - Iex x)) by ring.
    eapply Rle_trans; [apply abs_sum; [exact R1|exact M]|]. assert (2 * u * Rabs (p1 + p2) <= 2 * u * (81 / 10 * x)) by (apply Rmult_le_compat_l; lra). lra.
  Qed.
End Err.

Section Acc.
  Variables (csq cex : C -> C) (pow : R -> nat -> R).
  Hypothesis GS : good_csqrt csq.
  Hypothesis GX : good_cexp cex.
  Hypothesis GP : good_pow pow.
  Variables f sg mu a I n : R.
  Hypothesis F0 : 0 < f. Hypothesis S0 : 0 < sg. Hypothesis M0 : 0 < mu. Hypothesis A0 : 0 < a.
  Notation x := (kap f sg mu * a).

  Lemma parts_err : exists Fc P J, near 39 Fc (camp f sg mu a I) /\ Rabs (P - Pex x) <= 560 * u /\ Rabs (J - Iex x) <= 600 * u * x /\
    forall sec, floop_hz csq cex pow f sg mu a I n sec =
      (fl (n * if sec then fl (- fl (Fc * J) - fl (fl (I / 2) / a)) else - fl (Fc * J)), - fl (n * fl (Fc * fl (3 - P)))).
  Proof.
    destruct (structure csq cex pow GS GP f sg mu a I n F0 S0 M0 A0) as (Fc & br & bi & v & P & J & NF & NR & NI & NV & PE & JE & CE).
    exists Fc, P, J. pose proof (xpos f sg mu a F0 S0 M0 A0) as XP. destruct (GX (- v) (- v)) as [GR GI].
    apply (within_near 16 16) in GR; [|lra|cbn; lra|lra]. apply (within_near 16 16) in GI; [|lra|cbn; lra|lra].
    split; [exact NF|]. split; [|split; [|exact CE]].
    - rewrite PE. apply real_err with (v := v); assumption.
    - rewrite JE. apply imag_err with (v := v); assumption.
  Qed.
  Lemma quad_err sec : Rabs (snd (floop_hz csq cex pow f sg mu a I n sec) - Im (loop_hz f sg mu a I n sec)) <= 7100 * (1 + / x ^ 4) * u * Rabs (Im (loop_hz f sg mu a I n sec)).
  Proof.
    destruct parts_err as (Fc & P & J & NF & PE & _ & CE). rewrite CE, loop_parts by assumption. cbn [snd Im]. clear CE.
    pose proof (xpos f sg mu a F0 S0 M0 A0) as XP. pose proof (resp_pos x XP) as RP. pose proof (resp_lower x XP) as RL. pose proof (Pex_le x XP) as PL.
    set (c := camp f sg mu a I) in *. set (r := 3 - Pex x) in *. pose proof u_lt as U. pose proof (fl_err (3 - P)) as FE. set (q := fl (3 - P)) in *.
    assert (IX : 0 < / x ^ 4) by (apply Rinv_0_lt_compat, pow_lt, XP). set (i4 := / x ^ 4) in *.
    assert (L3 : Rabs (3 - P) <= 98 / 10).
    { replace (3 - P) with (3 - (P - Pex x) - Pex x) by ring. eapply Rle_trans; [apply abs_dif; [apply abs_dif; [rewrite (Rabs_pos_eq 3) by lra; apply Rle_refl|exact PE]|exact PL]|]. lra. }
    assert (QE : Rabs (q - r) <= 580 * u).
    { replace (q - r) with ((q - (3 - P)) - (P - Pex x)) by (unfold r; ring). eapply Rle_trans; [apply abs_dif; [exact FE|exact PE]|]. nra. }
    assert (ONE : 1 <= 12 * (1 + i4) * r).
    { apply (Rmult_le_compat_l (12 * (1 + i4))) in RL; [|lra]. rewrite Rinv_r in RL by lra. lra. }
    assert (NQ : near 41 (fl (n * fl (Fc * q))) (n * (c * q))).
    { apply near_round. replace 40%nat with (0 + 40)%nat by lia. apply near_mult; [apply near_refl|]. apply near_round. replace 39%nat with (39 + 0)%nat by lia. apply near_mult; [exact NF|apply near_refl]. }
    pose proof (near_err 41 42 _ _ ltac:(lia) ltac:(cbn; lra) NQ) as NE.
    assert (QL : Rabs q <= r + 580 * u) by (replace q with ((q - r) + r) by ring; eapply Rle_trans; [apply abs_sum; [exact QE|rewrite Rabs_pos_eq by lra; apply Rle_refl]|lra]).
    set (k := Rabs n * Rabs c). assert (K0 : 0 <= k) by (apply Rmult_le_pos; apply Rabs_pos).
    replace (- fl (n * fl (Fc * q)) - n * - (c * r)) with (- ((fl (n * fl (Fc * q)) - n * (c * q)) + n * c * (q - r))) by ring. rewrite Rabs_Ropp.
    assert (E1 : Rabs (n * (c * q)) = k * Rabs q) by (unfold k; rewrite !Rabs_mult; ring). rewrite E1 in NE.
    assert (E2 : Rabs (n * c * (q - r)) = k * Rabs (q - r)) by (unfold k; rewrite !Rabs_mult; ring).
    assert (E3 : Rabs (n * - (c * r)) = k * r) by (unfold k; rewrite Rabs_mult, Rabs_Ropp, Rabs_mult, (Rabs_pos_eq r) by lra; ring). rewrite E3.
    eapply Rle_trans; [apply abs_sum; [exact NE|rewrite E2; apply Rmult_le_compat_l; [exact K0|exact QE]]|].
    apply Rle_trans with (k * (42 * u * (r + 580 * u) + 580 * u)).
    { replace (k * (42 * u * (r + 580 * u) + 580 * u)) with (42 * u * (k * (r + 580 * u)) + k * (580 * u)) by ring. apply Rplus_le_compat_r, Rmult_le_compat_l; [lra|]. apply Rmult_le_compat_l; lra. }
    replace (7100 * (1 + i4) * u * (k * r)) with (k * (7100 * (1 + i4) * u * r)) by ring. apply Rmult_le_compat_l; [exact K0|].
    assert (G : 42 * (r + 580 * u) + 580 <= 7100 * (1 + i4) * r).
    { assert (0 <= i4 * r) by (apply Rmult_le_pos; lra). assert (42 * (580 * u) <= 1) by lra. assert (1 <= 12 * r + 12 * (i4 * r)) by lra. replace (7100 * (1 + i4) * r) with (7100 * r + 7100 * (i4 * r)) by ring. lra. }
    replace (42 * u * (r + 580 * u) + 580 * u) with (u * (42 * (r + 580 * u) + 580)) by ring. replace (7100 * (1 + i4) * u * r) with (u * (7100 * (1 + i4) * r)) by ring.
    apply Rmult_le_compat_l; lra.
  Qed.
  Lemma phase_err sec : Rabs (fst (floop_hz csq cex pow f sg mu a I n sec) - Re (loop_hz f sg mu a I n sec)) <= 1000 * (1 + / x) * u * Rabs (n * I / (2 * a)).
  Proof.
    destruct parts_err as (Fc & P & J & NF & _ & JE & CE). rewrite CE, loop_parts by assumption. cbn [fst Re]. clear CE.
    pose proof (xpos f sg mu a F0 S0 M0 A0) as XP. pose proof (Iex_le x XP) as IL. pose proof u_lt as U.
    pose proof (camp_x f sg mu a I F0 S0 M0 A0) as CX. set (c := camp f sg mu a I) in *. set (j := Iex x) in *.
    assert (IX : 0 < / x) by (apply Rinv_0_lt_compat, XP). set (B := Rabs (I / (2 * a))). assert (B0 : 0 <= B) by apply Rabs_pos.
    assert (CB : Rabs c * x = B * / x).
    { rewrite CX. unfold Rdiv at 1. rewrite Rabs_mult. fold B. rewrite (Rabs_pos_eq (/ x ^ 2)) by (apply Rlt_le, Rinv_0_lt_compat, pow_lt, XP). clear -XP. set (X := x) in *. clearbody X. field. lra. }
    assert (UX' : u * x <= / 1000000 * x) by (apply Rmult_le_compat_r; lra).
    assert (JL : Rabs J <= 81 / 10 * x) by (replace J with ((J - j) + j) by ring; eapply Rle_trans; [apply abs_sum; [exact JE|exact IL]|lra]).
    assert (NT : near 40 (fl (Fc * J)) (c * J)).
    { apply near_round. replace 39%nat with (39 + 0)%nat by lia. apply near_mult; [exact NF|apply near_refl]. }
    pose proof (near_err 40 41 _ _ ltac:(lia) ltac:(cbn; lra) NT) as TE. set (T := fl (Fc * J)) in *.
    assert (TE' : Rabs (T - c * j) <= 933 * u * (B * / x)).
    { rewrite <- CB. replace (T - c * j) with ((T - c * J) + c * (J - j)) by ring. pose proof (Rabs_pos c).
      eapply Rle_trans; [apply abs_sum; [exact TE|rewrite Rabs_mult; apply Rmult_le_compat_l; [lra|exact JE]]|]. rewrite Rabs_mult.
      assert (41 * u * (Rabs c * Rabs J) <= 41 * u * (Rabs c * (81 / 10 * x))) by (apply Rmult_le_compat_l; [lra|]; apply Rmult_le_compat_l; lra).
      assert (0 <= u * (Rabs c * x)) by (apply Rmult_le_pos; [lra|apply Rmult_le_pos; lra]). lra. }
    set (D := B * / x) in *. assert (D0 : 0 <= D) by (apply Rmult_le_pos; lra).
    assert (CJ : Rabs (c * j) <= 802 / 100 * D).
    { rewrite <- CB, Rabs_mult. pose proof (Rabs_pos c). apply Rle_trans with (Rabs c * (802 / 100 * x)); [apply Rmult_le_compat_l; lra|lra]. }
    assert (UD : u * D <= / 1000000 * D) by (apply Rmult_le_compat_r; lra). assert (UB : u * B <= / 1000000 * B) by (apply Rmult_le_compat_r; lra).
    assert (UD0 : 0 <= u * D) by (apply Rmult_le_pos; lra). assert (UB0 : 0 <= u * B) by (apply Rmult_le_pos; lra).
    assert (IB : Rabs (I / 2 / a) = B) by (unfold B; f_equal; field; lra).
    assert (NP : near 2 (fl (fl (I / 2) / a)) (I / 2 / a)).
    { apply near_round. replace 1%nat with (1 + 0)%nat by lia. apply near_div; [apply near_fl|apply near_refl]. }
    pose proof (near_err 2 3 _ _ ltac:(lia) ltac:(cbn; lra) NP) as PE. rewrite IB in PE. set (p := fl (fl (I / 2) / a)) in *.
    assert (W : exists s, fl (n * if sec then fl (- T - p) else - T) = fl (n * s) /\ Rabs (s - (- (c * j) - if sec then I / 2 / a else 0)) <= 950 * (u * D) + 6 * (u * B) /\ Rabs s <= 81 / 10 * D + 101 / 100 * B).
    { destruct sec.
      - exists (fl (- T - p)). split; [reflexivity|].
        assert (Q : Rabs (- T - p - (- (c * j) - I / 2 / a)) <= 933 * (u * D) + 3 * (u * B)).
        { replace (- T - p - (- (c * j) - I / 2 / a)) with (- (T - c * j) - (p - I / 2 / a)) by ring. eapply Rle_trans; [apply abs_dif; [rewrite Rabs_Ropp; exact TE'|exact PE]|lra]. }
        assert (L0 : Rabs (- (c * j) - I / 2 / a) <= 802 / 100 * D + B) by (apply abs_dif; [rewrite Rabs_Ropp; exact CJ|rewrite IB; lra]).
        assert (L1 : Rabs (- T - p) <= 8022 / 1000 * D + 1001 / 1000 * B).
        { replace (- T - p) with ((- T - p - (- (c * j) - I / 2 / a)) + (- (c * j) - I / 2 / a)) by ring. eapply Rle_trans; [apply abs_sum; [exact Q|exact L0]|lra]. }
        pose proof (fl_err (- T - p)) as R1.
        assert (R2 : 2 * u * Rabs (- T - p) <= 2 * u * (8022 / 1000 * D + 1001 / 1000 * B)) by (apply Rmult_le_compat_l; lra).
        split.
        + replace (fl (- T - p) - (- (c * j) - I / 2 / a)) with ((fl (- T - p) - (- T - p)) + (- T - p - (- (c * j) - I / 2 / a))) by ring.
          eapply Rle_trans; [apply abs_sum; [exact R1|exact Q]|]. lra.
        + replace (fl (- T - p)) with ((fl (- T - p) - (- T - p)) + (- T - p)) by ring. eapply Rle_trans; [apply abs_sum; [exact R1|exact L1]|]. lra.
      - exists (- T). split; [reflexivity|]. split.
        + replace (- T - (- (c * j) - 0)) with (- (T - c * j)) by ring. rewrite Rabs_Ropp. lra.
        + replace (- T) with (- (T - c * j) - c * j) by ring. eapply Rle_trans; [apply abs_dif; [rewrite Rabs_Ropp; exact TE'|exact CJ]|]. lra. }
    destruct W as (s & -> & SE & SL). set (s' := - (c * j) - if sec then I / 2 / a else 0) in *. pose proof (fl_err (n * s)) as R1. rewrite Rabs_mult in R1.
    assert (NB : Rabs (n * I / (2 * a)) = Rabs n * B) by (unfold B; rewrite <- Rabs_mult; f_equal; field; lra). rewrite NB.
    replace (fl (n * s) - n * s') with ((fl (n * s) - n * s) + n * (s - s')) by ring. pose proof (Rabs_pos n) as N0.
    eapply Rle_trans; [apply abs_sum; [exact R1|rewrite Rabs_mult; apply Rmult_le_compat_l; [exact N0|exact SE]]|].
    apply Rle_trans with (Rabs n * (2 * u * (81 / 10 * D + 101 / 100 * B) + (950 * (u * D) + 6 * (u * B)))).
    { rewrite (Rmult_plus_distr_l (Rabs n) (2 * u * (81 / 10 * D + 101 / 100 * B))). apply Rplus_le_compat_r. replace (2 * u * (Rabs n * Rabs s)) with (Rabs n * (2 * u * Rabs s)) by ring. apply Rmult_le_compat_l; [exact N0|]. apply Rmult_le_compat_l; lra. }
    replace (1000 * (1 + / x) * u * (Rabs n * B)) with (Rabs n * (1000 * (u * B) + 1000 * (u * D))) by (unfold D; ring). apply Rmult_le_compat_l; [exact N0|]. lra.
  Qed.
End Acc.
