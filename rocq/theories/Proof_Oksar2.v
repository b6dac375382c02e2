(** Proofs about the Oksar solver: it computes Okada's closed form. *)
From Coq Require Import Reals List Bool Arith Lra Lia.
From Verif Require Import Numpy Model_Oksar Spec_Oksar Proof_Oksar.
Import ListNotations.
Open Scope R_scope.

Ltac fld := field; repeat split; first [assumption|lra|idtac].

Section One.
Variables alp3 sd cd d1 d2 xi et q : R.
Hypothesis unit : sd * sd + cd * cd = 1.
Let r := c2_r xi et q.
Let rd := c2_rd sd cd xi et q.
Hypothesis Hr : 0 < r.
Hypothesis Hret : 0 < r + et.
Hypothesis Hrd : 0 < rd.
Lemma oR : o_R xi et q = r.
Proof. unfold o_R, r, c2_r. f_equal. ring. Qed.
Lemma oX : o_X xi q = sqrt (xi * xi + q * q).
Proof. unfold o_X. f_equal. ring. Qed.
Lemma rr : r * r = xi * xi + et * et + q * q.
Proof. unfold r, c2_r. apply sqrt_sqrt. nra. Qed.
Lemma not_edge : edge_case xi et q = false.
Proof.
  unfold edge_case. destruct (Rltb et 0) eqn:E1; [|reflexivity]. apply Rltb_true in E1.
  destruct (Reqb q 0) eqn:E2; [|reflexivity]. apply Reqb_true in E2. cbn.
  apply Reqb_false. intros E3. assert (Q := rr). rewrite E2, E3 in Q. assert (r = - et) by nra. lra.
Qed.
Lemma ale_eq : c2_ale xi et q = ln (r + et).
Proof. unfold c2_ale. now rewrite not_edge. Qed.
Lemma y11_eq : c2_y11 xi et q = 1 / (r * (r + et)).
Proof. unfold c2_y11. now rewrite not_edge. Qed.
Lemma qx_eq : q * c2_x11 xi et q = q / (r * (r + xi)).
Proof.
  unfold c2_x11. fold r. destruct (Rltb xi 0 && Reqb q 0 && Reqb et 0) eqn:E.
  - apply andb_prop in E. destruct E as [E _]. apply andb_prop in E. destruct E as [_ E]. apply Reqb_true in E.
    rewrite E. unfold Rdiv. ring.
  - unfold Rdiv. ring.
Qed.
Lemma tt_eq : c2_tt xi et q = o_theta xi et q.
Proof. unfold c2_tt, o_theta, Reqb. rewrite oR. fold r. destruct (Req_EM_T q 0); reflexivity. Qed.
Lemma rd_eq : o_R xi et q + o_d sd cd et q = rd.
Proof. rewrite oR. reflexivity. Qed.

(** a dip that is not vertical: the same at every corner *)
Hypothesis Hcd : cd <> 0.
Lemma cdF : Reqb cd 0 = false.
Proof. now apply Reqb_false. Qed.
Lemma I5_gen : o_I5 alp3 sd cd xi et q = alp3 * (cd * ai4 sd cd xi et q - xi / rd * sd).
Proof.
  unfold o_I5, ai4. rewrite cdF. fold rd. destruct (Req_EM_T cd 0) as [|_]; [contradiction|].
  unfold Reqb. destruct (Req_EM_T xi 0) as [->|n]; [unfold Rdiv; ring|].
  rewrite oX, oR. fold r. cbv zeta. set (at_ := atan _). fld.
Qed.
Lemma I4_gen : o_I4 alp3 sd cd xi et q = alp3 / cd * (ln rd - sd * ln (r + et)).
Proof. unfold o_I4. destruct (Req_EM_T cd 0) as [|_]; [contradiction|]. rewrite rd_eq, oR. field. exact Hcd. Qed.
Lemma I3_gen : o_I3 alp3 sd cd xi et q = alp3 * ai3 sd cd xi et q.
Proof.
  unfold o_I3, ai3. destruct (Req_EM_T cd 0) as [|_]; [contradiction|]. rewrite cdF, I4_gen, rd_eq, oR, ale_eq. fold rd.
  cbv zeta. change (o_y sd cd et q) with (c2_y sd cd et q). set (l1 := ln rd). set (l2 := ln (r + et)).
  replace (c2_y sd cd et q * cd / rd - l2 + sd * l1) with (c2_y sd cd et q * cd / rd - (sd * sd + cd * cd) * l2 + sd * l1) by (rewrite unit; ring).
  fld.
Qed.
Lemma I1_gen : o_I1 alp3 sd cd xi et q = alp3 * ai1 sd cd xi et q.
Proof.
  unfold o_I1, ai1. destruct (Req_EM_T cd 0) as [|_]; [contradiction|]. rewrite I5_gen, rd_eq. fold rd.
  set (a := ai4 sd cd xi et q).
  replace (- xi / rd * cd - a * sd) with (- (xi / rd) * (cd * cd) / cd - a * sd) by fld.
  replace (cd * cd) with (1 - sd * sd) by (rewrite <- unit; ring). fld.
Qed.
Lemma strike_gen : rot_du sd cd (du_strike alp3 sd cd d1 xi et q) =
  (- d1 / PI2 * fst3 (o_strike alp3 sd cd xi et q), - d1 / PI2 * snd3 (o_strike alp3 sd cd xi et q),
   - d1 / PI2 * trd3 (o_strike alp3 sd cd xi et q)).
Proof.
  assert (HP : PI2 <> 0) by (unfold PI2; lra).
  assert (A3 : ai3 sd cd xi et q = (c2_y sd cd et q * cd / rd - ln (r + et) + sd * ln rd) / (cd * cd)).
  { unfold ai3. rewrite cdF, ale_eq. reflexivity. }
  unfold rot_du, du_strike, o_strike, fst3, snd3, trd3. cbn [fst snd]. cbv zeta.
  unfold o_I2. rewrite I1_gen, I3_gen, I4_gen, oR, <- tt_eq, y11_eq. fold r rd.
  unfold ai2. fold rd. rewrite A3. change (o_y sd cd et q) with (c2_y sd cd et q). change (o_d sd cd et q) with (c2_d sd cd et q).
  set (a := ai1 sd cd xi et q). set (t := c2_tt xi et q). set (l1 := ln rd). set (l2 := ln (r + et)).
  apply tri.
  - fld.
  - assert (C2 : cd * cd = 1 - sd * sd) by lra.
    assert (E : q * cd / (r + et) + c2_y sd cd et q * q / (r * (r + et)) = q / r * cd + q * (q / (r * (r + et))) * sd).
    { unfold c2_y. fld. }
    apply Rmult_eq_reg_r with (cd * cd * PI2); [|repeat apply Rmult_integral_contrapositive_currified; first [assumption|lra]].
    transitivity (d1 * (- (q / r * cd + q * (q / (r * (r + et))) * sd) * (cd * cd) + alp3 * (c2_y sd cd et q / rd * sd * cd * (cd * cd) + (l1 * (cd * cd) + (c2_y sd cd et q * cd / rd - l2 + sd * l1) * sd) * sd * sd))).
    + fld.
    + rewrite <- E. transitivity (d1 * (- (q * cd / (r + et) + c2_y sd cd et q * q / (r * (r + et))) * (cd * cd) + alp3 * (l2 * (cd * cd) + (c2_y sd cd et q * cd / rd - l2 + sd * l1)) * sd)).
      * f_equal. rewrite C2. fld.
      * fld.
  - assert (E : q * sd / (r + et) + c2_d sd cd et q * q / (r * (r + et)) = q / r * sd - q * (q / (r * (r + et))) * cd).
    { unfold c2_d. fld. }
    apply Rmult_eq_reg_r with (cd * PI2); [|apply Rmult_integral_contrapositive_currified; first [assumption|lra]].
    transitivity (d1 * (- (q / r * sd - q * (q / (r * (r + et))) * cd) * cd + alp3 * (c2_y sd cd et q / rd * sd * sd * cd - (l1 + (c2_y sd cd et q * cd / rd - l2 + sd * l1) / (cd * cd) * sd) * sd * (cd * cd)))).
    + fld.
    + rewrite <- E. transitivity (d1 * (- (q * sd / (r + et) + c2_d sd cd et q * q / (r * (r + et))) * cd - alp3 * (l1 - sd * l2) * sd)).
      * f_equal. assert (X : (l1 + (c2_y sd cd et q * cd / rd - l2 + sd * l1) / (cd * cd) * sd) * sd * (cd * cd) = (l1 * (cd * cd + sd * sd) + (c2_y sd cd et q * cd / rd - l2) * sd) * sd) by fld.
        rewrite X. replace (cd * cd + sd * sd) with 1 by lra. fld.
      * fld.
Qed.
Lemma dip_gen : rot_du sd cd (du_dip alp3 sd cd d2 xi et q) =
  (- d2 / PI2 * fst3 (o_dip alp3 sd cd xi et q), - d2 / PI2 * snd3 (o_dip alp3 sd cd xi et q),
   - d2 / PI2 * trd3 (o_dip alp3 sd cd xi et q)).
Proof.
  assert (HP : PI2 <> 0) by (unfold PI2; lra).
  unfold rot_du, du_dip, o_dip, fst3, snd3, trd3. cbn [fst snd]. cbv zeta.
  rewrite I1_gen, I3_gen, I5_gen, oR, <- tt_eq, qx_eq. unfold ai1. fold r rd.
  change (o_y sd cd et q) with (et * cd + q * sd). change (o_d sd cd et q) with (et * sd - q * cd).
  unfold Rdiv. set (a3 := ai3 sd cd xi et q). set (a4 := ai4 sd cd xi et q). set (t := c2_tt xi et q). set (ir := / r).
  set (ix := / (r * (r + xi))). set (ird := / rd). set (ip := / PI2).
  apply tri; ring.
Qed.
End One.

(** a vertical dip: the same up to a term that does not depend on et *)
Section Vertical.
Variables alp3 sd d1 d2 xi et q : R.
Hypothesis Hsd : sd = 1 \/ sd = -1.
Let r := c2_r xi et q.
Let rd := c2_rd sd 0 xi et q.
Hypothesis Hr : 0 < r.
Hypothesis Hret : 0 < r + et.
Hypothesis Hrd : 0 < rd.
Definition extra : R := if Req_EM_T sd 1 then 0 else alp3 * ln (xi * xi + q * q).
Lemma Z0 : Reqb 0 0 = true.
Proof. now apply Reqb_true. Qed.
Lemma rd_v : rd = r + et * sd.
Proof. unfold rd, c2_rd, c2_d. fold r. ring. Qed.
Lemma extra_eq : alp3 * (ln rd - sd * ln (r + et)) = extra.
Proof.
  unfold extra. destruct (Req_EM_T sd 1) as [E|E].
  - rewrite rd_v, E, Rmult_1_r. ring.
  - assert (F : sd = -1) by tauto. replace (ln rd - sd * ln (r + et)) with (ln rd + ln (r + et)) by (rewrite F; ring).
    rewrite <- ln_mult by assumption. f_equal. f_equal. rewrite rd_v, F. assert (Q := rr xi et q). fold r in Q.
    replace ((r + et * -1) * (r + et)) with (r * r - et * et) by ring. rewrite Q. ring.
Qed.
Lemma strike_vert : rot_du sd 0 (du_strike alp3 sd 0 d1 xi et q) =
  (- d1 / PI2 * fst3 (o_strike alp3 sd 0 xi et q), - d1 / PI2 * snd3 (o_strike alp3 sd 0 xi et q) + d1 / PI2 * extra,
   - d1 / PI2 * trd3 (o_strike alp3 sd 0 xi et q)).
Proof.
  assert (HP : PI2 <> 0) by (unfold PI2; lra).
  assert (S2 : sd * sd = 1) by (destruct Hsd as [E|E]; rewrite E; ring).
  unfold rot_du, du_strike, o_strike, fst3, snd3, trd3. cbn [fst snd]. cbv zeta.
  rewrite <- extra_eq. unfold o_I2, o_I1, o_I3, o_I4, ai2, ai1, ai3, ai4. rewrite Z0.
  destruct (Req_EM_T 0 0) as [_|n]; [|lra].
  rewrite (rd_eq sd 0 xi et q), (oR xi et q), <- (tt_eq xi et q), (y11_eq xi et q), (ale_eq xi et q) by assumption. fold r rd.
  unfold o_y, o_d, c2_y.
  set (t := c2_tt xi et q). set (l1 := ln rd). set (l2 := ln (r + et)).
  apply tri.
  - apply Rmult_eq_reg_r with PI2; [|exact HP].
    transitivity (d1 * (- (xi * q / (r * (r + et))) - t + alp3 / 2 * (xi * q / (rd * rd)) * (sd * sd) * sd)); [fld|rewrite S2; fld].
  - apply Rmult_eq_reg_r with PI2; [|exact HP].
    transitivity (d1 * (- (q * q / (r * (r + et)) * sd) + alp3 * (l1 + (et / rd + q * q * sd / (rd * rd) - l2) / 2 * sd) * (sd * sd))); [fld|rewrite S2].
    transitivity (d1 * (- (q * q / (r * (r + et)) * sd) + alp3 * (l1 + (et / rd + q * q * sd / (rd * rd) - l2) / 2 * sd))); [fld|fld].
  - apply Rmult_eq_reg_r with PI2; [|exact HP].
    transitivity (d1 * (- (q / r) * sd + alp3 * q * sd / rd * (sd * sd))); [fld|rewrite S2].
    transitivity (d1 * (- (q * (r + et) * sd / (r * (r + et))) + alp3 * q * sd / rd)); [fld|fld].
Qed.
Lemma dip_vert : rot_du sd 0 (du_dip alp3 sd 0 d2 xi et q) =
  (- d2 / PI2 * fst3 (o_dip alp3 sd 0 xi et q), - d2 / PI2 * snd3 (o_dip alp3 sd 0 xi et q),
   - d2 / PI2 * trd3 (o_dip alp3 sd 0 xi et q)).
Proof.
  unfold rot_du, du_dip, o_dip, fst3, snd3, trd3. cbn [fst snd]. cbv zeta.
  rewrite (oR xi et q), <- (tt_eq xi et q), (qx_eq xi et q). fold r rd.
  unfold o_y, o_d. unfold Rdiv. set (t := c2_tt xi et q). set (ir := / r).
  set (ix := / (r * (r + xi))). set (ird := / rd). set (ip := / PI2).
  apply tri; ring.
Qed.
End Vertical.

(** the checks give what the closed form needs *)
Lemma st_ok_pos sd cd al1 al2 aw1 aw2 al aw P : st_ok sd cd al1 al2 aw1 aw2 al (st_at sd cd aw P) = true ->
  let xi := fst P - al in let et := snd P * cd - aw in let q := snd P * sd in
  0 < c2_r xi et q /\ 0 < c2_r xi et q + et /\ 0 < c2_rd sd cd xi et q.
Proof.
  unfold st_ok, st_at. cbn [sX sp set_ sq]. cbv zeta. intros H.
  apply andb_prop in H; destruct H as [H H4]; apply andb_prop in H; destruct H as [H _]; apply andb_prop in H; destruct H as [H1 H2].
  apply negb_true_iff in H1, H2, H4. apply Reqb_false in H1. apply Rltb_false in H2, H4. unfold tiny in *.
  split; [|split; lra]. assert (N := sqrt_pos ((fst P - al) * (fst P - al) + (snd P * cd - aw) * (snd P * cd - aw) + snd P * sd * (snd P * sd))).
  unfold c2_r in *. lra.
Qed.
Lemma du_tot_split alp3 sd cd d1 d2 xi et q : du_tot alp3 sd cd d1 d2 xi et q =
  add3 (rot_du sd cd (du_strike alp3 sd cd d1 xi et q)) (rot_du sd cd (du_dip alp3 sd cd d2 xi et q)).
Proof.
  unfold du_tot. destruct (du_strike alp3 sd cd d1 xi et q) as [[a b] c]. destruct (du_dip alp3 sd cd d2 xi et q) as [[a' b'] c'].
  unfold add3, rot_du. apply tri; ring.
Qed.
Lemma val4_okada alp3 sd cd al1 al2 aw1 aw2 d1 d2 P : sd * sd + cd * cd = 1 ->
  ok4 sd cd al1 al2 aw1 aw2 P = true ->
  val4 alp3 sd cd al1 al2 aw1 aw2 d1 d2 P = okada PI2 alp3 sd cd P al1 al2 aw1 aw2 d1 d2.
Proof.
  intros U K. unfold ok4 in K. apply andb_prop in K; destruct K as [K K4]; apply andb_prop in K; destruct K as [K K3]; apply andb_prop in K; destruct K as [K1 K2].
  apply st_ok_pos in K1, K2, K3, K4. destruct P as [X Y]. unfold val4, du_at, okada, chinnery. cbn [fst snd] in *. cbv zeta in *.
  destruct K1 as (A1 & B1 & C1), K2 as (A2 & B2 & C2), K3 as (A3 & B3 & C3), K4 as (A4 & B4 & C4).
  rewrite !du_tot_split.
  destruct (Req_EM_T cd 0) as [Z|N].
  - assert (S : sd = 1 \/ sd = -1).
    { rewrite Z in U. destruct (Rle_dec 0 sd); [left|right]; nra. }
    subst cd. rewrite !strike_vert, !dip_vert by assumption. unfold add3, neg3.
    apply tri; ring.
  - rewrite !strike_gen, !dip_gen by assumption. unfold add3, neg3. apply tri; ring.
Qed.
