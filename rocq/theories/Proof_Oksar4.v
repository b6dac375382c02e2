(** Proofs about the Oksar solver: the constants, when it returns, mirror symmetry and
    the dependence on the other stations of the batch. *)
From Coq Require Import Reals List Bool Arith Lra Lia Machin Ratan.
From Verif Require Import Numpy Model_Oksar Spec_Oksar Proof_Oksar Proof_Oksar2 Proof_Oksar3.
Import ListNotations.
Open Scope R_scope.

Lemma PI_bounds : 314159265358979 / 100000000000000 <= PI <= 314159265358980 / 100000000000000.
Proof.
  destruct (PI_2_3_7_ineq 7) as [A B].
  unfold tg_alt, PI_2_3_7_tg, Ratan_seq in A, B.
  cbn [sum_f_R0 Nat.mul Nat.add pow] in A, B.
  simpl INR in A, B. split; lra.
Qed.
Lemma C91_constants_lemma : Rabs (PI2 - 2 * PI) <= 2 / 10 ^ 14 /\ Rabs (pl8 - PI / 180) <= 1 / 10 ^ 15.
Proof. destruct PI_bounds as [A B]. unfold PI2, pl8. split; apply Rabs_le; split; lra. Qed.
Lemma dip_90 : dip_sin_cos (-90 * pl8) (-1) 0.
Proof.
  destruct PI_bounds as [A B]. right.
  assert (E : -90 * pl8 = - (90 * pl8)) by ring. rewrite E, sin_neg, cos_neg.
  assert (X : 90 * pl8 = PI / 2 - (PI / 2 - 90 * pl8)) by ring.
  assert (D : 0 < PI / 2 - 90 * pl8 < 1 / 10000000) by (unfold pl8; split; lra).
  split; [|split; [reflexivity|right; split; [|reflexivity]]].
  - rewrite X, cos_shift. rewrite Rabs_right.
    + apply Rlt_trans with (PI / 2 - 90 * pl8); [apply sin_lt_x|]; lra.
    + apply Rle_ge, sin_ge_0; lra.
  - apply Ropp_lt_gt_0_contravar. apply sin_gt_0; unfold pl8; lra.
Qed.

(** ** when it returns *)
Lemma C91_defined_lemma alpha dip sd cd P al1 al2 aw1 aw2 d1 d2 :
  dip_sin_cos (dip * pl8) sd cd -> d1 <> 0 \/ d2 <> 0 -> nothing_rounded sd cd [P] al1 al2 aw1 aw2 ->
  snd P * sd <> 0 -> sd < 0 -> 0 <= aw1 -> 0 <= aw2 ->
  exists u, dc3d3 alpha [P] dip al1 al2 aw1 aw2 d1 d2 = Ok u.
Proof.
  intros Hd D N Q S A1 A2.
  pose proof (one_spec alpha dip al1 al2 aw1 aw2 d1 d2 sd cd Hd D P N) as H. cbv zeta in H.
  cut (ok4 sd cd al1 al2 aw1 aw2 P = true); [intros K; rewrite K in H; eexists; exact H|].
  assert (W : forall al aw, In al [al1; al2] -> In aw [aw1; aw2] -> 0 <= aw -> st_ok sd cd al1 al2 aw1 aw2 al (st_at sd cd aw P) = true).
  { intros al aw Ia Iw Hw. apply st_ok_iff. cbn [st_at sX sp set_ sq].
    set (xi := fst P - al). set (et := snd P * cd - aw). set (q := snd P * sd).
    destruct (N P al aw q) as [Z|[E F]]; [left; reflexivity|exact Ia|exact Iw|cbn; tauto|contradiction|].
    assert (Fx : 1 / 1000000 * Rabs xi <= Rabs q) by (apply (F P xi); cbn; tauto).
    assert (Fe : 1 / 1000000 * Rabs et <= Rabs q) by (apply (F P et); cbn; tauto).
    assert (Ed : c2_d sd cd et q = - (aw * sd)) by (unfold c2_d, et, q; ring).
    assert (Rr := rr xi et q). assert (Rp : 0 <= c2_r xi et q) by apply sqrt_pos. set (r := c2_r xi et q) in *.
    assert (B : forall x, Rabs x * Rabs x = x * x) by (intros x; rewrite <- Rabs_mult; apply Rabs_right; nra).
    assert (Bx := B xi). assert (Be := B et). assert (Bq := B q). 
    assert (Px := Rabs_pos xi). assert (Pe := Rabs_pos et). assert (Pq := Rabs_pos q).
    set (x := Rabs xi) in *. set (e := Rabs et) in *. set (w := Rabs q) in *.
    assert (r >= w) by nra. assert (r <= x + e + w) by nra.
    assert (et >= - e) by (unfold e, Rabs; destruct (Rcase_abs et); lra).
    assert (et <= e) by (apply Rle_abs).
    repeat split.
    - unfold tiny in *. lra.
    - unfold tiny. assert (G : (r + et) * (r - et) = xi * xi + q * q) by nra.
      assert (r - et <= 4000000 * w) by nra. assert (0 <= xi * xi) by nra.
      destruct (Rle_dec (1 / 100000000000000) (r + et)) as [?|n]; [assumption|exfalso].
      apply Rnot_le_lt in n. assert (w * w <= (r + et) * (r - et)) by nra.
      assert (0 <= r + et) by nra. assert ((r + et) * (r - et) <= 1 / 100000000000000 * (4000000 * w)) by nra. nra.
    - intros [Z _]. contradiction.
    - unfold c2_rd, tiny. fold r. rewrite Ed. nra. }
  apply ok4_iff. repeat split; apply W; cbn; auto.
Qed.

(** ** mirror image *)
Lemma oR_neg xi et q : o_R (- xi) et q = o_R xi et q.
Proof. unfold o_R. f_equal. ring. Qed.
Lemma oX_neg xi q : o_X (- xi) q = o_X xi q.
Proof. unfold o_X. f_equal. ring. Qed.
Lemma theta_neg xi et q : o_theta (- xi) et q = - o_theta xi et q.
Proof.
  unfold o_theta. rewrite oR_neg. destruct (Req_EM_T q 0); [ring|]. rewrite <- atan_opp. f_equal. unfold Rdiv. ring.
Qed.
Lemma I5_neg k sd cd xi et q : o_I5 k sd cd (- xi) et q = - o_I5 k sd cd xi et q.
Proof.
  unfold o_I5. rewrite oR_neg, oX_neg. destruct (Req_EM_T cd 0); [unfold Rdiv; ring|].
  destruct (Req_EM_T (- xi) 0), (Req_EM_T xi 0); try lra.
  set (N := et * _ + _). set (D := xi * _ * cd).
  replace (N / (- xi * (o_R xi et q + o_X xi q) * cd)) with (- (N / D)).
  - rewrite atan_opp. ring.
  - replace (- xi * (o_R xi et q + o_X xi q) * cd) with (- D) by (unfold D; ring).
    unfold Rdiv. rewrite Rinv_opp. ring.
Qed.
Lemma I4_neg k sd cd xi et q : o_I4 k sd cd (- xi) et q = o_I4 k sd cd xi et q.
Proof. unfold o_I4. now rewrite oR_neg. Qed.
Lemma I3_neg k sd cd xi et q : o_I3 k sd cd (- xi) et q = o_I3 k sd cd xi et q.
Proof. unfold o_I3. now rewrite oR_neg, I4_neg. Qed.
Lemma I1_neg k sd cd xi et q : o_I1 k sd cd (- xi) et q = - o_I1 k sd cd xi et q.
Proof. unfold o_I1. rewrite oR_neg, I5_neg. destruct (Req_EM_T cd 0); unfold Rdiv; ring. Qed.
(** the part of the dip-slip field that is odd only up to a function of eta *)
Lemma x11_neg xi et q : q / (o_R xi et q * (o_R xi et q - xi)) + q / (o_R xi et q * (o_R xi et q + xi)) = 2 * q / (et ^ 2 + q ^ 2).
Proof.
  destruct (Req_EM_T q 0) as [->|n]; [unfold Rdiv; ring|].
  assert (G : o_R xi et q * o_R xi et q = xi ^ 2 + et ^ 2 + q ^ 2) by (unfold o_R; apply sqrt_sqrt; nra).
  assert (P : 0 <= o_R xi et q) by apply sqrt_pos. set (r := o_R xi et q) in *.
  assert (0 < q * q) by nra. assert (r <> 0) by nra. assert (F : (r - xi) * (r + xi) = et ^ 2 + q ^ 2) by nra.
  assert (r - xi <> 0) by (intros Z; rewrite Z in F; nra). assert (r + xi <> 0) by (intros Z; rewrite Z in F; nra).
  rewrite <- F. field. auto.
Qed.
Lemma okada_mirror tp k sd cd X Y a aw1 aw2 d1 d2 :
  okada tp k sd cd (- X, Y) (- a) a aw1 aw2 d1 d2 =
  (let '(x, y, z) := okada tp k sd cd (X, Y) (- a) a aw1 aw2 d1 (- d2) in (x, - y, - z)).
Proof.
  unfold okada, chinnery, o_strike, o_dip, fst3, snd3, trd3. cbn [fst snd]. cbv zeta.
  replace (- X - - a) with (- (X - a)) by ring. replace (- X - a) with (- (X - - a)) by ring.
  set (x1 := X - - a). set (x2 := X - a). set (p := Y * cd). set (q := Y * sd).
  unfold o_I2. rewrite !oR_neg, !theta_neg, !I5_neg, !I4_neg, !I3_neg, !I1_neg.
  assert (H : forall y xi et, y * q / (o_R xi et q * (o_R xi et q + - xi)) = y * (2 * q / (et ^ 2 + q ^ 2)) - y * q / (o_R xi et q * (o_R xi et q + xi))).
  { intros y xi et. rewrite <- (x11_neg xi et q). unfold Rminus, Rdiv. ring. }
  rewrite !H. apply tri; unfold Rdiv; ring.
Qed.
Lemma C92_mirror_lemma alpha dip sd cd X Y a aw1 aw2 d1 d2 u v :
  dip_sin_cos (dip * pl8) sd cd -> d1 <> 0 \/ d2 <> 0 -> nothing_rounded sd cd [(X, Y)] (- a) a aw1 aw2 ->
  dc3d3 alpha [(X, Y)] dip (- a) a aw1 aw2 d1 (- d2) = Ok (Mat [u; u; u]) ->
  dc3d3 alpha [(- X, Y)] dip (- a) a aw1 aw2 d1 d2 = Ok v ->
  let w := (let '(x, y, z) := u in (x, - y, - z)) in v = Mat [w; w; w].
Proof.
  intros Hd D N E1 E2 w.
  assert (N' : nothing_rounded sd cd [(- X, Y)] (- a) a aw1 aw2).
  { assert (M : forall al aw y, In y (coords sd cd (- X, Y) al aw) -> exists y', In y' (coords sd cd (X, Y) (- al) aw) /\ Rabs y' = Rabs y).
    { intros al aw y [<-|[<-|[<-|[]]]]; cbn [fst snd coords].
      - exists (X - - al). split; [cbn; tauto|]. rewrite <- Rabs_Ropp. f_equal. ring.
      - exists (Y * cd - aw). split; [cbn; tauto|reflexivity].
      - exists (Y * sd). split; [cbn; tauto|reflexivity]. }
    assert (Ma : forall al, In al [- a; a] -> In (- al) [- a; a]) by (intros al [<-|[<-|[]]]; cbn; rewrite ?Ropp_involutive; auto).
    intros P al aw x [<-|[]] Ia Iw Ix. destruct (M al aw x Ix) as (x' & Ix' & Ax).
    destruct (N (X, Y) (- al) aw x' (or_introl eq_refl) (Ma al Ia) Iw Ix') as [Z|[A B]].
    - left. rewrite Z, Rabs_R0 in Ax. destruct (Req_EM_T x 0) as [|n]; [assumption|]. apply Rabs_no_R0 in n. congruence.
    - right. rewrite <- Ax. split; [exact A|]. intros P' y [<-|[]] Iy. destruct (M al aw y Iy) as (y' & Iy' & Ay).
      rewrite <- Ay. exact (B (X, Y) y' (or_introl eq_refl) Iy'). }
  pose proof (one_spec alpha dip (- a) a aw1 aw2 d1 (- d2) sd cd Hd ltac:(destruct D; [left; assumption|right; lra]) (X, Y) N) as H1.
  pose proof (one_spec alpha dip (- a) a aw1 aw2 d1 d2 sd cd Hd D (- X, Y) N') as H2. cbv zeta in *.
  destruct (ok4 sd cd (- a) a aw1 aw2 (X, Y)); [|destruct H1 as (e & H1); rewrite H1 in E1; discriminate].
  destruct (ok4 sd cd (- a) a aw1 aw2 (- X, Y)); [|destruct H2 as (e & H2); rewrite H2 in E2; discriminate].
  rewrite E1 in H1. rewrite E2 in H2. 
  assert (G : forall a b : R * R * R, Ok (Mat [a; a; a]) = Ok (Mat [b; b; b]) -> a = b) by (intros ? ? E; injection E; auto).
  apply G in H1. unfold w. rewrite H1, <- okada_mirror. congruence.
Qed.
