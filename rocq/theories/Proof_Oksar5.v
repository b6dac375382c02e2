(** Proofs about the Oksar solver: a station's displacement depends on the other stations. *)
From Coq Require Import Reals List Bool Arith Lra Lia.
From Verif Require Import Numpy Model_Oksar Spec_Oksar Proof_Oksar Proof_Oksar2 Proof_Oksar3 Proof_Oksar4.
Import ListNotations.
Open Scope R_scope.

Lemma corner_ext alp3 sd cd al1 al2 aw1 aw2 d1 d2 al minus u l l' :
  l <> [] -> l' <> [] -> dc_max al l = dc_max al l' ->
  map (snap_station (dc_max al l)) l = map (snap_station (dc_max al l)) l' ->
  corner alp3 sd cd al1 al2 aw1 aw2 d1 d2 al minus u l = corner alp3 sd cd al1 al2 aw1 aw2 d1 d2 al minus u l'.
Proof.
  intros N N' E M. unfold corner. destruct l as [|s r] eqn:El; [congruence|]. destruct l' as [|s' r'] eqn:El'; [congruence|].
  rewrite <- El in *. rewrite <- El' in *. cbv zeta. rewrite <- E, M. reflexivity.
Qed.

(** the case: a vertical fault, one station close to its line and two far away *)
Definition near : R * R := (6, 1 / 1000).
Definition near0 : R * R := (6, 0).
Definition far1 : R * R := (100000, 1).
Definition far2 : R * R := (100000, 2).
Ltac absr := repeat match goal with
  | |- context [Rabs ?x] => (rewrite (Rabs_right x) by lra) || (rewrite (Rabs_left x) by lra)
  | H : context [Rabs ?x] |- _ => (rewrite (Rabs_right x) in H by lra) || (rewrite (Rabs_left x) in H by lra) end.
Ltac in_cases H := cbn [In] in H; repeat (destruct H as [H|H]; [subst|]); [..|contradiction].

Lemma near_clear : nothing_rounded (-1) 0 [near] (-5) 5 1 10.
Proof.
  intros P al aw x IP Ia Iw Ix. destruct IP as [<-|[]].
  destruct Ia as [<-|[<-|[]]]; destruct Iw as [<-|[<-|[]]]; destruct Ix as [<-|[<-|[<-|[]]]];
  right; unfold near; cbn [fst snd]; (split; [absr; lra|]);
  intros P' y [<-|[]] [<-|[<-|[<-|[]]]]; cbn [fst snd]; absr; lra.
Qed.
Lemma batch_clear : nothing_rounded (-1) 0 [near0; far1; far2] (-5) 5 1 10.
Proof.
  intros P al aw x IP Ia Iw Ix.
  destruct IP as [<-|[<-|[<-|[]]]];
  destruct Ia as [<-|[<-|[]]]; destruct Iw as [<-|[<-|[]]]; destruct Ix as [<-|[<-|[<-|[]]]];
  unfold near0, far1, far2; cbn [fst snd];
  first [left; lra | right; (split; [absr; lra|]);
  intros P' y [<-|[<-|[<-|[]]]] [<-|[<-|[<-|[]]]]; cbn [fst snd]; absr; lra].
Qed.
(** the checks pass at stations well off the fault's ends *)
Lemma st_ok_far al aw P : (al = -5 \/ al = 5) -> (aw = 1 \/ aw = 10) -> 6 <= fst P ->
  st_ok (-1) 0 (-5) 5 1 10 al (st_at (-1) 0 aw P) = true.
Proof.
  intros Ha Hw HP. apply st_ok_iff. cbn [st_at sX sp set_ sq].
  assert (X : 1 <= fst P - al) by (destruct Ha as [->| ->]; lra).
  replace (snd P * 0 - aw) with (- aw) by ring. set (xi := fst P - al) in *. set (q := snd P * -1).
  assert (Rr := rr xi (- aw) q). assert (Rp : 0 <= c2_r xi (- aw) q) by apply sqrt_pos.
  unfold c2_rd, c2_d. set (r := c2_r xi (- aw) q) in *.
  assert (Q : 0 <= q * q) by nra. assert (A : 1 <= aw <= 10) by lra.
  assert (B : aw + 1 / 1000 <= r).
  { apply Rnot_lt_le. intros L. assert (r * r <= (aw + 1 / 1000) * (aw + 1 / 1000)) by nra. nra. }
  unfold tiny. split; [lra|]. split; [lra|]. split; [|lra].
  intros (_ & [(_ & E)|(_ & E)]); lra.
Qed.
Lemma ok4_far P : 6 <= fst P -> ok4 (-1) 0 (-5) 5 1 10 P = true.
Proof. intros H. apply ok4_iff. repeat split; apply st_ok_far; auto. Qed.

(** the batch gives what it would with the near station moved onto the fault's line *)
Lemma dcm al aw P Q S : al = -5 \/ al = 5 -> aw = 1 \/ aw = 10 -> In P [near; near0] -> Q = far1 -> S = far2 ->
  dc_max al (map (st_at (-1) 0 aw) [P; Q; S]) = 100000 - al.
Proof.
  intros Ha Hw HP -> ->. apply Rle_antisym.
  - apply dc_max_attained; [destruct Ha as [->| ->]; lra|].
    intros s x Is Ix. cbn [map In] in Is.
    destruct HP as [<-|[<-|[]]]; destruct Ha as [->| ->]; destruct Hw as [->| ->]; destruct Is as [<-|[<-|[<-|[]]]];
    destruct Ix as [<-|[<-|[<-|[]]]]; unfold near, near0, far1, far2; cbn [st_at sX set_ sq fst snd];
    unfold Rabs; destruct Rcase_abs; lra.
  - apply Rle_trans with (Rabs (100000 - al)); [apply Rle_abs|].
    apply (dc_max_bound al _ (st_at (-1) 0 aw far1)); [cbn; tauto|left; reflexivity].
Qed.
Lemma snap_near m : 100000 - 5 <= m -> snap m (1 / 1000 * -1) = 0.
Proof.
  intros H. unfold snap. replace (Rltb (Rabs (1 / 1000 * -1 / m)) EPS) with true; [reflexivity|].
  symmetry. apply Rltb_true. unfold EPS, Rdiv. rewrite Rabs_mult, Rabs_inv, (Rabs_right m) by lra.
  rewrite (Rabs_left (1 * / 1000 * -1)) by lra. apply Rmult_lt_reg_r with m; [lra|]. rewrite Rmult_assoc, Rinv_l by lra. lra.
Qed.
Lemma snap0 m : snap m 0 = 0.
Proof. unfold snap. destruct (_ || _); reflexivity. Qed.
Lemma snap_batch al aw m : al = -5 \/ al = 5 -> m = 100000 - al ->
  map (snap_station m) (map (st_at (-1) 0 aw) [near; far1; far2]) = map (snap_station m) (map (st_at (-1) 0 aw) [near0; far1; far2]).
Proof.
  intros Ha ->. cbn [map]. f_equal. unfold snap_station, st_at, near, near0. cbn [fst snd sX sp set_ sq].
  rewrite snap_near by (destruct Ha as [->| ->]; lra). replace (0 * -1) with 0 by ring. rewrite snap0.
  replace (1 / 1000 * 0) with (0 * 0) by ring. reflexivity.
Qed.
Lemma batch_moved alpha d1 d2 :
  dc3d3 alpha [near; far1; far2] (-90) (-5) 5 1 10 d1 d2 = dc3d3 alpha [near0; far1; far2] (-90) (-5) 5 1 10 d1 d2.
Proof.
  rewrite !(dc3d3_run _ _ _ _ _ _ _ _ _ (-1) 0) by (apply dip_consts_spec, dip_90).
  unfold run. cbv zeta. rewrite !start1.
  rewrite (corner_ext _ _ _ _ _ _ _ _ _ (-5) false (Vec 0 0 0) (map (st_at (-1) 0 1) [near; far1; far2]) (map (st_at (-1) 0 1) [near0; far1; far2])).
  - reflexivity.
  - discriminate.
  - discriminate.
  - rewrite !dcm by (cbn; auto). reflexivity.
  - rewrite dcm by (cbn; auto). apply (snap_batch (-5)); auto.
Qed.

(** the vertical displacement at the near station *)
Definition uz_corner (xi et q : R) : R := - (q / c2_r xi et q) + 1 / 2 * (q / (c2_r xi et q - et)).
Lemma trd_vert xi et q : 0 < o_R xi et q -> 0 < o_R xi et q + et -> 0 < o_R xi et q - et ->
  trd3 (o_strike (1 / 2) (-1) 0 xi et q) = uz_corner xi et q.
Proof.
  intros A B C. unfold trd3, o_strike, o_I4, o_d, uz_corner. cbn [snd].
  destruct (Req_EM_T 0 0) as [_|n]; [|lra]. rewrite <- (oR xi et q).
  replace (et * -1 - q * 0) with (- et) by ring. fold (o_R xi et q - et). 
  replace (o_R xi et q + - et) with (o_R xi et q - et) by ring. field. repeat split; lra.
Qed.
Lemma corner_bounds xi et q : et < 0 -> 0 < xi -> q < 0 ->
  - q / 2 / c2_r xi et q <= uz_corner xi et q <= - q / c2_r xi et q.
Proof.
  intros He Hx Hq. unfold uz_corner. assert (Rr := rr xi et q). assert (Rp : 0 <= c2_r xi et q) by apply sqrt_pos.
  set (r := c2_r xi et q) in *. assert (P : 0 < r) by nra.
  assert (I : 0 < / (r - et) <= / r) by (split; [apply Rinv_0_lt_compat; lra|apply Rinv_le_contravar; lra]).
  unfold Rdiv. set (i := / r) in *. set (j := / (r - et)) in *. nra.
Qed.
Lemma C81_refuted_lemma : exists w x y z,
  dc3d3 (2 / 3) [(6, 1 / 1000)] (-90) (-5) 5 1 10 1 0 = Ok (Mat [w; w; w]) /\
  dc3d3 (2 / 3) [(6, 1 / 1000); (100000, 1); (100000, 2)] (-90) (-5) 5 1 10 1 0 = Ok (Mat [x; y; z]) /\
  snd x = 0 /\ 0 < snd w.
Proof.
  assert (D : 1 <> 0 \/ 0 <> 0) by (left; lra).
  pose proof (one_spec (2 / 3) (-90) (-5) 5 1 10 1 0 (-1) 0 dip_90 D near near_clear) as H1. cbv zeta in H1.
  rewrite ok4_far in H1 by (cbn; lra).
  pose proof (batch_spec (2 / 3) (-90) (-5) 5 1 10 1 0 (-1) 0 dip_90 D [near0; far1; far2] (or_intror eq_refl) batch_clear) as H2.
  cbn [forallb] in H2. rewrite !ok4_far in H2 by (cbn; lra). cbn [andb] in H2. rewrite <- batch_moved in H2. cbn [map expand] in H2.
  eexists; eexists; eexists; eexists. split; [exact H1|]. split; [exact H2|]. clear H1 H2 D.
  replace ((1 - 2 / 3) / (2 / 3)) with (1 / 2) by field.
  split.
  - unfold okada, near0, chinnery, trd3, o_strike, o_I4. cbn [snd]. destruct (Req_EM_T 0 0) as [_|n]; [|lra]. unfold Rdiv. ring.
  - unfold okada, near, chinnery. cbn [snd].
    replace (6 - -5) with 11 by ring. replace (6 - 5) with 1 by ring.
    replace (1 / 1000 * 0 - 1) with (-1) by ring. replace (1 / 1000 * 0 - 10) with (-10) by ring.
    set (q := 1 / 1000 * -1). assert (Q : q = - (1 / 1000)) by (unfold q; ring).
    assert (HP : 0 < / PI2) by (apply Rinv_0_lt_compat; unfold PI2; lra).
    assert (G : forall xi et, 1 <= xi -> et = -1 \/ et = -10 -> trd3 (o_strike (1 / 2) (-1) 0 xi et q) = uz_corner xi et q).
    { intros xi et Hx He. assert (Rr := rr xi et q). assert (Rp : 0 <= c2_r xi et q) by apply sqrt_pos.
      apply trd_vert; rewrite oR; assert (0 < q * q) by (rewrite Q; lra); set (r := c2_r xi et q) in *; try nra;
      destruct He as [-> | ->]; nra. }
    rewrite !G by (auto; lra).
    assert (B1 := corner_bounds 11 (-1) q). assert (B2 := corner_bounds 11 (-10) q).
    assert (B3 := corner_bounds 1 (-1) q). assert (B4 := corner_bounds 1 (-10) q).
    destruct B1 as [_ B1]; try lra. destruct B2 as [B2 _]; try lra. destruct B3 as [B3 _]; try lra. destruct B4 as [_ B4]; try lra.
    assert (LB : forall a xi et, 0 < a -> a * a <= xi * xi + et * et -> a <= c2_r xi et q).
    { intros a xi et Ha Hl. assert (Rr := rr xi et q). assert (Rp : 0 <= c2_r xi et q) by apply sqrt_pos.
      apply Rnot_lt_le. intros L. nra. }
    assert (R1 : 11 <= c2_r 11 (-1) q) by (apply LB; lra).
    assert (R2 : 0 < c2_r 11 (-10) q) by (apply Rlt_le_trans with 11; [lra|apply LB; lra]).
    assert (R4 : 10 <= c2_r 1 (-10) q) by (apply LB; lra).
    assert (R3 : 0 < c2_r 1 (-1) q <= 3 / 2).
    { split; [apply Rlt_le_trans with 1; [lra|apply LB; lra]|]. assert (Rr := rr 1 (-1) q). assert (Rp : 0 <= c2_r 1 (-1) q) by apply sqrt_pos.
      rewrite Q in *. apply Rnot_lt_le. intros L. nra. }
    assert (I1 : / c2_r 11 (-1) q <= / 11) by (apply Rinv_le_contravar; lra).
    assert (I4 : / c2_r 1 (-10) q <= / 10) by (apply Rinv_le_contravar; lra).
    assert (I3 : / (3 / 2) <= / c2_r 1 (-1) q) by (apply Rinv_le_contravar; lra).
    assert (I2 : 0 < / c2_r 11 (-10) q) by (now apply Rinv_0_lt_compat).
    set (r1 := c2_r 11 (-1) q) in *. set (r2 := c2_r 11 (-10) q) in *. set (r3 := c2_r 1 (-1) q) in *. set (r4 := c2_r 1 (-10) q) in *.
    set (u1 := uz_corner 11 (-1) q) in *. set (u2 := uz_corner 11 (-10) q) in *. set (u3 := uz_corner 1 (-1) q) in *. set (u4 := uz_corner 1 (-10) q) in *.
    clearbody r1 r2 r3 r4 u1 u2 u3 u4. unfold Rdiv in *.
    set (i1 := / r1) in *. set (i2 := / r2) in *. set (i3 := / r3) in *. set (i4 := / r4) in *. clearbody i1 i2 i3 i4.
    assert (V1 : u1 <= 1 * / 1000 * / 11) by nra. assert (V2 : 0 <= u2) by nra. assert (V3 : 1 * / 1000 * / 3 <= u3) by nra.
    assert (V4 : u4 <= 1 * / 1000 * / 10) by nra.
    match goal with |- 0 < _ + - 0 * _ * ?t => set (dd := t) end.
    assert (u1 - u2 - u3 + u4 < 0) by lra. nra.
Qed.
Lemma C81_end_lemma alpha B dip al1 al2 aw1 aw2 d1 d2 sd cd :
  dip_sin_cos (dip * pl8) sd cd -> sd <> 0 -> 0 < aw1 -> nothing_rounded sd cd B al1 al2 aw1 aw2 -> In (al1, 0) B ->
  dc3d3 alpha B dip al1 al2 aw1 aw2 d1 d2 = Raise (if Nat.eqb (List.length B) 1 then OtherError else TypeError).
Proof.
  intros D Hs Ha N I. unfold dc3d3. rewrite (proj1 (dip_consts_spec dip sd cd) D). cbv zeta.
  rewrite start1. rewrite corner_chk; [|intros Z; destruct B; [destruct I|discriminate]|apply (clear_of sd cd al1 al2 aw1 aw2); [exact N|now left|now left]].
  unfold chk. cbv zeta.
  assert (E1 : existsb (fun s => Reqb (c2_r (sX s - al1) (set_ s) (sq s)) 0) (map (st_at sd cd aw1) B) = false).
  { apply Bool.not_true_is_false. intros H. apply existsb_exists in H. destruct H as (s & Is & E). apply in_map_iff in Is.
    destruct Is as ([X Y] & <- & IP). apply Reqb_true in E. cbn [st_at sX sp set_ sq fst snd] in E.
    assert (Q := rr (X - al1) (Y * cd - aw1) (Y * sd)). rewrite E in Q.
    pose proof (Rle_0_sqr (X - al1)) as S1. pose proof (Rle_0_sqr (Y * cd - aw1)) as S2. pose proof (Rle_0_sqr (Y * sd)) as S3. unfold Rsqr in *.
    assert (H : Y * sd = 0) by (apply Rsqr_0_uniq; unfold Rsqr; lra). assert (Y = 0) by (apply Rmult_integral in H; destruct H; [assumption|contradiction]). subst Y. nra. }
  rewrite E1.
  assert (E2 : existsb (fun s => Rltb (c2_r (sX s - al1) (set_ s) (sq s) + set_ s) tiny) (map (st_at sd cd aw1) B) = true).
  { apply existsb_exists. exists (st_at sd cd aw1 (al1, 0)). split; [now apply in_map|]. cbn [st_at sX sp set_ sq fst snd]. apply Rltb_true.
    unfold c2_r. replace ((al1 - al1) * (al1 - al1) + (0 * cd - aw1) * (0 * cd - aw1) + 0 * sd * (0 * sd)) with (aw1 * aw1) by ring.
    rewrite sqrt_square by lra. unfold tiny. lra. }
  rewrite E2. rewrite map_length. reflexivity.
Qed.
Lemma end_clear : nothing_rounded (-1) 0 [near0; far1; far2] 6 7 1 10.
Proof.
  intros P al aw x IP Ia Iw Ix.
  destruct IP as [<-|[<-|[<-|[]]]];
  destruct Ia as [<-|[<-|[]]]; destruct Iw as [<-|[<-|[]]]; destruct Ix as [<-|[<-|[<-|[]]]];
  unfold near0, far1, far2; cbn [fst snd];
  first [left; lra | right; (split; [absr; lra|]);
  intros P' y [<-|[<-|[<-|[]]]] [<-|[<-|[<-|[]]]]; cbn [fst snd]; absr; lra].
Qed.
