(** The layered dipole's field and the depth of the ground *)
From Coq Require Import String Reals List Lia Lra.
From Coquelicot Require Import Coquelicot.
From Verif Require Import Vec3 Cplx Numpy Model_RTE Model_Layered Spec_FDEM Spec_RTE Spec_Layered Spec_Hankel Spec_Depth Proof_Hankel Proof_RTE13.
Import ListNotations.
Open Scope R_scope.

Lemma csum_minus n g h : (csum n g - csum n h)%C = csum n (fun i => g i - h i)%C.
Proof. induction n as [|n IH]; cbn [csum]; [ring|]. rewrite <- IH. ring. Qed.
Lemma csum_bound n g b : (forall i, (i < n)%nat -> Cmod (g i) <= b i) -> Cmod (csum n g) <= rsum n b.
Proof.
  induction n as [|n IH]; intros H; cbn [csum rsum]; [rewrite Cmod_0; lra|].
  eapply Rle_trans; [apply Cmod_triangle|]. apply Rplus_le_compat; [apply IH; auto|apply H; lia].
Qed.

Definition sees (mu_0 : R) (s : layered) (f : nat) (sigma t : list R) : Prop :=
  layer_sigmas s f = conductivities sigma /\ layer_mus s f = nonmagnetic mu_0 sigma /\ ly_thickness s = t.

Lemma list_nth_seq (l : list C) : map (fun i => nth i l (RtoC 0)) (seq 0 (length l)) = l.
Proof.
  induction l as [|x l IH]; [reflexivity|]. cbn [length seq map nth]. f_equal. rewrite <- seq_shift, map_map. exact IH.
Qed.
Lemma over_sees mu_0 s f sigma t : earth sigma t -> over mu_0 s sigma t -> sees mu_0 s f sigma t.
Proof.
  intros (L & _) (Q & S & M & T). unfold sees, layer_sigmas, layer_mus, hat, n_layer. rewrite Q, S, M, T. cbn [pvalue].
  assert (L1 : length (conductivities sigma) = (length t + 1)%nat) by (unfold conductivities; rewrite map_length; exact L).
  assert (L2 : length (nonmagnetic mu_0 sigma) = (length t + 1)%nat) by (unfold nonmagnetic; rewrite map_length; exact L).
  split; [rewrite <- L1; apply list_nth_seq|]. split; [rewrite <- L2; apply list_nth_seq|reflexivity].
Qed.

Lemma depth_field_lemma0 mu_0 flt a b xyz field ra rb f k st tt sa ta sb tb :
  consistent a -> consistent b -> whole flt -> (forall x, In x (hf_base flt) -> 0 < x) -> field <> "total"%string ->
  ly_frequency a = ly_frequency b -> ly_location a = ly_location b -> ly_orientation a = ly_orientation b -> ly_moment a = ly_moment b ->
  magnetic_field mu_0 flt a xyz field = Ok ra -> magnetic_field mu_0 flt b xyz field = Ok rb ->
  (f < n_frequency a)%nat -> (k < length xyz)%nat -> beside (nth k xyz vzero) (ly_location a) ->
  0 < mu_0 -> 0 < nth f (ly_frequency a) 0 ->
  sees mu_0 a f (st ++ sa) (tt ++ ta) -> sees mu_0 b f (st ++ sb) (tt ++ tb) -> pack st tt -> earth sa ta -> earth sb tb ->
  let p := nth k xyz vzero in let q := ly_location a in let o := ly_orientation a in let rho := horizontally q p in
  exists ha hb, entry ra f k = Some ha /\ entry rb f k = Some hb /\ forall e,
    Cmod (cvdot ha e - cvdot hb e)%C <= Rabs (ly_moment a) / (4 * PI * rho) *
      rsum (length (hf_base flt)) (fun i => let la := nth i (hf_base flt) 0 / rho in
        exp (- la * (vz p + vz q + 2 * depth tt)) *
        (Rabs (vdot e (kernel0 o (vx p - vx q) (vy p - vy q) la) * nth i (hf_j0 flt) 0)
         + Rabs (vdot e (kernel1 o (vx p - vx q) (vy p - vy q) la) * nth i (hf_j1 flt) 0))).
Proof.
  intros Ca Cb W Bp NF Ef El Eo Em Ha Hb Hf Hk B Pm Pf (A1 & A2 & A3) (B1 & B2 & B3) HP HA HB p q o rho.
  destruct (field_lemma mu_0 flt a xyz field ra f k Ca W NF Ha Hf Hk B) as (ha & Ea & Va).
  assert (Hf' : (f < n_frequency b)%nat) by (unfold n_frequency in *; rewrite <- Ef; exact Hf).
  assert (B' : beside (nth k xyz vzero) (ly_location b)) by (rewrite <- El; exact B).
  destruct (field_lemma mu_0 flt b xyz field rb f k Cb W NF Hb Hf' Hk B') as (hb & Eb & Vb).
  exists ha, hb. split; [exact Ea|]. split; [exact Eb|]. intros e. rewrite Va, Vb.
  rewrite <- Ef, <- El, <- Eo, <- Em. fold p q o. fold rho.
  rewrite A1, A2, A3, B1, B2, B3.
  assert (Hr : 0 < rho) by (apply sqrt_lt_R0, horiz_pos, B).
  set (fr := nth f (ly_frequency a) 0) in *.
  unfold filtered.
  match goal with |- Cmod (?c * (?d * ?x) - ?c * (?d * ?y))%C <= _ => replace (c * (d * x) - c * (d * y))%C with (c * d * (x - y))%C by ring end.
  rewrite csum_minus, !Cmod_mult, !Cmod_R.
  replace (Rabs (ly_moment a / (4 * PI)) * Rabs (/ rho)) with (Rabs (ly_moment a) / (4 * PI * rho)).
  2:{ pose proof PI_RGT_0. rewrite Rabs_div by lra. rewrite (Rabs_right (4 * PI)) by lra. rewrite (Rabs_right (/ rho)) by (left; apply Rinv_0_lt_compat; exact Hr). field. lra. }
  apply Rmult_le_compat_l.
  { pose proof PI_RGT_0. apply Rdiv_le_0_compat; [apply Rabs_pos|]. apply Rmult_lt_0_compat; lra. }
  apply csum_bound. intros i Hi. cbv zeta. set (la := nth i (hf_base flt) 0 / rho).
  assert (Pla : 0 < la) by (apply Rdiv_lt_0_compat; [apply Bp, nth_In; exact Hi|exact Hr]).
  pose proof (C115_hidden_lemma mu_0 fr la st tt sa ta sb tb Pm Pf Pla HP HA HB) as K.
  set (xa := py_rTE mu_0 fr la (conductivities (st ++ sa)) (nonmagnetic mu_0 (st ++ sa)) (tt ++ ta)) in *.
  set (xb := py_rTE mu_0 fr la (conductivities (st ++ sb)) (nonmagnetic mu_0 (st ++ sb)) (tt ++ tb)) in *.
  set (w0 := nth i (hf_j0 flt) 0). set (w1 := nth i (hf_j1 flt) 0).
  set (k0 := vdot e (kernel0 o (vx p - vx q) (vy p - vy q) la)). set (k1 := vdot e (kernel1 o (vx p - vx q) (vy p - vy q) la)).
  set (E := exp (- la * (vz p + vz q))).
  replace (xa * RtoC (E * k0) * RtoC w0 + xa * RtoC (E * k1) * RtoC w1 - (xb * RtoC (E * k0) * RtoC w0 + xb * RtoC (E * k1) * RtoC w1))%C
    with ((xa - xb) * (RtoC (E * k0 * w0) + RtoC (E * k1 * w1)))%C by (rewrite !RtoC_mult; ring).
  rewrite Cmod_mult, <- RtoC_plus, Cmod_R.
  replace (- la * (vz p + vz q + 2 * depth tt)) with (- 2 * la * depth tt + - la * (vz p + vz q)) by ring. rewrite exp_plus. fold E.
  assert (PE : 0 < E) by apply exp_pos.
  rewrite (Rmult_assoc (exp (- 2 * la * depth tt))). apply Rmult_le_compat; [apply Cmod_ge_0|apply Rabs_pos|exact K|].
  replace (E * k0 * w0 + E * k1 * w1) with (E * (k0 * w0 + k1 * w1)) by ring. rewrite Rabs_mult, (Rabs_right E) by lra.
  apply Rmult_le_compat_l; [lra|]. apply Rabs_triang.
Qed.

Lemma depth_field_lemma mu_0 flt a b xyz field ra rb f k st tt sa ta sb tb :
  consistent a -> consistent b -> whole flt -> (forall x, In x (hf_base flt) -> 0 < x) -> field <> "total"%string ->
  same_survey a b ->
  magnetic_field mu_0 flt a xyz field = Ok ra -> magnetic_field mu_0 flt b xyz field = Ok rb ->
  (f < n_frequency a)%nat -> (k < length xyz)%nat -> beside (nth k xyz vzero) (ly_location a) ->
  0 < mu_0 -> 0 < nth f (ly_frequency a) 0 -> pack st tt -> earth sa ta -> earth sb tb ->
  over mu_0 a (st ++ sa) (tt ++ ta) -> over mu_0 b (st ++ sb) (tt ++ tb) ->
  let p := nth k xyz vzero in let q := ly_location a in let o := ly_orientation a in let rho := horizontally q p in
  exists ha hb, entry ra f k = Some ha /\ entry rb f k = Some hb /\ forall e,
    Cmod (cvdot ha e - cvdot hb e)%C <= Rabs (ly_moment a) / (4 * PI * rho) *
      rsum (length (hf_base flt)) (fun i => let la := nth i (hf_base flt) 0 / rho in
        exp (- la * (vz p + vz q + 2 * depth tt)) *
        (Rabs (vdot e (kernel0 o (vx p - vx q) (vy p - vy q) la) * nth i (hf_j0 flt) 0)
         + Rabs (vdot e (kernel1 o (vx p - vx q) (vy p - vy q) la) * nth i (hf_j1 flt) 0))).
Proof.
  intros Ca Cb W Bp NF (Ef & El & Eo & Em) Ha Hb Hf Hk B Pm Pf HP HA HB OA OB.
  apply (depth_field_lemma0 mu_0 flt a b xyz field ra rb f k st tt sa ta sb tb); try assumption; apply over_sees; try assumption; apply pack_app; assumption.
Qed.
