(** C147: the potential of current electrodes in a half-space in floating point. *)
From Coq Require Import ZArith Reals Lra Lia Psatz List.
From Flocq Require Import Core.
From Verif Require Import Vec3 Numpy Model_Static Model_Float Model_Float13 Spec_Float
  Proof_Spatial Proof_Float Proof_Float2 Proof_Float3 Proof_Float9 Proof_Float13 Proof_Float26.
Import ListNotations.
Open Scope R_scope.

Local Lemma below p : vz p <= 0 -> any_above [p] = false.
Proof. intros H. cbn. unfold Rltb. destruct (Rlt_dec 0 (vz p)) as [L|L]; [lra|reflexivity]. Qed.

(** C147: the computed potential of the pair of electrodes A, B at M, and its difference between M and N, is within 18 units of roundoff of the
    sum of the absolute potentials of the single electrodes *)
Theorem C147_voltage s m : vz m <= 0 ->
  (exists v, dh_potential s [m] None = Ok [v] /\
    Rabs (fdh_potential s m None - v) <= 15 * / 2 ^ 53 * (Rabs (hs_V (HS (dh_rho s) (dh_current s) (dh_a s)) m) + Rabs (hs_V (HS (dh_rho s) (dh_current s) (dh_b s)) m))) /\
  (forall n, vz n <= 0 -> exists v, dh_potential s [m] (Some [n]) = Ok [v] /\
    Rabs (fdh_potential s m (Some n) - v) <=
      18 * / 2 ^ 53 * (Rabs (hs_V (HS (dh_rho s) (dh_current s) (dh_a s)) m) + Rabs (hs_V (HS (dh_rho s) (dh_current s) (dh_b s)) m) + (Rabs (hs_V (HS (dh_rho s) (dh_current s) (dh_a s)) n) + Rabs (hs_V (HS (dh_rho s) (dh_current s) (dh_b s)) n)))).
Proof.
  intros M. split.
  - eexists. split; [unfold dh_potential, hs_potential; rewrite (below m M); reflexivity|]. apply (pair_ae s m).
  - intros n Hn. eexists. split; [unfold dh_potential, hs_potential; rewrite (below m M), (below n Hn); reflexivity|]. apply (four_ae s m n).
Qed.

(** exchanging the current electrode and the potential electrode returns the same floating point number *)
Theorem C147_pole_pole_reciprocity rho current a m : fhs_potential rho current a m = fhs_potential rho current m a.
Proof. apply pole_reciprocal. Qed.

(** exchanging A and B, or M and N, changes exactly the sign *)
Theorem C147_polarity s m n :
  fdh_potential (DHS (dh_rho s) (dh_current s) (dh_b s) (dh_a s)) m None = - fdh_potential s m None /\
  fdh_potential (DHS (dh_rho s) (dh_current s) (dh_b s) (dh_a s)) m (Some n) = - fdh_potential s m (Some n) /\
  fdh_potential s n (Some m) = - fdh_potential s m (Some n).
Proof.
  assert (E : forall p, fdh_pair (DHS (dh_rho s) (dh_current s) (dh_b s) (dh_a s)) p = - fdh_pair s p) by (intros p; apply fl_sub_swap).
  split; [apply E|]. split; [|apply fl_sub_swap]. unfold fdh_potential. rewrite !E, <- fl_opp. f_equal. ring.
Qed.

(** FINDING: far from a pair of electrodes on the surface the potential is returned as exactly zero although it is not: the two distances round
    to the same number when the electrodes are closer together than 2^-55 of the distance x of the station across them *)
Theorem C147_distant_pair_refuted rho current L x y z : rho <> 0 -> current <> 0 -> 0 < L -> float x -> 0 < x -> L <= x / 2 ^ 55 -> z <= 0 ->
  let s := DHS rho current (V3 0 0 0) (V3 L 0 0) in let p := V3 (- x) y z in
  exists v, dh_potential s [p] None = Ok [v] /\ v <> 0 /\ fdh_potential s p None = 0.
Proof.
  intros NR NC PL F P B Z s p. eexists. split; [unfold dh_potential, hs_potential; rewrite (below p Z); reflexivity|]. split.
  - cbn [fst snd]. apply (far_real rho current x L y z NR NC P PL).
  - apply (far_zero rho current x L y z F P). lra.
Qed.

(** electrodes a metre apart, and a station far along the surface *)
Example C147_witness : exists L x, 0 < L /\ float x /\ 0 < x /\ L <= x / 2 ^ 55 /\ vz (V3 (- x) 0 0) <= 0 /\
  exists v, dh_potential (DHS 1 1 (V3 0 0 0) (V3 L 0 0)) [V3 1 2 (-3)] (Some [V3 4 5 (-6)]) = Ok [v].
Proof.
  exists 1, (bpow radix2 60). split; [lra|]. split; [apply float_bpow|]. split; [apply bpow_gt_0|]. split; [change (bpow radix2 60) with 1152921504606846976; lra|]. split; [cbn; lra|].
  destruct (C147_voltage (DHS 1 1 (V3 0 0 0) (V3 1 0 0)) (V3 1 2 (-3))) as [_ H]; [cbn; lra|]. destruct (H (V3 4 5 (-6))) as (v & E & _); [cbn; lra|]. exists v. exact E.
Qed.
Print Assumptions C147_voltage.
Print Assumptions C147_pole_pole_reciprocity.
Print Assumptions C147_polarity.
Print Assumptions C147_distant_pair_refuted.
