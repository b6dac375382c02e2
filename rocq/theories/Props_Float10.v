(** C144: the flux density of a straight wire in floating point. *)
From Coq Require Import ZArith Reals Lra Lia Psatz List.
From Flocq Require Import Core.
From Verif Require Import Vec3 Numpy Model_Spatial Model_Static Model_Float Model_Float5 Model_Float9 Model_Float10 Spec_Float Spec_Float4 Spec_Float7 Spec_Float8
  Proof_Spatial Proof_Float Proof_Float2 Proof_Float3 Proof_Float9 Proof_Float21 Proof_Float22.
Import ListNotations.
Open Scope R_scope.

(** C144: at every station off its line a value comes back whose error is at most 200 units of roundoff of the field mu I / (2 pi rho)
    of an infinite wire *)
Theorem C144_everywhere nrm dot rapply rinv ct st at2 L mu current sigma p :
  good_norm nrm -> absorbs nrm -> exact_on_axes dot -> keeps_identity rapply -> keeps_identity rinv -> good_cos ct -> good_sin st -> good_atan2 at2 ->
  float L -> 0 < L -> float (vx p) -> float (vy p) -> float (vz p) -> vy p <> 0 \/ vz p <> 0 ->
  exists B B', lc_flux_density (x_wire L current sigma mu) p = Ok (Some B) /\
    flc_flux_density nrm dot rapply rinv ct st at2 (x_wire L current sigma mu) p = Ok B' /\
    vnorm (vsub B' B) <= 200 * / 2 ^ 53 * (Rabs (mu * current) / (2 * PI * rho p)).
Proof.
  intros GN AB EX KA KI GC GS GA FL L0 FX FY FZ OFF. destruct p as [x y z]. cbn [vx vy vz] in *. do 2 eexists.
  split; [apply (e_value L x y z L0 OFF)|]. split; [apply (f_value nrm dot rapply rinv ct st at2 AB EX KA KI L x y z FL FX FY FZ L0)|].
  eapply Rle_trans; [apply (wire_error nrm ct st at2 GN GC GS GA L x y z OFF)|]. fold u. unfold rho. cbn [vx vy vz].
  pose proof (q_pos y z OFF) as Q. set (q := sqrt (y ^ 2 + z ^ 2)) in *. pose proof PI_RGT_0 as P. pose proof u_pos as U. apply Rmult_le_compat_l; [lra|].
  pose proof (cosines L x y z OFF) as C. set (S := Rabs (x / _) + _) in *.
  assert (E : Rabs (- mu * current / (4 * PI)) = Rabs (mu * current) / (4 * PI)). { unfold Rdiv. rewrite Rabs_mult, (Rabs_pos_eq (/ (4 * PI))) by (left; apply Rinv_0_lt_compat; lra). f_equal. rewrite <- Rabs_Ropp. f_equal. ring. }
  rewrite E. replace (Rabs (mu * current) / (2 * PI * q)) with (Rabs (mu * current) / (4 * PI) * (2 / q)) by (field; lra).
  apply Rmult_le_compat_l; [apply Rmult_le_pos; [apply Rabs_pos|left; apply Rinv_0_lt_compat; lra]|]. apply Rmult_le_compat_r; [left; apply Rinv_0_lt_compat, Q|exact C].
Qed.

(** beside the wire the relative error is at most 200 units of roundoff, at every distance *)
Theorem C144_beside_the_wire nrm dot rapply rinv ct st at2 L mu current sigma p :
  good_norm nrm -> absorbs nrm -> exact_on_axes dot -> keeps_identity rapply -> keeps_identity rinv -> good_cos ct -> good_sin st -> good_atan2 at2 ->
  float L -> 0 < L -> float (vx p) -> float (vy p) -> float (vz p) -> vy p <> 0 \/ vz p <> 0 -> 0 <= vx p <= L ->
  exists B B', lc_flux_density (x_wire L current sigma mu) p = Ok (Some B) /\
    flc_flux_density nrm dot rapply rinv ct st at2 (x_wire L current sigma mu) p = Ok B' /\ vnorm (vsub B' B) <= 200 * / 2 ^ 53 * vnorm B.
Proof.
  intros GN AB EX KA KI GC GS GA FL L0 FX FY FZ OFF X. destruct p as [x y z]. cbn [vx vy vz] in *. do 2 eexists.
  split; [apply (e_value L x y z L0 OFF)|]. split; [apply (f_value nrm dot rapply rinv ct st at2 AB EX KA KI L x y z FL FX FY FZ L0)|].
  rewrite norm_V by exact OFF. rewrite <- (beside L x y z OFF X). apply (wire_error nrm ct st at2 GN GC GS GA L x y z OFF).
Qed.

(** FINDING: in the cones of half angle 2^-28 around the extensions of the wire the two cosines round to the same number, and the
    result is exactly zero although the field is not: its relative error is 1 *)
Theorem C144_beyond_the_ends_refuted nrm dot rapply rinv ct st at2 L mu current sigma p :
  absorbs nrm -> exact_on_axes dot -> keeps_identity rapply -> keeps_identity rinv -> mu <> 0 -> current <> 0 ->
  float L -> 0 < L -> float (vx p) -> float (vy p) -> float (vz p) -> vy p <> 0 \/ vz p <> 0 ->
  (L < vx p /\ rho p <= (vx p - L) / 2 ^ 28) \/ (vx p < 0 /\ rho p <= - vx p / 2 ^ 28) ->
  exists B, lc_flux_density (x_wire L current sigma mu) p = Ok (Some B) /\ B <> vzero /\
    flc_flux_density nrm dot rapply rinv ct st at2 (x_wire L current sigma mu) p = Ok vzero.
Proof.
  intros AB EX KA KI M N FL L0 FX FY FZ OFF C. destruct p as [x y z]. cbn [vx vy vz] in *. unfold rho in C. cbn [vx vy vz] in C. eexists.
  split; [apply (e_value L x y z L0 OFF)|]. split; [apply real_field; assumption|].
  rewrite (f_value nrm dot rapply rinv ct st at2 AB EX KA KI L x y z FL FX FY FZ L0). f_equal. apply lost_zero. apply lost; try assumption.
  pose proof (q_pos y z OFF) as Q. assert (Q2 : sqrt (y ^ 2 + z ^ 2) * sqrt (y ^ 2 + z ^ 2) = y ^ 2 + z ^ 2) by (apply sqrt_sqrt; pose proof (q2 y z OFF); lra).
  rewrite <- Q2. set (q := sqrt (y ^ 2 + z ^ 2)) in *. destruct C as [[A B]|[A B]]; [left|right]; (split; [exact A|]).
  - replace ((x - L) ^ 2 / 2 ^ 56) with ((x - L) / 2 ^ 28 * ((x - L) / 2 ^ 28)) by field. apply Rmult_le_compat; lra.
  - replace (x ^ 2 / 2 ^ 56) with (- x / 2 ^ 28 * (- x / 2 ^ 28)) by field. apply Rmult_le_compat; lra.
Qed.

(** correctly rounded libraries, stations beside the wire and beyond its ends *)
Example C144_witness : good_norm fnorm /\ absorbs fnorm /\ exact_on_axes (fun a b => fl (fl (fl (vx a * vx b) + fl (vy a * vy b)) + fl (vz a * vz b))) /\
  keeps_identity mvec /\ good_cos (fun t => fl (cos t)) /\ good_sin (fun t => fl (sin t)) /\ good_atan2 (fun y x => fl (atan2 y x)) /\
  (0 <= vx (V3 0 1 0) <= 1) /\ (let p := V3 (IZR (2 ^ 30)) 1 0 in 1 < vx p /\ rho p <= (vx p - 1) / 2 ^ 28).
Proof.
  assert (W : forall x, within 8 (fl x) x).
  { intros x. unfold within. eapply Rle_trans; [apply fl_err|]. apply Rmult_le_compat_r; [apply Rabs_pos|]. fold u. pose proof u_pos. lra. }
  split. { intro v. apply (near_within' 8 4); [lia|cbn; lra|].
    unfold fnorm. assert (SQ : forall x, near 1 (fl (x * x)) (x * x)) by (intro; apply near_fl).
    apply (near_weaken 3); [lia|]. unfold vnorm. change 3%nat with (S 2). apply near_round, near_sqrt; [apply vnorm2_nonneg|]. unfold vnorm2.
    apply (near_weaken 3); [lia|]. apply near_round. apply near_plus; [nra|nra| |apply (near_weaken 1); [lia|apply SQ]].
    apply near_round. apply near_plus; [nra|nra|apply SQ|apply SQ]. }
  split; [exact fnorm_absorbs|]. split; [exact left_dot_exact|]. split; [intros v _ _ _; destruct v; vring|].
  split; [intro; apply W|]. split; [intro; apply W|]. split; [intros y x; split; [apply fl_float|apply W]|]. cbn [vx]. split; [lra|]. cbv zeta. unfold rho. cbn [vx vy vz].
  replace (1 ^ 2 + 0 ^ 2) with 1 by ring. rewrite sqrt_1. change (IZR (2 ^ 30)) with 1073741824. lra.
Qed.
Print Assumptions C144_everywhere.
Print Assumptions C144_beside_the_wire.
Print Assumptions C144_beyond_the_ends_refuted.
