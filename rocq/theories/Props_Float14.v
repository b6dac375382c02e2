(** C148: the circular loop near its wire in floating point. *)
From Coq Require Import ZArith Reals Lra Lia Psatz.
From Flocq Require Import Core.
From Coquelicot Require Import Coquelicot.
From Verif Require Import Vec3 Numpy Model_Static Model_Float Model_Special Model_Float14 Spec_Float Spec_Float9
  Proof_Float Proof_Float2 Proof_Float3 Proof_Float14 Proof_Float27.
Open Scope R_scope.

(** C148: rounding never moves the parameter of the elliptic integrals out of their domain *)
Theorem C148_domain a rho z : 0 < a -> 0 <= rho -> 0 <= fk_sq a rho z <= 1.
Proof. intros A P. apply k_domain; assumption. Qed.

(** off the wire the vector potential (outside the neighbourhood of the axis, where the elliptic integrals are used) and the axial flux
    density are numbers: the square of the least distance from the wire is at least 2^-52 of that of the greatest *)
Theorem C148_off_the_wire pow ek kk a mu current rho z : good_pow pow -> elliptic_library ek kk -> 0 < a -> 0 <= rho ->
  (a + rho) ^ 2 + z ^ 2 <= 2 ^ 52 * ((a - rho) ^ 2 + z ^ 2) ->
  (fsmall_rho pow a rho z = false -> exists x, fcl_A_phi pow ek kk a mu current rho z = Fin x) /\ exists x, fcl_B_z pow ek kk a mu current rho z = Fin x.
Proof. apply off_wire. Qed.

Local Lemma K_exists m : m < 1 -> ex_RInt (fun t => / sqrt (1 - m * (sin t) ^ 2)) 0 (PI / 2).
Proof.
  intros M. apply (ex_RInt_continuous (V := R_CompleteNormedModule)). intros t _. apply (ex_derive_continuous (V := R_NormedModule) (fun t => / sqrt (1 - m * (sin t) ^ 2)) t).
  assert (H : 0 < 1 - m * (sin t) ^ 2). { pose proof (sin2_cos2 t) as S. unfold Rsqr in S. pose proof (pow2_ge_0 (cos t)). pose proof (pow2_ge_0 (sin t)). destruct (Rle_dec m 0); nra. }
  auto_derive. replace (1 + - (m * (sin t * (sin t * 1)))) with (1 - m * (sin t) ^ 2) by ring. split; [exact H|]. split; [|exact I]. apply Rgt_not_eq, sqrt_lt_R0, H.
Qed.

(** FINDING: nearer to the wire than 2^-27 radii, but not on it, the parameter rounds to 1, where the first elliptic integral is infinite: the
    vector potential and the axial flux density are returned as infinities with the sign of the current, inside and outside the loop.  The
    exact parameter is less than 1, and the integral there is a number. *)
Theorem C148_near_the_wire_refuted pow ek kk a mu current rho z : good_pow pow -> elliptic_library ek kk -> 0 < a -> 0 <= rho -> mu * current <> 0 ->
  0 < (a - rho) ^ 2 + z ^ 2 <= (a / 2 ^ 27) ^ 2 ->
  fcl_A_phi pow ek kk a mu current rho z = Inf (sgn_neg (mu * current)) /\ fcl_B_z pow ek kk a mu current rho z = Inf (sgn_neg (mu * current)) /\
  let m := 1 - ((a - rho) ^ 2 + z ^ 2) / ((a + rho) ^ 2 + z ^ 2) in
  m < 1 /\ ex_RInt (fun t => / sqrt (1 - m * (sin t) ^ 2)) 0 (PI / 2).
Proof.
  intros GP EL A P N [N0 NW]. destruct (near_wire pow ek kk a mu current rho z GP EL A P N) as [E1 E2]; [split; [exact N0|]; replace (a ^ 2 / 2 ^ 54) with ((a / 2 ^ 27) ^ 2) by field; exact NW|].
  split; [exact E1|]. split; [exact E2|]. intros m. assert (M : m < 1). { unfold m. pose proof (BE_pos a rho z A P) as B. pose proof (Rdiv_lt_0_compat _ _ N0 B). lra. } split; [exact M|apply K_exists, M].
Qed.

(** a correctly rounded library, a station next to the wire and one in the middle of the loop *)
Example C148_witness : good_pow (fun x k => fl (x ^ k)) /\
  elliptic_library (fun m => Fin (fl (if Req_EM_T m 1 then 1 else ellipe m))) (fun m => if Req_EM_T m 1 then Inf false else Fin (fl (ellipk m))) /\
  0 < (1 - (1 + / 2 ^ 30)) ^ 2 + 0 ^ 2 <= (1 / 2 ^ 27) ^ 2 /\ (1 + / 2) ^ 2 + 0 ^ 2 <= 2 ^ 52 * ((1 - / 2) ^ 2 + 0 ^ 2).
Proof.
  split; [intros x k; apply (near_within' 8 1); [lia|cbn; lra|apply near_fl]|]. split; [|lra]. split.
  - intros m M. destruct (Req_EM_T m 1) as [E|E]; [lra|]. do 2 eexists. split; reflexivity.
  - destruct (Req_EM_T 1 1) as [E|E]; [|lra]. split; [|reflexivity]. f_equal. apply fl_id. exact (float_bpow 0).
Qed.
Print Assumptions C148_domain.
Print Assumptions C148_off_the_wire.
Print Assumptions C148_near_the_wire_refuted.
