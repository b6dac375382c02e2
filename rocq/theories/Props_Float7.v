(** C138: the vertical transient of a vertical magnetic dipole on a half-space in floating point. *)
From Coq Require Import ZArith Reals Lra Lia Psatz.
From Flocq Require Import Core.
From Coquelicot Require Import Coquelicot.
From Verif Require Import Vec3 Model_TDEM Proof_TDEM3 Model_Float Model_Float2 Model_Float7 Spec_Float Spec_Float2 Proof_Float Proof_Float2 Proof_Float3 Proof_Float15 Proof_Float16.
Open Scope R_scope.

(** C138: while the diffusion length sqrt(4 t/(mu sigma)) is at most a quarter of the offset, the vertical field and its rate are accurate *)
Theorem C138_early pow ferf fexp t sigma mu moment x y :
  good_pow pow -> good_erf ferf -> good_exp fexp -> 0 < t -> 0 < sigma -> 0 < mu -> (x <> 0 \/ y <> 0) -> t <= mu * sigma * (x ^ 2 + y ^ 2) / 64 ->
  within 75 (fvmd_hz pow ferf fexp t sigma mu moment x y) (vz (vmd_H t sigma mu moment x y)) /\
  within 75 (fvmd_dhz pow ferf fexp t sigma mu moment x y) (vz (vmd_dH t sigma mu moment x y)).
Proof.
  intros GP GE GX T S M A L. assert (R2 : vmd_off x y ^ 2 = x ^ 2 + y ^ 2) by (unfold vmd_off; rewrite <- Rsqr_pow2; apply Rsqr_sqrt; nra).
  rewrite <- R2 in L. split; [now apply hz_early|now apply dhz_early].
Qed.

(** C138, FINDING: from the time 2^25 mu sigma r^2 on, r the offset, for every library, both results are 0 or more than 5 times too large *)
Theorem C138_late_refuted pow ferf fexp t sigma mu moment x y :
  good_pow pow -> good_erf ferf -> good_exp fexp -> 0 < t -> 0 < sigma -> 0 < mu -> (x <> 0 \/ y <> 0) -> moment <> 0 -> 2 ^ 25 * (mu * sigma * (x ^ 2 + y ^ 2)) <= t ->
  useless 5 (fvmd_hz pow ferf fexp t sigma mu moment x y) (vz (vmd_H t sigma mu moment x y)) /\
  useless 5 (fvmd_dhz pow ferf fexp t sigma mu moment x y) (vz (vmd_dH t sigma mu moment x y)).
Proof.
  intros GP GE GX T S M A NM L. assert (R2 : vmd_off x y ^ 2 = x ^ 2 + y ^ 2) by (unfold vmd_off; rewrite <- Rsqr_pow2; apply Rsqr_sqrt; nra).
  rewrite <- R2 in L. split; [now apply hz_late|now apply dhz_late].
Qed.

(** such libraries exist, and so do early and late times *)
Example C138_witness : good_pow (fun x k => fl (x ^ k)) /\ good_erf (fun x => fl (erf x)) /\ good_exp (fun x => fl (exp x)) /\
  (exists t, 0 < t <= 1 * 1 * (3 ^ 2 + 4 ^ 2) / 64) /\ (exists t, 2 ^ 25 * (1 * 1 * (3 ^ 2 + 4 ^ 2)) <= t).
Proof.
  assert (F : forall x, within 8 (fl x) x) by (intros x; apply (near_within' 8 1); [lia|cbn; lra|apply near_fl]).
  split; [intros x k; apply F|]. split; [intros x _; apply F|]. split; [intros x; apply F|]. split; [exists (1 / 16); lra|exists (2 ^ 25 * (1 * 1 * (3 ^ 2 + 4 ^ 2))); lra].
Qed.
Print Assumptions C138_early.
Print Assumptions C138_late_refuted.
