(** C131: the central-loop transients in floating point. *)
From Coq Require Import ZArith Reals Lra Lia Psatz.
From Flocq Require Import Core.
From Coquelicot Require Import Coquelicot.
From Verif Require Import Model_TDEM Model_Float Model_Float2 Spec_Float Spec_Float2 Proof_Float Proof_Float2 Proof_Float3 Proof_Float5 Proof_Float6 Proof_Float7.
Open Scope R_scope.

(** C131: while the diffusion length sqrt(4 t/(mu sigma)) is at most half the radius, both results are accurate *)
Theorem C131_early pow ferf fexp t sigma mu a current turns :
  good_pow pow -> good_erf ferf -> good_exp fexp -> 0 < t -> 0 < sigma -> 0 < mu -> 0 < a -> t <= mu * sigma * a ^ 2 / 16 ->
  within 250 (ftloop_hz ferf fexp t sigma mu a current turns) (tloop_hz t sigma mu a current turns) /\
  within 250 (ftloop_dbz pow ferf fexp t sigma mu a current turns) (tloop_dbz t sigma mu a current turns).
Proof. intros. split; [now apply field_early|now apply rate_early]. Qed.

(** C131, FINDING: from the time 2^25 mu sigma a^2 on, for every library, both results are 0 or more than 5 times too large *)
Theorem C131_late_refuted pow ferf fexp t sigma mu a current turns :
  good_pow pow -> good_erf ferf -> good_exp fexp -> 0 < t -> 0 < sigma -> 0 < mu -> 0 < a -> turns * current <> 0 -> 2 ^ 25 * (mu * sigma * a ^ 2) <= t ->
  useless 5 (ftloop_hz ferf fexp t sigma mu a current turns) (tloop_hz t sigma mu a current turns) /\
  useless 5 (ftloop_dbz pow ferf fexp t sigma mu a current turns) (tloop_dbz t sigma mu a current turns).
Proof. intros. split; [now apply field_late|now apply rate_late]. Qed.

(** such libraries exist, and so do early and late times *)
Example C131_witness : good_pow (fun x k => fl (x ^ k)) /\ good_erf (fun x => fl (erf x)) /\ good_exp (fun x => fl (exp x)) /\
  (exists t, 0 < t <= 1 * 1 * 1 ^ 2 / 16) /\ (exists t, 2 ^ 25 * (1 * 1 * 1 ^ 2) <= t).
Proof.
  assert (F : forall x, within 8 (fl x) x) by (intros x; apply (near_within' 8 1); [lia|cbn; lra|apply near_fl]).
  split; [intros x k; apply F|]. split; [intros x _; apply F|]. split; [intros x; apply F|]. split; [exists (1 / 16); lra|exists (2 ^ 25); lra].
Qed.
Print Assumptions C131_early.
Print Assumptions C131_late_refuted.
