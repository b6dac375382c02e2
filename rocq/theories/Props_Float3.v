(** C132: derived properties in floating point. *)
From Coq Require Import ZArith Reals Lra Lia.
From Flocq Require Import Core.
From Verif Require Import Vec3 Numpy Model_Gravity Model_Static Model_FDEM Model_TDEM Model_Float Model_Float2 Model_Float3 Spec_Float Spec_Float2 Proof_Float Proof_Float2 Proof_Float3 Proof_Float8.
Open Scope R_scope.

(** C132: a resistivity that is set reads back with a relative error of at most three unit roundoffs *)
Theorem C132_resistivity_reads_back r : 0 < r -> exists s, fset_rho r = Ok s /\ within 3 (fget_rho s) r.
Proof.
  intros P. exists (fl (1 / r)). unfold fset_rho, fset_sigma. destruct (Req_EM_T r 0) as [E|_]; [lra|]. pose proof (fl_recip_pos r P). destruct (Rle_dec (fl (1 / r)) 0) as [E|_]; [lra|]. split; [reflexivity|].
  apply (near_within' 3 2); [lia|cbn; lra|apply near_rho].
Qed.

(** C132, FINDING: it need not read back exactly *)
Theorem C132_exact_read_back_refuted : exists r, float r /\ 0 < r /\ exists s, fset_rho r = Ok s /\ fget_rho s <> r.
Proof.
  exists 49. split; [apply float_49|]. split; [lra|]. exists (fl (1 / 49)). unfold fset_rho, fset_sigma. destruct (Req_EM_T 49 0) as [E|_]; [lra|]. pose proof (fl_recip_pos 49 ltac:(lra)). destruct (Rle_dec (fl (1 / 49)) 0) as [E|_]; [lra|]. split; [reflexivity|apply recip_49].
Qed.

(** C132: [obj.rho = obj.rho], any number of times, leaves an object whose resistivity was set exactly as it is ... *)
Theorem C132_reassigning_resistivity_changes_nothing r n : float r -> 0 < r ->
  Nat.iter n (fun o => rbind o (fun s => fset_rho (fget_rho s))) (fset_rho r) = fset_rho r.
Proof.
  intros F P. induction n as [|n IH]; [reflexivity|]. cbn [Nat.iter]. change (rbind (Nat.iter n (fun o => rbind o (fun s => fset_rho (fget_rho s))) (fset_rho r)) (fun s => fset_rho (fget_rho s)) = fset_rho r). rewrite IH.
  pose proof (fl_recip_pos r P) as P1. pose proof (fl_recip_pos _ P1) as P2. rewrite (set_rho_pos r P). cbn [rbind]. unfold fget_rho. rewrite set_rho_pos by exact P2. now rewrite (recip3 r F P).
Qed.
(** ... and one whose conductivity was set is changed by the first such assignment at most, by three unit roundoffs at most *)
Theorem C132_reassigning_settles s : float s -> 0 < s -> exists s',
  rbind (fset_sigma s) (fun s => fset_rho (fget_rho s)) = Ok s' /\ within 3 s' s /\ fset_rho (fget_rho s') = Ok s'.
Proof.
  intros F P. pose proof (fl_recip_pos s P) as P1. pose proof (fl_recip_pos _ P1) as P2. pose proof (fl_recip_pos _ P2) as P3. exists (fl (1 / fl (1 / s))).
  split; [|split; [apply (near_within' 3 2); [lia|cbn; lra|apply (near_rho s)]|]].
  - unfold fset_sigma. destruct (Rle_dec s 0) as [E|_]; [lra|]. cbn [rbind]. unfold fget_rho. now rewrite set_rho_pos by exact P1.
  - unfold fget_rho. rewrite set_rho_pos by exact P3. now rewrite (recip3 s F P).
Qed.

(** C132: a stored orientation has length 1 to six unit roundoffs, each of its components is that accurate, and so is a mass that is set, to 29 *)
Theorem C132_orientation_is_a_unit_vector v : v <> V3 0 0 0 ->
  each (within 6) (forient v) (vdiv v (vnorm v)) /\ within 6 (vnorm (forient v)) 1.
Proof.
  intros N. split; [apply (vnear_within 6 5); [lia|cbn; lra|apply near_orient]|].
  rewrite <- (unit_norm v N). apply (near_within' 6 5); [lia|cbn; lra|apply vnear_norm, near_orient].
Qed.
Theorem C132_mass_reads_back pow radius value : good_pow pow -> 0 < radius -> within 29 (fgs_mass pow radius (fset_mass pow radius value)) value.
Proof. intros H P. apply (near_within' 29 28); [lia|rewrite INR_IZR_INZ; cbn; lra|apply near_mass; assumption]. Qed.

(** C132: the quasi-static skin depth, the angular frequency and the diffusion quantities *)
Theorem C132_scales pow f z t sigma mu epsilon q : good_pow pow -> truth q = true -> 0 < f -> 0 < t -> 0 < sigma -> 0 < mu ->
  within 4 (fomega f) (omega f) /\ within 5 (fskin_qs f sigma mu) (skin_depth f sigma mu epsilon q) /\
  within 13 (fpeak_time pow z sigma mu) (peak_time z sigma mu) /\ within 4 (fdiffusion_distance t sigma mu) (diffusion_distance t sigma mu) /\
  within 4 (ftheta t sigma mu) (theta t sigma mu).
Proof.
  intros H TQ F T S M. repeat split.
  - apply (near_within' 4 3); [lia|cbn; lra|apply near_omega].
  - apply (near_within' 5 4); [lia|cbn; lra|apply near_skin_qs; assumption].
  - apply (near_within' 13 12); [lia|cbn; lra|apply near_peak; assumption].
  - apply (near_within' 4 3); [lia|cbn; lra|apply near_diffusion; assumption].
  - apply (near_within' 4 3); [lia|cbn; lra|apply near_theta; assumption].
Qed.

(** C132, FINDING: without quasistatic the skin depth of every medium with sigma <= 2^-28 omega epsilon is 0, where the formula is positive *)
Theorem C132_skin_depth_refuted pow f sigma mu epsilon q : good_pow pow -> truth q = false -> 0 < f -> 0 < sigma -> 0 < mu -> 0 < epsilon ->
  2 ^ 28 * sigma <= omega f * epsilon -> fskin pow f sigma mu epsilon = 0 /\ 0 < skin_depth f sigma mu epsilon q.
Proof. apply skin_lost. Qed.

Example C132_witness : good_pow (fun x k => fl (x ^ k)) /\ float 49 /\ truth (OtherObject false) = false /\ truth (OtherObject true) = true /\ 2 ^ 28 * / 2 ^ 28 <= omega 1 * 1 /\ V3 1 2 3 <> V3 0 0 0.
Proof.
  split; [intros x k; apply (near_within' 8 1); [lia|cbn; lra|apply near_fl]|]. split; [apply float_49|]. split; [reflexivity|]. split; [reflexivity|]. split.
  - unfold omega. pose proof PI2_3_2. pose proof PI2_1. unfold PI2 in *. lra.
  - intros E. injection E. lra.
Qed.
Print Assumptions C132_resistivity_reads_back.
Print Assumptions C132_exact_read_back_refuted.
Print Assumptions C132_reassigning_resistivity_changes_nothing.
Print Assumptions C132_reassigning_settles.
Print Assumptions C132_orientation_is_a_unit_vector.
Print Assumptions C132_mass_reads_back.
Print Assumptions C132_scales.
Print Assumptions C132_skin_depth_refuted.
