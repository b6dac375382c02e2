(** C127: weak induction and the static limit of the layered ground. *)
From Coq Require Import String Reals List Lra Lia.
From Coquelicot Require Import Coquelicot.
From Verif Require Import Vec3 Cplx Numpy Model_RTE Model_Layered Spec_FDEM Spec_RTE Spec_RTE2 Spec_Layered Spec_Hankel Spec_Depth Spec_Induction
  Proof_Layered3 Proof_Induction Proof_Induction2 Props_Depth.
Import ListNotations.
Open Scope R_scope.

(** C127: at low induction numbers the reflection coefficient is linear in the conductivities, each weighted with the share
    e^{-2 lamb top} - e^{-2 lamb bottom} of its layer; the error is at most twice the square of the induction number *)
Theorem C127_weak_induction_is_linear mu_0 f lamb sigma thicknesses sigma_max : 0 < mu_0 -> 0 < f -> 0 < lamb -> earth sigma thicknesses ->
  (forall s, In s sigma -> s <= sigma_max) ->
  Cmod (py_rTE mu_0 f lamb (conductivities sigma) (nonmagnetic mu_0 sigma) thicknesses - linear_response mu_0 f lamb sigma thicknesses)%C
  <= 2 * induction mu_0 f lamb sigma_max ^ 2.
Proof. exact (C127_linear_lemma mu_0 f lamb sigma thicknesses sigma_max). Qed.
(** C127: the shares add up to 1: a ground of one conductivity responds with that conductivity *)
Theorem C127_shares_add_up lamb thicknesses c : cumulative lamb 0 (map (fun _ => c) thicknesses ++ [c]) thicknesses = c.
Proof. exact (shares_lemma lamb c thicknesses). Qed.
(** C127: so a ground whose conductivities lie between two values responds like a half-space in between *)
Theorem C127_apparent_conductivity lamb sigma thicknesses lo hi : 0 < lamb -> earth sigma thicknesses ->
  (forall s, In s sigma -> lo <= s <= hi) -> lo <= cumulative lamb 0 sigma thicknesses <= hi.
Proof. exact (apparent_lemma lamb sigma thicknesses lo hi). Qed.

(** C127: the secondary field of the layered dipole at low induction numbers is the filtered linear response, up to a term
    quadratic in the induction numbers of the filter's wavenumbers *)
Theorem C127_field_at_low_induction mu_0 flt s xyz field r f k sigma thicknesses sigma_max :
  consistent s -> whole flt -> (forall x, In x (hf_base flt) -> 0 < x) -> field <> "total"%string ->
  magnetic_field mu_0 flt s xyz field = Ok r -> (f < n_frequency s)%nat -> (k < length xyz)%nat -> beside (nth k xyz vzero) (ly_location s) ->
  0 < mu_0 -> 0 < nth f (ly_frequency s) 0 -> earth sigma thicknesses -> over mu_0 s sigma thicknesses -> (forall c, In c sigma -> c <= sigma_max) ->
  let p := nth k xyz vzero in let q := ly_location s in let o := ly_orientation s in let rho := horizontally q p in
  let fr := nth f (ly_frequency s) 0 in
  exists h, entry r f k = Some h /\ forall e,
    Cmod (cvdot h e - RtoC (ly_moment s / (4 * PI)) * filtered flt rho
      (fun la => linear_response mu_0 fr la sigma thicknesses * RtoC (exp (- la * (vz p + vz q)) * vdot e (kernel0 o (vx p - vx q) (vy p - vy q) la)))
      (fun la => linear_response mu_0 fr la sigma thicknesses * RtoC (exp (- la * (vz p + vz q)) * vdot e (kernel1 o (vx p - vx q) (vy p - vy q) la))))%C
    <= Rabs (ly_moment s) / (4 * PI * rho) *
      rsum (length (hf_base flt)) (fun i => let la := nth i (hf_base flt) 0 / rho in
        2 * induction mu_0 fr la sigma_max ^ 2 * (exp (- la * (vz p + vz q)) *
        (Rabs (vdot e (kernel0 o (vx p - vx q) (vy p - vy q) la) * nth i (hf_j0 flt) 0)
         + Rabs (vdot e (kernel1 o (vx p - vx q) (vy p - vy q) la) * nth i (hf_j1 flt) 0)))).
Proof. exact (C127_field_lemma mu_0 flt s xyz field r f k sigma thicknesses sigma_max). Qed.

(** C127: only the product of the frequency and the conductivities matters *)
Theorem C127_frequency_times_conductivity mu_0 c f lamb sigma mu thicknesses : 0 < mu_0 -> 0 < c -> 0 < f -> 0 < lamb ->
  ground (c * f) lamb sigma mu thicknesses ->
  py_rTE mu_0 (c * f) lamb sigma mu thicknesses = py_rTE mu_0 f lamb (map (Cmult (RtoC c)) sigma) mu thicknesses.
Proof. exact (rTE_scale mu_0 c f lamb sigma mu thicknesses). Qed.
(** C127: the static limit.  As the frequency goes to 0 the coefficient tends to the only solution of the boundary-value
    problem without induction (omega = 0), whatever the conductivities; an insulating ground has it at every frequency *)
Theorem C127_static_limit mu_0 lamb sigma mu thicknesses : 0 < mu_0 -> 0 < lamb -> magnetic sigma mu thicknesses ->
  exists r, (forall r', reflects mu_0 0 lamb (map RtoC sigma) (map RtoC mu) thicknesses r' <-> r' = r) /\
    filterlim (fun f => Cmod (py_rTE mu_0 f lamb (map RtoC sigma) (map RtoC mu) thicknesses - r)%C) (at_right 0) (locally 0) /\
    (forall f, 0 < f -> py_rTE mu_0 f lamb (map (fun _ => RtoC 0) sigma) (map RtoC mu) thicknesses = r).
Proof. exact (static_lemma mu_0 lamb sigma mu thicknesses). Qed.

(** ** Concrete cases *)
Example C127_earth : earth [1; 0; 3] [2; 5] /\ magnetic [1; 0; 3] [1; 4; 2] [2; 5] /\ ground (2 * 5) 1 (map RtoC [1; 0; 3]) (map RtoC [1; 4; 2]) [2; 5].
Proof.
  assert (M : magnetic [1; 0; 3] [1; 4; 2] [2; 5]) by (repeat split; repeat (apply List.Forall_cons; [lra|]); apply List.Forall_nil).
  split; [|split; [exact M|apply magnetic_ground; [lra|exact M]]].
  repeat split; intros x H; cbn in H; repeat (destruct H as [<-|H]; [lra|]); destruct H.
Qed.
(** the linear response of a half-space is not zero *)
Example C127_not_zero : linear_response 1 1 1 [1] [] <> RtoC 0.
Proof.
  unfold linear_response. cbn [cumulative]. replace (- 2 * 1 * 0) with 0 by ring. rewrite exp_0. intros E. apply (f_equal Im) in E.
  revert E. cbn. pose proof PI_RGT_0. intros E. assert (PI / 2 = 0) by (rewrite <- E || idtac; lra). lra.
Qed.
(** the layered survey of C115 over soil and a basement *)
Example C127_survey : consistent (survey 2) /\ over 1 (survey 2) [1; 2] [3] /\ earth [1; 2] [3] /\ (forall c, In c [1; 2] -> c <= 2) /\
  (exists r, magnetic_field 1 (HF [1] [2] [3]) (survey 2) [V3 3 4 0] "secondary" = Ok r).
Proof.
  destruct field_exists as (A & _ & _ & B & _ & D & _). split; [exact A|]. split; [exact B|].
  split; [repeat split; intros x H; cbn in H; repeat (destruct H as [<-|H]; [lra|]); destruct H|].
  split; [intros x H; cbn in H; repeat (destruct H as [<-|H]; [lra|]); destruct H|apply D].
Qed.
Print Assumptions C127_weak_induction_is_linear.
Print Assumptions C127_shares_add_up.
Print Assumptions C127_apparent_conductivity.
Print Assumptions C127_field_at_low_induction.
Print Assumptions C127_frequency_times_conductivity.
Print Assumptions C127_static_limit.
