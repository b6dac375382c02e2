(** C104: what every assignable attribute accepts, reads afterwards, and refuses.
    The rules and the table are in Spec_Contracts.v. *)
From Coq Require Import Reals Lra List String ZArith.
From Verif Require Import Numpy PyVal Model_Setters Spec_Setters Spec_Contracts Proof_Setters2 Proof_Contracts.
Import ListNotations.
Open Scope string_scope.
Open Scope R_scope.

(** for every class, every attribute of its table row, every value and every state of the
    object: the assignment does what the rule demands, and touches nothing else *)
Theorem C104_assignments_follow_the_table :
  forall py k a r v o out,
  In (a, r) (rules_of k) -> demands py r v out -> assignment_has py k a v o out.
Proof. exact contract_lemma. Qed.
(** the rules leave no value undecided *)
Theorem C104_every_value_has_an_outcome :
  forall py r v, wf_val v -> exists out, demands py r v out.
Proof. exact every_rule_has_an_outcome. Qed.
(** the table leaves no attribute out *)
Theorem C104_table_is_complete :
  forall py k a f, facade k = false -> lookup (cls_of py k) a = Some f ->
  (exists r, In (a, r) (rules_of k)) \/ In a (read_only k) \/ In a (dependent k).
Proof. exact table_lemma. Qed.
Theorem C104_read_only_attributes :
  forall py k a v o, In a (read_only k) -> setattr (cls_of py k) "" a v o = (o, Raise AttributeError).
Proof. exact read_only_lemma. Qed.
(** the attributes whose acceptance depends on the object (the accepted values of rho and
    mass are in C33 and C26) *)
Theorem C104_resistivity_must_be_a_number :
  forall py k v e o, In k em_kinds -> float_ py v = Raise e ->
  setattr (cls_of py k) "" "rho" v o = (o, Raise TypeError).
Proof. exact rho_not_number. Qed.
Theorem C104_sphere_mass_refused :
  forall py v o,
  (forall e, float_ py v = Raise e -> setattr (cls_of py KSphere) "" "mass" v o = (o, Raise TypeError)) /\
  (forall m, float_ py v = Ok m -> reads (cls_of py KSphere) o "radius" = Ok (AFlt (Fin 0)) ->
     setattr (cls_of py KSphere) "" "mass" v o = (o, Raise ZeroDivisionError)).
Proof. exact (fun py v o => conj (fun e => mass_not_number py v e o) (fun m => mass_zero_radius py v m o)). Qed.
Theorem C104_depth_bottom :
  forall py v o top, reads (cls_of py KOksar) o "depth_top" = Ok (AFlt top) ->
  (forall e, float_ py v = Raise e -> setattr (cls_of py KOksar) "" "depth_bottom" v o = (o, Raise TypeError)) /\
  (forall x, float_ py v = Ok x -> flt x top = true ->
     setattr (cls_of py KOksar) "" "depth_bottom" v o = (o, Raise ValueError)) /\
  (forall x, float_ py v = Ok x -> flt x top = false ->
     snd (setattr (cls_of py KOksar) "" "depth_bottom" v o) = Ok tt /\
     reads (cls_of py KOksar) (fst (setattr (cls_of py KOksar) "" "depth_bottom" v o)) "depth_bottom" = Ok (AFlt x)).
Proof. exact depth_bottom_cases. Qed.
(** the half-space electrodes (what they accept is in C50 and C32): a number that is not
    one, a resistivity that is not positive, a location that is not a point or is above
    the surface *)
Theorem C104_electrodes_refuse :
  forall py k a v o,
  (k = KPointCurrentHalfSpace /\ In a ["current"; "rho"; "location"]) \/
  (k = KDipoleHalfSpace /\ In a ["current"; "rho"; "location_a"; "location_b"]) ->
  (In a ["current"; "rho"] -> forall e, float_ py v = Raise e ->
     setattr (cls_of py k) "" a v o = (o, Raise TypeError)) /\
  (a = "rho" -> forall x, float_ py v = Ok x -> ~ positive_or_nan x ->
     setattr (cls_of py k) "" a v o = (o, Raise ValueError)) /\
  (~ In a ["current"; "rho"] ->
     (forall e, asarray py v = Raise e -> setattr (cls_of py k) "" a v o = (o, Raise TypeError)) /\
     (forall r, asarray py v = Ok r -> (forall rest, ashape r <> 3%nat :: rest) ->
        setattr (cls_of py k) "" a v o = (o, Raise ValueError)) /\
     (forall x y z, asarray py v = Ok (vec3 x y (Fin z)) -> 0 < z ->
        setattr (cls_of py k) "" a v o = (o, Raise ValueError))).
Proof. exact electrode_refuses. Qed.

Example C104_witness : forall py o,
  In ("sigma", Number Positive) (rules_of KFdemMagneticDipole) /\
  demands py (Number Positive) (PNum (Fin 2)) (Stored (AFlt (Fin 2))) /\
  demands py (Number Positive) (PNum (Fin (-2))) (Refused ValueError) /\
  demands py (Number Positive) PNone (Refused TypeError) /\
  setattr (cls_of py KFdemMagneticDipole) "" "sigma" (PNum (Fin (-2))) o = (o, Raise ValueError).
Proof.
  intros py o.
  assert (D : demands py (Number Positive) (PNum (Fin (-2))) (Refused ValueError)).
  { right; right. exists (Fin (-2)). split; [reflexivity|]. split; [|reflexivity].
    intros [H|[H|[r [H P]]]]; try discriminate. inversion H. lra. }
  split; [simpl; tauto|]. split.
  { right; left. exists (Fin 2). split; [reflexivity|]. split; [|reflexivity]. right; right. exists 2. split; [reflexivity|lra]. }
  split; [exact D|]. split; [left; exists TypeError; split; reflexivity|].
  apply (contract_lemma py KFdemMagneticDipole "sigma" _ _ o (Refused ValueError)) in D; [exact D|simpl; tauto].
Qed.
Example C104_plane_wave_witness : forall py o,
  demands py PlaneDirection (PStr "y") (Stored (AArr (fin3 0 1 0))) /\
  assignment_has py KHarmonicPlaneWave "orientation" (PStr "y") o (Stored (AArr (fin3 0 1 0))).
Proof.
  intros py o.
  assert (D : demands py PlaneDirection (PStr "y") (Stored (AArr (fin3 0 1 0)))).
  { left. exists "y", (fin3 0 1 0). split; [reflexivity|]. split; reflexivity. }
  split; [exact D|]. eapply contract_lemma; [|exact D]. simpl; tauto.
Qed.
Print Assumptions C104_assignments_follow_the_table.
Print Assumptions C104_every_value_has_an_outcome.
Print Assumptions C104_table_is_complete.
Print Assumptions C104_read_only_attributes.
Print Assumptions C104_resistivity_must_be_a_number.
Print Assumptions C104_sphere_mass_refused.
Print Assumptions C104_depth_bottom.
Print Assumptions C104_electrodes_refuse.
