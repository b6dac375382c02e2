(** C105: calling the classes. *)
From Coq Require Import Reals List String.
From Verif Require Import Numpy PyVal Model_Setters Spec_Setters Spec_Contracts Model_Construct Spec_Construct Proof_Construct4 Proof_Construct3.
Import ListNotations.
Open Scope string_scope.
Open Scope R_scope.

(** a call that returns was written correctly, and every attribute reads what the call supplied *)
Theorem C105_call_stores_its_arguments :
  forall py k pos kw o, genuine pos kw -> call py k pos kw = (o, Ok tt) ->
  well_formed_call k pos kw /\ geometry_ok py k o /\
  forall a d r v, In (a, d) (arguments k) -> In (a, r) (rules_of (kind_of k)) -> supplied k pos kw a d = Some v ->
  exists x, demands py r v (Stored x) /\ (~ misread (kind_of k) a -> reads (cls_of py (kind_of k)) o a = Ok x).
Proof.
  intros py k pos kw o G H. split; [exact (proj1 (call_ok py k pos kw o H))|]. split; [now apply call_geometry with (pos := pos) (kw := kw)|].
  intros a d r v. now apply call_stores.
Qed.
(** conversely a correctly written call with acceptable values returns; only the order of a
    prism's corners and the depth of the half-space source can still refuse it *)
Theorem C105_acceptable_calls_return :
  forall py k pos kw, k <> CSphere -> k <> COksar -> genuine pos kw -> well_formed_call k pos kw ->
  (forall a d r v, In (a, d) (arguments k) -> In (a, r) (rules_of (kind_of k)) -> supplied k pos kw a d = Some v ->
     exists x, demands py r v (Stored x)) ->
  (geometry_ok py k (fst (call py k pos kw)) /\ snd (call py k pos kw) = Ok tt) \/
  (~ geometry_ok py k (fst (call py k pos kw)) /\ snd (call py k pos kw) = Raise ValueError).
Proof. intros py k pos kw N1 N2 G W A. now apply call_accepts. Qed.
(** surplus, repeated, unknown and missing arguments are refused *)
Theorem C105_malformed_calls_raise :
  forall py k pos kw, ~ well_formed_call k pos kw -> exists e, snd (call py k pos kw) = Raise e.
Proof. exact bad_call_raises. Qed.
Theorem C105_malformed_calls_raise_type_error :
  forall py k pos kw, k <> CSphere -> k <> COksar -> ~ well_formed_call k pos kw ->
  (forall a d r v, In (a, d) (arguments k) -> In (a, r) (rules_of (kind_of k)) -> supplied k pos kw a d = Some v ->
     exists x, demands py r v (Stored x)) ->
  snd (call py k pos kw) = Raise TypeError.
Proof. intros py k pos kw N1 N2 W A. apply bad_call_type_error; try assumption. now split. Qed.
(** every object a call returns is one of the objects the theorems on attributes speak of *)
Theorem C105_called_objects_are_created :
  forall py k pos kw o, genuine pos kw -> call py k pos kw = (o, Ok tt) -> created py (kind_of k) o.
Proof. exact call_created. Qed.
(** Oksar's bottom depth: the supplied value, and not above the top *)
Theorem C105_oksar_depths :
  forall py pos kw o, genuine pos kw -> call py COksar pos kw = (o, Ok tt) ->
  exists v x top, supplied COksar pos kw "depth_bottom" (number 10000) = Some v /\ float_ py v = Ok x /\
    reads (cls_of py KOksar) o "depth_top" = Ok (AFlt top) /\ flt x top = false /\
    reads (cls_of py KOksar) o "depth_bottom" = Ok (AFlt x).
Proof. exact oksar_depths. Qed.
(** the default loop encloses one square metre *)
Theorem C105_default_loop_has_unit_area :
  forall py pos kw o, genuine pos kw -> call py CLoop pos kw = (o, Ok tt) -> written CLoop pos kw "radius" = None ->
  exists r, reads (cls_of py KCircularLoopWholeSpace) o "radius" = Ok (AFlt (Fin r)) /\ 0 < r /\ PI * r ^ 2 = 1.
Proof. exact default_loop. Qed.
(** the documented [mass] argument of the gravity sphere is accepted and has no effect *)
Theorem C105_sphere_mass_argument_refuted :
  forall py, exists o, call py CSphere [PNum (Fin 1); PNum (Fin 3)] [("mass", PNum (Fin 1000))] = (o, Ok tt) /\
  reads (cls_of py KSphere) o "mass" = Ok (AFlt (Fin (4 / 3 * PI * (1 * 1 * 1) * 3))).
Proof. exact sphere_example. Qed.

Example C105_witness : forall py, exists o, genuine [PNum (Fin 5)] [] /\ call py CPointMass [PNum (Fin 5)] [] = (o, Ok tt) /\
  reads (cls_of py KPointMass) o "mass" = Ok (AFlt (Fin 5)) /\ reads (cls_of py KPointMass) o "location" = Ok (AArr (fin3 0 0 0)).
Proof.
  intros py. destruct (point_mass_example py) as [o [H1 [H2 H3]]]. exists o. repeat split; try assumption; repeat constructor.
Qed.
Example C105_witness_loop : forall py, exists o, call py CLoop [] [] = (o, Ok tt) /\ written CLoop [] [] "radius" = None.
Proof. intros py. destruct (loop_example py) as [o H]. exists o. now split. Qed.
Example C105_witness_oksar : exists py o,
  call py COksar [pair_of 0 0; pair_of 1 0; pair_of 0 1; pair_of 0 0; PNum (Fin 1000)] [("slip", PNum (Fin 2))] = (o, Ok tt).
Proof. exact oksar_example. Qed.
Example C105_witness_acceptable : forall py, well_formed_call CPointMass [PNum (Fin 5)] [] /\
  acceptable py CPointMass [PNum (Fin 5)] [].
Proof.
  intros py. destruct (point_mass_example py) as [o [H _]]. split; [exact (proj1 (call_ok _ _ _ _ _ H))|].
  apply ok_is_acceptable with (o := o); [repeat constructor|exact H].
Qed.
Example C105_witness_malformed : ~ well_formed_call CPointMass [] [("weight", PNum (Fin 5))].
Proof.
  intros [_ [_ [H _]]]. destruct (H "weight" (or_introl eq_refl)) as [d I]. cbn in I.
  destruct I as [I|[I|[]]]; discriminate I.
Qed.
Print Assumptions C105_call_stores_its_arguments.
Print Assumptions C105_acceptable_calls_return.
Print Assumptions C105_malformed_calls_raise.
Print Assumptions C105_malformed_calls_raise_type_error.
Print Assumptions C105_called_objects_are_created.
Print Assumptions C105_oksar_depths.
Print Assumptions C105_default_loop_has_unit_area.
Print Assumptions C105_sphere_mass_argument_refuted.
