(** Specification for C113: the documented arguments of the electrode classes and which
    values they take. *)
From Coq Require Import Reals List Bool String.
From Verif Require Import Numpy PyVal Spec_Setters Model_Construct Spec_Construct Model_Electrodes.
Import ListNotations.
Open Scope string_scope.
Open Scope R_scope.

(** documented arguments, in the order in which they may be given by position *)
Definition electrode_arguments (e : electrode) : list (string * argument) :=
  match e with
  | PointWhole | PointHalf => [ ("rho", Required); ("current", number 1); ("location", point3 0 0 0) ]
  | DipoleHalf => [ ("rho", Required); ("location_a", point3 (-1) 0 0); ("location_b", point3 1 0 0); ("current", number 1) ]
  end.
Definition is_location (a : string) : Prop := a = "location" \/ a = "location_a" \/ a = "location_b".
(** what the call writes down for argument [a] *)
Definition writes (e : electrode) (pos : list pyval) (kw : kwargs) (a : string) (v : pyval) : Prop :=
  position_of a (map fst (electrode_arguments e)) pos = Some v \/
  (position_of a (map fst (electrode_arguments e)) pos = None /\ kw_get kw a = Some v).
(** the value argument [a] has in the call: what is written, the default when nothing is, and
    the default also when None is written for a location *)
Definition gives (e : electrode) (pos : list pyval) (kw : kwargs) (a : string) (v : pyval) : Prop :=
  (writes e pos kw a v /\ ~ (is_location a /\ v = PNone)) \/
  (In (a, Default v) (electrode_arguments e) /\
   ((forall u, ~ writes e pos kw a u) \/ (is_location a /\ writes e pos kw a PNone))).
(** a call that Python can bind *)
Definition well_formed_electrode_call (e : electrode) (pos : list pyval) (kw : kwargs) : Prop :=
  (List.length pos <= List.length (electrode_arguments e))%nat /\
  (forall a, In a (map fst kw) -> position_of a (map fst (electrode_arguments e)) pos = None) /\
  (forall a, In a (map fst kw) -> In a (map fst (electrode_arguments e))) /\
  (exists v, writes e pos kw "rho" v).

(** a number, or an array with one entry *)
Definition is_number (v : pyval) (x : fl) : Prop := v = PNum x \/ exists a, v = PArr a /\ adata a = [x].
(** a resistivity: a positive finite number (or nan, which passes every comparison) *)
Definition is_resistivity (v : pyval) (x : fl) : Prop :=
  is_number v x /\ (x = NaN \/ exists r, x = Fin r /\ 0 < r).
(** an array holding the number 0, for which numpy's 1/rho is infinity and raises nothing *)
Definition is_zero_array (v : pyval) : Prop := exists a, v = PArr a /\ adata a = [Fin 0].
(** the exception for anything else *)
Definition not_resistivity (v : pyval) (e : exn) : Prop :=
  (v = PNum (Fin 0) /\ e = ZeroDivisionError) \/
  ((exists x, is_number v x /\ (x = PInf \/ x = NInf \/ exists r, x = Fin r /\ r < 0)) /\ e = ValueError) \/
  ((v = PNone \/ (exists s, v = PStr s) \/ (exists c, v = PSeq c) \/ (exists d, v = PDate d) \/
    (exists a, v = PArr a /\ forall x, adata a <> [x])) /\ e = TypeError) \/
  v = POther e.
(** a place in the half-space: three coordinates, the last not above the surface z = 0 *)
Definition is_place (py : pyext) (v : pyval) (x y z : fl) : Prop :=
  asarray py v = Ok (vec3 x y z) /\ (z = NaN \/ z = NInf \/ exists r, z = Fin r /\ r <= 0).
Definition not_place (py : pyext) (v : pyval) (e : exn) : Prop :=
  ((exists e', asarray py v = Raise e') /\ e = TypeError) \/
  ((exists a, asarray py v = Ok a) /\ (forall x y z, ~ is_place py v x y z) /\ e = ValueError).
