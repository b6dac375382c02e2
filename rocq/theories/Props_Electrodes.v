(** C113: calling the electrode classes. *)
From Coq Require Import Reals Lra List String.
From Verif Require Import Numpy PyVal Model_Setters Spec_Setters Spec_Contracts Model_Construct Spec_Construct Model_Electrodes Spec_Electrodes Proof_Setters5 Proof_Setters6 Proof_Electrodes4 Proof_Electrodes5.
Import ListNotations.
Open Scope string_scope.
Open Scope R_scope.

(** surplus, repeated, unknown and missing arguments *)
Theorem C113_malformed_calls_raise_type_error :
  forall py e pos kw, ~ well_formed_electrode_call e pos kw -> electrode_call py e pos kw = (empty_obj, Raise TypeError).
Proof. exact malformed_electrode. Qed.
(** in a well-formed call each argument has one value *)
Theorem C113_arguments_are_determined :
  forall e pos kw a v v', gives e pos kw a v -> gives e pos kw a v' -> v = v'.
Proof. exact gives_unique. Qed.
(** PointCurrentHalfSpace(rho, current=1.0, location=None): every outcome *)
Theorem C113_half_space_electrode :
  forall py pos kw, genuine pos kw -> well_formed_electrode_call PointHalf pos kw ->
  exists v c l, gives PointHalf pos kw "rho" v /\ gives PointHalf pos kw "current" c /\ gives PointHalf pos kw "location" l /\
  ((exists e, not_resistivity v e /\ snd (electrode_call py PointHalf pos kw) = Raise e) \/
   (is_zero_array v /\ ((exists e, float_ py c = Raise e) /\ snd (electrode_call py PointHalf pos kw) = Raise TypeError \/
                        (exists y, float_ py c = Ok y) /\ snd (electrode_call py PointHalf pos kw) = Raise ValueError)) \/
   (exists x, is_resistivity v x /\
     ((exists e, float_ py c = Raise e /\ snd (electrode_call py PointHalf pos kw) = Raise TypeError) \/
      (exists y, float_ py c = Ok y /\
        ((exists e, not_place py l e /\ snd (electrode_call py PointHalf pos kw) = Raise e) \/
         (exists X Y Z o, is_place py l X Y Z /\ electrode_call py PointHalf pos kw = (o, Ok tt) /\
            reads (PointCurrentHalfSpace py) o "rho" = Ok (AFlt x) /\
            reads (PointCurrentHalfSpace py) o "current" = Ok (AFlt y) /\
            reads (PointCurrentHalfSpace py) o "location" = Ok (AArr (vec3 X Y Z)))))))).
Proof. exact half_call. Qed.
(** DipoleHalfSpace(rho, location_a=None, location_b=None, current=1.0): every outcome *)
Theorem C113_half_space_dipole :
  forall py pos kw, genuine pos kw -> well_formed_electrode_call DipoleHalf pos kw ->
  exists v la lb c, gives DipoleHalf pos kw "rho" v /\ gives DipoleHalf pos kw "location_a" la /\
  gives DipoleHalf pos kw "location_b" lb /\ gives DipoleHalf pos kw "current" c /\
  ((exists e, not_resistivity v e /\ snd (electrode_call py DipoleHalf pos kw) = Raise e) \/
   (is_zero_array v /\ snd (electrode_call py DipoleHalf pos kw) = Raise ValueError) \/
   (exists x, is_resistivity v x /\
     ((exists e, not_place py la e /\ snd (electrode_call py DipoleHalf pos kw) = Raise e) \/
      (exists Xa Ya Za, is_place py la Xa Ya Za /\
        ((exists e, not_place py lb e /\ snd (electrode_call py DipoleHalf pos kw) = Raise e) \/
         (exists Xb Yb Zb, is_place py lb Xb Yb Zb /\
           ((exists e, float_ py c = Raise e /\ snd (electrode_call py DipoleHalf pos kw) = Raise TypeError) \/
            (exists y o, float_ py c = Ok y /\ electrode_call py DipoleHalf pos kw = (o, Ok tt) /\
               reads (DipoleHalfSpace py) o "rho" = Ok (AFlt x) /\
               reads (DipoleHalfSpace py) o "current" = Ok (AFlt y) /\
               reads (DipoleHalfSpace py) o "location_a" = Ok (AArr (vec3 Xa Ya Za)) /\
               reads (DipoleHalfSpace py) o "location_b" = Ok (AArr (vec3 Xb Yb Zb)))))))))).
Proof. exact dipole_call. Qed.
(** PointCurrentWholeSpace(rho, current=1.0, location=None): every outcome; the location is
    kept as the first row of the nodes of a line *)
Theorem C113_whole_space_electrode :
  forall py pos kw, genuine pos kw -> well_formed_electrode_call PointWhole pos kw ->
  exists v c l, gives PointWhole pos kw "rho" v /\ gives PointWhole pos kw "current" c /\ gives PointWhole pos kw "location" l /\
  ((exists e, snd (electrode_call py PointWhole pos kw) = Raise e /\
      (not_resistivity v e \/ demands py Nodes l (Refused e) \/ ((exists e', float_ py c = Raise e') /\ e = TypeError))) \/
   (exists y n d o, float_ py c = Ok y /\ demands py Nodes l (Stored (AArr (mkarr [n; 3%nat] d))) /\
      electrode_call py PointWhole pos kw = (o, Ok tt) /\
      reads (PointCurrentWholeSpace py) o "current" = Ok (AFlt y) /\
      reads (PointCurrentWholeSpace py) o "nodes" = Ok (AArr (mkarr [n; 3%nat] d)) /\
      (forall X Y Z r, d = (X :: Y :: Z :: r)%list -> reads (PointCurrentWholeSpace py) o "location" = Ok (AArr (vec3 X Y Z))) /\
      ((is_resistivity v NaN /\ reads (PointCurrentWholeSpace py) o "sigma" = Ok (AFlt NaN) /\
          reads (PointCurrentWholeSpace py) o "rho" = Ok (AFlt NaN)) \/
       (exists x, is_resistivity v (Fin x) /\ reads (PointCurrentWholeSpace py) o "sigma" = Ok (AFlt (Fin (1 / x))) /\
          reads (PointCurrentWholeSpace py) o "rho" = Ok (AFlt (Fin x))) \/
       (is_zero_array v /\ reads (PointCurrentWholeSpace py) o "sigma" = Ok (AFlt PInf))))).
Proof. exact whole_call. Qed.
(** so every call that returns was well formed, and its object is one the theorems on the
    attributes and on the image source (C31, C32, C33, C50) speak of *)
Theorem C113_called_electrodes_are_created :
  forall py e pos kw o, genuine pos kw -> electrode_call py e pos kw = (o, Ok tt) ->
  well_formed_electrode_call e pos kw /\ created py (electrode_kind e) o.
Proof. exact called_electrodes. Qed.
(** findings: the whole-space electrode takes resistivity np.float64(0.0), with conductivity
    inf, and several locations at once or none *)
Theorem C113_zero_resistivity_refuted :
  forall py, exists o, electrode_call py PointWhole [PArr (mkarr [] [Fin 0])] [] = (o, Ok tt) /\
  reads (PointCurrentWholeSpace py) o "sigma" = Ok (AFlt PInf).
Proof. exact zero_rho_example. Qed.
Theorem C113_number_of_locations_refuted :
  forall py n (d : list fl), List.length d = (3 * n)%nat ->
  exists o, electrode_call py PointWhole [PNum (Fin 1)] [("location", PArr (mkarr [n; 3%nat] d))] = (o, Ok tt) /\
  (n = 0%nat -> reads (PointCurrentWholeSpace py) o "location" = Raise IndexError) /\
  reads (PointCurrentWholeSpace py) o "n_segments" = Ok (AInt (Z.of_nat n - 1)).
Proof. exact locations_example. Qed.

Example C113_witness_half : forall py, exists o,
  genuine [PNum (Fin 100)] [("location", PArr (vec3 (Fin 3) (Fin 0) (Fin (-2))))] /\
  electrode_call py PointHalf [PNum (Fin 100)] [("location", PArr (vec3 (Fin 3) (Fin 0) (Fin (-2))))] = (o, Ok tt) /\
  reads (PointCurrentHalfSpace py) o "current" = Ok (AFlt (Fin 1)).
Proof. exact half_example. Qed.
Example C113_witness_dipole : forall py, exists o,
  electrode_call py DipoleHalf [PNum (Fin 100)] [("current", PNum (Fin 2))] = (o, Ok tt) /\
  reads (DipoleHalfSpace py) o "location_a" = Ok (AArr (vec3 (Fin (-1)) (Fin 0) (Fin 0))) /\
  reads (DipoleHalfSpace py) o "location_b" = Ok (AArr (vec3 (Fin 1) (Fin 0) (Fin 0))).
Proof. exact dipole_example. Qed.
Example C113_witness_refused : forall py,
  snd (electrode_call py PointHalf [PNum (Fin 100); PNum (Fin 1); PArr (vec3 (Fin 0) (Fin 0) (Fin 1))] []) = Raise ValueError /\
  snd (electrode_call py PointHalf [PNum (Fin 0)] []) = Raise ZeroDivisionError /\
  snd (electrode_call py DipoleHalf [PNum (Fin 100)] [("location", PNone)]) = Raise TypeError.
Proof. exact refused_examples. Qed.
Print Assumptions C113_malformed_calls_raise_type_error.
Print Assumptions C113_arguments_are_determined.
Print Assumptions C113_half_space_electrode.
Print Assumptions C113_half_space_dipole.
Print Assumptions C113_whole_space_electrode.
Print Assumptions C113_called_electrodes_are_created.
Print Assumptions C113_zero_resistivity_refuted.
Print Assumptions C113_number_of_locations_refuted.
