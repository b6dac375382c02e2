(** Model of calling the electrode classes, PointCurrentWholeSpace, PointCurrentHalfSpace
    and DipoleHalfSpace: Python's binding of the arguments (Model_Construct.v) followed by
    the constructors of Model_Setters.v. *)
From Coq Require Import Reals List Bool String.
From Verif Require Import Numpy PyVal Model_Setters Model_Construct.
Import ListNotations.
Open Scope string_scope.
Open Scope R_scope.

Inductive electrode : Type := PointWhole | PointHalf | DipoleHalf.
Definition electrode_kind (e : electrode) : kind :=
  match e with
  | PointWhole => KPointCurrentWholeSpace
  | PointHalf => KPointCurrentHalfSpace
  | DipoleHalf => KDipoleHalfSpace
  end.
(** em/static/wholespace.py l.1097, em/static/halfspace.py l.29: (rho, current=1.0, location=None);
    em/static/halfspace.py l.343: (rho, location_a=None, location_b=None, current=1.0) *)
Definition electrode_signature (e : electrode) : signature :=
  match e with
  | PointWhole | PointHalf =>
      [("rho", None); ("current", Some (PNum (Fin 1))); ("location", Some PNone)]
  | DipoleHalf =>
      [("rho", None); ("location_a", Some PNone); ("location_b", Some PNone); ("current", Some (PNum (Fin 1)))]
  end.
(** the value bound to a parameter; every parameter of a bound call has one *)
Definition param (b : kwargs) (a : string) : pyval := match kw_get b a with Some v => v | None => PNone end.
(** [Class( *pos, **kw)]: em/static/wholespace.py l.1097-1100, em/static/halfspace.py l.29-40, l.343-357 *)
Definition electrode_call (py : pyext) (e : electrode) (pos : list pyval) (kw : kwargs) : obj * result unit :=
  (b <-- lift (bind_args (electrode_signature e) false pos kw) ;;
   let p := param (fst b) in
   match e with
   | PointWhole => init_pcws py "" (p "rho") (p "current") (p "location")
   | PointHalf => init_hs py "" (p "rho") (p "current") (p "location")
   | DipoleHalf => init_dhs py "" (p "rho") (p "location_a") (p "location_b") (p "current")
   end) empty_obj.
