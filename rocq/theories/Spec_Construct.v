(** Specification for C105: the documented arguments of each class, the order in which they
    may be given by position, and what a call supplies for each. *)
From Coq Require Import Reals List Bool String.
From Verif Require Import Numpy PyVal Model_Setters Spec_Setters Spec_Contracts Model_Construct.
Import ListNotations.
Open Scope string_scope.
Open Scope R_scope.

Inductive argument : Type := Required | Default (v : pyval) | Optional.
Definition number (x : R) : argument := Default (PNum (Fin x)).
Definition point3 (x y z : R) : argument := Default (PArr (fin3 x y z)).

(** documented defaults (docstrings of the classes and their bases) *)
Definition medium_args : list (string * argument) :=
  [ ("sigma", number 1); ("mu", number (4 * PI / 10000000)); ("epsilon", number (8.8541878128 / 1000000000000)) ].
Definition dipole_args : list (string * argument) :=
  [ ("location", point3 0 0 0); ("orientation", Default (PStr "X")) ].
Definition electric_args : list (string * argument) := [ ("length", number 1); ("current", number 1) ] ++ dipole_args.
Definition magnetic_args : list (string * argument) := [ ("moment", number 1) ] ++ dipole_args.
Definition harmonic_args : list (string * argument) := [ ("frequency", Required); ("quasistatic", number 0) ] ++ medium_args.
Definition transient_args : list (string * argument) := [ ("time", Required) ] ++ medium_args.
Definition wave_args : list (string * argument) := [ ("amplitude", number 1); ("orientation", Default (PStr "X")) ].
Definition arguments (k : class) : list (string * argument) :=
  match k with
  | CStaticMagnetic => medium_args ++ magnetic_args
  | CLoop => [ ("radius", number (sqrt (1 / PI))); ("current", number 1) ] ++ medium_args ++ dipole_args
  | CLine => [ ("nodes", Required); ("current", number 1) ] ++ medium_args
  | CFdemElectric => harmonic_args ++ electric_args
  | CFdemMagnetic | CFdemHalfSpace => harmonic_args ++ magnetic_args
  | CHarmonicPlaneWave => wave_args ++ harmonic_args
  | CTdemElectric => transient_args ++ electric_args
  | CTdemHalfSpace => transient_args ++ magnetic_args
  | CTransientPlaneWave => wave_args ++ transient_args
  | CPointMass => [ ("mass", number 1); ("location", point3 0 0 0) ]
  | CSphere => [ ("radius", Required); ("rho", Required); ("location", point3 0 0 0); ("mass", number 1) ]
  | CPrism => [ ("min_location", Required); ("max_location", Required); ("rho", number 1) ]
  | CMagneticPrism => [ ("min_location", Required); ("max_location", Required); ("magnetization", point3 0 0 1) ]
  | CElectrostaticSphere => [ ("radius", Required); ("sigma_sphere", Required); ("sigma_background", Required);
                              ("primary_field", point3 1 0 0); ("location", point3 0 0 0) ]
  | CMagnetostaticSphere => [ ("radius", Required); ("mu_sphere", Required); ("mu_background", Required);
                              ("primary_field", point3 1 0 0); ("location", point3 0 0 0) ]
  | CInterferogram =>
      map (fun a => (a, Required)) [ "data"; "title"; "location"; "location_UTM_zone"; "shape"; "pixel_size"; "ref";
        "ref_incidence"; "satellite_azimuth"; "satellite_altitude"; "processed_by" ] ++
      [ ("scaling", number 1); ("satellite_fringe_interval", number (28333 / 1000000));
        ("local_earth_radius", number 6371000); ("local_rigidity", number 30000000000) ] ++
      map (fun a => (a, Optional)) [ "description"; "event_country"; "event_name"; "copyright"; "data_source";
        "satellite_name"; "event_gcmt_id"; "date1"; "date2"; "processed_date"; "event_date" ]
  | COksar =>
      map (fun a => (a, Required)) [ "O"; "U"; "V"; "center"; "depth_top" ] ++
      [ ("depth_bottom", number 10000); ("strike", number 0); ("dip", number 45); ("rake", number 90);
        ("slip", number (1 / 2)); ("length", number 10000); ("beta", number 30000000000); ("mu", number 30000000000);
        ("shape", Default (PSeq (Ok (mkarr [2%nat] [Fin 300; Fin 300])))) ]
  end.
(** the arguments that may be given without their name, in this order *)
Definition positional (k : class) : list string :=
  match k with
  | CStaticMagnetic => [ "sigma"; "mu"; "epsilon" ]
  | CLoop => [ "radius"; "current" ]
  | CLine => [ "nodes"; "current" ]
  | CFdemElectric | CFdemMagnetic => [ "frequency"; "quasistatic" ]
  | CFdemHalfSpace => [ "frequency" ]
  | CHarmonicPlaneWave | CTransientPlaneWave => [ "amplitude"; "orientation" ]
  | CTdemElectric | CTdemHalfSpace => [ "time" ]
  | CPointMass => [ "mass"; "location" ]
  | CSphere => [ "radius"; "rho"; "location" ]
  | CPrism => [ "min_location"; "max_location"; "rho" ]
  | CMagneticPrism => [ "min_location"; "max_location"; "magnetization" ]
  | CElectrostaticSphere => [ "radius"; "sigma_sphere"; "sigma_background"; "primary_field"; "location" ]
  | CMagnetostaticSphere => [ "radius"; "mu_sphere"; "mu_background"; "primary_field"; "location" ]
  | CInterferogram => [ "data"; "title"; "location"; "location_UTM_zone"; "shape"; "pixel_size"; "ref";
        "ref_incidence"; "satellite_azimuth"; "satellite_altitude"; "processed_by"; "scaling";
        "satellite_fringe_interval"; "local_earth_radius"; "local_rigidity" ]
  | COksar => [ "O"; "U"; "V"; "center"; "depth_top"; "depth_bottom"; "strike"; "dip"; "rake"; "slip"; "length";
                "beta"; "mu"; "shape" ]
  end.
(** the classes where None for this argument means its default *)
Definition none_is_default (k : class) (a : string) : bool :=
  match k with
  | CPointMass | CSphere => String.eqb a "location"
  | CMagneticPrism => String.eqb a "magnetization"
  | CElectrostaticSphere | CMagnetostaticSphere => (String.eqb a "primary_field" || String.eqb a "location")%bool
  | _ => false
  end.
(** what the call writes down for argument [a]: by position, else by name *)
Fixpoint position_of (a : string) (l : list string) (pos : list pyval) : option pyval :=
  match l, pos with
  | b :: l', v :: pos' => if String.eqb b a then Some v else position_of a l' pos'
  | _, _ => None
  end.
Definition written (k : class) (pos : list pyval) (kw : kwargs) (a : string) : option pyval :=
  match position_of a (positional k) pos with
  | Some v => Some v
  | None => kw_get kw a
  end.
(** the value the call supplies for argument [a], the default included *)
Definition supplied (k : class) (pos : list pyval) (kw : kwargs) (a : string) (d : argument) : option pyval :=
  let default := match d with Default v => Some v | _ => None end in
  match written k pos kw a with
  | Some v => if (is_none v && none_is_default k a)%bool then default else Some v
  | None => default
  end.
(** a call that Python can bind: no surplus positional argument, no argument given twice,
    no unknown name, every required argument present *)
Definition well_formed_call (k : class) (pos : list pyval) (kw : kwargs) : Prop :=
  (List.length pos <= List.length (positional k))%nat /\
  (forall a, In a (map fst kw) -> position_of a (positional k) pos = None) /\
  (forall a, In a (map fst kw) -> exists d, In (a, d) (arguments k)) /\
  (forall a, In (a, Required) (arguments k) -> written k pos kw a <> None).
(** what the corners of a prism and the place of the half-space source must satisfy besides *)
Definition geometry_ok (py : pyext) (k : class) (o : obj) : Prop :=
  match k with
  | CPrism | CMagneticPrism => exists x1 y1 z1 x2 y2 z2,
      reads (cls_of py (kind_of k)) o "min_location" = Ok (AArr (vec3 x1 y1 z1)) /\
      reads (cls_of py (kind_of k)) o "max_location" = Ok (AArr (vec3 x2 y2 z2)) /\
      fle x2 x1 = false /\ fle y2 y1 = false /\ fle z2 z1 = false
  | CFdemHalfSpace => exists x y, reads (cls_of py (kind_of k)) o "location" = Ok (AArr (vec3 x y (Fin 0)))
  | _ => True
  end.
(** arguments that are genuine Python and numpy values *)
Definition genuine (pos : list pyval) (kw : kwargs) : Prop :=
  List.Forall wf_val pos /\ List.Forall (fun p => wf_val (snd p)) kw.
