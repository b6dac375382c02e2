(** Model of calling the package's classes: Python's binding of positional and keyword
    arguments to the __init__ signatures, the defaults, the **kwargs handed up the method
    resolution order, and the assignments each __init__ makes through the properties. *)
From Coq Require Import Reals List Bool Arith ZArith String.
From Verif Require Import Numpy PyVal Model_Setters.
Import ListNotations.
Open Scope string_scope.
Open Scope R_scope.

(** keyword arguments: a dict *)
Definition kwargs : Type := list (string * pyval).
Fixpoint kw_get (kw : kwargs) (a : string) : option pyval :=
  match kw with
  | [] => None
  | (b, v) :: r => if String.eqb b a then Some v else kw_get r a
  end.
Definition mem (a : string) (l : list string) : bool := existsb (String.eqb a) l.

(** a signature: the parameters in order, each with its default if it has one *)
Definition signature : Type := list (string * option pyval).
Definition names (sg : signature) : list string := map fst sg.

(** Python language reference 6.3.4 (Calls): positional arguments fill the parameters in
    order; too many of them is a TypeError *)
Fixpoint by_position (sg : list string) (pos : list pyval) : result kwargs :=
  match sg, pos with
  | _, [] => Ok []
  | [], _ :: _ => Raise TypeError
  | a :: sg', v :: pos' => rmap (fun r => (a, v) :: r) (by_position sg' pos')
  end.
(** the value of one parameter: what was given, else the default, else TypeError *)
Definition param_value (given : kwargs) (p : string * option pyval) : result (string * pyval) :=
  match kw_get given (fst p), snd p with
  | Some v, _ => Ok (fst p, v)
  | None, Some d => Ok (fst p, d)
  | None, None => Raise TypeError
  end.
Fixpoint all_values (given : kwargs) (sg : signature) : result kwargs :=
  match sg with
  | [] => Ok []
  | p :: r => match param_value given p, all_values given r with
              | Ok x, Ok l => Ok (x :: l)
              | Raise e, _ => Raise e
              | _, Raise e => Raise e
              end
  end.
(** binding one call: the parameters' values and the keywords left for **kwargs; without
    **kwargs an unknown keyword is a TypeError, and so is a parameter given twice *)
Definition bind_args (sg : signature) (varkw : bool) (pos : list pyval) (kw : kwargs) : result (kwargs * kwargs) :=
  match by_position (names sg) pos with
  | Raise e => Raise e
  | Ok given =>
      let rest := filter (fun p => negb (mem (fst p) (names sg))) kw in
      if existsb (fun p => mem (fst p) (map fst given)) kw then Raise TypeError
      else if negb varkw && negb (Nat.eqb (List.length rest) 0) then Raise TypeError
      else match all_values (given ++ kw)%list sg with
           | Ok vals => Ok (vals, rest)
           | Raise e => Raise e
           end
  end.

(** One __init__ in the method resolution order: its signature, whether it has **kwargs,
    the arguments [if a is None: a = ...], the attributes assigned before super().__init__,
    the keywords passed on by name besides **kwargs, what super() is, and the attributes
    assigned after it.  [optional] are keywords popped from **kwargs and assigned when given. *)
Inductive init : Type :=
| Object                      (* object.__init__: TypeError unless kwargs is empty *)
| NoSuper                     (* super().__init__ is not called *)
| Init (sg : signature) (varkw : bool) (if_none : kwargs) (before : list string) (optional : list string)
       (pass : list string) (super : init) (after : list string).

Definition replace_none (if_none : kwargs) (p : string * pyval) : string * pyval :=
  (fst p, if is_none (snd p) then match kw_get if_none (fst p) with Some d => d | None => snd p end else snd p).
(** self.a = a for each a of a list *)
Fixpoint assign_all (c : cls) (l : list string) (vals : kwargs) : M unit :=
  match l with
  | [] => ret tt
  | a :: r => match kw_get vals a with
              | Some v => setattr c "" a v ;; assign_all c r vals
              | None => assign_all c r vals
              end
  end.
Definition keep (l : list string) (kw : kwargs) : kwargs := filter (fun p => mem (fst p) l) kw.
Definition drop (l : list string) (kw : kwargs) : kwargs := filter (fun p => negb (mem (fst p) l)) kw.
Fixpoint run_init (c : cls) (i : init) (pos : list pyval) (kw : kwargs) : M unit :=
  match i with
  | Object => match pos, kw with [], [] => ret tt | _, _ => raise TypeError end
  | NoSuper => ret tt
  | Init sg varkw if_none before optional pass super after =>
      b <-- lift (bind_args sg varkw pos kw) ;;
      let vals := map (replace_none if_none) (fst b) in
      assign_all c before vals ;;
      assign_all c optional (snd b) ;;
      run_init c super [] (keep pass vals ++ drop optional (snd b))%list ;;
      assign_all c after vals
  end.

Section Ext.
Variable py : pyext.
Let num (x : R) : option pyval := Some (PNum (Fin x)).
Let point (x y z : R) : option pyval := Some (PArr (vec3 (Fin x) (Fin y) (Fin z))).

(** em/base.py l.36-41; scipy's mu_0 is the documented 4 pi 10^-7 up to 6 parts in 10^10 *)
Definition BaseEM_init (super : init) : init :=
  Init [("sigma", num 1); ("mu", num c_mu0); ("epsilon", num c_eps0)] true []
       ["sigma"; "mu"; "epsilon"] [] [] super [].
(** em/base.py l.153-157 *)
Definition BaseDipole_init (super : init) : init :=
  Init [("location", point 0 0 0); ("orientation", Some (PStr "X"))] true [] ["location"; "orientation"] [] [] super [].
(** em/base.py l.346-351 *)
Definition BaseElectricDipole_init (super : init) : init :=
  Init [("length", num 1); ("current", num 1)] true [] ["length"; "current"] [] [] (BaseDipole_init super) [].
(** em/base.py l.419-422 *)
Definition BaseMagneticDipole_init (super : init) : init :=
  Init [("moment", num 1)] true [] ["moment"] [] [] (BaseDipole_init super) [].
(** em/base.py l.456-460 *)
Definition BaseLineCurrent_init (super : init) : init :=
  Init [("nodes", None); ("current", num 1)] true [] ["nodes"; "current"] [] [] super [].
(** em/fdem/base.py l.188-192 ([quasistatic=False]; Python's False is the number 0) *)
Definition BaseFDEM_init (super : init) : init :=
  Init [("frequency", None); ("quasistatic", num 0)] true [] ["frequency"; "quasistatic"] [] [] (BaseEM_init super) [].
(** em/tdem/base.py l.147-150 *)
Definition BaseTDEM_init (super : init) : init :=
  Init [("time", None)] true [] ["time"] [] [] (BaseEM_init super) [].
(** shapes.py l.38-41 (the comparison of the corners, l.42-43, is in [construct]) *)
Definition BasePrism_init : init :=
  Init [("min_location", None); ("max_location", None)] true [] [] [] [] Object ["min_location"; "max_location"].
(** gravity.py l.46-52 *)
Definition PointMass_init : init :=
  Init [("mass", num 1); ("location", Some PNone)] true [("location", PArr origin)] ["mass"; "location"] [] [] Object [].

(** the public classes that are called with these arguments *)
Inductive class : Type :=
| CStaticMagnetic        (* em.static MagneticDipoleWholeSpace and MagneticPoleWholeSpace *)
| CLoop | CLine
| CFdemElectric | CFdemMagnetic | CFdemHalfSpace | CHarmonicPlaneWave
| CTdemElectric | CTdemHalfSpace | CTransientPlaneWave
| CPointMass | CSphere | CPrism | CMagneticPrism
| CElectrostaticSphere | CMagnetostaticSphere
| CInterferogram | COksar.
(** the attributes (Model_Setters.v) of each *)
Definition kind_of (k : class) : kind :=
  match k with
  | CStaticMagnetic => KMagneticDipoleWholeSpace
  | CLoop => KCircularLoopWholeSpace
  | CLine => KLineCurrentWholeSpace
  | CFdemElectric => KFdemElectricDipole
  | CFdemMagnetic | CFdemHalfSpace => KFdemMagneticDipole
  | CHarmonicPlaneWave => KHarmonicPlaneWave
  | CTdemElectric => KTdemElectricDipole
  | CTdemHalfSpace => KTdemMagneticDipole
  | CTransientPlaneWave => KTransientPlaneWave
  | CPointMass => KPointMass
  | CSphere => KSphere
  | CPrism => KPrism
  | CMagneticPrism => KMagneticPrism
  | CElectrostaticSphere => KElectrostaticSphere
  | CMagnetostaticSphere => KMagnetostaticSphere
  | CInterferogram => KEarthquakeInterferogram
  | COksar => KOksar
  end.
(** the method resolution order of each class, as nested __init__ calls *)
Definition init_of (k : class) : init :=
  match k with
  (* em/static/wholespace.py l.18, l.297: (BaseEM, BaseMagneticDipole) *)
  | CStaticMagnetic => BaseEM_init (BaseMagneticDipole_init Object)
  (* em/static/wholespace.py l.403, l.419-423: (BaseEM, BaseDipole) *)
  | CLoop => Init [("radius", num (sqrt (1 / PI))); ("current", num 1)] true [] ["current"; "radius"] [] []
               (BaseEM_init (BaseDipole_init Object)) []
  (* em/static/wholespace.py l.835: (BaseLineCurrent, BaseEM) *)
  | CLine => BaseLineCurrent_init (BaseEM_init Object)
  (* em/fdem/wholespace.py l.12, l.473 *)
  | CFdemElectric => BaseFDEM_init (BaseElectricDipole_init Object)
  | CFdemMagnetic => BaseFDEM_init (BaseMagneticDipole_init Object)
  (* em/fdem/halfspace.py l.15-17 *)
  | CFdemHalfSpace => Init [("frequency", None)] true [] [] [] ["frequency"] (BaseFDEM_init (BaseMagneticDipole_init Object)) []
  (* em/fdem/wholespace.py l.939-945 *)
  | CHarmonicPlaneWave => Init [("amplitude", num 1); ("orientation", Some (PStr "X"))] true [] ["amplitude"; "orientation"] [] []
               (BaseFDEM_init Object) []
  (* em/tdem/wholespace.py l.21 *)
  | CTdemElectric => BaseTDEM_init (BaseElectricDipole_init Object)
  (* em/tdem/halfspace.py l.13 *)
  | CTdemHalfSpace => BaseTDEM_init (BaseMagneticDipole_init Object)
  (* em/tdem/wholespace.py l.616-622 *)
  | CTransientPlaneWave => Init [("amplitude", num 1); ("orientation", Some (PStr "X"))] true [] ["amplitude"; "orientation"] [] []
               (BaseTDEM_init Object) []
  | CPointMass => PointMass_init
  (* gravity.py l.301-304 *)
  | CSphere => Init [("radius", None); ("rho", None); ("location", Some PNone)] true [] ["radius"] [] ["location"] PointMass_init ["rho"]
  (* gravity.py l.586-588 *)
  | CPrism => Init [("min_location", None); ("max_location", None); ("rho", num 1)] false [] ["rho"] []
               ["min_location"; "max_location"] BasePrism_init []
  (* em/static/freespace.py l.38-44 *)
  | CMagneticPrism => Init [("min_location", None); ("max_location", None); ("magnetization", Some PNone)] false
               [("magnetization", PArr (vec3 (Fin 0) (Fin 0) (Fin 1)))] ["magnetization"] []
               ["min_location"; "max_location"] BasePrism_init []
  (* em/static/sphere.py l.30-42 *)
  | CElectrostaticSphere => Init [("radius", None); ("sigma_sphere", None); ("sigma_background", None);
                 ("primary_field", Some PNone); ("location", Some PNone)] false
               [("primary_field", PArr (vec3 (Fin 1) (Fin 0) (Fin 0))); ("location", PArr origin)]
               ["radius"; "sigma_sphere"; "sigma_background"; "primary_field"; "location"] [] [] NoSuper []
  (* em/static/sphere.py l.540-552 *)
  | CMagnetostaticSphere => Init [("radius", None); ("mu_sphere", None); ("mu_background", None);
                 ("primary_field", Some PNone); ("location", Some PNone)] false
               [("primary_field", PArr (vec3 (Fin 1) (Fin 0) (Fin 0))); ("location", PArr origin)]
               ["radius"; "mu_sphere"; "mu_background"; "primary_field"; "location"] [] [] NoSuper []
  (* earthquake/oksar.py l.45-90 *)
  | CInterferogram => Init [("data", None); ("title", None); ("location", None); ("location_UTM_zone", None);
                 ("shape", None); ("pixel_size", None); ("ref", None); ("ref_incidence", None);
                 ("satellite_azimuth", None); ("satellite_altitude", None); ("processed_by", None);
                 ("scaling", num 1); ("satellite_fringe_interval", num (28333 / 1000000));
                 ("local_earth_radius", num 6371000); ("local_rigidity", num 30000000000)] true []
               int_params int_kwargs [] Object []
  (* earthquake/oksar.py l.913-944 *)
  | COksar => Init [("O", None); ("U", None); ("V", None); ("center", None); ("depth_top", None);
                 ("depth_bottom", num 10000); ("strike", num 0); ("dip", num 45); ("rake", num 90);
                 ("slip", num (1 / 2)); ("length", num 10000); ("beta", num 30000000000);
                 ("mu", num 30000000000); ("shape", Some (PSeq (Ok (mkarr [2%nat] [Fin 300; Fin 300]))))] false []
               ["O"; "U"; "V"; "center"; "depth_top"; "depth_bottom"; "strike"; "dip"; "rake"; "slip";
                "length"; "beta"; "mu"; "shape"] [] [] NoSuper []
  end.
(** the checks at the end of __init__: shapes.py l.42-43, em/fdem/halfspace.py l.17-21 *)
Definition final_check (k : class) : M unit :=
  match k with
  | CPrism | CMagneticPrism =>
      mx <-- read_arr "_max_location" ;;
      mn <-- read_arr "_min_location" ;;
      check (existsb (fun q => fle (fst q) (snd q)) (combine (adata mx) (adata mn))) ValueError
  | CFdemHalfSpace =>
      loc <-- read_arr "_location" ;;
      check (negb (feq (nth 2 (adata loc) NaN) (Fin 0))) ValueError
  | _ => ret tt
  end.
(** [Class( *pos, **kw)] *)
Definition call (k : class) (pos : list pyval) (kw : kwargs) : obj * result unit :=
  (run_init (cls_of py (kind_of k)) (init_of k) pos kw ;; final_check k) empty_obj.
End Ext.
