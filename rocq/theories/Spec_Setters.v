(** Specification vocabulary for the attribute properties: what a user may say
    about numbers, vectors and histories without looking at the setters. *)
From Coq Require Import Reals List String.
From Verif Require Import Numpy PyVal Model_Setters.
Import ListNotations.
Open Scope string_scope.
Open Scope R_scope.

(** a number that is not below or at zero (nan compares false with everything) *)
Definition positive_or_nan (x : fl) : Prop :=
  x = NaN \/ x = PInf \/ exists r, x = Fin r /\ 0 < r.
Definition nonneg_or_nan (x : fl) : Prop :=
  x = NaN \/ x = PInf \/ exists r, x = Fin r /\ 0 <= r.
Definition within_or_nan (lo hi : R) (x : fl) : Prop :=
  x = NaN \/ exists r, x = Fin r /\ lo <= r <= hi.
(** r is the reciprocal of s *)
Definition reciprocal (s r : fl) : Prop :=
  match s with
  | Fin x => x <> 0 /\ r = Fin (1 / x)
  | PInf | NInf => r = Fin 0
  | NaN => r = NaN
  end.
(** a vector of shape (3,) *)
Definition is_vec3 (v : aval) : Prop := exists x y z, v = AArr (vec3 x y z).
(** histories made of genuine Python values *)
Definition wf_history (h : history) : Prop := Forall (fun q => wf_val (snd q)) h.
(** no assignment to attribute [a] in the history *)
Definition not_assigned (a : string) (h : history) : Prop := ~ In a (map fst h).
(** the axis named by a letter, in either case *)
Definition axis_of (s : string) : option arr :=
  if (String.eqb s "X" || String.eqb s "x")%bool then Some (vec3 (Fin 1) (Fin 0) (Fin 0))
  else if (String.eqb s "Y" || String.eqb s "y")%bool then Some (vec3 (Fin 0) (Fin 1) (Fin 0))
  else if (String.eqb s "Z" || String.eqb s "z")%bool then Some (vec3 (Fin 0) (Fin 0) (Fin 1))
  else None.
(** a finite vector *)
Definition fin3 (x y z : R) : arr := vec3 (Fin x) (Fin y) (Fin z).
(** value v converts to the finite vector (x,y,z) (extra axes of length 1 are dropped) *)
Definition converts_to (py : pyext) (v : pyval) (x y z : R) : Prop :=
  exists a, asarray py v = Ok a /\ squeeze a = fin3 x y z.

(** ** Metadata of an interferogram: how each attribute converts what it is given *)
Inductive conv_kind : Type := CFloat | CStr | CArray | CVec2 | CInt | CPair | CDate.
Definition convert (py : pyext) (k : conv_kind) (v : pyval) : option aval :=
  match k with
  | CFloat => match float_ py v with Ok x => Some (AFlt x) | Raise _ => None end
  | CStr => match to_str py v with Ok s => Some (AStr s) | Raise _ => None end
  | CArray => match asarray py v with Ok a => Some (AArr a) | Raise _ => None end
  | CVec2 => match asarray py v with
             | Ok a => if shape_is (squeeze a) [2%nat] then Some (AArr (squeeze a)) else None
             | Raise _ => None end
  | CInt => match to_int py v with Ok z => Some (AInt z) | Raise _ => None end
  | CPair => match to_ints py v with
             | Ok l => if Nat.eqb (List.length l) 2 then Some (AInts l) else None
             | Raise _ => None end
  | CDate => match v with
             | PDate d => Some (ADate d)
             | _ => match to_date py v with Ok d => Some (ADate d) | Raise _ => None end
             end
  end.
Definition metadata : list (string * conv_kind) :=
  [ ("data", CArray); ("title", CStr); ("location", CVec2); ("location_UTM_zone", CInt);
    ("shape", CPair); ("pixel_size", CVec2); ("ref", CVec2); ("ref_incidence", CFloat);
    ("scaling", CFloat); ("satellite_fringe_interval", CFloat); ("satellite_azimuth", CFloat);
    ("satellite_altitude", CFloat); ("local_earth_radius", CFloat); ("local_rigidity", CFloat);
    ("processed_by", CStr); ("description", CStr); ("satellite_name", CStr); ("copyright", CStr);
    ("data_source", CStr); ("event_gcmt_id", CStr); ("event_name", CStr); ("event_country", CStr);
    ("date1", CDate); ("date2", CDate); ("processed_date", CDate); ("event_date", CDate) ].
(** what attribute [a] should read after a history: the conversion of the last value
    assigned to it that could be converted, else what it read before *)
Fixpoint last_value (py : pyext) (a : string) (k : conv_kind) (h : history) (r : result aval) : result aval :=
  match h with
  | [] => r
  | (b, v) :: t =>
      last_value py a k t
        (if String.eqb b a then match convert py k v with Some x => Ok x | None => r end else r)
  end.
(** depth order, nan aside *)
Definition ordered_or_nan (top bottom : fl) : Prop :=
  top = NaN \/ bottom = NaN \/ bottom = PInf \/
  exists t b, top = Fin t /\ bottom = Fin b /\ t <= b.

(** ** Half-space electrodes: the facade object and the two whole-space sources it owns *)
(** the electrode stored under prefix [p] reads current c, resistivity r, location
    (x,y,z) at or below the surface, and its primary and image source carry the same
    current and resistivity, at (x,y,z) and at the mirror point (x,y,-z) *)
Definition electrode_in_sync (facade source : cls) (p : string) (o : obj) (c r x y z : fl) : Prop :=
  snd (getattr facade p "current" o) = Ok (AFlt c) /\
  snd (getattr facade p "rho" o) = Ok (AFlt r) /\
  snd (getattr facade p "location" o) = Ok (AArr (vec3 x y z)) /\
  positive_or_nan r /\ flt (Fin 0) z = false /\
  (forall sub zz, (sub = "_primary." /\ zz = z) \/ (sub = "_image." /\ zz = fneg z) ->
     snd (getattr source (p ++ sub) "current" o) = Ok (AFlt c) /\
     snd (getattr source (p ++ sub) "rho" o) = Ok (AFlt r) /\
     snd (getattr source (p ++ sub) "location" o) = Ok (AArr (vec3 x y zz))).
(** assignments outside the two defects recorded as findings: rho = inf, and a
    location given as an array of two or more dimensions *)
Definition hs_value_ok (py : pyext) (a : string) (v : pyval) : Prop :=
  (a = "rho" -> float_ py v <> Ok PInf) /\
  (a <> "rho" -> a <> "current" -> forall arr, asarray py v = Ok arr -> (ndim arr <= 1)%nat).

(** the attributes documented as 3-vectors and checked as such *)
Definition vector_attribute (k : kind) (a : string) : Prop :=
  (In k dipole_kinds /\ (a = "location" \/ a = "orientation")) \/
  (In k [KPointMass; KSphere] /\ a = "location") \/
  (In k prism_kinds /\ (a = "min_location" \/ a = "max_location")) \/
  (k = KMagneticPrism /\ a = "magnetization").

(** the frequency-domain and time-domain classes *)
Definition fdem_kinds : list kind := [ KBaseFDEM; KFdemElectricDipole; KFdemMagneticDipole; KHarmonicPlaneWave ].
Definition tdem_kinds : list kind := [ KBaseTDEM; KTdemElectricDipole; KTdemMagneticDipole; KTransientPlaneWave ].
