(** Specification for C104: what each assignable attribute of the package's classes
    accepts, what it then reads, and which exception a refused value raises.  The table
    is written from the documentation and the error messages, attribute by attribute;
    it does not mention the setters. *)
From Coq Require Import Reals List String ZArith.
From Verif Require Import Numpy PyVal Model_Setters Spec_Setters.
Import ListNotations.
Open Scope string_scope.
Open Scope R_scope.

(** which numbers an attribute takes; nan passes every comparison-based check *)
Inductive range : Type := AnyNumber | Positive | NonNegative | Between (lo hi : R).
Definition in_range (r : range) (x : fl) : Prop :=
  match r with
  | AnyNumber => True
  | Positive => positive_or_nan x
  | NonNegative => nonneg_or_nan x
  | Between lo hi => within_or_nan lo hi x
  end.

Inductive rule : Type :=
| Number (r : range)          (* converted with float(); TypeError if that fails, ValueError if out of range *)
| BareNumber (r : range)      (* the same, but the exception of float() itself comes through *)
| Vector (n : nat) (e : exn)  (* an array of shape (n,) up to axes of length 1; another shape raises e *)
| FirstAxis3                  (* an array whose first axis has length 3 *)
| Samples                     (* a number or one-dimensional array without negative entries *)
| Nodes                       (* an (n, 3) array; a single (3,) point counts as one row *)
| Direction                   (* a letter X, Y, Z in either case, or a vector, stored with length one *)
| PlaneDirection              (* the same, horizontal only *)
| Anything                    (* stored as given *)
| Array                       (* any numeric array *)
| Text                        (* str() of the value *)
| Integer                     (* int() of the value *)
| PairOfIntegers (e : exn)    (* two integers; another number of them raises e *)
| Date.                       (* a datetime, or what the date reader makes of the value *)

Inductive outcome : Type := Stored (x : aval) | Refused (e : exn).

(** the vector divided by its length *)
Definition unit_vector (a : arr) : arr := amap (fun x => fdiv_np x (fnorm (adata a))) a.
(** the horizontal axis named by a letter *)
Definition horizontal_axis_of (s : string) : option arr :=
  if (String.eqb s "Z" || String.eqb s "z")%bool then None else axis_of s.

Definition demands (py : pyext) (r : rule) (v : pyval) (out : outcome) : Prop :=
  match r with
  | Number g =>
      (exists e, float_ py v = Raise e /\ out = Refused TypeError) \/
      (exists x, float_ py v = Ok x /\ in_range g x /\ out = Stored (AFlt x)) \/
      (exists x, float_ py v = Ok x /\ ~ in_range g x /\ out = Refused ValueError)
  | BareNumber g =>
      (exists e, float_ py v = Raise e /\ out = Refused e) \/
      (exists x, float_ py v = Ok x /\ in_range g x /\ out = Stored (AFlt x)) \/
      (exists x, float_ py v = Ok x /\ ~ in_range g x /\ out = Refused ValueError)
  | Vector n err =>
      (exists e, asarray py v = Raise e /\ out = Refused TypeError) \/
      (exists a, asarray py v = Ok a /\ ashape (squeeze a) = [n] /\ out = Stored (AArr (squeeze a))) \/
      (exists a, asarray py v = Ok a /\ ashape (squeeze a) <> [n] /\ out = Refused err)
  | FirstAxis3 =>
      (exists e, asarray py v = Raise e /\ out = Refused TypeError) \/
      (exists a rest, asarray py v = Ok a /\ ashape a = 3%nat :: rest /\ out = Stored (AArr a)) \/
      (exists a, asarray py v = Ok a /\ (forall rest, ashape a <> 3%nat :: rest) /\ out = Refused ValueError)
  | Samples =>
      (exists e, asarray py v = Raise e /\ out = Refused TypeError) \/
      (exists a, asarray py v = Ok a /\ (forall x, In x (adata a) -> nonneg_or_nan x) /\
         (ndim a <= 1)%nat /\ out = Stored (AArr a)) \/
      (exists a x, asarray py v = Ok a /\ In x (adata a) /\ ~ nonneg_or_nan x /\ out = Refused ValueError) \/
      (exists a, asarray py v = Ok a /\ (forall x, In x (adata a) -> nonneg_or_nan x) /\
         (1 < ndim a)%nat /\ out = Refused TypeError)
  | Nodes =>
      (exists e, asarray py v = Raise e /\ out = Refused TypeError) \/
      (exists a n, asarray py v = Ok a /\ ashape a = [n; 3%nat] /\ out = Stored (AArr a)) \/
      (exists a, asarray py v = Ok a /\ ashape a = [3%nat] /\
         out = Stored (AArr (mkarr [1%nat; 3%nat] (adata a)))) \/
      (exists a, asarray py v = Ok a /\ ashape a <> [3%nat] /\ (forall n, ashape a <> [n; 3%nat]) /\
         out = Refused ValueError)
  | Direction =>
      (exists s a, v = PStr s /\ axis_of s = Some a /\ out = Stored (AArr a)) \/
      (exists s, v = PStr s /\ axis_of s = None /\ out = Refused ValueError) \/
      ((forall s, v <> PStr s) /\
       ((exists e, asarray py v = Raise e /\ out = Refused TypeError) \/
        (exists a, asarray py v = Ok a /\ ashape (squeeze a) = [3%nat] /\
           out = Stored (AArr (unit_vector (squeeze a)))) \/
        (exists a, asarray py v = Ok a /\ ashape (squeeze a) <> [3%nat] /\ out = Refused ValueError)))
  | PlaneDirection =>
      (exists s a, v = PStr s /\ horizontal_axis_of s = Some a /\ out = Stored (AArr a)) \/
      (* a finding (C34): any other text is kept as it is *)
      (exists s, v = PStr s /\ horizontal_axis_of s = None /\ out = Stored (AStr s)) \/
      ((forall s, v <> PStr s) /\
       ((exists e, asarray py v = Raise e /\ out = Refused TypeError) \/
        (exists a x y z, asarray py v = Ok a /\ squeeze a = vec3 x y z /\ z = Fin 0 /\
           out = Stored (AArr (unit_vector (squeeze a)))) \/
        (exists a x y z, asarray py v = Ok a /\ squeeze a = vec3 x y z /\ z <> Fin 0 /\
           out = Refused ValueError) \/
        (* a single number: the message of the refusal itself fails *)
        (exists a, asarray py v = Ok a /\ ashape (squeeze a) = [] /\ out = Refused TypeError) \/
        (exists a, asarray py v = Ok a /\ ashape (squeeze a) <> [] /\ ashape (squeeze a) <> [3%nat] /\
           out = Refused ValueError)))
  | Anything => out = Stored (APy v)
  | Array =>
      (exists e, asarray py v = Raise e /\ out = Refused TypeError) \/
      (exists a, asarray py v = Ok a /\ out = Stored (AArr a))
  | Text =>
      (exists e, to_str py v = Raise e /\ out = Refused TypeError) \/
      (exists s, to_str py v = Ok s /\ out = Stored (AStr s))
  | Integer =>
      (exists e, to_int py v = Raise e /\ out = Refused TypeError) \/
      (exists z, to_int py v = Ok z /\ out = Stored (AInt z))
  | PairOfIntegers err =>
      (exists e, to_ints py v = Raise e /\ out = Refused TypeError) \/
      (exists m n, to_ints py v = Ok [m; n] /\ out = Stored (AInts [m; n])) \/
      (exists l, to_ints py v = Ok l /\ List.length l <> 2%nat /\ out = Refused err)
  | Date =>
      (exists d, v = PDate d /\ out = Stored (ADate d)) \/
      ((forall d, v <> PDate d) /\
       ((exists e, to_date py v = Raise e /\ out = Refused TypeError) \/
        (exists d, to_date py v = Ok d /\ out = Stored (ADate d))))
  end.

(** ** The table *)
Definition medium : list (string * rule) :=
  [ ("sigma", Number Positive); ("mu", Number Positive); ("epsilon", Number NonNegative) ].
Definition dipole : list (string * rule) :=
  [ ("location", Vector 3 ValueError); ("orientation", Direction) ].
Definition electric_dipole : list (string * rule) :=
  [ ("length", Number Positive); ("current", Number AnyNumber) ] ++ dipole.
Definition magnetic_dipole : list (string * rule) := [ ("moment", Number AnyNumber) ] ++ dipole.
Definition wire : list (string * rule) := [ ("nodes", Nodes); ("current", Number AnyNumber) ].
Definition box : list (string * rule) :=
  [ ("min_location", Vector 3 ValueError); ("max_location", Vector 3 ValueError) ].
Definition ball : list (string * rule) :=
  [ ("radius", BareNumber NonNegative); ("primary_field", FirstAxis3); ("location", FirstAxis3) ].
Definition harmonic : list (string * rule) := [ ("frequency", Samples); ("quasistatic", Anything) ] ++ medium.
Definition transient : list (string * rule) := [ ("time", Samples) ] ++ medium.
Definition plane_wave : list (string * rule) :=
  [ ("amplitude", BareNumber AnyNumber); ("orientation", PlaneDirection) ].
Definition texts (l : list string) : list (string * rule) := map (fun a => (a, Text)) l.
Definition numbers (l : list string) : list (string * rule) := map (fun a => (a, Number AnyNumber)) l.
Definition dates (l : list string) : list (string * rule) := map (fun a => (a, Date)) l.

Definition rules_of (k : kind) : list (string * rule) :=
  match k with
  | KBaseEM => medium
  | KBaseDipole => dipole
  | KBaseElectricDipole => electric_dipole
  | KBaseMagneticDipole => magnetic_dipole
  | KBaseLineCurrent => wire
  | KPointMass => [ ("mass", Number AnyNumber); ("location", Vector 3 ValueError) ]
  | KSphere => [ ("radius", BareNumber NonNegative); ("rho", BareNumber AnyNumber); ("location", Vector 3 ValueError) ]
  | KBasePrism => box
  | KPrism => ("rho", Number AnyNumber) :: box
  | KMagneticPrism => ("magnetization", Vector 3 ValueError) :: box
  | KMagneticDipoleWholeSpace => medium ++ magnetic_dipole
  | KCircularLoopWholeSpace => [ ("current", Number AnyNumber); ("radius", Number Positive) ] ++ medium ++ dipole
  | KLineCurrentWholeSpace | KPointCurrentWholeSpace => wire ++ medium
  | KPointCurrentHalfSpace | KDipoleHalfSpace => []
  | KElectrostaticSphere => [ ("sigma_sphere", BareNumber Positive); ("sigma_background", BareNumber Positive) ] ++ ball
  | KMagnetostaticSphere => [ ("mu_sphere", BareNumber Positive); ("mu_background", BareNumber Positive) ] ++ ball
  | KBaseFDEM => harmonic
  | KBaseTDEM => transient
  | KFdemElectricDipole => harmonic ++ electric_dipole
  | KFdemMagneticDipole => harmonic ++ magnetic_dipole
  | KTdemElectricDipole => transient ++ electric_dipole
  | KTdemMagneticDipole => transient ++ magnetic_dipole
  | KHarmonicPlaneWave => plane_wave ++ harmonic
  | KTransientPlaneWave => plane_wave ++ transient
  | KEarthquakeInterferogram =>
      [ ("data", Array); ("location", Vector 2 ValueError); ("location_UTM_zone", Integer);
        ("shape", PairOfIntegers ValueError); ("pixel_size", Vector 2 TypeError); ("ref", Vector 2 ValueError) ] ++
      texts [ "title"; "processed_by"; "description"; "satellite_name"; "copyright"; "data_source";
              "event_gcmt_id"; "event_name"; "event_country" ] ++
      numbers [ "ref_incidence"; "scaling"; "satellite_fringe_interval"; "satellite_azimuth";
                "satellite_altitude"; "local_earth_radius"; "local_rigidity" ] ++
      dates [ "date1"; "date2"; "processed_date"; "event_date" ]
  | KOksar =>
      [ ("O", Vector 2 ValueError); ("U", Vector 2 ValueError); ("V", Vector 2 ValueError); ("center", Vector 2 ValueError);
        ("depth_top", Number NonNegative); ("strike", Number (Between 0 360)); ("dip", Number (Between 0 90));
        ("rake", Number (Between (-180) 180)); ("slip", Number NonNegative); ("length", Number NonNegative);
        ("beta", Number AnyNumber); ("mu", Number AnyNumber); ("shape", PairOfIntegers TypeError) ]
  end.
(** attributes whose getter reads something else (findings of C76, C77 and C80) *)
Definition misread (k : kind) (a : string) : Prop :=
  (k = KEarthquakeInterferogram /\ (a = "local_rigidity" \/ a = "event_date")) \/ (k = KOksar /\ a = "V").
(** attributes that cannot be assigned *)
Definition read_only (k : kind) : list string :=
  match k with
  | KBaseLineCurrent | KLineCurrentWholeSpace | KPointCurrentWholeSpace => [ "n_segments" ]
  | KBasePrism | KPrism | KMagneticPrism => [ "volume" ]
  | _ => []
  end.
(** attributes whose acceptance depends on the object's other attributes, with theorems of their own *)
Definition dependent (k : kind) : list string :=
  match k with
  | KSphere => [ "mass" ]
  | KPointCurrentWholeSpace => [ "location"; "rho" ]
  | KOksar => [ "depth_bottom" ]
  | KBaseEM | KMagneticDipoleWholeSpace | KCircularLoopWholeSpace | KLineCurrentWholeSpace
  | KBaseFDEM | KBaseTDEM | KFdemElectricDipole | KFdemMagneticDipole | KTdemElectricDipole
  | KTdemMagneticDipole | KHarmonicPlaneWave | KTransientPlaneWave => [ "rho" ]
  | _ => []
  end.
(** reading [b] depends, by its definition, on [a] *)
Definition depends_on (k : kind) (b a : string) : Prop :=
  (a = "sigma" /\ b = "rho") \/
  (k = KSphere /\ b = "mass" /\ (a = "radius" \/ a = "rho")) \/
  (a = "nodes" /\ (b = "n_segments" \/ b = "location")) \/
  (b = "volume" /\ (a = "min_location" \/ a = "max_location")) \/
  (k = KEarthquakeInterferogram /\ a = "processed_date" /\ b = "event_date").
(** the assignment [obj.a = v] in state [o] has outcome [out] *)
Definition assignment_has (py : pyext) (k : kind) (a : string) (v : pyval) (o : obj) (out : outcome) : Prop :=
  match out with
  | Refused e => setattr (cls_of py k) "" a v o = (o, Raise e)
  | Stored x =>
      exists s, setattr (cls_of py k) "" a v o = (s, Ok tt) /\
        (~ misread k a -> reads (cls_of py k) s a = Ok x) /\
        (forall b, b <> a -> ~ depends_on k b a -> reads (cls_of py k) s b = reads (cls_of py k) o b)
  end.
