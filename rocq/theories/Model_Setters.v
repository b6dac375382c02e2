(** Model of the attribute setters, getters and constructors of geoana's classes.
    Each setter keeps the line order of the Python code, so a write made before a
    failing check is visible in the model. *)
From Coq Require Import Reals List Bool Arith ZArith String.
From Verif Require Import Numpy PyVal.
Import ListNotations.
Open Scope string_scope.
Open Scope R_scope.

(** concatenation of property lists (MRO order) *)
Notation "c +++ d" := (app c d) (at level 60, right associativity).

Section Ext.
Variable py : pyext.
Let float' (v : pyval) : M fl := lift (float_ py v).
Let asarray' (v : pyval) : M arr := lift (asarray py v).

(** plain getter: [return self._k] *)
Definition get_plain (k p : string) : M aval := read (p ++ k).

(** the recurring setter body
      try: value = float(value)  except: raise TypeError
      if bad(value): raise ValueError
      self._k = value *)
Definition set_float (k : string) (bad : fl -> bool) (p : string) (v : pyval) : M unit :=
  value <-- try_raise (float' v) TypeError ;;
  check (bad value) ValueError ;;
  write (p ++ k) (AFlt value).
(** the variant without try/except: [item = float(item)] *)
Definition set_float_raw (k : string) (bad : fl -> bool) (p : string) (v : pyval) : M unit :=
  value <-- float' v ;;
  check (bad value) ValueError ;;
  write (p ++ k) (AFlt value).
Definition never (x : fl) : bool := false.
Definition le0 (x : fl) : bool := fle x (Fin 0).
Definition lt0 (x : fl) : bool := flt x (Fin 0).

(** the recurring setter body
      try: vec = np.asarray(vec, dtype=float)  except: raise TypeError
      vec = np.squeeze(vec)
      if vec.shape != shp: raise e
      self._k = vec *)
Definition set_vec (k : string) (shp : list nat) (e : exn) (p : string) (v : pyval) : M unit :=
  vec <-- try_raise (asarray' v) TypeError ;;
  let vec := squeeze vec in
  check (negb (shape_is vec shp)) e ;;
  write (p ++ k) (AArr vec).

(** the recurring setter body
      try: vec = np.atleast_1d(vec).astype(float)  except: raise TypeError
      if len(vec) != 3: raise ValueError
      self._k = vec *)
Definition set_len3 (k : string) (p : string) (v : pyval) : M unit :=
  vec <-- try_raise (lift (atleast_1d_float py v)) TypeError ;;
  check (negb (Nat.eqb (alen vec) 3)) ValueError ;;
  write (p ++ k) (AArr vec).

(** ** geoana/em/base.py *)

(** em/base.py l.54-65 *)
Definition em_set_sigma := set_float "_sigma" le0.
(** em/base.py l.67-76: 1/self.sigma *)
Definition em_get_rho (p : string) : M aval :=
  s <-- read_flt (p ++ "_sigma") ;;
  r <-- lift (fdiv_py (Fin 1) s) ;;
  ret (AFlt r).
(** em/base.py l.78-85 *)
Definition em_set_rho (p : string) (v : pyval) : M unit :=
  value <-- try_raise (float' v) TypeError ;;
  q <-- lift (fdiv_py (Fin 1) value) ;;
  em_set_sigma p (PNum q).
(** em/base.py l.98-109 *)
Definition em_set_mu := set_float "_mu" le0.
(** em/base.py l.122-136 *)
Definition em_set_epsilon := set_float "_epsilon" lt0.
(** em/base.py l.17-136 *)
Definition BaseEM : cls :=
  [ mkprop "sigma" (get_plain "_sigma") (Some em_set_sigma);
    mkprop "rho" em_get_rho (Some em_set_rho);
    mkprop "mu" (get_plain "_mu") (Some em_set_mu);
    mkprop "epsilon" (get_plain "_epsilon") (Some em_set_epsilon) ].
(** em/base.py l.36-41 *)
Definition init_em (p : string) (sigma mu epsilon : pyval) : M unit :=
  em_set_sigma p sigma ;; em_set_mu p mu ;; em_set_epsilon p epsilon.

(** em/base.py l.170-183 *)
Definition dip_set_location := set_vec "_location" [3%nat] ValueError.
(** [var /= np.linalg.norm(var)] *)
Definition normalise (a : arr) : arr :=
  let n := fnorm (adata a) in amap (fun x => fdiv_np x n) a.
(** em/base.py l.196-224 (the in-place division's effect on the caller's array is
    in Model_Alias.v) *)
Definition dip_set_orientation (p : string) (v : pyval) : M unit :=
  match is_str v with
  | Some s =>
      if String.eqb (upper s) "X" then
        write (p ++ "_orientation") (AArr (vec3 (Fin 1) (Fin 0) (Fin 0)))
      else if String.eqb (upper s) "Y" then
        write (p ++ "_orientation") (AArr (vec3 (Fin 0) (Fin 1) (Fin 0)))
      else if String.eqb (upper s) "Z" then
        write (p ++ "_orientation") (AArr (vec3 (Fin 0) (Fin 0) (Fin 1)))
      else raise ValueError
  | None =>
      var <-- try_raise (asarray' v) TypeError ;;
      let var := squeeze var in
      check (negb (shape_is var [3%nat])) ValueError ;;
      write (p ++ "_orientation") (AArr (normalise var))
  end.
(** em/base.py l.139-224 *)
Definition BaseDipole : cls :=
  [ mkprop "location" (get_plain "_location") (Some dip_set_location);
    mkprop "orientation" (get_plain "_orientation") (Some dip_set_orientation) ].
(** em/base.py l.153-157 *)
Definition init_dipole (p : string) (location orientation : pyval) : M unit :=
  dip_set_location p location ;; dip_set_orientation p orientation.

(** em/base.py l.353-396 *)
Definition BaseElectricDipole : cls :=
  [ mkprop "length" (get_plain "_length") (Some (set_float "_length" le0));
    mkprop "current" (get_plain "_current") (Some (set_float "_current" never)) ] +++ BaseDipole.
(** em/base.py l.346-351 *)
Definition init_edipole (p : string) (length current location orientation : pyval) : M unit :=
  set_float "_length" le0 p length ;; set_float "_current" never p current ;;
  init_dipole p location orientation.
(** em/base.py l.424-443 *)
Definition BaseMagneticDipole : cls :=
  [ mkprop "moment" (get_plain "_moment") (Some (set_float "_moment" never)) ] +++ BaseDipole.
(** em/base.py l.419-422 *)
Definition init_mdipole (p : string) (moment location orientation : pyval) : M unit :=
  set_float "_moment" never p moment ;; init_dipole p location orientation.

(** em/base.py l.474-488 *)
Definition line_set_nodes (p : string) (v : pyval) : M unit :=
  xyz <-- try_raise (asarray' v) TypeError ;;
  let xyz := atleast_2d xyz in
  check (orb (negb (Nat.eqb (nth 1 (ashape xyz) 0%nat) 3)) (negb (Nat.eqb (ndim xyz) 2)))
        ValueError ;;
  write (p ++ "_nodes") (AArr xyz).
(** em/base.py l.490-500 *)
Definition line_get_n_segments (p : string) : M aval :=
  nodes <-- read_arr (p ++ "_nodes") ;;
  ret (AInt (Z.of_nat (alen nodes) - 1)).
(** em/base.py l.446-521 *)
Definition BaseLineCurrent : cls :=
  [ mkprop "nodes" (get_plain "_nodes") (Some line_set_nodes);
    mkprop "n_segments" line_get_n_segments None;
    mkprop "current" (get_plain "_current") (Some (set_float "_current" never)) ].
(** em/base.py l.456-460 *)
Definition init_line (p : string) (nodes current : pyval) : M unit :=
  line_set_nodes p nodes ;; set_float "_current" never p current.

(** ** geoana/gravity.py *)

(** gravity.py l.49-51: location None means the origin *)
Definition default_loc (location : pyval) (d : arr) : pyval :=
  if is_none location then PArr d else location.
Definition origin : arr := vec3 (Fin 0) (Fin 0) (Fin 0).

(** gravity.py l.54-100 *)
Definition PointMass : cls :=
  [ mkprop "mass" (get_plain "_mass") (Some (set_float "_mass" never));
    mkprop "location" (get_plain "_location") (Some (set_vec "_location" [3%nat] ValueError)) ].
(** gravity.py l.46-52 *)
Definition init_pointmass (p : string) (mass location : pyval) : M unit :=
  set_float "_mass" never p mass ;;
  set_vec "_location" [3%nat] ValueError p (default_loc location origin).

(** gravity.py l.340-349: 4 / 3 * np.pi * self.radius ** 3 * self.rho *)
Definition sphere_get_mass (p : string) : M aval :=
  radius <-- read_flt (p ++ "_radius") ;;
  rho <-- read_flt (p ++ "_rho") ;;
  ret (AFlt (fmul (fmul (Fin (4 / 3 * PI)) (fpow3 radius)) rho)).
(** gravity.py l.351-360 *)
Definition sphere_set_mass (p : string) (v : pyval) : M unit :=
  value <-- try_raise (float' v) TypeError ;;
  radius <-- read_flt (p ++ "_radius") ;;
  rho <-- lift (fdiv_py (fmul value (Fin 3)) (fmul (Fin (4 * PI)) (fpow3 radius))) ;;
  write (p ++ "_rho") (AFlt rho).
(** gravity.py l.283-360 *)
Definition Sphere : cls :=
  [ mkprop "radius" (get_plain "_radius") (Some (set_float_raw "_radius" lt0));
    mkprop "rho" (get_plain "_rho") (Some (set_float_raw "_rho" never));
    mkprop "mass" sphere_get_mass (Some sphere_set_mass) ] +++ PointMass.
(** gravity.py l.301-304 (through PointMass.__init__ l.46-52, whose [self.mass = mass]
    runs the Sphere setter) *)
Definition init_sphere (p : string) (radius rho location mass : pyval) : M unit :=
  set_float_raw "_radius" lt0 p radius ;;
  sphere_set_mass p mass ;;
  set_vec "_location" [3%nat] ValueError p (default_loc location origin) ;;
  set_float_raw "_rho" never p rho.

(** ** geoana/shapes.py *)

(** shapes.py l.99-107: np.prod(max - min) *)
Definition prism_get_volume (p : string) : M aval :=
  mx <-- read_arr (p ++ "_max_location") ;;
  mn <-- read_arr (p ++ "_min_location") ;;
  ret (AFlt (fold_right fmul (Fin 1) (map (fun q => fsub (fst q) (snd q)) (combine (adata mx) (adata mn))))).
(** shapes.py l.24-107 *)
Definition BasePrism : cls :=
  [ mkprop "min_location" (get_plain "_min_location") (Some (set_vec "_min_location" [3%nat] ValueError));
    mkprop "max_location" (get_plain "_max_location") (Some (set_vec "_max_location" [3%nat] ValueError));
    mkprop "volume" prism_get_volume None ].
(** shapes.py l.38-43 *)
Definition init_prism (p : string) (min_location max_location : pyval) : M unit :=
  set_vec "_min_location" [3%nat] ValueError p min_location ;;
  set_vec "_max_location" [3%nat] ValueError p max_location ;;
  mx <-- read_arr (p ++ "_max_location") ;;
  mn <-- read_arr (p ++ "_min_location") ;;
  check (existsb (fun q => fle (fst q) (snd q)) (combine (adata mx) (adata mn))) ValueError.
(** gravity.py l.570-608 *)
Definition Prism : cls :=
  [ mkprop "rho" (get_plain "_rho") (Some (set_float "_rho" never)) ] +++ BasePrism.
(** gravity.py l.586-588 *)
Definition init_gprism (p : string) (min_location max_location rho : pyval) : M unit :=
  set_float "_rho" never p rho ;; init_prism p min_location max_location.
(** em/static/freespace.py l.46-63 *)
Definition MagneticPrism : cls :=
  [ mkprop "magnetization" (get_plain "_magnetization")
      (Some (set_vec "_magnetization" [3%nat] ValueError)) ] +++ BasePrism.
(** em/static/freespace.py l.38-44 *)
Definition init_mprism (p : string) (min_location max_location magnetization : pyval) : M unit :=
  set_vec "_magnetization" [3%nat] ValueError p
    (default_loc magnetization (vec3 (Fin 0) (Fin 0) (Fin 1))) ;;
  init_prism p min_location max_location.

(** ** geoana/em/static/wholespace.py *)

(** em/static/wholespace.py l.18 and l.297: no attributes of their own; MRO BaseEM, BaseMagneticDipole *)
Definition MagneticDipoleWholeSpace : cls := BaseEM +++ BaseMagneticDipole.
Definition init_mdws (p : string) (sigma mu epsilon moment location orientation : pyval) : M unit :=
  init_em p sigma mu epsilon ;; init_mdipole p moment location orientation.
(** em/static/wholespace.py l.426-470 *)
Definition CircularLoopWholeSpace : cls :=
  [ mkprop "current" (get_plain "_current") (Some (set_float "_current" never));
    mkprop "radius" (get_plain "_radius") (Some (set_float "_radius" le0)) ] +++ BaseEM +++ BaseDipole.
(** em/static/wholespace.py l.419-423 *)
Definition init_loop (p : string) (radius current sigma mu epsilon location orientation : pyval) : M unit :=
  set_float "_current" never p current ;; set_float "_radius" le0 p radius ;;
  init_em p sigma mu epsilon ;; init_dipole p location orientation.
(** em/static/wholespace.py l.835 *)
Definition LineCurrentWholeSpace : cls := BaseLineCurrent +++ BaseEM.
Definition init_linews (p : string) (nodes current sigma mu epsilon : pyval) : M unit :=
  init_line p nodes current ;; init_em p sigma mu epsilon.

(** scipy.constants.mu_0, epsilon_0: positive constants (em/base.py l.2, l.36) *)
Definition c_mu0 : R := 4 * PI / 10000000.
Definition c_eps0 : R := 8.8541878128 / 1000000000000.

(** em/static/wholespace.py l.1102-1111: nodes[0] *)
Definition pc_get_location (p : string) : M aval :=
  nodes <-- read_arr (p ++ "_nodes") ;;
  check (Nat.eqb (alen nodes) 0) IndexError ;;
  ret (AArr (mkarr [3%nat] (firstn 3 (adata nodes)))).
(** em/static/wholespace.py l.1113-1125: [self.nodes[0] = vec] copies the entries; numpy
    raises ValueError when vec does not broadcast to (3,) *)
Definition pc_set_location (p : string) (v : pyval) : M unit :=
  vec <-- try_raise (lift (atleast_1d_float py v)) TypeError ;;
  check (negb (Nat.eqb (alen vec) 3)) ValueError ;;
  nodes <-- read_arr (p ++ "_nodes") ;;
  check (Nat.eqb (alen nodes) 0) IndexError ;;
  check (negb (shape_is vec [3%nat])) ValueError ;;
  write (p ++ "_nodes") (AArr (mkarr (ashape nodes) (adata vec ++ skipn 3 (adata nodes))%list)).
(** em/static/wholespace.py l.1081-1125 *)
Definition PointCurrentWholeSpace : cls :=
  [ mkprop "location" pc_get_location (Some pc_set_location) ] +++ LineCurrentWholeSpace.
(** em/static/wholespace.py l.1097-1100 *)
Definition init_pcws (p : string) (rho current location : pyval) : M unit :=
  sigma <-- lift (one_over py rho) ;;
  init_linews p (default_loc location origin) current sigma (PNum (Fin c_mu0)) (PNum (Fin c_eps0)).

(** ** geoana/em/static/halfspace.py: the facade owns two PointCurrentWholeSpace objects,
    attributes "_primary.*" and "_image.*" *)
Definition prim (p : string) : string := p ++ "_primary.".
Definition imag (p : string) : string := p ++ "_image.".

(** em/static/halfspace.py l.53-63 *)
Definition hs_set_current (p : string) (v : pyval) : M unit :=
  value <-- try_raise (float' v) TypeError ;;
  write (p ++ "_current") (AFlt value) ;;
  setattr PointCurrentWholeSpace (prim p) "current" (PNum value) ;;
  setattr PointCurrentWholeSpace (imag p) "current" (PNum value).
(** em/static/halfspace.py l.76-89 *)
Definition hs_set_rho (p : string) (v : pyval) : M unit :=
  value <-- try_raise (float' v) TypeError ;;
  check (le0 value) ValueError ;;
  write (p ++ "_rho") (AFlt value) ;;
  setattr PointCurrentWholeSpace (prim p) "rho" (PNum value) ;;
  setattr PointCurrentWholeSpace (imag p) "rho" (PNum value).
(** [vec = np.copy(vec); vec[-1] *= -1]: negates the last block along the first axis *)
Definition negate_last (a : arr) : arr :=
  let n := (prodn (tl (ashape a)) * (alen a - 1))%nat in
  mkarr (ashape a) (firstn n (adata a) ++ map fneg (skipn n (adata a)))%list.
(** em/static/halfspace.py l.102-125 *)
Definition hs_set_location (p : string) (v : pyval) : M unit :=
  vec <-- try_raise (lift (atleast_1d_float py v)) TypeError ;;
  check (negb (Nat.eqb (alen vec) 3)) ValueError ;;
  check (existsb (fun z => flt (Fin 0) z) (last_axis_last vec)) ValueError ;;
  write (p ++ "_location") (AArr vec) ;;
  setattr PointCurrentWholeSpace (prim p) "location" (PArr vec) ;;
  setattr PointCurrentWholeSpace (imag p) "location" (PArr (negate_last vec)).
(** em/static/halfspace.py l.42-125 *)
Definition PointCurrentHalfSpace : cls :=
  [ mkprop "current" (get_plain "_current") (Some hs_set_current);
    mkprop "rho" (get_plain "_rho") (Some hs_set_rho);
    mkprop "location" (get_plain "_location") (Some hs_set_location) ].
(** em/static/halfspace.py l.29-40 *)
Definition init_hs (p : string) (rho current location : pyval) : M unit :=
  init_pcws (prim p) rho (PNum (Fin 1)) PNone ;;
  init_pcws (imag p) rho (PNum (Fin 1)) PNone ;;
  hs_set_current p current ;;
  hs_set_rho p rho ;;
  hs_set_location p (default_loc location origin).

(** ** DipoleHalfSpace (em/static/halfspace.py l.324-470): two facades "_a.*", "_b.*" *)
Definition suba (p : string) : string := p ++ "_a.".
Definition subb (p : string) : string := p ++ "_b.".
(** em/static/halfspace.py l.370-380 *)
Definition dhs_set_current (p : string) (v : pyval) : M unit :=
  value <-- try_raise (float' v) TypeError ;;
  write (p ++ "_current") (AFlt value) ;;
  setattr PointCurrentHalfSpace (suba p) "current" (PNum value) ;;
  setattr PointCurrentHalfSpace (subb p) "current" (PNum value).
(** em/static/halfspace.py l.393-406 *)
Definition dhs_set_rho (p : string) (v : pyval) : M unit :=
  value <-- try_raise (float' v) TypeError ;;
  check (le0 value) ValueError ;;
  write (p ++ "_rho") (AFlt value) ;;
  setattr PointCurrentHalfSpace (suba p) "rho" (PNum value) ;;
  setattr PointCurrentHalfSpace (subb p) "rho" (PNum value).
(** em/static/halfspace.py l.419-438 and l.451-470 *)
Definition dhs_set_loc (k : string) (sub : string -> string) (p : string) (v : pyval) : M unit :=
  vec <-- try_raise (lift (atleast_1d_float py v)) TypeError ;;
  check (negb (Nat.eqb (alen vec) 3)) ValueError ;;
  check (existsb (fun z => flt (Fin 0) z) (last_axis_last vec)) ValueError ;;
  write (p ++ k) (AArr vec) ;;
  setattr PointCurrentHalfSpace (sub p) "location" (PArr vec).
Definition DipoleHalfSpace : cls :=
  [ mkprop "current" (get_plain "_current") (Some dhs_set_current);
    mkprop "rho" (get_plain "_rho") (Some dhs_set_rho);
    mkprop "location_a" (get_plain "_location_a") (Some (dhs_set_loc "_location_a" suba));
    mkprop "location_b" (get_plain "_location_b") (Some (dhs_set_loc "_location_b" subb)) ].
(** em/static/halfspace.py l.343-357 *)
Definition init_dhs (p : string) (rho location_a location_b current : pyval) : M unit :=
  init_hs (suba p) rho (PNum (Fin 1)) location_a ;;
  init_hs (subb p) rho (PNum (Fin 1)) location_b ;;
  dhs_set_current p current ;;
  dhs_set_rho p rho ;;
  dhs_set_loc "_location_a" suba p (default_loc location_a (vec3 (Fin (-1)) (Fin 0) (Fin 0))) ;;
  dhs_set_loc "_location_b" subb p (default_loc location_b (vec3 (Fin 1) (Fin 0) (Fin 0))).

(** ** geoana/em/static/sphere.py *)
(** em/static/sphere.py l.44-147 *)
Definition ElectrostaticSphere : cls :=
  [ mkprop "sigma_sphere" (get_plain "_sigma_sphere") (Some (set_float_raw "_sigma_sphere" le0));
    mkprop "sigma_background" (get_plain "_sigma_background") (Some (set_float_raw "_sigma_background" le0));
    mkprop "radius" (get_plain "_radius") (Some (set_float_raw "_radius" lt0));
    mkprop "primary_field" (get_plain "_primary_field") (Some (set_len3 "_primary_field"));
    mkprop "location" (get_plain "_location") (Some (set_len3 "_location")) ].
(** em/static/sphere.py l.30-42 *)
Definition init_essphere (p : string) (radius sigma_sphere sigma_background primary_field location : pyval) : M unit :=
  set_float_raw "_radius" lt0 p radius ;;
  set_float_raw "_sigma_sphere" le0 p sigma_sphere ;;
  set_float_raw "_sigma_background" le0 p sigma_background ;;
  set_len3 "_primary_field" p (default_loc primary_field (vec3 (Fin 1) (Fin 0) (Fin 0))) ;;
  set_len3 "_location" p (default_loc location origin).
(** em/static/sphere.py l.554-658 *)
Definition MagnetostaticSphere : cls :=
  [ mkprop "mu_sphere" (get_plain "_mu_sphere") (Some (set_float_raw "_mu_sphere" le0));
    mkprop "mu_background" (get_plain "_mu_background") (Some (set_float_raw "_mu_background" le0));
    mkprop "radius" (get_plain "_radius") (Some (set_float_raw "_radius" lt0));
    mkprop "primary_field" (get_plain "_primary_field") (Some (set_len3 "_primary_field"));
    mkprop "location" (get_plain "_location") (Some (set_len3 "_location")) ].

(** ** geoana/em/fdem and tdem *)
(** em/fdem/base.py l.205-219 and em/tdem/base.py l.163-178: same body *)
Definition set_samples (k : string) (p : string) (v : pyval) : M unit :=
  value <-- try_raise (asarray' v) TypeError ;;
  check (existsb lt0 (adata value)) ValueError ;;
  check (Nat.ltb 1 (ndim value)) TypeError ;;
  write (p ++ k) (AArr value).
(** em/fdem/base.py l.191: a plain attribute, any value *)
Definition set_quasistatic (p : string) (v : pyval) : M unit := write (p ++ "quasistatic") (APy v).
(** em/fdem/base.py l.172-326 (computed read-only properties in Model_Fdem.v) *)
Definition BaseFDEM : cls :=
  [ mkprop "frequency" (get_plain "_frequency") (Some (set_samples "_frequency"));
    mkprop "quasistatic" (get_plain "quasistatic") (Some set_quasistatic) ] +++ BaseEM.
(** em/fdem/base.py l.188-192 *)
Definition init_fdem (p : string) (frequency quasistatic sigma mu epsilon : pyval) : M unit :=
  set_samples "_frequency" p frequency ;; set_quasistatic p quasistatic ;;
  init_em p sigma mu epsilon.
(** em/tdem/base.py l.132-178 *)
Definition BaseTDEM : cls :=
  [ mkprop "time" (get_plain "_time") (Some (set_samples "_time")) ] +++ BaseEM.
(** em/tdem/base.py l.147-150 *)
Definition init_tdem (p : string) (time sigma mu epsilon : pyval) : M unit :=
  set_samples "_time" p time ;; init_em p sigma mu epsilon.
(** em/fdem/wholespace.py l.12, l.473; em/tdem/wholespace.py l.21; em/tdem/halfspace.py l.13:
    no attributes of their own *)
Definition FdemElectricDipole : cls := BaseFDEM +++ BaseElectricDipole.
Definition FdemMagneticDipole : cls := BaseFDEM +++ BaseMagneticDipole.
Definition TdemElectricDipole : cls := BaseTDEM +++ BaseElectricDipole.
Definition TdemMagneticDipole : cls := BaseTDEM +++ BaseMagneticDipole.
(** em/fdem/wholespace.py l.975-1003 and em/tdem/wholespace.py l.652-680: same body.
    Any string other than X and Y falls through and is stored as it is; the error
    message of the shape check calls len(), a TypeError for 0-d arrays. *)
Definition pw_set_orientation (p : string) (v : pyval) : M unit :=
  match is_str v with
  | Some s =>
      if String.eqb (upper s) "X" then
        write (p ++ "_orientation") (AArr (vec3 (Fin 1) (Fin 0) (Fin 0)))
      else if String.eqb (upper s) "Y" then
        write (p ++ "_orientation") (AArr (vec3 (Fin 0) (Fin 1) (Fin 0)))
      else write (p ++ "_orientation") (AStr s)
  | None =>
      var <-- try_raise (asarray' v) TypeError ;;
      let var := squeeze var in
      check (negb (shape_is var [3%nat])) (if Nat.eqb (ndim var) 0 then TypeError else ValueError) ;;
      check (negb (feq (nth 2 (adata var) NaN) (Fin 0))) ValueError ;;
      write (p ++ "_orientation") (AArr (normalise var))
  end.
(** em/fdem/wholespace.py l.947-1003 *)
Definition HarmonicPlaneWave : cls :=
  [ mkprop "amplitude" (get_plain "_amplitude") (Some (set_float_raw "_amplitude" never));
    mkprop "orientation" (get_plain "_orientation") (Some pw_set_orientation) ] +++ BaseFDEM.
(** em/tdem/wholespace.py l.624-680 *)
Definition TransientPlaneWave : cls :=
  [ mkprop "amplitude" (get_plain "_amplitude") (Some (set_float_raw "_amplitude" never));
    mkprop "orientation" (get_plain "_orientation") (Some pw_set_orientation) ] +++ BaseTDEM.

(** ** geoana/earthquake/oksar.py *)
(** oksar.py l.104-111 *)
Definition int_set_data (p : string) (v : pyval) : M unit :=
  var <-- try_raise (asarray' v) TypeError ;; write (p ++ "_data") (AArr var).
(** str-valued attributes, e.g. oksar.py l.125-131 *)
Definition set_str (k p : string) (v : pyval) : M unit :=
  var <-- try_raise (lift (to_str py v)) TypeError ;; write (p ++ k) (AStr var).
(** oksar.py l.173-180 *)
Definition int_set_zone (p : string) (v : pyval) : M unit :=
  var <-- try_raise (lift (to_int py v)) TypeError ;; write (p ++ "_location_UTM_zone") (AInt var).
(** oksar.py l.195-205 *)
Definition int_set_shape (p : string) (v : pyval) : M unit :=
  var <-- try_raise (lift (to_ints py v)) TypeError ;;
  check (negb (Nat.eqb (List.length var) 2)) ValueError ;;
  write (p ++ "_shape") (AInts var).
(** date attributes, e.g. oksar.py l.582-592 *)
Definition set_date (k p : string) (v : pyval) : M unit :=
  match v with
  | PDate d => write (p ++ k) (ADate d)
  | _ => d <-- try_raise (lift (to_date py v)) TypeError ;; write (p ++ k) (ADate d)
  end.
Definition str_attr (n k : string) : prop := mkprop n (get_plain k) (Some (set_str k)).
Definition flt_attr (n k : string) : prop := mkprop n (get_plain k) (Some (set_float k never)).
(** oksar.py l.92-660; note the getters of local_rigidity (l.393) and event_date (l.648),
    which do not read the attribute their setter writes (l.402, l.660) *)
Definition EarthquakeInterferogram : cls :=
  [ mkprop "data" (get_plain "_data") (Some int_set_data);                        (* l.92-111 *)
    str_attr "title" "_title";                                                    (* l.113-131 *)
    mkprop "location" (get_plain "_location") (Some (set_vec "_location" [2%nat] ValueError)); (* l.133-159 *)
    mkprop "location_UTM_zone" (get_plain "_location_UTM_zone") (Some int_set_zone); (* l.161-180 *)
    mkprop "shape" (get_plain "_shape") (Some int_set_shape);                     (* l.182-205 *)
    mkprop "pixel_size" (get_plain "_pixel_size") (Some (set_vec "_pixel_size" [2%nat] TypeError)); (* l.207-229 *)
    mkprop "ref" (get_plain "_ref") (Some (set_vec "_ref" [2%nat] ValueError));   (* l.231-255 *)
    flt_attr "ref_incidence" "_ref_incidence";                                    (* l.257-276 *)
    flt_attr "scaling" "_scaling";                                                (* l.278-297 *)
    flt_attr "satellite_fringe_interval" "_satellite_fringe_interval";            (* l.299-318 *)
    flt_attr "satellite_azimuth" "_satellite_azimuth";                            (* l.320-339 *)
    flt_attr "satellite_altitude" "_satellite_altitude";                          (* l.341-360 *)
    flt_attr "local_earth_radius" "_local_earth_radius";                          (* l.362-381 *)
    mkprop "local_rigidity" (get_plain "_local_rigidity") (Some (set_float "_rigidity" never)); (* l.383-402 *)
    str_attr "processed_by" "_processed_by";                                      (* l.404-423 *)
    str_attr "description" "_description";                                        (* l.425-443 *)
    str_attr "satellite_name" "_satellite_name";                                  (* l.445-464 *)
    str_attr "copyright" "_copyright";                                            (* l.466-485 *)
    str_attr "data_source" "_data_source";                                        (* l.487-506 *)
    str_attr "event_gcmt_id" "_event_gcmt_id";                                    (* l.508-527 *)
    str_attr "event_name" "_event_name";                                          (* l.529-548 *)
    str_attr "event_country" "_event_country";                                    (* l.550-569 *)
    mkprop "date1" (get_plain "_date1") (Some (set_date "_date1"));               (* l.571-592 *)
    mkprop "date2" (get_plain "_date2") (Some (set_date "_date2"));               (* l.594-615 *)
    mkprop "processed_date" (get_plain "_processed_date") (Some (set_date "_processed_date")); (* l.616-637 *)
    mkprop "event_date" (get_plain "_processed_date") (Some (set_date "_event_date")) ]. (* l.639-660 *)

(** oksar.py l.1077-1087: compares with the current depth_top *)
Definition ok_set_depth_bottom (p : string) (v : pyval) : M unit :=
  var <-- try_raise (float' v) TypeError ;;
  top <-- read_flt (p ++ "_depth_top") ;;
  check (flt var top) ValueError ;;
  write (p ++ "_depth_bottom") (AFlt var).
Definition outside_rng (lo hi : R) (x : fl) : bool := orb (flt x (Fin lo)) (flt (Fin hi) x).
(** oksar.py l.1264-1274 (np.array(var, dtype=int), len 2) *)
Definition ok_set_shape (p : string) (v : pyval) : M unit :=
  var <-- try_raise (lift (to_ints py v)) TypeError ;;
  check (negb (Nat.eqb (List.length var) 2)) TypeError ;;
  write (p ++ "_shape") (AInts var).
Definition vec2_attr (n k kget : string) : prop :=
  mkprop n (get_plain kget) (Some (set_vec k [2%nat] ValueError)).
(** oksar.py l.946-1274; note the getter of V (l.1004) *)
Definition Oksar : cls :=
  [ vec2_attr "O" "_O" "_O";                                                      (* l.946-967 *)
    vec2_attr "U" "_U" "_U";                                                      (* l.969-992 *)
    vec2_attr "V" "_V" "_location";                                               (* l.994-1015 *)
    vec2_attr "center" "_center" "_center";                                       (* l.1018-1039 *)
    mkprop "depth_top" (get_plain "_depth_top") (Some (set_float "_depth_top" lt0)); (* l.1041-1063 *)
    mkprop "depth_bottom" (get_plain "_depth_bottom") (Some ok_set_depth_bottom); (* l.1065-1087 *)
    mkprop "strike" (get_plain "_strike") (Some (set_float "_strike" (outside_rng 0 360))); (* l.1089-1111 *)
    mkprop "dip" (get_plain "_dip") (Some (set_float "_dip" (outside_rng 0 90))); (* l.1113-1135 *)
    mkprop "rake" (get_plain "_rake") (Some (set_float "_rake" (outside_rng (-180) 180))); (* l.1137-1159 *)
    mkprop "slip" (get_plain "_slip") (Some (set_float "_slip" lt0));             (* l.1161-1183 *)
    mkprop "length" (get_plain "_length") (Some (set_float "_length" lt0));       (* l.1185-1207 *)
    flt_attr "beta" "_beta";                                                      (* l.1209-1228 *)
    flt_attr "mu" "_mu";                                                          (* l.1230-1249 *)
    mkprop "shape" (get_plain "_shape") (Some ok_set_shape) ].                    (* l.1251-1274 *)
(** oksar.py l.913-944 *)
Definition init_oksar (p : string) (O U V center depth_top depth_bottom strike dip rake slip length beta mu shape : pyval) : M unit :=
  set_vec "_O" [2%nat] ValueError p O ;; set_vec "_U" [2%nat] ValueError p U ;;
  set_vec "_V" [2%nat] ValueError p V ;; set_vec "_center" [2%nat] ValueError p center ;;
  set_float "_depth_top" lt0 p depth_top ;; ok_set_depth_bottom p depth_bottom ;;
  set_float "_strike" (outside_rng 0 360) p strike ;; set_float "_dip" (outside_rng 0 90) p dip ;;
  set_float "_rake" (outside_rng (-180) 180) p rake ;; set_float "_slip" lt0 p slip ;;
  set_float "_length" lt0 p length ;; set_float "_beta" never p beta ;; set_float "_mu" never p mu ;;
  ok_set_shape p shape.

(** oksar.py l.81-88: optional keyword attributes, applied in this order *)
Definition int_kwargs : list string :=
  [ "description"; "event_country"; "event_name"; "copyright"; "data_source";
    "satellite_name"; "event_gcmt_id"; "date1"; "date2"; "processed_date"; "event_date" ].
Fixpoint set_kwargs (p : string) (ks : list string) (kw : string -> option pyval) : M unit :=
  match ks with
  | [] => ret tt
  | k :: r =>
      match kw k with
      | Some v => setattr EarthquakeInterferogram p k v ;; set_kwargs p r kw
      | None => set_kwargs p r kw
      end
  end.
(** oksar.py l.45-90: [args] are the values of the listed parameters *)
Definition int_params : list string :=
  [ "data"; "title"; "location"; "location_UTM_zone"; "shape"; "pixel_size"; "ref";
    "ref_incidence"; "satellite_azimuth"; "satellite_altitude"; "processed_by"; "scaling";
    "satellite_fringe_interval"; "local_earth_radius"; "local_rigidity" ].
Fixpoint set_params (p : string) (ks : list string) (args : string -> pyval) : M unit :=
  match ks with
  | [] => ret tt
  | k :: r => setattr EarthquakeInterferogram p k (args k) ;; set_params p r args
  end.
Definition init_interferogram (p : string) (args : string -> pyval) (kw : string -> option pyval) : M unit :=
  set_params p int_params args ;; set_kwargs p int_kwargs kw.

(** em/static/sphere.py l.540-552 *)
Definition init_mssphere (p : string) (radius mu_sphere mu_background primary_field location : pyval) : M unit :=
  set_float_raw "_radius" lt0 p radius ;;
  set_float_raw "_mu_sphere" le0 p mu_sphere ;;
  set_float_raw "_mu_background" le0 p mu_background ;;
  set_len3 "_primary_field" p (default_loc primary_field (vec3 (Fin 1) (Fin 0) (Fin 0))) ;;
  set_len3 "_location" p (default_loc location origin).
(** em/fdem/wholespace.py l.939-945 *)
Definition init_hpw (p : string) (amplitude orientation frequency quasistatic sigma mu epsilon : pyval) : M unit :=
  set_float_raw "_amplitude" never p amplitude ;; pw_set_orientation p orientation ;;
  init_fdem p frequency quasistatic sigma mu epsilon.
(** em/tdem/wholespace.py l.616-622 *)
Definition init_tpw (p : string) (amplitude orientation time sigma mu epsilon : pyval) : M unit :=
  set_float_raw "_amplitude" never p amplitude ;; pw_set_orientation p orientation ;;
  init_tdem p time sigma mu epsilon.

(** Names of the classes of the package (MagneticPoleWholeSpace has the attributes of
    MagneticDipoleWholeSpace; MagneticDipoleHalfSpace those of KFdemMagneticDipole and
    VerticalMagneticDipoleHalfSpace those of KTdemMagneticDipole) *)
Inductive kind : Type :=
| KBaseEM
| KBaseDipole
| KBaseElectricDipole
| KBaseMagneticDipole
| KBaseLineCurrent
| KPointMass
| KSphere
| KBasePrism
| KPrism
| KMagneticPrism
| KMagneticDipoleWholeSpace
| KCircularLoopWholeSpace
| KLineCurrentWholeSpace
| KPointCurrentWholeSpace
| KPointCurrentHalfSpace
| KDipoleHalfSpace
| KElectrostaticSphere
| KMagnetostaticSphere
| KBaseFDEM
| KBaseTDEM
| KFdemElectricDipole
| KFdemMagneticDipole
| KTdemElectricDipole
| KTdemMagneticDipole
| KHarmonicPlaneWave
| KTransientPlaneWave
| KEarthquakeInterferogram
| KOksar.
Definition cls_of (k : kind) : cls :=
  match k with
  | KBaseEM => BaseEM
  | KBaseDipole => BaseDipole
  | KBaseElectricDipole => BaseElectricDipole
  | KBaseMagneticDipole => BaseMagneticDipole
  | KBaseLineCurrent => BaseLineCurrent
  | KPointMass => PointMass
  | KSphere => Sphere
  | KBasePrism => BasePrism
  | KPrism => Prism
  | KMagneticPrism => MagneticPrism
  | KMagneticDipoleWholeSpace => MagneticDipoleWholeSpace
  | KCircularLoopWholeSpace => CircularLoopWholeSpace
  | KLineCurrentWholeSpace => LineCurrentWholeSpace
  | KPointCurrentWholeSpace => PointCurrentWholeSpace
  | KPointCurrentHalfSpace => PointCurrentHalfSpace
  | KDipoleHalfSpace => DipoleHalfSpace
  | KElectrostaticSphere => ElectrostaticSphere
  | KMagnetostaticSphere => MagnetostaticSphere
  | KBaseFDEM => BaseFDEM
  | KBaseTDEM => BaseTDEM
  | KFdemElectricDipole => FdemElectricDipole
  | KFdemMagneticDipole => FdemMagneticDipole
  | KTdemElectricDipole => TdemElectricDipole
  | KTdemMagneticDipole => TdemMagneticDipole
  | KHarmonicPlaneWave => HarmonicPlaneWave
  | KTransientPlaneWave => TransientPlaneWave
  | KEarthquakeInterferogram => EarthquakeInterferogram
  | KOksar => Oksar
  end.

(** Objects a user can construct: the constructor ran without an exception on
    arguments that are genuine numpy/Python values. *)
Inductive created : kind -> obj -> Prop :=
| mk_BaseEM s m e o :
    Forall wf_val [s; m; e] -> init_em "" s m e empty_obj = (o, Ok tt) -> created KBaseEM o
| mk_BaseDipole l d o :
    Forall wf_val [l; d] -> init_dipole "" l d empty_obj = (o, Ok tt) -> created KBaseDipole o
| mk_BaseElectricDipole n c l d o :
    Forall wf_val [n; c; l; d] ->
    init_edipole "" n c l d empty_obj = (o, Ok tt) -> created KBaseElectricDipole o
| mk_BaseMagneticDipole n l d o :
    Forall wf_val [n; l; d] ->
    init_mdipole "" n l d empty_obj = (o, Ok tt) -> created KBaseMagneticDipole o
| mk_BaseLineCurrent n c o :
    Forall wf_val [n; c] -> init_line "" n c empty_obj = (o, Ok tt) -> created KBaseLineCurrent o
| mk_PointMass m l o :
    Forall wf_val [m; l] -> init_pointmass "" m l empty_obj = (o, Ok tt) -> created KPointMass o
| mk_Sphere r q l m o :
    Forall wf_val [r; q; l; m] -> init_sphere "" r q l m empty_obj = (o, Ok tt) -> created KSphere o
| mk_BasePrism a b o :
    Forall wf_val [a; b] -> init_prism "" a b empty_obj = (o, Ok tt) -> created KBasePrism o
| mk_Prism a b r o :
    Forall wf_val [a; b; r] -> init_gprism "" a b r empty_obj = (o, Ok tt) -> created KPrism o
| mk_MagneticPrism a b m o :
    Forall wf_val [a; b; m] -> init_mprism "" a b m empty_obj = (o, Ok tt) -> created KMagneticPrism o
| mk_MagneticDipoleWholeSpace s m e n l d o :
    Forall wf_val [s; m; e; n; l; d] ->
    init_mdws "" s m e n l d empty_obj = (o, Ok tt) -> created KMagneticDipoleWholeSpace o
| mk_CircularLoopWholeSpace r c s m e l d o :
    Forall wf_val [r; c; s; m; e; l; d] ->
    init_loop "" r c s m e l d empty_obj = (o, Ok tt) -> created KCircularLoopWholeSpace o
| mk_LineCurrentWholeSpace n c s m e o :
    Forall wf_val [n; c; s; m; e] ->
    init_linews "" n c s m e empty_obj = (o, Ok tt) -> created KLineCurrentWholeSpace o
| mk_PointCurrentWholeSpace r c l o :
    Forall wf_val [r; c; l] ->
    init_pcws "" r c l empty_obj = (o, Ok tt) -> created KPointCurrentWholeSpace o
| mk_PointCurrentHalfSpace r c l o :
    Forall wf_val [r; c; l] ->
    init_hs "" r c l empty_obj = (o, Ok tt) -> created KPointCurrentHalfSpace o
| mk_DipoleHalfSpace r a b c o :
    Forall wf_val [r; a; b; c] ->
    init_dhs "" r a b c empty_obj = (o, Ok tt) -> created KDipoleHalfSpace o
| mk_ElectrostaticSphere r s b f l o :
    Forall wf_val [r; s; b; f; l] ->
    init_essphere "" r s b f l empty_obj = (o, Ok tt) -> created KElectrostaticSphere o
| mk_MagnetostaticSphere r s b f l o :
    Forall wf_val [r; s; b; f; l] ->
    init_mssphere "" r s b f l empty_obj = (o, Ok tt) -> created KMagnetostaticSphere o
| mk_BaseFDEM f q s m e o :
    Forall wf_val [f; q; s; m; e] ->
    init_fdem "" f q s m e empty_obj = (o, Ok tt) -> created KBaseFDEM o
| mk_BaseTDEM t s m e o :
    Forall wf_val [t; s; m; e] ->
    init_tdem "" t s m e empty_obj = (o, Ok tt) -> created KBaseTDEM o
| mk_FdemElectricDipole f q s m e n c l d o :
    Forall wf_val [f; q; s; m; e; n; c; l; d] ->
    (init_fdem "" f q s m e ;; init_edipole "" n c l d) empty_obj = (o, Ok tt) ->
    created KFdemElectricDipole o
(* also em/fdem/halfspace.py l.15-21, whose surface check (Model_Construct.final_check)
   runs last and only refuses more *)
| mk_FdemMagneticDipole f q s m e n l d o :
    Forall wf_val [f; q; s; m; e; n; l; d] ->
    (init_fdem "" f q s m e ;; init_mdipole "" n l d) empty_obj = (o, Ok tt) ->
    created KFdemMagneticDipole o
| mk_TdemElectricDipole t s m e n c l d o :
    Forall wf_val [t; s; m; e; n; c; l; d] ->
    (init_tdem "" t s m e ;; init_edipole "" n c l d) empty_obj = (o, Ok tt) ->
    created KTdemElectricDipole o
| mk_TdemMagneticDipole t s m e n l d o :
    Forall wf_val [t; s; m; e; n; l; d] ->
    (init_tdem "" t s m e ;; init_mdipole "" n l d) empty_obj = (o, Ok tt) ->
    created KTdemMagneticDipole o
| mk_HarmonicPlaneWave a d f q s m e o :
    Forall wf_val [a; d; f; q; s; m; e] ->
    init_hpw "" a d f q s m e empty_obj = (o, Ok tt) -> created KHarmonicPlaneWave o
| mk_TransientPlaneWave a d t s m e o :
    Forall wf_val [a; d; t; s; m; e] ->
    init_tpw "" a d t s m e empty_obj = (o, Ok tt) -> created KTransientPlaneWave o
| mk_Interferogram args kw o :
    (forall k, wf_val (args k)) -> (forall k v, kw k = Some v -> wf_val v) ->
    init_interferogram "" args kw empty_obj = (o, Ok tt) -> created KEarthquakeInterferogram o
| mk_Oksar a b c d e f g h i j k l m n o :
    Forall wf_val [a; b; c; d; e; f; g; h; i; j; k; l; m; n] ->
    init_oksar "" a b c d e f g h i j k l m n empty_obj = (o, Ok tt) -> created KOksar o.

(** the classes whose sigma, rho, mu, epsilon are those of BaseEM *)
Definition em_kinds : list kind :=
  [ KBaseEM; KMagneticDipoleWholeSpace; KCircularLoopWholeSpace; KLineCurrentWholeSpace;
    KPointCurrentWholeSpace; KBaseFDEM; KBaseTDEM; KFdemElectricDipole; KFdemMagneticDipole;
    KTdemElectricDipole; KTdemMagneticDipole; KHarmonicPlaneWave; KTransientPlaneWave ].
(** the classes with BaseDipole's location and orientation *)
Definition dipole_kinds : list kind :=
  [ KBaseDipole; KBaseElectricDipole; KBaseMagneticDipole; KMagneticDipoleWholeSpace;
    KCircularLoopWholeSpace; KFdemElectricDipole; KFdemMagneticDipole; KTdemElectricDipole;
    KTdemMagneticDipole ].
Definition line_kinds : list kind :=
  [ KBaseLineCurrent; KLineCurrentWholeSpace; KPointCurrentWholeSpace ].
Definition prism_kinds : list kind := [ KBasePrism; KPrism; KMagneticPrism ].
(** the two classes that own other source objects *)
Definition facade (k : kind) : bool :=
  match k with KPointCurrentHalfSpace | KDipoleHalfSpace => true | _ => false end.

End Ext.
