(** Model of geoana/em/fdem: base.py, wholespace.py, halfspace.py and
    simple_functions.py.  One frequency and one observation point at a time:
    [append_ndim] puts the frequency on its own leading axis, so every entry of
    the array results is the value given here for its (frequency, point) pair.
    Attribute values are exact reals (validation: Model_Setters.v). *)
From Coq Require Import Reals List Bool String.
From Coquelicot Require Import Coquelicot.
From Verif Require Import Vec3 Numpy Cplx Model_Spatial Model_Static.
Import ListNotations.
Open Scope R_scope.

(** ** base.py *)
(** A Python object used as the [quasistatic] flag: the two booleans, and any other
    object, of which the code only sees whether it is truthy. *)
Inductive pyflag : Type := PyTrue | PyFalse | OtherObject (truthy : bool).
(** [flag is True] *)
Definition is_True (q : pyflag) : bool := match q with PyTrue => true | _ => false end.
(** [if flag:] *)
Definition truth (q : pyflag) : bool :=
  match q with PyTrue => true | PyFalse => false | OtherObject b => b end.

(** base.py l.39 *)
Definition omega (frequency : R) : R := 2 * PI * frequency.

(** base.py l.79-82 *)
Definition wavenumber (frequency sigma mu epsilon : R) (quasistatic : pyflag) : C :=
  let w := omega frequency in
  if is_True quasistatic then csqrt (- Ci * w * mu * sigma)%C
  else csqrt (RtoC (w ^ 2 * mu * epsilon) - Ci * w * mu * sigma)%C.

(** base.py l.127-130; frequency, sigma, mu and epsilon positive in the theorems
    (numpy divides by zero otherwise) *)
Definition skin_depth (frequency sigma mu epsilon : R) (quasistatic : pyflag) : R :=
  let w := omega frequency in
  if truth quasistatic then sqrt (2 / (w * sigma * mu))
  else sqrt ((mu * epsilon / 2) * (sqrt (1 + sigma ^ 2 / (w * epsilon) ^ 2) - 1)) / w.

(** base.py l.161-163 *)
Definition sigma_hat (frequency sigma epsilon : R) (quasistatic : pyflag) : C :=
  if is_True quasistatic then RtoC sigma
  else (RtoC sigma + Ci * omega frequency * epsilon)%C.

(** attributes of a BaseFDEM object at one frequency (base.py l.188-192, em/base.py) *)
Record fdem : Type := FD { fd_freq : R; fd_sigma : R; fd_mu : R; fd_eps : R; fd_qs : pyflag }.

(** the properties [omega], [sigma_hat], [wavenumber], [skin_depth] of the object
    (base.py l.236, 256-262, 288-290, 324-326).  Dropping an imaginary part that is
    zero (l.260-261) does not change the number. *)
Definition fd_omega (s : fdem) : R := omega (fd_freq s).
Definition fd_sigma_hat (s : fdem) : C := sigma_hat (fd_freq s) (fd_sigma s) (fd_eps s) (fd_qs s).
Definition fd_k (s : fdem) : C := wavenumber (fd_freq s) (fd_sigma s) (fd_mu s) (fd_eps s) (fd_qs s).
Definition fd_skin_depth (s : fdem) : R :=
  skin_depth (fd_freq s) (fd_sigma s) (fd_mu s) (fd_eps s) (fd_qs s).

(** ** wholespace.py, ElectricDipoleWholeSpace *)
(** medium plus the BaseElectricDipole attributes *)
Record edip : Type := ED { ed_med : fdem; ed_current : R; ed_length : R; ed_orient : vec3; ed_loc : vec3 }.

(** wholespace.py l.98-106 *)
Definition ed_A (s : edip) (xyz : vec3) : cvec :=
  let r_vec := vsub xyz (ed_loc s) in
  let r := vnorm r_vec in
  let k := fd_k (ed_med s) in
  let a := (RtoC (ed_current s * ed_length s / (4 * PI * r)) * cexp (- Ci * k * r))%C in
  cvof a (ed_orient s).

(** the bracket shared by ElectricDipole.electric_field (wholespace.py l.197-207) and
    MagneticDipole.magnetic_field (l.828-837): front * (symmetric + oriented) *)
Definition dipole_terms (front : C) (kr : C) (r_hat orientation : vec3) : cvec :=
  let ikr := (Ci * kr)%C in
  let symmetric_term := cvof (RtoC (vdot r_hat orientation) * (- kr ^ 2 + 3 * ikr + 3))%C r_hat in
  let oriented_term := cvof (kr ^ 2 - ikr - 1)%C orientation in
  cvscal front (cvadd symmetric_term oriented_term).

(** wholespace.py l.190-207 *)
Definition ed_E (s : edip) (xyz : vec3) : cvec :=
  let r_vec := vsub xyz (ed_loc s) in
  let r := vnorm r_vec in
  let r_hat := vdiv r_vec r in
  let kr := (fd_k (ed_med s) * r)%C in
  let ikr := (Ci * kr)%C in
  let front_term :=
    (RtoC (ed_current s * ed_length s / (4 * PI * fd_sigma (ed_med s) * r ^ 3)) * cexp (- ikr))%C in
  dipole_terms front_term kr r_hat (ed_orient s).

(** wholespace.py l.291 *)
Definition ed_J (s : edip) (xyz : vec3) : cvec := cvscal (RtoC (fd_sigma (ed_med s))) (ed_E s xyz).

(** wholespace.py l.373-387 *)
Definition ed_H (s : edip) (xyz : vec3) : cvec :=
  let r_vec := vsub xyz (ed_loc s) in
  let r := vnorm r_vec in
  let r_hat := vdiv r_vec r in
  let kr := (fd_k (ed_med s) * r)%C in
  let ikr := (Ci * kr)%C in
  let front_term :=
    (RtoC (ed_current s * ed_length s / (4 * PI * r ^ 2)) * (ikr + 1) * cexp (- ikr))%C in
  cvof front_term (vcross (ed_orient s) r_hat).

(** wholespace.py l.470 *)
Definition ed_B (s : edip) (xyz : vec3) : cvec := cvscal (RtoC (fd_mu (ed_med s))) (ed_H s xyz).

(** ** wholespace.py, MagneticDipoleWholeSpace *)
Record mdip : Type := MDF { mf_med : fdem; mf_moment : R; mf_orient : vec3; mf_loc : vec3 }.

(** wholespace.py l.551-559 *)
Definition mf_A (s : mdip) (xyz : vec3) : cvec :=
  let r_vec := vsub xyz (mf_loc s) in
  let r := vnorm r_vec in
  let k := fd_k (mf_med s) in
  let f := (Ci * fd_omega (mf_med s) * fd_mu (mf_med s) * mf_moment s / RtoC (4 * PI * r)
            * cexp (- Ci * k * r))%C in
  cvof f (mf_orient s).

(** wholespace.py l.641-655 *)
Definition mf_E (s : mdip) (xyz : vec3) : cvec :=
  let r_vec := vsub xyz (mf_loc s) in
  let r := vnorm r_vec in
  let r_hat := vdiv r_vec r in
  let kr := (fd_k (mf_med s) * r)%C in
  let ikr := (Ci * kr)%C in
  let front_term :=
    ((Ci * fd_omega (mf_med s) * fd_mu (mf_med s) * mf_moment s) / RtoC (4 * PI * r ^ 2)
     * (ikr + 1) * cexp (- ikr))%C in
  cvof front_term (vcross r_hat (mf_orient s)).

(** wholespace.py l.738 *)
Definition mf_J (s : mdip) (xyz : vec3) : cvec := cvscal (RtoC (fd_sigma (mf_med s))) (mf_E s xyz).

(** wholespace.py l.822-837 *)
Definition mf_H (s : mdip) (xyz : vec3) : cvec :=
  let r_vec := vsub xyz (mf_loc s) in
  let r := vnorm r_vec in
  let r_hat := vdiv r_vec r in
  let kr := (fd_k (mf_med s) * r)%C in
  let ikr := (Ci * kr)%C in
  let front_term := (RtoC (mf_moment s / (4 * PI * r ^ 3)) * cexp (- ikr))%C in
  dipole_terms front_term kr r_hat (mf_orient s).

(** wholespace.py l.921 *)
Definition mf_B (s : mdip) (xyz : vec3) : cvec := cvscal (RtoC (fd_mu (mf_med s))) (mf_H s xyz).

(** ** wholespace.py, HarmonicPlaneWave *)
Record pwave : Type := PW { pw_med : fdem; pw_amp : R; pw_orient : vec3 }.

(** wholespace.py l.1072-1079 *)
Definition pw_E (s : pwave) (xyz : vec3) : cvec :=
  let ikz := (Ci * fd_k (pw_med s) * RtoC (vz xyz))%C in
  cvscal (cexp ikz) (cvof (RtoC (pw_amp s)) (pw_orient s)).

(** wholespace.py l.1140 *)
Definition pw_J (s : pwave) (xyz : vec3) : cvec := cvscal (RtoC (fd_sigma (pw_med s))) (pw_E s xyz).

(** wholespace.py l.1270-1287 *)
Definition pw_B (s : pwave) (xyz : vec3) : cvec :=
  let k := fd_k (pw_med s) in
  let ikz := (Ci * (k * RtoC (vz xyz)))%C in
  let b := (- RtoC (pw_amp s) * k / RtoC (fd_omega (pw_med s)) * cexp ikz)%C in
  let b_dir := vcross (pw_orient s) (V3 0 0 (-1)) in
  cvof b b_dir.

(** wholespace.py l.1209 *)
Definition pw_H (s : pwave) (xyz : vec3) : cvec := cvscal (/ RtoC (fd_mu (pw_med s)))%C (pw_B s xyz).

(** ** halfspace.py, MagneticDipoleHalfSpace *)
(** The value at one frequency and one point, as (x, y, z) components before the
    factor moment/(4 pi).  [iv], [kv]: scipy.special (any functions);
    [mu_0]: scipy.constants (l.2).  r = 0 and f = 0 divide by zero in numpy and are
    excluded by the theorems.  halfspace.py l.87-128 *)
Record mhalf : Type := MH { mh_med : fdem; mh_moment : R; mh_orient : vec3; mh_loc : vec3 }.

Definition mh_k (mu_0 : R) (s : mhalf) : C :=
  csqrt (- Ci * RtoC (2 * PI * fd_freq (mh_med s)) * mu_0 * fd_sigma_hat (mh_med s))%C.

Section Halfspace.
  Variable iv kv : nat -> C -> C.
  Variable mu_0 : R.

  (** l.109 *)
  Definition mh_hz (k : C) (r : R) : C :=
    (2 / (k ^ 2 * r ^ 5) * (9 - (9 + 9 * Ci * k * r - 4 * k ^ 2 * r ^ 2 - Ci * k ^ 3 * r ^ 3) * cexp (- Ci * k * r)))%C.
  (** l.117 *)
  Definition mh_phi (k : C) (r : R) : C :=
    (2 / (k ^ 2 * r ^ 4) * (3 + k ^ 2 * r ^ 2 - (3 + 3 * Ci * k * r - k ^ 2 * r ^ 2) * cexp (- Ci * k * r)))%C.
  (** l.118 *)
  Definition mh_dphi_dr (k : C) (r : R) : C :=
    (2 / (k ^ 2 * r ^ 5)
     * (-2 * k ^ 2 * r ^ 2 - 12
        + (- Ci * k ^ 3 * r ^ 3 - 5 * k ^ 2 * r ^ 2 + 12 * Ci * k * r + 12) * cexp (- Ci * k * r)))%C.

  (** l.87-138 for one frequency and one point; [secondary] is [field == "secondary"] *)
  Definition mh_H (s : mhalf) (secondary : bool) (xy : vec3) : cvec :=
    let k := mh_k mu_0 s in
    let x := vx xy - vx (mh_loc s) in
    let y := vy xy - vy (mh_loc s) in
    let r := sqrt (x ^ 2 + y ^ 2) in
    let em := cvzero in
    let src_x := vx (mh_orient s) in
    let src_y := vy (mh_orient s) in
    let src_z := vz (mh_orient s) in
    let alpha := (Ci * k * r / 2)%C in
    let IK1 := (iv 1 alpha * kv 1 alpha)%C in
    let IK2 := (iv 2 alpha * kv 2 alpha)%C in
    let em :=
      if Reqb src_z 0 then em
      else
        let Hr := ((k ^ 2 / r) * (IK1 - IK2))%C in
        let angle := atan2 y x in
        CV (cvx em + RtoC (src_z * cos angle) * Hr)%C
           (cvy em + RtoC (src_z * sin angle) * Hr)%C
           (cvz em + RtoC src_z * mh_hz k r)%C in
    let em :=
      if Reqb src_x 0 then em
      else
        CV (cvx em + RtoC (src_x * (-1 / r ^ 3)) * (RtoC (y ^ 2) * mh_phi k r + RtoC (x ^ 2 * r) * mh_dphi_dr k r))%C
           (cvy em + RtoC (src_x * (1 / r ^ 3) * x * y) * (mh_phi k r - r * mh_dphi_dr k r))%C
           (cvz em - RtoC src_x * (k ^ 2 * x / r ^ 2) * (IK1 - IK2))%C in
    let em :=
      if Reqb src_y 0 then em
      else
        CV (cvx em + RtoC (src_y * (1 / r ^ 3) * x * y) * (mh_phi k r - r * mh_dphi_dr k r))%C
           (cvy em + RtoC (src_y * (-1 / r ^ 3)) * (RtoC (x ^ 2) * mh_phi k r + RtoC (y ^ 2 * r) * mh_dphi_dr k r))%C
           (cvz em - RtoC src_y * (k ^ 2 * y / r ^ 2) * (IK1 - IK2))%C in
    let em :=
      if secondary then
        let mdotr := src_x * x + src_y * y in
        CV (cvx em - RtoC (3 * x * mdotr / r ^ 5 - src_x / r ^ 3))%C
           (cvy em - RtoC (3 * y * mdotr / r ^ 5 - src_y / r ^ 3))%C
           (cvz em - RtoC (- src_z / r ^ 3))%C
      else em in
    cvscal (RtoC (mh_moment s / (4 * PI))) em.

  (** The array call: [frequency] is a 0-d or a 1-d array, [xy] one point ([ndim] 0 for
      r) or an array of points.  l.97-98: [k[:, None]] on a 0-d [k] is an IndexError.
      The values are listed frequency-major; for arrays of any shape and the final
      [squeeze] (l.138) see Model_Arrays4.v. *)
  Inductive freqs : Type := Scalar (f : R) | Array (fs : list R).
  Inductive points : Type := OnePoint (p : vec3) | Grid (ps : list vec3).
  Definition with_freq (s : mhalf) (f : R) : mhalf :=
    let m := mh_med s in
    MH (FD f (fd_sigma m) (fd_mu m) (fd_eps m) (fd_qs m)) (mh_moment s) (mh_orient s) (mh_loc s).
  Definition mh_magnetic_field (s : mhalf) (fr : freqs) (secondary : bool) (xy : points)
    : result (list (list cvec)) :=
    match fr, xy with
    | Scalar f, OnePoint p => Ok [[mh_H (with_freq s f) secondary p]]
    | Scalar _, Grid _ => Raise IndexError
    | Array fs, OnePoint p => Ok (map (fun f => [mh_H (with_freq s f) secondary p]) fs)
    | Array fs, Grid ps => Ok (map (fun f => map (mh_H (with_freq s f) secondary) ps) fs)
    end.
End Halfspace.

(** ** simple_functions.py *)
(** l.81-94 at one frequency *)
Definition loop_hz (frequency sigma mu radius current turns : R) (secondary : bool) : C :=
  let w := 2 * PI * frequency in
  let k := csqrt (- Ci * w * mu * sigma)%C in
  let a := radius in
  let Hz := (- RtoC current / (k ^ 2 * a ^ 3)
             * (3 - (3 + 3 * Ci * k * a - k ^ 2 * a ^ 2) * cexp (- Ci * k * a)))%C in
  let Hz := if secondary then (Hz - RtoC (current / 2 / a))%C else Hz in
  (RtoC turns * Hz)%C.
(** l.142-144 *)
Definition loop_bz (frequency sigma mu radius current turns : R) (secondary : bool) : C :=
  (RtoC mu * loop_hz frequency sigma mu radius current turns secondary)%C.
