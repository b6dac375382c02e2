(** Model of geoana/em/tdem: base.py, wholespace.py, halfspace.py, simple_functions.py
    and reference.py, at one time and one observation point ([append_ndim] puts the time
    on its own leading axis, so every entry of an array result is the value given here
    for its (time, point) pair; Model_Utils.v).  Attribute values are exact reals
    (validation: Model_Setters.v).  Time 0, offset 0 and the source point divide by
    zero in numpy and are excluded by the theorems. *)
From Coq Require Import Reals List.
From Coquelicot Require Import Coquelicot.
From Verif Require Import Vec3 Numpy Model_Spatial Model_Static.
Import ListNotations.
Open Scope R_scope.

(** ** scipy.special, by the integrals that define the functions *)
(** erf: 2/sqrt(pi) times the integral of exp(-t^2) from 0 to x *)
Definition erf (x : R) : R := 2 / sqrt PI * RInt (fun t => exp (- t ^ 2)) 0 x.
(** iv(n, z): modified Bessel function of the first kind of integer order n *)
Definition iv (n : nat) (z : R) : R := / PI * RInt (fun t => exp (z * cos t) * cos (INR n * t)) 0 PI.
(** ive(n, z) = iv(n, z) * exp(-abs(z)) *)
Definition ive (n : nat) (z : R) : R := iv n z * exp (- Rabs z).

(** ** base.py *)
(** base.py l.59 *)
Definition peak_time (z sigma mu : R) : R := (mu * sigma * z ^ 2) / 6.
(** base.py l.102 *)
Definition diffusion_distance (time sigma mu : R) : R := sqrt (2 * time / (mu * sigma)).
(** base.py l.129 *)
Definition theta (time sigma mu : R) : R := sqrt (mu * sigma / (4 * time)).

(** attributes of a BaseTDEM object at one time (base.py l.147-150, em/base.py) *)
Record tdem : Type := TD { td_time : R; td_sigma : R; td_mu : R }.
Definition at_time (s : tdem) (t : R) : tdem := TD t (td_sigma s) (td_mu s).
(** base.py l.207, 232, 259 *)
Definition td_peak_time (s : tdem) (z : R) : R := peak_time z (td_sigma s) (td_mu s).
Definition td_diffusion_distance (s : tdem) : R := diffusion_distance (td_time s) (td_sigma s) (td_mu s).
Definition td_theta (s : tdem) : R := theta (td_time s) (td_sigma s) (td_mu s).

(** ** wholespace.py, ElectricDipoleWholeSpace *)
Record tedip : Type := TED { te_med : tdem; te_current : R; te_length : R; te_orient : vec3; te_loc : vec3 }.
Definition te_at (s : tedip) (t : R) : tedip :=
  TED (at_time (te_med s) t) (te_current s) (te_length s) (te_orient s) (te_loc s).

(** wholespace.py l.98-106 *)
Definition te_A (s : tedip) (xyz : vec3) : vec3 :=
  let r_vec := vsub xyz (te_loc s) in
  let r := vnorm r_vec in
  let theta_r := td_theta (te_med s) * r in
  vscal (te_current s * te_length s / (4 * PI * r) * erf theta_r) (te_orient s).

(** wholespace.py l.180-200 *)
Definition te_E (s : tedip) (xyz : vec3) : vec3 :=
  let r_vec := vsub xyz (te_loc s) in
  let r := vnorm r_vec in
  let r_hat := vdiv r_vec r in
  let theta_r := td_theta (te_med s) * r in
  let root_pi := sqrt PI in
  let front := te_current s * te_length s / (4 * PI * td_sigma (te_med s) * r ^ 3) in
  let common_part := theta_r / root_pi * exp (- theta_r ^ 2) in
  let sym_term := 3 * erf theta_r - (4 * theta_r ^ 2 + 6) * common_part in
  let sym_direction := vscal (vdot r_hat (te_orient s)) r_hat in
  let orient_term := erf theta_r - (4 * theta_r ^ 2 + 2) * common_part in
  vscal front (vsub (vscal sym_term sym_direction) (vscal orient_term (te_orient s))).

(** wholespace.py l.274 *)
Definition te_J (s : tedip) (xyz : vec3) : vec3 := vscal (td_sigma (te_med s)) (te_E s xyz).

(** wholespace.py l.347-361 *)
Definition te_H (s : tedip) (xyz : vec3) : vec3 :=
  let r_vec := vsub xyz (te_loc s) in
  let r := vnorm r_vec in
  let r_hat := vdiv r_vec r in
  let theta_r := td_theta (te_med s) * r in
  let term1 := te_current s * te_length s / (4 * PI * r ^ 2) in
  let term2 := erf theta_r - 2 / sqrt PI * theta_r * exp (- theta_r ^ 2) in
  vscal (term1 * term2) (vcross (te_orient s) r_hat).

(** wholespace.py l.434-449 *)
Definition te_dH (s : tedip) (xyz : vec3) : vec3 :=
  let r_vec := vsub xyz (te_loc s) in
  let r := vnorm r_vec in
  let r_hat := vdiv r_vec r in
  let theta_r := td_theta (te_med s) * r in
  let term1 := te_current s * te_length s / (4 * PI * r ^ 2) in
  let term2_dt := -2 * theta_r ^ 3 / (sqrt PI * td_time (te_med s)) * exp (- theta_r ^ 2) in
  vscal (term1 * term2_dt) (vcross (te_orient s) r_hat).

(** wholespace.py l.523, 597 *)
Definition te_B (s : tedip) (xyz : vec3) : vec3 := vscal (td_mu (te_med s)) (te_H s xyz).
Definition te_dB (s : tedip) (xyz : vec3) : vec3 := vscal (td_mu (te_med s)) (te_dH s xyz).

(** ** wholespace.py, TransientPlaneWave *)
Record tpwave : Type := TPW { tp_med : tdem; tp_amp : R; tp_orient : vec3 }.
Definition tp_at (s : tpwave) (t : R) : tpwave := TPW (at_time (tp_med s) t) (tp_amp s) (tp_orient s).

(** wholespace.py l.733-745; [x ** 0.5] is sqrt x and [t ** 1.5] is t sqrt t for t > 0 *)
Definition tp_E (s : tpwave) (xyz : vec3) : vec3 :=
  let e0 := tp_amp s in
  let z := vz xyz in
  let t := td_time (tp_med s) in
  let mu := td_mu (tp_med s) in
  let sigma := td_sigma (tp_med s) in
  let bunja := - e0 * sqrt (mu * sigma) * z * exp (- (mu * sigma * z ^ 2) / (4 * t)) in
  let bunmo := 2 * sqrt PI * (t * sqrt t) in
  vscal (bunja / bunmo) (tp_orient s).

(** wholespace.py l.798 *)
Definition tp_J (s : tpwave) (xyz : vec3) : vec3 := vscal (td_sigma (tp_med s)) (tp_E s xyz).

(** wholespace.py l.904-921 *)
Definition tp_B (s : tpwave) (xyz : vec3) : vec3 :=
  let e0 := tp_amp s in
  let z := vz xyz in
  let t := td_time (tp_med s) in
  let sigma := td_sigma (tp_med s) in
  let mu := td_mu (tp_med s) in
  let b_amp := - e0 * sqrt (sigma * mu / (PI * t)) * exp ((- mu * sigma * z ^ 2) / (4 * t)) in
  let b_dir := vcross (tp_orient s) (V3 0 0 (-1)) in
  vscal b_amp b_dir.

(** wholespace.py l.851 *)
Definition tp_H (s : tpwave) (xyz : vec3) : vec3 := vdiv (tp_B s xyz) (td_mu (tp_med s)).

(** ** simple_functions.py *)
(** l.79-83 *)
Definition tloop_hz (t sigma mu radius current turns : R) : R :=
  let ta := theta t sigma mu * radius in
  let t1 := (3 / (sqrt PI * ta)) * exp (- (ta ^ 2)) in
  let t2 := (1 - (3 / (2 * ta ^ 2))) * erf ta in
  let hz := (t1 + t2) / (2 * radius) in
  turns * current * hz.
(** l.118-120 *)
Definition tloop_bz (t sigma mu radius current turns : R) : R := mu * tloop_hz t sigma mu radius current turns.
(** l.241-244 *)
Definition tloop_dbz (t sigma mu radius current turns : R) : R :=
  let a := radius in
  let ta := theta t sigma mu * a in
  let term := 3 * erf ta - 2 * ta / sqrt PI * (3 + 2 * ta ^ 2) * exp (- ta ^ 2) in
  - turns * current / (sigma * a ^ 3) * term.
(** l.181-184 *)
Definition tloop_dhz (t sigma mu radius current turns : R) : R := tloop_dbz t sigma mu radius current turns / mu.

(** l.320-340: the point is given by its horizontal offset (x, y) *)
Definition vmd_H (t sigma mu moment x y : R) : vec3 :=
  let r := sqrt (x ^ 2 + y ^ 2) in
  let thr := theta t sigma mu * r in
  let h_z := 1 / r ^ 3 * ((9 / (2 * thr ^ 2) - 1) * erf thr
                          - (9 / thr + 4 * thr) / sqrt PI * exp (- thr ^ 2)) in
  let h_r := 2 * thr ^ 2 / r ^ 3 * (ive 1 (thr ^ 2 / 2) - ive 2 (thr ^ 2 / 2)) in
  let angle := atan2 y x in
  let h_x := cos angle * h_r in
  let h_y := sin angle * h_r in
  vscal (moment / (4 * PI)) (V3 h_x h_y h_z).
(** l.418-437 *)
Definition vmd_dH (t sigma mu moment x y : R) : vec3 :=
  let r := sqrt (x ^ 2 + y ^ 2) in
  let tr := theta t sigma mu * r in
  let dhz_dt := 1 / (r ^ 3 * t) * (9 / (2 * tr ^ 2) * erf tr
                                   - (4 * tr ^ 3 + 6 * tr + 9 / tr) / sqrt PI * exp (- tr ^ 2)) in
  let dhr_dt := -2 * tr ^ 2 / (r ^ 3 * t) *
    ((1 + tr ^ 2) * ive 0 (tr ^ 2 / 2) - (2 + tr ^ 2 + 4 / tr ^ 2) * ive 1 (tr ^ 2 / 2)) in
  let angle := atan2 y x in
  let dhx_dt := cos angle * dhr_dt in
  let dhy_dt := sin angle * dhr_dt in
  vscal (moment / (4 * PI)) (V3 dhx_dt dhy_dt dhz_dt).
(** l.468-470, 501-503 *)
Definition vmd_B (t sigma mu moment x y : R) : vec3 := vscal mu (vmd_H t sigma mu moment x y).
Definition vmd_dB (t sigma mu moment x y : R) : vec3 := vscal mu (vmd_dH t sigma mu moment x y).

(** ** halfspace.py, VerticalMagneticDipoleHalfSpace *)
Record tvmd : Type := TV { tv_med : tdem; tv_moment : R; tv_loc : vec3 }.
Definition tv_at (s : tvmd) (t : R) : tvmd := TV (at_time (tv_med s) t) (tv_moment s) (tv_loc s).
(** halfspace.py l.38-46: the observation point is a row of 2 or 3 numbers, of which the
    first two are used; anything else is a ValueError from check_xyz_dim *)
Definition tv_call (f : R -> R -> R -> R -> R -> R -> vec3) (s : tvmd) (row : list R) : result vec3 :=
  match row with
  | [x; y] | [x; y; _] =>
      Ok (f (td_time (tv_med s)) (td_sigma (tv_med s)) (td_mu (tv_med s)) (tv_moment s)
            (x - vx (tv_loc s)) (y - vy (tv_loc s)))
  | _ => Raise ValueError
  end.
Definition tv_H : tvmd -> list R -> result vec3 := tv_call vmd_H.
(** halfspace.py l.82-90 *)
Definition tv_dH : tvmd -> list R -> result vec3 := tv_call vmd_dH.
(** halfspace.py l.64, 108 *)
Definition tv_B (s : tvmd) (row : list R) : result vec3 := rmap (vscal (td_mu (tv_med s))) (tv_H s row).
Definition tv_dB (s : tvmd) (row : list R) : result vec3 := rmap (vscal (td_mu (tv_med s))) (tv_dH s row).

(** ** reference.py *)
(** l.17-24 *)
Definition hz_from_vert_4_69a (m theta rho : R) : R :=
  let front := m / (4 * PI * rho ^ 3) in
  let tp := theta * rho in
  let erf_tp := erf tp in
  let inner_1 := 9 / (2 * tp ^ 2) * erf_tp in
  let inner_2 := erf_tp in
  let inner_3 := (9 / tp + 4 * tp) / sqrt PI * exp (- tp ^ 2) in
  front * (inner_1 - inner_2 - inner_3).
(** l.26-34 *)
Definition dhz_from_vert_4_70 (m theta rho sigma mu : R) : R :=
  let front := - m / (2 * PI * mu * sigma * rho ^ 5) in
  let tp := theta * rho in
  let erf_tp := erf tp in
  let inner_1 := 9 * erf_tp in
  let inner_2 := 2 * tp / sqrt PI * (9 + 6 * tp ^ 2 + 4 * tp ^ 4) * exp (- tp ^ 2) in
  front * (inner_1 - inner_2).
(** l.36-40 *)
Definition hp_from_vert_4_72 (m theta rho : R) : R :=
  let tp := theta * rho in
  let first := - m * theta ^ 2 / (2 * PI * rho) in
  let second := (ive 1 (tp ^ 2 / 2) - ive 2 (tp ^ 2 / 2)) in
  first * second.
(** l.42-49 *)
Definition dhp_from_vert_4_74 (m theta rho t : R) : R :=
  let tp := theta * rho in
  let front := m * theta ^ 2 / (2 * PI * rho * t) * exp (- tp ^ 2 / 2) in
  let inner1 := (1 + tp ^ 2) * iv 0 (tp ^ 2 / 2) in
  let inner2 := (2 + tp ^ 2 + 4 / tp ^ 2) * iv 1 (tp ^ 2 / 2) in
  front * (inner1 - inner2).
