(** Array evaluation of the harmonic and transient dipoles and plane waves: the statements of the
    methods on numpy arrays, with broadcasting.  [freq] (resp. [time]) is the array stored by the
    setter, [xyz] the array of observation points; the scalar formulas are those of Model_FDEM.v
    and Model_TDEM.v.  Consecutive elementwise operations on the same operands are one operation. *)
From Coq Require Import Reals List Arith.
From Coquelicot Require Import Coquelicot.
From Verif Require Import Vec3 Cplx Numpy Model_Utils Model_Spatial Model_Static Model_FDEM Model_TDEM.
Import ListNotations.
Open Scope R_scope.

(** ** numpy (library semantics) *)
Definition amap {A B} (f : A -> B) (a : nd A) : nd B := ND (shape a) (fun ix => f (get a ix)).
Definition component (v : vec3) (c : nat) : R := match c with O => vx v | 1%nat => vy v | _ => vz v end.
Definition ccomponent (v : cvec) (c : nat) : C := match c with O => cvx v | 1%nat => cvy v | _ => cvz v end.
(** an array of shape (3,) *)
Definition vec_nd (v : vec3) : nd R := ND [3%nat] (fun ix => component v (last ix 0%nat)).
(** the vector [a[j]] of an array whose last axis has length 3 *)
Definition vec_at (a : nd R) (j : list nat) : vec3 := V3 (get a (j ++ [0%nat])) (get a (j ++ [1%nat])) (get a (j ++ [2%nat])).
(** np.linalg.norm(a, axis=-1, keepdims=True) *)
Definition norm_keep (a : nd R) : nd R := ND (removelast (shape a) ++ [1%nat]) (fun ix => vnorm (vec_at a (removelast ix))).
(** a @ v, a.dot(v) for v of shape (3,) *)
Definition dot_last (a : nd R) (v : vec3) : nd R := ND (removelast (shape a)) (fun j => vdot (vec_at a j) v).
(** np.cross(v, a), np.cross(a, v) *)
Definition cross_l (v : vec3) (a : nd R) : nd R := ND (shape a) (fun ix => component (vcross v (vec_at a (removelast ix))) (last ix 0%nat)).
Definition cross_r (a : nd R) (v : vec3) : nd R := ND (shape a) (fun ix => component (vcross (vec_at a (removelast ix)) v) (last ix 0%nat)).
(** a[..., [2]] *)
Definition third (a : nd R) : nd R := ND (removelast (shape a) ++ [1%nat]) (fun ix => get a (removelast ix ++ [2%nat])).
Definition ndim {A} (a : nd A) : nat := List.length (shape a).
Notation bop := broadcast_op.

(** the object with one of its frequencies *)
Definition fd_at (s : fdem) (f : R) : fdem := FD f (fd_sigma s) (fd_mu s) (fd_eps s) (fd_qs s).
Definition ed_at (s : edip) (f : R) : edip := ED (fd_at (ed_med s) f) (ed_current s) (ed_length s) (ed_orient s) (ed_loc s).
Definition mf_at (s : mdip) (f : R) : mdip := MDF (fd_at (mf_med s) f) (mf_moment s) (mf_orient s) (mf_loc s).
Definition pw_at (s : pwave) (f : R) : pwave := PW (fd_at (pw_med s) f) (pw_amp s) (pw_orient s).
(** em/fdem/base.py l.79-82, 39 on the stored array *)
Definition wavenumbers (s : fdem) (freq : nd R) : nd C := amap (fun f => fd_k (fd_at s f)) freq.
Definition omegas (freq : nd R) : nd R := amap omega freq.

(** ** fdem/wholespace.py, ElectricDipoleWholeSpace *)
(** l.98-106 *)
Definition ed_A_array (s : edip) (freq : nd R) (xyz : xyz_arg R) : result (nd C) :=
  do xyz <- check_xyz_dim xyz 3;
  do r_vec <- bop Rminus xyz (vec_nd (ed_loc s));
  let r := norm_keep r_vec in
  let k := append_ndim (wavenumbers (ed_med s) freq) (ndim r) in
  do ikr <- bop (fun k r => - Ci * k * RtoC r)%C k r;
  do a <- bop (fun r e => RtoC (ed_current s * ed_length s / (4 * PI * r)) * e)%C r (amap cexp ikr);
  bop (fun a o => a * RtoC o)%C a (vec_nd (ed_orient s)).

(** l.200-207 and l.831-837, given the array front_term *)
Definition dipole_terms_array (front_term kr : nd C) (r_hat : nd R) (orientation : vec3) : result (nd C) :=
  let ikr := amap (fun z => Ci * z)%C kr in
  do c1 <- bop (fun kr ikr => - kr ^ 2 + 3 * ikr + 3)%C kr ikr;
  do s1 <- bop (fun d c => RtoC d * c)%C (newaxis (dot_last r_hat orientation)) c1;
  do symmetric_term <- bop (fun s h => s * RtoC h)%C s1 r_hat;
  do c2 <- bop (fun kr ikr => kr ^ 2 - ikr - 1)%C kr ikr;
  do oriented_term <- bop (fun c o => c * RtoC o)%C c2 (vec_nd orientation);
  do sum <- bop Cplus symmetric_term oriented_term;
  bop Cmult front_term sum.

(** l.190-207 *)
Definition ed_E_array (s : edip) (freq : nd R) (xyz : xyz_arg R) : result (nd C) :=
  do xyz <- check_xyz_dim xyz 3;
  do r_vec <- bop Rminus xyz (vec_nd (ed_loc s));
  let r := norm_keep r_vec in
  do r_hat <- bop Rdiv r_vec r;
  let k := append_ndim (wavenumbers (ed_med s) freq) (ndim r) in
  do kr <- bop (fun k r => k * RtoC r)%C k r;
  let ikr := amap (fun z => Ci * z)%C kr in
  do front_term <- bop (fun r e => RtoC (ed_current s * ed_length s / (4 * PI * fd_sigma (ed_med s) * r ^ 3)) * e)%C r (amap (fun z => cexp (- z)%C) ikr);
  dipole_terms_array front_term kr r_hat (ed_orient s).
(** l.291 *)
Definition ed_J_array (s : edip) (freq : nd R) (xyz : xyz_arg R) : result (nd C) :=
  rmap (amap (fun e => RtoC (fd_sigma (ed_med s)) * e)%C) (ed_E_array s freq xyz).
(** l.373-387 *)
Definition ed_H_array (s : edip) (freq : nd R) (xyz : xyz_arg R) : result (nd C) :=
  do xyz <- check_xyz_dim xyz 3;
  do r_vec <- bop Rminus xyz (vec_nd (ed_loc s));
  let r := norm_keep r_vec in
  do r_hat <- bop Rdiv r_vec r;
  let k := append_ndim (wavenumbers (ed_med s) freq) (ndim r) in
  do kr <- bop (fun k r => k * RtoC r)%C k r;
  let ikr := amap (fun z => Ci * z)%C kr in
  do f1 <- bop (fun r z => RtoC (ed_current s * ed_length s / (4 * PI * r ^ 2)) * (z + 1))%C r ikr;
  do front_term <- bop Cmult f1 (amap (fun z => cexp (- z)%C) ikr);
  bop (fun f d => f * RtoC d)%C front_term (cross_l (ed_orient s) r_hat).
(** l.470 *)
Definition ed_B_array (s : edip) (freq : nd R) (xyz : xyz_arg R) : result (nd C) :=
  rmap (amap (fun h => RtoC (fd_mu (ed_med s)) * h)%C) (ed_H_array s freq xyz).

(** ** fdem/wholespace.py, MagneticDipoleWholeSpace *)
(** l.551-559 *)
Definition mf_A_array (s : mdip) (freq : nd R) (xyz : xyz_arg R) : result (nd C) :=
  do xyz <- check_xyz_dim xyz 3;
  do r_vec <- bop Rminus xyz (vec_nd (mf_loc s));
  let r := norm_keep r_vec in
  let k := append_ndim (wavenumbers (mf_med s) freq) (ndim r) in
  let omega := append_ndim (omegas freq) (ndim r) in
  do f1 <- bop (fun w r : R => Ci * w * fd_mu (mf_med s) * mf_moment s / RtoC (4 * PI * r))%C omega r;
  do ikr <- bop (fun k r => - Ci * k * RtoC r)%C k r;
  do f <- bop Cmult f1 (amap cexp ikr);
  bop (fun f o => f * RtoC o)%C f (vec_nd (mf_orient s)).
(** l.641-655 *)
Definition mf_E_array (s : mdip) (freq : nd R) (xyz : xyz_arg R) : result (nd C) :=
  do xyz <- check_xyz_dim xyz 3;
  do r_vec <- bop Rminus xyz (vec_nd (mf_loc s));
  let r := norm_keep r_vec in
  do r_hat <- bop Rdiv r_vec r;
  let k := append_ndim (wavenumbers (mf_med s) freq) (ndim r) in
  let omega := append_ndim (omegas freq) (ndim r) in
  do kr <- bop (fun k r => k * RtoC r)%C k r;
  let ikr := amap (fun z => Ci * z)%C kr in
  do f1 <- bop (fun w r : R => (Ci * w * fd_mu (mf_med s) * mf_moment s) / RtoC (4 * PI * r ^ 2))%C omega r;
  do f2 <- bop (fun f z => f * (z + 1))%C f1 ikr;
  do front_term <- bop Cmult f2 (amap (fun z => cexp (- z)%C) ikr);
  bop (fun f d => f * RtoC d)%C front_term (cross_r r_hat (mf_orient s)).
(** l.738 *)
Definition mf_J_array (s : mdip) (freq : nd R) (xyz : xyz_arg R) : result (nd C) :=
  rmap (amap (fun e => RtoC (fd_sigma (mf_med s)) * e)%C) (mf_E_array s freq xyz).
(** l.822-837 *)
Definition mf_H_array (s : mdip) (freq : nd R) (xyz : xyz_arg R) : result (nd C) :=
  do xyz <- check_xyz_dim xyz 3;
  do r_vec <- bop Rminus xyz (vec_nd (mf_loc s));
  let r := norm_keep r_vec in
  do r_hat <- bop Rdiv r_vec r;
  let k := append_ndim (wavenumbers (mf_med s) freq) (ndim r) in
  do kr <- bop (fun k r => k * RtoC r)%C k r;
  let ikr := amap (fun z => Ci * z)%C kr in
  do front_term <- bop (fun r e => RtoC (mf_moment s / (4 * PI * r ^ 3)) * e)%C r (amap (fun z => cexp (- z)%C) ikr);
  dipole_terms_array front_term kr r_hat (mf_orient s).
(** l.921 *)
Definition mf_B_array (s : mdip) (freq : nd R) (xyz : xyz_arg R) : result (nd C) :=
  rmap (amap (fun h => RtoC (fd_mu (mf_med s)) * h)%C) (mf_H_array s freq xyz).

(** ** fdem/wholespace.py, HarmonicPlaneWave (with a vector as orientation) *)
(** l.1072-1079 *)
Definition pw_E_array (s : pwave) (freq : nd R) (xyz : xyz_arg R) : result (nd C) :=
  do xyz <- check_xyz_dim xyz 3;
  let z := third xyz in
  let k := append_ndim (wavenumbers (pw_med s) freq) (ndim xyz) in
  do ikz <- bop (fun k z => Ci * k * RtoC z)%C k z;
  bop (fun eo e => e * eo)%C (amap (fun o => RtoC (pw_amp s) * RtoC o)%C (vec_nd (pw_orient s))) (amap cexp ikz).
(** l.1140 *)
Definition pw_J_array (s : pwave) (freq : nd R) (xyz : xyz_arg R) : result (nd C) :=
  rmap (amap (fun e => RtoC (fd_sigma (pw_med s)) * e)%C) (pw_E_array s freq xyz).
(** l.1270-1287 *)
Definition pw_B_array (s : pwave) (freq : nd R) (xyz : xyz_arg R) : result (nd C) :=
  do xyz <- check_xyz_dim xyz 3;
  let z := third xyz in
  let k := append_ndim (wavenumbers (pw_med s) freq) (ndim xyz) in
  let omega := append_ndim (omegas freq) (ndim xyz) in
  do kz <- bop (fun k z => k * RtoC z)%C k z;
  let ikz := amap (fun x => Ci * x)%C kz in
  do b1 <- bop (fun k w => - RtoC (pw_amp s) * k / RtoC w)%C k omega;
  do b <- bop Cmult b1 (amap cexp ikz);
  let b_dir := vec_nd (vcross (pw_orient s) (V3 0 0 (-1))) in
  bop (fun d b => b * RtoC d)%C b_dir b.
(** l.1209 *)
Definition pw_H_array (s : pwave) (freq : nd R) (xyz : xyz_arg R) : result (nd C) :=
  rmap (amap (fun b => / RtoC (fd_mu (pw_med s)) * b)%C) (pw_B_array s freq xyz).

(** ** tdem/wholespace.py, ElectricDipoleWholeSpace *)
(** tdem/base.py l.121, 259: theta at every stored time *)
Definition thetas (s : tdem) (time : nd R) : nd R := amap (fun t => td_theta (at_time s t)) time.
(** l.98-106 *)
Definition te_A_array (s : tedip) (time : nd R) (xyz : xyz_arg R) : result (nd R) :=
  do xyz <- check_xyz_dim xyz 3;
  do r_vec <- bop Rminus xyz (vec_nd (te_loc s));
  let r := norm_keep r_vec in
  let theta := append_ndim (thetas (te_med s) time) (ndim r) in
  do theta_r <- bop Rmult theta r;
  do a <- bop (fun r e => te_current s * te_length s / (4 * PI * r) * e) r (amap erf theta_r);
  bop Rmult a (vec_nd (te_orient s)).
(** l.180-200 *)
Definition te_E_array (s : tedip) (time : nd R) (xyz : xyz_arg R) : result (nd R) :=
  do xyz <- check_xyz_dim xyz 3;
  do r_vec <- bop Rminus xyz (vec_nd (te_loc s));
  let r := norm_keep r_vec in
  do r_hat <- bop Rdiv r_vec r;
  let theta := append_ndim (thetas (te_med s) time) (ndim r) in
  do theta_r <- bop Rmult theta r;
  let root_pi := sqrt PI in
  let front := amap (fun r => te_current s * te_length s / (4 * PI * td_sigma (te_med s) * r ^ 3)) r in
  let common_part := amap (fun x => x / root_pi * exp (- x ^ 2)) theta_r in
  do sym_term <- bop (fun x c => 3 * erf x - (4 * x ^ 2 + 6) * c) theta_r common_part;
  do sym_direction <- bop Rmult (newaxis (dot_last r_hat (te_orient s))) r_hat;
  do orient_term <- bop (fun x c => erf x - (4 * x ^ 2 + 2) * c) theta_r common_part;
  do p <- bop Rmult sym_term sym_direction;
  do q <- bop Rmult orient_term (vec_nd (te_orient s));
  do d <- bop Rminus p q;
  bop Rmult front d.
(** l.274 *)
Definition te_J_array (s : tedip) (time : nd R) (xyz : xyz_arg R) : result (nd R) :=
  rmap (amap (Rmult (td_sigma (te_med s)))) (te_E_array s time xyz).
(** l.347-361 *)
Definition te_H_array (s : tedip) (time : nd R) (xyz : xyz_arg R) : result (nd R) :=
  do xyz <- check_xyz_dim xyz 3;
  do r_vec <- bop Rminus xyz (vec_nd (te_loc s));
  let r := norm_keep r_vec in
  do r_hat <- bop Rdiv r_vec r;
  let theta := append_ndim (thetas (te_med s) time) (ndim r) in
  do theta_r <- bop Rmult theta r;
  let term1 := amap (fun r => te_current s * te_length s / (4 * PI * r ^ 2)) r in
  let term2 := amap (fun x => erf x - 2 / sqrt PI * x * exp (- x ^ 2)) theta_r in
  let direction := cross_l (te_orient s) r_hat in
  do t <- bop Rmult term1 term2;
  bop Rmult t direction.
(** l.434-449 *)
Definition te_dH_array (s : tedip) (time : nd R) (xyz : xyz_arg R) : result (nd R) :=
  do xyz <- check_xyz_dim xyz 3;
  do r_vec <- bop Rminus xyz (vec_nd (te_loc s));
  let r := norm_keep r_vec in
  do r_hat <- bop Rdiv r_vec r;
  let theta := append_ndim (thetas (te_med s) time) (ndim r) in
  let time := append_ndim time (ndim r) in
  do theta_r <- bop Rmult theta r;
  let term1 := amap (fun r => te_current s * te_length s / (4 * PI * r ^ 2)) r in
  do t2 <- bop (fun x t => -2 * x ^ 3 / (sqrt PI * t)) theta_r time;
  do term2_dt <- bop Rmult t2 (amap (fun x => exp (- x ^ 2)) theta_r);
  let direction := cross_l (te_orient s) r_hat in
  do t <- bop Rmult term1 term2_dt;
  bop Rmult t direction.
(** l.523, 597 *)
Definition te_B_array (s : tedip) (time : nd R) (xyz : xyz_arg R) : result (nd R) :=
  rmap (amap (Rmult (td_mu (te_med s)))) (te_H_array s time xyz).
Definition te_dB_array (s : tedip) (time : nd R) (xyz : xyz_arg R) : result (nd R) :=
  rmap (amap (Rmult (td_mu (te_med s)))) (te_dH_array s time xyz).

(** ** tdem/wholespace.py, TransientPlaneWave (with a vector as orientation) *)
(** l.733-745 *)
Definition tp_E_array (s : tpwave) (time : nd R) (xyz : xyz_arg R) : result (nd R) :=
  do xyz <- check_xyz_dim xyz 3;
  let e0 := tp_amp s in
  let z := third xyz in
  let t := append_ndim time (ndim xyz) in
  let mu := td_mu (tp_med s) in
  let sigma := td_sigma (tp_med s) in
  do e <- bop (fun z t => exp (- (mu * sigma * z ^ 2) / (4 * t))) z t;
  do bunja <- bop (fun z e => - e0 * sqrt (mu * sigma) * z * e) z e;
  let bunmo := amap (fun t => 2 * sqrt PI * (t * sqrt t)) t in
  do q <- bop Rdiv bunja bunmo;
  bop (fun o q => q * o) (vec_nd (tp_orient s)) q.
(** l.798 *)
Definition tp_J_array (s : tpwave) (time : nd R) (xyz : xyz_arg R) : result (nd R) :=
  rmap (amap (Rmult (td_sigma (tp_med s)))) (tp_E_array s time xyz).
(** l.904-921 *)
Definition tp_B_array (s : tpwave) (time : nd R) (xyz : xyz_arg R) : result (nd R) :=
  do xyz <- check_xyz_dim xyz 3;
  let e0 := tp_amp s in
  let z := third xyz in
  let t := append_ndim time (ndim xyz) in
  let sigma := td_sigma (tp_med s) in
  let mu := td_mu (tp_med s) in
  do e <- bop (fun z t => exp ((- mu * sigma * z ^ 2) / (4 * t))) z t;
  do b_amp <- bop Rmult (amap (fun t => - e0 * sqrt (sigma * mu / (PI * t))) t) e;
  let b_dir := vec_nd (vcross (tp_orient s) (V3 0 0 (-1))) in
  bop (fun d b => b * d) b_dir b_amp.
(** l.851 *)
Definition tp_H_array (s : tpwave) (time : nd R) (xyz : xyz_arg R) : result (nd R) :=
  rmap (amap (fun b => b / td_mu (tp_med s))) (tp_B_array s time xyz).
