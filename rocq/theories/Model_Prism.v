(** Model of geoana/kernels/potential_field_prism.py (numpy fallback),
    geoana/kernels/_extensions/potential_field_prism.pyx (compiled kernels),
    geoana/shapes.py (corner sums), geoana/gravity.py Prism and
    geoana/em/static/freespace.py MagneticPrism. *)
From Coq Require Import Reals List Bool.
From Verif Require Import Vec3 Numpy.
Import ListNotations.
Open Scope R_scope.

Definition rad (x y z : R) : R := sqrt (x * x + y * y + z * z).
Definition nonzero (x : R) : bool := negb (Reqb x 0).

(** ** Compiled kernels (C double arithmetic read as exact real arithmetic) *)

(** potential_field_prism.pyx l.10-44 *)
Definition prism_f (x y z : R) : R :=
  let r := rad x y z in
  let v := 0 in
  let v := if (nonzero x && nonzero y)%bool then
             let temp := z + r in
             let v := if Rltb 0 temp then v - x * y * ln temp else v in
             v + 1 / 2 * x * x * atan (y * z / (x * r))
           else v in
  let v := if (nonzero y && nonzero z)%bool then
             let temp := x + r in
             let v := if Rltb 0 temp then v - y * z * ln temp else v in
             v + 1 / 2 * y * y * atan (z * x / (y * r))
           else v in
  let v := if (nonzero z && nonzero x)%bool then
             let temp := y + r in
             let v := if Rltb 0 temp then v - z * x * ln temp else v in
             v + 1 / 2 * z * z * atan (x * y / (z * r))
           else v in
  v.

(** potential_field_prism.pyx l.46-80 *)
Definition prism_fz (x y z : R) : R :=
  let r := rad x y z in
  let v := 0 in
  let v := if nonzero x then (let temp := y + r in if Rltb 0 temp then v + x * ln temp else v) else v in
  let v := if nonzero y then (let temp := x + r in if Rltb 0 temp then v + y * ln temp else v) else v in
  let v := if nonzero z then v - z * atan (x * y / (z * r)) else v in
  v.

(** potential_field_prism.pyx l.83-110 *)
Definition prism_fzz (x y z : R) : R :=
  if nonzero z then atan (x * y / (z * rad x y z)) else 0.

(** potential_field_prism.pyx l.113-143 *)
Definition prism_fzx (x y z : R) : R :=
  let r := rad x y z in
  let v := y + r in
  if Reqb v 0 then (if Rltb y 0 then ln (-2 * y) else v) else - ln v.

(** potential_field_prism.pyx l.146-176 *)
Definition prism_fzy (x y z : R) : R :=
  let r := rad x y z in
  let v := x + r in
  if Reqb v 0 then (if Rltb x 0 then ln (-2 * x) else v) else - ln v.

(** potential_field_prism.pyx l.179-211 *)
Definition prism_fzzz (x y z : R) : R :=
  let r := rad x y z in
  let v1 := x * x + z * z in
  let v2 := y * y + z * z in
  let v := 0 in
  let v := if nonzero v1 then v + 1 / v1 else v in
  let v := if nonzero v2 then v + 1 / v2 else v in
  if nonzero r then v * (x * y / r) else v.

(** potential_field_prism.pyx l.214-241 *)
Definition prism_fxxy (x y z : R) : R :=
  if nonzero x then - x * z / ((x * x + y * y) * rad x y z) else 0.

(** potential_field_prism.pyx l.244-271 *)
Definition prism_fxxz (x y z : R) : R :=
  if nonzero x then - x * y / ((x * x + z * z) * rad x y z) else 0.

(** potential_field_prism.pyx l.274-300 *)
Definition prism_fxyz (x y z : R) : R :=
  let r := rad x y z in if nonzero r then 1 / r else 0.

(** ** numpy fallback: masked updates of an array of points *)

(** [out[m] = g(out[m], x[m], y[m], z[m], r[m])] *)
Definition masked_update {P : Type} (p : P -> bool) (g : R -> P -> R) (pts : list P) (out : list R) : result (list R) :=
  let m := map p pts in
  mask_assign m out (map (fun q => g (fst q) (snd q)) (combine (mask_select m out) (mask_select m pts))).

(** a point; r = np.sqrt(x*x+y*y+z*z) is computed entrywise *)
Notation PX p := (vx p) (only parsing).
Notation PY p := (vy p) (only parsing).
Notation PZ p := (vz p) (only parsing).
Definition PR (p : vec3) : R := rad (vx p) (vy p) (vz p).
Definition zeros {P} (pts : list P) : list R := repeat 0 (length pts).

(** potential_field_prism.py l.32-54 *)
Definition np_prism_f (pts : list vec3) : result (list R) :=
  let out := zeros pts in
  do out <- masked_update (fun p => nonzero (PX p) && nonzero (PY p) && Rltb 0 (PZ p + PR p))%bool
             (fun o p => o - PX p * PY p * ln (PZ p + PR p)) pts out;
  do out <- masked_update (fun p => nonzero (PY p) && nonzero (PZ p) && Rltb 0 (PX p + PR p))%bool
             (fun o p => o - PY p * PZ p * ln (PX p + PR p)) pts out;
  do out <- masked_update (fun p => nonzero (PX p) && nonzero (PZ p) && Rltb 0 (PY p + PR p))%bool
             (fun o p => o - PX p * PZ p * ln (PY p + PR p)) pts out;
  do out <- masked_update (fun p => nonzero (PX p))
             (fun o p => o + 1 / 2 * PX p * PX p * atan (PY p * PZ p / (PX p * PR p))) pts out;
  do out <- masked_update (fun p => nonzero (PY p))
             (fun o p => o + 1 / 2 * PY p * PY p * atan (PX p * PZ p / (PY p * PR p))) pts out;
  masked_update (fun p => nonzero (PZ p))
             (fun o p => o + 1 / 2 * PZ p * PZ p * atan (PX p * PY p / (PZ p * PR p))) pts out.

(** potential_field_prism.py l.76-90 *)
Definition np_prism_fz (pts : list vec3) : result (list R) :=
  let out := zeros pts in
  do out <- masked_update (fun p => nonzero (PX p) && Rltb 0 (PY p + PR p))%bool
             (fun o p => o + PX p * ln (PY p + PR p)) pts out;
  do out <- masked_update (fun p => nonzero (PY p) && Rltb 0 (PX p + PR p))%bool
             (fun o p => o + PY p * ln (PX p + PR p)) pts out;
  masked_update (fun p => nonzero (PZ p))
             (fun o p => o - PZ p * atan (PX p * PY p / (PZ p * PR p))) pts out.

(** potential_field_prism.py l.112-117 *)
Definition np_prism_fzz (pts : list vec3) : result (list R) :=
  masked_update (fun p => nonzero (PZ p)) (fun _ p => atan (PX p * PY p / (PZ p * PR p))) pts (zeros pts).

(** potential_field_prism.py l.139-149 *)
Definition np_prism_fzx (pts : list vec3) : result (list R) :=
  do out <- masked_update (fun p => Reqb (PY p + PR p) 0 && Rltb (PY p) 0)%bool (fun _ p => ln (-2 * PY p)) pts (zeros pts);
  masked_update (fun p => nonzero (PY p + PR p)) (fun _ p => - ln (PY p + PR p)) pts out.

(** potential_field_prism.py l.171-181 *)
Definition np_prism_fzy (pts : list vec3) : result (list R) :=
  do out <- masked_update (fun p => Reqb (PX p + PR p) 0 && Rltb (PX p) 0)%bool (fun _ p => ln (-2 * PX p)) pts (zeros pts);
  masked_update (fun p => nonzero (PX p + PR p)) (fun _ p => - ln (PX p + PR p)) pts out.

(** potential_field_prism.py l.203-215 *)
Definition np_prism_fzzz (pts : list vec3) : result (list R) :=
  let v2 p := PX p * PX p + PZ p * PZ p in
  let v3 p := PY p * PY p + PZ p * PZ p in
  do out <- masked_update (fun p => nonzero (v2 p)) (fun _ p => 1 / v2 p) pts (zeros pts);
  do out <- masked_update (fun p => nonzero (v3 p)) (fun o p => o + 1 / v3 p) pts out;
  masked_update (fun p => nonzero (PR p)) (fun o p => o * (PX p * PY p / PR p)) pts out.

(** potential_field_prism.py l.237-246 *)
Definition np_prism_fxxy (pts : list vec3) : result (list R) :=
  let v p := PX p * PX p + PY p * PY p in
  do out <- masked_update (fun p => nonzero (v p)) (fun _ p => 1 / v p) pts (zeros pts);
  masked_update (fun p => nonzero (PR p)) (fun o p => o * (- PX p * PZ p / PR p)) pts out.

(** potential_field_prism.py l.268-277 *)
Definition np_prism_fxxz (pts : list vec3) : result (list R) :=
  let v p := PX p * PX p + PZ p * PZ p in
  do out <- masked_update (fun p => nonzero (v p)) (fun _ p => 1 / v p) pts (zeros pts);
  masked_update (fun p => nonzero (PR p)) (fun o p => o * (- PX p * PY p / PR p)) pts out.

(** potential_field_prism.py l.299-304 *)
Definition np_prism_fxyz (pts : list vec3) : result (list R) :=
  masked_update (fun p => nonzero (PR p)) (fun _ p => 1 / PR p) pts (zeros pts).

(** ** shapes.py: the prism and its corner sum *)

(** [b_min], [b_max] are min_location and max_location *)
Record box : Type := Box { b_min : vec3; b_max : vec3 }.

(** shapes.py l.42: [np.any(max_location <= min_location)] *)
Definition box_bad_order (b : box) : bool :=
  (Rleb (vx (b_max b)) (vx (b_min b)) || Rleb (vy (b_max b)) (vy (b_min b)) || Rleb (vz (b_max b)) (vz (b_min b)))%bool.

(** shapes.py l.107 *)
Definition volume (b : box) : R :=
  (vx (b_max b) - vx (b_min b)) * (vy (b_max b) - vy (b_min b)) * (vz (b_max b) - vz (b_min b)).

(** shapes.py l.117 *)
Definition location (b : box) : vec3 := vscal (1 / 2) (vadd (b_min b) (b_max b)).

(** shapes.py l.133-135: one turn of the cycle loop *)
Definition rotate_axes (v : vec3) : vec3 := V3 (vy v) (vz v) (vx v).

(** shapes.py l.119-147 *)
Definition eval_def_int (b : box) (func : R -> R -> R -> R) (p : vec3) (cycle : nat) : R :=
  let mn := vsub (b_min b) p in
  let mx := vsub (b_max b) p in
  let mn := Nat.iter cycle rotate_axes mn in
  let mx := Nat.iter cycle rotate_axes mx in
  let v000 := func (vx mn) (vy mn) (vz mn) in
  let v001 := func (vx mn) (vy mn) (vz mx) in
  let v010 := func (vx mn) (vy mx) (vz mn) in
  let v011 := func (vx mn) (vy mx) (vz mx) in
  let v100 := func (vx mx) (vy mn) (vz mn) in
  let v101 := func (vx mx) (vy mn) (vz mx) in
  let v110 := func (vx mx) (vy mx) (vz mn) in
  let v111 := func (vx mx) (vy mx) (vz mx) in
  v111 - v110 - v101 + v100 - v011 + v010 + v001 - v000.

(** ** gravity.py Prism; [G] is scipy.constants.G *)
(** gravity.py l.619 *)
Definition prism_mass (b : box) (rho : R) : R := volume b * rho.

(** gravity.py l.636-638 *)
Definition gravitational_potential (G : R) (b : box) (rho : R) (p : vec3) : R :=
  - G * rho * eval_def_int b prism_f p 0.

(** gravity.py l.655-660 *)
Definition gravitational_field (G : R) (b : box) (rho : R) (p : vec3) : vec3 :=
  let gx := eval_def_int b prism_fz p 1 in
  let gy := eval_def_int b prism_fz p 2 in
  let gz := eval_def_int b prism_fz p 0 in
  vscal (- G * rho) (V3 gx gy gz).

(** gravity.py l.676-694 *)
Definition gravitational_gradient (G : R) (b : box) (rho : R) (p : vec3) : mat3 :=
  let gxx := eval_def_int b prism_fzz p 1 in
  let gxy := eval_def_int b prism_fzx p 1 in
  let gxz := eval_def_int b prism_fzx p 0 in
  let gyy := eval_def_int b prism_fzz p 2 in
  let gyz := eval_def_int b prism_fzy p 0 in
  let gzz := eval_def_int b prism_fzz p 0 in
  let k := - G * rho in
  (* np.stack(.., axis=-1) puts [first] in column 0 *)
  M3 (vscal k (V3 gxx gxy gxz)) (vscal k (V3 gxy gyy gyz)) (vscal k (V3 gxz gyz gzz)).

(** ** em/static/freespace.py MagneticPrism; [m] is magnetization *)
(** freespace.py l.67 *)
Definition moment (b : box) (m : vec3) : vec3 := vscal (volume b) m.

(** freespace.py l.85-92 *)
Definition scalar_potential (b : box) (m : vec3) (p : vec3) : R :=
  let gx := eval_def_int b prism_fz p 1 in
  let gy := eval_def_int b prism_fz p 2 in
  let gz := eval_def_int b prism_fz p 0 in
  - 1 / (4 * PI) * (gx * vx m + gy * vy m + gz * vz m).

(** freespace.py l.109-132 *)
Definition magnetic_field (b : box) (m : vec3) (p : vec3) : vec3 :=
  let gxx := eval_def_int b prism_fzz p 1 in
  let gxy := eval_def_int b prism_fzx p 1 in
  let gxz := eval_def_int b prism_fzx p 0 in
  let gyy := eval_def_int b prism_fzz p 2 in
  let gyz := eval_def_int b prism_fzy p 0 in
  let gzz := eval_def_int b prism_fzz p 0 in
  vscal (- 1 / (4 * PI))
    (V3 (gxx * vx m + gxy * vy m + gxz * vz m)
        (gxy * vx m + gyy * vy m + gyz * vz m)
        (gxz * vx m + gyz * vy m + gzz * vz m)).

(** freespace.py l.150-153 *)
Definition is_inside (b : box) (p : vec3) : bool :=
  (Rleb (vx (b_min b)) (vx p) && Rleb (vy (b_min b)) (vy p) && Rleb (vz (b_min b)) (vz p) &&
   (Rleb (vx p) (vx (b_max b)) && Rleb (vy p) (vy (b_max b)) && Rleb (vz p) (vz (b_max b))))%bool.

(** freespace.py l.148-156, on a list of points (masked update of H) *)
Definition magnetic_flux_density (mu_0 : R) (b : box) (m : vec3) (pts : list vec3) : result (list vec3) :=
  let H := map (magnetic_field b m) pts in
  let msk := map (is_inside b) pts in
  do H <- mask_assign msk H (map (fun h => vadd h m) (mask_select msk H));
  Ok (map (vscal mu_0) H).

(** freespace.py l.173-200 *)
Definition magnetic_field_gradient (b : box) (m : vec3) (p : vec3) : mat3 :=
  let gxxx := eval_def_int b prism_fzzz p 1 in
  let gxxy := eval_def_int b prism_fxxy p 0 in
  let gxxz := eval_def_int b prism_fxxz p 0 in
  let gyyx := eval_def_int b prism_fxxz p 1 in
  let gxyz := eval_def_int b prism_fxyz p 0 in
  let gzzx := eval_def_int b prism_fxxy p 2 in
  let gyyy := eval_def_int b prism_fzzz p 2 in
  let gyyz := eval_def_int b prism_fxxy p 1 in
  let gzzy := eval_def_int b prism_fxxz p 2 in
  let gzzz := eval_def_int b prism_fzzz p 0 in
  let Hxx := gxxx * vx m + gxxy * vy m + gxxz * vz m in
  let Hxy := gxxy * vx m + gyyx * vy m + gxyz * vz m in
  let Hxz := gxxz * vx m + gxyz * vy m + gzzx * vz m in
  let Hyy := gyyx * vx m + gyyy * vy m + gyyz * vz m in
  let Hyz := gxyz * vx m + gyyz * vy m + gzzy * vz m in
  let Hzz := gzzx * vx m + gzzy * vy m + gzzz * vz m in
  let k := - 1 / (4 * PI) in
  M3 (vscal k (V3 Hxx Hxy Hxz)) (vscal k (V3 Hxy Hyy Hyz)) (vscal k (V3 Hxz Hyz Hzz)).
