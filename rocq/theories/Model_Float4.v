(** The gravity of a prism in binary floating point (C134).  Rounding as in Model_Float. *)
From Coq Require Import Reals.
From Verif Require Import Vec3 Model_Prism Model_Float.
Open Scope R_scope.

(** kernels/_extensions/potential_field_prism.pyx l.46-80 and kernels/potential_field_prism.py l.76-90 ([log] and [arctan]: the
    library's, arguments of the model) *)
Definition fprism_fz (log arctan : R -> R) (x y z : R) : R :=
  let r := fradius x y z in
  let v := 0 in
  let v := if Req_EM_T x 0 then v else let temp := fl (y + r) in if Rlt_dec 0 temp then fl (v + fl (x * log temp)) else v in
  let v := if Req_EM_T y 0 then v else let temp := fl (x + r) in if Rlt_dec 0 temp then fl (v + fl (y * log temp)) else v in
  if Req_EM_T z 0 then v else fl (v - fl (z * arctan (fl (fl (x * y) / fl (z * r))))).
(** potential_field_prism.pyx l.83-110 and potential_field_prism.py l.112-117 *)
Definition fprism_fzz (arctan : R -> R) (x y z : R) : R :=
  if Req_EM_T z 0 then 0 else arctan (fl (fl (x * y) / fl (z * fradius x y z))).

(** shapes.py l.118-146: the differences, their cyclic exchange and the sum over the corners, left to right *)
Definition feval_def_int (b : box) (func : R -> R -> R -> R) (p : vec3) (cycle : nat) : R :=
  let mn := fdiff (b_min b) p in
  let mx := fdiff (b_max b) p in
  let mn := Nat.iter cycle rotate_axes mn in
  let mx := Nat.iter cycle rotate_axes mx in
  let v000 := func (vx mn) (vy mn) (vz mn) in
  let v001 := func (vx mn) (vy mn) (vz mx) in
  let v010 := func (vx mn) (vy mx) (vz mn) in
  let v011 := func (vx mn) (vy mx) (vz mx) in
  let v100 := func (vx mx) (vy mn) (vz mn) in
  let v101 := func (vx mx) (vy mn) (vz mx) in
  let v110 := func (vx mx) (vy mx) (vz mn) in
  let v111 := func (vx mx) (vy mx) (vz mx) in
  fl (fl (fl (fl (fl (fl (fl (v111 - v110) - v101) + v100) - v011) + v010) + v001) - v000).

(** gravity.py l.655-660 *)
Definition fgravitational_field (log arctan : R -> R) (b : box) (rho : R) (p : vec3) : vec3 :=
  let gx := feval_def_int b (fprism_fz log arctan) p 1 in
  let gy := feval_def_int b (fprism_fz log arctan) p 2 in
  let gz := feval_def_int b (fprism_fz log arctan) p 0 in
  fvscal (fl (- fG * rho)) (V3 gx gy gz).

(** gravity.py l.676-694 *)
Definition fgravitational_gradient (log arctan : R -> R) (b : box) (rho : R) (p : vec3) : mat3 :=
  let gxx := feval_def_int b (fprism_fzz arctan) p 1 in
  let gxy := feval_def_int b (fprism_fzx log) p 1 in
  let gxz := feval_def_int b (fprism_fzx log) p 0 in
  let gyy := feval_def_int b (fprism_fzz arctan) p 2 in
  let gyz := feval_def_int b (fprism_fzy log) p 0 in
  let gzz := feval_def_int b (fprism_fzz arctan) p 0 in
  let k := fl (- fG * rho) in
  M3 (fvscal k (V3 gxx gxy gxz)) (fvscal k (V3 gxy gyy gyz)) (fvscal k (V3 gxz gyz gzz)).
