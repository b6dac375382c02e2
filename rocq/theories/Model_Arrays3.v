(** Evaluation on arrays of points of any shape of the methods that reshape the points to rows or
    update the points selected by a mask: prisms, current loops, wires and spheres.  The one-point
    formulas and the masked updates are those of Model_Prism.v, Model_Static.v, Model_Batch.v and
    Model_Gravity.v.  Consecutive elementwise operations on the same operands are one operation. *)
From Coq Require Import String Reals List Arith Bool.
From Verif Require Import Vec3 Numpy Model_Utils Model_Spatial Model_Static Model_Gravity Model_Prism Model_Batch Model_Arrays Model_Arrays2.
Import ListNotations.
Open Scope R_scope.

(** ** numpy (library semantics) *)
(** the indices of an array in C order (the last axis runs fastest), the order of reshape and of
    the entries selected by a boolean mask, and the place of an index in that order *)
Fixpoint indices_C (s : list nat) : list (list nat) :=
  match s with
  | [] => [[]]
  | n :: s' => flat_map (fun i => map (cons i) (indices_C s')) (seq 0 n)
  end.
Fixpoint pos_C (s ix : list nat) : nat :=
  match s, ix with
  | _ :: s', i :: ix' => (i * size s' + pos_C s' ix')%nat
  | _, _ => 0%nat
  end.
(** a.reshape(-1, 3) *)
Definition rows (a : nd R) : list vec3 := map (vec_at a) (indices_C (removelast (shape a))).
(** l.reshape(s + (3,)), l an array of shape (n, 3) *)
Definition of_rows (s : list nat) (l : list vec3) : nd R :=
  ND (s ++ [3%nat]) (fun ix => component (nth (pos_C s (removelast ix)) l vzero) (last ix 0%nat)).
(** the array of shape s whose entries in C order are l *)
Definition of_entries {A} (d : A) (s : list nat) (l : list A) : nd A := ND s (fun j => nth (pos_C s j) l d).
(** a[..., c] = b *)
Definition set_item {A} (a : nd A) (c : nat) (b : nd A) : nd A :=
  ND (shape a) (fun ix => if Nat.eqb (last ix 0%nat) c then get b (removelast ix) else get a ix).

(** ** shapes.py l.119-147 and the prism methods *)
(** a kernel on three arrays of one shape; it works on the entries in C order *)
Definition kernel := list vec3 -> result (list R).
Definition on_arrays (k : kernel) (x y z : nd R) : result (nd R) :=
  do l <- k (map (fun j => V3 (get x j) (get y j) (get z j)) (indices_C (shape x)));
  Ok (of_entries 0 (shape x) l).
(** geoana.kernels: the compiled ufuncs where the extension is built, else the numpy versions
    (potential_field_prism.py l.307-339) *)
Record kernels : Type := KS { k_f : kernel; k_fz : kernel; k_fzz : kernel; k_fzx : kernel; k_fzy : kernel;
                              k_fzzz : kernel; k_fxxy : kernel; k_fxxz : kernel; k_fxyz : kernel }.
Definition ufunc (f : R -> R -> R -> R) : kernel := fun l => Ok (map (fun p => f (vx p) (vy p) (vz p)) l).
Definition compiled : kernels :=
  KS (ufunc prism_f) (ufunc prism_fz) (ufunc prism_fzz) (ufunc prism_fzx) (ufunc prism_fzy)
     (ufunc prism_fzzz) (ufunc prism_fxxy) (ufunc prism_fxxz) (ufunc prism_fxyz).
Definition fallback : kernels :=
  KS np_prism_f np_prism_fz np_prism_fzz np_prism_fzx np_prism_fzy np_prism_fzzz np_prism_fxxy np_prism_fxxz np_prism_fxyz.

(** three arrays x, y, z *)
Definition arrays3 : Type := nd R * nd R * nd R.
Definition cycled (a : arrays3) : arrays3 := let '(x, y, z) := a in (y, z, x).
(** shapes.py l.119-147 *)
Definition eval_def_int_array (b : box) (k : kernel) (xyz : nd R) (cycle : nat) : result (nd R) :=
  do x <- item xyz 0;
  do y <- item xyz 1;
  do z <- item xyz 2;
  let mn := (amap (fun x => vx (b_min b) - x) x, amap (fun y => vy (b_min b) - y) y, amap (fun z => vz (b_min b) - z) z) in
  let mx := (amap (fun x => vx (b_max b) - x) x, amap (fun y => vy (b_max b) - y) y, amap (fun z => vz (b_max b) - z) z) in
  let '(x_min, y_min, z_min) := Nat.iter cycle cycled mn in
  let '(x_max, y_max, z_max) := Nat.iter cycle cycled mx in
  do v000 <- on_arrays k x_min y_min z_min;
  do v001 <- on_arrays k x_min y_min z_max;
  do v010 <- on_arrays k x_min y_max z_min;
  do v011 <- on_arrays k x_min y_max z_max;
  do v100 <- on_arrays k x_max y_min z_min;
  do v101 <- on_arrays k x_max y_min z_max;
  do v110 <- on_arrays k x_max y_max z_min;
  do v111 <- on_arrays k x_max y_max z_max;
  do v <- bop Rminus v111 v110;
  do v <- bop Rminus v v101;
  do v <- bop Rplus v v100;
  do v <- bop Rminus v v011;
  do v <- bop Rplus v v010;
  do v <- bop Rplus v v001;
  bop Rminus v v000.

(** gravity.py l.636-638 *)
Definition prism_potential_array (K : kernels) (G : R) (b : box) (rho : R) (xyz : xyz_arg R) : result (nd R) :=
  do xyz <- check_xyz_dim xyz 3;
  rmap (amap (fun v => - G * rho * v)) (eval_def_int_array b (k_f K) xyz 0).
(** gravity.py l.655-660 *)
Definition prism_g_array (K : kernels) (G : R) (b : box) (rho : R) (xyz : xyz_arg R) : result (nd R) :=
  do xyz <- check_xyz_dim xyz 3;
  do gx <- eval_def_int_array b (k_fz K) xyz 1;
  do gy <- eval_def_int_array b (k_fz K) xyz 2;
  do gz <- eval_def_int_array b (k_fz K) xyz 0;
  rmap (amap (fun v => - G * rho * v)) (stack_last [gx; gy; gz]).
(** gravity.py l.676-694 *)
Definition prism_gradient_array (K : kernels) (G : R) (b : box) (rho : R) (xyz : xyz_arg R) : result (nd R) :=
  do xyz <- check_xyz_dim xyz 3;
  do gxx <- eval_def_int_array b (k_fzz K) xyz 1;
  do gxy <- eval_def_int_array b (k_fzx K) xyz 1;
  do gxz <- eval_def_int_array b (k_fzx K) xyz 0;
  do gyy <- eval_def_int_array b (k_fzz K) xyz 2;
  do gyz <- eval_def_int_array b (k_fzy K) xyz 0;
  do gzz <- eval_def_int_array b (k_fzz K) xyz 0;
  do first <- stack_last [gxx; gxy; gxz];
  do second <- stack_last [gxy; gyy; gyz];
  do third <- stack_last [gxz; gyz; gzz];
  rmap (amap (fun v => - G * rho * v)) (stack_last [first; second; third]).
(** a m_x + b m_y + c m_z *)
Definition weighted (m : vec3) (a b c : nd R) : result (nd R) :=
  do s <- bop Rplus (amap (fun a => a * vx m) a) (amap (fun b => b * vy m) b);
  bop Rplus s (amap (fun c => c * vz m) c).
(** em/static/freespace.py l.85-92 *)
Definition prism_scalar_potential_array (K : kernels) (b : box) (m : vec3) (xyz : xyz_arg R) : result (nd R) :=
  do xyz <- check_xyz_dim xyz 3;
  do gx <- eval_def_int_array b (k_fz K) xyz 1;
  do gy <- eval_def_int_array b (k_fz K) xyz 2;
  do gz <- eval_def_int_array b (k_fz K) xyz 0;
  rmap (amap (fun v => - 1 / (4 * PI) * v)) (weighted m gx gy gz).
(** freespace.py l.109-132 *)
Definition prism_H_array (K : kernels) (b : box) (m : vec3) (xyz : xyz_arg R) : result (nd R) :=
  do xyz <- check_xyz_dim xyz 3;
  do gxx <- eval_def_int_array b (k_fzz K) xyz 1;
  do gxy <- eval_def_int_array b (k_fzx K) xyz 1;
  do gxz <- eval_def_int_array b (k_fzx K) xyz 0;
  do gyy <- eval_def_int_array b (k_fzz K) xyz 2;
  do gyz <- eval_def_int_array b (k_fzy K) xyz 0;
  do gzz <- eval_def_int_array b (k_fzz K) xyz 0;
  do hx <- weighted m gxx gxy gxz;
  do hy <- weighted m gxy gyy gyz;
  do hz <- weighted m gxz gyz gzz;
  rmap (amap (fun v => - 1 / (4 * PI) * v)) (stack_last [hx; hy; hz]).
(** freespace.py l.148-156 *)
Definition prism_B_array (K : kernels) (mu_0 : R) (b : box) (m : vec3) (xyz : xyz_arg R) : result (nd R) :=
  do xyz <- check_xyz_dim xyz 3;
  do H <- prism_H_array K b m (XyzArray xyz);
  let msk := map (is_inside b) (rows xyz) in
  let h := rows H in
  do h <- mask_assign msk h (map (fun h => vadd h m) (mask_select msk h));
  Ok (amap (fun v => mu_0 * v) (of_rows (removelast (shape H)) h)).
(** freespace.py l.173-204 *)
Definition prism_H_gradient_array (K : kernels) (b : box) (m : vec3) (xyz : xyz_arg R) : result (nd R) :=
  do xyz <- check_xyz_dim xyz 3;
  do gxxx <- eval_def_int_array b (k_fzzz K) xyz 1;
  do gxxy <- eval_def_int_array b (k_fxxy K) xyz 0;
  do gxxz <- eval_def_int_array b (k_fxxz K) xyz 0;
  do gyyx <- eval_def_int_array b (k_fxxz K) xyz 1;
  do gxyz <- eval_def_int_array b (k_fxyz K) xyz 0;
  do gzzx <- eval_def_int_array b (k_fxxy K) xyz 2;
  do gyyy <- eval_def_int_array b (k_fzzz K) xyz 2;
  do gyyz <- eval_def_int_array b (k_fxxy K) xyz 1;
  do gzzy <- eval_def_int_array b (k_fxxz K) xyz 2;
  do gzzz <- eval_def_int_array b (k_fzzz K) xyz 0;
  do Hxx <- weighted m gxxx gxxy gxxz;
  do Hxy <- weighted m gxxy gyyx gxyz;
  do Hxz <- weighted m gxxz gxyz gzzx;
  do Hyy <- weighted m gyyx gyyy gyyz;
  do Hyz <- weighted m gxyz gyyz gzzy;
  do Hzz <- weighted m gzzx gzzy gzzz;
  do first <- stack_last [Hxx; Hxy; Hxz];
  do second <- stack_last [Hxy; Hyy; Hyz];
  do third <- stack_last [Hxz; Hyz; Hzz];
  rmap (amap (fun v => - 1 / (4 * PI) * v)) (stack_last [first; second; third]).

(** ** em/static/wholespace.py, CircularLoopWholeSpace: l.576-629, 711-761 on xyz.reshape(-1, 3) *)
Definition cl_A_nd (s : cloop) (xyz : nd R) : result (nd R) :=
  do l <- cl_A_array s (rows xyz); Ok (of_rows (removelast (shape xyz)) l).
Definition cl_B_nd (s : cloop) (xyz : nd R) : result (nd R) :=
  do l <- cl_B_array_xyz s (rows xyz); Ok (of_rows (removelast (shape xyz)) l).
(** l.563-574, 631-634 *)
Definition loop_A_nd (s : cloop) : string -> xyz_arg R -> result (nd R) := with_coordinates_array (cl_A_nd s).
(** l.700-709, 763-766: the points are checked before the name *)
Definition loop_B_nd (s : cloop) (coordinates : string) (xyz : xyz_arg R) : result (nd R) :=
  do xyz <- check_xyz_dim xyz 3;
  do xyz <- (if String.eqb (lower coordinates) "cylindrical" then cyl_to_cart_array xyz
             else if negb (String.eqb (lower coordinates) "cartesian") then Raise TypeError else Ok xyz);
  do B <- cl_B_nd s xyz;
  if String.eqb (lower coordinates) "cylindrical" then cart_to_cyl_vec_array xyz B else Ok B.
(** l.832 *)
Definition loop_H_nd (s : cloop) (coordinates : string) (xyz : xyz_arg R) : result (nd R) :=
  rmap (amap (fun b => b / cl_mu s)) (loop_B_nd s coordinates xyz).

(** ** LineCurrentWholeSpace *)
(** l.862-884: one pass of the loop; [out] and [temp_storage] are kept from pass to pass *)
Definition seg_A_nd (K : kernels) (xyz : nd R) (p0 p1 : vec3) (state : nd R * nd R) : result (nd R * nd R) :=
  let '(out, temp) := state in
  let l_vec := vsub p1 p0 in
  let l := vnorm l_vec in
  let l_hat := vdiv l_vec l in
  do rot <- rotation_matrix_v l_hat (V3 1 0 0) default_tol;
  let r0_vec := of_rows (removelast (shape xyz)) (map (fun p => mvec rot (vsub p p0)) (rows xyz)) in
  do r1_vec <- bop Rminus r0_vec (vec_nd (V3 l 0 0));
  do x <- item r0_vec 0;
  do y <- item r0_vec 1;
  do z <- item r0_vec 2;
  do v0_x <- rmap (amap Ropp) (on_arrays (k_fzy K) x y z);
  do x <- item r1_vec 0;
  do y <- item r1_vec 1;
  do z <- item r1_vec 2;
  do v1_x <- rmap (amap Ropp) (on_arrays (k_fzy K) x y z);
  do d <- bop Rminus v1_x v0_x;
  let temp := set_item temp 0 d in
  do out <- bop Rplus out (of_rows (removelast (shape xyz)) (map (mvec (mtrans rot)) (rows temp)));
  Ok (out, temp).
Fixpoint over_segments {A} (f : vec3 -> vec3 -> A -> result A) (segs : list (vec3 * vec3)) (state : A) : result A :=
  match segs with
  | [] => Ok state
  | (p0, p1) :: rest => do state <- f p0 p1 state; over_segments f rest state
  end.
(** l.858-892 *)
Definition lc_A_array (K : kernels) (s : lcur) (xyz : xyz_arg R) : result (nd R) :=
  do xyz <- check_xyz_dim xyz 3;
  do o <- over_segments (seg_A_nd K xyz) (segments (lc_nodes s)) (zeros_like xyz, zeros_like xyz);
  Ok (amap (fun v => - lc_mu s * lc_current s / (4 * PI) * v) (fst o)).

(** numbers that may be nan or infinite: [None] *)
Definition olift2 (f : R -> R -> R) (a b : option R) : option R := odo a <- a; odo b <- b; Some (f a b).
Definition oitem (a : nd (option R)) (c : nat) : result (nd (option R)) :=
  if (c <? last (shape a) 0)%nat then Ok (ND (removelast (shape a)) (fun j => get a (j ++ [c]))) else Raise IndexError.
(** the rows of such an array.  rot.apply(a.reshape(-1, 3)) of a row with a nan or inf entry has no
    finite entry: each is a sum with a term nan * r or inf * r *)
Definition orow (a : nd (option R)) (j : list nat) : option vec3 :=
  odo x <- get a (j ++ [0%nat]); odo y <- get a (j ++ [1%nat]); odo z <- get a (j ++ [2%nat]); Some (V3 x y z).
Definition orows (a : nd (option R)) : list (option vec3) := map (orow a) (indices_C (removelast (shape a))).
Definition of_orows (s : list nat) (l : list (option vec3)) : nd (option R) :=
  ND (s ++ [3%nat]) (fun ix => option_map (fun v => component v (last ix 0%nat)) (nth (pos_C s (removelast ix)) l None)).
(** l.993-1022: one pass of the loop *)
Definition seg_B_nd (xyz : nd R) (p0 p1 : vec3) (state : nd (option R) * nd (option R)) : result (nd (option R) * nd (option R)) :=
  let '(out, temp) := state in
  let l_vec := vsub p1 p0 in
  let l := vnorm l_vec in
  let l_hat := vdiv l_vec l in
  do rot <- rotation_matrix_v l_hat (V3 1 0 0) default_tol;
  let r0_vec := of_rows (removelast (shape xyz)) (map (fun p => mvec rot (vsub p p0)) (rows xyz)) in
  do r1_vec <- bop Rminus r0_vec (vec_nd (V3 l 0 0));
  do r0_hat <- bop fdiv r0_vec (norm_keep r0_vec);
  do r1_hat <- bop fdiv r1_vec (norm_keep r1_vec);
  (* l.1016: cartesian_to_cylindrical(r0_vec[..., 1:]) *)
  let yz := ND (removelast (shape r0_vec) ++ [2%nat]) (fun ix => get r0_vec (removelast ix ++ [S (last ix 0%nat)])) in
  do cyl_points <- cart_to_cyl_array yz;
  do h1 <- oitem r1_hat 0;
  do h0 <- oitem r0_hat 0;
  do d <- bop (olift2 Rminus) h1 h0;
  do rho <- item cyl_points 0;
  do t1 <- bop (fun d r => odo d <- d; fdiv d r) d rho;
  let temp := set_item temp 1 t1 in
  (* l.1019: cylindrical_to_cartesian(cyl_points, temp_storage), two columns *)
  do v0 <- oitem temp 0;
  do v1 <- oitem temp 1;
  do phi <- item cyl_points 1;
  do y <- bop (fun v phi => odo a <- fst v; odo b <- snd v; Some (a * cos phi - b * sin phi)) (ND (shape v0) (fun j => (get v0 j, get v1 j))) phi;
  do z <- bop (fun v phi => odo a <- fst v; odo b <- snd v; Some (a * sin phi + b * cos phi)) (ND (shape v0) (fun j => (get v0 j, get v1 j))) phi;
  let temp := set_item (set_item temp 1 y) 2 z in
  do out <- bop (olift2 Rplus) out (of_orows (removelast (shape xyz)) (map (option_map (mvec (mtrans rot))) (orows temp)));
  Ok (out, temp).
(** l.944-1025 *)
Definition lc_B_array (s : lcur) (xyz : xyz_arg R) : result (nd (option R)) :=
  do xyz <- check_xyz_dim xyz 3;
  let zeros := ND (shape xyz) (fun _ => Some 0) in
  do o <- over_segments (seg_B_nd xyz) (segments (lc_nodes s)) (zeros, zeros);
  Ok (amap (option_map (fun v => - lc_mu s * lc_current s / (4 * PI) * v)) (fst o)).
(** l.942 *)
Definition lc_H_array (s : lcur) (xyz : xyz_arg R) : result (nd (option R)) :=
  rmap (amap (option_map (fun b => b / lc_mu s))) (lc_B_array s xyz).

(** ** spheres: the masks select the points in C order *)
Inductive nd_fields : Type := OneA (a : nd R) | ThreeA (t p s : nd R).
Definition shaped {A} (f : list A -> nd R) (o : fields A) : nd_fields :=
  match o with One l => OneA (f l) | Three t p s => ThreeA (f t) (f p) (f s) end.
(** em/static/sphere.py l.223-255, 325-359, 425-446; l.722-754, 825-857, 928-949 *)
Definition sphere_potential_nd (s : sph) (xyz : xyz_arg R) (field : string) : result nd_fields :=
  do xyz <- check_xyz_dim xyz 3;
  rmap (shaped (of_entries 0 (removelast (shape xyz)))) (sphere_potential s (rows xyz) field).
Definition sphere_field_nd (s : sph) (xyz : xyz_arg R) (field : string) : result nd_fields :=
  do xyz <- check_xyz_dim xyz 3;
  rmap (shaped (of_rows (removelast (shape xyz)))) (sphere_field s (rows xyz) field).
Definition sphere_flux_nd (s : sph) (xyz : xyz_arg R) (field : string) : result nd_fields :=
  do xyz <- check_xyz_dim xyz 3;
  rmap (shaped (of_rows (removelast (shape xyz)))) (sphere_flux s (rows xyz) field).
(** sphere.py l.500-517 *)
Definition charge_density_nd (eps0 : R) (s : sph) (xyz : xyz_arg R) (dr : option R) : result (nd R) :=
  do xyz <- check_xyz_dim xyz 3;
  rmap (of_entries 0 (removelast (shape xyz))) (charge_density eps0 s (rows xyz) dr).
(** gravity.py l.421-428, 487-494, 558-567 *)
Definition gs_potential_nd (s : grav_sphere) (xyz : xyz_arg R) : result (nd R) :=
  do xyz <- check_xyz_dim xyz 3;
  rmap (of_entries 0 (removelast (shape xyz))) (gs_potential_grid s (rows xyz)).
Definition gs_field_nd (s : grav_sphere) (xyz : xyz_arg R) : result (nd R) :=
  do xyz <- check_xyz_dim xyz 3;
  rmap (of_rows (removelast (shape xyz))) (gs_field_grid s (rows xyz)).
(** an entry [None] is a 3 x 3 block of nan *)
Definition gs_gradient_nd (s : grav_sphere) (xyz : xyz_arg R) : result (nd (option mat3)) :=
  do xyz <- check_xyz_dim xyz 3;
  rmap (of_entries None (removelast (shape xyz))) (gs_gradient_grid s (rows xyz)).
