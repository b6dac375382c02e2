(** Array evaluation of the coordinate conversions, the static and gravity sources, the transient
    dipole over a half-space and the helpers of the dipole classes: the statements of the methods
    on numpy arrays, with broadcasting.  The one-point formulas are those of Model_Spatial.v,
    Model_Static.v, Model_Gravity.v and Model_TDEM.v.  Consecutive elementwise operations on the
    same operands are one operation. *)
From Coq Require Import String Reals List Arith Bool.
From Verif Require Import Vec3 Numpy Model_Utils Model_Spatial Model_Static Model_Gravity Model_TDEM Model_Arrays.
Import ListNotations.
Open Scope R_scope.

(** ** numpy (library semantics) *)
(** a[..., c] for c >= 0: IndexError beyond the last axis, or on a 0-d array *)
Definition item (a : nd R) (c : nat) : result (nd R) :=
  if (c <? last (shape a) 0)%nat then Ok (ND (removelast (shape a)) (fun j => get a (j ++ [c]))) else Raise IndexError.
(** np.linalg.norm(a, axis=-1) for a last axis of length 3 *)
Definition norm_last (a : nd R) : nd R := ND (removelast (shape a)) (fun j => vnorm (vec_at a j)).
(** np.zeros_like *)
Definition zeros_like (a : nd R) : nd R := ND (shape a) (fun _ => 0).
(** a[..., None, :] *)
Definition newaxis_before_last (a : nd R) : nd R :=
  ND (removelast (shape a) ++ [1%nat; last (shape a) 0%nat]) (fun ix => get a (removelast (removelast ix) ++ [last ix 0%nat])).
(** np.eye(3) *)
Definition eye3 : nd R := ND [3%nat; 3%nat] (fun ix => match ix with [p; q] => if Nat.eqb p q then 1 else 0 | _ => 0 end).
(** a[..., :2] *)
Definition first_two (a : nd R) : nd R := ND (removelast (shape a) ++ [Nat.min 2 (last (shape a) 0%nat)]) (get a).
(** np.linalg.norm(a, axis=-1) for a last axis of length 2 *)
Definition norm_two (a : nd R) : nd R := ND (removelast (shape a)) (fun j => sqrt (get a (j ++ [0%nat]) ^ 2 + get a (j ++ [1%nat]) ^ 2)).
(** np.any(a[..., -1] > 0) for a last axis of length 3 *)
Definition any_above_nd (a : nd R) : bool := existsb (fun j => Rltb 0 (get a (j ++ [2%nat]))) (indices_F (removelast (shape a))).

(** ** spatial.py *)
(** l.115-123 and 133 *)
Definition cyl_to_cart_array (grid : nd R) : result (nd R) :=
  do g0 <- item grid 0;
  do g1 <- item grid 1;
  do x <- bop (fun r phi => r * cos phi) g0 g1;
  do y <- bop (fun r phi => r * sin phi) g0 g1;
  if Nat.eqb (last (shape grid) 0%nat) 3 then do z <- item grid 2; stack_last [x; y; z]
  else stack_last [x; y].
(** l.115, 125-133 *)
Definition cyl_to_cart_vec_array (grid vec : nd R) : result (nd R) :=
  do v0 <- item vec 0;
  do g1 <- item grid 1;
  do v1 <- item vec 1;
  do a <- bop (fun v phi => v * cos phi) v0 g1;
  do b <- bop (fun v phi => v * sin phi) v1 g1;
  do x <- bop Rminus a b;
  do a <- bop (fun v phi => v * sin phi) v0 g1;
  do b <- bop (fun v phi => v * cos phi) v1 g1;
  do y <- bop Rplus a b;
  if Nat.eqb (last (shape grid) 0%nat) 3 then do z <- item vec 2; stack_last [x; y; z]
  else stack_last [x; y].
(** l.199-209 and 220 *)
Definition cart_to_cyl_array (grid : nd R) : result (nd R) :=
  do g0 <- item grid 0;
  do g1 <- item grid 1;
  do r <- bop (fun x y => sqrt (x ^ 2 + y ^ 2)) g0 g1;
  do phi <- bop atan2 g1 g0;
  if Nat.eqb (last (shape grid) 0%nat) 3 then do z <- item grid 2; stack_last [r; phi; z]
  else stack_last [r; phi].
(** l.199, 211-220 *)
Definition cart_to_cyl_vec_array (grid vec : nd R) : result (nd R) :=
  do g1 <- item grid 1;
  do g0 <- item grid 0;
  do theta <- bop atan2 g1 g0;
  do v0 <- item vec 0;
  do v1 <- item vec 1;
  do a <- bop (fun t v => cos t * v) theta v0;
  do b <- bop (fun t v => sin t * v) theta v1;
  do x <- bop Rplus a b;
  do a <- bop (fun t v => - sin t * v) theta v0;
  do b <- bop (fun t v => cos t * v) theta v1;
  do y <- bop Rplus a b;
  if Nat.eqb (last (shape grid) 0%nat) 3 then do z <- item vec 2; stack_last [x; y; z]
  else stack_last [x; y].
(** l.284-291 *)
Definition sph_to_cart_array (grid : nd R) : result (nd R) :=
  do g0 <- item grid 0;
  do g2 <- item grid 2;
  do z <- bop (fun r t => r * cos t) g0 g2;
  do rho <- bop (fun r t => r * sin t) g0 g2;
  do g1 <- item grid 1;
  do x <- bop (fun rho phi => rho * cos phi) rho g1;
  do y <- bop (fun rho phi => rho * sin phi) rho g1;
  stack_last [x; y; z].
(** l.381-390 on a grid of width 3 (np.linalg.norm(grid, axis=-1) takes every column) *)
Definition cart_to_sph_array (grid : nd R) : result (nd R) :=
  do g0 <- item grid 0;
  do g1 <- item grid 1;
  do rho <- bop (fun x y => sqrt (x * x + y * y)) g0 g1;
  do phi <- bop atan2 g1 g0;
  do g2 <- item grid 2;
  do theta <- bop atan2 rho g2;
  stack_last [norm_last grid; phi; theta].

(** ** em/static/wholespace.py *)
(** the [coordinates] argument around a cartesian evaluation: l.99-121 *)
Definition with_coordinates_array (f : nd R -> result (nd R)) (coordinates : string) (xyz : xyz_arg R) : result (nd R) :=
  if negb (String.eqb (lower coordinates) "cartesian" || String.eqb (lower coordinates) "cylindrical")%bool
  then Raise AssertionError
  else
    do xyz <- check_xyz_dim xyz 3;
    do xyz <- (if String.eqb (lower coordinates) "cylindrical" then cyl_to_cart_array xyz else Ok xyz);
    do a <- f xyz;
    if String.eqb (lower coordinates) "cylindrical" then cart_to_cyl_vec_array xyz a else Ok a.

(** MagneticDipoleWholeSpace l.112-116 *)
Definition md_A_array (s : mdipole) (xyz : nd R) : result (nd R) :=
  do r_vec <- bop Rminus xyz (vec_nd (md_loc s));
  let r := norm_keep r_vec in
  do r_hat <- bop Rdiv r_vec r;
  bop (fun r c => md_moment s * md_mu s / (4 * PI * r ^ 2) * c) r (cross_l (md_orient s) r_hat).
(** l.209-215 *)
Definition md_B_array (s : mdipole) (xyz : nd R) : result (nd R) :=
  do r_vec <- bop Rminus xyz (vec_nd (md_loc s));
  let r := norm_keep r_vec in
  do r_hat <- bop Rdiv r_vec r;
  do a <- bop (fun d h => 3 * d * h) (newaxis (dot_last r_hat (md_orient s))) r_hat;
  do b <- bop Rminus a (vec_nd (md_orient s));
  bop (fun r b => md_moment s * md_mu s / (4 * PI * r ^ 3) * b) r b.
(** l.72-121, 123-220, 294 *)
Definition mdipole_vector_potential_array (s : mdipole) := with_coordinates_array (md_A_array s).
Definition mdipole_flux_density_array (s : mdipole) := with_coordinates_array (md_B_array s).
Definition mdipole_field_array (s : mdipole) (coordinates : string) (xyz : xyz_arg R) : result (nd R) :=
  rmap (amap (fun b => b / md_mu s)) (mdipole_flux_density_array s coordinates xyz).
(** MagneticPoleWholeSpace l.353-357 *)
Definition mp_B_array (s : mdipole) (xyz : nd R) : result (nd R) :=
  do r_vec <- bop Rminus xyz (vec_nd (md_loc s));
  let r := norm_keep r_vec in
  do r_hat <- bop Rdiv r_vec r;
  bop (fun r h => md_moment s * md_mu s / (4 * PI * r ^ 2) * h) r r_hat.
(** l.341-362, 400 *)
Definition mpole_flux_density_array (s : mdipole) := with_coordinates_array (mp_B_array s).
Definition mpole_field_array (s : mdipole) (coordinates : string) (xyz : xyz_arg R) : result (nd R) :=
  rmap (amap (fun b => b / md_mu s)) (mpole_flux_density_array s coordinates xyz).

(** LineCurrentWholeSpace l.843-856 *)
Definition lc_V_array (s : lcur) (xyz : xyz_arg R) : result (nd R) :=
  do xyz <- check_xyz_dim xyz 3;
  if Nat.eqb (n_segments s) 0 then
    do d <- bop Rminus xyz (vec_nd (first_node s));
    Ok (amap (fun r => lc_current s / (4 * PI * lc_sigma s * r)) (norm_last d))
  else if vall_eq (last_node s) (first_node s) then do x <- item xyz 0; Ok (zeros_like x)
  else
    do d_A <- bop Rminus xyz (vec_nd (last_node s));
    do d_B <- bop Rminus xyz (vec_nd (first_node s));
    do d <- bop Rminus (amap (fun r => 1 / r) (norm_last d_A)) (amap (fun r => 1 / r) (norm_last d_B));
    Ok (amap (fun d => lc_current s / (4 * PI * lc_sigma s) * d) d).
(** l.1044-1059 *)
Definition lc_E_array (s : lcur) (xyz : xyz_arg R) : result (nd R) :=
  do xyz <- check_xyz_dim xyz 3;
  if Nat.eqb (n_segments s) 0 then
    do r_vec <- bop Rminus xyz (vec_nd (first_node s));
    do q <- bop (fun v r => v / r ^ 3) r_vec (norm_keep r_vec);
    Ok (amap (fun q => lc_current s / (4 * PI * lc_sigma s) * q) q)
  else if vall_eq (last_node s) (first_node s) then Ok (zeros_like xyz)
  else
    do r_vec_A <- bop Rminus xyz (vec_nd (last_node s));
    do r_vec_B <- bop Rminus xyz (vec_nd (first_node s));
    do q_A <- bop (fun v r => v / r ^ 3) r_vec_A (norm_keep r_vec_A);
    do q_B <- bop (fun v r => v / r ^ 3) r_vec_B (norm_keep r_vec_B);
    do q <- bop Rminus q_A q_B;
    Ok (amap (fun q => lc_current s / (4 * PI * lc_sigma s) * q) q).
(** l.1078 *)
Definition lc_J_array (s : lcur) (xyz : xyz_arg R) : result (nd R) := rmap (amap (fun e => lc_sigma s * e)) (lc_E_array s xyz).

(** ** em/static/halfspace.py *)
(** PointCurrentHalfSpace l.185-192 *)
Definition hs_V_array (s : hsp) (xyz : xyz_arg R) : result (nd R) :=
  do xyz <- check_xyz_dim xyz 3;
  if any_above_nd xyz then Raise ValueError
  else
    do p <- lc_V_array (hs_primary s) (XyzArray xyz);
    do i <- lc_V_array (hs_image s) (XyzArray xyz);
    bop Rplus p i.
(** l.253-260 *)
Definition hs_E_array (s : hsp) (xyz : xyz_arg R) : result (nd R) :=
  do xyz <- check_xyz_dim xyz 3;
  if any_above_nd xyz then Raise ValueError
  else
    do p <- lc_E_array (hs_primary s) (XyzArray xyz);
    do i <- lc_E_array (hs_image s) (XyzArray xyz);
    bop Rplus p i.
(** l.320 *)
Definition hs_J_array (s : hsp) (xyz : xyz_arg R) : result (nd R) := rmap (amap (fun e => e / hs_rho s)) (hs_E_array s xyz).
(** DipoleHalfSpace l.537-557, 643-663: [f] is the potential or the field of a point current *)
Definition dh_array (f : hsp -> xyz_arg R -> result (nd R)) (s : dhsp) (xyz_m : xyz_arg R) (xyz_n : option (xyz_arg R)) : result (nd R) :=
  do xyz_m <- check_xyz_dim xyz_m 3;
  if any_above_nd xyz_m then Raise ValueError
  else
    do xyz_n <- match xyz_n with
                | None => Ok None
                | Some n => do n <- check_xyz_dim n 3; if any_above_nd n then Raise ValueError else Ok (Some n)
                end;
    do a <- f (dh_sa s) (XyzArray xyz_m);
    do b <- f (dh_sb s) (XyzArray xyz_m);
    do vm <- bop Rminus a b;
    match xyz_n with
    | Some n =>
        do a <- f (dh_sa s) (XyzArray n);
        do b <- f (dh_sb s) (XyzArray n);
        do vn <- bop Rminus a b;
        bop Rminus vm vn
    | None => Ok vm
    end.
Definition dh_V_array : dhsp -> xyz_arg R -> option (xyz_arg R) -> result (nd R) := dh_array hs_V_array.
Definition dh_E_array : dhsp -> xyz_arg R -> option (xyz_arg R) -> result (nd R) := dh_array hs_E_array.
(** l.748 *)
Definition dh_J_array (s : dhsp) (xyz_m : xyz_arg R) (xyz_n : option (xyz_arg R)) : result (nd R) :=
  rmap (amap (fun e => e / dh_rho s)) (dh_E_array s xyz_m xyz_n).

(** ** gravity.py, PointMass *)
(** l.154-158 *)
Definition pm_potential_array (s : point_mass) (xyz : xyz_arg R) : result (nd R) :=
  do xyz <- check_xyz_dim xyz 3;
  do r_vec <- bop Rminus xyz (vec_nd (pm_loc s));
  Ok (amap (fun r => (G_newton * pm_mass s) / r) (norm_last r_vec)).
(** l.211-216 *)
Definition pm_field_array (s : point_mass) (xyz : xyz_arg R) : result (nd R) :=
  do xyz <- check_xyz_dim xyz 3;
  do r_vec <- bop Rminus xyz (vec_nd (pm_loc s));
  let r := norm_keep r_vec in
  do r_hat <- bop Rdiv r_vec r;
  bop (fun h r => - G_newton * pm_mass s * h / r ^ 2) r_hat r.
(** l.273-280 *)
Definition pm_gradient_array (s : point_mass) (xyz : xyz_arg R) : result (nd R) :=
  do xyz <- check_xyz_dim xyz 3;
  do r_vec <- bop Rminus xyz (vec_nd (pm_loc s));
  let r := norm_keep r_vec in
  do r_hat <- bop Rdiv r_vec r;
  do o <- bop (fun a b => 3 * a * b) (newaxis r_hat) (newaxis_before_last r_hat);
  do t <- bop Rminus eye3 o;
  bop (fun t r => - G_newton * pm_mass s * t / r ^ 3) t (newaxis r).

(** ** em/tdem/simple_functions.py, em/tdem/halfspace.py *)
(** simple_functions.py l.320-323 and 418-421: three columns, else two *)
Definition try_3_then_2 (xy : xyz_arg R) : result (nd R) :=
  match check_xyz_dim xy 3 with
  | Raise ValueError => check_xyz_dim xy 2
  | r => rmap first_two r
  end.
(** halfspace.py l.38-41, 82-85: two columns, else three *)
Definition try_2_then_3 (xy : xyz_arg R) : result (nd R) :=
  match check_xyz_dim xy 2 with
  | Raise ValueError => rmap first_two (check_xyz_dim xy 3)
  | r => r
  end.
(** simple_functions.py l.320-345 *)
Definition vmd_H_array (t : nd R) (xy : xyz_arg R) (sigma mu moment : R) : result (nd R) :=
  do xy <- try_3_then_2 xy;
  let r := norm_two (first_two xy) in
  do x <- item xy 0;
  do y <- item xy 1;
  let t := append_ndim t (ndim r) in
  do thr <- bop Rmult (amap (fun t => theta t sigma mu) t) r;
  do h_z <- bop (fun r thr => 1 / r ^ 3 * ((9 / (2 * thr ^ 2) - 1) * erf thr
                              - (9 / thr + 4 * thr) / sqrt PI * exp (- thr ^ 2))) r thr;
  do h_r <- bop (fun thr r => 2 * thr ^ 2 / r ^ 3 * (ive 1 (thr ^ 2 / 2) - ive 2 (thr ^ 2 / 2))) thr r;
  do angle <- bop atan2 y x;
  do h_x <- bop (fun a h => cos a * h) angle h_r;
  do h_y <- bop (fun a h => sin a * h) angle h_r;
  rmap (amap (fun h => moment / (4 * PI) * h)) (stack_last [h_x; h_y; h_z]).
(** simple_functions.py l.418-441 *)
Definition vmd_dH_array (t : nd R) (xy : xyz_arg R) (sigma mu moment : R) : result (nd R) :=
  do xy <- try_3_then_2 xy;
  let r := norm_two xy in
  do x <- item xy 0;
  do y <- item xy 1;
  let t := append_ndim t (ndim r) in
  do tr <- bop Rmult (amap (fun t => theta t sigma mu) t) r;
  do r3t <- bop (fun r t => r ^ 3 * t) r t;
  do dhz_dt <- bop (fun r3t tr => 1 / r3t * (9 / (2 * tr ^ 2) * erf tr
                                 - (4 * tr ^ 3 + 6 * tr + 9 / tr) / sqrt PI * exp (- tr ^ 2))) r3t tr;
  do dhr_dt <- bop (fun tr r3t => -2 * tr ^ 2 / r3t *
       ((1 + tr ^ 2) * ive 0 (tr ^ 2 / 2) - (2 + tr ^ 2 + 4 / tr ^ 2) * ive 1 (tr ^ 2 / 2))) tr r3t;
  do angle <- bop atan2 y x;
  do dhx_dt <- bop (fun a h => cos a * h) angle dhr_dt;
  do dhy_dt <- bop (fun a h => sin a * h) angle dhr_dt;
  rmap (amap (fun h => moment / (4 * PI) * h)) (stack_last [dhx_dt; dhy_dt; dhz_dt]).
(** halfspace.py l.38-46, 82-90; self.location[:2] *)
Definition tv_array (f : nd R -> xyz_arg R -> R -> R -> R -> result (nd R)) (s : tvmd) (time : nd R) (xy : xyz_arg R) : result (nd R) :=
  do xy <- try_2_then_3 xy;
  do dxy <- bop Rminus xy (first_two (vec_nd (tv_loc s)));
  f time (XyzArray dxy) (td_sigma (tv_med s)) (td_mu (tv_med s)) (tv_moment s).
Definition tv_H_array : tvmd -> nd R -> xyz_arg R -> result (nd R) := tv_array vmd_H_array.
Definition tv_dH_array : tvmd -> nd R -> xyz_arg R -> result (nd R) := tv_array vmd_dH_array.
(** halfspace.py l.64, 108 *)
Definition tv_B_array (s : tvmd) (time : nd R) (xy : xyz_arg R) : result (nd R) := rmap (amap (fun h => td_mu (tv_med s) * h)) (tv_H_array s time xy).
Definition tv_dB_array (s : tvmd) (time : nd R) (xy : xyz_arg R) : result (nd R) := rmap (amap (fun h => td_mu (tv_med s) * h)) (tv_dH_array s time xy).

(** ** em/base.py, BaseDipole: no check of the shape *)
(** np.linalg.norm(a, axis=-1) for a last axis of any length; a 0-d array is an AxisError, a
    subclass of ValueError and IndexError *)
Definition norm_any (a : nd R) : result (nd R) :=
  match shape a with
  | [] => Raise ValueError
  | _ => Ok (ND (removelast (shape a)) (fun j => sqrt (fold_right Rplus 0 (map (fun c => get a (j ++ [c]) ^ 2) (seq 0 (last (shape a) 0%nat))))))
  end.
(** l.249 *)
Definition bd_vector_distance (location : vec3) (xyz : nd R) : result (nd R) := bop Rminus xyz (vec_nd location).
(** l.274 *)
Definition bd_distance (location : vec3) (xyz : nd R) : result (nd R) := do d <- bop Rminus xyz (vec_nd location); norm_any d.
(** l.297: np.dot with an array of shape (3,): the sum over the last axis; a scalar scales *)
Definition bd_dot_orientation (orientation : vec3) (vecs : nd R) : result (nd R) :=
  match rev (shape vecs) with
  | [] => bop Rmult vecs (vec_nd orientation)
  | k :: _ => if Nat.eqb k 3 then Ok (dot_last vecs orientation) else Raise ValueError
  end.
(** l.323: np.cross with an array of shape (3,): a last axis of 2 is a vector without z; a 0-d
    argument is an AxisError *)
Definition bd_cross_orientation (orientation : vec3) (vecs : nd R) : result (nd R) :=
  match rev (shape vecs) with
  | [] => Raise ValueError
  | k :: _ =>
      if Nat.eqb k 3 then Ok (cross_r vecs orientation)
      else if Nat.eqb k 2 then
        Ok (ND (removelast (shape vecs) ++ [3%nat])
             (fun ix => component (vcross (V3 (get vecs (removelast ix ++ [0%nat])) (get vecs (removelast ix ++ [1%nat])) 0) orientation) (last ix 0%nat)))
      else Raise ValueError
  end.
