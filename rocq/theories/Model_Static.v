(** Model of geoana/em/static: wholespace.py, halfspace.py and sphere.py.
    Attribute values are exact reals / three-vectors (validation: Model_Setters.v);
    a grid of points is the list of its rows; operations without a mask act on each
    row separately and are given as functions of one point. *)
From Coq Require Import Reals List Bool String Ascii.
From Coquelicot Require Import Coquelicot.
From Verif Require Import Vec3 Numpy Model_Spatial Model_Prism.
Import ListNotations.
Open Scope R_scope.

(** ** String helpers *)
(** [str.lower] on the ASCII letters (other characters unchanged) *)
Definition lower_ascii (c : ascii) : ascii :=
  let n := nat_of_ascii c in
  if (Nat.leb 65 n && Nat.leb n 90)%bool then ascii_of_nat (n + 32) else c.
Fixpoint lower (s : string) : string :=
  match s with EmptyString => EmptyString | String c s' => String (lower_ascii c) (lower s') end.

Definition row_of (v : vec3) : list R := [vx v; vy v; vz v].

(** A point-wise Cartesian method wrapped by the [coordinates] option:
    wholespace.py l.99-105, 109-110, 118-121 (dipole A), 197-220 (dipole B),
    341-362 (pole B), 563-574, 631-634 (loop A). *)
Definition with_coordinates (f : vec3 -> result vec3) (coordinates : string) (xyz : vec3) : result vec3 :=
  if negb (String.eqb (lower coordinates) "cartesian" || String.eqb (lower coordinates) "cylindrical")%bool
  then Raise AssertionError
  else if String.eqb (lower coordinates) "cylindrical" then
    do row <- cylindrical_to_cartesian (row_of xyz);
    let xyz := as_vec3 row in
    do a <- f xyz;
    do out <- cartesian_to_cylindrical_vec (row_of xyz) (row_of a);
    Ok (as_vec3 out)
  else f xyz.

(** the loop's B: same, but an unknown name is a TypeError (wholespace.py l.703-709, 763-766) *)
Definition with_coordinates_loop (f : vec3 -> result vec3) (coordinates : string) (xyz : vec3) : result vec3 :=
  if String.eqb (lower coordinates) "cylindrical" then
    do row <- cylindrical_to_cartesian (row_of xyz);
    let xyz := as_vec3 row in
    do a <- f xyz;
    do out <- cartesian_to_cylindrical_vec (row_of xyz) (row_of a);
    Ok (as_vec3 out)
  else if negb (String.eqb (lower coordinates) "cartesian") then Raise TypeError
  else f xyz.

Definition vdiv (v : vec3) (k : R) : vec3 := V3 (vx v / k) (vy v / k) (vz v / k).

(** ** MagneticDipoleWholeSpace *)
(** attributes read by the methods: moment, orientation, location (BaseDipole,
    BaseMagneticDipole) and mu (BaseEM) *)
Record mdipole : Type := MD { md_moment : R; md_orient : vec3; md_loc : vec3; md_mu : R }.

(** wholespace.py l.112-116; [r = 0] (inf/nan in numpy) is excluded by the theorems *)
Definition md_A (s : mdipole) (xyz : vec3) : vec3 :=
  let r_vec := vsub xyz (md_loc s) in
  let r := vnorm r_vec in
  let r_hat := vdiv r_vec r in
  vscal (md_moment s * md_mu s / (4 * PI * r ^ 2)) (vcross (md_orient s) r_hat).

(** wholespace.py l.209-215 *)
Definition md_B (s : mdipole) (xyz : vec3) : vec3 :=
  let r_vec := vsub xyz (md_loc s) in
  let r := vnorm r_vec in
  let r_hat := vdiv r_vec r in
  vscal (md_moment s * md_mu s / (4 * PI * r ^ 3))
    (vsub (vscal (3 * vdot r_hat (md_orient s)) r_hat) (md_orient s)).

(** wholespace.py l.72-121 *)
Definition mdipole_vector_potential (s : mdipole) := with_coordinates (fun p => Ok (md_A s p)).
(** wholespace.py l.123-220 *)
Definition mdipole_flux_density (s : mdipole) := with_coordinates (fun p => Ok (md_B s p)).
(** wholespace.py l.294 *)
Definition mdipole_field (s : mdipole) (coordinates : string) (xyz : vec3) : result vec3 :=
  rmap (fun b => vdiv b (md_mu s)) (mdipole_flux_density s coordinates xyz).

(** ** MagneticPoleWholeSpace (same attributes) *)
(** wholespace.py l.353-357 *)
Definition mp_B (s : mdipole) (xyz : vec3) : vec3 :=
  let r_vec := vsub xyz (md_loc s) in
  let r := vnorm r_vec in
  let r_hat := vdiv r_vec r in
  vscal (md_moment s * md_mu s / (4 * PI * r ^ 2)) r_hat.
(** wholespace.py l.341-362 *)
Definition mpole_flux_density (s : mdipole) := with_coordinates (fun p => Ok (mp_B s p)).
(** wholespace.py l.400 *)
Definition mpole_field (s : mdipole) (coordinates : string) (xyz : vec3) : result vec3 :=
  rmap (fun b => vdiv b (md_mu s)) (mpole_flux_density s coordinates xyz).

(** ** CircularLoopWholeSpace *)
(** scipy.special.ellipk / ellipe with parameter m = k^2 (library semantics) *)
Definition ellipk (m : R) : R := RInt (fun t => / sqrt (1 - m * (sin t) ^ 2)) 0 (PI / 2).
Definition ellipe (m : R) : R := RInt (fun t => sqrt (1 - m * (sin t) ^ 2)) 0 (PI / 2).

Record cloop : Type := CL { cl_radius : R; cl_current : R; cl_orient : vec3; cl_loc : vec3; cl_mu : R }.

(** wholespace.py l.602 and 734: the mask, for one point *)
Definition small_rho (a rho z : R) : bool := Rltb (rho ^ 2 / (a ^ 2 + z ^ 2)) (1 / 10 ^ 6).

(** wholespace.py l.588-597, 604-612 (masked points) and 613-624 (the others): A_cyl[:, 1] *)
Definition cl_A_phi (a C rho z : R) : R :=
  let beta_sq := (a + rho) ^ 2 + z ^ 2 in
  let alpha_sq := (a - rho) ^ 2 + z ^ 2 in
  let beta := sqrt beta_sq in
  let k_sq := 1 - alpha_sq / beta_sq in
  let ek := ellipe k_sq in
  let kk := ellipk k_sq in
  if small_rho a rho z then
    let temp := sqrt (a ^ 2 + z ^ 2) in
    PI * C * (rho * a ^ 2 / (4 * temp ^ 3)
              + rho ^ 3 * 3 * a ^ 2 / (a ^ 2 - 4 * z ^ 2) / (32 * sqrt (a ^ 2 + z ^ 2) ^ 7))
  else C / (2 * rho * beta) * ((a ^ 2 + rho ^ 2 + z ^ 2) * kk - beta_sq * ek).

(** wholespace.py l.723-740 and 755-757: B_cyl[:, 0] *)
Definition cl_B_rho (a C rho z : R) : R :=
  let alpha_sq := (a - rho) ^ 2 + z ^ 2 in
  let beta_sq := (a + rho) ^ 2 + z ^ 2 in
  let beta := sqrt beta_sq in
  let k_sq := 1 - alpha_sq / beta_sq in
  let ek := ellipe k_sq in
  let kk := ellipk k_sq in
  if small_rho a rho z then
    let temp := sqrt (a ^ 2 + z ^ 2) in
    3 * C * PI * a ^ 2 * z * (rho / (4 * temp ^ 5) + rho ^ 3 * (15 * a ^ 2 - 20 * z ^ 2) / (32 * temp ^ 9))
  else C * z / (2 * alpha_sq * beta * rho) * ((a ^ 2 + rho ^ 2 + z ^ 2) * ek - alpha_sq * kk).

(** wholespace.py l.744-746: B_cyl[:, 2] (every point) *)
Definition cl_B_z (a C rho z : R) : R :=
  let alpha_sq := (a - rho) ^ 2 + z ^ 2 in
  let beta_sq := (a + rho) ^ 2 + z ^ 2 in
  let beta := sqrt beta_sq in
  let k_sq := 1 - alpha_sq / beta_sq in
  let ek := ellipe k_sq in
  let kk := ellipk k_sq in
  C / (2 * alpha_sq * beta) * ((a ^ 2 - rho ^ 2 - z ^ 2) * ek + alpha_sq * kk).

(** wholespace.py l.576-587, 626-629 (A) and 711-721, 759-761 (B): rotate into the
    loop's frame, evaluate the cylindrical components, rotate back.
    [rot.apply(v, inverse=True)] is the transposed matrix. *)
Definition cl_in_frame (cyl_components : R -> R -> vec3) (s : cloop) (xyz : vec3) : result vec3 :=
  do rot <- rotation_matrix_v (cl_orient s) (V3 0 0 1) default_tol;
  let r_vec := mvec rot (vsub xyz (cl_loc s)) in
  do r_cyl <- cartesian_to_cylindrical (row_of r_vec);
  let comp := cyl_components (nth 0 r_cyl 0) (nth 2 r_cyl 0) in
  do v <- cylindrical_to_cartesian_vec r_cyl (row_of comp);
  Ok (mvec (mtrans rot) (as_vec3 v)).

Definition cl_A (s : cloop) (xyz : vec3) : result vec3 :=
  cl_in_frame (fun rho z => V3 0 (cl_A_phi (cl_radius s) (cl_mu s * cl_current s / PI) rho z) 0) s xyz.
Definition cl_B (s : cloop) (xyz : vec3) : result vec3 :=
  cl_in_frame (fun rho z => V3 (cl_B_rho (cl_radius s) (cl_mu s * cl_current s / PI) rho z) 0
                               (cl_B_z (cl_radius s) (cl_mu s * cl_current s / PI) rho z)) s xyz.

(** wholespace.py l.472-634 *)
Definition loop_vector_potential (s : cloop) := with_coordinates (cl_A s).
(** wholespace.py l.636-766 *)
Definition loop_flux_density (s : cloop) := with_coordinates_loop (cl_B s).
(** wholespace.py l.832 *)
Definition loop_field (s : cloop) (coordinates : string) (xyz : vec3) : result vec3 :=
  rmap (fun b => vdiv b (cl_mu s)) (loop_flux_density s coordinates xyz).

(** ** LineCurrentWholeSpace *)
(** nodes (at least one, BaseLineCurrent), current, sigma and mu *)
Record lcur : Type := LC { lc_nodes : list vec3; lc_current : R; lc_sigma : R; lc_mu : R }.

Definition first_node (s : lcur) : vec3 := hd vzero (lc_nodes s).
Definition last_node (s : lcur) : vec3 := last (lc_nodes s) vzero.
(** base.py n_segments = nodes.shape[0] - 1 *)
Definition n_segments (s : lcur) : nat := Nat.pred (List.length (lc_nodes s)).
(** [zip(nodes[:-1], nodes[1:])] *)
Definition segments (nodes : list vec3) : list (vec3 * vec3) := combine (removelast nodes) (tl nodes).
(** [np.all(a == b)] *)
Definition vall_eq (a b : vec3) : bool := (Reqb (vx a) (vx b) && Reqb (vy a) (vy b) && Reqb (vz a) (vz b))%bool.

(** wholespace.py l.843-856 *)
Definition lc_scalar_potential (s : lcur) (xyz : vec3) : R :=
  if Nat.eqb (n_segments s) 0 then
    let r := vnorm (vsub xyz (first_node s)) in
    lc_current s / (4 * PI * lc_sigma s * r)
  else if vall_eq (last_node s) (first_node s) then 0
  else
    let r_A := vnorm (vsub xyz (last_node s)) in
    let r_B := vnorm (vsub xyz (first_node s)) in
    lc_current s / (4 * PI * lc_sigma s) * (1 / r_A - 1 / r_B).

(** wholespace.py l.1044-1059 *)
Definition lc_electric_field (s : lcur) (xyz : vec3) : vec3 :=
  if Nat.eqb (n_segments s) 0 then
    let r_vec := vsub xyz (first_node s) in
    let r := vnorm r_vec in
    vscal (lc_current s / (4 * PI * lc_sigma s)) (vdiv r_vec (r ^ 3))
  else if vall_eq (last_node s) (first_node s) then vzero
  else
    let r_vec_A := vsub xyz (last_node s) in
    let r_vec_B := vsub xyz (first_node s) in
    let r_A := vnorm r_vec_A in
    let r_B := vnorm r_vec_B in
    vscal (lc_current s / (4 * PI * lc_sigma s)) (vsub (vdiv r_vec_A (r_A ^ 3)) (vdiv r_vec_B (r_B ^ 3))).

(** wholespace.py l.1078 *)
Definition lc_current_density (s : lcur) (xyz : vec3) : vec3 := vscal (lc_sigma s) (lc_electric_field s xyz).

(** wholespace.py l.865-885: one pass of the loop (the contribution of one segment) *)
Definition seg_A (p0 p1 xyz : vec3) : result vec3 :=
  let l_vec := vsub p1 p0 in
  let l := vnorm l_vec in
  let l_hat := vdiv l_vec l in
  do rot <- rotation_matrix_v l_hat (V3 1 0 0) default_tol;
  let r0_vec := mvec rot (vsub xyz p0) in
  let r1_vec := vsub r0_vec (V3 l 0 0) in
  let v0_x := - prism_fzy (vx r0_vec) (vy r0_vec) (vz r0_vec) in
  let v1_x := - prism_fzy (vx r1_vec) (vy r1_vec) (vz r1_vec) in
  Ok (mvec (mtrans rot) (V3 (v1_x - v0_x) 0 0)).

(** wholespace.py l.862-892: [out] accumulates over the segments *)
Fixpoint sum_segments (f : vec3 -> vec3 -> result vec3) (segs : list (vec3 * vec3)) (out : vec3) : result vec3 :=
  match segs with
  | [] => Ok out
  | (p0, p1) :: rest => do d <- f p0 p1; sum_segments f rest (vadd out d)
  end.
Definition lc_vector_potential (s : lcur) (xyz : vec3) : result vec3 :=
  do out <- sum_segments (fun p0 p1 => seg_A p0 p1 xyz) (segments (lc_nodes s)) vzero;
  Ok (vscal (- lc_mu s * lc_current s / (4 * PI)) out).

(** a floating point quotient: [None] stands for the nan/inf numpy returns (with a
    warning) when the divisor is zero *)
Definition fdiv (a b : R) : option R := if Req_EM_T b 0 then None else Some (a / b).
Definition obind {A B} (o : option A) (f : A -> option B) : option B := match o with Some a => f a | None => None end.
Notation "'odo' x <- r ; k" := (obind r (fun x => k)) (at level 200, x name, r at level 100, k at level 200).

(** wholespace.py l.998-1022: one pass of the loop.  [Ok None]: the returned array
    holds a nan/inf.  l.1018-1019: the cylindrical vector passed is
    (temp[...,0], temp[...,1]) with temp[...,0] = 0. *)
Definition seg_B (p0 p1 xyz : vec3) : result (option vec3) :=
  let l_vec := vsub p1 p0 in
  let l := vnorm l_vec in
  let l_hat := vdiv l_vec l in
  do rot <- rotation_matrix_v l_hat (V3 1 0 0) default_tol;
  let r0_vec := mvec rot (vsub xyz p0) in
  let r1_vec := vsub r0_vec (V3 l 0 0) in
  let r0 := vnorm r0_vec in
  let r1 := vnorm r1_vec in
  do cyl_points <- cartesian_to_cylindrical [vy r0_vec; vz r0_vec];
  let t1 := odo r0_hat_x <- fdiv (vx r0_vec) r0;
            odo r1_hat_x <- fdiv (vx r1_vec) r1;
            fdiv (r1_hat_x - r0_hat_x) (nth 0 cyl_points 0) in
  match t1 with
  | None => Ok None
  | Some t1 =>
      do yz <- cylindrical_to_cartesian_vec cyl_points [0; t1; 0];
      Ok (Some (mvec (mtrans rot) (V3 0 (nth 0 yz 0) (nth 1 yz 0))))
  end.

(** wholespace.py l.993-1025: nan + anything = nan *)
Fixpoint sum_segments_B (xyz : vec3) (segs : list (vec3 * vec3)) (out : option vec3) : result (option vec3) :=
  match segs with
  | [] => Ok out
  | (p0, p1) :: rest =>
      do d <- seg_B p0 p1 xyz;
      sum_segments_B xyz rest (odo o <- out; odo d <- d; Some (vadd o d))
  end.
Definition lc_flux_density (s : lcur) (xyz : vec3) : result (option vec3) :=
  do out <- sum_segments_B xyz (segments (lc_nodes s)) (Some vzero);
  Ok (odo o <- out; Some (vscal (- lc_mu s * lc_current s / (4 * PI)) o)).

(** wholespace.py l.942 *)
Definition lc_magnetic_field (s : lcur) (xyz : vec3) : result (option vec3) :=
  rmap (option_map (fun b => vdiv b (lc_mu s))) (lc_flux_density s xyz).

(** ** PointCurrentWholeSpace: one node, sigma = 1/rho (wholespace.py l.1100);
    mu is the BaseEM default and is not used *)
Definition point_current (rho current : R) (location : vec3) : lcur :=
  LC [location] current (1 / rho) 0.
(** wholespace.py l.1184, 1244, 1303 *)
Definition pc_potential (s : lcur) (xyz : vec3) : R := lc_scalar_potential s xyz.
Definition pc_electric_field (s : lcur) (xyz : vec3) : vec3 := lc_electric_field s xyz.
Definition pc_current_density (s : lcur) (xyz : vec3) : vec3 := lc_current_density s xyz.

(** ** PointCurrentHalfSpace: halfspace.py l.29-40, 61-63, 87-89, 120-125.
    Record of the facade; its two whole-space sources follow (that they stay in
    sync through any history is proved over Model_Setters.v). *)
Record hsp : Type := HS { hs_rho : R; hs_current : R; hs_loc : vec3 }.
Definition mirror (v : vec3) : vec3 := V3 (vx v) (vy v) (vz v * -1).
Definition hs_primary (s : hsp) : lcur := point_current (hs_rho s) (hs_current s) (hs_loc s).
Definition hs_image (s : hsp) : lcur := point_current (hs_rho s) (hs_current s) (mirror (hs_loc s)).

(** halfspace.py l.186: [np.any(xyz[..., -1] > 0)] *)
Definition any_above (pts : list vec3) : bool := existsb (fun p => Rltb 0 (vz p)) pts.

Definition hs_V (s : hsp) (p : vec3) : R := pc_potential (hs_primary s) p + pc_potential (hs_image s) p.
Definition hs_E (s : hsp) (p : vec3) : vec3 := vadd (pc_electric_field (hs_primary s) p) (pc_electric_field (hs_image s) p).

(** halfspace.py l.185-192 *)
Definition hs_potential (s : hsp) (xyz : list vec3) : result (list R) :=
  if any_above xyz then Raise ValueError else Ok (map (hs_V s) xyz).
(** halfspace.py l.253-260 *)
Definition hs_electric_field (s : hsp) (xyz : list vec3) : result (list vec3) :=
  if any_above xyz then Raise ValueError else Ok (map (hs_E s) xyz).
(** halfspace.py l.320 *)
Definition hs_current_density (s : hsp) (xyz : list vec3) : result (list vec3) :=
  rmap (map (fun e => vdiv e (hs_rho s))) (hs_electric_field s xyz).

(** ** DipoleHalfSpace *)
Record dhsp : Type := DHS { dh_rho : R; dh_current : R; dh_a : vec3; dh_b : vec3 }.
Definition dh_sa (s : dhsp) : hsp := HS (dh_rho s) (dh_current s) (dh_a s).
Definition dh_sb (s : dhsp) : hsp := HS (dh_rho s) (dh_current s) (dh_b s).

(** numpy elementwise difference of two arrays of the same length *)
Definition zip_sub (u v : list R) : list R := map (fun ab => fst ab - snd ab) (combine u v).
Definition zip_vsub (u v : list vec3) : list vec3 := map (fun ab => vsub (fst ab) (snd ab)) (combine u v).

(** halfspace.py l.537-557; [xyz_n] has as many points as [xyz_m] (for the
    broadcasting of other shapes see Model_Arrays2.v) *)
Definition dh_potential (s : dhsp) (xyz_m : list vec3) (xyz_n : option (list vec3)) : result (list R) :=
  if any_above xyz_m then Raise ValueError
  else if match xyz_n with Some n => any_above n | None => false end then Raise ValueError
  else
    do va <- hs_potential (dh_sa s) xyz_m;
    do vb <- hs_potential (dh_sb s) xyz_m;
    let vm := zip_sub va vb in
    match xyz_n with
    | Some n =>
        do va <- hs_potential (dh_sa s) n;
        do vb <- hs_potential (dh_sb s) n;
        let vn := zip_sub va vb in
        Ok (zip_sub vm vn)
    | None => Ok vm
    end.

(** halfspace.py l.643-663 *)
Definition dh_electric_field (s : dhsp) (xyz_m : list vec3) (xyz_n : option (list vec3)) : result (list vec3) :=
  if any_above xyz_m then Raise ValueError
  else if match xyz_n with Some n => any_above n | None => false end then Raise ValueError
  else
    do ea <- hs_electric_field (dh_sa s) xyz_m;
    do eb <- hs_electric_field (dh_sb s) xyz_m;
    let em := zip_vsub ea eb in
    match xyz_n with
    | Some n =>
        do ea <- hs_electric_field (dh_sa s) n;
        do eb <- hs_electric_field (dh_sb s) n;
        let en := zip_vsub ea eb in
        Ok (zip_vsub em en)
    | None => Ok em
    end.

(** halfspace.py l.748 *)
Definition dh_current_density (s : dhsp) (xyz_m : list vec3) (xyz_n : option (list vec3)) : result (list vec3) :=
  rmap (map (fun e => vdiv e (dh_rho s))) (dh_electric_field s xyz_m xyz_n).

(** ** ElectrostaticSphere and MagnetostaticSphere.
    sphere.py l.149-359 and l.660-857 are the same text with sigma/E renamed to mu/H, so
    one definition models both.  [sp_c0] is the background and [sp_c1] the sphere
    conductivity (permeability), [sp_F0] the primary field. *)
Record sph : Type := SP { sp_radius : R; sp_c1 : R; sp_c0 : R; sp_F0 : vec3; sp_loc : vec3 }.

(** sphere.py l.227 / l.726 *)
Definition sp_cur (s : sph) : R := (sp_c1 s - sp_c0 s) / (sp_c1 s + 2 * sp_c0 s).

Inductive fields (A : Type) : Type := One (a : list A) | Three (t p s : list A).
Arguments One {A} a.
Arguments Three {A} t p s.

(** the [field] dispatch, sphere.py l.240-255, 343-359, 433-446, 739-754, 843-857, 936-949 *)
Definition dispatch {A} (sub : A -> A -> A) (field : string) (vt vp : list A) : fields A :=
  if String.eqb field "total" then One vt
  else if String.eqb field "primary" then One vp
  else
    let vs := map (fun ab => sub (fst ab) (snd ab)) (combine vt vp) in
    if String.eqb field "secondary" then One vs else Three vt vp vs.

(** sphere.py l.223-238 / l.722-737: the total potential with the mask [r > radius] *)
Definition sp_total_potential (s : sph) (xyz : list vec3) : result (list R) :=
  let r_vec := map (fun p => vsub p (sp_loc s)) xyz in
  let r := map vnorm r_vec in
  let Vt := map (fun _ => 0) xyz in
  let ind0 := map (fun r => Rltb (sp_radius s) r) r in
  do Vt <- mask_assign ind0 Vt
    (map (fun v => vdot v (vopp (sp_F0 s)) * (1 - sp_cur s * sp_radius s ^ 3 / vnorm v ^ 3)) (mask_select ind0 r_vec));
  mask_assign (map negb ind0) Vt
    (map (fun v => vdot v (vopp (sp_F0 s)) * 3 * sp_c0 s / (sp_c1 s + 2 * sp_c0 s)) (mask_select (map negb ind0) r_vec)).

(** sphere.py l.246 / l.745 *)
Definition sp_primary_potential (s : sph) (xyz : list vec3) : list R :=
  map (fun p => vdot (vsub p (sp_loc s)) (vopp (sp_F0 s))) xyz.

(** sphere.py l.149-255 / l.660-754 *)
Definition sphere_potential (s : sph) (xyz : list vec3) (field : string) : result (fields R) :=
  do vt <- sp_total_potential s xyz;
  Ok (dispatch Rminus field vt (sp_primary_potential s xyz)).

(** sphere.py l.325-341 / l.825-841, as written: [radius * r_vec / r**4] *)
Definition sp_total_field (s : sph) (xyz : list vec3) : result (list vec3) :=
  let r_vec := map (fun p => vsub p (sp_loc s)) xyz in
  let r := map vnorm r_vec in
  let Et := map (fun _ => vzero) xyz in
  let ind0 := map (fun r => Rltb (sp_radius s) r) r in
  do Et <- mask_assign ind0 Et
    (map (fun v => let r := vnorm v in
            vadd (vscal (1 - sp_cur s * sp_radius s ^ 3 / r ^ 3) (sp_F0 s))
                 (vdiv (vscal (3 * vdot v (sp_F0 s) * sp_cur s * sp_radius s) v) (r ^ 4)))
         (mask_select ind0 r_vec));
  mask_fill (map negb ind0) Et (vscal (3 * sp_c0 s / (sp_c1 s + 2 * sp_c0 s)) (sp_F0 s)).

(** sphere.py l.349-350 / l.847-848 *)
Definition sp_primary_field (s : sph) (xyz : list vec3) : list vec3 := map (fun _ => vadd vzero (sp_F0 s)) xyz.

(** sphere.py l.257-359 / l.756-857 *)
Definition sphere_field (s : sph) (xyz : list vec3) (field : string) : result (fields vec3) :=
  do et <- sp_total_field s xyz;
  Ok (dispatch vsub field et (sp_primary_field s xyz)).

(** sphere.py l.425-446 (current_density = sigma E) / l.928-949 (B = mu H) *)
Definition sphere_flux (s : sph) (xyz : list vec3) (field : string) : result (fields vec3) :=
  let r := map (fun p => vnorm (vsub p (sp_loc s))) xyz in
  do sigma <- mask_fill (map (fun r => Rleb r (sp_radius s)) r) (map (fun _ => sp_c0 s) r) (sp_c1 s);
  do et <- sp_total_field s xyz;
  let jt := map (fun ab => vscal (fst ab) (snd ab)) (combine sigma et) in
  let jp := map (fun e => vscal (sp_c0 s) e) (sp_primary_field s xyz) in
  Ok (dispatch vsub field jt jp).

(** scipy.constants.epsilon_0 is a positive constant, passed as [eps0].
    sphere.py l.500-517; [dr = None] is l.509-510 *)
Definition charge_density (eps0 : R) (s : sph) (xyz : list vec3) (dr : option R) : result (list R) :=
  let r_vec := map (fun p => vsub p (sp_loc s)) xyz in
  let r := map vnorm r_vec in
  let dr := match dr with None => 5 / 100 * sp_radius s | Some d => d end in
  let ind := map (fun r => (Rltb r (sp_radius s + 1 / 2 * dr) && Rltb (sp_radius s - 1 / 2 * dr) r)%bool) r in
  mask_assign ind (map (fun _ => 0) r)
    (map (fun v => eps0 * 3 * vdot v (sp_F0 s) * sp_cur s / vnorm v) (mask_select ind r_vec)).
