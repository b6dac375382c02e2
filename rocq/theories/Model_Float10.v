(** The magnetic flux density of a polygonal wire in binary floating point (C144).  Rounding as in Model_Float.  Arguments of the model:
    the library's norm [nrm] and dot product [dot], cosine [ct], sine [st] and arctan2 [at2], and scipy's [rot.apply] ([rapply]) and
    [rot.apply(..., inverse=True)] ([rinv]).  Simplification: no division by zero (the stations are off the lines of the segments). *)
From Coq Require Import Reals List.
From Verif Require Import Vec3 Numpy Model_Spatial Model_Static Model_Float Model_Float5 Model_Float9.
Import ListNotations.
Open Scope R_scope.

Section Lib.
  Variables (nrm : vec3 -> R) (dot : vec3 -> vec3 -> R) (rapply rinv : mat3 -> vec3 -> vec3) (ct st : R -> R) (at2 : R -> R -> R).
  (** wholespace.py l.998-1022: one pass of the loop *)
  Definition fseg_B (p0 p1 xyz : vec3) : result vec3 :=
    let l_vec := fdiff p1 p0 in
    let l := nrm l_vec in
    let l_hat := fvdiv l_vec l in
    do rot <- frotation_matrix nrm dot l_hat (V3 1 0 0) default_tol;
    let r0_vec := rapply rot (fdiff xyz p0) in
    let r1_vec := fdiff r0_vec (V3 l 0 0) in
    let r0 := nrm r0_vec in
    let r1 := nrm r1_vec in
    let r0_hat := fvdiv r0_vec r0 in
    let r1_hat := fvdiv r1_vec r1 in
    let cyl_points := fcart_to_cyl at2 (V3 (vy r0_vec) (vz r0_vec) 0) in
    let temp := V3 0 (fl (fl (vx r1_hat - vx r0_hat) / vx cyl_points)) 0 in
    let yz := fcyl_to_cart_vec ct st cyl_points temp in
    Ok (rinv rot (V3 0 (vx yz) (vy yz))).
  (** l.995-1025: [out] accumulates over the segments and is scaled at the end *)
  Fixpoint fsum_B (xyz : vec3) (segs : list (vec3 * vec3)) (out : vec3) : result vec3 :=
    match segs with
    | [] => Ok out
    | (p0, p1) :: rest => do d <- fseg_B p0 p1 xyz; fsum_B xyz rest (V3 (fl (vx out + vx d)) (fl (vy out + vy d)) (fl (vz out + vz d)))
    end.
  Definition flc_flux_density (s : lcur) (xyz : vec3) : result vec3 :=
    do out <- fsum_B xyz (segments (lc_nodes s)) vzero;
    Ok (fvscal (fl (fl (- lc_mu s * lc_current s) / fl (4 * fpi))) out).
End Lib.
