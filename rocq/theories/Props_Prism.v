(** Properties C15-C17, C23, C27-C30 (gravity prism, geoana/gravity.py, geoana/shapes.py,
    geoana/kernels) and C55-C56 (MagneticPrism, geoana/em/static/freespace.py). *)
From Coq Require Import Reals Lra List Bool.
From Coquelicot Require Import Coquelicot.
From Verif Require Import Vec3 Numpy Calculus Deriv Integral Model_Prism Spec_Prism Proof_Prism Proof_Prism2 Proof_Prism3 Proof_Prism4.
Import ListNotations.
Open Scope R_scope.

(** the prism and observation points used in the witnesses *)
Definition box0 : box := Box (V3 0 0 0) (V3 1 2 3).
Example box0_ordered : ordered box0.
Proof. unfold ordered; cbn; lra. Qed.
Example box0_inside : inside box0 (V3 (1/2) 1 1) /\ off_faces box0 (V3 (1/2) 1 1).
Proof. unfold inside, off_faces; cbn; repeat split; lra. Qed.
Example box0_outside : outside box0 (V3 5 1 (-1)) /\ off_faces box0 (V3 5 1 (-1)).
Proof. unfold outside, off_faces; cbn; repeat split; lra. Qed.
(** outside, in the plane of two faces and on the extension of an edge *)
Example box0_outside_edge : outside box0 (V3 0 0 7).
Proof. unfold outside; cbn; lra. Qed.

(** ** C15 *)
(** the sum over the eight corners, with sign + for an odd number of max corners *)
Theorem C15_alternating_corner_sum :
  forall (b : box) (f : R -> R -> R -> R) (p : vec3),
  eval_def_int b f p 0 =
  let X s := if s : bool then vx (b_max b) - vx p else vx (b_min b) - vx p in
  let Y s := if s : bool then vy (b_max b) - vy p else vy (b_min b) - vy p in
  let Z s := if s : bool then vz (b_max b) - vz p else vz (b_min b) - vz p in
  let term i j k := (if xorb i (xorb j k) then 1 else -1) * f (X i) (Y j) (Z k) in
  term true true true + term true true false + term true false true + term true false false +
  term false true true + term false true false + term false false true + term false false false.
Proof. exact corner_sum_alternating. Qed.

Theorem C15_additive_under_cut :
  forall (b l r : box) (f : R -> R -> R -> R) (p : vec3) (cycle : nat),
    cut_into b l r -> eval_def_int b f p cycle = eval_def_int l f p cycle + eval_def_int r f p cycle.
Proof. exact (fun b l r f p n => eval_cut b l r f p n). Qed.

Theorem C15_vanishes_unless_all_three_variables :
  forall (b : box) (f : R -> R -> R -> R) (p : vec3) (cycle : nat),
  (exists h : R -> R -> R, (forall x y z, f x y z = h x y) \/ (forall x y z, f x y z = h y z) \/ (forall x y z, f x y z = h x z)) ->
  eval_def_int b f p cycle = 0.
Proof. exact corner_sum_vanishes. Qed.

Theorem C15_is_triple_integral_of_mixed_derivative :
  forall (b : box) (p : vec3) (f fx fxy fxyz : R -> R -> R -> R), ordered b ->
  (forall x y z, vx (b_min b) <= x <= vx (b_max b) -> vy (b_min b) <= y <= vy (b_max b) -> vz (b_min b) <= z <= vz (b_max b) ->
     let u := x - vx p in let v := y - vy p in let w := z - vz p in
     is_derive (fun t => f t v w) u (fx u v w) /\ is_derive (fun t => fx u t w) v (fxy u v w) /\
     is_derive (fun t => fxy u v t) w (fxyz u v w) /\
     continuous (fun t => fx t v w) u /\ continuous (fun t => fxy u t w) v /\ continuous (fun t => fxyz u v t) w) ->
  is_triple_integral (fun x y z => fxyz (x - vx p) (y - vy p) (z - vz p))
    (vx (b_min b)) (vx (b_max b)) (vy (b_min b)) (vy (b_max b)) (vz (b_min b)) (vz (b_max b))
    (eval_def_int b f p 0).
Proof. exact corner_sum_integral. Qed.

(** the triple integral is unique, so the previous theorem determines the corner sum *)
Theorem C15_triple_integral_unique :
  forall f a1 a2 b1 b2 c1 c2 I J, a1 <= a2 -> b1 <= b2 -> c1 <= c2 ->
  is_triple_integral f a1 a2 b1 b2 c1 c2 I -> is_triple_integral f a1 a2 b1 b2 c1 c2 J -> I = J.
Proof. exact is_triple_unique. Qed.

Theorem C15_cycle_rotates_axes :
  forall (b : box) (f : R -> R -> R -> R) (p : vec3),
  eval_def_int b f p 1 = eval_def_int b (fun x y z => f y z x) p 0 /\
  eval_def_int b f p 2 = eval_def_int b (fun x y z => f z x y) p 0.
Proof. exact corner_sum_cycle. Qed.

(** a polynomial kernel meets the hypotheses: f = x y z has corner sum = volume *)
Example C15_witness : eval_def_int box0 (fun x y z => x * y * z) (V3 4 (-1) 2) 0 = 6.
Proof. unfold eval_def_int; cbn. ring. Qed.
Example C15_witness_hyp : forall u v w : R,
     is_derive (fun t => t * v * w) u (v * w) /\ is_derive (fun t => t * w) v w /\
     is_derive (fun t => t) w 1 /\
     continuous (fun t : R => v * w) u /\ continuous (fun t : R => w) v /\ continuous (fun t : R => 1) w.
Proof.
  intros u v w. repeat match goal with |- _ /\ _ => refine (conj _ _) end.
  - eapply is_derive_eq; [der|ring].
  - eapply is_derive_eq; [der|ring].
  - apply D_id.
  - apply continuous_const.
  - apply continuous_const.
  - apply continuous_const.
Qed.
Example C15_witness_cut : cut_into box0 (Box (V3 0 0 0) (V3 1 (1/2) 3)) (Box (V3 0 (1/2) 0) (V3 1 2 3)).
Proof. apply cut_y. Qed.

(** ** C16 *)
(** FINDING: the documented relation [prism_fz = - d prism_f / dz] is false as it
    stands (at (1,1,1), for example) ... *)
Theorem C16_kernel_is_exact_derivative_refuted :
  exists x y z, off_planes x y z /\ ~ is_derive (fun t => prism_f x y t) z (- prism_fz x y z).
Proof. exact kernel_f_z_off. Qed.

(** ... it holds up to terms that depend on two coordinates only, and these
    cancel in every corner sum by [C15_vanishes_unless_all_three_variables] *)
Theorem C16_potential_kernel_derivative :
  forall x y z, off_planes x y z ->
  is_derive (fun t => prism_f x y t) z (- (prism_fz x y z + z * z * x / (z * z + x * x) + z * z * y / (z * z + y * y))).
Proof. exact kernel_f_z. Qed.

Theorem C16_field_kernel_derivatives :
  forall x y z, off_planes x y z ->
  is_derive (fun t => prism_fz x y t) z (- (prism_fzz x y z - (z * x / (z * z + x * x) + z * y / (z * z + y * y)))) /\
  is_derive (fun t => prism_fz t y z) x (- (prism_fzx x y z - x * x / (z * z + x * x))) /\
  is_derive (fun t => prism_fz x t z) y (- (prism_fzy x y z - y * y / (z * z + y * y))).
Proof. intros x y z N. exact (conj (kernel_fz_z x y z N) (conj (kernel_fz_x x y z N) (kernel_fz_y x y z N))). Qed.

(** the third derivative kernels are exact; [prism_fzz y z x] is the xx kernel *)
Theorem C16_third_derivative_kernels :
  forall x y z, off_planes x y z ->
  is_derive (fun t => prism_fzz x y t) z (- prism_fzzz x y z) /\
  is_derive (fun t => prism_fzz t z x) y (- prism_fxxy x y z) /\
  is_derive (fun t => prism_fzz y t x) z (- prism_fxxz x y z) /\
  is_derive (fun t => prism_fzx x t z) y (- prism_fxyz x y z) /\
  is_derive (fun t => prism_fzy t y z) x (- prism_fxyz x y z).
Proof.
  intros x y z N. exact (conj (kernel_fzz_z x y z N) (conj (kernel_fxx_y x y z N) (conj (kernel_fxx_z x y z N)
    (conj (kernel_fzx_y x y z N) (kernel_fzy_x x y z N))))).
Qed.

Theorem C16_potential_kernel_symmetric :
  forall x y z, prism_f x y z = prism_f y x z /\ prism_f x y z = prism_f y z x.
Proof. exact kernel_f_sym. Qed.

Theorem C16_mixed_third_derivative_is_inverse_distance :
  exists fx fxy : R -> R -> R -> R, forall x y z, off_planes x y z ->
  is_derive (fun t => prism_f t y z) x (fx x y z) /\ is_derive (fun t => fx x t z) y (fxy x y z) /\
  is_derive (fun t => fxy x y t) z (- prism_fxyz x y z) /\ prism_fxyz x y z = 1 / sqrt (x ^ 2 + y ^ 2 + z ^ 2).
Proof. exact kernel_f_xyz. Qed.

Example C16_witness : off_planes (-1) 2 (-3).
Proof. repeat split; lra. Qed.

(** ** C17: the numpy fallback, on any array of points (also on the coordinate
    planes, on the axes and at the origin), returns entrywise what the compiled
    kernel returns *)
Theorem C17_compiled_and_python_kernels_agree :
  forall pts : list vec3,
  let on (k : R -> R -> R -> R) := Ok (map (fun p => k (vx p) (vy p) (vz p)) pts) in
  np_prism_f pts = on prism_f /\ np_prism_fz pts = on prism_fz /\ np_prism_fzz pts = on prism_fzz /\
  np_prism_fzx pts = on prism_fzx /\ np_prism_fzy pts = on prism_fzy /\ np_prism_fzzz pts = on prism_fzzz /\
  np_prism_fxxy pts = on prism_fxxy /\ np_prism_fxxz pts = on prism_fxxz /\ np_prism_fxyz pts = on prism_fxyz.
Proof.
  intro pts. exact (conj (np_f_agrees pts) (conj (np_fz_agrees pts) (conj (np_fzz_agrees pts) (conj (np_fzx_agrees pts)
   (conj (np_fzy_agrees pts) (conj (np_fzzz_agrees pts) (conj (np_fxxy_agrees pts) (conj (np_fxxz_agrees pts) (np_fxyz_agrees pts))))))))).
Qed.

(** ** C23: on the backward extension of an edge the special value gives the
    limit of the regular corner difference *)
Theorem C23_edge_value_is_limit :
  forall y1 y2 e : R, y1 < 0 -> y2 < 0 -> 0 < e ->
  exists d, 0 < d /\ forall x z, Rabs x < d -> Rabs z < d -> x <> 0 \/ z <> 0 ->
  Rabs ((prism_fzx x y2 z - prism_fzx x y1 z) - (prism_fzx 0 y2 0 - prism_fzx 0 y1 0)) < e /\
  prism_fzx x y2 z - prism_fzx x y1 z = - ln (y2 + sqrt (x * x + y2 * y2 + z * z)) + ln (y1 + sqrt (x * x + y1 * y1 + z * z)).
Proof.
  intros y1 y2 e H1 H2 He. destruct (fzx_edge_limit y1 y2 e H1 H2 He) as [d [D K]]. exists d. split; [exact D|].
  intros x z Hx Hz N. split; [apply K; assumption|]. apply fzx_regular, N.
Qed.
Theorem C23_edge_value_is_limit_zy :
  forall x1 x2 e : R, x1 < 0 -> x2 < 0 -> 0 < e ->
  exists d, 0 < d /\ forall y z, Rabs y < d -> Rabs z < d -> y <> 0 \/ z <> 0 ->
  Rabs ((prism_fzy x2 y z - prism_fzy x1 y z) - (prism_fzy x2 0 0 - prism_fzy x1 0 0)) < e.
Proof. exact fzy_edge_limit. Qed.
Example C23_witness : prism_fzx 0 (-1) 0 - prism_fzx 0 (-2) 0 = ln 2 - ln 4.
Proof. rewrite !fzx_edge by lra. f_equal; [|f_equal]; f_equal; lra. Qed.

(** ** C27 *)
Theorem C27_potential_is_volume_integral :
  forall (G : R) (b : box) (rho : R) (p : vec3), ordered b -> outside b p ->
  exists I, is_triple_integral (fun x y z => 1 / vnorm (vsub p (V3 x y z)))
    (vx (b_min b)) (vx (b_max b)) (vy (b_min b)) (vy (b_max b)) (vz (b_min b)) (vz (b_max b)) I /\
  gravitational_potential G b rho p = G * rho * I.
Proof. exact prism_newton. Qed.

(** ** C28 *)
Theorem C28_field_is_gradient :
  forall (G : R) (b : box) (rho : R) (p : vec3), off_faces b p ->
  is_grad (gravitational_potential G b rho) p (gravitational_field G b rho p).
Proof. exact grav_field_grad. Qed.
Theorem C28_gradient_is_symmetric_jacobian :
  forall (G : R) (b : box) (rho : R) (p : vec3), off_faces b p ->
  is_jac (gravitational_field G b rho) p (gravitational_gradient G b rho p) /\ msym (gravitational_gradient G b rho p).
Proof. intros G b rho p H. exact (conj (grav_gradient_jac G b rho p H) (grav_gradient_sym G b rho p)). Qed.

(** ** C29 *)
Theorem C29_poisson :
  forall (G : R) (b : box) (rho : R) (p : vec3),
  (inside b p -> mtrace (gravitational_gradient G b rho p) = - (4 * PI * G * rho)) /\
  (ordered b -> off_faces b p -> outside b p -> mtrace (gravitational_gradient G b rho p) = 0).
Proof. intros G b rho p. exact (conj (grav_trace_inside G b rho p) (grav_trace_outside G b rho p)). Qed.

(** ** C30 *)
Theorem C30_cut_additivity :
  forall (G : R) (b l r : box) (rho : R) (p : vec3), cut_into b l r ->
  gravitational_potential G b rho p = gravitational_potential G l rho p + gravitational_potential G r rho p /\
  gravitational_field G b rho p = vadd (gravitational_field G l rho p) (gravitational_field G r rho p) /\
  gravitational_gradient G b rho p = madd (gravitational_gradient G l rho p) (gravitational_gradient G r rho p) /\
  prism_mass b rho = prism_mass l rho + prism_mass r rho.
Proof. exact grav_cut. Qed.
Theorem C30_linear_in_density :
  forall (G : R) (b : box) (k1 k2 rho1 rho2 : R) (p : vec3),
  gravitational_potential G b (k1 * rho1 + k2 * rho2) p = k1 * gravitational_potential G b rho1 p + k2 * gravitational_potential G b rho2 p /\
  gravitational_field G b (k1 * rho1 + k2 * rho2) p = vadd (vscal k1 (gravitational_field G b rho1 p)) (vscal k2 (gravitational_field G b rho2 p)) /\
  gravitational_gradient G b (k1 * rho1 + k2 * rho2) p = madd (mscal k1 (gravitational_gradient G b rho1 p)) (mscal k2 (gravitational_gradient G b rho2 p)) /\
  prism_mass b (k1 * rho1 + k2 * rho2) = k1 * prism_mass b rho1 + k2 * prism_mass b rho2.
Proof. exact grav_linear. Qed.
(** mass is density times the product of the edge lengths *)
Theorem C30_mass :
  forall x0 y0 z0 dx dy dz rho, prism_mass (Box (V3 x0 y0 z0) (V3 (x0 + dx) (y0 + dy) (z0 + dz))) rho = rho * (dx * dy * dz).
Proof. intros. unfold prism_mass, volume. cbn. ring. Qed.

(** ** C55 *)
Theorem C55_field_is_gradient_of_scalar_potential :
  forall (b : box) (m p : vec3), off_faces b p -> is_grad (scalar_potential b m) p (magnetic_field b m p).
Proof. exact mag_H_is_grad. Qed.
Theorem C55_gradient_is_jacobian :
  forall (b : box) (m p : vec3), off_faces b p ->
  is_jac (magnetic_field b m) p (magnetic_field_gradient b m p) /\ msym (magnetic_field_gradient b m p) /\
  is_curl (magnetic_field b m) p vzero.
Proof. intros b m p H. exact (conj (mag_grad_jac b m p H) (conj (mag_grad_sym b m p) (mag_curl b m p H))). Qed.

(** ** C56 *)
Theorem C56_flux_density_definition :
  forall (mu0 : R) (b : box) (m : vec3) (pts : list vec3),
  exists B : vec3 -> vec3, magnetic_flux_density mu0 b m pts = Ok (map B pts) /\
  forall p,
    ((vx (b_min b) <= vx p <= vx (b_max b) /\ vy (b_min b) <= vy p <= vy (b_max b) /\ vz (b_min b) <= vz p <= vz (b_max b)) ->
      B p = vscal mu0 (vadd (magnetic_field b m p) m)) /\
    (outside b p -> B p = vscal mu0 (magnetic_field b m p)).
Proof. exact flux_definition. Qed.
Theorem C56_gradient_trace_free :
  forall (b : box) (m p : vec3), mtrace (magnetic_field_gradient b m p) = 0.
Proof. exact mag_trace. Qed.
(** [flux_at] is the entry returned for a single point *)
Theorem C56_flux_divergence_free :
  forall (mu0 : R) (b : box) (m p : vec3), off_faces b p ->
  magnetic_flux_density mu0 b m [p] = Ok [flux_at mu0 b m p] /\ is_div (flux_at mu0 b m) p 0.
Proof. exact flux_div_spec. Qed.
Theorem C56_moment :
  forall x0 y0 z0 dx dy dz m, moment (Box (V3 x0 y0 z0) (V3 (x0 + dx) (y0 + dy) (z0 + dz))) m = vscal (dx * dy * dz) m.
Proof. intros. unfold moment, volume. cbn. unfold vscal. f_equal; ring. Qed.

Print Assumptions C15_is_triple_integral_of_mixed_derivative.
Print Assumptions C16_third_derivative_kernels.
Print Assumptions C17_compiled_and_python_kernels_agree.
Print Assumptions C23_edge_value_is_limit.
Print Assumptions C27_potential_is_volume_integral.
Print Assumptions C28_gradient_is_symmetric_jacobian.
Print Assumptions C29_poisson.
Print Assumptions C30_cut_additivity.
Print Assumptions C55_gradient_is_jacobian.
Print Assumptions C56_flux_divergence_free.
Print Assumptions C15_alternating_corner_sum.
Print Assumptions C15_additive_under_cut.
Print Assumptions C15_vanishes_unless_all_three_variables.
Print Assumptions C15_triple_integral_unique.
Print Assumptions C15_cycle_rotates_axes.
Print Assumptions C16_kernel_is_exact_derivative_refuted.
Print Assumptions C16_potential_kernel_derivative.
Print Assumptions C16_field_kernel_derivatives.
Print Assumptions C16_potential_kernel_symmetric.
Print Assumptions C16_mixed_third_derivative_is_inverse_distance.
Print Assumptions C23_edge_value_is_limit_zy.
Print Assumptions C28_field_is_gradient.
Print Assumptions C30_linear_in_density.
Print Assumptions C30_mass.
Print Assumptions C55_field_is_gradient_of_scalar_potential.
Print Assumptions C56_flux_density_definition.
Print Assumptions C56_gradient_trace_free.
Print Assumptions C56_moment.
