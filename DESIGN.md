# Formal model of simpeg/geoana in Rocq (Coq 8.16.1)

## 1. What is modelled and how

* **Numbers.** Field formulas are modelled over the exact real numbers `R`
  (and `C = R*R`, Coquelicot's complex numbers). `Model_Float.v` and `Model_Float2.v` to
  `Model_Float7.v` also model formulas in floating point, operation by operation (Flocq, round
  to nearest even with 53 bits and unbounded exponents; C107, C108, C131, C132, C134, C135,
  C137, C138); elsewhere IEEE rounding is *not* modelled, and overflow,
  underflow and signed zeros nowhere. Where the program's behaviour hinges on
  non-finite values (setters fed with `nan`/`inf`, a division by zero that gives
  `nan`) the model uses an explicit type of floats `fl := Fin r | PInf | NInf | NaN`
  or an `option` result, so no theorem silently relies on Coq's `x / 0 = 0`.
* **Exceptions** are values of a result type (`Ok x | Raise e`).
* **Arrays.** A grid `(..., 3)` is a list of `vec3` (C-order ravel of the leading
  axes) or, where shapes matter (broadcasting, `mkvc`, `ndgrid`, `append_ndim`),
  an explicit shape together with an index function / flat data.
* **Objects** are records; a setter is a function `state -> pyvalue -> result state`;
  a history is an arbitrary list of operations. Aliasing of numpy buffers is
  modelled with an explicit heap.
* **Special functions** are concrete: `erf`, elliptic integrals and modified
  Bessel functions of the first kind are defined by their integrals; complex
  exp/sqrt/tanh are defined from real functions. Functions that are only used
  structurally (libdlf filters, `kv`, the `utm` package, matplotlib) are universally
  quantified arguments of the theorems.
* **Specification vocabulary** (gradient, curl, divergence, integral) is in
  `Calculus.v` and in the `Spec_*.v` files (flux through spheres and circulation round circles
  in `Spec_Flux.v`, layered earths seen to a depth in `Spec_Depth.v`, ...), on top of
  Coquelicot's `is_derive`/`RInt`; `Calculus.v` knows nothing of the model.

Files: `Vec3.v Calculus.v Cplx.v ...` foundations; `Model_*.v` definitions only
(each cites file and lines in /repo); `Proof_*.v` lemmas; `Props_*.v` the theorems
named in MANIFEST.json, each with its witnesses and `Print Assumptions`.

When the code violates a property the theorem is the refutation
(`..._refuted : exists input, ...`), and the part that does hold is proved beside it.

## 2. Plan per property

| id | model | proof |
|----|-------|-------|
| C01-C04 | `spatial.py` transforms, `arctan2` by cases on `atan` | trigonometry; C04 is false of the code: refuted with witnesses, and the exact set of inputs on which the code is right |
| C05-C06 | quaternion construction of `rotation_matrix_from_normals` (scipy `from_quat`/`as_matrix` formula modelled) | algebra modulo `|v0|=|v1|=1` |
| C07 | list of rows | Cauchy-Schwarz, induction on rows |
| C08-C11, C13 | shapes and index functions | induction on shapes |
| C12 | dictionary as list | case analysis |
| C14, C26, C31-C37, C50, C59, C66, C77, C80 | setter state machines with Python values incl. nan/inf | induction over histories; refutations by explicit histories |
| C15, C27 | corner sum, iterated Riemann integrals | fundamental theorem of calculus iterated |
| C16, C28, C29, C55, C56 | prism kernels | `auto_derive` off the planes, arctan addition for the trace |
| C17 | both kernel implementations, with their guards | case analysis on the guards |
| C18, C20 | C++ loops over flat buffers with modular counters vs numpy recursion | loop invariants, induction on the number of layers |
| C19 | reverse sweep | chain rule along arbitrary curves, induction on layers |
| C21 | recursion | tanh addition theorem |
| C22 | recursion | invariant region of the admittance recursion |
| C23 | log kernels on the edge | limit |
| C24, C25, C38, C39, C44, C49-C54 | closed forms | derivatives of radial functions |
| C40 | coordinates option | C01/C02 |
| C41-C43 | elliptic integrals as `RInt` | differentiation under the integral sign |
| C45-C48 | polyline as list of nodes | antiderivative of the Biot-Savart integrand, induction on segments |
| C57-C63 | complex valued fields | derivative rules for curves R -> C |
| C64, C65, C67, C68 | transforms with abstract filters / Bessel K | linearity, equivariance; refutations |
| C69-C74, C85 | `erf` and Bessel I as integrals | derivatives, sign of derivative |
| C75-C83 | oksar.py, plotting_utils.py | refutations and algebra |
| C84 | masked gather/scatter on lists | induction |
| C86 | frequency and time setters with nan | case analysis |
| C87 | layer stacks as lists | induction on the layers |
| C88, C89 | scripts of plotting calls | case analysis, list invariants |
| C90 | spherical-earth geometry of the line of sight | trigonometry |
| C91, C92 | `_dc3d3` with its rounding and early exits against Okada's closed form | algebra; antisymmetry of the corner sum |
| C93 | recursion against the boundary-value problem in the depth coordinate | induction on the layers, linear algebra of two-sided solutions |
| C94 | all sources | isometries preserve norms and inner products; determinant sign for cross products; the loop's frame is unique up to a rotation about its axis |
| C95 | pairs of sources | evenness of the Green's function in the offset |
| C96 | all sources | algebra, entry by entry over arrays |
| C97 | all sources | algebra on the closed forms; homogeneity of prism kernels up to terms killed by the corner sums; refutation on concrete points |
| C98 | te_*, tp_*, tloop_*, vmd_H against ed_*, pw_*, loop_*, mh_H | complex error function as antiderivative of the kernels t^(-n/2) exp(-a^2/4t - iwt), its limits at 0 and infinity, improper fundamental theorem of calculus |
| C99 | new_frequency, new_thickness, new_property, assign, history | case analysis on the shape of the assigned value; invariant over histories |
| C100 | te_*, tp_*, tloop_*, vmd_* at time t | every field is a constant times a function of u = c/sqrt t; bounds K/u for large u and K u for small u (erf, Gaussians, integral representation of the scaled Bessel functions); improper fundamental theorem of calculus |
| C101 | *_array in Model_Arrays2.v, bd_* | arrays that broadcast to a function of the full index; every elementwise operation preserves it; exact shape when every axis is covered |
| C102 | *_array and *_nd in Model_Arrays3.v | reshape(-1, 3) and back in C order as a bijection of indices; masks through C84's pointwise lemmas; invariant on the buffers carried from segment to segment |
| C103 | mh_H_array, ly_H_array, squeeze in Model_Arrays4.v | broadcasting calculus over frequency and point indices; in-place updates keep the full shape; squeeze and its inverse on indices |
| C104 | every setter in Model_Setters.v | one lemma per rule giving the setter's effect on the object, then the table row by row; the other attributes' getters read other keys |
| C105 | bind_args, run_init, init_of, call in Model_Construct.v | induction on the chain of __init__ methods reduces a call to one list of assignments in terms of the call's getter; C104's contracts give each step, with frames for the later ones |
| C106 | magnetic_field in Model_Layered.v; filtered, reflected_wave, bessel0, bessel1 in Spec_Hankel.v | the filter products as sums over indices; Bessel's integrals differentiated under the integral sign and by parts; chain rule |
| C107 | floating point transcriptions of the formulas (Model_Float.v), operation by operation | a calculus of k-fold relative errors (near k), closed under products, quotients, roots, sums of one sign and dominated differences; on the shell where the sphere's branch can be misjudged both formulas agree to second order |
| C108 | fprism_fzx and fprism_fzy (Model_Float.v) | sqrt of a rounded square is exact in radix 2 (one binade, half a spacing), so the computed r is at least |y|; absorption of small addends; explicit floats for the sign |
| C109 | location, prism_mass, gravitational_potential and gravitational_field of Model_Prism.v, PointMass of Model_Gravity.v | the potential is the Newtonian integral (C27); pairing opposite points of the box, 1/|d-s| + 1/|d+s| lies between 2/sqrt(r^2+a^2) and 2r/(r^2-a^2); reflections by substitution in the integral, the field by uniqueness of the gradient |
| C110 | CircularLoopWholeSpace and MagneticDipoleWholeSpace of Model_Static.v | B and A are the Biot-Savart and line integrals (C41-C43); opposite points of the circle are paired, and 1/x - 1/y, 1/x^3 -+ 1/y^3 of the two distances are bounded by elementary inequalities; near the axis the fifth order bound of C42 |
| C111 | Prism, PointMass, MagneticPrism, MagneticDipoleWholeSpace and all prism kernels | the potential is the Newton integral (C27); differentiation under the integral sign for kernels that are bounded and Lipschitz away from 0; off the face planes the closed forms are its derivatives, and both sides are right continuous along the diagonal, so the formulas extend to the face planes |
| C112 | Prism, PointMass, MagneticPrism, MagneticDipoleWholeSpace | the prism is a superposition (C111); opposite points of the prism are paired, so first order terms cancel; the third and fourth derivatives of 1/r in unit directions are bounded by 3! and 4! (quadratic form, polarisation) |
| C113 | electrode_call (binding of Model_Construct, constructors of Model_Setters) | case analysis on every Python value of every argument, closed forms of the nested constructors |
| C114 | pm_field, gs_field_grid, pc/lc_current_density, hs/dh_current_density, md_B, mp_B, sphere_field, cl_B, lc_flux_density of the existing models | explicit antiderivatives in the polar angle, fundamental theorem of calculus, limits by squeezing |
| C115 | py_rTE of Model_RTE, all layers with mu_0 and real sigma | the field inside one layer solves e'' = (lamb^2 + i omega mu sigma) e; monotone energy fluxes show that one layer maps the half disc into itself and contracts reflection coefficients by e^{-2 lamb h}; induction over the layers |
| C116 | ed_*, mf_*, pw_* of Model_FDEM | divergence of a cross product and Maxwell's equations (C60-C62); the radial power density is a quadratic function of the direction, integrated over the sphere by Parseval in any frame; the amplitudes are monotone polynomials in 1/r times the exponential |
| C117 | mh_H of Model_FDEM, py_rTE of Model_RTE | Laplace transform of J0 by differentiation under the integral in the wavenumber and an ODE; integral of J1(x)/x by an Abel limit with an error bound from the energy decay of the Bessel equation; explicit primitives and integration by parts for the potentials, with Taylor bounds at 0 |
| C118 | lc_flux_density, lc_vector_potential, lc_electric_field, cl_B, cl_A, md_B, md_A of Model_Static, ed_E, ed_B of Model_FDEM | Biot-Savart and dl/r integrals of C45, C48, C41, C43; exact algebraic remainders of 1/rho and 1/rho^3; telescoping of the expanded integrals up to the vector area; Lipschitz bounds of the kernels and chord-arc comparison by induction over the sides |
| C119 | lc_vector_potential, lc_flux_density, loop_vector_potential, loop_flux_density, mdipole_vector_potential of Model_Static | C41, C43, C45, C48 give the integrals dl/r and Biot-Savart; Fubini's theorem for continuous functions on a rectangle (derivative of the parametric integral) makes Neumann's double integral symmetric; induction over the segments of both wires; triple product for the dipole |
| C120 | the model's prism_f / prism_fz with their guards, over exact reals | u ln(c+r) and u atan(vw/(ur)) are continuous where u vanishes (x|ln x| <= 2 sqrt x); the total derivative of prism_f along an axis exists at every point, the extra terms cancel in the corner sum |
| C121 | the six second-derivative corner sums with their guards | atan(vw/(ur)) = (pi/2) sign u sign v sign w - atan(ur/(vw)) gives the one-sided limits of the normal component; every other corner term is continuous at a face point |
| C122 | the gravity, static and sphere models side by side | both sides unfold to the same corner sums or rational functions of r; field over the reals; the sphere uses the derivative of the potential from C52 |
| C123 | the prism model, integrals as iterated Riemann integrals over six boxes | cutting the prism adds the corner sums (C30), the six boxes are outside the point so superposition (C111) applies, and the centred cube is evaluated in closed form by symmetry |
| C124 | the prism model | superposition over the points (C111) and monotonicity of the triple integral; on the surface by continuity (C120), inside by cutting the prism at the station |
| C125 | the returned fields as functions of time (Model_TDEM), multiplied by the power of t | every profile is a function of u = theta*distance: exp and erf are bracketed by their Taylor polynomials for all u > 0, I0 and I1 by theirs under the integral, so profile/u^n - L is bounded by K*u on (0,1] and late_lim gives the limit |
| C126 | the returned fields (Model_TDEM) and the fluxes of Spec_Flux | divergence of a cross product from the two curl equations (C70, C71); the flux through a sphere by integrating a quadratic form over the angles; the limits from the early and late expansions (C100, C125) |
| C127 | rTE recursion (Model_RTE), layered field (Model_Layered); specification Spec_Induction (cumulative response) and the boundary-value problem of C93 at omega = 0 | Riccati equation per layer, complex mean-value inequality, induction over the stack; exact scaling plus differentiability (C19) for the limit |
| C128 | Sphere and PointMass methods (Model_Gravity), sphere potential and charge (Model_Static); specification Spec_Ball (surface and ball integrals) | substitution of the distance for the polar angle, then integration over the radius, in one argument for all positions |
| C129 | mh_H, loop_hz (Model_FDEM); specification Spec_McNeill (induction number, apparent conductivity) | Taylor remainders of exp along the segment from 0 to u, three rational profiles in u, then the component formulas of C117 |
| C130 | dc3d3 (Model_Oksar); specification Spec_Volterra (Hooke's law, traction, equilibrium, point loads, dislocation integral) | derivatives of the o_strike and o_dip components along dip and strike equal the point-load tractions (field identities), double FTC; equilibrium, hemisphere integral and decay of the loads proved directly |
| C131 | Model_Float2: ftheta, ftloop_hz, ftloop_dbz, every operation rounded; erf, exp, power of the library arguments within 8u | relative error algebra of Proof_Float; early: absolute error of each term against lower bounds of the exact bracket; late: the exact bracket is below a spacing of the floats near the cancelling terms, so the computed difference is 0 or a whole spacing |
| C132 | Model_Float3: fset_rho, fget_rho, forient, fset_mass, fskin, fpeak_time ... every operation rounded | half-spacing bounds: below sqrt 2 the second reciprocal returns to the argument, above it the third returns to the first; relative error algebra; absorption of a small addend |
| C133 | Model_Alias2: getter, item_write, poke, set_samples, hs_set_location on the heap | invariant that no reachable attribute refers to the node buffers, preserved by every write; induction over the history |
| C134 | Model_Float4: kernels fz and fzz, the corner sum and the two gravity methods, operation by operation | relative perturbations through the arctangent by the mean value theorem, absolute errors through the sum; for the loss: every rounded sum of multiples of a power of two is one, so the corner sum is 0 or too large (with C124 for the exact value, C112 and C29 for the witness and Poisson) |
| C135 | Model_Float5: the four conversions of rows of width 3, operation by operation | errors of products and sums in units of the radius, arctan2 under relative perturbations of both arguments; for the zeros: no float is PI or PI/2 (Machin bounds on PI) |
| C136 | ed_*, mf_*, pw_* of Model_FDEM; Spec_Impedance: cross product of a complex vector, intrinsic impedance, apparent resistivity | complex algebra with k^2 = -i omega mu sigma_hat and the branch of the square root; g - 1 = -1/(1 + u + u^2) bounded by its imaginary part |
| C137 | Model_Float6: numpy complex operations and floop_hz, operation by operation; Spec_Float5: library functions | the zeros in the factors are tracked exactly, so the quadrature is a product with 3 - P for a float P; bounds between x^4/12 and x^4/2 on the exact response by the mean value theorem; grid of floats above 2 |
| C138 | Model_Float7: fvmd_hz and fvmd_dhz, operation by operation; library accuracy as in Spec_Float2 | bounds of the exact functions at small arguments by the mean value theorem (derivatives 8 s^2 (1 - s^2) and 8 s^4 (1 - s^2) times a Gaussian); gap between unequal floats; error propagation at large arguments |
| C139 | Model_FDEM: mh_H, loop_hz | four integrations by parts of Nicholson's integral with primitives of J0 and explicit derivatives of w^3/u, giving I1 K1 - I2 K2 = 3/(4 z^3) up to 33/abs(z)^4 on the ray arg z = pi/4; moduli of the exponential profiles |
| C140 | Model_Special: the method operation by operation on floats with infinities and nan, complex product by its four real products, library functions as arguments | the K integral exists and is at most exp(4 - Re z) for n <= 2 (majorant exp(-t)); 0 and nan are absorbing for the operations that follow; the exact field from the expansion of C139 |
| C141 | Model_FDEM: mh_H, loop_hz | real and imaginary parts of the exponential profile as functions of the distance in skin depths; mean value theorem for their signs on (0, pi] and an exponential bound beyond; the modulus by integrating that of its derivative |
| C142 | Model_Float8: fmh_r, fmh_k, fmh_hz | running error analysis of the complex formula on k = h - ih; the leading 9 makes the computed difference a multiple of 2^-49, and the exact one is smaller than that by a Taylor estimate |
| C143 | Model_Float9: fnormalised, fcross, frotation_matrix | a quaternion misses by twice its error over its length (quaternion identity); running error analysis of the cross and dot products; correctly rounded literals for the counterexample; towards an axis the cross product is exact, and within 2^-28 of the opposite the norm absorbs the other components |
| C144 | Model_Float10: fseg_B, fsum_B, flc_flux_density | running error analysis of the two cosines, their difference and the azimuth; the norm absorbs small components; strict monotonicity of the cosine along the wire |
| C145 | Model_Float11: fmd_B, fmd_A, fpm_gradient | running error analysis of each component; the length of the dipole field is at least that of its orientation term; the findings by rounding explicit numbers |
| C146 | Model_Float12: fsp_cur, fsp_total, fsp_primary, fsphere_potential | running error analysis on both sides of the surface; where the branches differ the exact potential is continuous; far away the factor 1 - x rounds to 1 |
| C147 | Model_Float13: fdh_pair, fdh_potential over fhs_potential of Model_Float | sums of the pole errors of C107; rounding is odd, so differences and squares are the same after an exchange; a small summand is absorbed |
| C148 | Model_Float14: falpha_sq, fbeta_sq, fk_sq, fsmall_rho, fcl_A_phi, fcl_B_z; Spec_Float9: elliptic_library | rounding is monotone and odd, so the ratio stays in [0, 1]; a subtrahend below 2^-55 is lost in 1 - x; IEEE rules for the infinity |
| C149 | Model_Float15: fsp_total_field, fsp_primary_field, fsphere_field | running error analysis; six units of roundoff off the surface the rounded and the exact distance are on the same side; at the station of the finding 1 + 2^-56 rounds to 1 |

## 3. Trusted base

* Coq 8.16.1's kernel (and `coqc`'s parsing of the statements). No plugin, no `native_compute`, no
  switched-off check, no axiom, parameter, functor or module type of our own. Coquelicot is used as a
  library of definitions and proved lemmas; it declares no axiom.
* The axioms of Coq's standard library, as listed by `Print Assumptions` beside each theorem:
  - **D** `ClassicalDedekindReals.sig_forall_dec` (limited principle of omniscience, construction of R),
  - **N** `ClassicalDedekindReals.sig_not_dec` (decidability of negated propositions, construction of R),
  - **F** `FunctionalExtensionality.functional_extensionality_dep`,
  - **E** `Classical_Prop.classic` (excluded middle).
* The fidelity of the `Model_*.v` files to /repo (section 5), and of the statements in `Props_*.v` with the
  vocabulary in `Spec_*.v`, `Vec3.v`, `Calculus.v`, `Cplx.v`, `SpecFun.v` and `Numpy.v` to the English ones.
* Real arithmetic instead of IEEE floats (section 1).

Axioms used, theorem by theorem:

* none (closed under the global context) (26 theorems): `C08_mkvc_column_major`, `C08_mkvc_every_entry_once`, `C08_mkvc_rejects_non_arrays`, `C09_ndgrid_one_axis`, `C09_ndgrid_three_axes`, `C09_ndgrid_three_axes_arrays`, `C09_ndgrid_two_axes`, `C09_ndgrid_two_axes_arrays`, `C10_check_xyz_dim_array`, `C10_check_xyz_dim_empty_tuple`, `C10_check_xyz_dim_tuple`, `C10_check_xyz_dim_tuple_of_unequal_shapes`, `C11_append_ndim_broadcast`, `C11_append_ndim_entries`, `C11_append_ndim_shape`, `C12_requires_absent`, `C12_requires_present`, `C64_scalar_frequency_refuted`, `C79_accepted_is_calendar`, `C79_date_accepts_only`, `C79_date_roundtrip`, `C79_iso_accepts_exactly`, `C79_iso_accepts_only`, `C79_iso_roundtrip`, `C79_setter`, `C79_unreadable_raises_value_error`
* D (2 theorems): `C07_vector_distance`, `C113_arguments_are_determined`
* D + F (29 theorems): `C123_shell_and_cube_tile_the_prism`, `C133_electrodes_cannot_be_moved`, `C133_reported_location_refuted`, `C13_repeat_scalar`, `C14_prism_accepted_iff_ordered`, `C14_prism_rejects_non_vectors`, `C15_additive_under_cut`, `C15_alternating_corner_sum`, `C15_cycle_rotates_axes`, `C15_vanishes_unless_all_three_variables`, `C30_mass`, `C56_moment`, `C65_constructed_objects`, `C76_grid_documented_iff`, `C78_data_kept`, `C78_easting_edges`, `C78_layout`, `C78_northing_edges`, `C78_wrap`, `C78_wrap_unique`, `C78_wrong_size`, `C91_elastic_constants`, `C99_admissible_after_any_history`, `C99_epsilon`, `C99_frequency`, `C99_mu`, `C99_no_thickness`, `C99_sigma`, `C99_thickness`
* D + F + N (277 theorems): `C04_frame_is_orthonormal`, `C04_spherical_to_cartesian_vec_exact_domain`, `C04_spherical_to_cartesian_vec_refuted`, `C05_rotation_matrix_from_normals`, `C05_rotation_matrix_rejects_bad_shapes`, `C06_rotate_points_is_rigid`, `C06_rotate_points_rejects`, `C07_distance`, `C07_distance_is_a_metric`, `C07_distance_rejects`, `C07_vector_dot`, `C101_dipole_helpers`, `C101_dipole_helpers_reject_width_one_refuted`, `C101_half_space_dipole`, `C101_half_space_dipole_two_electrodes`, `C101_half_space_point_current`, `C101_line_current`, `C101_point_mass`, `C102_gravity_sphere`, `C102_static_spheres`, `C103_layered`, `C103_layered_refuses`, `C104_assignments_follow_the_table`, `C104_depth_bottom`, `C104_electrodes_refuse`, `C104_every_value_has_an_outcome`, `C104_read_only_attributes`, `C104_resistivity_must_be_a_number`, `C104_sphere_mass_refused`, `C104_table_is_complete`, `C105_acceptable_calls_return`, `C105_call_stores_its_arguments`, `C105_called_objects_are_created`, `C105_default_loop_has_unit_area`, `C105_malformed_calls_raise`, `C105_malformed_calls_raise_type_error`, `C105_oksar_depths`, `C105_sphere_mass_argument_refuted`, `C106_field_is_the_filtered_spectrum`, `C113_called_electrodes_are_created`, `C113_half_space_dipole`, `C113_half_space_electrode`, `C113_malformed_calls_raise_type_error`, `C113_number_of_locations_refuted`, `C113_whole_space_electrode`, `C113_zero_resistivity_refuted`, `C114_current_into_the_ground`, `C114_current_of_a_wire`, `C114_current_of_an_electrode`, `C114_current_of_an_electrode_pair`, `C114_gauss_law_inside_a_sphere`, `C114_gauss_law_of_a_point_mass`, `C114_gauss_law_outside_a_sphere`, `C114_no_net_charge_of_a_sphere`, `C116_electric_dipole_attenuates`, `C116_electric_dipole_creates_power`, `C116_electric_dipole_power_refuted`, `C116_magnetic_dipole_attenuates`, `C116_magnetic_dipole_energy`, `C116_magnetic_dipole_power`, `C116_mean_power_flow`, `C116_plane_wave_power`, `C116_power_is_absorbed`, `C118_short_wire_electric`, `C121_both_sides_are_near`, `C122_dipole_is_gradient_of_mass`, `C126_electric_dipole_flow`, `C126_plane_wave_flow`, `C126_power_balance`, `C127_shares_add_up`, `C128_charges_make_the_potential`, `C128_gradient_is_superposition`, `C128_polar_axis`, `C128_sphere_is_superposition`, `C130_the_loads_are_unit_point_loads`, `C133_samples_stay_valid_refuted`, `C136_apparent_resistivity`, `C136_duality`, `C136_electric_dipole_impedance_refuted`, `C136_phase`, `C136_plane_wave_impedance`, `C139_loop_many_skin_depths_wide`, `C14_nan_corner_refuted`, `C14_new_prism_has_positive_volume`, `C14_order_after_assignment_refuted`, `C15_is_triple_integral_of_mixed_derivative`, `C15_triple_integral_unique`, `C18_compiled_is_numpy`, `C18_empty_frequencies_refuted`, `C18_wrong_shapes_are_rejected`, `C19_gradient_shapes`, `C20_compiled_gradient_is_numpy`, `C21_zero_thickness`, `C22_quasistatic_is_covered`, `C24_point_mass_field_is_gradient`, `C24_point_mass_inverse_square`, `C24_point_mass_laplace`, `C24_point_mass_tensor_is_jacobian`, `C25_sphere_continuous`, `C25_sphere_field_is_gradient`, `C25_sphere_grid_is_pointwise`, `C25_sphere_outside_is_point_mass`, `C25_sphere_poisson`, `C26_assigned_mass_reads_back`, `C26_mass_always_reads_density_times_volume`, `C26_positive_radius_constructs`, `C26_radius_keeps_density`, `C26_zero_radius_refuted`, `C31_properties_stay_valid`, `C32_dipole_half_space_refuted`, `C32_half_space_electrode_refuted`, `C32_rejected_assignment_changes_nothing`, `C33_assigning_rho`, `C33_bad_rho_rejected`, `C33_rho_reads_reciprocal`, `C34_orientation_from_letter`, `C34_orientation_from_vector`, `C34_plane_wave_string_refuted`, `C35_caller_writes_change_the_object_refuted`, `C35_copying_setters_never_alias`, `C35_default_location_is_shared_refuted`, `C35_orientation_changes_the_callers_array_refuted`, `C35_point_location_writes_the_callers_nodes_refuted`, `C35_safe_when_not_a_kept_float_array`, `C35_same_array_twice_refuted`, `C36_sphere_location_refuted`, `C36_vectors_keep_three_entries`, `C37_accepted_shapes`, `C37_empty_nodes_refuted`, `C37_nodes_are_n_by_3`, `C37_single_point_is_one_node`, `C44_closed_wire_has_no_field`, `C44_field_is_minus_gradient`, `C44_ohm`, `C44_one_node_is_a_point_source`, `C44_only_the_ends_matter`, `C44_two_electrodes`, `C49_flux_is_the_current`, `C49_ohm_and_laplace`, `C50_dipole_half_space_fields`, `C50_dipole_points_above_ground_rejected`, `C50_dipole_sources_in_sync`, `C50_electrode_sources_in_sync`, `C50_half_space_fields`, `C50_points_above_ground_rejected`, `C51_difference_of_potentials`, `C51_reciprocity`, `C52_inside_field_is_minus_gradient`, `C52_no_contrast`, `C52_outside_exact_domain`, `C52_outside_gradient_refuted`, `C52_outside_gradient_value`, `C52_potential_continuous`, `C52_total_is_primary_plus_secondary`, `C53_normal_current_exact_domain`, `C53_normal_current_refuted`, `C53_potential_conserves_current_and_charge`, `C53_surface_limits`, `C54_B_is_mu_H`, `C54_H_is_minus_gradient_inside`, `C54_H_is_minus_gradient_refuted`, `C54_normal_B_exact_domain`, `C54_tangential_H_continuous`, `C56_gradient_trace_free`, `C57_branch`, `C57_dispersion_relation`, `C57_only_root`, `C58_full_value`, `C58_quasistatic`, `C59_exact_domain`, `C59_truthy_flag_refuted`, `C60_corrected_field`, `C60_curls_in_general`, `C60_faraday_refuted`, `C60_maxwell_quasistatic`, `C61_maxwell`, `C62_amplitude`, `C62_decays_downward`, `C62_maxwell`, `C62_transverse`, `C63_electric_dipole`, `C63_electric_dipole_magnetic_field`, `C63_magnetic_dipole_no_electric_field`, `C65_horizontal_shift`, `C65_linear_in_the_dipole`, `C65_receivers_below_are_refused`, `C65_reciprocity`, `C65_rotation`, `C65_source_below_surface_refuted`, `C65_total_is_secondary_plus_static`, `C66_careful_histories_work`, `C66_exactly_when`, `C66_new_number_of_frequencies_refuted`, `C66_new_number_of_layers_refuted`, `C67_one_layer_one_frequency`, `C67_raises_refuted`, `C67_shape_refuted`, `C67_square`, `C67_transposed`, `C68_flux`, `C68_linear`, `C68_total_minus_secondary`, `C70_constitutive`, `C70_maxwell`, `C70_time_derivatives`, `C71_ampere`, `C71_diffusion_equation`, `C71_faraday`, `C71_transverse`, `C72_field_time_derivative`, `C72_flux_time_derivative`, `C76_V_never_readable_refuted`, `C76_grid_displacement_plot_refuted`, `C77_event_date_refuted`, `C77_local_rigidity_refuted`, `C77_metadata_reads_back`, `C80_depth_order_refuted`, `C80_depths_ordered_while_top_is_not_reassigned`, `C80_parameters_in_range`, `C84_fdem_electric_dipole_arrays`, `C84_fdem_magnetic_dipole_arrays`, `C84_fdem_plane_wave_arrays`, `C84_gravity_sphere_batch`, `C84_layered_batch`, `C84_static_sphere_batch`, `C84_tdem_electric_dipole_arrays`, `C84_tdem_plane_wave_arrays`, `C84_tuples_are_stacked`, `C84_wrong_width_is_rejected`, `C86_frequencies_stay_valid`, `C86_negative_samples_rejected`, `C86_times_stay_valid`, `C86_valid_samples_read_back`, `C86_zero_rejected_refuted`, `C93_air_only`, `C94_dipole_half_space`, `C94_gravity_sphere`, `C94_harmonic_electric_dipole`, `C94_harmonic_magnetic_dipole`, `C94_line_current_electric`, `C94_point_current_half_space`, `C94_point_mass`, `C94_sphere_in_uniform_field`, `C94_transient_electric_dipole`, `C95_four_electrodes`, `C95_half_space_electrodes`, `C95_harmonic_electric_and_magnetic_dipole`, `C95_harmonic_electric_dipoles`, `C95_harmonic_magnetic_dipoles`, `C95_point_currents`, `C95_point_masses`, `C95_transient_electric_dipoles`, `C96_gravity_sphere`, `C96_harmonic_electric_dipole`, `C96_harmonic_magnetic_dipole`, `C96_harmonic_plane_wave`, `C96_point_mass`, `C96_sphere_in_uniform_field`, `C96_transient_electric_dipole`, `C96_transient_loop`, `C96_transient_plane_wave`, `C97_electric_dipole`, `C97_electrodes`, `C97_gravity_sphere`, `C97_harmonic_loop`, `C97_layered_dipole`, `C97_magnetic_dipole`, `C97_plane_wave`, `C97_point_mass`, `C97_reflection_coefficient`, `C97_sphere_field_refuted`, `C97_sphere_potential_and_charge`, `C97_static_dipole_and_pole`, `C97_transient_electric_dipole`, `C97_transient_loop`, `C97_transient_plane_wave`, `C98_unique`
* D + E + F + N (333 theorems): `C01_cartesian_cylindrical_cartesian`, `C01_cylindrical_cartesian_cylindrical`, `C01_cylindrical_range`, `C02_radial_direction`, `C02_vector_isometry`, `C02_vector_round_trip`, `C02_vector_round_trip_back`, `C03_cartesian_spherical_cartesian`, `C03_spherical_cartesian_spherical`, `C03_spherical_range`, `C04_cartesian_to_spherical_vec_exact_domain`, `C04_cartesian_to_spherical_vec_refuted`, `C100_electric_dipole_dies_out`, `C100_electric_dipole_starts`, `C100_half_space_dipole`, `C100_loop`, `C100_plane_wave`, `C100_total_change`, `C101_conversions`, `C101_conversions_reject_narrow_rows`, `C101_magnetic_dipole_and_pole`, `C101_transient_half_space_dipole`, `C101_unknown_coordinates`, `C101_wrong_width`, `C102_gravity_prism`, `C102_line_current`, `C102_loop`, `C102_loop_unknown_coordinates`, `C102_magnetic_prism`, `C102_tuple_of_coordinates`, `C102_wrong_width`, `C103_half_space`, `C103_half_space_refuses`, `C103_half_space_rejects_width_one_refuted`, `C103_half_space_shape`, `C103_squeezed_shape_is_ambiguous`, `C106_bessel`, `C106_kernels_are_derivatives_of_the_reflected_wave`, `C106_spectrum_of_the_ground`, `C107_distance`, `C107_half_space`, `C107_point_current`, `C107_point_mass`, `C107_pole`, `C107_sphere`, `C108_accurate_everywhere_refuted`, `C108_accurate_side`, `C108_constant_in_the_cone`, `C108_decreasing_along_an_edge`, `C108_edge_contribution_sign_refuted`, `C108_log_of_positive_numbers`, `C109_far_prism_is_a_point_mass`, `C109_mirror_images`, `C109_opposite_points`, `C109_potential_bounds`, `C110_loop_is_a_dipole`, `C110_off_axis`, `C110_shrinking_loop`, `C111_gravity_derivatives`, `C111_gravity_is_superposition`, `C111_magnetic_derivatives`, `C111_magnetization_is_superposition`, `C112_far_field_is_a_point_mass`, `C112_far_prism_is_a_dipole`, `C112_moment_is_that_of_the_far_dipole`, `C114_ampere_law_on_the_axis_of_a_loop`, `C114_flux_of_a_magnetic_dipole`, `C114_flux_of_a_magnetic_pole`, `C114_long_straight_wire`, `C115_below_is_hidden`, `C115_cover_damps`, `C115_field_does_not_see_deep`, `C115_half_disc`, `C115_strong_induction`, `C115_thick_layer_is_basement`, `C115_weak_induction`, `C116_electric_dipole_energy`, `C116_electric_dipole_power`, `C116_one_skin_depth`, `C117_horizontal_components_add_up`, `C117_radial_component`, `C117_transverse_component`, `C117_vertical_component`, `C117_vertical_component_of_a_horizontal_dipole`, `C118_closed_wire_is_a_dipole`, `C118_closed_wire_vector_potential`, `C118_long_wire`, `C118_polygon_is_a_loop`, `C118_polygon_near_the_axis`, `C118_short_wire_magnetic`, `C119_dipole_and_loop`, `C119_dipole_and_wire`, `C119_loop_and_wire`, `C119_loops`, `C119_wires`, `C120_field_is_gradient_everywhere`, `C120_magnetic_scalar_potential_is_continuous`, `C120_potential_and_field_are_continuous`, `C121_flux_density_at_a_face`, `C121_gradient_jump`, `C121_magnetic_field_jump`, `C121_normal_flux_is_continuous_refuted`, `C122_pole_and_electrode_are_masses`, `C122_prism_poisson_relation`, `C122_sphere_is_a_dipole`, `C123_gravity_inside`, `C123_magnetic_inside`, `C124_field_attracts`, `C124_potential_at_least`, `C124_potential_is_positive`, `C124_upper_bounds`, `C125_electric_dipole`, `C125_half_space_dipole`, `C125_loop`, `C125_loop_and_dipole_agree`, `C125_plane_wave`, `C126_flow_reverses`, `C127_apparent_conductivity`, `C127_field_at_low_induction`, `C127_frequency_times_conductivity`, `C127_static_limit`, `C127_weak_induction_is_linear`, `C129_a_meter_displays_the_conductivity`, `C129_dipole_at_low_induction_numbers`, `C129_loop_at_low_induction_numbers`, `C130_solver_is_a_dislocation`, `C131_early`, `C131_late_refuted`, `C132_exact_read_back_refuted`, `C132_mass_reads_back`, `C132_orientation_is_a_unit_vector`, `C132_reassigning_resistivity_changes_nothing`, `C132_reassigning_settles`, `C132_resistivity_reads_back`, `C132_scales`, `C132_skin_depth_refuted`, `C134_diagonal_is_accurate`, `C134_far_away_refuted`, `C134_poisson`, `C135_cylindrical_round_trip`, `C135_cylindrical_round_trip_back`, `C135_spherical_round_trip`, `C135_vectors`, `C135_zero_coordinates_refuted`, `C136_electric_dipole_impedance`, `C136_magnetic_dipole_impedance`, `C137_in_phase`, `C137_low_frequency_refuted`, `C137_quadrature`, `C138_early`, `C138_late_refuted`, `C139_dipole_many_skin_depths_away`, `C139_the_ground_becomes_a_mirror`, `C140_far_field_of_a_horizontal_dipole_lost_refuted`, `C140_far_field_of_a_vertical_dipole_lost_refuted`, `C141_central_loop_at_every_frequency`, `C141_horizontal_coplanar_coils_far_apart`, `C141_vertical_coplanar_coils_at_every_frequency`, `C142_absolute_error`, `C142_low_frequency_refuted`, `C143_accuracy`, `C143_coordinate_axes`, `C143_opposite_normals_refuted`, `C143_up_to_a_right_angle`, `C144_beside_the_wire`, `C144_beyond_the_ends_refuted`, `C144_everywhere`, `C145_dipole_flux_density`, `C145_dipole_vector_potential`, `C145_point_mass_gradient`, `C145_symmetry_refuted`, `C145_vanishing_entry_refuted`, `C146_every_station`, `C146_far_secondary_refuted`, `C147_distant_pair_refuted`, `C147_polarity`, `C147_pole_pole_reciprocity`, `C147_voltage`, `C148_domain`, `C148_near_the_wire_refuted`, `C148_off_the_wire`, `C149_off_the_surface`, `C149_surface_refuted`, `C16_field_kernel_derivatives`, `C16_kernel_is_exact_derivative_refuted`, `C16_mixed_third_derivative_is_inverse_distance`, `C16_potential_kernel_derivative`, `C16_potential_kernel_symmetric`, `C16_third_derivative_kernels`, `C17_compiled_and_python_kernels_agree`, `C18_other_mu_0_other_result`, `C19_gradient_is_the_derivative`, `C21_cut_basement`, `C21_split_layer`, `C22_passive`, `C23_edge_value_is_limit`, `C23_edge_value_is_limit_zy`, `C27_potential_is_volume_integral`, `C28_field_is_gradient`, `C28_gradient_is_symmetric_jacobian`, `C29_poisson`, `C30_cut_additivity`, `C30_linear_in_density`, `C38_dipole_magnetostatics`, `C39_pole_inverse_square`, `C39_pole_orientation_irrelevant`, `C40_cylindrical_is_a_change_of_basis`, `C40_on_the_axis`, `C40_unknown_coordinates_rejected`, `C41_B_is_curl_A`, `C41_biot_savart`, `C41_vector_potential_is_defined`, `C42_flux_density_near_the_axis`, `C42_on_the_axis`, `C42_vector_potential_near_the_axis_refuted`, `C43_line_integral`, `C45_biot_savart`, `C46_joining_adds`, `C46_reversing_negates`, `C46_subdividing_changes_nothing`, `C47_finite_exactly_off_the_lines`, `C47_finite_off_the_wire_refuted`, `C48_curl_of_vector_potential`, `C48_vector_potential_integral`, `C55_field_is_gradient_of_scalar_potential`, `C55_gradient_is_jacobian`, `C56_flux_density_definition`, `C56_flux_divergence_free`, `C57_outgoing_wave_decays`, `C58_full_exact_domain`, `C58_full_refuted`, `C63_magnetic_dipole`, `C63_static_dipole_is_defined`, `C64_array_of_frequencies`, `C64_horizontal_field_is_a_gradient`, `C64_linear_in_moment`, `C64_low_frequency_limit`, `C64_permeability_refuted`, `C64_reciprocity`, `C64_rotation_about_the_vertical`, `C64_superposition_of_orientations`, `C64_total_is_secondary_plus_primary`, `C68_low_frequency_bound`, `C68_low_frequency_limit`, `C69_diffusion_distance`, `C69_peak_time`, `C73_field_time_derivative`, `C73_half_space_dipole`, `C73_other_rows_are_refused`, `C74_dipole_potential_bounded`, `C74_loop_field_early`, `C74_loop_field_late`, `C74_loop_field_positive_and_decreasing`, `C75_array_of_locations_refuted`, `C75_batch`, `C75_succeeds`, `C75_unit_vectors`, `C76_displacement_sizes_refuted`, `C76_no_slip_one_vector_refuted`, `C76_stations_mixed_refuted`, `C81_above_the_end_is_refused`, `C81_batch_is_pointwise_when_nothing_is_rounded`, `C81_only_batches_of_one_or_three_refuted`, `C81_other_points_matter_refuted`, `C82_conflict_raises`, `C82_limits_removed`, `C82_no_limits_unchanged`, `C82_other_dictionaries_unchanged`, `C82_unchanged_iff_no_limits_refuted`, `C83_figname_with_ax_refuted`, `C83_scalar_levels`, `C83_vector_levels_refuted`, `C83_vector_levels_type_error`, `C83_without_levels`, `C84_loop_batch`, `C84_prism_batch`, `C85_derivative_agrees`, `C85_field_agrees`, `C85_reference_derivatives`, `C85_reference_vertical_derivative_refuted`, `C87_subdividing_a_layer`, `C88_levels`, `C88_limits_used`, `C89_azimuth_period`, `C89_flat`, `C89_range`, `C90_incidence_grows_to_the_right`, `C90_left_angle_exists_unique`, `C90_nadir_angle_exists`, `C90_points_to_satellite`, `C90_reference_incidence`, `C91_angle_constants`, `C91_defined_off_the_fault_plane`, `C91_solver_is_okada`, `C92_adjacent_faults_along_dip`, `C92_adjacent_faults_along_strike`, `C92_linear_in_the_slip`, `C92_mirror_image`, `C93_air_on_top`, `C93_reflection_coefficient`, `C94_current_loop`, `C94_line_current_magnetic`, `C94_magnetic_pole`, `C94_static_magnetic_dipole`, `C94_transient_vertical_dipole`, `C95_magnetic_dipoles_half_space`, `C95_static_magnetic_dipoles`, `C96_current_loop`, `C96_dipole_half_space`, `C96_line_current`, `C96_magnetic_dipole_half_space`, `C96_magnetic_pole`, `C96_magnetic_prism`, `C96_point_current_half_space`, `C96_static_magnetic_dipole`, `C96_transient_vertical_dipole`, `C97_dipole_on_half_space`, `C97_gravity_prism`, `C97_loop_flux_density`, `C97_loop_vector_potential`, `C97_loop_vector_potential_near_axis_refuted`, `C97_magnetic_prism`, `C97_prism_on_edge_refuted`, `C97_transient_dipole_on_half_space`, `C97_wire`, `C98_dipole_electric_field`, `C98_dipole_impulse_response`, `C98_dipole_magnetic_field`, `C98_dipole_vector_potential`, `C98_loop`, `C98_plane_wave`, `C98_plane_wave_surface`, `C98_vertical_dipole_vertical_component`

## 4. Findings: properties the code violates

Each is a theorem (mostly named `..._refuted`); the full statements are in properties.jsonl.

* **C04** Spherical vector transform is an isometry and the two directions are inverse: spherical_to_cartesian maps a unit azimuthal vector to zero at some location, and equals the expansion in the local orthonormal frame exactly when the azimuthal component is zero or cos(polar)=cos(azimuth); cartesian_to_spherical returns the right radial and azimuthal components but a wrong polar component (right on the plane z=0).
* **C14** Prism corner order is validated: the order is not checked by later assignments, which can make the volume negative, and nan corners pass the check.
* **C18** Compiled and pure-Python rTE_forward agree: the numpy version takes mu_0 from scipy, and any other value of mu_0 changes the result for every ground; for an empty frequency array the compiled version raises IndexError where the numpy one returns an empty array.
* **C26** Sphere mass/density/radius bookkeeping: radius 0 is accepted by the radius setter but makes the constructor raise ZeroDivisionError.
* **C32** A rejected assignment leaves the object unchanged: for these two, a rejected rho=inf or a rejected location of shape (3,1) is stored in the electrode while its internal sources keep the old value.
* **C34** Orientation is a unit vector: plane waves accept any other string and store it verbatim.
* **C35** Assigning an attribute never modifies the caller's data, and the caller cannot change the object behind its back: the object reads whatever the caller later writes; orientation normalises the caller's array in place, also corrupting a location that shares it; dipoles built with the default location share one array; the point electrode's location setter writes into the caller's nodes.
* **C36** Locations always have shape (3,): the spheres of em.static accept a (3,k) array as location.
* **C37** Line current nodes form an (n,3) array: n=0 is accepted; n_segments is then -1 and a point electrode's location cannot be read.
* **C42** Current loop near its axis: the third order term of A divides by a^2-4z^2 instead of multiplying, so next to the axis near z = a/2 the returned A exceeds every bound while the exact one stays below 1.
* **C47** Line current field is finite off the wire: it returns a finite value exactly at the points that are off every infinite line through a segment; on the extension of a segment it returns nan.
* **C52** Conducting sphere: E is minus the gradient of the potential: electric_field is -grad potential outside only if there is no contrast, or on the equatorial plane, or at distance R^2 from the centre (the code has R r/r^4 where R^3 r/r^5 is needed).
* **C53** Conducting sphere: current is conserved at the surface: for the returned current_density it holds exactly when R=1, no contrast, or the primary field is tangential.
* **C54** Magnetic sphere obeys magnetostatics: outside H = -grad potential fails in general, and normal B is continuous exactly when R=1, no contrast, or the primary field is tangential.
* **C58** Skin depth is the 1/e distance: skin_depth(quasistatic=False) returns |Im k|/omega^2 instead of 1/|Im k|, and is the 1/e distance exactly when |Im k| equals omega.
* **C59** The quasistatic flag means the same thing everywhere: sigma_hat and wavenumber test 'is True' while skin_depth tests truthiness, so they agree exactly when the flag is not a truthy object other than True (e.g. 1 or numpy.True_).
* **C60** Harmonic electric dipole satisfies Maxwell's equations: curl E = -i w mu H (sigma_hat/sigma), so Faraday's law fails at every point off the dipole axis; sigma/sigma_hat times the returned E would satisfy both laws.
* **C64** Harmonic dipole on a half-space: structure: the permeability of the object is ignored (mu_0 is used), and a scalar frequency with an array of points raises IndexError.
* **C65** Layered dipole: structure of the transform: assigning such a location later is accepted and the field is computed.
* **C66** Layered model arrays stay consistent: an accepted thickness array of another length always makes magnetic_field raise ValueError; so does another number of frequencies when mu (or sigma of a quasistatic object) is two-dimensional.
* **C67** Layered sigma_hat has one row per layer and one column per frequency and equals sigma + i w eps: it does for one layer and one frequency only; with one frequency or quasistatic the array is transposed, with as many layers as frequencies the entry [l,f] belongs to layer f, otherwise the shape is wrong or the property raises.
* **C75** Line-of-sight vectors have unit length: locations given as an array with a location in each row (what plot_displacement passes) always raise.
* **C76** Oksar simulation grid and displacement can be evaluated: the getter of V returns an attribute that is never set, so after any history reading V, simulation_grid, displacement_vector and plot_displacement raise AttributeError. Were V readable: the grid has shape[0]*shape[1] points but is origin + s U + t V exactly when U[1] = V[0]; displacement_vector raises for every slipping fault unless the grid has one or three points, for which it returns three rows mixing the stations (row c: component c at the first two stations, turned as if it were a horizontal vector, and component c at the third), and returns one zero vector, not one per point, when slip = 0.
* **C77** Interferogram metadata reads back what was stored: local_rigidity can never be read (AttributeError), and event_date reads processed_date.
* **C78** Interferogram raster layout: the docstrings describe location, shape and pixel_size as (northing, easting) with the bottom left corner, but the code reads them as (easting, northing) with the top left corner.
* **C80** Oksar fault parameters stay in range: reassigning depth_top can put it below depth_bottom.
* **C81** Oksar displacement at a point does not depend on the other points: it does depend on the other points otherwise (far points make the solver round a near point's coordinates to 0), and batches of sizes other than one and three raise.
* **C82** plot2Ddata does not modify its option dictionaries: contourOpts loses its vmin and vmax entries (also when the call fails later), so the same call made twice is coloured differently; it is unchanged exactly when it held neither. All other dictionaries are untouched.
* **C83** plot2Ddata draws level lines for scalar and vector data: with vec=True it never does (TypeError, after the filled contours and streamlines are drawn). Also, figname together with ax always fails (NameError).
* **C85** Reference and vectorised transient formulas agree: inside the reference file dhp_from_vert_4_74 is the time derivative of hp_from_vert_4_72, but dhz_from_vert_4_70 is minus the time derivative of hz_from_vert_4_69a.
* **C86** Frequencies and times stay valid under any history: 0 is accepted although the message says the values must be greater than 0, and nan is accepted.
* **C97** Change of the unit of length: this fails, so the code is dimensionally inconsistent, at three places: the vector potential of a circular loop inside the thin cone around its axis where a series is used (every point off the axis), the electric field outside a sphere in a uniform field, and the gradient and field of a prism at a point on one of its edges.
* **C99** Layered attributes accept exactly admissible values: 0 is accepted although the error message demands values greater than 0); thickness None is a half-space. Assigning sigma, mu or epsilon stores exactly a number (repeated for all layers), an array (n_layer,) or an array (n_layer, n_frequency) whose entries have non-negative imaginary parts and real parts > 0, >= mu_0, >= epsilon_0. An entry out of range raises ValueError, anything else TypeError, and the other attributes never change; so after construction and any history of assignments, accepted or refused, every stored entry is admissible.
* **C101** Arrays of points of any shape in the static, gravity and half-space methods: unlike the fields, vector_distance and distance do not reject rows of a single number x, but return the distance to the point (x, x, x).
* **C103** Arrays of frequencies and receivers over a half-space and a layered earth: (C103_half_space_rejects_width_one_refuted) the half-space method accepts rows of a single number x and computes the field at (x, x); a scalar frequency with an array of receivers raises IndexError.
* **C104** What every assignable attribute accepts, stores and refuses: a plane wave's orientation keeps any text other than X and Y; a single number as its orientation raises TypeError instead of ValueError because composing the message fails; spheres convert with a bare float(), so text raises ValueError where the other classes raise TypeError; pixel_size and the fault's shape raise TypeError for a wrong shape where the other vectors raise ValueError.
* **C105** Calling a class binds, defaults and stores the arguments as documented: the documented mass argument of the gravity sphere is accepted and silently ignored, since rho is assigned after it.
* **C108** The logarithmic prism kernels in floating point: at negative edge coordinates the sum y + r cancels and is tested against exactly 0, so in the whole cone |x|, |z| <= 2^-27 |y| the result is log(-2 y), the value meant for points on the edge's line, independent of x and z: the error is unbounded, and the difference over the two ends of an edge, which is what gradients, magnetic fields and the wire's vector potential are built of, can get the wrong sign (edge from y = -256 to -1 at distance 2^-20 gives -32 ln 2 where the exact value is near 8 ln 2).
* **C113** Calling the electrode classes stores exactly what was passed, or raises: PointCurrentWholeSpace accepts the numpy number rho=np.float64(0.0), with sigma=inf, and an (n,3) array of any number of locations, of which it reports the first (for n=0 reading location raises IndexError).
* **C116** Harmonic fields are attenuated by the skin depth and lose exactly the power they heat the ground with: without quasistatic=True the ElectricDipoleWholeSpace divides by sigma instead of sigma_hat, and its fields create the power (1/2) omega^2 mu eps / sigma |H|^2 from nothing.
* **C121** Jumps of the gradient and of the magnetic field across a prism's face: on the face itself magnetic_flux_density adds the whole magnetization to the mean H, so its normal component exceeds the common limit from both sides by mu0 (n.M)/2 and is not continuous there.
* **C131** The central-loop transients keep their accuracy in floating point at every time: both formulas subtract nearly equal terms, and from the time 2^25 mu sigma a^2 on every returned value is 0 or more than five times too large, for every loop, ground and library.
* **C132** Values derived from what a user sets are the set values up to a few roundings: a resistivity need not read back exactly (49 Ohm m does not). FINDING (refuted): without the quasi-static approximation the skin depth of every medium with sigma <= 2^-28 omega epsilon is returned as 0.
* **C133** Arrays handed out by attributes cannot put an object into a state its setters refuse: source.location[i] = x is accepted, also for a location above the surface; it changes the location the object reports while the field keeps coming from the old one. FINDING (refuted): obj.frequency[i] = x or obj.time[i] = x with negative x is accepted by every frequency- or time-domain object, and leaves it with samples that the setter refuses.
* **C134** The gravity gradient of a prism is accurate in floating point at every station; far away the relative accuracy is lost: the relative error of a distant prism is not bounded. Where every point of the prism is d to 2 d away along each axis, d at least 1 m, and d^3 is at least 2^60 times the volume, each component of the computed gravitational_field is either 0 or more than seven times too large, and so is every diagonal entry of the computed gradient that is not 0 exactly.
* **C135** Coordinate conversions and back return the point in floating point: a coordinate that is 0 does not come back as 0. However accurate the library's functions are, every point of the y axis other than the origin leaves the plane x = 0, every point of the negative x axis leaves the plane y = 0, and through spherical coordinates every point of the plane z = 0 leaves it; so no relative error bound holds coordinate by coordinate.
* **C136** Electric and magnetic dipoles are dual, and the impedances give back the conductivity: with displacement currents the electric dipole's fields never have that ratio where H is not zero.
* **C137** The harmonic central-loop response keeps its accuracy in floating point at every frequency: the accuracy is lost at low frequency. Once the skin depth is 8192 radii or more, the returned quadrature component, which is what a conductivity meter reads, is exactly 0 or more than 3 times too large, whatever the library's exponential returns.
* **C138** The vertical transient of a dipole on a half-space keeps its accuracy in floating point at every time: at late times the accuracy is lost. From t = 2^25 mu sigma r^2 on (0.04 s for r = 1 m and 1 mS/m), whatever the library's erf and exp return, both results are exactly 0 or more than 5 times too large, while the exact values are not 0. (Between the two the exact field changes sign; nothing is claimed there.)
* **C140** The dipole on a half-space returns its field at every distance, without overflow or underflow: MagneticDipoleHalfSpace.magnetic_field multiplies iv(n, alpha) by kv(n, alpha), of which the first overflows and the second underflows, although their product is an ordinary number. In floating point with infinities and nan, quasistatic case, from 2000 skin depths on (2000 / sqrt(pi f mu_0 sigma), total or secondary field): both horizontal components returned for a vertical dipole, and the vertical component returned for a horizontal dipole, are exactly 0 or nan, whatever the rounding, the other library functions and iv do, while the exact component is at least 4/x of the dipole field moment/(4 pi r^3), x the number of skin depths.
* **C142** FINDING: the quadrature of the vertical half-space dipole is rounding noise at low frequency; elsewhere its error is bounded: this bound cannot be made relative. Where the skin depth is 8192 distances or more, the returned quadrature component is 0 or more than 7 times too large, however good the exponential and the cube are, because 9 - (9 + ...)exp(-ikr) cancels to fourth order: at 1 Hz over 0.0001 S/m this is every receiver within 5 m of the dipole.
* **C143** The rotation between two normals is accurate in floating point unless they are opposite: the documented promise that v0 is taken to v1 fails for opposite normals. rotation_matrix_from_normals([1,3,7], [-3,-9,-21]) returns a rotation about the z axis, which keeps the third component 7 and misses n1 by more than 1.8 (of at most 2), whatever the dot product: the cross product of the rounded normals is 2^-57 of rounding noise along z, which is above the tolerance 1e-20, so that the branch for opposite normals is not taken.
* **C144** The flux density of a straight wire is accurate in floating point beside it, and lost beyond its ends: beyond the ends relative accuracy is lost. In the cones of half angle 2^-28 around the extensions of the wire the result is exactly the zero vector although the flux density is not zero, because the two cosines whose difference is taken round to the same number.
* **C145** Static dipole fields and the gravity gradient of a point mass are accurate in floating point, but the gradient need be neither symmetric nor zero where it should be: the entries of the gradient are not accurate relatively to themselves. At (3, 3, 3) from the mass the diagonal of the gradient is zero, and the computed first entry is not, for every mass but zero. FINDING: the gradient is a symmetric tensor, and the computed one need not be: with a correctly rounded cube, for a unit mass at the origin and the station (2, 5, 3), entries [0, 1] and [1, 0] differ, because (3 a) b and (3 b) a round differently.
* **C146** The potential of a sphere is accurate in floating point at every station, but its secondary part is lost far away: the secondary potential is not accurate relatively to itself. From 2^19 radii on it is returned as exactly zero although it is not zero, because it is computed as the difference of the total and the primary potential, which round to the same number.
* **C147** Voltages of electrodes in a half-space in floating point: bounded error, exact reciprocity and polarity, and loss far away: far from a pair of electrodes at the surface the potential is returned as exactly zero although it is not zero: this happens at every station at a distance x across the pair (in the direction of the pair) once their separation is at most 2^-55 x.
* **C148** The circular loop in floating point: never outside the domain of the elliptic integrals, but infinite near the wire: at stations nearer to the wire than 2^-27 radii but not on it (7 nanometres for a loop of 1 m) the parameter rounds to 1, the first elliptic integral is infinite there, and vector_potential and the axial component of magnetic_flux_density are returned as infinities with the sign of the current, outside the loop as well as inside, although the exact values are finite.
* **C149** The field of a sphere is accurate in floating point off its surface, and wrong by half the primary field on it: at the surface there is no such bound. The station (1, 2^-28, 0) is outside the unit sphere, but its distance rounds to 1 and the field inside is returned; for a sphere at least twice as conductive as the background the normal component is too small by at least half the primary field.

## 5. What is modelled and what is not

Every definition in `Model_*.v` cites the file and lines it models.

| file | modelled in | not modelled |
|------|-------------|--------------|
| spatial.py | Model_Spatial, Model_Float5, Model_Float9 | the deprecated `*_2_*` aliases (one-line `return`s of the modelled functions) |
| utils.py | Model_Utils | the printed text of `requires` |
| shapes.py | Model_Prism, Model_Setters, Model_Alias | |
| gravity.py | Model_Gravity, Model_Prism, Model_Setters, Model_Alias, Model_Construct, Model_Float, Model_Float3-4, Model_Float11 | |
| kernels/potential_field_prism.py, _extensions/potential_field_prism.pyx | Model_Prism | the ufunc machinery (a kernel is applied entry by entry) |
| kernels/tranverse_electric_reflections.py, _extensions/rTE.pyx, _rTE.cpp, _rTE.h | Model_RTE | memory allocation |
| kernels/__init__.py, _extensions/__init__.py | | which of the two implementations is imported (they are proved equal) |
| em/base.py | Model_Setters, Model_Alias, Model_Construct | |
| em/static/*.py | Model_Static, Model_Batch, Model_Prism, Model_Setters, Model_Construct, Model_Electrodes, Model_Float, Model_Float3, Model_Float10-15, Model_Arrays, Model_Arrays2-4 | scipy's `ellipk`, `ellipe` are the integrals they compute |
| em/fdem/base.py, wholespace.py, halfspace.py, simple_functions.py | Model_FDEM, Model_Float3, Model_Float6, Model_Float8, Model_Special, Model_Arrays, Model_Arrays2-4, Model_Setters, Model_Construct | scipy's `iv`, `kv` are arbitrary functions |
| em/fdem/layered.py | Model_Layered, Model_RTE | the libdlf filter is an arbitrary base and coefficient list |
| em/tdem/*.py | Model_TDEM, Model_Float2, Model_Float3, Model_Float7, Model_Arrays, Model_Arrays2-4, Model_Setters, Model_Construct | scipy's `erf`, `ive` are their integrals |
| earthquake/oksar.py | Model_Interf, Model_Oksar, Model_Setters | matplotlib output, `example()`'s file download |
| plotting_utils.py | Model_Plot | the pixels: a call is the list of matplotlib calls it makes |

Not modelled anywhere: signed zeros; IEEE overflow and underflow outside Model_Special; rounding outside Model_Float and Model_Float2-15; numpy dtypes (an integer array that is
normalised in place, for instance); warnings; threads; docstrings and the documentation tooling.
