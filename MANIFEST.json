{
 "claims": [
  {
   "property": "C01",
   "status": "proved",
   "theorems": [
    "C01_cartesian_cylindrical_cartesian",
    "C01_cylindrical_cartesian_cylindrical",
    "C01_cylindrical_range"
   ],
   "note": ""
  },
  {
   "property": "C02",
   "status": "proved",
   "theorems": [
    "C02_vector_round_trip",
    "C02_vector_round_trip_back",
    "C02_vector_isometry",
    "C02_radial_direction"
   ],
   "note": ""
  },
  {
   "property": "C03",
   "status": "proved",
   "theorems": [
    "C03_cartesian_spherical_cartesian",
    "C03_spherical_cartesian_spherical",
    "C03_spherical_range"
   ],
   "note": ""
  },
  {
   "property": "C04",
   "status": "proved",
   "theorems": [
    "C04_spherical_to_cartesian_vec_refuted",
    "C04_spherical_to_cartesian_vec_exact_domain",
    "C04_cartesian_to_spherical_vec_refuted",
    "C04_cartesian_to_spherical_vec_exact_domain",
    "C04_frame_is_orthonormal"
   ],
   "note": "Property is violated by the code: the two _refuted theorems exhibit it, the two _exact_domain theorems say exactly which components are right."
  },
  {
   "property": "C05",
   "status": "proved",
   "theorems": [
    "C05_rotation_matrix_from_normals",
    "C05_rotation_matrix_rejects_bad_shapes"
   ],
   "note": ""
  },
  {
   "property": "C06",
   "status": "proved",
   "theorems": [
    "C06_rotate_points_is_rigid",
    "C06_rotate_points_rejects"
   ],
   "note": ""
  },
  {
   "property": "C07",
   "status": "proved",
   "theorems": [
    "C07_vector_distance",
    "C07_distance",
    "C07_distance_is_a_metric",
    "C07_distance_rejects",
    "C07_vector_dot"
   ],
   "note": ""
  },
  {
   "property": "C08",
   "status": "proved",
   "theorems": [
    "C08_mkvc_column_major",
    "C08_mkvc_every_entry_once",
    "C08_mkvc_rejects_non_arrays"
   ],
   "note": ""
  },
  {
   "property": "C09",
   "status": "proved",
   "theorems": [
    "C09_ndgrid_two_axes",
    "C09_ndgrid_three_axes",
    "C09_ndgrid_two_axes_arrays",
    "C09_ndgrid_three_axes_arrays",
    "C09_ndgrid_one_axis"
   ],
   "note": ""
  },
  {
   "property": "C10",
   "status": "proved",
   "theorems": [
    "C10_check_xyz_dim_array",
    "C10_check_xyz_dim_tuple",
    "C10_check_xyz_dim_empty_tuple",
    "C10_check_xyz_dim_tuple_of_unequal_shapes"
   ],
   "note": ""
  },
  {
   "property": "C11",
   "status": "proved",
   "theorems": [
    "C11_append_ndim_shape",
    "C11_append_ndim_entries",
    "C11_append_ndim_broadcast"
   ],
   "note": ""
  },
  {
   "property": "C12",
   "status": "proved",
   "theorems": [
    "C12_requires_present",
    "C12_requires_absent"
   ],
   "note": ""
  },
  {
   "property": "C13",
   "status": "proved",
   "theorems": [
    "C13_repeat_scalar"
   ],
   "note": ""
  },
  {
   "property": "C14",
   "status": "proved",
   "theorems": [
    "C14_prism_accepted_iff_ordered",
    "C14_prism_rejects_non_vectors",
    "C14_new_prism_has_positive_volume",
    "C14_order_after_assignment_refuted",
    "C14_nan_corner_refuted"
   ],
   "note": "Construction part proved; the 'whatever the later assignments' part is refuted by C14_order_after_assignment_refuted and C14_nan_corner_refuted."
  },
  {
   "property": "C15",
   "status": "proved",
   "theorems": [
    "C15_alternating_corner_sum",
    "C15_additive_under_cut",
    "C15_vanishes_unless_all_three_variables",
    "C15_is_triple_integral_of_mixed_derivative",
    "C15_triple_integral_unique",
    "C15_cycle_rotates_axes"
   ],
   "note": ""
  },
  {
   "property": "C16",
   "status": "proved",
   "theorems": [
    "C16_kernel_is_exact_derivative_refuted",
    "C16_potential_kernel_derivative",
    "C16_field_kernel_derivatives",
    "C16_third_derivative_kernels",
    "C16_potential_kernel_symmetric",
    "C16_mixed_third_derivative_is_inverse_distance"
   ],
   "note": "Literal documented relation refuted; proved with the exact two-variable correction terms, third-derivative kernels exact."
  },
  {
   "property": "C17",
   "status": "proved",
   "theorems": [
    "C17_compiled_and_python_kernels_agree"
   ],
   "note": ""
  },
  {
   "property": "C18",
   "status": "proved",
   "theorems": [
    "C18_compiled_is_numpy",
    "C18_other_mu_0_other_result",
    "C18_wrong_shapes_are_rejected",
    "C18_empty_frequencies_refuted"
   ],
   "note": "Agreement proved for all sizes with the C++ value of mu_0; dependence on mu_0 and the empty-array case are refuted."
  },
  {
   "property": "C19",
   "status": "proved",
   "theorems": [
    "C19_gradient_is_the_derivative",
    "C19_gradient_shapes"
   ],
   "note": ""
  },
  {
   "property": "C20",
   "status": "proved",
   "theorems": [
    "C20_compiled_gradient_is_numpy"
   ],
   "note": ""
  },
  {
   "property": "C21",
   "status": "proved",
   "theorems": [
    "C21_split_layer",
    "C21_cut_basement",
    "C21_zero_thickness"
   ],
   "note": ""
  },
  {
   "property": "C22",
   "status": "proved",
   "theorems": [
    "C22_passive",
    "C22_quasistatic_is_covered"
   ],
   "note": ""
  },
  {
   "property": "C23",
   "status": "proved",
   "theorems": [
    "C23_edge_value_is_limit",
    "C23_edge_value_is_limit_zy"
   ],
   "note": ""
  },
  {
   "property": "C24",
   "status": "proved",
   "theorems": [
    "C24_point_mass_field_is_gradient",
    "C24_point_mass_tensor_is_jacobian",
    "C24_point_mass_laplace",
    "C24_point_mass_inverse_square"
   ],
   "note": ""
  },
  {
   "property": "C25",
   "status": "proved",
   "theorems": [
    "C25_sphere_grid_is_pointwise",
    "C25_sphere_outside_is_point_mass",
    "C25_sphere_continuous",
    "C25_sphere_field_is_gradient",
    "C25_sphere_poisson"
   ],
   "note": ""
  },
  {
   "property": "C26",
   "status": "proved",
   "theorems": [
    "C26_mass_always_reads_density_times_volume",
    "C26_assigned_mass_reads_back",
    "C26_radius_keeps_density",
    "C26_positive_radius_constructs",
    "C26_zero_radius_refuted"
   ],
   "note": "All bookkeeping proved; constructibility for radius 0 refuted."
  },
  {
   "property": "C27",
   "status": "proved",
   "theorems": [
    "C27_potential_is_volume_integral"
   ],
   "note": ""
  },
  {
   "property": "C28",
   "status": "proved",
   "theorems": [
    "C28_field_is_gradient",
    "C28_gradient_is_symmetric_jacobian"
   ],
   "note": ""
  },
  {
   "property": "C29",
   "status": "proved",
   "theorems": [
    "C29_poisson"
   ],
   "note": ""
  },
  {
   "property": "C30",
   "status": "proved",
   "theorems": [
    "C30_cut_additivity",
    "C30_linear_in_density",
    "C30_mass"
   ],
   "note": ""
  },
  {
   "property": "C31",
   "status": "proved",
   "theorems": [
    "C31_properties_stay_valid"
   ],
   "note": ""
  },
  {
   "property": "C32",
   "status": "proved",
   "theorems": [
    "C32_rejected_assignment_changes_nothing",
    "C32_half_space_electrode_refuted",
    "C32_dipole_half_space_refuted"
   ],
   "note": "Atomicity proved for all classes but the two half-space electrodes, where it is refuted by concrete reachable states."
  },
  {
   "property": "C33",
   "status": "proved",
   "theorems": [
    "C33_rho_reads_reciprocal",
    "C33_assigning_rho",
    "C33_bad_rho_rejected"
   ],
   "note": ""
  },
  {
   "property": "C34",
   "status": "proved",
   "theorems": [
    "C34_orientation_from_letter",
    "C34_orientation_from_vector",
    "C34_plane_wave_string_refuted"
   ],
   "note": "Dipoles proved; plane waves refuted."
  },
  {
   "property": "C35",
   "status": "proved",
   "theorems": [
    "C35_safe_when_not_a_kept_float_array",
    "C35_copying_setters_never_alias",
    "C35_caller_writes_change_the_object_refuted",
    "C35_orientation_changes_the_callers_array_refuted",
    "C35_same_array_twice_refuted",
    "C35_default_location_is_shared_refuted",
    "C35_point_location_writes_the_callers_nodes_refuted"
   ],
   "note": "Exact domain proved on a heap model; violations outside it exhibited by the _refuted theorems."
  },
  {
   "property": "C36",
   "status": "proved",
   "theorems": [
    "C36_vectors_keep_three_entries",
    "C36_sphere_location_refuted"
   ],
   "note": "Proved for the attributes with a full shape check; refuted for the em.static spheres."
  },
  {
   "property": "C37",
   "status": "proved",
   "theorems": [
    "C37_nodes_are_n_by_3",
    "C37_single_point_is_one_node",
    "C37_accepted_shapes",
    "C37_empty_nodes_refuted"
   ],
   "note": "Shape invariant proved; the empty node list is a finding."
  },
  {
   "property": "C38",
   "status": "proved",
   "theorems": [
    "C38_dipole_magnetostatics"
   ],
   "note": ""
  },
  {
   "property": "C39",
   "status": "proved",
   "theorems": [
    "C39_pole_inverse_square",
    "C39_pole_orientation_irrelevant"
   ],
   "note": ""
  },
  {
   "property": "C40",
   "status": "proved",
   "theorems": [
    "C40_cylindrical_is_a_change_of_basis",
    "C40_on_the_axis",
    "C40_unknown_coordinates_rejected"
   ],
   "note": ""
  },
  {
   "property": "C41",
   "status": "proved",
   "theorems": [
    "C41_vector_potential_is_defined",
    "C41_B_is_curl_A",
    "C41_biot_savart"
   ],
   "note": ""
  },
  {
   "property": "C42",
   "status": "proved",
   "theorems": [
    "C42_flux_density_near_the_axis",
    "C42_on_the_axis",
    "C42_vector_potential_near_the_axis_refuted"
   ],
   "note": "B near and on the axis proved with an explicit error bound; the claim about A is refuted (unbounded error)."
  },
  {
   "property": "C43",
   "status": "proved",
   "theorems": [
    "C43_line_integral"
   ],
   "note": ""
  },
  {
   "property": "C44",
   "status": "proved",
   "theorems": [
    "C44_field_is_minus_gradient",
    "C44_closed_wire_has_no_field",
    "C44_only_the_ends_matter",
    "C44_two_electrodes",
    "C44_one_node_is_a_point_source",
    "C44_ohm"
   ],
   "note": ""
  },
  {
   "property": "C45",
   "status": "proved",
   "theorems": [
    "C45_biot_savart"
   ],
   "note": ""
  },
  {
   "property": "C46",
   "status": "proved",
   "theorems": [
    "C46_subdividing_changes_nothing",
    "C46_reversing_negates",
    "C46_joining_adds"
   ],
   "note": ""
  },
  {
   "property": "C47",
   "status": "proved",
   "theorems": [
    "C47_finite_exactly_off_the_lines",
    "C47_finite_off_the_wire_refuted"
   ],
   "note": "Exact domain of finiteness proved; the property as a user expects it is refuted on the extension of a segment."
  },
  {
   "property": "C48",
   "status": "proved",
   "theorems": [
    "C48_vector_potential_integral",
    "C48_curl_of_vector_potential"
   ],
   "note": ""
  },
  {
   "property": "C49",
   "status": "proved",
   "theorems": [
    "C49_ohm_and_laplace",
    "C49_flux_is_the_current"
   ],
   "note": ""
  },
  {
   "property": "C50",
   "status": "proved",
   "theorems": [
    "C50_electrode_sources_in_sync",
    "C50_dipole_sources_in_sync",
    "C50_half_space_fields",
    "C50_dipole_half_space_fields",
    "C50_points_above_ground_rejected",
    "C50_dipole_points_above_ground_rejected"
   ],
   "note": ""
  },
  {
   "property": "C51",
   "status": "proved",
   "theorems": [
    "C51_reciprocity",
    "C51_difference_of_potentials"
   ],
   "note": ""
  },
  {
   "property": "C52",
   "status": "proved",
   "theorems": [
    "C52_total_is_primary_plus_secondary",
    "C52_inside_field_is_minus_gradient",
    "C52_outside_exact_domain",
    "C52_outside_gradient_refuted",
    "C52_outside_gradient_value",
    "C52_potential_continuous",
    "C52_no_contrast"
   ],
   "note": "Inside, modes, continuity proved; outside refuted with the exact domain where it holds."
  },
  {
   "property": "C53",
   "status": "proved",
   "theorems": [
    "C53_surface_limits",
    "C53_normal_current_exact_domain",
    "C53_normal_current_refuted",
    "C53_potential_conserves_current_and_charge"
   ],
   "note": "Surface limits computed; normal continuity of the returned current refuted with exact domain; potential and charge density proved."
  },
  {
   "property": "C54",
   "status": "proved",
   "theorems": [
    "C54_tangential_H_continuous",
    "C54_B_is_mu_H",
    "C54_normal_B_exact_domain",
    "C54_H_is_minus_gradient_refuted",
    "C54_H_is_minus_gradient_inside"
   ],
   "note": "Tangential H and B = mu H proved; normal B and H = -grad V outside refuted with exact domain."
  },
  {
   "property": "C55",
   "status": "proved",
   "theorems": [
    "C55_field_is_gradient_of_scalar_potential",
    "C55_gradient_is_jacobian"
   ],
   "note": ""
  },
  {
   "property": "C56",
   "status": "proved",
   "theorems": [
    "C56_flux_density_definition",
    "C56_gradient_trace_free",
    "C56_flux_divergence_free",
    "C56_moment"
   ],
   "note": ""
  },
  {
   "property": "C57",
   "status": "proved",
   "theorems": [
    "C57_dispersion_relation",
    "C57_branch",
    "C57_only_root",
    "C57_outgoing_wave_decays"
   ],
   "note": ""
  },
  {
   "property": "C58",
   "status": "proved",
   "theorems": [
    "C58_quasistatic",
    "C58_full_value",
    "C58_full_exact_domain",
    "C58_full_refuted"
   ],
   "note": "Quasistatic case proved; the other case refuted with exact value and exact domain."
  },
  {
   "property": "C59",
   "status": "proved",
   "theorems": [
    "C59_exact_domain",
    "C59_truthy_flag_refuted"
   ],
   "note": "Exact domain of agreement proved; refuted for truthy objects other than True."
  },
  {
   "property": "C60",
   "status": "proved",
   "theorems": [
    "C60_maxwell_quasistatic",
    "C60_curls_in_general",
    "C60_faraday_refuted",
    "C60_corrected_field"
   ],
   "note": "Quasistatic Maxwell equations proved; Faraday's law refuted for every medium with displacement currents."
  },
  {
   "property": "C61",
   "status": "proved",
   "theorems": [
    "C61_maxwell"
   ],
   "note": ""
  },
  {
   "property": "C62",
   "status": "proved",
   "theorems": [
    "C62_maxwell",
    "C62_transverse",
    "C62_amplitude",
    "C62_decays_downward"
   ],
   "note": ""
  },
  {
   "property": "C63",
   "status": "proved",
   "theorems": [
    "C63_magnetic_dipole",
    "C63_magnetic_dipole_no_electric_field",
    "C63_static_dipole_is_defined",
    "C63_electric_dipole",
    "C63_electric_dipole_magnetic_field"
   ],
   "note": ""
  },
  {
   "property": "C64",
   "status": "proved",
   "theorems": [
    "C64_total_is_secondary_plus_primary",
    "C64_linear_in_moment",
    "C64_superposition_of_orientations",
    "C64_rotation_about_the_vertical",
    "C64_reciprocity",
    "C64_horizontal_field_is_a_gradient",
    "C64_low_frequency_limit",
    "C64_array_of_frequencies",
    "C64_scalar_frequency_refuted",
    "C64_permeability_refuted"
   ],
   "note": "Structure, limits and array call proved; permeability and scalar-frequency claims refuted. Bessel functions are arbitrary function arguments."
  },
  {
   "property": "C65",
   "status": "proved",
   "theorems": [
    "C65_total_is_secondary_plus_static",
    "C65_linear_in_the_dipole",
    "C65_rotation",
    "C65_horizontal_shift",
    "C65_reciprocity",
    "C65_receivers_below_are_refused",
    "C65_constructed_objects",
    "C65_source_below_surface_refuted"
   ],
   "note": "Proved for every filter; the later assignment of a source below the surface is refuted. The Hankel filter is an arbitrary argument."
  },
  {
   "property": "C66",
   "status": "proved",
   "theorems": [
    "C66_careful_histories_work",
    "C66_new_number_of_layers_refuted",
    "C66_new_number_of_frequencies_refuted",
    "C66_exactly_when"
   ],
   "note": "Exact condition proved for every state; the unrestricted claim is refuted."
  },
  {
   "property": "C67",
   "status": "proved",
   "theorems": [
    "C67_one_layer_one_frequency",
    "C67_transposed",
    "C67_square",
    "C67_shape_refuted",
    "C67_raises_refuted"
   ],
   "note": "Refuted, with the exact values returned for every shape."
  },
  {
   "property": "C68",
   "status": "proved",
   "theorems": [
    "C68_total_minus_secondary",
    "C68_flux",
    "C68_linear",
    "C68_low_frequency_bound",
    "C68_low_frequency_limit"
   ],
   "note": ""
  },
  {
   "property": "C69",
   "status": "proved",
   "theorems": [
    "C69_peak_time",
    "C69_diffusion_distance"
   ],
   "note": ""
  },
  {
   "property": "C70",
   "status": "proved",
   "theorems": [
    "C70_maxwell",
    "C70_time_derivatives",
    "C70_constitutive"
   ],
   "note": ""
  },
  {
   "property": "C71",
   "status": "proved",
   "theorems": [
    "C71_faraday",
    "C71_ampere",
    "C71_diffusion_equation",
    "C71_transverse"
   ],
   "note": ""
  },
  {
   "property": "C72",
   "status": "proved",
   "theorems": [
    "C72_flux_time_derivative",
    "C72_field_time_derivative"
   ],
   "note": ""
  },
  {
   "property": "C73",
   "status": "proved",
   "theorems": [
    "C73_field_time_derivative",
    "C73_half_space_dipole",
    "C73_other_rows_are_refused"
   ],
   "note": ""
  },
  {
   "property": "C74",
   "status": "proved",
   "theorems": [
    "C74_loop_field_positive_and_decreasing",
    "C74_loop_field_early",
    "C74_loop_field_late",
    "C74_dipole_potential_bounded"
   ],
   "note": ""
  },
  {
   "property": "C75",
   "status": "proved",
   "theorems": [
    "C75_unit_vectors",
    "C75_succeeds",
    "C75_batch",
    "C75_array_of_locations_refuted"
   ],
   "note": "The list form is proved; the array form is refuted. utm.to_latlon is an arbitrary argument."
  },
  {
   "property": "C76",
   "status": "proved",
   "theorems": [
    "C76_V_never_readable_refuted",
    "C76_grid_displacement_plot_refuted",
    "C76_grid_documented_iff",
    "C76_displacement_sizes_refuted",
    "C76_no_slip_one_vector_refuted",
    "C76_stations_mixed_refuted"
   ],
   "note": "The property is refuted for every object and history; the theorems settle what happens. plot_displacement modelled up to its first reading of V."
  },
  {
   "property": "C77",
   "status": "proved",
   "theorems": [
    "C77_metadata_reads_back",
    "C77_local_rigidity_refuted",
    "C77_event_date_refuted"
   ],
   "note": "24 of 26 attributes proved; local_rigidity and event_date refuted."
  },
  {
   "property": "C78",
   "status": "proved",
   "theorems": [
    "C78_layout",
    "C78_easting_edges",
    "C78_northing_edges",
    "C78_data_kept",
    "C78_wrong_size",
    "C78_wrap",
    "C78_wrap_unique"
   ],
   "note": "One-dimensional data and natural-number shapes."
  },
  {
   "property": "C79",
   "status": "proved",
   "theorems": [
    "C79_date_roundtrip",
    "C79_iso_roundtrip",
    "C79_accepted_is_calendar",
    "C79_date_accepts_only",
    "C79_iso_accepts_only",
    "C79_iso_accepts_exactly",
    "C79_unreadable_raises_value_error",
    "C79_setter"
   ],
   "note": "ASCII strings; strptime modelled by its regular expressions and the datetime constructor's checks."
  },
  {
   "property": "C80",
   "status": "proved",
   "theorems": [
    "C80_parameters_in_range",
    "C80_depths_ordered_while_top_is_not_reassigned",
    "C80_depth_order_refuted"
   ],
   "note": "Ranges proved; depth order proved up to the refuted reassignment of depth_top."
  },
  {
   "property": "C81",
   "status": "proved",
   "theorems": [
    "C81_batch_is_pointwise_when_nothing_is_rounded",
    "C81_other_points_matter_refuted",
    "C81_only_batches_of_one_or_three_refuted",
    "C81_above_the_end_is_refused"
   ],
   "note": "Refuted in general by a concrete fault and batch; proved when nothing is rounded."
  },
  {
   "property": "C82",
   "status": "proved",
   "theorems": [
    "C82_other_dictionaries_unchanged",
    "C82_no_limits_unchanged",
    "C82_limits_removed",
    "C82_unchanged_iff_no_limits_refuted",
    "C82_conflict_raises"
   ],
   "note": "The frame and conflict parts are proved; the contourOpts part is refuted with the exact condition."
  },
  {
   "property": "C83",
   "status": "proved",
   "theorems": [
    "C83_scalar_levels",
    "C83_vector_levels_refuted",
    "C83_vector_levels_type_error",
    "C83_without_levels",
    "C83_figname_with_ax_refuted"
   ],
   "note": "Scalar part proved; the vector part is refuted for every input."
  },
  {
   "property": "C84",
   "status": "proved",
   "theorems": [
    "C84_fdem_electric_dipole_arrays",
    "C84_fdem_magnetic_dipole_arrays",
    "C84_fdem_plane_wave_arrays",
    "C84_tdem_electric_dipole_arrays",
    "C84_tdem_plane_wave_arrays",
    "C84_wrong_width_is_rejected",
    "C84_tuples_are_stacked",
    "C84_gravity_sphere_batch",
    "C84_static_sphere_batch",
    "C84_prism_batch",
    "C84_loop_batch",
    "C84_layered_batch"
   ],
   "note": ""
  },
  {
   "property": "C85",
   "status": "proved",
   "theorems": [
    "C85_field_agrees",
    "C85_derivative_agrees",
    "C85_reference_derivatives",
    "C85_reference_vertical_derivative_refuted"
   ],
   "note": "Agreement up to sign proved for every time and offset; that 4.70 is the derivative of 4.69a is refuted (it is its negative)."
  },
  {
   "property": "C86",
   "status": "proved",
   "theorems": [
    "C86_frequencies_stay_valid",
    "C86_times_stay_valid",
    "C86_valid_samples_read_back",
    "C86_negative_samples_rejected",
    "C86_zero_rejected_refuted"
   ],
   "note": "0 and nan are accepted; the claim that values must be greater than 0 is refuted."
  },
  {
   "property": "C87",
   "status": "proved",
   "theorems": [
    "C87_subdividing_a_layer"
   ],
   "note": ""
  },
  {
   "property": "C88",
   "status": "proved",
   "theorems": [
    "C88_limits_used",
    "C88_levels"
   ],
   "note": ""
  },
  {
   "property": "C89",
   "status": "proved",
   "theorems": [
    "C89_range",
    "C89_flat",
    "C89_azimuth_period"
   ],
   "note": ""
  },
  {
   "property": "C90",
   "status": "proved",
   "theorems": [
    "C90_reference_incidence",
    "C90_points_to_satellite",
    "C90_incidence_grows_to_the_right",
    "C90_nadir_angle_exists",
    "C90_left_angle_exists_unique"
   ],
   "note": ""
  },
  {
   "property": "C91",
   "status": "proved",
   "theorems": [
    "C91_solver_is_okada",
    "C91_elastic_constants",
    "C91_angle_constants",
    "C91_defined_off_the_fault_plane"
   ],
   "note": "Real arithmetic; points whose coordinates are rounded are covered by C81's refutation."
  },
  {
   "property": "C92",
   "status": "proved",
   "theorems": [
    "C92_adjacent_faults_along_strike",
    "C92_adjacent_faults_along_dip",
    "C92_linear_in_the_slip",
    "C92_mirror_image"
   ],
   "note": ""
  },
  {
   "property": "C93",
   "status": "proved",
   "theorems": [
    "C93_reflection_coefficient",
    "C93_air_on_top",
    "C93_air_only"
   ],
   "note": ""
  },
  {
   "property": "C94",
   "status": "proved",
   "theorems": [
    "C94_harmonic_electric_dipole",
    "C94_harmonic_magnetic_dipole",
    "C94_transient_electric_dipole",
    "C94_static_magnetic_dipole",
    "C94_magnetic_pole",
    "C94_current_loop",
    "C94_point_mass",
    "C94_gravity_sphere",
    "C94_sphere_in_uniform_field",
    "C94_line_current_electric",
    "C94_line_current_magnetic",
    "C94_point_current_half_space",
    "C94_dipole_half_space",
    "C94_transient_vertical_dipole"
   ],
   "note": ""
  },
  {
   "property": "C95",
   "status": "proved",
   "theorems": [
    "C95_harmonic_electric_dipoles",
    "C95_harmonic_magnetic_dipoles",
    "C95_harmonic_electric_and_magnetic_dipole",
    "C95_transient_electric_dipoles",
    "C95_static_magnetic_dipoles",
    "C95_point_currents",
    "C95_half_space_electrodes",
    "C95_four_electrodes",
    "C95_magnetic_dipoles_half_space",
    "C95_point_masses"
   ],
   "note": "The layered-earth dipole has reciprocity under C65."
  },
  {
   "property": "C96",
   "status": "proved",
   "theorems": [
    "C96_harmonic_electric_dipole",
    "C96_harmonic_magnetic_dipole",
    "C96_harmonic_plane_wave",
    "C96_transient_electric_dipole",
    "C96_transient_plane_wave",
    "C96_static_magnetic_dipole",
    "C96_magnetic_pole",
    "C96_current_loop",
    "C96_line_current",
    "C96_point_mass",
    "C96_magnetic_dipole_half_space",
    "C96_gravity_sphere",
    "C96_sphere_in_uniform_field",
    "C96_point_current_half_space",
    "C96_dipole_half_space",
    "C96_magnetic_prism",
    "C96_transient_vertical_dipole",
    "C96_transient_loop"
   ],
   "note": "The gravity prism, layered earth and harmonic loop are covered by C30, C65 and C68."
  },
  {
   "property": "C97",
   "status": "proved",
   "theorems": [
    "C97_electric_dipole",
    "C97_magnetic_dipole",
    "C97_plane_wave",
    "C97_dipole_on_half_space",
    "C97_harmonic_loop",
    "C97_transient_electric_dipole",
    "C97_transient_plane_wave",
    "C97_transient_loop",
    "C97_transient_dipole_on_half_space",
    "C97_static_dipole_and_pole",
    "C97_loop_flux_density",
    "C97_loop_vector_potential",
    "C97_loop_vector_potential_near_axis_refuted",
    "C97_wire",
    "C97_electrodes",
    "C97_sphere_potential_and_charge",
    "C97_sphere_field_refuted",
    "C97_point_mass",
    "C97_gravity_sphere",
    "C97_gravity_prism",
    "C97_magnetic_prism",
    "C97_prism_on_edge_refuted",
    "C97_reflection_coefficient",
    "C97_layered_dipole"
   ],
   "note": "Three _refuted theorems show where the scaling fails; the others cover every other point."
  },
  {
   "property": "C98",
   "status": "proved",
   "theorems": [
    "C98_dipole_vector_potential",
    "C98_dipole_electric_field",
    "C98_dipole_magnetic_field",
    "C98_dipole_impulse_response",
    "C98_plane_wave",
    "C98_plane_wave_surface",
    "C98_loop",
    "C98_vertical_dipole_vertical_component",
    "C98_unique"
   ],
   "note": "Improper (conditionally convergent) Riemann integrals; the horizontal components of the half-space dipole, transforms of Bessel products, are not part of the statement."
  },
  {
   "property": "C99",
   "status": "proved",
   "theorems": [
    "C99_frequency",
    "C99_thickness",
    "C99_no_thickness",
    "C99_sigma",
    "C99_mu",
    "C99_epsilon",
    "C99_admissible_after_any_history"
   ],
   "note": ""
  },
  {
   "property": "C100",
   "status": "proved",
   "theorems": [
    "C100_electric_dipole_starts",
    "C100_electric_dipole_dies_out",
    "C100_plane_wave",
    "C100_loop",
    "C100_half_space_dipole",
    "C100_total_change"
   ],
   "note": ""
  },
  {
   "property": "C101",
   "status": "proved",
   "theorems": [
    "C101_conversions",
    "C101_conversions_reject_narrow_rows",
    "C101_magnetic_dipole_and_pole",
    "C101_unknown_coordinates",
    "C101_line_current",
    "C101_half_space_point_current",
    "C101_half_space_dipole",
    "C101_half_space_dipole_two_electrodes",
    "C101_point_mass",
    "C101_transient_half_space_dipole",
    "C101_wrong_width",
    "C101_dipole_helpers",
    "C101_dipole_helpers_reject_width_one_refuted"
   ],
   "note": "The masked evaluations (spheres, loop, prism) and the segment sums of the line current are in C102."
  },
  {
   "property": "C102",
   "status": "proved",
   "theorems": [
    "C102_gravity_prism",
    "C102_magnetic_prism",
    "C102_loop",
    "C102_loop_unknown_coordinates",
    "C102_line_current",
    "C102_static_spheres",
    "C102_gravity_sphere",
    "C102_wrong_width",
    "C102_tuple_of_coordinates"
   ],
   "note": ""
  },
  {
   "property": "C103",
   "status": "proved",
   "theorems": [
    "C103_half_space",
    "C103_half_space_shape",
    "C103_half_space_rejects_width_one_refuted",
    "C103_half_space_refuses",
    "C103_layered",
    "C103_layered_refuses",
    "C103_squeezed_shape_is_ambiguous"
   ],
   "note": "Receiver arrays of three or more axes in the layered method are not covered."
  },
  {
   "property": "C104",
   "status": "proved",
   "theorems": [
    "C104_assignments_follow_the_table",
    "C104_every_value_has_an_outcome",
    "C104_table_is_complete",
    "C104_read_only_attributes",
    "C104_resistivity_must_be_a_number",
    "C104_sphere_mass_refused",
    "C104_depth_bottom",
    "C104_electrodes_refuse"
   ],
   "note": "What the half-space electrodes accept is C50 and C32; accepted resistivities and sphere masses are C33 and C26."
  },
  {
   "property": "C105",
   "status": "proved",
   "theorems": [
    "C105_call_stores_its_arguments",
    "C105_acceptable_calls_return",
    "C105_malformed_calls_raise",
    "C105_malformed_calls_raise_type_error",
    "C105_called_objects_are_created",
    "C105_oksar_depths",
    "C105_default_loop_has_unit_area",
    "C105_sphere_mass_argument_refuted"
   ],
   "note": "The electrodes that own other sources and the layered dipole are not among the classes called here; for the gravity sphere and Oksar the converse direction is C26 and C104."
  },
  {
   "property": "C106",
   "status": "proved",
   "theorems": [
    "C106_field_is_the_filtered_spectrum",
    "C106_kernels_are_derivatives_of_the_reflected_wave",
    "C106_bessel",
    "C106_spectrum_of_the_ground"
   ],
   "note": "The numbers of the key_101_2009 filter itself (library data) are an argument; how well it approximates the integral is not modelled."
  },
  {
   "property": "C107",
   "status": "proved",
   "theorems": [
    "C107_distance",
    "C107_point_mass",
    "C107_sphere",
    "C107_pole",
    "C107_point_current",
    "C107_half_space"
   ],
   "note": "Flocq's rounding with 53 bits and unbounded exponent (overflow and underflow not modelled)"
  },
  {
   "property": "C108",
   "status": "proved",
   "theorems": [
    "C108_log_of_positive_numbers",
    "C108_accurate_side",
    "C108_constant_in_the_cone",
    "C108_accurate_everywhere_refuted",
    "C108_decreasing_along_an_edge",
    "C108_edge_contribution_sign_refuted"
   ],
   "note": "exact side refers to Model_Prism.v; floats as in C107"
  },
  {
   "property": "C109",
   "status": "proved",
   "theorems": [
    "C109_far_prism_is_a_point_mass",
    "C109_potential_bounds",
    "C109_opposite_points",
    "C109_mirror_images"
   ],
   "note": ""
  },
  {
   "property": "C110",
   "status": "proved",
   "theorems": [
    "C110_loop_is_a_dipole",
    "C110_off_axis",
    "C110_shrinking_loop"
   ],
   "note": ""
  },
  {
   "property": "C111",
   "status": "proved",
   "theorems": [
    "C111_gravity_is_superposition",
    "C111_magnetization_is_superposition",
    "C111_gravity_derivatives",
    "C111_magnetic_derivatives"
   ],
   "note": ""
  },
  {
   "property": "C112",
   "status": "proved",
   "theorems": [
    "C112_far_field_is_a_point_mass",
    "C112_far_prism_is_a_dipole",
    "C112_moment_is_that_of_the_far_dipole"
   ],
   "note": ""
  },
  {
   "property": "C113",
   "status": "proved",
   "theorems": [
    "C113_malformed_calls_raise_type_error",
    "C113_arguments_are_determined",
    "C113_half_space_electrode",
    "C113_half_space_dipole",
    "C113_whole_space_electrode",
    "C113_called_electrodes_are_created",
    "C113_zero_resistivity_refuted",
    "C113_number_of_locations_refuted"
   ],
   "note": "findings: zero numpy resistivity and several locations are accepted by PointCurrentWholeSpace"
  },
  {
   "property": "C114",
   "status": "proved",
   "theorems": [
    "C114_gauss_law_of_a_point_mass",
    "C114_gauss_law_inside_a_sphere",
    "C114_gauss_law_outside_a_sphere",
    "C114_current_of_an_electrode",
    "C114_current_of_a_wire",
    "C114_current_into_the_ground",
    "C114_current_of_an_electrode_pair",
    "C114_flux_of_a_magnetic_dipole",
    "C114_flux_of_a_magnetic_pole",
    "C114_no_net_charge_of_a_sphere",
    "C114_ampere_law_on_the_axis_of_a_loop",
    "C114_long_straight_wire"
   ],
   "note": "surface integrals in spherical coordinates whose polar axis passes through the source(s)"
  },
  {
   "property": "C115",
   "status": "proved",
   "theorems": [
    "C115_below_is_hidden",
    "C115_cover_damps",
    "C115_thick_layer_is_basement",
    "C115_half_disc",
    "C115_weak_induction",
    "C115_strong_induction",
    "C115_field_does_not_see_deep"
   ],
   "note": "numpy version; C18 carries it to the compiled one. Magnetic layers and displacement currents are not covered: there the bound with this rate is false."
  },
  {
   "property": "C116",
   "status": "proved",
   "theorems": [
    "C116_mean_power_flow",
    "C116_magnetic_dipole_attenuates",
    "C116_electric_dipole_attenuates",
    "C116_one_skin_depth",
    "C116_power_is_absorbed",
    "C116_electric_dipole_creates_power",
    "C116_electric_dipole_power_refuted",
    "C116_plane_wave_power",
    "C116_magnetic_dipole_power",
    "C116_electric_dipole_power",
    "C116_magnetic_dipole_energy",
    "C116_electric_dipole_energy"
   ],
   "note": "C116_mean_power_flow shows that the specification's Poynting vector is the time average. The power law of the electric dipole is stated for the quasistatic mode only, where the code's E is right; the refuted case is exact (C116_electric_dipole_creates_power)."
  },
  {
   "property": "C117",
   "status": "proved",
   "theorems": [
    "C117_vertical_component",
    "C117_transverse_component",
    "C117_horizontal_components_add_up",
    "C117_radial_component",
    "C117_vertical_component_of_a_horizontal_dipole"
   ],
   "note": "The transforms of C117_vertical_component and C117_transverse_component are forward transforms (over r); that a field is determined by its Hankel transform is not proved. scipy's iv and kv are arbitrary functions; Nicholson's integral (DLMF 10.32.16) is a hypothesis of the two radial theorems only and is shown to be satisfiable (products_witness)."
  },
  {
   "property": "C118",
   "status": "proved",
   "theorems": [
    "C118_long_wire",
    "C118_short_wire_magnetic",
    "C118_short_wire_electric",
    "C118_closed_wire_is_a_dipole",
    "C118_closed_wire_vector_potential",
    "C118_polygon_is_a_loop",
    "C118_polygon_near_the_axis"
   ],
   "note": "Segments must not be within 1e-20 of the x axis without lying on it, and for the flux density the point must not lie on the line through a segment (the code returns nan there, C45). The vector potential of the loop next to its axis is not compared (it is wrong there, C42)."
  },
  {
   "property": "C119",
   "status": "proved",
   "theorems": [
    "C119_wires",
    "C119_loop_and_wire",
    "C119_loops",
    "C119_dipole_and_wire",
    "C119_dipole_and_loop"
   ],
   "note": "Points of the other source must be outside the double cone rho^2 < 1e-6 (a^2 + z^2) about a loop's axis, where the loop's vector potential is wrong (C42); segments must not be within 1e-20 of the x axis without lying on it; a dipole must not lie on the line through a segment (C45)."
  },
  {
   "property": "C120",
   "status": "proved",
   "theorems": [
    "C120_potential_and_field_are_continuous",
    "C120_field_is_gradient_everywhere",
    "C120_magnetic_scalar_potential_is_continuous"
   ],
   "note": ""
  },
  {
   "property": "C121",
   "status": "proved",
   "theorems": [
    "C121_gradient_jump",
    "C121_magnetic_field_jump",
    "C121_flux_density_at_a_face",
    "C121_both_sides_are_near",
    "C121_normal_flux_is_continuous_refuted"
   ],
   "note": ""
  },
  {
   "property": "C122",
   "status": "proved",
   "theorems": [
    "C122_prism_poisson_relation",
    "C122_dipole_is_gradient_of_mass",
    "C122_pole_and_electrode_are_masses",
    "C122_sphere_is_a_dipole"
   ],
   "note": ""
  },
  {
   "property": "C123",
   "status": "proved",
   "theorems": [
    "C123_shell_and_cube_tile_the_prism",
    "C123_gravity_inside",
    "C123_magnetic_inside"
   ],
   "note": ""
  },
  {
   "property": "C124",
   "status": "proved",
   "theorems": [
    "C124_potential_at_least",
    "C124_potential_is_positive",
    "C124_field_attracts",
    "C124_upper_bounds"
   ],
   "note": ""
  },
  {
   "property": "C125",
   "status": "proved",
   "theorems": [
    "C125_electric_dipole",
    "C125_plane_wave",
    "C125_loop",
    "C125_half_space_dipole",
    "C125_loop_and_dipole_agree"
   ],
   "note": ""
  },
  {
   "property": "C126",
   "status": "proved",
   "theorems": [
    "C126_power_balance",
    "C126_plane_wave_flow",
    "C126_electric_dipole_flow",
    "C126_flow_reverses"
   ],
   "note": ""
  },
  {
   "property": "C127",
   "status": "proved",
   "theorems": [
    "C127_weak_induction_is_linear",
    "C127_shares_add_up",
    "C127_apparent_conductivity",
    "C127_field_at_low_induction",
    "C127_frequency_times_conductivity",
    "C127_static_limit"
   ],
   "note": "Riccati equation of the reflection seen at each height of a layer, integrated with a complex mean-value inequality; induction over the layers; the static limit from the exact frequency-conductivity scaling and the gradient theorem C19."
  },
  {
   "property": "C128",
   "status": "proved",
   "theorems": [
    "C128_polar_axis",
    "C128_sphere_is_superposition",
    "C128_gradient_is_superposition",
    "C128_charges_make_the_potential"
   ],
   "note": "Spherical coordinates about the axis through the point; on each shell the polar integral is a function of the distance alone and is continuously differentiable also on the shell through the point."
  },
  {
   "property": "C129",
   "status": "proved",
   "theorems": [
    "C129_dipole_at_low_induction_numbers",
    "C129_a_meter_displays_the_conductivity",
    "C129_loop_at_low_induction_numbers"
   ],
   "note": "Explicit remainders of the exponential series in the half-plane of decay, up to the fifth power; scipy iv and kv stay arbitrary because the components concerned do not use them."
  },
  {
   "property": "C130",
   "status": "proved",
   "theorems": [
    "C130_the_loads_are_unit_point_loads",
    "C130_solver_is_a_dislocation"
   ],
   "note": "Composition of C91 (the solver is Okada's closed form) with two applications of the fundamental theorem of calculus: both closed-form corner functions are differentiated twice and the result is the traction of the Boussinesq-Cerruti fields. Stations with nothing_rounded as in C91."
  },
  {
   "property": "C131",
   "status": "proved",
   "theorems": [
    "C131_early",
    "C131_late_refuted"
   ],
   "note": "Unbounded exponents (FLX), so overflow and underflow are not modelled. Between the two ranges nothing is claimed. Exact values are those of tloop_hz and tloop_dbz (C74, C125)."
  },
  {
   "property": "C132",
   "status": "proved",
   "theorems": [
    "C132_resistivity_reads_back",
    "C132_exact_read_back_refuted",
    "C132_reassigning_resistivity_changes_nothing",
    "C132_reassigning_settles",
    "C132_orientation_is_a_unit_vector",
    "C132_mass_reads_back",
    "C132_scales",
    "C132_skin_depth_refuted"
   ],
   "note": "Unbounded exponents (FLX), so overflow and underflow are not modelled. The reciprocal theorem fl(1/fl(1/fl(1/x))) = fl(1/x) is proved for every float by splitting the binade at the square root of 2."
  },
  {
   "property": "C133",
   "status": "proved",
   "theorems": [
    "C133_electrodes_cannot_be_moved",
    "C133_reported_location_refuted",
    "C133_samples_stay_valid_refuted"
   ],
   "note": "Heap of Model_Alias: buffers, attributes hold buffer numbers. Locations are three finite numbers, samples 1-d arrays."
  },
  {
   "property": "C134",
   "status": "proved",
   "theorems": [
    "C134_diagonal_is_accurate",
    "C134_poisson",
    "C134_far_away_refuted"
   ],
   "note": "53-bit rounding with unbounded exponent (no overflow or underflow), no fused operations. log and arctan are arguments."
  },
  {
   "property": "C135",
   "status": "proved",
   "theorems": [
    "C135_cylindrical_round_trip",
    "C135_cylindrical_round_trip_back",
    "C135_spherical_round_trip",
    "C135_vectors",
    "C135_zero_coordinates_refuted"
   ],
   "note": "53-bit rounding with unbounded exponent; no signed zeros: arctan2(-0., -1.) is not distinguished from arctan2(0., -1.)."
  },
  {
   "property": "C136",
   "status": "proved",
   "theorems": [
    "C136_duality",
    "C136_plane_wave_impedance",
    "C136_apparent_resistivity",
    "C136_phase",
    "C136_magnetic_dipole_impedance",
    "C136_electric_dipole_impedance",
    "C136_electric_dipole_impedance_refuted"
   ],
   "note": "Exact real arithmetic; the plane wave with horizontal orientation."
  },
  {
   "property": "C137",
   "status": "proved",
   "theorems": [
    "C137_quadrature",
    "C137_in_phase",
    "C137_low_frequency_refuted"
   ],
   "note": "53-bit rounding with unbounded exponent and without signed zeros; numpy complex arithmetic by parts, Smith division."
  },
  {
   "property": "C138",
   "status": "proved",
   "theorems": [
    "C138_early",
    "C138_late_refuted"
   ],
   "note": "53-bit rounding with unbounded exponent; the horizontal components are not covered."
  },
  {
   "property": "C139",
   "status": "proved",
   "theorems": [
    "C139_dipole_many_skin_depths_away",
    "C139_the_ground_becomes_a_mirror",
    "C139_loop_many_skin_depths_wide"
   ],
   "note": "Exact arithmetic; quasistatic=True. The products I1 K1, I2 K2 are any that satisfy Nicholson's integral (as in C117)."
  },
  {
   "property": "C140",
   "status": "proved",
   "theorems": [
    "C140_far_field_of_a_vertical_dipole_lost_refuted",
    "C140_far_field_of_a_horizontal_dipole_lost_refuted"
   ],
   "note": "Zeros carry no sign. The exact field is the one of C139."
  },
  {
   "property": "C141",
   "status": "proved",
   "theorems": [
    "C141_vertical_coplanar_coils_at_every_frequency",
    "C141_central_loop_at_every_frequency",
    "C141_horizontal_coplanar_coils_far_apart"
   ],
   "note": "Exact arithmetic; quasistatic=True. The apparent conductivity is defined in Spec_McNeill, as in C129."
  },
  {
   "property": "C142",
   "status": "proved",
   "theorems": [
    "C142_absolute_error",
    "C142_low_frequency_refuted"
   ],
   "note": "Rounding with unbounded exponent (no overflow or underflow), as in Model_Float; the library functions are arguments of the model with the accuracies of Spec_Float5 and Spec_Float6. The square root is assumed to return h - ih exactly on the negative imaginary axis, as in C137."
  },
  {
   "property": "C143",
   "status": "proved",
   "theorems": [
    "C143_accuracy",
    "C143_up_to_a_right_angle",
    "C143_coordinate_axes",
    "C143_opposite_normals_refuted"
   ],
   "note": "Rounding with unbounded exponent, as in Model_Float; the conversion of the quaternion to a matrix by scipy is taken to be exact. Exact arithmetic is the subject of C05."
  },
  {
   "property": "C144",
   "status": "proved",
   "theorems": [
    "C144_everywhere",
    "C144_beside_the_wire",
    "C144_beyond_the_ends_refuted"
   ],
   "note": "Rounding with unbounded exponent, as in Model_Float. The model covers every polygonal wire; the theorems are about one segment along the x axis from the origin, for which the rotation is the identity and coordinates are not rounded on the way. Exact arithmetic is the subject of C45."
  },
  {
   "property": "C145",
   "status": "proved",
   "theorems": [
    "C145_dipole_flux_density",
    "C145_dipole_vector_potential",
    "C145_point_mass_gradient",
    "C145_vanishing_entry_refuted",
    "C145_symmetry_refuted"
   ],
   "note": "Rounding with unbounded exponent, as in Model_Float. Exact arithmetic is the subject of C24 and C38; the potential and field of the point mass in floating point are in C107."
  },
  {
   "property": "C146",
   "status": "proved",
   "theorems": [
    "C146_every_station",
    "C146_far_secondary_refuted"
   ],
   "note": "Rounding with unbounded exponent, as in Model_Float; one station at a time. The finding asks in addition that the library product of a row with a vector returns floating point numbers. Exact arithmetic is the subject of C52 and C54."
  },
  {
   "property": "C147",
   "status": "proved",
   "theorems": [
    "C147_voltage",
    "C147_pole_pole_reciprocity",
    "C147_polarity",
    "C147_distant_pair_refuted"
   ],
   "note": "Rounding with unbounded exponent, as in Model_Float; one station (or one pair M, N) at a time. At an electrode numpy returns inf or nan and the statement says nothing about the code. Exact arithmetic is the subject of C50, C51 and C95; single electrodes in floating point are in C107."
  },
  {
   "property": "C148",
   "status": "proved",
   "theorems": [
    "C148_domain",
    "C148_off_the_wire",
    "C148_near_the_wire_refuted"
   ],
   "note": "Rounding with unbounded exponent, as in Model_Float, plus infinities and nan as in Model_Special. Starts from the cylindrical coordinates rho and z in the frame of the loop (l.584-585, 718-719); the radial flux density is not modelled here. Exact arithmetic is the subject of C41 to C43."
  },
  {
   "property": "C149",
   "status": "proved",
   "theorems": [
    "C149_off_the_surface",
    "C149_surface_refuted"
   ],
   "note": "Rounding with unbounded exponent, as in Model_Float; one station at a time. The exact field is the one the code states, whose outside part scales as radius / d^2 (C53). C146 is the potential."
  }
 ]
}