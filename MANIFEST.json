{
 "claims": [
  {
   "property": "C01",
   "status": "proved",
   "theorems": [
    "C01_kepler_unit_circle"
   ],
   "note": ""
  },
  {
   "property": "C02",
   "status": "proved",
   "theorems": [
    "C02_kepler_periodic",
    "C02_kepler_time_reversal"
   ],
   "note": "time reversal excludes M = pi (mod 2 pi), where the code evaluates tan at pi/2"
  },
  {
   "property": "C03",
   "status": "proved",
   "theorems": [
    "C03_kepler_circular",
    "C03_kepler_periapsis"
   ],
   "note": "circular case excludes M = pi (mod 2 pi), where the code evaluates tan at pi/2"
  },
  {
   "property": "C04",
   "status": "proved",
   "theorems": [
    "C04_kepler_start_defined",
    "C04_kepler_fold_range"
   ],
   "note": ""
  },
  {
   "property": "C05",
   "status": "proved",
   "theorems": [
    "C05_true_anomaly_conversion",
    "C05_refine_fixes_exactly_roots",
    "C05_kepler_equation_unique_solution"
   ],
   "note": ""
  },
  {
   "property": "C06",
   "status": "proved",
   "theorems": [
    "C06_kepler_jvp_is_derivative"
   ],
   "note": ""
  },
  {
   "property": "C07",
   "status": "proved",
   "theorems": [
    "C07_no_occultation_no_change"
   ],
   "note": ""
  },
  {
   "property": "C08",
   "status": "proved",
   "theorems": [
    "C08_full_occultation",
    "C08_concentric_equal_radius_refuted"
   ],
   "note": "documented exception b=0,|r|=1 is shown to be a genuine failure of the code (arctan2(0,0)=0)"
  },
  {
   "property": "C09",
   "status": "proved",
   "theorems": [
    "C09_even"
   ],
   "note": ""
  },
  {
   "property": "C10",
   "status": "proved",
   "theorems": [
    "C10_greens_basis_preserves_profile"
   ],
   "note": ""
  },
  {
   "property": "C11",
   "status": "proved",
   "theorems": [
    "C11_normalisation_is_disk_flux",
    "C11_disk_flux_closed_form"
   ],
   "note": ""
  },
  {
   "property": "C12",
   "status": "proved",
   "theorems": [
    "C12_uniform_disk_overlap"
   ],
   "note": ""
  },
  {
   "property": "C13",
   "status": "proved",
   "theorems": [
    "C13_uniform_disk_bounds"
   ],
   "note": ""
  },
  {
   "property": "C14",
   "status": "proved",
   "theorems": [
    "C14_kite_area_heron",
    "C14_kite_area_base_height",
    "C14_kite_area_symmetric"
   ],
   "note": ""
  },
  {
   "property": "C15",
   "status": "proved",
   "theorems": [
    "C15_kappas_law_of_cosines",
    "C15_kappas_area"
   ],
   "note": ""
  },
  {
   "property": "C16",
   "status": "proved",
   "theorems": [
    "C16_zero_safe_sqrt_value",
    "C16_zero_safe_sqrt_derivative",
    "C16_zero_safe_sqrt_jvp_linear",
    "C16_zero_safe_sqrt_finite_at_zero",
    "C16_zero_safe_sqrt_never_divides_by_zero",
    "C16_zero_safe_sqrt_bounded_near_zero"
   ],
   "note": ""
  },
  {
   "property": "C17",
   "status": "proved",
   "theorems": [
    "C17_transit_light_curve_flat_off_transit",
    "C17_transit_light_curve_in_front"
   ],
   "note": ""
  },
  {
   "property": "C18",
   "status": "proved",
   "theorems": [
    "C18_emission_central",
    "C18_emission_body_visible",
    "C18_emission_body_hidden",
    "C18_emission_one_entry_per_body"
   ],
   "note": ""
  },
  {
   "property": "C19",
   "status": "proved",
   "theorems": [
    "C19_integrate_constant",
    "C19_integrate_linear",
    "C19_integrate_simpson_cubic",
    "C19_integrate_zero_exposure",
    "C19_single_sample_refuted"
   ],
   "note": "linear exactness needs num_samples>=2 for orders 1,2; the single-sample case is refuted (C19_single_sample_refuted)"
  },
  {
   "property": "C20",
   "status": "proved",
   "theorems": [
    "C20_integrate_is_weighted_average",
    "C20_integrate_bounds"
   ],
   "note": ""
  },
  {
   "property": "C21",
   "status": "proved",
   "theorems": [
    "C21_integrate_validation"
   ],
   "note": ""
  },
  {
   "property": "C22",
   "status": "proved",
   "theorems": [
    "C22_interpolate_periodic",
    "C22_interpolate_range",
    "C22_interpolate_reproduces_grid",
    "C22_interpolate_linear_between",
    "C22_interpolate_outside_window"
   ],
   "note": "jnp.interp(period=...) is modelled from the JAX documentation; proved: periodic, bounded, reproduces grid, linear in between, flat outside the window"
  },
  {
   "property": "C23",
   "status": "proved",
   "theorems": [
    "C23_vectorize_elementwise",
    "C23_vectorize_quantity_elementwise"
   ],
   "note": ""
  },
  {
   "property": "C24",
   "status": "proved",
   "theorems": [
    "C24_transit_orbit_speed_duration",
    "C24_transit_orbit_construction"
   ],
   "note": ""
  },
  {
   "property": "C25",
   "status": "proved",
   "theorems": [
    "C25_transit_orbit_periodic",
    "C25_transit_orbit_mid_transit",
    "C25_transit_orbit_folded_time"
   ],
   "note": ""
  },
  {
   "property": "C26",
   "status": "proved",
   "theorems": [
    "C26_transit_orbit_front_iff_in_transit",
    "C26_transit_orbit_light_curve_flat",
    "C26_transit_orbit_contact"
   ],
   "note": ""
  },
  {
   "property": "C27",
   "status": "proved",
   "theorems": [
    "C27_least_squares",
    "C27_exact_ephemeris_recovered",
    "C27_fitted_period_positive"
   ],
   "note": ""
  },
  {
   "property": "C28",
   "status": "proved",
   "theorems": [
    "C28_nearest_transit",
    "C28_edges_sorted"
   ],
   "note": ""
  },
  {
   "property": "C29",
   "status": "proved",
   "theorems": [
    "C29_mid_transit_at_observed_times",
    "C29_mid_transit_at_reconstructed_times",
    "C29_stored_times_are_the_given_ones",
    "C29_fitted_ephemeris",
    "C29_shape_period",
    "C29_times_from_ttvs",
    "C29_times_are_the_linear_ephemeris_plus_ttvs",
    "C29_stored_ttvs_have_zero_mean",
    "C29_invalid_combinations_raise",
    "C29_overridden_time_transit_refuted"
   ],
   "note": "time_transit overridden by the user: refuted (C29_overridden_time_transit_refuted)"
  },
  {
   "property": "C30",
   "status": "proved",
   "theorems": [
    "C30_expected_transit_times",
    "C30_per_planet"
   ],
   "note": ""
  },
  {
   "property": "C31",
   "status": "proved",
   "theorems": [
    "C31_central_accepts_exactly",
    "C31_central_consistent",
    "C31_central_default"
   ],
   "note": ""
  },
  {
   "property": "C32",
   "status": "proved",
   "theorems": [
    "C32_third_law",
    "C32_total_mass",
    "C32_keeps_period_or_semimajor",
    "C32_from_orbital_properties"
   ],
   "note": ""
  },
  {
   "property": "C33",
   "status": "proved",
   "theorems": [
    "C33_body_validation",
    "C33_valid_body_gives_orbit"
   ],
   "note": ""
  },
  {
   "property": "C34",
   "status": "proved",
   "theorems": [
    "C34_time_peri_round_trip",
    "C34_time_transit_kept",
    "C34_periastron_distance",
    "C34_physical_arguments_give_orbits"
   ],
   "note": ""
  },
  {
   "property": "C35",
   "status": "proved",
   "theorems": [
    "C35_transit",
    "C35_impact_param_kept",
    "C35_omega_minus_90_refuted"
   ],
   "note": "geometry of transit for any exact Kepler solver; sin(omega)=-1 given exactly is a genuine failure of the code (C35_omega_minus_90_refuted)"
  },
  {
   "property": "C36",
   "status": "proved",
   "theorems": [
    "C36_distance_bounds",
    "C36_circular_distance",
    "C36_parallax_only_rescales"
   ],
   "note": ""
  },
  {
   "property": "C37",
   "status": "proved",
   "theorems": [
    "C37_periodic"
   ],
   "note": ""
  },
  {
   "property": "C38",
   "status": "proved",
   "theorems": [
    "C38_barycentre",
    "C38_barycentre_velocity",
    "C38_barycentre_velocity_semiamplitude"
   ],
   "note": ""
  },
  {
   "property": "C39",
   "status": "proved",
   "theorems": [
    "C39_relative_velocity_is_derivative",
    "C39_velocity_is_derivative",
    "C39_central_velocity_is_derivative"
   ],
   "note": "for every exact solver of Kepler's equation (the code's solver returns an approximation whose derivative is defined by the JVP, proved in C05/C06); unconditional for circular orbits"
  },
  {
   "property": "C40",
   "status": "proved",
   "theorems": [
    "C40_radial_velocity_semiamplitude",
    "C40_radial_velocity_circular",
    "C40_radial_velocity_from_masses",
    "C40_radial_velocity_sign"
   ],
   "note": ""
  },
  {
   "property": "C41",
   "status": "proved",
   "theorems": [
    "C41_stored_semiamplitude_central",
    "C41_stored_semiamplitude_body_refuted"
   ],
   "note": "central and radial velocity as expected; body and relative velocity refuted (C41_stored_semiamplitude_body_refuted)"
  },
  {
   "property": "C42",
   "status": "proved",
   "theorems": [
    "C42_node_rotates_sky",
    "C42_node_only_changes_node",
    "C42_light_curve_independent_of_node",
    "C42_relative_angles_polar"
   ],
   "note": ""
  },
  {
   "property": "C43",
   "status": "proved",
   "theorems": [
    "C43_add_body_history",
    "C43_shape",
    "C43_same_as_constructor"
   ],
   "note": ""
  },
  {
   "property": "C44",
   "status": "proved",
   "theorems": [
    "C44_vmap_is_pointwise",
    "C44_success_means_every_call",
    "C44_paths_agree",
    "C44_constructor",
    "C44_constructor_heterogeneous",
    "C44_empty_stack",
    "C44_negative_in_axes_refuted",
    "C44_negative_in_axes_loop",
    "C44_size_mismatch_refuted"
   ],
   "note": "non-negative in_axes of matching size; negative in_axes and size mismatch refuted for the loop path (C44_negative_in_axes_refuted, C44_size_mismatch_refuted)"
  },
  {
   "property": "C45",
   "status": "proved",
   "theorems": [
    "C45_arguments_normalised",
    "C45_conversion_spec",
    "C45_strict_spec",
    "C45_leaf_cases",
    "C45_round_trip",
    "C45_idempotent",
    "C45_pass_through",
    "C45_none_without_none_default",
    "C45_decoration_check",
    "C45_field"
   ],
   "note": "multiplicative units; an explicit None for a parameter whose default is not None raises ValueError (C45_none_without_none_default)"
  },
  {
   "property": "C46",
   "status": "proved",
   "theorems": [
    "C46_n_lm_bijection",
    "C46_lm_ijk_bijection",
    "C46_n_ijk_bijection",
    "C46_documented_monomial",
    "C46_docstring_order_refuted",
    "C46_dense_round_trip",
    "C46_dense_round_trip_degree",
    "C46_empty_dense",
    "C46_todense_same_function"
   ],
   "note": "docstring order refuted (C46_docstring_order_refuted); everything else proved"
  },
  {
   "property": "C47",
   "status": "proved",
   "theorems": [
    "C47_add",
    "C47_mul",
    "C47_scalar_multiplication",
    "C47_coefficients_unique",
    "C47_add_scalar_actual",
    "C47_add_scalar_refuted"
   ],
   "note": "p + scalar refuted as addition of a constant (C47_add_scalar_refuted), with its actual meaning proved"
  },
  {
   "property": "C48",
   "status": "proved",
   "theorems": [
    "C48_limb_darkening_polynomial",
    "C48_quadratic_law"
   ],
   "note": ""
  },
  {
   "property": "C49",
   "status": "proved",
   "theorems": [
    "C49_poly_basis",
    "C49_dot_product"
   ],
   "note": ""
  },
  {
   "property": "C50",
   "status": "proved",
   "theorems": [
    "C50_Ylm_is_harmonic",
    "C50_Ylm_degree",
    "C50_A1_action",
    "C50_A1_invertible"
   ],
   "note": ""
  },
  {
   "property": "C51",
   "status": "proved",
   "theorems": [
    "C51_gtilde_is_curl",
    "C51_gtilde_degree",
    "C51_A2_inv_action",
    "C51_A2_inv_invertible",
    "C51_every_map_is_a_curl",
    "C51_full_change_of_basis",
    "C51_full_change_of_basis_unique"
   ],
   "note": "the l=1,m=0 field has its removable singularity at the origin, which is excluded there"
  },
  {
   "property": "C52",
   "status": "proved",
   "theorems": [
    "C52_rT_is_disk_integral",
    "C52_flux",
    "C52_length"
   ],
   "note": "for every degree"
  },
  {
   "property": "C53",
   "status": "proved",
   "theorems": [
    "C53_rz_formula",
    "C53_rz_rotates_the_map",
    "C53_rz_identity",
    "C53_rz_additive",
    "C53_rz_periodic",
    "C53_rz_power",
    "C53_rz_bad_length",
    "C53_dispatch"
   ],
   "note": "dot_rz for vectors of every degree, with its geometric meaning"
  },
  {
   "property": "C54",
   "status": "proved",
   "theorems": [
    "C54_sky_projection",
    "C54_missing_inclination_flips_obliquity_refuted",
    "C54_full_rotation",
    "C54_small_angles_refuted"
   ],
   "note": "small rotations dropped by the allclose default rtol=1e-5 (C54_small_angles_refuted); obliquity sign flips when the inclination is None (C54_missing_inclination_flips_obliquity_refuted)"
  },
  {
   "property": "C55",
   "status": "proved",
   "theorems": [
    "C55_roundtrip",
    "C55_empty",
    "C55_todense",
    "C55_normalize",
    "C55_normalize_missing",
    "C55_normalize_zero_refuted",
    "C55_getitem_beyond_degree_refuted",
    "C55_invalid_order_refuted",
    "C55_scalar"
   ],
   "note": "Coefficients are exact reals; error cases are those of Python floats."
  },
  {
   "property": "C56",
   "status": "proved",
   "theorems": [
    "C56_product_with_constant",
    "C56_product_refuted",
    "C56_commutative_refuted"
   ],
   "note": "The stated product property is refuted; what the code computes for a constant factor is proved for every map."
  },
  {
   "property": "C57",
   "status": "proved",
   "theorems": [
    "C57_product_matrix_actual",
    "C57_product_matrix_square",
    "C57_product_matrix_last_zero",
    "C57_product_matrix_refuted"
   ],
   "note": "deg_p = floor(sqrt(len p)) is off by one; actual meaning proved for all inputs, product claim refuted in general and proved when the last coefficient is 0"
  },
  {
   "property": "C58",
   "status": "proved",
   "theorems": [
    "C58_amplitude",
    "C58_degree0_refuted"
   ],
   "note": "degree 0 with an occultor ignores the amplitude (C58_degree0_refuted)"
  },
  {
   "property": "C59",
   "status": "proved",
   "theorems": [
    "C59_structure",
    "C59_no_bodies",
    "C59_unocculted",
    "C59_degree0_refuted",
    "C59_never_both"
   ],
   "note": "for any observable and solver; degree-0 stars with several bodies give n-(n-1)f0 (C59_degree0_refuted)"
  },
  {
   "property": "C60",
   "status": "proved",
   "theorems": [
    "C60_one_by_one",
    "C60_aligned"
   ],
   "note": "all histories of add_body"
  },
  {
   "property": "C61",
   "status": "proved",
   "theorems": [
    "C61_first_body",
    "C61_reflex_refuted",
    "C61_no_bodies",
    "C61_scalar_time"
   ],
   "note": "the natural claim (every body counts) is refuted (C61_reflex_refuted)"
  },
  {
   "property": "C62",
   "status": "proved",
   "theorems": [
    "C62_velocity_field",
    "C62_differential_rotation",
    "C62_render_rv",
    "C62_radial_velocity",
    "C62_amplitude",
    "C62_amplitude_refuted",
    "C62_no_inclination_refuted",
    "C62_needs_period"
   ],
   "note": "shear None, as every caller passes it (Surface.vdeg is None otherwise); velocities scale with the amplitude (C62_amplitude_refuted); inclination None is inconsistent (C62_no_inclination_refuted)"
  },
  {
   "property": "C63",
   "status": "proved",
   "theorems": [
    "C63_selection_rules",
    "C63_normalised",
    "C63_definition",
    "C63_solves_recurrence",
    "C63_family",
    "C63_symbol",
    "C63_clebsch_gordan",
    "C63_invalid_m",
    "C63_symbol_of_family",
    "C63_cyclic"
   ],
   "note": "for all integer arguments, unconditionally: value = Racah's formula (existence and uniqueness of the solution of the recurrence proved), cyclic symmetry, orthonormality; floats are exact reals (no overflow or cancellation)"
  },
  {
   "property": "C64",
   "status": "proved",
   "theorems": [
    "C64_grid",
    "C64_image",
    "C64_image_rv",
    "C64_arrays"
   ],
   "note": "Grid, image and coefficient arrays, for every resolution > 1 and every surface. rv=True without shear."
  },
  {
   "property": "C66",
   "status": "proved",
   "theorems": [
    "C66_only_the_numbers_matter",
    "C66_time_units_refuted"
   ],
   "note": "the code does not convert units of transit_times/ttvs: the claim is refuted by a concrete orbit"
  },
  {
   "property": "C67",
   "status": "proved",
   "theorems": [
    "C67_array_of_times_single_planet",
    "C67_array_of_times_refuted"
   ],
   "note": "holds for one planet; refuted for two planets (t0 broadcast along the time axis / shape error)"
  },
  {
   "property": "C68",
   "status": "proved",
   "theorems": [
    "C68_massless_central_position",
    "C68_massless_radial_velocity",
    "C68_massless_radial_velocity_circular"
   ],
   "note": ""
  },
  {
   "property": "C69",
   "status": "proved",
   "theorems": [
    "C69_rotates_the_map",
    "C69_coefficients_determined_by_map",
    "C69_bad_length",
    "C69_zero_angle",
    "C69_compose",
    "C69_z_axis_paths_agree",
    "C69_degree_power",
    "C69_negative_z_axis_refuted"
   ],
   "note": "vectors of every degree and every axis; the only assumption on jax's Rotation.from_rotvec().as_euler('zyz') is its documented meaning (zyz_euler), met by an explicit function (C69_sat); negative z axis refuted"
  },
  {
   "property": "C70",
   "status": "proved",
   "theorems": [
    "C70_left_project",
    "C70_right_left",
    "C70_missing_inclination",
    "C70_roundtrip_without_inclination",
    "C70_roundtrip_without_inclination_refuted",
    "C70_bad_length"
   ],
   "note": "for all angles present or None; obl without inc refuted (C70_roundtrip_without_inclination_refuted)"
  },
  {
   "property": "C71",
   "status": "proved",
   "theorems": [
    "C71_from_limb_darkening",
    "C71_unit_flux"
   ],
   "note": "np.linalg.inv(A1) is a parameter assumed to be a right inverse (one exists: C71_sat)."
  },
  {
   "property": "C65",
   "status": "proved",
   "theorems": [
    "C65_starter",
    "C65_eccentric_anomaly",
    "C65_true_anomaly",
    "C65_relative_position",
    "C65_radial_velocity"
   ],
   "note": "Error bounds of the algorithm in exact real arithmetic (floating-point rounding is not modelled), proved with rational polynomial bounds checked by vm_compute. The true-anomaly bound excludes a window of 8e-15 around apoapsis, where the half-angle tangent may meet its pole; the eccentric-anomaly bound has no exclusion."
  },
  {
   "property": "C72",
   "status": "proved",
   "theorems": [
    "C72_spot",
    "C72_profile"
   ],
   "note": "jnp.linalg.solve is a parameter characterised by the normal equations"
  },
  {
   "property": "C73",
   "status": "proved",
   "theorems": [
    "C73_render",
    "C73_normalize_needs_00",
    "C73_default",
    "C73_pole",
    "C73_intensity_latlon",
    "C73_intensity_latlon_refuted",
    "C73_rotational_phase"
   ],
   "note": "intensity(lat, lon) is mirrored (C73_intensity_latlon_refuted)"
  },
  {
   "property": "C74",
   "status": "proved",
   "theorems": [
    "C74_unocculted",
    "C74_uniform",
    "C74_uniform_occultor_refuted",
    "C74_uniform_transit"
   ],
   "note": "degree-0 maps with an occultor refuted (C74_uniform_occultor_refuted)"
  },
  {
   "property": "C75",
   "status": "proved",
   "theorems": [
    "C75_visible_flux_outside_contact",
    "C75_visible_flux_general",
    "C75_visible_flux_up_to_quadrature",
    "C75_exact_when_quadrature_exact",
    "C75_error_bound",
    "C75_concentric_exact",
    "C75_visible_flux_bounds"
   ],
   "note": "exact-real; the concentric equal-radius point (0,1) is excluded (it is wrong: C08_concentric_equal_radius_refuted); the error is stated in terms of the quadrature error, whose convergence is C81"
  },
  {
   "property": "C77",
   "status": "proved",
   "theorems": [
    "C77_partly_hidden",
    "C77_clear",
    "C77_all_hidden",
    "C77_same_size_refuted",
    "C77_length"
   ],
   "note": "exact-real; the guards (numerical zero offsets, nodes at which the integrand is clamped by eps) are excluded by clear_of_guards; the error is stated in terms of the quadrature error (convergence: C81); (0,1) refuted (C77_same_size_refuted)"
  },
  {
   "property": "C78",
   "status": "proved",
   "theorems": [
    "C78_partly_hidden",
    "C78_error_bound",
    "C78_all_hidden",
    "C78_same_size_refuted",
    "C78_seen_is_rendered"
   ],
   "note": "np.linalg.inv(A2_inv) is a parameter assumed to be a right inverse (one exists: C78_sat); as_euler only through zyz_euler; quadrature error explicit; (0,1) refuted (C78_same_size_refuted)"
  },
  {
   "property": "C79",
   "status": "proved",
   "theorems": [
    "C79_partly_hidden"
   ],
   "note": "as C78; shear None"
  },
  {
   "property": "C76",
   "status": "proved",
   "theorems": [
    "C76_graticule",
    "C76_aligned",
    "C76_radius",
    "C76_body_radius_refuted"
   ],
   "note": "The lines and their alignment with the image proved for every orientation; C76_body_radius_refuted shows the image/graticule mismatch for a body whose radius is not 1. matplotlib, colours and the contour circle are not modelled."
  },
  {
   "property": "C80",
   "status": "proved",
   "theorems": [
    "C80_A1",
    "C80_A2_inv",
    "C80_finite",
    "C80_A2_is_inverse",
    "C80_A2_total",
    "C80_closed_subsets",
    "C80_light_curve",
    "C80_radial_velocity",
    "C80_cache"
   ],
   "note": "mpmath numbers are reals and mp.inf is a separate value; mp.lu_solve is specified by the relation lu_solve_to (least-squares solution of the normal equations), the set order is arbitrary; jnp.linalg.inv / scipy inverse as right_inverse"
  },
  {
   "property": "C81",
   "status": "proved",
   "theorems": [
    "C81_gauss_legendre_exists",
    "C81_limb_dark",
    "C81_polynomial_entries",
    "C81_polynomial_entries_20",
    "C81_solution_vector",
    "C81_light_curve",
    "C81_radial_velocity"
   ],
   "note": "exact-real; the machine epsilon, only a guard, must be small enough for the nodes of the order; roots_legendre is specified by its documented properties (roots of P_n, exact up to degree 2n-1), the existence of such rules is proved; for radial velocities the flux left must exceed the bound on the 20-node rule"
  },
  {
   "property": "C82",
   "status": "proved",
   "theorems": [
    "C82_solution_vector",
    "C82_division_by_zero",
    "C82_outside_refuted",
    "C82_limb_dark",
    "C82_limb_dark_division_by_zero",
    "C82_cache_history"
   ],
   "note": "mp.quad is taken to be an exact integrator (exact_quad; the integral itself is one: C82_sat); mp numbers are reals; where mpmath would return complex powers the model keeps the real part, as sT does; b = 0, r = 0 and the non-partial case are stated as they are (C82_division_by_zero, C82_outside_refuted)"
  },
  {
   "property": "C83",
   "status": "proved",
   "theorems": [
    "C83_disjoint",
    "C83_counted",
    "C83_overlap_refuted",
    "C83_limb_darkened",
    "C83_body",
    "C83_limb_darkened_body"
   ],
   "note": "exact-real; quadrature errors explicit per body (0 unless partly hiding); guards excluded by regular/regular_ld; degree-0 surfaces need flux 1 (otherwise C59_degree0_refuted); overlapping bodies: the general formula C83_counted and the counterexample C83_overlap_refuted"
  },
  {
   "property": "C84",
   "status": "proved",
   "theorems": [
    "C84_blocks",
    "C84_blocks_z",
    "C84_dot_error",
    "C84_dot_approaches",
    "C84_zero_angle",
    "C84_left_project",
    "C84_monopole",
    "C84_monopole_refuted",
    "C84_theta_z_refuted",
    "C84_dot_rz",
    "C84_dot_rz_short",
    "C84_cache",
    "C84_cache_precision_refuted"
   ],
   "note": "exact reals; U ** -1 is any right inverse (inverse_of_U; the adjoint is one: C84_sat); excluded: rotations that keep or reverse the pole about a non-vertical axis and full turns about z (the code divides by a norm that is 0 in exact arithmetic); the violations are C84_monopole_refuted, C84_theta_z_refuted, C84_cache_precision_refuted"
  },
  {
   "property": "C85",
   "status": "proved",
   "theorems": [
    "C85_limb_dark",
    "C85_map",
    "C85_unocculted",
    "C85_point",
    "C85_point_close",
    "C85_total",
    "C85_lengths",
    "C85_concentric_refuted",
    "C85_unocculted_limb_dark_refuted",
    "C85_unocculted_uniform_refuted",
    "C85_rotate_false_refuted",
    "C85_nudged_flux"
   ],
   "note": "exact reals; mp.quad is an exact integrator, U ** -1 any right inverse; the caches are taken to return what their functions return at the working precision of the call (C80_cache, C82_cache_history, C84_cache); obl and inc such that the rotations are expressible (obl = 0 or cos obl <> 1; inc = pi/2 or cos inc <> 0); what fails is in the C85_..._refuted theorems"
  },
  {
   "property": "C86",
   "status": "proved",
   "theorems": [
    "C86_agrees_with_left_project",
    "C86_rotates_the_map",
    "C86_small_rotation_dropped",
    "C86_small_angles_refuted",
    "C86_missing_inclination_refuted",
    "C86_length",
    "C86_precomputed_matrices"
   ],
   "note": "exact reals; as_euler only through zyz_euler (as in C69); the violations (small rotations dropped, missing inclination) are C86_small_angles_refuted and C86_missing_inclination_refuted"
  },
  {
   "property": "C87",
   "status": "proved",
   "theorems": [
    "C87_rotates_the_map",
    "C87_agrees_with_s2fft",
    "C87_zero_axis_refuted",
    "C87_near_pole_refuted"
   ],
   "note": "exact reals; as_euler only through zyz_euler; excluded: heights of the image of the pole in the window of 10 eps around +-1 (C87_near_pole_refuted) and the zero axis (C87_zero_axis_refuted)"
  },
  {
   "property": "C88",
   "status": "proved",
   "theorems": [
    "C88_default",
    "C88_limb_dark",
    "C88_limb_dark_order",
    "C88_map",
    "C88_map_order",
    "C88_uniform",
    "C88_clear_refuted",
    "C88_centred_refuted"
   ],
   "note": "exact reals; hypotheses of C81 and C85 (exact mp.quad, right inverses, Gauss-Legendre rules, tiny eps); C88_clear_refuted and C88_centred_refuted give the impact parameters for which the reference raises"
  },
  {
   "property": "C89",
   "status": "proved",
   "theorems": [
    "C89_transit",
    "C89_transit_bounds",
    "C89_emission_star",
    "C89_emission_counted",
    "C89_emission_overlap_refuted",
    "C89_emission_body",
    "C89_keplerian_mid_transit",
    "C89_transit_orbit_mid_transit",
    "C89_transit_orbit_symmetric"
   ],
   "note": "exact reals; Gauss-Legendre rules and tiny eps as in C81; Keplerian statement for an exact solver of Kepler's equation (C65 bounds the code's); C89_emission_overlap_refuted is the double-counting counterexample"
  },
  {
   "property": "C90",
   "status": "proved",
   "theorems": [
    "C90_star",
    "C90_transit",
    "C90_two_transits_refuted",
    "C90_body"
   ],
   "note": "exact-real; all of the occultors leave a part of the disk visible (a star hidden completely gives 0/0); that the added changes differ from the joint one is proved for two disjoint planets (refuted)"
  },
  {
   "property": "C91",
   "status": "proved",
   "theorems": [
    "C91_relative_position",
    "C91_position",
    "C91_central_position",
    "C91_velocity",
    "C91_central_velocity",
    "C91_relative_velocity",
    "C91_radial_velocity",
    "C91_mixed_parallax_raises",
    "C91_mixed_velocity_raises",
    "C91_no_bodies",
    "C91_missing_mass_raises",
    "C91_radii",
    "C91_light_curve",
    "C91_light_curve_raises"
   ],
   "note": "exact reals; times plain (days) or Quantities in days; central_position needs the masses of the bodies (TypeError otherwise, C68); jax.vmap and pytrees from their documentation; Quantity is a pytree node with static unit"
  },
  {
   "property": "C92",
   "status": "proved",
   "theorems": [
    "C92_value_and_finite_tangent",
    "C92_gradients_finite",
    "C92_gradients_finite_refuted",
    "C92_tangent_is_derivative",
    "C92_gradients",
    "C92_zero_outside_transit"
   ],
   "note": "exact reals; the derivative rules of the JAX primitives are written from JAX's documentation (Model/AutoDiff.v: ties of maximum/minimum share the tangent, abs has derivative 0 at 0, a branch with an infinite partial derivative poisons jnp.where as in reverse mode); at the thresholds of the guards and for nearly touching contact points (16 area^2 < 10 eps) only finiteness is claimed; the refuted theorem states the two exceptional points"
  },
  {
   "property": "C93",
   "status": "proved",
   "theorems": [
    "C93_gradients_finite",
    "C93_gradients_finite_refuted",
    "C93_constructor_finite",
    "C93_constructor_finite_refuted",
    "C93_tangent_is_derivative",
    "C93_constructor_derivative",
    "C93_time_gradient",
    "C93_zero_outside_transit"
   ],
   "note": "exact reals; derivative rules of the JAX primitives as in C92 plus jnp.sqrt (no derivative at 0), x**2 and jnp.mod; the orbit's parameters that enter a singular primitive are supposed differentiated in the refuted theorems (impact parameter and radius ratio for the constructor); the two refuted theorems state the exceptions"
  },
  {
   "property": "C94",
   "status": "proved",
   "theorems": [
    "C94_gradients_finite",
    "C94_constructor_finite",
    "C94_constructor_finite_refuted",
    "C94_constructor_finite_polar_refuted",
    "C94_tangent_is_derivative",
    "C94_constructor_derivative",
    "C94_gradient_in_arguments",
    "C94_time_gradient_is_velocity",
    "C94_light_curve_finite",
    "C94_light_curve_finite_refuted",
    "C94_light_curve_derivative"
   ],
   "note": "exact reals; the solver is any exact one, with the custom derivative rule of core/kepler.py; scalar bodies; derivative rules of the JAX primitives as in C92, C93 plus jnp.cbrt; a value that is not a number in one tangent is not a number whatever is differentiated (reverse mode); derivatives in the eccentricity are two-sided, so at eccentricity 0 they are claimed along paths that stay at eccentricities >= 0; the refuted theorems state the exceptions"
  },
  {
   "property": "C95",
   "status": "proved",
   "theorems": [
    "C95_solution_finite",
    "C95_solution_finite_refuted",
    "C95_solution_derivative",
    "C95_solution_zero_outside",
    "C95_design_finite",
    "C95_design_finite_refuted",
    "C95_design_zero_outside",
    "C95_design_derivative",
    "C95_uniform_finite",
    "C95_uniform_finite_refuted",
    "C95_uniform_derivative"
   ],
   "note": "exact reals; scalar distance, radius and position; derivative rules of the JAX primitives as in C92-C94; A2 arbitrary; quadrature nodes arbitrary; at thresholds of the guards (10 eps) and within them only finiteness is claimed; the refuted theorems state the two singular points and x = y = 0"
  },
  {
   "property": "C96",
   "status": "proved",
   "theorems": [
    "C96_bare_finite",
    "C96_bare_derivative",
    "C96_occulted_finite",
    "C96_occulted_finite_refuted",
    "C96_unhidden",
    "C96_occulted_derivative"
   ],
   "note": "exact reals; inclination and obliquity are not differentiated, the phase is; position angle, phase, coefficients, limb darkening, amplitude, position and radius are; A2 and the quadrature nodes arbitrary; C96_unhidden uses the specification of the Euler angles (C29); the refuted theorem is x = y = 0"
  },
  {
   "property": "C97",
   "status": "proved",
   "theorems": [
    "C97_bare_finite",
    "C97_bare_derivative",
    "C97_dividing_flux",
    "C97_occulted_finite",
    "C97_occulted_finite_refuted",
    "C97_unhidden",
    "C97_occulted_derivative"
   ],
   "note": "exact reals; rigid rotation (shear None); inclination and obliquity are not differentiated; divides_by_nonzero says that the flux in the denominator is not 0; C97_dividing_flux and C97_unhidden use the specification of the Euler angles (C29); the refuted theorem is x = y = 0"
  },
  {
   "property": "C98",
   "status": "proved",
   "theorems": [
    "C98_finite",
    "C98_derivative",
    "C98_times_finite",
    "C98_times_derivative",
    "C98_finite_iff",
    "C98_unhidden",
    "C98_finite_refuted"
   ],
   "note": "exact reals; inclinations and obliquities of the surfaces are not differentiated; the number of bodies and which of them have surfaces are fixed along a path; the refuted theorem is for a system of one body without surface; it uses the specification of the Euler angles (C29)"
  },
  {
   "property": "C99",
   "status": "proved",
   "theorems": [
    "C99_finite",
    "C99_derivative",
    "C99_finite_iff",
    "C99_unhidden",
    "C99_finite_refuted"
   ],
   "note": "exact reals; rigid rotation (no shear); inclinations and obliquities of the surfaces are not differentiated; the number of bodies and which of them have surfaces are fixed along a path; where something is hidden the flux in the denominator is a hypothesis on the quadrature, when nothing is hidden it is the visible flux (C97); the refuted theorem is for a system of one body without surface at one time"
  }
 ]
}