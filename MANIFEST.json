{
 "claims": [
  {
   "property": "C01",
   "status": "proved",
   "theorems": [
    "logger_dump_is_recent_accepted"
   ],
   "note": "Sequential histories, fewer than 2^64 log calls; allocation failure and file I/O not modelled."
  },
  {
   "property": "C02",
   "status": "proved",
   "theorems": [
    "console_hierarchy",
    "console_sequential_effect",
    "console_hierarchy_relaxed_refuted",
    "console_initial"
   ],
   "note": "Proved for all sequentially consistent interleavings of the stores (the stated quantifier). Finding: with memory_order_relaxed alone the hierarchy can break (console_hierarchy_relaxed_refuted)."
  },
  {
   "property": "C03",
   "status": "proved",
   "theorems": [
    "logger_sink_exact",
    "logger_error_never_filtered",
    "logger_levels"
   ],
   "note": "Sinks that re-enter the logger are not modelled."
  },
  {
   "property": "C04",
   "status": "partial",
   "theorems": [
    "concurrent_log_no_race_partial",
    "concurrent_log_race_refuted"
   ],
   "note": "Full claim refuted for every capacity (a paused call lapped by a full turn of the ring); holds when no call in flight is lapped."
  },
  {
   "property": "C05",
   "status": "proved",
   "theorems": [
    "registry_names_unique_and_lookup_exact"
   ],
   "note": "API usage: added objects are new, renamed objects are in the registry; fewer than 2^31-2 objects (int counter)."
  },
  {
   "property": "C06",
   "status": "proved",
   "theorems": [
    "registry_first_free_name"
   ],
   "note": ""
  },
  {
   "property": "C07",
   "status": "partial",
   "theorems": [
    "rename_to_free_name_partial",
    "rename_to_own_name_refuted",
    "rename_to_own_name_always_changes"
   ],
   "note": "Full claim refuted: set_name with the object's own name renames it to name_k."
  },
  {
   "property": "C08",
   "status": "partial",
   "theorems": [
    "C08_refuted",
    "C08_delete_child_partial",
    "C08_other_parent_partial"
   ],
   "note": "Full claim false: delete_child throws for every child of every scene built through the API because child nodes are never entered in node_registry_ (C08_refuted, all reachable states). Proved: in any graph a call that returns removes exactly that child; a node of another parent is rejected without change."
  },
  {
   "property": "C09",
   "status": "partial",
   "theorems": [
    "C09_primitive_partial",
    "C09_other_partial",
    "C09_geometry_partial",
    "C09_prune_partial",
    "C09_refuted_model",
    "C09_refuted_geometry_atomic",
    "C09_refuted_used"
   ],
   "note": "Proved for the nodes of the scene graph: a deletion that returns leaves no reference, one that throws leaves the scene unchanged (not delete_geometry). Full claim false: instances inside a loaded model's graph are not pruned (the view then dereferences a deleted primitive); delete_geometry is not atomic; a used asset can never be deleted because delete_child throws."
  },
  {
   "property": "C10",
   "status": "partial",
   "theorems": [
    "C10_spice_parent_partial",
    "C10_resolves_partial",
    "C10_refuted_callback",
    "C10_refuted_root"
   ],
   "note": "Proved for all histories without callbacks; every node resolves for all histories that leave the root's modes alone. Full claim false: callbacks are not checked against SPICE children, and the root can be changed through get_parent."
  },
  {
   "property": "C11",
   "status": "partial",
   "theorems": [
    "C11_position_partial",
    "C11_scale_partial",
    "C11_velocity_partial",
    "C11_origin_partial",
    "C11_rotation_partial",
    "C11_angular_partial",
    "C11_frame_partial",
    "C11_refuted_rotation",
    "C11_refuted_frame",
    "C11_refuted_stale",
    "C11_no_origin",
    "C11_new_node"
   ],
   "note": "Position, scale, velocity and SPICE origin proved for all histories. get_static_rotation, get_static_angular_velocity and get_spice_frame check the position's mode instead of the rotation's: refuted in every state where the two differ."
  },
  {
   "property": "C12",
   "status": "proved",
   "theorems": [
    "medium_stack_never_overflows",
    "medium_stack_nested_restores",
    "medium_stack_top_is_innermost"
   ],
   "note": "Restoration is proved for any depth; innermost medium up to the capacity 8."
  },
  {
   "property": "C13",
   "status": "partial",
   "theorems": [
    "medium_stack_left_is_removed_partial",
    "medium_stack_overlap_refuted"
   ],
   "note": "Refuted for overlapping volumes."
  },
  {
   "property": "C14",
   "status": "partial",
   "theorems": [
    "frame_buffer_channels_independent_partial",
    "frame_buffer_power_alias_refuted"
   ],
   "note": "Refuted for received direct/indirect/total power (one image) and for sensor response disabling received power."
  },
  {
   "property": "C15",
   "status": "proved",
   "theorems": [
    "catalog_round_trip"
   ],
   "note": "byte-level model of write/read; any tie order of std::sort, any padding; limit: fewer than 2^57 stars (offset arithmetic)"
  },
  {
   "property": "C16",
   "status": "proved",
   "theorems": [
    "catalog_cutoff_is_filter",
    "clip_is_filter"
   ],
   "note": "for every cutoff bit pattern"
  },
  {
   "property": "C17",
   "status": "partial",
   "theorems": [
    "catalog_rejects_foreign_partial",
    "catalog_truncated_accepted_refuted"
   ],
   "note": "bad magic/version rejected for every file; truncated files are accepted with fabricated stars (defect, refuted)"
  },
  {
   "property": "C18",
   "status": "proved",
   "theorems": [
    "tycho_id_round_trip",
    "tycho_id_injective",
    "tycho_id_general"
   ],
   "note": ""
  },
  {
   "property": "C19",
   "status": "partial",
   "theorems": [
    "tycho_loader_in_bounds_partial",
    "tycho_fields_from_own_line_partial",
    "tycho_loader_refuted",
    "tycho_data_line",
    "tycho_other_line"
   ],
   "note": "true for terminated files with parseable ids (and proper motions); three defects refuted"
  },
  {
   "property": "C20",
   "status": "proved",
   "theorems": [
    "clip_triangle_exact",
    "clip_triangle_inside",
    "clip_triangle_outside",
    "frustum_contains_iff"
   ],
   "note": "exact real arithmetic; includes full coverage of the visible part, degenerate triangles included"
  },
  {
   "property": "C21",
   "status": "proved",
   "theorems": [
    "intersect_intervals_exact"
   ],
   "note": ""
  },
  {
   "property": "C22",
   "status": "partial",
   "theorems": [
    "C22_frustum_is_exactly_the_pixel_rectangle_partial",
    "C22_nothing_between_pixels_is_culled_partial",
    "C22_refuted_last_column_is_culled",
    "C22_distorted_exact_partial",
    "C22_refuted_barrel",
    "C22_refuted_pincushion",
    "C22_brown_barrel",
    "C22_brown_pincushion"
   ],
   "note": "The full claim is false: points in the last pixel column or row are culled. Proved: without distortion the frustum is exactly the rectangle between the outermost pixel positions. With any distortion, the frustum is exactly the wedge between the widest edge-pixel rays the camera searched, and the search leaves the corners out of the left and right edges; so every barrel lens culls the ray of a left corner pixel, and a pincushion lens culls rays through the middle of an edge; Brown lenses with non-positive radial terms (as iterated) are barrels, with non-negative ones (exactly inverted) pincushions."
  },
  {
   "property": "C23",
   "status": "proved",
   "theorems": [
    "clip_arc_exact"
   ],
   "note": "crossings assumed exact and resolved (see C39 for the root finders)"
  },
  {
   "property": "C24",
   "status": "proved",
   "theorems": [
    "C24_tiles_partition_image",
    "C24_samples_binned_once"
   ],
   "note": "all tile orders"
  },
  {
   "property": "C25",
   "status": "partial",
   "theorems": [
    "C25_schedule_independent_partial",
    "C25_time_race",
    "C25_sampler_race"
   ],
   "note": "refuted with motion blur or lights (shared time, shared sampler_); proved without"
  },
  {
   "property": "C26",
   "status": "partial",
   "theorems": [
    "C26_weights_partial",
    "C26_always_visible",
    "C26_total_counts_intervals",
    "C26_partly_visible_overcounted",
    "C26_trail_samples",
    "C26_spacing",
    "C26_halved"
   ],
   "note": "refuted for partly visible sources; proved for sources visible throughout"
  },
  {
   "property": "C27",
   "status": "partial",
   "theorems": [
    "C27_points_deposited_partial",
    "C27_point_lost_at_tile_boundary"
   ],
   "note": "refuted: a point whose rounding crosses a tile boundary is dropped; proved otherwise"
  },
  {
   "property": "C28",
   "status": "proved",
   "theorems": [
    "C28_stamping_is_safe_and_exact",
    "C28_stamping_with_occlusion"
   ],
   "note": "exact real sums; the image equals the untiled sum"
  },
  {
   "property": "C29",
   "status": "proved",
   "theorems": [
    "C29_veiling_conserves",
    "C29_rejects_bad_alpha"
   ],
   "note": "exact real arithmetic"
  },
  {
   "property": "C30",
   "status": "partial",
   "theorems": [
    "C30_partition_of_unity_partial",
    "C30_degenerate_cases"
   ],
   "note": "refuted for zero densities and overflow"
  },
  {
   "property": "C31",
   "status": "proved",
   "theorems": [
    "C31_zero_coefficients_are_identity",
    "C31_brown_undistort_inverts",
    "C31_owen_undistort_inverts",
    "C31_brown_round_trip",
    "C31_brown_is_textbook"
   ],
   "note": "Exact real arithmetic. Contraction bound given in terms of the coefficients; existence and uniqueness of the preimage by Banach's theorem, geometric error bound including the tolerance exit."
  },
  {
   "property": "C32",
   "status": "partial",
   "theorems": [
    "C32_refuted_zero_coefficients_double",
    "C32_refuted_undistort_alternates",
    "C32_refuted_round_trip",
    "C32_opencv_offset_by_input_partial",
    "C32_denominator_never_zero"
   ],
   "note": "The claim is false of the code: zero coefficients double every point; undistort alternates. Proved: distort is the documented OpenCV result plus the input, and the division is never by zero."
  },
  {
   "property": "C33",
   "status": "proved",
   "theorems": [
    "C33_project_of_direction",
    "C33_direction_of_projection",
    "C33_with_distortion"
   ],
   "note": "Exact real arithmetic, both conventions; also for any exactly invertible distortion."
  },
  {
   "property": "C34",
   "status": "partial",
   "theorems": [
    "C34_refuted_set_focal_length",
    "C34_refuted_configure_sensor",
    "C34_refuted_set_intrinsics",
    "C34_sensor_setters_unchanged_partial",
    "C34_sensor_electronics_unchanged_partial",
    "C144_setter",
    "C34_convention",
    "C34_sensor_refused"
   ],
   "note": "False for set_focal_length, configure_sensor_* and set_intrinsics (proved for all cameras); proved for all sensor setters. set_quantum_efficiency: C144_setter."
  },
  {
   "property": "C35",
   "status": "partial",
   "theorems": [
    "C35_set_intrinsics_projects_with_K_partial",
    "C35_refuted_principal_point_lost"
   ],
   "note": "set_intrinsic_matrix reads the principal point from the transposed entries, so the claim is false for every K with non-zero principal point; set_intrinsics is correct."
  },
  {
   "property": "C36",
   "status": "partial",
   "theorems": [
    "C36_plain_histories_are_fresh_partial",
    "C36_reinstalling_distortion_refreshes_partial",
    "C36_refuted_axis_convention",
    "C36_refuted_axis_convention_culls_everything",
    "C36_refuted_distortion_field",
    "C36_refuted_solid_angles_not_recomputed",
    "C36_refuted_solid_angles",
    "C36_refuted_after_exception"
   ],
   "note": "Proved for all histories without distortion or convention changes and for a refresh recipe after any history; four kinds of stale cache are proved possible."
  },
  {
   "property": "C37",
   "status": "proved",
   "theorems": [
    "C37_polynomial_through_samples",
    "C37_spline_through_samples",
    "C37_spline_clamped"
   ],
   "note": "exact real arithmetic"
  },
  {
   "property": "C38",
   "status": "proved",
   "theorems": [
    "C38_spline_is_natural_and_C2",
    "C38_no_zero_pivot"
   ],
   "note": "exact real arithmetic"
  },
  {
   "property": "C39",
   "status": "partial",
   "theorems": [
    "C39_linear_partial",
    "C39_quadratic_partial",
    "C39_cubic_three_roots_partial",
    "C39_cubic_misses_roots",
    "C39_quadratic_small_discriminant"
   ],
   "note": "refuted for one-real-root cubics and tiny discriminants; proved elsewhere"
  },
  {
   "property": "C40",
   "status": "partial",
   "theorems": [
    "C40_new_image",
    "C40_addressing_bijective",
    "C40_store_then_read",
    "C40_at_rejects_large_partial",
    "C40_at_index",
    "C40_refuted_negative_column",
    "C40_refuted_negative_outside",
    "C40_refuted_negative_size"
   ],
   "note": "Addressing is a bijection and stores are independent. The rejection claim is false: at(x, y) checks only the upper bounds, so negative coordinates alias another pixel or read outside the buffer; the constructor accepts two negative dimensions."
  },
  {
   "property": "C41",
   "status": "partial",
   "theorems": [
    "C41_sampling_reads_existing_pixels_partial",
    "C41_bilinear_between",
    "C41_bilinear_between_int",
    "C41_centre_sample_partial",
    "C41_refuted_repeat_last_column",
    "C41_refuted_mirror_large",
    "C41_binary32_rounding",
    "C41_refuted_wide_image"
   ],
   "note": "Memory safety for any monotone float rounding up to 2^24+1 pixels a side (false beyond: refuted for binary32), range in exact arithmetic, centres; Repeat maps u=1 to the first column; Mirror is undefined from 2^31 on."
  },
  {
   "property": "C42",
   "status": "partial",
   "theorems": [
    "C42_large_kernels_convolve",
    "C42_small_kernels_flip",
    "C42_symmetric_kernels_partial",
    "C42_refuted_paths_disagree"
   ],
   "note": "The frequency path is linear convolution (convolution theorem proved from FFTW's definition of the DFT); the direct path is correlation; they agree on odd point-symmetric kernels and disagree otherwise."
  },
  {
   "property": "C43",
   "status": "partial",
   "theorems": [
    "C43_memory_safe_partial",
    "C43_content",
    "C43_truncated_rejected",
    "C43_valid_decodes",
    "C43_refuted_height",
    "C43_refuted_width"
   ],
   "note": "For all byte strings under 2 GiB whose header sizes fit int arithmetic: no undefined behaviour; content, truncation and acceptance proved for all byte strings. The unrestricted safety claim is refuted: height INT_MIN and width*3 >= 2^31 overflow int."
  },
  {
   "property": "C44",
   "status": "partial",
   "theorems": [
    "C44_memory_safe_partial",
    "C44_plain_content",
    "C44_rle_round_trip",
    "C44_rle_safe_iff",
    "C44_long_run_safe",
    "C44_refuted_raw_packet",
    "C44_refuted_map_index",
    "C44_refuted_no_map",
    "C44_refuted_16bit"
   ],
   "note": "Safe for every uncompressed file of grey, >=24-bit true colour, or colour-mapped with in-range indices; run-length decoding inverts every valid packet stream and, for every file, is safe exactly when no raw packet overruns the image (over-long run packets are clipped). The full claim is refuted by four classes of malformed file."
  },
  {
   "property": "C45",
   "status": "proved",
   "theorems": [
    "C45_memory_safe",
    "C45_round_trip",
    "C45_header"
   ],
   "note": "Every byte string, text header included; every plain or run-length coded encoding of a -Y +X image; every accepted file starts with #? and has a resolution line naming the decoded size. Pixel values are exact reals (each one is exactly representable as float)."
  },
  {
   "property": "C46",
   "status": "partial",
   "theorems": [
    "C46_unsigned_round_trip",
    "C46_unsigned_monotone_saturating",
    "C46_signed_round_trip_partial",
    "C46_refuted_signed",
    "C46_refuted_uint32"
   ],
   "note": "8 and 16-bit unsigned proved with binary32 rounding; signed negative values come back one too large and 32-bit white is an out-of-range cast, both proved"
  },
  {
   "property": "C47",
   "status": "proved",
   "theorems": [
    "C47_file_order",
    "C47_float_round_trip",
    "C47_upright"
   ],
   "note": "Pixel path of the FITS writer and reader; CFITSIO itself is a function on values"
  },
  {
   "property": "C48",
   "status": "partial",
   "theorems": [
    "C48_partial",
    "C48_small",
    "C48_constructors",
    "C48_refuted"
   ],
   "note": "Holds for up to 2^24+1 samples; for 2^24+2 samples the float conversion of N-1 rounds down and the last sample lies beyond the end (C48_refuted). Doubles are exact reals."
  },
  {
   "property": "C49",
   "status": "partial",
   "theorems": [
    "C49_convert",
    "C49_multiply",
    "C49_add_partial",
    "C49_refuted_affine",
    "C49_compare",
    "C49_compare_same"
   ],
   "note": "Conversions, products, quotients, reciprocals and comparisons agree with SI for all units; sums, multiples and negation agree for all linear units and never for Celsius or Fahrenheit (they work on the raw values)."
  },
  {
   "property": "C50",
   "status": "proved",
   "theorems": [
    "C50_rotation",
    "C50_matrix",
    "C50_axis_angle",
    "C50_short_axis",
    "C50_quaternion",
    "C50_euler",
    "C50_euler_throws",
    "C50_reverse",
    "C50_inverse",
    "C50_compose",
    "C50_parent"
   ],
   "note": "Exact real arithmetic. Every constructor of the API that returns gives a rotation; axis-angle, quaternion and Euler constructors are characterised by turns about axes; an axis shorter than machine epsilon silently gives the identity (C50_short_axis)."
  },
  {
   "property": "C51",
   "status": "partial",
   "theorems": [
    "C51_compose_partial",
    "C51_chain_partial",
    "C51_inverse_partial",
    "C51_matrix_partial",
    "C51_refuted_compose",
    "C51_refuted_inverse",
    "C51_refuted_matrix"
   ],
   "note": "Composition, chains and inverse hold for uniform scales only and are false for non-uniform ones; to_matrix acts as the transform only when the position is zero and scale commutes with rotation (translation is written to the wrong row/column, scale is applied after rotation)."
  },
  {
   "property": "C52",
   "status": "partial",
   "theorems": [
    "C52_accepted_layouts",
    "C52_uniform_layout",
    "C52_edge_layout",
    "C52_overlap_rejected",
    "C52_from_total",
    "C52_elementwise",
    "C52_total_max_min",
    "C52_band_integral",
    "C52_validity",
    "C52_full_list",
    "C52_refuted_short_list"
   ],
   "note": "Exact reals instead of float. Refuted part: an initializer list shorter than the number of bins (and longer than one) leaves bins unset."
  },
  {
   "property": "C53",
   "status": "partial",
   "theorems": [
    "C53_lorentz_spec",
    "C53_refuted_unit",
    "C53_small_error_partial",
    "C53_towards_velocity"
   ],
   "note": "Refuted: the code divides the whole numerator by gamma; for every moving observer some unit direction becomes shorter than 1 and violates the aberration law. Proved: identity at rest, exact throw condition, error against the Lorentz formula at most beta^3/(1-beta), shift towards the velocity."
  },
  {
   "property": "C54",
   "status": "proved",
   "theorems": [
    "C54_readout_in_unit_interval",
    "C54_quiet_readout_is_response",
    "C54_response_shape",
    "C54_sum_over_bins"
   ],
   "note": "For all setter histories, frames and random draws; the shape theorem gives linearity below and constancy from saturation on."
  },
  {
   "property": "C55",
   "status": "partial",
   "theorems": [
    "C55_sample",
    "C55_density",
    "C55_pdf_support",
    "C55_spectral_power",
    "C55_refuted_total_power",
    "C55_negative_power",
    "C55_emitter",
    "C55_emitter_spectral"
   ],
   "note": "sampling, density and spectral power proved over exact reals; refuted for a total power given as a number: every bin receives all of it, so n bins emit n times the power"
  },
  {
   "property": "C56",
   "status": "partial",
   "theorems": [
    "C56_sample",
    "C56_reciprocal_partial",
    "C56_below_partial",
    "C56_refuted_lambertian",
    "C56_null",
    "C56_nonnegative"
   ],
   "note": "Sampling consistency proved for all seven BSDFs; reciprocity and zero below the surface proved except for the Lambertian BSDF, which tests only wi (refuted: light seen from below the surface)."
  },
  {
   "property": "C57",
   "status": "partial",
   "theorems": [
    "C57_coordinate_partial",
    "C57_point_partial",
    "C57_defined",
    "C57_refuted_minus_zero",
    "C57_refuted_largest"
   ],
   "note": "Bit-level model of binary32. Proved for +0 and all numbers up to 2^127 in size that are not negative subnormals below 2^-141; refuted (signed overflow) at -0.0 with a negative normal and at tiny negative numbers, and at FLT_MAX (NaN)."
  },
  {
   "property": "C58",
   "status": "partial",
   "theorems": [
    "C58_centered_partial",
    "C58_refuted_shifted"
   ],
   "note": "Proved for the kernel from which the table is built (cut-off, range and tightness); refuted for shifted sub-pixel kernels: a PSF whose ring 2 is dark on axis but lit at half a pixel is always cut at radius 1."
  },
  {
   "property": "C59",
   "status": "proved",
   "theorems": [
    "C59_field_accepts",
    "C59_beer_lambert"
   ],
   "note": "homogeneous media, exact reals"
  },
  {
   "property": "C60",
   "status": "partial",
   "theorems": [
    "C60_throws",
    "C60_offset_partial",
    "C60_refuted_definition",
    "C60_phase_partial",
    "C60_refuted_irradiance"
   ],
   "note": "refuted for every asteroid: distances are multiplied by the astronomical unit instead of divided, magnitudes are 223.5 too large; what holds (offset constant, phase monotone, exceptions) is proved"
  },
  {
   "property": "C61",
   "status": "proved",
   "theorems": [
    "handle_access_exact"
   ],
   "note": ""
  },
  {
   "property": "C62",
   "status": "partial",
   "theorems": [
    "C62_depth_read_out_of_range",
    "C62_depth_read_partial"
   ],
   "note": "refuted at the far edge; proved strictly inside"
  },
  {
   "property": "C63",
   "status": "proved",
   "theorems": [
    "C63_irradiance_interpolation",
    "C63_irradiance_at_samples"
   ],
   "note": ""
  },
  {
   "property": "C64",
   "status": "partial",
   "theorems": [
    "C64_light_position",
    "C64_light_position_at_samples",
    "C64_rotation_and_scale_lost"
   ],
   "note": "position proved; rotation and scale are dropped by the code"
  },
  {
   "property": "C65",
   "status": "proved",
   "theorems": [
    "C65_pixel_statistics",
    "C65_all_nan",
    "C65_early_exit"
   ],
   "note": ""
  },
  {
   "property": "C66",
   "status": "partial",
   "theorems": [
    "C66_refuted_output_not_quantised",
    "C66_whole_steps_give_levels_partial"
   ],
   "note": "False of the code: rounding is commented out; for every valid sensor some signal gives no level."
  },
  {
   "property": "C67",
   "status": "partial",
   "theorems": [
    "C67_quiet_readout_reproducible_partial",
    "C67_refuted_noisy_readout"
   ],
   "note": "True without noise; false with noise because the generator is a process-wide static."
  },
  {
   "property": "C68",
   "status": "proved",
   "theorems": [
    "C68_gain_db_round_trip",
    "C68_fstop_round_trip",
    "C68_diopters_round_trip",
    "C68_diopters_tiny"
   ],
   "note": "Exact real arithmetic; diopters between 1e-12 and 1e12 in magnitude, smaller ones become focus at infinity."
  },
  {
   "property": "C69",
   "status": "partial",
   "theorems": [
    "C69_samples_on_aperture",
    "C69_rays_meet_at_focus_distance",
    "C69_refuted_with_distortion",
    "C69_projected_area_bounded"
   ],
   "note": "Proved without distortion for both conventions; with distortion the focal point lies at that distance, not depth."
  },
  {
   "property": "C70",
   "status": "proved",
   "theorems": [
    "C70_image_add"
   ],
   "note": "operator+ on float pixels"
  },
  {
   "property": "C71",
   "status": "partial",
   "theorems": [
    "C71_standard_orientation_partial",
    "C71_refuted_orientation"
   ],
   "note": "Holds for -Y +X; refuted for +Y: the row order is not reversed."
  },
  {
   "property": "C72",
   "status": "partial",
   "theorems": [
    "C72_quantisation_partial",
    "C72_counts_exact_partial",
    "C72_refuted_16bit_sensor",
    "C72_refuted_8bit_black",
    "C72_refuted_saturate",
    "C72_saturate"
   ],
   "note": "Holds when the counts fit the file and no SATURATE is given; refuted otherwise"
  },
  {
   "property": "C73",
   "status": "partial",
   "theorems": [
    "C73_position_partial",
    "C73_rotation_partial",
    "C73_refuted_state_callback",
    "C73_refuted_manual",
    "C73_refuted_body"
   ],
   "note": "Proved for all histories, except that after a state callback the rotation must not be set separately (refuted otherwise: position becomes zero), set_manual_transform does not leave SPICE mode, and set_angular_velocity(Vec3) keeps an earlier body-frame flag."
  },
  {
   "property": "C74",
   "status": "proved",
   "theorems": [
    "C74",
    "C74_total"
   ],
   "note": "Instances are named by the path of nodes to them; the transform of an instance as a function of that path is not modelled."
  },
  {
   "property": "C75",
   "status": "proved",
   "theorems": [
    "C75",
    "C75_root"
   ],
   "note": "All reachable scenes."
  },
  {
   "property": "C76",
   "status": "proved",
   "theorems": [
    "C76"
   ],
   "note": "All loaded models none of whose primitives has been deleted; materials are represented by the id of each primitive's material."
  },
  {
   "property": "C77",
   "status": "proved",
   "theorems": [
    "C77",
    "C77_point",
    "C77_carried"
   ],
   "note": "Coquelicot derivatives; exact real arithmetic; the outer scale is constant in time (Transform has no scale rate)."
  },
  {
   "property": "C78",
   "status": "partial",
   "theorems": [
    "C78_partial",
    "C78_refuted"
   ],
   "note": "The inverse's angular velocity is right; its linear velocity is right exactly when omega x position = 0 (the omega x p term is missing): refuted by a spinning frame off the origin."
  },
  {
   "property": "C79",
   "status": "partial",
   "theorems": [
    "C79_partial",
    "C79_covered",
    "C79_refuted",
    "C79_mile_error"
   ],
   "note": "All named units except Mile: its ratio 80467/50 makes a mile 1609.34 m instead of 1609.344 m (off by at most 4 mm), and Mile/Hour differs from MilesPerHour."
  },
  {
   "property": "C80",
   "status": "proved",
   "theorems": [
    "C80_roundtrip",
    "C80_values"
   ],
   "note": "Relative to SPICE's unitim and deltet being mutually inverse (hypothesis faithful); exact real arithmetic."
  },
  {
   "property": "C81",
   "status": "partial",
   "theorems": [
    "C81_rejects",
    "C81_covered_bins_partial",
    "C81_other_bins",
    "C81_refuted_right_gap"
   ],
   "note": "Refuted where a bin reaches beyond the last sample: the last value is extended flat, while the gap before the first sample counts as 0. Exact reals."
  },
  {
   "property": "C82",
   "status": "partial",
   "theorems": [
    "C82_mean_partial",
    "C82_grey",
    "C82_refuted_mean"
   ],
   "note": "Refuted: the overlap test uses the red RGB band only and the last bin as upper end, so layouts covering blue and green only, or in descending order, get the grey average."
  },
  {
   "property": "C83",
   "status": "proved",
   "theorems": [
    "C83_linspace",
    "C83_trapezoid_exact",
    "C83_planck",
    "C83_black_body",
    "C83_magnitudes",
    "C83_wien_scaling",
    "C83_rayleigh_jeans"
   ],
   "note": "Exact reals. black_body with one sample per bin is 0, with none undefined behaviour (wrap-around of size()-1)."
  },
  {
   "property": "C84",
   "status": "partial",
   "theorems": [
    "C84_irradiance_partial",
    "C84_fades_partial",
    "C84_refuted_energy",
    "C84_throws"
   ],
   "note": "phase law and inverse square proved; energy balance refuted: 3/8 of the albedo's share"
  },
  {
   "property": "C85",
   "status": "partial",
   "theorems": [
    "C85_uniform",
    "C85_cosine",
    "C85_power_cosine",
    "C85_ggx",
    "C85_refuted_sine"
   ],
   "note": "uniform, cosine, power-cosine and GGX half-vector samplers proved; sine_hemisphere refuted: it reports 2 sin/pi^2 but draws with density 3 cos^2/(2 pi)."
  },
  {
   "property": "C86",
   "status": "partial",
   "theorems": [
    "C86_magnitude_irradiance",
    "C86_refuted_solar_shape",
    "C86_visual_band"
   ],
   "note": "Pogson's law, albedo linearity, positivity and photon count proved; solar shape refuted: energy shares are used as photon shares"
  },
  {
   "property": "C87",
   "status": "partial",
   "theorems": [
    "C87_surface_light_once_partial",
    "C87_light_behind_delta_surface_refuted",
    "C87_volume_light_twice_refuted"
   ],
   "note": "true for non-delta BSDFs at surfaces; refuted behind delta surfaces (light invisible) and in media (light double counted: no MIS weight on the light sample). Random number generation itself is not modelled; densities are"
  },
  {
   "property": "C88",
   "status": "partial",
   "theorems": [
    "C88_collision_probability",
    "C88_surface_unbiased",
    "C88_scattering_unbiased",
    "C88_isotropic",
    "C88_thin_media_refuted"
   ],
   "note": "holds for mean extinction above 1e-6; refuted below (thin media do not attenuate)"
  },
  {
   "property": "C89",
   "status": "partial",
   "theorems": [
    "C89_lambertian",
    "C89_lommel_seeliger",
    "C89_refuted_cook_torrance",
    "C89_mcewen",
    "C89_oren_nayar",
    "C89_refuted_oren_nayar",
    "C89_refuted_hapke"
   ],
   "note": "Settled for every BSDF. True: Lambertian reflects exactly its albedo, Lommel-Seeliger at most half of it, McEwen at most its albedo (all views), Oren-Nayar at most its albedo for roughness from 0.21 up (and at most 1.6 % more for any). False: Oren-Nayar with roughness up to 0.2 in grazing views, a white isotropic Hapke surface for exactly the views within 60 degrees of the normal, white dielectric Cook-Torrance in every pair of directions."
  },
  {
   "property": "C90",
   "status": "proved",
   "theorems": [
    "C90_kernels",
    "C90_bright"
   ],
   "note": "Exact real arithmetic, one channel (the code is channel-wise)."
  },
  {
   "property": "C91",
   "status": "proved",
   "theorems": [
    "C91_bank",
    "C91_centroid",
    "C91_no_banks"
   ],
   "note": "All positive bank counts; C91_no_banks shows 0 throws and -1 is undefined (constructor does not validate)."
  },
  {
   "property": "C92",
   "status": "partial",
   "theorems": [
    "C92_quarter_partial",
    "C92_refuted"
   ],
   "note": "Same pixel only in the lower left quarter of each pixel; elsewhere the point source is drawn one pixel further (round against floor): half a pixel misregistration."
  },
  {
   "property": "C93",
   "status": "proved",
   "theorems": [
    "C93_shadow_transmittance",
    "C93_shadow_range",
    "C93_scattering_light",
    "C93_surface_light"
   ],
   "note": "exact reals; nesting depth up to the stack capacity 8 (see C13); the answers of Embree are data"
  },
  {
   "property": "C94",
   "status": "proved",
   "theorems": [
    "C94_roulette_unbiased"
   ],
   "note": "exact reals, uniform random number on [0,1]"
  },
  {
   "property": "C95",
   "status": "proved",
   "theorems": [
    "C95_indirect_clamp"
   ],
   "note": "exact reals"
  },
  {
   "property": "C96",
   "status": "proved",
   "theorems": [
    "C96_radiance_nonnegative",
    "C96_bounded",
    "C96_primary"
   ],
   "note": "exact reals; the scene's answers and random numbers are arbitrary data with non-negative radiances and BSDF values"
  },
  {
   "property": "C97",
   "status": "proved",
   "theorems": [
    "C97_nearest_hit",
    "C97_bounds"
   ],
   "note": "tnear = 0; exact real arithmetic"
  },
  {
   "property": "C98",
   "status": "partial",
   "theorems": [
    "C98_hit_data",
    "C98_frame",
    "C98_small_sphere_refuted"
   ],
   "note": "position and normals in full; the frame where the tangent is longer than 1e-4; refuted for spheres with radius below 1e-4"
  },
  {
   "property": "C99",
   "status": "partial",
   "theorems": [
    "C99_position_iff",
    "C99_static_instance",
    "C99_moving_instance_refuted"
   ],
   "note": "exact condition; true for instances at rest; refuted for instances that move during the exposure"
  },
  {
   "property": "C100",
   "status": "partial",
   "theorems": [
    "C100_faces_viewer",
    "C100_perpendicular_iff",
    "C100_uniform_scale_partial",
    "C100_nonuniform_scale_refuted"
   ],
   "note": "facing proved; perpendicular exactly when the normal is an eigenvector of the squared scale: uniform scales proved, others refuted"
  },
  {
   "property": "C101",
   "status": "partial",
   "theorems": [
    "C101_frame",
    "C101_frame_mapped",
    "C101_default_tangent_frame",
    "C101_mesh_without_tangents_refuted"
   ],
   "note": "proved for tangents not parallel to the normal; refuted for meshes without tangents (NaN frame)"
  },
  {
   "property": "C102",
   "status": "proved",
   "theorems": [
    "C102_construction",
    "C102_hit_in_triangle"
   ],
   "note": ""
  },
  {
   "property": "C103",
   "status": "partial",
   "theorems": [
    "C103_faithful_partial",
    "C103_mirrored_throws_partial",
    "C103_shear_refuted"
   ],
   "note": "rotation times positive scales reproduced; mirrored rejected; small shears accepted and dropped"
  },
  {
   "property": "C104",
   "status": "partial",
   "theorems": [
    "C104_decode_increasing",
    "C104_ends",
    "C104_encode_decode",
    "C104_integer_codes",
    "C104_decode_encode",
    "C104_images",
    "C104_encode_not_monotone_refuted",
    "C104_gap_refuted"
   ],
   "note": "proved outside the gap of the published constants (all integer codes covered); refuted in it"
  },
  {
   "property": "C105",
   "status": "proved",
   "theorems": [
    "C105_one_to_one",
    "C105_constant_density",
    "C105_factor_is_area"
   ],
   "note": "uniformity as a bijection with constant Jacobian determinant off the two diagonals (the change-of-variables integral itself is not stated)"
  },
  {
   "property": "C106",
   "status": "proved",
   "theorems": [
    "C106",
    "C106_gone"
   ],
   "note": "All setters of Node, for every reachable scene and node of the graph. Callbacks are accepted always (what that breaks is C10)."
  },
  {
   "property": "C107",
   "status": "proved",
   "theorems": [
    "C107_mcewen",
    "C107_opposition",
    "C107_between"
   ],
   "note": "Exact reals, one spectral bin."
  },
  {
   "property": "C108",
   "status": "partial",
   "theorems": [
    "C108_density_partial",
    "C108_metal_partial",
    "C108_diffuse_onto",
    "C108_diffuse_once",
    "C108_specular_onto_partial",
    "C108_specular_once_partial"
   ],
   "note": "Proved for every regular view (regular_view): cos to the normal at least 1e-4, and either exactly on the normal or outside the cone where ggx_vndf_sample falls back to a fixed tangent. Missing: views within the fallback cone (there the code samples with a tangent that is not orthogonal to the stretched view, so the identity is only approximate) and grazing views. C108_case exhibits a concrete view. Real-number model (no rounding)."
  },
  {
   "property": "C109",
   "status": "proved",
   "theorems": [
    "C109_light_time",
    "C109_position",
    "C109_at_rest"
   ],
   "note": "Fixed-point argument (contraction with factor v/c) over real arithmetic; true_state is read off the TRUE_STATE mode of the same API. Case: C109_case."
  },
  {
   "property": "C110",
   "status": "partial",
   "theorems": [
    "C110_manual",
    "C110_moves",
    "C110_body_refuted",
    "C110_observer"
   ],
   "note": "C110_manual gives the position and orientation at every time; C110_moves proves the derivative part for chains of inertial-rate nodes; C110_body_refuted shows it FALSE for set_body_angular_velocity: the reported angular velocity is the body-frame vector, so it is the true rate exactly when the initial orientation leaves it fixed. Cases: C110_case, C110_body_case."
  },
  {
   "property": "C111",
   "status": "partial",
   "theorems": [
    "C111_position",
    "C111_rotation",
    "C111_refuted_velocity",
    "C111_defined",
    "C111_unknown"
   ],
   "note": "Position and orientation proved. C111_refuted_velocity: the velocity is FALSE: a position-only SPICE node under a moving parent gets the parent's velocity added (C111_case: 60 km/s in place of 30)."
  },
  {
   "property": "C112",
   "status": "partial",
   "theorems": [
    "C112_partial"
   ],
   "note": "C112_partial: what sxform returns is rotation * w, not w: xf2rav's angular velocity is already in the base frame (from CSPICE's documentation, modelled) and the code rotates it again; equal only when the rotation fixes w. Case: C112_case."
  },
  {
   "property": "C113",
   "status": "partial",
   "theorems": [
    "C113",
    "C113_unique",
    "C113_parallel",
    "C113_refuted_rate"
   ],
   "note": "Orientation proved and unique; C113_parallel: for parallel position and velocity the result is NaN (undefined). The angular velocity part is FALSE (C113_refuted_rate: returned as zero on a circular orbit). Case: C113_case."
  },
  {
   "property": "C114",
   "status": "partial",
   "theorems": [
    "C114_aberrated",
    "C114_refuted",
    "C114_refuted_distance"
   ],
   "note": "Proved for ABERRATED_STATE (direction). FALSE in the other two modes (stars are still aberrated: C114_refuted) and for the distance (C114_refuted_distance: the aberrated unit vector is shorter than one in some direction for every moving camera). Case: C114_case."
  },
  {
   "property": "C115",
   "status": "proved",
   "theorems": [
    "C115"
   ],
   "note": "Case: C115_case."
  },
  {
   "property": "C116",
   "status": "proved",
   "theorems": [
    "C116_formula",
    "C116_lobes",
    "C116_surge"
   ],
   "note": "Over the reals."
  },
  {
   "property": "C117",
   "status": "partial",
   "theorems": [
    "C117_consistent_partial",
    "C117_zoom",
    "C117_sensor_refuted"
   ],
   "note": "Proved for every accepted history in which set_sensor is not called while the intrinsics are explicit; refuted for those: set_sensor then keeps the old focal length in pixels."
  },
  {
   "property": "C118",
   "status": "proved",
   "theorems": [
    "C118_pixel",
    "C118_image"
   ],
   "note": "Over the reals; distortion excluded."
  },
  {
   "property": "C119",
   "status": "proved",
   "theorems": [
    "C119_from_pitch",
    "C119_from_size",
    "C119_intrinsics"
   ],
   "note": "Over the reals."
  },
  {
   "property": "C120",
   "status": "partial",
   "theorems": [
    "C120_last_edits_partial",
    "C120_zero_factor_refuted",
    "C120_opaque",
    "C120_alpha_sticks_refuted",
    "C120_reset",
    "C120_reset_alpha",
    "C120_reports_alpha"
   ],
   "note": "Proved for histories without an explicit zero factor on metallic, transmission or emission; refuted for those (an image set later turns the factor into 1). has_alpha is sound but not exact."
  },
  {
   "property": "C121",
   "status": "partial",
   "theorems": [
    "C121_albedo_partial",
    "C121_normals",
    "C121_depth_partial",
    "C121_depth_refuted_transparent",
    "C121_depth_refuted_light",
    "C121_albedo_refuted_nan",
    "C121_id_partial",
    "C121_id_refuted"
   ],
   "note": "Albedo holds when no sample is NaN, depth when no transparent surface or light is met first, id when the first path meets one surface only; each restriction is shown necessary by a refutation."
  },
  {
   "property": "C122",
   "status": "partial",
   "theorems": [
    "C122_panorama_partial",
    "C122_bounds",
    "C122_uniform",
    "C122_seam",
    "C122_seam_refuted",
    "C122_down_refuted"
   ],
   "note": "Proved off the poles and the seam. Refuted: at the seam the image jumps from the last to the first column, and straight down shows what straight up shows (wrap of v = 1 to 0). Exact reals."
  },
  {
   "property": "C123",
   "status": "partial",
   "theorems": [
    "C123_samples_partial",
    "C123_failing_tile_refuted",
    "C123_long_row_refuted",
    "C123_memory",
    "C123_round_trip",
    "C123_written_level",
    "C123_nearest_refuted",
    "C123_colours_partial",
    "C123_extra_samples_refuted",
    "C123_photometric_refuted",
    "C123_gray"
   ],
   "note": "Placement proved for buffers up to 2^31 bytes and reads that succeed; refuted: a failing tile read goes unreported, rows above 2^31 bytes are read from a negative offset, the writer truncates, alpha before other extra samples is taken as a colour, YCbCr and Lab are returned as RGB. libtiff's own behaviour is assumed as documented."
  },
  {
   "property": "C124",
   "status": "partial",
   "theorems": [
    "C124_textures_partial",
    "C124_shared",
    "C124_embedded_refuted",
    "C124_emission_refuted",
    "C124_hdr_refuted",
    "C124_gamma_refuted",
    "C124_order_refuted",
    "C124_two_files_refuted",
    "C124_two_roles_refuted",
    "C124_refuted"
   ],
   "note": "Proved for files on disk that are sRGB or linear, linear emission, one role per file and roughness/metalness in one file. Refuted otherwise: embedded colour textures, emission textures and PNGs with their own gamma are not converted to light, HDR pictures are converted though they hold light, a file first used as emission is later shown unconverted and opaque as base colour, a separate metalness file is ignored. Exact reals."
  },
  {
   "property": "C125",
   "status": "partial",
   "theorems": [
    "C125_pixels_partial",
    "C125_large_refuted",
    "C125_mono_partial",
    "C125_memory",
    "C125_errors_partial",
    "C125_truncated_refuted",
    "C125_round_trip_partial",
    "C125_depth_refuted",
    "C125_colour_space_partial",
    "C125_gamma_refuted",
    "C125_chunk_order"
   ],
   "note": "Proved below 2^31 pixels; libpng as documented. Refuted: larger pictures overflow int, a file cut off in its pixel data makes longjmp skip the destructors of two vectors (undefined behaviour), a 16 bit picture is written back with 8 bits because the bundle's bit_depth is not set on reading, gamma 2.2 and unknown colour spaces come back as sRGB."
  },
  {
   "property": "C126",
   "status": "partial",
   "theorems": [
    "C126_pixels_partial",
    "C126_mono_partial",
    "C126_large_refuted",
    "C126_linear_refuted",
    "C126_mean_refuted",
    "C126_read_errors_partial",
    "C126_bad_arguments",
    "C126_write_partial",
    "C126_leak_refuted",
    "C126_flush_refuted",
    "C126_round_trip_partial"
   ],
   "note": "Reading is proved below 2^31 bytes, beyond which the int size overflows. Values are not linearised (bundle says sRGB, documentation says linear); gray is TurboJPEG's luma, not the mean; a failed compression can leak its buffer; fclose is unchecked, so a late disk error goes unreported."
  },
  {
   "property": "C127",
   "status": "proved",
   "theorems": [
    "C127_bessel",
    "C127_pattern",
    "C127_range",
    "C127_tail",
    "C127_round",
    "C127_dark_ring"
   ],
   "note": "Real arithmetic, one spectral channel. J1 is the sum of its power series (is_J1, infinite_sum). Below 8 the rational approximation is compared with the series by exact integer polynomial arithmetic; beyond 8 the difference satisfies Bessel's equation up to a small residual and is bounded by an energy (Lyapunov) argument from its value at 8. The code's function returns |J1| symmetry for negative arguments (J1 is odd), harmless since evaluate only passes positive ones and squares. The pattern theorem assumes f-number >= 0.01."
  },
  {
   "property": "C128",
   "status": "partial",
   "theorems": [
    "C128_exit_zero_partial",
    "C128_never_lost_partial",
    "C128_force_recovers",
    "C128_missing_file",
    "C128_full_disk_refuted",
    "C128_resume_refuted",
    "C128_force_loses_refuted",
    "C128_close_refuted"
   ],
   "note": "Proved when the disk takes every byte, libcurl reports success only for whole files and files left by earlier runs are whole. Refuted without that: no stream is checked after writing, so with a full disk the catalogue is cut off, the sources are removed by --clean and the status is 0; a run stopped inside a download leaves a part that the next run (without --force) takes as complete; --force destroys a good file when its download fails."
  },
  {
   "property": "C129",
   "status": "proved",
   "theorems": [
    "C129_dispatch",
    "C129_in_bounds",
    "C129_registry"
   ],
   "note": ""
  },
  {
   "property": "C130",
   "status": "partial",
   "theorems": [
    "C130_vector_partial",
    "C130_vector_shape",
    "C130_reversed_refuted",
    "C130_strided_refuted",
    "C130_vector_to_numpy",
    "C130_matrix",
    "C130_matrix_shape",
    "C130_image",
    "C130_image_shape",
    "C130_to_numpy",
    "C130_view",
    "C130_roundtrip",
    "C130_overflow_refuted",
    "C130_truncated_refuted",
    "C130_handed_out"
   ],
   "note": "Matrices and images (below 2^31 pixels) proved for all strides. Vectors and quaternions are proved for contiguous or converted arrays only: array_t<double> is declared without c_style, so a reversed view reads behind the array and a strided one takes the wrong elements (refuted). Images of 2^31 pixels or more overflow int (refuted)."
  },
  {
   "property": "C131",
   "status": "partial",
   "theorems": [
    "C131_view_kept_partial",
    "C131_disable_refuted",
    "C131_assign_refuted",
    "C131_gone"
   ],
   "note": "Proved for histories of fill, clear, enabling again and assignment of images of the same size. Refuted otherwise: enable_...(False) and the assignment of a larger image free the memory under the view, for good."
  },
  {
   "property": "C132",
   "status": "partial",
   "theorems": [
    "C132_format",
    "C132_case_refuted",
    "C132_whole_file",
    "C132_reaches_decoder",
    "C132_closed_partial",
    "C132_leak_refuted"
   ],
   "note": "Proved for the spellings listed in the code; mixed case (.Jpg) is not recognised (refuted). The file is closed on every path except when the buffer cannot be allocated (refuted there)."
  },
  {
   "property": "C133",
   "status": "partial",
   "theorems": [
    "C133_nothing_lost",
    "C133_file_ready_partial",
    "C133_no_extension_refuted",
    "C133_directory_partial",
    "C133_dotted_directory_refuted",
    "C133_blocked"
   ],
   "note": "A file name without extension becomes a directory and the image can never be written there; an output directory with a dot in its name is not created (both refuted)."
  },
  {
   "property": "C134",
   "status": "proved",
   "theorems": [
    "C134_calls",
    "C134_no_abort",
    "C134_history",
    "C134_timout"
   ],
   "note": "Refinement: the wrapper with CSPICE's error flags refines a machine without flags, over all histories. What each SPICE function computes is a parameter of the environment."
  },
  {
   "property": "C135",
   "status": "proved",
   "theorems": [
    "C135_respects_user",
    "C135_once",
    "C135_retry",
    "C135_pending_error"
   ],
   "note": "Holds for histories of wrapper calls. C135_pending_error refutes it when an error of a CSPICE call made by the user is pending: ensure_lsk_loaded does not reset it first, takes it for a missing LSK and loads the default over the user's."
  },
  {
   "property": "C136",
   "status": "proved",
   "theorems": [
    "C136_wrong_value",
    "C136_foreign_error",
    "C136_no_failure_no_interference"
   ],
   "note": "The claim of the header is REFUTED: a failing call can return normally with unwritten outputs (C136_wrong_value) and a good call can throw another thread's error (C136_foreign_error), because nothing serialises failed/reset/getmsg. Proved for every schedule: calls none of which fails do not disturb each other (given atomic CSPICE calls, a loaded LSK and the RETURN action)."
  },
  {
   "property": "C137",
   "status": "partial",
   "theorems": [
    "C137_kernels",
    "C137_fits",
    "C137_refuted_cut",
    "C137_agrees_with_rays",
    "C137_refuted_not_square",
    "C137_refuted_negative",
    "C137_unfocused"
   ],
   "note": "Proved: kernels exist, are non-negative, sum to 1, positive exactly within r+1/2, maximal within r-1/2; exact condition for the spot to fit the window; equivalence with depth-of-field rays for square pixels. Refuted: the spot is cut on the right/bottom for most sub-pixel positions; non-square pixels; negative focus distances."
  },
  {
   "property": "C138",
   "status": "partial",
   "theorems": [
    "C138_psf",
    "C138_refuted_psf",
    "C138_blur",
    "C138_refuted_blur",
    "C138_no_crash",
    "C138_refuted_crash",
    "C138_refuted_own_psf",
    "C138_size"
   ],
   "note": "Proved over all histories: freshness after the refreshing calls until the sensor/aperture (PSF) or any geometry (blur) changes; no crash while memory lasts. Refuted: stale PSF after sensor or aperture changes, stale blur after f-number/focal changes, lost blur after set_aperture, null dereference after a failed use_aperture_psf, use_aperture_psf(false) deletes a user PSF."
  },
  {
   "property": "C139",
   "status": "partial",
   "theorems": [
    "C139_once",
    "C139_defined",
    "C139_refuted_null",
    "C139_same_blur",
    "C139_refuted_together"
   ],
   "note": "Proved: exactly-once PSF with convolution on; exact definedness condition; same blur when depth of field is on and the blur is fresh. Refuted: convolution without a PSF is UB; stars blur without depth of field and stay sharp after set_aperture."
  },
  {
   "property": "C140",
   "status": "partial",
   "theorems": [
    "C140_drawn",
    "C140_fixed",
    "C140_refuted_instances",
    "C140_refuted_views",
    "C140_refuted_light",
    "C140_refuted_own_light"
   ],
   "note": "Proved: the last instance of an object in the view built last is drawn with its own irradiance; fixed objects keep theirs. Refuted by the code: several instances of one object, several views (also one whose construction failed), and a light asset with several instances."
  },
  {
   "property": "C141",
   "status": "partial",
   "theorems": [
    "C141_depth",
    "C141_order",
    "C141_refuted_flat",
    "C141_background",
    "C141_normals",
    "C141_rgb"
   ],
   "note": "Proved for every image with two different depths (or depth 0 nearest); refuted: an image whose finite depths are all equal gives NaN."
  },
  {
   "property": "C142",
   "status": "partial",
   "theorems": [
    "C142_calibrated",
    "C142_five_magnitudes",
    "C142_bluer_is_hotter",
    "C142_refuted",
    "C142_temperature"
   ],
   "note": "Proved for all colours B-V above -0.674, in exact arithmetic and with the 1000-sample sum the code itself uses; refuted below (negative temperature and solid angle) and for stars with a BT magnitude only (V = BT contradicts the assumed colour)."
  },
  {
   "property": "C143",
   "status": "partial",
   "theorems": [
    "C143",
    "C143_refuted"
   ],
   "note": "Declination always exact; direction exact for stars moving along a parallel or meridian only and for epoch 2000; otherwise the right ascension is off by at most the product of the two motions over cos(dec) (bound proved), and never exact (refuted)."
  },
  {
   "property": "C144",
   "status": "proved",
   "theorems": [
    "C144_setter",
    "C144_history",
    "C144_electrons",
    "C144_range",
    "C144_colours_apart"
   ],
   "note": "Exact reals; noise independence for generators whose next state does not depend on the standard deviation asked for."
  },
  {
   "property": "C145",
   "status": "partial",
   "theorems": [
    "C145_unit_text",
    "C145_named",
    "C145_si",
    "C145_number",
    "C145_refuted"
   ],
   "note": "The unit text is injective (proved). The number is the SI value to half a millionth for scalar quantities; false below that (prints 0) and false for spectral quantities, which show their own scale's numbers with the SI unit (C145_refuted)."
  },
  {
   "property": "C146",
   "status": "partial",
   "theorems": [
    "C146_once",
    "C146_honest",
    "C146_stops",
    "C146_progress",
    "C146_log",
    "C146_disabled",
    "C146_refuted_two",
    "C146_refuted_disabled",
    "C146_refuted_allocator",
    "C146_refuted_disk",
    "C146_nested"
   ],
   "note": "At most one report, termination (ranking) and the log of an undisturbed crash are proved for all interleavings; abort() and exceptions with the handler disabled too. Refuted: two threads crashing together lose the log; with the handler disabled a fault loops for ever; a crash inside the allocator hangs; an incomplete log is reported as written."
  },
  {
   "property": "C147",
   "status": "partial",
   "theorems": [
    "C147_import",
    "C147_add",
    "C147_scale_partial",
    "C147_compare",
    "C147_iadd_partial",
    "C147_refuted_celsius",
    "C147_alias",
    "C147_argument",
    "C147_refuted_dimension",
    "C147_refuted_meter_second",
    "C147_typed",
    "C147_refuted_implicit",
    "C147_refuted_kilometer",
    "C147_reject",
    "C147_no_products",
    "C147_time",
    "C147_dimensions",
    "C147_sizes",
    "C147_fresh"
   ],
   "note": "Same-dimension arithmetic, comparisons, arguments and Time are proved for all classes and values; missing checks, Celsius +=, implicit conversions refuted."
  },
  {
   "property": "C148",
   "status": "partial",
   "theorems": [
    "C148_round_trip_partial",
    "C148_written",
    "C148_distinct",
    "C148_range",
    "C148_numbers",
    "C148_exptime",
    "C148_refuted_number",
    "C148_refuted_wcs",
    "C148_refuted_comments",
    "C148_refuted_blank",
    "C148_refuted_unreadable",
    "C148_refuted_structure",
    "C148_refuted_range",
    "C148_structure",
    "C148_extremes",
    "C148_bad_number"
   ],
   "note": "Round trip proved for all metadata the header can carry (texts of at most 68 characters without trailing blanks, custom keywords with their own names, WCS with a first axis). False beyond that, each with a proved refutation: doubles beyond 11 digits, WCS fields without a first axis, two more comments per cycle, a BLANK keyword that appears, custom keywords that overwrite NAXIS1 or make the file unreadable, DATAMIN > DATAMAX without a finite pixel. CFITSIO's documented behaviour is part of the model (trusted)."
  },
  {
   "property": "C149",
   "status": "partial",
   "theorems": [
    "C149_get",
    "C149_set",
    "C149_product",
    "C149_refuted_shuster",
    "C149_refuted_length"
   ],
   "note": "Proved for all rotations and unit quaternions in exact arithmetic (GLM's quat_cast and mat3_cast as documented). Refuted: the Shuster quaternion has Shuster's component order but Hamilton's sign, so Shuster's attitude matrix of it is the inverse of the rotation; quaternions that are not of length one are neither rejected (zero is taken for the identity) nor normalised."
  },
  {
   "property": "C150",
   "status": "partial",
   "theorems": [
    "C150_triangles",
    "C150_places",
    "C150_returns",
    "C150_kept",
    "C150_unreadable",
    "C150_name",
    "C150_refuted_atomic",
    "C150_refuted_default_material",
    "C150_refuted_faces",
    "C150_refuted_missing_mesh"
   ],
   "note": "Proved for every parsed file and scene: the triangles, materials and placements, the exact condition for acceptance, that earlier contents are kept, the name. Refuted: a load that throws leaves a model of that name (and whatever was converted) in the scene, so the repaired file loads under another name; a mesh without material throws although the log announces the default material; faces of other than three corners vanish silently; an unknown mesh number is ignored at the root and fatal below. Not covered: ASSIMP's own parsing, material contents (C-properties on textures), counts near 2^31."
  },
  {
   "property": "C151",
   "status": "partial",
   "theorems": [
    "C151_date_exact",
    "C151_date_order",
    "C151_date_moment",
    "C151_moment_error",
    "C151_modified_error",
    "C151_modified_exact",
    "C151_refuted_modified",
    "C151_refuted_moment",
    "C151_duration_error",
    "C151_refuted_duration",
    "C151_years",
    "C151_modified_moment"
   ],
   "note": "TDB only (the other scales go through SPICE). Proved with binary64 rounding: Julian dates 1037-4870 return unchanged and keep their order; error bounds for moments, modified dates, durations and years. Refuted: a modified Julian date need not come back (the offset costs six bits; exact for multiples of 2^-31 day, otherwise within 20 microseconds); a moment need not come back from its Julian date; an interval of 60 ns started in 2034 has no duration."
  },
  {
   "property": "C152",
   "status": "partial",
   "theorems": [
    "C152",
    "C152_no_ub",
    "C152_failure",
    "C152_back",
    "C152_refuted_kernels",
    "C152_refuted_log",
    "C152_throws"
   ],
   "note": "Proved for all histories, catalogues, kernels that agree with each other and schedules, when a moment with known years can be formatted for the log. Refuted without these: after another leap second kernel is loaded, asking for the same epoch again changes nothing; if formatting the log message throws, update_star_epoch throws although the stars have moved. Real arithmetic; epochs finite."
  },
  {
   "property": "C153",
   "status": "partial",
   "theorems": [
    "C153_two_body",
    "C153_plane",
    "C153_periapsis",
    "C153_circular",
    "C153_invalid",
    "C153_refuted_size",
    "C153_refuted_period"
   ],
   "note": "Proved: the motion is two-body motion, in the plane and direction asked for; circular orbits have the radius and period asked for. Refuted for every 0 < e < 1: conics_c takes its first element for the periapsis distance, but the code passes the semi-major axis, so the distance runs from a to a(1+e)/(1-e) and the period is longer than asked. Elements that give no orbit are accepted and throw when the node is evaluated (C153_invalid). conics_c is modelled from CSPICE's documentation; parabolas and hyperbolas are not modelled."
  },
  {
   "property": "C154",
   "status": "partial",
   "theorems": [
    "C154_number",
    "C154_spectrum",
    "C154_own_bin_partial",
    "C154_refuted_normalise",
    "C154_last_bin",
    "C154_braces_partial",
    "C154_refuted_braces",
    "C154_list",
    "C154_index",
    "C154_refuted_negative_index",
    "C154_iterate",
    "C154_python_arith_partial",
    "C154_refuted_left",
    "C154_equal",
    "C154_assign",
    "C154_python_normalise",
    "C154_rounding",
    "C154_fresh"
   ],
   "note": "Proved: all operators bin by bin for separate numbers and spectra (and for the spectrum itself); Python's list, index, iteration and assignment behaviour. Refuted: operator op=(const U&) reads its argument through the reference in every step, so s /= s[0] and s -= s[0] leave all bins but the first unchanged; {a, b} with fewer values than bins leaves bins uninitialised and with more drops values; in Python negative indices and a number on the left of +, -, / raise TypeError. pybind11's behaviour is modelled as documented."
  },
  {
   "property": "C155",
   "status": "partial",
   "theorems": [
    "C155_center_inside",
    "C155_duration_sign",
    "C155_samples_order",
    "C155_instant",
    "C155_centered",
    "C155_center_error",
    "C155_samples_even",
    "C155_refuted_inside",
    "C155_from_start",
    "C155_count"
   ],
   "note": "Binary64 rounding with gradual underflow; no overflow. Refuted: the last sample may come after the end (188 samples of [0 s, 3 s] after J2000); it is never later than a quarter microsecond in the stated range."
  }
 ]
}