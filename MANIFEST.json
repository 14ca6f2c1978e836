{"claims": [
{"property": "C01", "status": "proved", "theorems": ["C01_qualities_in_unit_interval", "C01_global_quality_in_unit_interval", "C01_max_quality_in_unit_interval", "C01_qualities_any_rounding", "C01_qualities_ieee_double", "C01_no_undefined_access", "C01_zero_range_refuted", "C01_ieee_all_qualities"], "note": "Exact, any monotone rounding, and IEEE doubles with or without FMA contraction (all getters). Range 0 refuted."},
{"property": "C02", "status": "proved", "theorems": ["C02_counts_match_history", "C02_counts_partition", "C02_tracked_count", "C02_all_cameras_is_sum", "C02_in_frame_count", "C02_times_recorded"], "note": "All-camera and per-camera counters refine the frame log."},
{"property": "C03", "status": "proved", "theorems": ["C03_window_counts_last_frames", "C03_repeated_time_refuted"], "note": "Repeated increaseStatistics at the same time is shown to break the window count (refuted variant)."},
{"property": "C04", "status": "proved", "theorems": ["C04_always_tracked_is_good", "C04_failing_becomes_bad", "C04_unseen_becomes_bad", "C04_good_monotone_in_thresholds", "C04_ieee_always_tracked_is_good", "C04_ieee_failing_becomes_bad", "C04_ieee_unseen_becomes_bad", "C04_ieee_lower_monotone"], "note": "Exact arithmetic in full; IEEE doubles (fused or not): always-tracked good, lost features become bad for lower >= 1e-9, monotone in the lower threshold. In doubles monotonicity in the upper threshold can fail by one rounding step and is not claimed."},
{"property": "C05", "status": "proved", "theorems": ["C05_allocation_takes_lowest_free_slot", "C05_allocation_fails_iff_full", "C05_live_ids_distinct", "C05_ids_never_reused", "C05_candidates_keep_ids_distinct"], "note": "Slots, ids, failure iff full, for every history; ids are unbounded integers (no int wrap)."},
{"property": "C06", "status": "proved", "theorems": ["C06_budget_and_capacity_respected", "C06_added_feature_is_the_candidate"], "note": "Holds for every parameter choice for which the call is defined, every hash order."},
{"property": "C07", "status": "proved", "theorems": ["C07_each_candidate_once_and_above_min_score", "C07_low_min_score_refuted"], "note": "For sane parameters; a minimum score below -1 is refuted (out-of-frame candidates get added)."},
{"property": "C08", "status": "proved", "theorems": ["C08_adds_exactly_the_maximum", "C08_separated_candidates_are_all_added"], "note": "For sane parameters and every hash order. A second theorem gives the same count without the request when the good candidates are further apart than the penalty distance (concrete case: C40_ex_plenty in ImgProps.v)."},
{"property": "C09", "status": "proved", "theorems": ["C09_best_score", "C09_penalised_candidates_not_added", "C09_no_coinciding_features"], "note": "Cumulative penalty over live features in view and candidates added earlier in the call."},
{"property": "C10", "status": "proved", "theorems": ["C10_bucketing_never_out_of_range", "C10_grid_variant_defined_with_room", "C10_grid_variant_best_first", "C10_zero_buckets_refuted", "C10_negative_penalty_refuted", "C10_grid_variant_full_set_refuted", "C10_ieee_score_bucket", "C10_ieee_best_in_top_bucket", "C10_ieee_moves", "C10_ieee_never_out_of_range", "C10_ieee_infinite_distance_refuted", "C10_ieee_negative_exponent_refuted"], "note": "Defined for sane parameters, in exact and in IEEE-754 arithmetic (IbuckModel; the value of pow is a parameter); zero buckets, negative penalty, infinite penalty distance, negative exponent and the grid variant on a full set are refuted."},
{"property": "C11", "status": "proved", "theorems": ["C11_distance_round_trip", "C11_parameter_round_trip", "C11_inverse_saturates_small", "C11_inverse_saturates_large", "C11_no_division_by_zero", "C11_inverse_distance_bounded", "C11_log_nonpositive_refuted", "C11_configured_type", "C11_new_distance"], "note": "Exact reals. The clamp of the inverse parametrisation, the saturation values and the absence of division by zero are separate theorems; a refuted theorem records that the logarithmic map does not round-trip for nonpositive distances."},
{"property": "C12", "status": "proved", "theorems": ["C12_distance_derivative", "C12_parameter_derivative", "C12_combined_derivative", "C12_derivatives_reciprocal", "C12_clamped_zone_refuted"], "note": "Derivatives are stated with the standard library's derivable_pt_lim. A refuted theorem records that inside the clamped zone of the inverse parametrisation the reported value is not the derivative."},
{"property": "C13", "status": "proved", "theorems": ["C13_conversion_preserves_distance", "C13_set_type_changes_distance_refuted"], "note": "Conversion preserves the distance for every commonly representable distance; switching the type only is refuted by a witness."},
{"property": "C14", "status": "proved", "theorems": ["C14_no_assertion_failure", "C14_views_agree", "C14_views_agree_any_camera", "C14_pixel_read_back", "C14_pixel_read_back_inverse", "C14_bearing_read_back", "C14_jacobian_overwrites_pixel_refuted", "C14_jacobian_on_failed_backprojection_refuted", "C14_camera_change_refuted", "C14_reset_forgets"], "note": "Camera maps are arbitrary; null camera is an explicit failed-assertion outcome. Refuted theorems record that a Jacobian query can overwrite the pixel, and that re-assigning the camera pointer breaks the agreement."},
{"property": "C15", "status": "proved", "theorems": ["C15_warps_related", "C15_warp_available", "C15_warp_unavailable", "C15_identity_flag_sound", "C15_kept_warp_refuted", "C15_untracked_warp_refuted", "C15_stale_identity_flag_refuted"], "note": "Matrix product, inverse and Jacobian are parameters; the cast of the pixel warp to float is ignored."},
{"property": "C16", "status": "proved", "theorems": ["C16_meeting_rays", "C16_nearly_parallel_fails", "C16_failure_keeps_distance", "C16_closest_point", "C16_in_front_of_second_camera_refuted"], "note": "Exact reals, rotations as orthogonal matrices; the distance object uses the model of C11-C13."},
{"property": "C17", "status": "proved", "theorems": ["C17_fails_iff_behind", "C17_scale_invariant"], "note": "Exact reals; the narrowing of pixels to float is ignored."},
{"property": "C18", "status": "proved", "theorems": ["C18_same_value", "C18_distort_jacobian", "C18_distort_coordinate_derivatives", "C18_projection_value", "C18_projection_jacobian", "C18_tangent_jacobian"], "note": "Derivatives along all differentiable curves (hence all partials), away from the border of the small-radius shortcut and the double sphere singularity. The tangent basis of a bearing (external library) is a parameter."},
{"property": "C19", "status": "proved", "theorems": ["C19_success_sound", "C19_undistorted_exact", "C19_success_with_undefined_bearing_refuted", "C19_reprojection_error", "C19_radtan_reprojection_error"], "note": "Success, unit length, exact Newton step, exact inverse without distortion, reprojection error bound with distortion; singular Jacobian refuted."},
{"property": "C20", "status": "proved", "theorems": ["C20_equidistant_limit", "C20_double_sphere_limit", "C20_double_sphere_continuous_refuted", "C20_double_sphere_jump"], "note": "Limits and discontinuity of the exact-real model."},
{"property": "C21", "status": "proved", "theorems": ["C21_same_camera_identity", "C21_succeeds", "C21_point_preserved", "C21_forth_and_back", "C21_negative_distance_refuted"], "note": "setFromVector of the external library is modelled as normalisation; rotations as orthogonal matrices."},
{"property": "C22", "status": "proved", "theorems": ["C22_in_frame_extraction_safe", "C22_in_frame_extraction_safe_exact", "C22_extraction_fills_patch", "C22_nan_accepted_refuted", "C22_in_frame_extraction_safe_ieee", "C22_nan_accepted_ieee_refuted", "C22_mixed_contraction_refuted"], "note": "Any monotone rounding with rnd 0 = 0; both warp branches, with and without border; and IEEE-754 arithmetic as coded (images up to 2^24 pixels wide, patches up to 2^22), with a uniform choice of multiply-add contraction. NaN coordinates and mixed contraction are refutation theorems."},
{"property": "C23", "status": "proved", "theorems": ["C23_between_neighbours", "C23_integer_position", "C23_ramp", "C23_inner_patch", "C23_identity_warp_agrees", "C23_extraction_accuracy_ieee", "C23_extracted_range_ieee"], "note": "Exact arithmetic for the interpolation theorems; the inner-patch theorem holds for any rounding. The identity special case is proved to agree with the general warp branch. The _ieee theorems bound the error of the IEEE-754 evaluation."},
{"property": "C24", "status": "proved", "theorems": ["C24_eigenvalues", "C24_score_is_smaller_eigenvalue_refuted", "C24_multilevel", "C24_single_level", "C24_eigenvalues_ieee", "C24_multilevel_ieee", "C24_extracted_patch_ieee", "C24_score_is_a_number_ieee_refuted"], "note": "Over the reals, and in IEEE single precision (theorems ending in _ieee: patches of at most 16x16 pixels, 16 levels). The documented meaning of the score (smaller eigenvalue) is refuted for every patch size; the proved meaning is the sum of both. In single precision the discriminant can round to a negative number: C24_score_is_a_number_ieee_refuted gives an 8-bit image whose score is NaN under every contraction."},
{"property": "C25", "status": "proved", "theorems": ["C25_score_of_last_bordered", "C25_patch_of_last_extraction", "C25_score_of_last_extraction_refuted"], "note": "Arbitrary starting state and operation history. The full reading (score belongs to the last extraction of any kind) is refuted by a witness."},
{"property": "C26", "status": "proved", "theorems": ["C26_transforms_compose", "C26_transform_round_trip", "C26_same_level", "C26_scale", "C26_warp_carried", "C26_warp_dropped_without_camera_refuted"], "note": "Any centre table. Float rounding of the transform is not modelled (exact rationals). The refuted theorem shows the warp is dropped when no camera is attached."},
{"property": "C27", "status": "proved", "theorems": ["C27_reads_in_range", "C27_level_sizes", "C27_block_mean", "C27_between_block_extremes", "C27_block_inside"], "note": "halfSample (useCv=false); cv::pyrDown itself is an external library."},
{"property": "C28", "status": "proved", "theorems": ["C28_even_sizes_exact", "C28_even_sizes_exact_pyrdown", "C28_error_below_half_pixel", "C28_error_below_half_pixel_pyrdown", "C28_odd_sizes_refuted", "C28_level_coordinates_ieee"], "note": "Exact arithmetic, and IEEE single precision (level_coordinates_ieee); the code swaps rows and cols in the centre table (refuted theorem shows the consequence)."},
{"property": "C29", "status": "proved", "theorems": ["C29_top_level_suffices", "C29_top_level_suffices_pyrdown", "C29_top_level_suffices_pyrdown_even", "C29_narrow_patch_odd_size_refuted", "C29_top_level_suffices_ieee", "C29_flat_patch_ieee_refuted", "C29_smallest_patch_ieee_refuted"], "note": "Exact arithmetic for every warp, and IEEE single precision for warps with a minimal extent; image contents arbitrary. The refuted theorems give the counterexamples: narrow patches with pyrDown, patches without extent in floating point."},
{"property": "C30", "status": "proved", "theorems": ["C30_best_offset_rms", "C30_symmetric", "C30_offset_invariant", "C30_zero_iff_constant_offset", "C30_triangle"], "note": "Over the reals. Adds the triangle inequality and the characterisation as minimum over brightness offsets."},
{"property": "C31", "status": "proved", "theorems": ["C31_within_threshold_unchanged", "C31_square_is_huber_loss", "C31_influence_limited", "C31_odd", "C31_strictly_monotone", "C31_continuous", "C31_lipschitz", "C31_rows"], "note": "Exact reals. Threshold 0 or negative switches the map off."},
{"property": "C32", "status": "proved", "theorems": ["C32_defined_for_textured_templates", "C32_zero_mean_residual", "C32_best_brightness_fit", "C32_best_offset_fit", "C32_copy_has_zero_residual", "C32_image_offset_irrelevant", "C32_template_brightness_irrelevant", "C32_image_gain_scales_rows", "C32_constant_template_undefined"], "note": "Exact reals; 0/0 is a distinct outcome. Invariances under template affine change and image gain hold while the gain limit (1/2) is inactive. Per-patch pixel values are arbitrary, so every sampling is covered."},
{"property": "C33", "status": "proved", "theorems": ["C33_best_converged_seed", "C33_single_seed", "C33_seed_count_bounded", "C33_seeds_cover_uncertainty", "C33_seeds_symmetric", "C33_negative_limit_always_fails", "C33_output_untouched_on_failure_refuted"], "note": "Single alignment, in-frame test and alignment error are arbitrary functions; error nonnegative (a mean of absolute values)."},
{"property": "C34", "status": "proved", "theorems": ["C34_others_unchanged", "C34_decorrelated", "C34_initial_block", "C34_stays_covariance", "C34_reset_sequence", "C34_feature_fits"], "note": "Matrices over exact reals of any dimension."},
{"property": "C35", "status": "proved", "theorems": ["C35_default_for_few", "C35_confident_features", "C35_true_median", "C35_deterministic", "C35_three_features_suffice_refuted", "C35_negative_depth_rejected_refuted", "C35_middle_of_sorted"], "note": "Transferred features (front test, uncertainty, distance, parameter) are arbitrary; std::nth_element is any function meeting its contract (witnessed by a sort)."},
{"property": "C36", "status": "proved", "theorems": ["C36_gravity_aligned", "C36_negligible_reading", "C36_rest_unchanged", "C36_startup_at_rest"], "note": "Rotation property and image of the measured force for any perpendicular-axis choice in the antiparallel case; plus an end-to-end theorem for a resting device."},
{"property": "C37", "status": "proved", "theorems": ["C37_grid_is_a_square", "C37_samples_are_enumerated_once_then_exhausted", "C37_oversized_grid_overflows_refuted", "C37_candidate_moves_pixel_by_offset", "C37_sample_used_iff_within_uncertainty", "C37_candidate_is_closest", "C37_current_state_is_a_candidate"], "note": "Counter loop for every coverage test; candidate algebra over any ordered field and any state dimension (MathComp). The counter's type and its reset belong to the filtering library and are assumed. A grid with more samples than the largest int is refuted (overflow). For zero eigenvalues the C++ test divides by zero; the theorems assume positive ones."},
{"property": "C38", "status": "proved", "theorems": ["C38_every_feature_visited_in_every_camera_once", "C38_schedule_covers_all_cameras", "C38_survivor_measured_everywhere"], "note": "For every outcome of the image processing and every removal of negative-distance features in between; the update loop itself belongs to the filtering library and is modelled as do-while over preProcess, update, postProcess."},
{"property": "C39", "status": "proved", "theorems": ["C39_removal_terminates_and_reaches_share", "C39_tracked_good_feature_survives", "C39_small_factor_runs_forever_refuted", "C39_excessive_share_runs_forever_refuted"], "note": "Termination with a bound that depends on configuration and capacity only; removal factor at most one and excessive share are refuted."},
{"property": "C40", "status": "proved", "theorems": ["C40_free_slots_are_shared_fairly"], "note": "Upper and lower bounds per camera; exact shares when candidates are plentiful and well separated."},
{"property": "C41", "status": "proved", "theorems": ["C41_position", "C41_attitude", "C41_attitude_steps", "C41_acceleration", "C41_constants", "C41_no_measurement", "C41_standing_still", "C41_rotations_stay", "C41_motion_timer", "C41_speed_inflation"], "note": "Exact step, exact attitude for any number of steps, continuous-time acceleration law, constants, dead reckoning without samples, standing still over any run, rotations preserved, motion timer; C41_speed_inflation records that the velocity step is first order only."},
{"property": "C42", "status": "proved", "theorems": ["C42_static_point"], "note": "Against an independently defined camera observation of a fixed world point, for any differentiable motion with the state's velocity and rate."},
{"property": "C43", "status": "proved", "theorems": ["C43_first_measurement", "C43_kept_over_history", "C43_later_measurement", "C43_alignment_off", "C43_state_alignment_reset_refuted", "C43_innovation_meaning", "C43_displayed_pose"], "note": "Alignment, persistence over any history, meaning of the innovation, displayed pose; refutation theorem for the state-stored alignment over a reset."},
{"property": "C44", "status": "proved", "theorems": ["C44_product_symmetric_iff_commute", "C44_uniform_noise_is_covariance", "C44_position_only_is_covariance", "C44_without_odometry_default", "C44_always_symmetric_refuted"], "note": "Exact reals."},
{"property": "C45", "status": "proved", "theorems": ["C45_initialisation_and_resets", "C45_reset_requests_while_waiting_are_ignored", "C45_measurements_while_running", "C45_effects_are_complete", "C45_callbacks_are_serialised"], "note": "All histories of callbacks; arbitrary filter, vector, quaternion and image types. The phase is a function of the messages alone. Serialisation under the mutex is proved for any number of threads, any schedule and any division of the callbacks into pieces."},
{"property": "C46", "status": "proved", "theorems": ["C46_updates_are_complete_and_consistent", "C46_another_time_stamp_drops_the_set", "C46_images_are_used_at_most_once", "C46_complete_sets_are_used", "C46_three_cameras_never_update"], "note": "All histories. Includes the converse (a complete set is used) and the finding that with more than two cameras no image update ever takes place. Building the pyramid from an image is the Pyr area."},
{"property": "C47", "status": "proved", "theorems": ["C47_published_stamps_strictly_increase", "C47_nothing_is_published_before_an_image_update", "C47_published_iff_the_safe_time_advances"], "note": "For every filter obeying four laws stated in NodeSpec.filter_laws (LWF is not part of /repo); a filter obeying them is exhibited."},
{"property": "C48", "status": "proved", "theorems": ["C48_output_is_covariance", "C48_gyro_noise_is_covariance", "C48_pose_order", "C48_twist_order", "C48_extrinsics_order", "C48_messages_are_covariances", "C48_extrinsics_message_is_covariance", "C48_output_variance", "C48_gyro_noise_variance", "C48_bias_order", "C48_bias_message_is_covariance"], "note": "LWF's covariance propagation is J P J^T (LWF is not in the repository)."},
{"property": "C49", "status": "proved", "theorems": ["C49_messages_well_formed", "C49_point_cloud", "C49_point_cloud_no_history", "C49_patches", "C49_unused_slot_cleared_refuted", "C49_landmark_covariance", "C49_point_values", "C49_ieee_point_cloud", "C49_ieee_order", "C49_ieee_positive_distance_refuted", "C49_ieee_covariance", "C49_ieee_covariance_refuted"], "note": "Byte-level model of the message buffers with out-of-bounds memcpy as undefined behaviour. Refuted part: the patch record of an unused slot is not cleared."},
{"property": "C50", "status": "proved", "theorems": ["C50_level_square", "C50_inside_top_square", "C50_level_drawn", "C50_concentric", "C50_concentric_stretch_refuted"], "note": "Pixels written, relative to the image; clipping against the canvas is the caller's responsibility."},
{"property": "C51", "status": "proved", "theorems": ["C51_drawn_indices_name_vertices", "C51_failing_calls", "C51_shapes_are_whole", "C51_prolonging_appends", "C51_cube_surface", "C51_tetrahedron_surface", "C51_cube_mesh_edges", "C51_rectangle_area", "C51_ground_plane_area", "C51_ground_plane_mesh_lines", "C51_coordinate_frame_axes", "C51_textured_rectangle"], "note": "Full statement proved over any call sequence (colours, normal values and textures not modelled; geometry over reals). The failing calls are characterised exactly."},
{"property": "C52", "status": "proved", "theorems": ["C52_records_are_the_advances_of_the_safe_time", "C52_without_resets_the_recorded_messages_are_current", "C52_recorded_messages_are_current_refuted"], "note": "Record times: any filter. That the recorded messages are those of the recorded safe time holds without resets and is refuted with reset_trigger > 0: the loop records the previous messages again when the filter is re-initialised."},
{"property": "C53", "status": "proved", "theorems": ["C53_camera_pose", "C53_camera_motion", "C53_imu_motion", "C53_rate_of_last_sample", "C53_jacobian_pose_rate", "C53_jacobian_velocity", "C53_jacobian_velocity_error", "C53_jacobian_velocity_refuted", "C53_jacobian_imu"], "note": "See OutProps.v; refutation theorems record where the code departs from the property, and the positive theorems give the exact extent."},
{"property": "C54", "status": "proved", "theorems": ["C54_same_point", "C54_bearing_rows", "C54_distance_row", "C54_all_directions", "C54_rotation_columns_refuted", "C54_inverse_parameter_refuted", "C54_own_camera"], "note": "See OutProps.v; refutation theorems record where the code departs from the property, and the positive theorems give the exact extent."},
{"property": "C55", "status": "proved", "theorems": ["C55_no_bad_access", "C55_construct", "C55_assign", "C55_later_changes", "C55_independent", "C55_write_reads_back", "C55_no_leak", "C55_patches_refuted", "C55_images_refuted", "C55_copy_constructor_refuted"], "note": "Heap model with undefined behaviour for access to missing objects; ownership invariant for all programs. Three refuted sub-claims document what assignment does not copy and that copy construction is unsafe."},
{"property": "C56", "status": "proved", "theorems": ["C56_reduced_system_equivalent"], "note": "The decomposition is any orthogonal Q with stored R and column swap satisfying A P = Q R (what Eigen documents)."},
{"property": "C57", "status": "proved", "theorems": ["C57_mask_range", "C57_mask_symmetric", "C57_mask_decreases_outwards", "C57_gaussian", "C57_full_weight_at_the_centre"], "note": "Exact reals."},
{"property": "C58", "status": "proved", "theorems": ["C58_iterations_bounded", "C58_success_means_converged", "C58_coarse_to_fine", "C58_finest_level_converged", "C58_fails_iff_no_level", "C58_exact_first_order_step", "C58_inverse_warp", "C58_fixed_point"], "note": "Least squares solver is any function; where used, the minimiser property is a hypothesis on its result. The exact step theorem is for skew compensation off and robust threshold off."},
{"property": "C59", "status": "proved", "theorems": ["C59_every_index_in_one_block", "C59_blocks_disjoint", "C59_state_offsets"], "note": "getId follows LWF's documented stacking order (LWF is not in the repository)."},
{"property": "C60", "status": "proved", "theorems": ["C60_local_quality_is_low_pass", "C60_local_visibility_is_low_pass", "C60_joint_values_are_low_pass", "C60_ranges_recorded"], "note": "Holds for any quality arithmetic (parameter); the filter is a fold over the independent frame log."},
{"property": "C61", "status": "proved", "theorems": ["C61_prediction_jacobian", "C61_unassigned_feature_refuted"], "note": "Verified against directional derivatives on the manifold; refutation theorem for unassigned feature slots."},
{"property": "C62", "status": "proved", "theorems": ["C62_noise_jacobian", "C62_fixed_extrinsics_refuted"], "note": "Verified against directional derivatives; refutation theorem for fixed extrinsics."},
{"property": "C63", "status": "proved", "theorems": ["C63_warp_transport", "C63_rest_unchanged"], "note": "Warp transport equals the derivative of predicted bearing."},
{"property": "C64", "status": "proved", "theorems": ["C64_extrinsics_meaning", "C64_other_cameras", "C64_from_next_reset", "C64_no_effect_with_calibration"], "note": "See UpdProps.v."},
{"property": "C65", "status": "proved", "theorems": ["C65_position_jacobian", "C65_attitude_jacobian", "C65_noise_jacobian", "C65_no_feedback"], "note": "See UpdProps.v."},
{"property": "C66", "status": "proved", "theorems": ["C66_velocity_innovation", "C66_velocity_jacobian", "C66_zero_velocity_innovation", "C66_zero_velocity_jacobian", "C66_noise"], "note": "See UpdProps.v."},
{"property": "C67", "status": "proved", "theorems": ["C67_reset_with_accelerometer", "C67_reset_with_pose", "C67_reset_attitude", "C67_position_remembered_refuted"], "note": "See UpdProps.v."},
{"property": "C68", "status": "proved", "theorems": ["C68_imu_rate_noise", "C68_noise_of_the_last_step", "C68_camera_rate_noise", "C68_camera_rate_noise_refuted"], "note": "See OutProps.v; refutation theorems record where the code departs from the property, and the positive theorems give the exact extent."},
{"property": "C69", "status": "proved", "theorems": ["C69_landmark_value", "C69_landmark_jacobian", "C69_landmark_jacobian_columns", "C69_landmark_jacobian_refuted", "C69_feature_copy_jacobian_refuted", "C69_readable"], "note": "See OutProps.v; refutation theorems record where the code departs from the property, and the positive theorems give the exact extent."},
{"property": "C70", "status": "proved", "theorems": ["C70_warp_other_camera", "C70_warp_own_camera", "C70_turned_basis_reached", "C70_warp_own_camera_refuted"], "note": "See OutProps.v; refutation theorems record where the code departs from the property, and the positive theorems give the exact extent."},
{"property": "C71", "status": "proved", "theorems": ["C71_image_update_total", "C71_statistics_are_the_frames_since_creation", "C71_age_is_number_of_frames_since_creation", "C71_ids_are_stable"], "note": "Numeric state is an arbitrary type, image processing arbitrary functions of it; statistics in exact arithmetic."},
{"property": "C72", "status": "proved", "theorems": ["C72_view_transforms_are_inverse", "C72_rendered_point", "C72_view_volume", "C72_depth_order", "C72_winding", "C72_culled_faces", "C72_near_side_is_shown_refuted"], "note": "Proved over reals; rotations as matrices. C72_near_side_is_shown_refuted records that glFrontFace(GL_CW) makes culled solids show their inside."},
{"property": "C73", "status": "proved", "theorems": ["C73_set_view_centres_target", "C73_set_y_down", "C73_set_y_down_accuracy", "C73_keys_move_along_camera_axes"], "note": "Proved; kindr setFromVectors enters as the equation it guarantees; the angle loop's float sums are exact reals; step <= 0 (endless loop) outside the model."},
{"property": "C74", "status": "proved", "theorems": ["C74_lines_show_the_features", "C74_patches_show_the_features", "C74_depth_bar_contains_the_feature", "C74_bar_is_one_standard_deviation_refuted", "C74_bar_stays_in_front_refuted", "C74_inverse_bar_stays_in_front"], "note": "Proved; the two _refuted theorems record that the bar uses the variance and can reach behind the camera. Colours and texture contents not modelled."},
{"property": "C75", "status": "proved", "theorems": ["C75_one_segment_per_feature", "C75_segment_contains_feature", "C75_segment_contains_feature_refuted", "C75_near_far", "C75_near_is_nearer_refuted", "C75_imu_frame", "C75_imu_frame_refuted"], "note": "Refuted parts: inverse depth reaching zero within 3 sigma, near/far naming for other parametrisations, IMU frame stamp on camera coordinates."},
{"property": "C76", "status": "proved", "theorems": ["C76_pixel_jacobian", "C76_pixel_jacobian_all_directions", "C76_rotation_columns_refuted", "C76_zero_innovation", "C76_noise_jacobian", "C76_behind_camera", "C76_direct_gradient", "C76_direct_failure", "C76_every_camera_once", "C76_noise_level", "C76_off_camera_gain_refuted", "C76_direct_noise_is_added"], "note": "Over R, exact arithmetic. Camera models from CamModel, transfer between cameras from OutModel with an arbitrary choice of tangent bases. The sign defect of the rotation columns is a refuted instance."},
{"property": "C77", "status": "proved", "theorems": ["C77_feature_in_motion", "C77_small_shift_is_no_motion", "C77_shift_along_strongest_gradient", "C77_same_size_is_safe", "C77_size_change_refuted", "C77_large_shift_is_motion_refuted", "C77_decision", "C77_unchanged_image", "C77_prediction_timers", "C77_zero_velocity", "C77_ieee_difference_defined", "C77_ieee_difference_accurate", "C77_ieee_uniform_brightness", "C77_ieee_unchanged_not_moving"], "note": "Images and extraction over Q, scores over R; the patch difference also in IEEE single precision (C77_ieee_*). The inertial detection enters through FiltModel.moving (C77_prediction_timers)."},
{"property": "C78", "status": "proved", "theorems": ["C78_accepted_iff", "C78_repetitive_texture_rejected", "C78_accepted_is_distinctive", "C78_sampling_check_made_refuted", "C78_alignment_accepted_iff", "C78_gate_same_size", "C78_gate_tests_observing_camera_refuted"], "note": "Acceptance iff, repetitive texture rejected, alignment acceptance and gate equivalence proved for images of one size. Refuted: a negative rejection threshold also leaves out the sampling check and the in-frame test; the in-frame gates use the pyramid of the feature's own camera with coordinates of the observing camera, wrong in both directions when image sizes differ."},
{"property": "C79", "status": "proved", "theorems": ["C79_axes", "C79_angle", "C79_curve", "C79_defined_iff", "C79_drawn_axes", "C79_predicted_pixel_covariance"], "note": "Proved for exact arithmetic; the eigenvalue solver is assumed to return independent unit eigenpairs."},
{"property": "C80", "status": "proved", "theorems": ["C80_point_seen_with_error", "C80_monotone", "C80_error_beyond_parallax", "C80_forward_motion_refuted"], "note": "Proved for rays oblique to the baseline; refuted for forward motion. Beyond the parallax the distance is proved negative."},
{"property": "C81", "status": "proved", "theorems": ["C81_image", "C81_history", "C81_at_most_69", "C81_velocity_prediction_refuted"], "note": "Image operations (in-frame test, alignment, patch extraction, candidates) are parameters of each frame; the velocity prediction is refuted: the remembered previous place is overwritten by the aligned one in every image."},
{"property": "C82", "status": "proved", "theorems": ["C82_elevation", "C82_horizon", "C82_undefined_iff_steep", "C82_always_drawn_refuted"], "note": "Angles are exact reals; the conversion of the arc to whole degrees is modelled, the rounding of polygon points to pixels is not. cv::ellipse2Poly is taken to place its points on the circle at the given degrees."},
{"property": "C83", "status": "proved", "theorems": ["C83_only_this_feature", "C83_stays_covariance", "C83_relative_uncertainty", "C83_bearing_covariance", "C83_stereo_distance", "C83_stereo_uncertainty", "C83_stereo_relative_uncertainty_refuted"], "note": "After stereo initialisation the relative depth uncertainty is not the configured one (refuted with an inverse depth feature); everything else proved."},
{"property": "C84", "status": "proved", "theorems": ["C84_loads_what_the_file_describes", "C84_accepts_only_complete_files", "C84_unknown_model_is_ignored", "C84_radius", "C84_start_up", "C84_bad_file_stops_the_node", "C84_settings_come_from_the_file_refuted", "C84_failed_load_keeps_camera_refuted", "C84_camera_matrix", "C84_skew_refuted", "C84_unconfigured_camera"], "note": "Stale radius limit, half-loaded cameras and ignored skew are refutations; yaml-cpp parsing is assumed."},
{"property": "C85", "status": "proved", "theorems": ["C85_in_place", "C85_increment", "C85_add_then_subtract", "C85_add_then_subtract_small", "C85_subtract_then_add", "C85_self_difference", "C85_half_turn_refuted", "C85_identity"], "note": "Bearing increments (NormalVectorElement) belong to lightweight_filtering, which is absent; they are modelled from its documented definition."},
{"property": "C86", "status": "proved", "theorems": ["C86_angles_exist", "C86_angles_are_smooth", "C86_jacobian", "C86_no_direction_is_lost", "C86_always_smooth_refuted"], "note": "Angles exist for every attitude; the Jacobian is the derivative of every smooth choice of angles; refuted at gimbal lock. kindr's choice among equivalent angles is left open."},
{"property": "C87", "status": "proved", "theorems": ["C87_stays_a_rotation", "C87_only_dragging_turns", "C87_mouse_turns_keys_move", "C87_initial_mouse_position_is_irrelevant", "C87_straight_drag", "C87_only_ends_matter_refuted"], "note": "Event histories over the callbacks; straight drags proved, path independence refuted."},
{"property": "C88", "status": "proved", "theorems": ["C88_strong_gradients_count_less", "C88_steepest_is_ignored", "C88_never_counts_more_refuted"], "note": "AlignModel grad_weight / final_row; strict monotonicity of the power, factor explicit; refutation with an unbounded family"},
{"property": "C89", "status": "proved", "theorems": ["C89_keys", "C89_one_key", "C89_sharing", "C89_load_succeeds", "C89_values", "C89_untouched", "C89_derived", "C89_extrinsics", "C89_other_keys_ignored", "C89_slots_untouched", "C89_shipped_file", "C89_every_key_matters", "C89_pose_keys_without_poses"], "note": "LWF's PropertyHandler (registers, default registrations of states, noises, iteration parameters) is an assumption stated in ConfModel; the shipped key list was compared with cfg/rovio.info by a script"},
{"property": "C90", "status": "proved", "theorems": ["C90_keypoints_in_circle", "C90_position_in_full_image", "C90_radius_monotone", "C90_no_restriction_iff", "C90_margin", "C90_candidates_in_image", "C90_border_keypoint_refuted"], "note": "The FAST detector itself is an arbitrary list of keypoints; coordinates are exact rationals instead of float."},
{"property": "C91", "status": "proved", "theorems": ["C91_free_slots_do_not_matter", "C91_as_good_as_new", "C91_removal_keeps_the_rest", "C91_addition_keeps_the_rest", "C91_entries", "C91_unassigned_slot", "C91_freed_slot_uncorrelated_refuted", "C91_with_images", "C91_images_as_coded"], "note": "The Kalman formulas are assumed (submodule absent) and the number of relinearisations is part of the history; that a freed slot stays uncorrelated is refuted (C91_freed_slot_uncorrelated_refuted)."},
{"property": "C92", "status": "proved", "theorems": ["C92_blocks_and_matrix", "C92_stays_covariance", "C92_measurement_never_hurts", "C92_innovation_covariance", "C92_never_certain", "C92_prediction"], "note": "The Kalman prediction and update formulas themselves are those of the lightweight_filtering submodule, which is not in the repository: they are modelled as the textbook formulas and this is stated in the trusted base."},
{"property": "C93", "status": "proved", "theorems": ["C93_frame_uncertainty_is_inert", "C93_heading_never_learned", "C93_position_never_learned", "C93_the_rest_is_unaffected"], "note": "External poses are excluded: they are what makes position and heading known. The Kalman formulas are those assumed of the absent submodule (SlotModel.v); the lower bounds use that the inverse is one and that the noise covariances are positive (C92)."},
{"property": "C94", "status": "proved", "theorems": ["C94_any_world_frame", "C94_same_history", "C94_published", "C94_with_images", "C94_images_as_coded"], "note": "A shift is only possible if the external frame is not estimated (pose_fits); exact arithmetic."},
{"property": "C95", "status": "proved", "theorems": ["C95_no_feedback", "C95_initial_poses_irrelevant", "C95_stays_separated", "C95_with_images", "C95_images_as_coded"], "note": "The Kalman formulas are those assumed of the absent submodule (SlotModel.v). Independence of the poses from the rest at the start is what the configured diagonal covariance gives."},
{"property": "C96", "status": "proved", "theorems": ["C96_extrinsics_stay", "C96_estimated_extrinsics_irrelevant", "C96_with_images", "C96_images_as_coded"], "note": ""},
{"property": "C97", "status": "proved", "theorems": ["C97_uncorrelated_parts_stay", "C97_agreeing_measurement"], "note": "The rotation vector of the identity is assumed to be zero (logm m1 = v0; kindr is absent)."},
{"property": "C98", "status": "proved", "theorems": ["C98_any_numbering", "C98_motion", "C98_choice_of_the_slot"], "note": "Over the whole-filter model of SlotModel.v; order of the events is kept (the code processes features in slot order, so that order is part of the history)."},
{"property": "C99", "status": "proved", "theorems": ["C99_image_is_filter_steps", "C99_history_is_a_run", "C99_covariance_stays_valid", "C99_frame_never_learned", "C99_no_history_gets_stuck"], "note": "Image contents enter as arbitrary functions of the filter and of everything not modelled. Covariance and observability results of C92 and C93 are restated for whole histories."},
{"property": "C100", "status": "proved", "theorems": ["C100_measurement_is_best_estimate", "C100_in_every_history", "C100_one_best_estimate"], "note": "The update equations themselves are those of the absent filter base class (lightweight_filtering), as described in the trusted base; numerical inversion is a parameter assumed to invert symmetric positive definite matrices."},
{"property": "C101", "status": "proved", "theorems": ["C101_scores_are_moderate", "C101_nan_is_ignored", "C101_best_score", "C101_selected", "C101_above_minimum_selected", "C101_stored_scores", "C101_average_score", "C101_motion_seen_refuted", "C101_sort_order_on_numbers", "C101_sorted_scores_are_numbers_refuted"], "note": "Which of the bucketed candidates are finally added is left open here (C06-C09 treat it over exact scores); the two _refuted theorems exhibit the false neighbouring promises."},
{"property": "C102", "status": "proved", "theorems": ["C102_order_kept", "C102_distinct_times", "C102_intervals", "C102_published_stamp", "C102_published_stamp_simulated", "C102_exact_stamp_refuted", "C102_all_distinct_refuted", "C102_published_increasing", "C102_published_history", "C102_published_nondecreasing"], "note": "toSec() and ros::Time(double) belong to roscpp and are modelled as its source defines them; boost's rounding is any function with the stated accuracy. Two _refuted theorems state what does not hold."},
{"property": "C103", "status": "proved", "theorems": ["C103_threshold", "C103_distance_defined", "C103_distance_accurate", "C103_order", "C103_round_trip", "C103_saturates", "C103_distance_derivative", "C103_derivatives_reciprocal", "C103_combined_derivative", "C103_param_derivative_overflow_refuted", "C103_infinite_distance_refuted"], "note": "All finite doubles. Logarithmic and hyperbolic parametrisations depend on the C library and are covered over the reals (C11-C13)."},
{"property": "C104", "status": "proved", "theorems": ["C104_defined_iff_lives_are_short", "C104_queries_defined", "C104_long_life_refuted", "C104_two_cameras_refuted", "C104_smallest_window_refuted", "C104_history_grows_with_every_frame", "C104_identities"], "note": "Exact bound for the counters, true counts from every query, refutations beyond the bounds."},
{"property": "C105", "status": "proved", "theorems": ["C105_pixel_is_number", "C105_projected_patch_safe", "C105_radtan_pixel_accuracy", "C105_grazing_bearing_refuted", "C105_equidistant_grazing_refuted", "C105_pixel_accuracy", "C105_exact_pinhole"], "note": "The two _refuted theorems show what fails for bearings with a positive but tiny z. The two copies of k1*d1+1 in the double-sphere formula are assumed to be contracted alike."},
{"property": "C106", "status": "proved", "theorems": ["C106_not_finite_fails", "C106_unit_length", "C106_pinhole_round_trip", "C106_success_is_number_refuted", "C106_same_distortion", "C106_principal_point", "C106_undistorted_round_trip"], "note": "The loop and the normalisation are proved for any distortion function; the Jacobians of all three models are in IbjacModel. The squares of the norm are summed in the order of Eigen's unrolled reduction. That the iteration converges for a camera that distorts is not claimed; C19 bounds the residual of an accepted result."},
{"property": "C107", "status": "proved", "theorems": ["C107_jacobian_accuracy", "C107_radtan_jacobian", "C107_double_sphere_jacobian", "C107_centre_jacobian_refuted"], "note": "Derivatives are derivable_pt_lim of the exact distortion with the camera's double coefficients. The arc tangent is any function accurate to about an ulp."},
{"property": "C108", "status": "proved", "theorems": ["C108_projection_jacobian", "C108_tangent_jacobian", "C108_same_pixel", "C108_pixel_accuracy"], "note": "pow(z,2) is modelled as the product z*z; the derivative is taken at a bearing within 2^-51 of the given one."}
]}
