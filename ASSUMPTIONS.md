# What `Print Assumptions` lists for each property theorem

Generated by `tools/assumptions.py`. All names are axioms or primitives of Coq's standard library.

## Closed under the global context

Theorems (84): `C100_array_left`, `C100_reflected`, `C100_two_arrays`, `C100_type_errors`, `C100_vectors`, `C101_shear`, `C104_equal`, `C104_equivalence`, `C104_hash`, `C104_unorderable`, `C104_unorderable_partial`, `C105_cached`, `C105_new`, `C105_reads_partial`, `C105_simple_kept_partial`, `C105_writes`, `C11_ne_is_not_eq`, `C13_history`, `C13_operations`, `C14_add_sub_mul`, `C14_div_floordiv`, `C14_failure_unchanged`, `C14_inplace_same`, `C14_mul_scalar`, `C14_negation`, `C14_reversed`, `C16_extend_bad_item`, `C16_extend_other_partial`, `C16_self_extend_refuted`, `C28_constant_epsilon_partial`, `C28_epsilon_before_reads_partial`, `C29_empty`, `C39_rejected_unchanged`, `C49_history_independent`, `C50_reads_partial`, `C51_copy_contains_partial`, `C51_copy_same`, `C51_deepcopy_bbox`, `C51_independent`, `C59_no_centroid_partial`, `C59_total_partial`, `C63_outcomes_partial`, `C64_equivalence`, `C64_same_cycle_equal`, `C64_sizes`, `C66_any_numbers`, `C68_vertices_any`, `C72_round_trip_partial`, `C80_equivalence`, `C81_array_pair_scalar`, `C81_no_malformed_partial`, `C81_no_malformed_refuted`, `C81_two_sequences`, `C81_vector_array_partial`, `C81_vector_array_refuted`, `C82_either_side`, `C82_kind`, `C83_effect`, `C83_only_target_changes`, `C83_rejected`, `C83_results`, `C83_untouched`, `C86_returned_partial`, `C91_array_del`, `C91_array_set`, `C91_extend`, `C91_fixed_length_partial`, `C91_get`, `C91_get_plain`, `C91_slice_numbers`, `C92_affine`, `C92_array`, `C92_box`, `C92_polygon`, `C92_vec`, `C93_centroid`, `C93_contains_declared`, `C93_contains_linear`, `C93_hull`, `C93_hull_depth`, `C93_is_simple`, `C93_linear`, `C93_same_results`, `C93_tangents_linear`

## 1 axioms/primitives

* `ClassicalDedekindReals.sig_forall_dec`

Theorems (1): `C86_real`

## 2 axioms/primitives

* `ClassicalDedekindReals.sig_forall_dec`
* `FunctionalExtensionality.functional_extensionality_dep`

Theorems (1): `C68_off_lines_alone`

## 3 axioms/primitives

* `ClassicalDedekindReals.sig_forall_dec`
* `ClassicalDedekindReals.sig_not_dec`
* `FunctionalExtensionality.functional_extensionality_dep`

Theorems (1): `C15_first_longest_exists`

## 4 axioms/primitives

* `ClassicalDedekindReals.sig_forall_dec`
* `ClassicalDedekindReals.sig_not_dec`
* `Classical_Prop.classic`
* `FunctionalExtensionality.functional_extensionality_dep`

Theorems (315): `C01_cos_sin_deg_exact`, `C01_cos_sin_deg_periodic`, `C01_cos_sin_deg_unit`, `C02_angle_range`, `C02_polar_angle`, `C02_polar_length`, `C02_polar_of_angle_length`, `C03_angle_to_points`, `C04_angle_to_range_partial`, `C04_angle_to_range_refuted`, `C05_normalized`, `C05_normalized_idempotent`, `C06_clamped`, `C06_clamped_bad_bounds`, `C06_clamped_small`, `C06_scaled_to`, `C07_clamped_direction_partial`, `C07_clamped_direction_refuted`, `C08_project`, `C08_reflect`, `C09_affine_rotation`, `C09_polar_direction`, `C09_rotated_compose`, `C09_rotated_is_rotation`, `C09_rotated_isometry`, `C102_axes_partial`, `C102_axes_refuted`, `C102_column_vectors`, `C102_is_identity`, `C102_shear`, `C102_translation_scale`, `C104_order`, `C104_truth`, `C104_unorderable_refuted`, `C105_simple_kept_refuted`, `C106_contains`, `C106_inputs`, `C106_shape`, `C106_triangle`, `C107_again`, `C107_again_same`, `C107_contains`, `C107_corners`, `C107_order`, `C107_region`, `C108_bounding_box`, `C108_contains`, `C108_contains_convex`, `C108_contains_refuted`, `C108_contains_simple`, `C108_contains_triangle`, `C108_convex_exact`, `C108_distinct`, `C108_properties_partial`, `C108_properties_refuted`, `C109_equal`, `C109_exists`, `C109_refuted`, `C109_region`, `C109_sound_images`, `C10_lerp`, `C10_lerp_on_segment`, `C111_convex_polygon`, `C111_inner`, `C111_merge`, `C111_monotone`, `C111_refuted`, `C11_equality`, `C11_order_is_length`, `C12_almost_equals`, `C12_almost_equals_two`, `C15_longest_partial`, `C15_longest_zeros_refuted`, `C15_shortest`, `C17_inverse`, `C17_monoid`, `C18_invert_fails_iff`, `C18_zero_epsilon`, `C19_composition_iff_partial`, `C19_composition_refuted`, `C20_inverse_points_iff_partial`, `C20_inverse_points_refuted`, `C21_application_closed`, `C21_constructors`, `C21_diagonal`, `C21_translation_scale_diagonal`, `C22_area_factor`, `C23_affine_ratios`, `C24_rotation_pivot`, `C25_orthonormal_det`, `C25_orthonormal_distances`, `C25_orthonormal_exact`, `C25_rigid_motions`, `C26_conformal_axes_refuted`, `C26_conformal_equal_columns_partial`, `C26_conformal_refuted`, `C27_itransform`, `C28_cached_stale_refuted`, `C29_tight_real`, `C30_from_shapes_real`, `C30_order_independent`, `C31_empty`, `C31_tiling_real`, `C32_from_center`, `C32_inflate`, `C32_inflate_deflate`, `C32_inflate_scalar`, `C33_inflate_negative_partial`, `C33_inflate_negative_refuted`, `C34_fit_box`, `C34_fit_box_zero`, `C35_fit_shape_partial`, `C35_fit_shape_refuted`, `C36_other`, `C36_recognised`, `C36_rectilinear`, `C36_reported`, `C37_nearly_rectilinear_partial`, `C37_nearly_rectilinear_refuted`, `C38_box_polygon`, `C39_direction_assignment`, `C39_line_orthonormal`, `C39_normal_assignment`, `C39_ray_orthonormal`, `C39_segment_orthonormal`, `C40_partition_real`, `C40_sides`, `C41_project_nearest`, `C41_reflect`, `C42_from_normal`, `C42_from_points_accepts`, `C42_from_points_collinear`, `C42_from_points_rejects`, `C42_new_contains`, `C42_parallel_perpendicular`, `C42_points_roundtrip`, `C43_contains`, `C43_distance`, `C43_from_points`, `C43_points_roundtrip`, `C43_project`, `C44_partition`, `C44_regions`, `C45_contains`, `C45_distance`, `C45_partition`, `C45_project`, `C45_regions`, `C46_forward_partial`, `C46_refuted`, `C46_set_end`, `C47_from_points`, `C47_rejects`, `C47_roundtrip`, `C47_two_points`, `C48_line`, `C48_ray`, `C48_segment`, `C50_convex_exact`, `C50_convex_partial`, `C50_refuted`, `C51_copy_equal`, `C51_deepcopy_contains_refuted`, `C52_goes_once_partial`, `C52_refuted`, `C52_sound_partial`, `C53_affine`, `C53_complete`, `C53_exact`, `C53_start_and_direction_partial`, `C53_start_refuted`, `C53_translate_scale`, `C54_additive`, `C54_adjoining`, `C54_half_open`, `C54_inside_iff_turning`, `C54_turning_number`, `C55_corner_free_partial`, `C55_left_first_partial`, `C55_not_misread_partial`, `C55_refuted`, `C55_unclassified_partial`, `C55_winding_exact`, `C56_agrees`, `C56_any_order`, `C56_cramped_empty`, `C57_filter_harmless`, `C58_agree_partial`, `C58_all_or_nothing`, `C58_declared_partial`, `C58_exact`, `C58_not_misread_partial`, `C58_refuted`, `C59_refuted`, `C60_all_pairs_partial`, `C60_all_pairs_refuted`, `C60_crossing_refuted`, `C60_detects_crossings_partial`, `C60_no_contact`, `C60_sweep_exact`, `C61_affine_partial`, `C61_collinear_refuted`, `C61_exact_partial`, `C61_mirror_refuted`, `C62_centre_of_mass`, `C62_equivariant`, `C62_inside_convex`, `C62_start_and_direction`, `C63_exactly_partial`, `C63_refuted`, `C65_distinct_partial`, `C65_refuted`, `C65_same_cycle_partial`, `C66_from_input`, `C66_of_polygon`, `C66_raises`, `C67_ahead_partial`, `C67_between_partial`, `C67_few_partial`, `C67_level_or_far_partial`, `C67_refuted`, `C67_vertical_refuted`, `C68_left`, `C68_refuted`, `C68_right_alone_partial`, `C68_scan`, `C68_tangents_partial`, `C68_tie_exact`, `C68_two_edges_refuted`, `C68_vertices`, `C69_convex`, `C69_inner`, `C69_outer`, `C69_too_few`, `C69_vertices`, `C70_deep_partial`, `C70_equal_partial`, `C70_even_partial`, `C70_negative_deep_partial`, `C70_never_misses`, `C70_refuted`, `C70_shallow_wrong`, `C71_all_radii`, `C71_correct_partial`, `C71_refuted`, `C71_true_is_right`, `C71_truth`, `C72_refuted`, `C73_exact`, `C73_never_wrong`, `C73_refuted`, `C73_square_exact`, `C73_square_partial`, `C74_regular`, `C74_same_sign`, `C74_star`, `C75_all_radii`, `C75_positive_partial`, `C75_refuted`, `C75_wrong_exactly`, `C78_distance_metric`, `C78_division`, `C78_dot_cross`, `C78_floor_division`, `C79_meaning`, `C79_tolerance`, `C80_boxes`, `C80_equal_segments_differ_refuted`, `C80_lines_rays`, `C80_negative_length_refuted`, `C80_segments`, `C80_sequences`, `C80_transforms`, `C82_inplace`, `C82_points`, `C85_clamped`, `C85_in_place`, `C85_negative_maximum_refuted`, `C85_normalized`, `C85_rejects`, `C91_extend_refuted`, `C91_fixed_length_refuted`, `C92_line`, `C92_ray`, `C92_segment_partial`, `C92_segment_refuted`, `C93_contains_deepcopy_refuted`, `C93_contains_radial`, `C93_contains_read`, `C93_contains_unread_refuted`, `C93_tangents_alone_partial`, `C93_tangents_declared_refuted`, `C93_tangents_edge_refuted`, `C93_tangents_read_partial`, `C93_tangents_regular_partial`, `C93_tangents_tie`, `C96_centroid_breaks`, `C96_mixed_radii_partial`, `C96_refuted`, `C98_after_reads_refuted`, `C98_boundary_refuted`, `C98_commutes_partial`, `C98_convex_exact`, `C98_convex_partial`, `C98_in_place_partial`, `C98_reads_partial`, `C98_triangle_partial`, `C99_line`, `C99_line_sides`, `C99_ray`, `C99_ray_regions`, `C99_segment`, `C99_segment_regions`, `C99_signed_distance`, `C99_similarities`

## 15 axioms/primitives

* `PrimFloat.abs`
* `PrimFloat.add`
* `PrimFloat.div`
* `PrimFloat.eqb`
* `PrimFloat.float`
* `PrimFloat.leb`
* `PrimFloat.ltb`
* `PrimFloat.mul`
* `PrimFloat.of_uint63`
* `PrimFloat.opp`
* `PrimFloat.sub`
* `PrimInt63.int`
* `PrimInt63.lor`
* `PrimInt63.lsl`
* `PrimInt63.sub`

Theorems (7): `C112_backwards_segment`, `C112_segment_absorbed`, `C86_raises`, `C97_center_refuted`, `C97_fit_refuted`, `C97_inflate_back_refuted`, `C97_to_polygon_refuted`

## 16 axioms/primitives

* `PrimFloat.abs`
* `PrimFloat.add`
* `PrimFloat.div`
* `PrimFloat.eqb`
* `PrimFloat.float`
* `PrimFloat.leb`
* `PrimFloat.ltb`
* `PrimFloat.mul`
* `PrimFloat.of_uint63`
* `PrimFloat.opp`
* `PrimFloat.sqrt`
* `PrimFloat.sub`
* `PrimInt63.int`
* `PrimInt63.lor`
* `PrimInt63.lsl`
* `PrimInt63.sub`

Theorems (1): `C86_refuted`

## 22 axioms/primitives

* `FloatAxioms.eqb_spec`
* `FloatAxioms.ltb_spec`
* `PrimFloat.abs`
* `PrimFloat.add`
* `PrimFloat.div`
* `PrimFloat.eqb`
* `PrimFloat.float`
* `PrimFloat.frshiftexp`
* `PrimFloat.leb`
* `PrimFloat.ltb`
* `PrimFloat.mul`
* `PrimFloat.normfr_mantissa`
* `PrimFloat.of_uint63`
* `PrimFloat.opp`
* `PrimFloat.sub`
* `PrimInt63.eqb`
* `PrimInt63.int`
* `PrimInt63.land`
* `PrimInt63.lor`
* `PrimInt63.lsl`
* `PrimInt63.lsr`
* `PrimInt63.sub`

Theorems (4): `C76_vector_methods_total`, `C77_lines`, `C77_rays`, `C77_segments`

## 23 axioms/primitives

* `FloatAxioms.SF2Prim_Prim2SF`
* `FloatAxioms.opp_spec`
* `PrimFloat.abs`
* `PrimFloat.add`
* `PrimFloat.div`
* `PrimFloat.eqb`
* `PrimFloat.float`
* `PrimFloat.frshiftexp`
* `PrimFloat.ldshiftexp`
* `PrimFloat.leb`
* `PrimFloat.ltb`
* `PrimFloat.mul`
* `PrimFloat.normfr_mantissa`
* `PrimFloat.of_uint63`
* `PrimFloat.opp`
* `PrimFloat.sub`
* `PrimInt63.eqb`
* `PrimInt63.int`
* `PrimInt63.land`
* `PrimInt63.lor`
* `PrimInt63.lsl`
* `PrimInt63.lsr`
* `PrimInt63.sub`

Theorems (1): `C113_turned`

## 25 axioms/primitives

* `ClassicalDedekindReals.sig_forall_dec`
* `ClassicalDedekindReals.sig_not_dec`
* `Classical_Prop.classic`
* `FloatAxioms.Prim2SF_valid`
* `FunctionalExtensionality.functional_extensionality_dep`
* `PrimFloat.abs`
* `PrimFloat.add`
* `PrimFloat.div`
* `PrimFloat.eqb`
* `PrimFloat.float`
* `PrimFloat.frshiftexp`
* `PrimFloat.leb`
* `PrimFloat.ltb`
* `PrimFloat.mul`
* `PrimFloat.normfr_mantissa`
* `PrimFloat.of_uint63`
* `PrimFloat.opp`
* `PrimFloat.sub`
* `PrimInt63.eqb`
* `PrimInt63.int`
* `PrimInt63.land`
* `PrimInt63.lor`
* `PrimInt63.lsl`
* `PrimInt63.lsr`
* `PrimInt63.sub`

Theorems (3): `C118_angle`, `C118_direction`, `C118_range`

## 25 axioms/primitives

* `ClassicalDedekindReals.sig_forall_dec`
* `FloatAxioms.Prim2SF_SF2Prim`
* `FloatAxioms.Prim2SF_valid`
* `FunctionalExtensionality.functional_extensionality_dep`
* `PrimFloat.abs`
* `PrimFloat.add`
* `PrimFloat.div`
* `PrimFloat.eqb`
* `PrimFloat.float`
* `PrimFloat.frshiftexp`
* `PrimFloat.ldshiftexp`
* `PrimFloat.leb`
* `PrimFloat.ltb`
* `PrimFloat.mul`
* `PrimFloat.normfr_mantissa`
* `PrimFloat.of_uint63`
* `PrimFloat.opp`
* `PrimFloat.sub`
* `PrimInt63.eqb`
* `PrimInt63.int`
* `PrimInt63.land`
* `PrimInt63.lor`
* `PrimInt63.lsl`
* `PrimInt63.lsr`
* `PrimInt63.sub`

Theorems (2): `C123_thin_refuted`, `C124_round_refuted`

## 25 axioms/primitives

* `FloatAxioms.abs_spec`
* `FloatAxioms.eqb_spec`
* `FloatAxioms.leb_spec`
* `FloatAxioms.ltb_spec`
* `FloatAxioms.opp_spec`
* `PrimFloat.abs`
* `PrimFloat.add`
* `PrimFloat.div`
* `PrimFloat.eqb`
* `PrimFloat.float`
* `PrimFloat.frshiftexp`
* `PrimFloat.leb`
* `PrimFloat.ltb`
* `PrimFloat.mul`
* `PrimFloat.normfr_mantissa`
* `PrimFloat.of_uint63`
* `PrimFloat.opp`
* `PrimFloat.sub`
* `PrimInt63.eqb`
* `PrimInt63.int`
* `PrimInt63.land`
* `PrimInt63.lor`
* `PrimInt63.lsl`
* `PrimInt63.lsr`
* `PrimInt63.sub`

Theorems (2): `C112_ray`, `C40_partition_float`

## 27 axioms/primitives

* `ClassicalDedekindReals.sig_forall_dec`
* `ClassicalDedekindReals.sig_not_dec`
* `Classical_Prop.classic`
* `FloatAxioms.Prim2SF_SF2Prim`
* `FloatAxioms.Prim2SF_valid`
* `FunctionalExtensionality.functional_extensionality_dep`
* `PrimFloat.abs`
* `PrimFloat.add`
* `PrimFloat.div`
* `PrimFloat.eqb`
* `PrimFloat.float`
* `PrimFloat.frshiftexp`
* `PrimFloat.ldshiftexp`
* `PrimFloat.leb`
* `PrimFloat.ltb`
* `PrimFloat.mul`
* `PrimFloat.normfr_mantissa`
* `PrimFloat.of_uint63`
* `PrimFloat.opp`
* `PrimFloat.sub`
* `PrimInt63.eqb`
* `PrimInt63.int`
* `PrimInt63.land`
* `PrimInt63.lor`
* `PrimInt63.lsl`
* `PrimInt63.lsr`
* `PrimInt63.sub`

Theorems (1): `C113_overflow`

## 27 axioms/primitives

* `FloatAxioms.Prim2SF_SF2Prim`
* `FloatAxioms.Prim2SF_valid`
* `FloatAxioms.SF2Prim_Prim2SF`
* `FloatAxioms.abs_spec`
* `FloatAxioms.eqb_spec`
* `FloatAxioms.ltb_spec`
* `PrimFloat.abs`
* `PrimFloat.add`
* `PrimFloat.div`
* `PrimFloat.eqb`
* `PrimFloat.float`
* `PrimFloat.frshiftexp`
* `PrimFloat.ldshiftexp`
* `PrimFloat.leb`
* `PrimFloat.ltb`
* `PrimFloat.mul`
* `PrimFloat.normfr_mantissa`
* `PrimFloat.of_uint63`
* `PrimFloat.opp`
* `PrimFloat.sub`
* `PrimInt63.eqb`
* `PrimInt63.int`
* `PrimInt63.land`
* `PrimInt63.lor`
* `PrimInt63.lsl`
* `PrimInt63.lsr`
* `PrimInt63.sub`

Theorems (1): `C18_invert_float`

## 28 axioms/primitives

* `FloatAxioms.SF2Prim_Prim2SF`
* `FloatAxioms.abs_spec`
* `FloatAxioms.eqb_spec`
* `FloatAxioms.leb_spec`
* `FloatAxioms.ltb_spec`
* `FloatAxioms.mul_spec`
* `FloatAxioms.opp_spec`
* `PrimFloat.abs`
* `PrimFloat.add`
* `PrimFloat.div`
* `PrimFloat.eqb`
* `PrimFloat.float`
* `PrimFloat.frshiftexp`
* `PrimFloat.ldshiftexp`
* `PrimFloat.leb`
* `PrimFloat.ltb`
* `PrimFloat.mul`
* `PrimFloat.normfr_mantissa`
* `PrimFloat.of_uint63`
* `PrimFloat.opp`
* `PrimFloat.sub`
* `PrimInt63.eqb`
* `PrimInt63.int`
* `PrimInt63.land`
* `PrimInt63.lor`
* `PrimInt63.lsl`
* `PrimInt63.lsr`
* `PrimInt63.sub`

Theorems (1): `C112_ray_beside`

## 30 axioms/primitives

* `ClassicalDedekindReals.sig_forall_dec`
* `ClassicalDedekindReals.sig_not_dec`
* `Classical_Prop.classic`
* `FloatAxioms.Prim2SF_SF2Prim`
* `FloatAxioms.Prim2SF_valid`
* `FloatAxioms.SF2Prim_Prim2SF`
* `FloatAxioms.abs_spec`
* `FloatAxioms.eqb_spec`
* `FunctionalExtensionality.functional_extensionality_dep`
* `PrimFloat.abs`
* `PrimFloat.add`
* `PrimFloat.div`
* `PrimFloat.eqb`
* `PrimFloat.float`
* `PrimFloat.frshiftexp`
* `PrimFloat.ldshiftexp`
* `PrimFloat.leb`
* `PrimFloat.ltb`
* `PrimFloat.mul`
* `PrimFloat.normfr_mantissa`
* `PrimFloat.of_uint63`
* `PrimFloat.opp`
* `PrimFloat.sub`
* `PrimInt63.eqb`
* `PrimInt63.int`
* `PrimInt63.land`
* `PrimInt63.lor`
* `PrimInt63.lsl`
* `PrimInt63.lsr`
* `PrimInt63.sub`

Theorems (2): `C65_doubles`, `C65_doubles_distinct_partial`

## 30 axioms/primitives

* `FloatAxioms.Prim2SF_SF2Prim`
* `FloatAxioms.Prim2SF_valid`
* `FloatAxioms.SF2Prim_Prim2SF`
* `FloatAxioms.abs_spec`
* `FloatAxioms.eqb_spec`
* `FloatAxioms.leb_spec`
* `FloatAxioms.ltb_spec`
* `FloatAxioms.mul_spec`
* `FloatAxioms.opp_spec`
* `PrimFloat.abs`
* `PrimFloat.add`
* `PrimFloat.div`
* `PrimFloat.eqb`
* `PrimFloat.float`
* `PrimFloat.frshiftexp`
* `PrimFloat.ldshiftexp`
* `PrimFloat.leb`
* `PrimFloat.ltb`
* `PrimFloat.mul`
* `PrimFloat.normfr_mantissa`
* `PrimFloat.of_uint63`
* `PrimFloat.opp`
* `PrimFloat.sub`
* `PrimInt63.eqb`
* `PrimInt63.int`
* `PrimInt63.land`
* `PrimInt63.lor`
* `PrimInt63.lsl`
* `PrimInt63.lsr`
* `PrimInt63.sub`

Theorems (1): `C112_segment_beside`

## 31 axioms/primitives

* `ClassicalDedekindReals.sig_forall_dec`
* `ClassicalDedekindReals.sig_not_dec`
* `Classical_Prop.classic`
* `FloatAxioms.Prim2SF_SF2Prim`
* `FloatAxioms.Prim2SF_valid`
* `FloatAxioms.SF2Prim_Prim2SF`
* `FloatAxioms.abs_spec`
* `FloatAxioms.eqb_spec`
* `FloatAxioms.sub_spec`
* `FunctionalExtensionality.functional_extensionality_dep`
* `PrimFloat.abs`
* `PrimFloat.add`
* `PrimFloat.div`
* `PrimFloat.eqb`
* `PrimFloat.float`
* `PrimFloat.frshiftexp`
* `PrimFloat.ldshiftexp`
* `PrimFloat.leb`
* `PrimFloat.ltb`
* `PrimFloat.mul`
* `PrimFloat.normfr_mantissa`
* `PrimFloat.of_uint63`
* `PrimFloat.opp`
* `PrimFloat.sub`
* `PrimInt63.eqb`
* `PrimInt63.int`
* `PrimInt63.land`
* `PrimInt63.lor`
* `PrimInt63.lsl`
* `PrimInt63.lsr`
* `PrimInt63.sub`

Theorems (4): `C118_angle_to`, `C118_seam_refuted`, `C86_underflow_refuted`, `C97_size`

## 32 axioms/primitives

* `ClassicalDedekindReals.sig_forall_dec`
* `ClassicalDedekindReals.sig_not_dec`
* `Classical_Prop.classic`
* `FloatAxioms.Prim2SF_SF2Prim`
* `FloatAxioms.Prim2SF_valid`
* `FloatAxioms.SF2Prim_Prim2SF`
* `FloatAxioms.abs_spec`
* `FloatAxioms.add_spec`
* `FloatAxioms.eqb_spec`
* `FloatAxioms.mul_spec`
* `FunctionalExtensionality.functional_extensionality_dep`
* `PrimFloat.abs`
* `PrimFloat.add`
* `PrimFloat.div`
* `PrimFloat.eqb`
* `PrimFloat.float`
* `PrimFloat.frshiftexp`
* `PrimFloat.ldshiftexp`
* `PrimFloat.leb`
* `PrimFloat.ltb`
* `PrimFloat.mul`
* `PrimFloat.normfr_mantissa`
* `PrimFloat.of_uint63`
* `PrimFloat.opp`
* `PrimFloat.sub`
* `PrimInt63.eqb`
* `PrimInt63.int`
* `PrimInt63.land`
* `PrimInt63.lor`
* `PrimInt63.lsl`
* `PrimInt63.lsr`
* `PrimInt63.sub`

Theorems (7): `C10_lerp_float`, `C110_points`, `C110_products`, `C110_sequences`, `C27_itransform_float`, `C87_dot`, `C87_transform`

## 32 axioms/primitives

* `ClassicalDedekindReals.sig_forall_dec`
* `ClassicalDedekindReals.sig_not_dec`
* `Classical_Prop.classic`
* `FloatAxioms.Prim2SF_SF2Prim`
* `FloatAxioms.Prim2SF_valid`
* `FloatAxioms.SF2Prim_Prim2SF`
* `FloatAxioms.abs_spec`
* `FloatAxioms.eqb_spec`
* `FloatAxioms.mul_spec`
* `FloatAxioms.sub_spec`
* `FunctionalExtensionality.functional_extensionality_dep`
* `PrimFloat.abs`
* `PrimFloat.add`
* `PrimFloat.div`
* `PrimFloat.eqb`
* `PrimFloat.float`
* `PrimFloat.frshiftexp`
* `PrimFloat.ldshiftexp`
* `PrimFloat.leb`
* `PrimFloat.ltb`
* `PrimFloat.mul`
* `PrimFloat.normfr_mantissa`
* `PrimFloat.of_uint63`
* `PrimFloat.opp`
* `PrimFloat.sub`
* `PrimInt63.eqb`
* `PrimInt63.int`
* `PrimInt63.land`
* `PrimInt63.lor`
* `PrimInt63.lsl`
* `PrimInt63.lsr`
* `PrimInt63.sub`

Theorems (1): `C12_almost_equals_float`

## 32 axioms/primitives

* `ClassicalDedekindReals.sig_forall_dec`
* `ClassicalDedekindReals.sig_not_dec`
* `Classical_Prop.classic`
* `FloatAxioms.Prim2SF_SF2Prim`
* `FloatAxioms.Prim2SF_valid`
* `FloatAxioms.SF2Prim_Prim2SF`
* `FloatAxioms.abs_spec`
* `FloatAxioms.eqb_spec`
* `FloatAxioms.opp_spec`
* `FloatAxioms.sub_spec`
* `FunctionalExtensionality.functional_extensionality_dep`
* `PrimFloat.abs`
* `PrimFloat.add`
* `PrimFloat.div`
* `PrimFloat.eqb`
* `PrimFloat.float`
* `PrimFloat.frshiftexp`
* `PrimFloat.ldshiftexp`
* `PrimFloat.leb`
* `PrimFloat.ltb`
* `PrimFloat.mul`
* `PrimFloat.normfr_mantissa`
* `PrimFloat.of_uint63`
* `PrimFloat.opp`
* `PrimFloat.sub`
* `PrimInt63.eqb`
* `PrimInt63.int`
* `PrimInt63.land`
* `PrimInt63.lor`
* `PrimInt63.lsl`
* `PrimInt63.lsr`
* `PrimInt63.sub`

Theorems (1): `C87_distance`

## 32 axioms/primitives

* `ClassicalDedekindReals.sig_forall_dec`
* `ClassicalDedekindReals.sig_not_dec`
* `Classical_Prop.classic`
* `FloatAxioms.Prim2SF_SF2Prim`
* `FloatAxioms.Prim2SF_valid`
* `FloatAxioms.SF2Prim_Prim2SF`
* `FloatAxioms.abs_spec`
* `FloatAxioms.eqb_spec`
* `FloatAxioms.sqrt_spec`
* `FunctionalExtensionality.functional_extensionality_dep`
* `PrimFloat.abs`
* `PrimFloat.add`
* `PrimFloat.div`
* `PrimFloat.eqb`
* `PrimFloat.float`
* `PrimFloat.frshiftexp`
* `PrimFloat.ldshiftexp`
* `PrimFloat.leb`
* `PrimFloat.ltb`
* `PrimFloat.mul`
* `PrimFloat.normfr_mantissa`
* `PrimFloat.of_uint63`
* `PrimFloat.opp`
* `PrimFloat.sqrt`
* `PrimFloat.sub`
* `PrimInt63.eqb`
* `PrimInt63.int`
* `PrimInt63.land`
* `PrimInt63.lor`
* `PrimInt63.lsl`
* `PrimInt63.lsr`
* `PrimInt63.sub`

Theorems (1): `C92_doubles_refuted`

## 32 axioms/primitives

* `ClassicalDedekindReals.sig_forall_dec`
* `ClassicalDedekindReals.sig_not_dec`
* `Classical_Prop.classic`
* `FloatAxioms.Prim2SF_SF2Prim`
* `FloatAxioms.Prim2SF_valid`
* `FloatAxioms.SF2Prim_Prim2SF`
* `FloatAxioms.eqb_spec`
* `FloatAxioms.leb_spec`
* `FloatAxioms.ltb_spec`
* `FloatAxioms.mul_spec`
* `FunctionalExtensionality.functional_extensionality_dep`
* `PrimFloat.abs`
* `PrimFloat.add`
* `PrimFloat.div`
* `PrimFloat.eqb`
* `PrimFloat.float`
* `PrimFloat.frshiftexp`
* `PrimFloat.ldshiftexp`
* `PrimFloat.leb`
* `PrimFloat.ltb`
* `PrimFloat.mul`
* `PrimFloat.normfr_mantissa`
* `PrimFloat.of_uint63`
* `PrimFloat.opp`
* `PrimFloat.sub`
* `PrimInt63.eqb`
* `PrimInt63.int`
* `PrimInt63.land`
* `PrimInt63.lor`
* `PrimInt63.lsl`
* `PrimInt63.lsr`
* `PrimInt63.sub`

Theorems (4): `C29_tight_float`, `C30_from_shapes_float`, `C59_float_partial`, `C80_equivalence_float`

## 33 axioms/primitives

* `ClassicalDedekindReals.sig_forall_dec`
* `ClassicalDedekindReals.sig_not_dec`
* `Classical_Prop.classic`
* `FloatAxioms.Prim2SF_SF2Prim`
* `FloatAxioms.Prim2SF_valid`
* `FloatAxioms.SF2Prim_Prim2SF`
* `FloatAxioms.abs_spec`
* `FloatAxioms.add_spec`
* `FloatAxioms.eqb_spec`
* `FloatAxioms.leb_spec`
* `FloatAxioms.mul_spec`
* `FunctionalExtensionality.functional_extensionality_dep`
* `PrimFloat.abs`
* `PrimFloat.add`
* `PrimFloat.div`
* `PrimFloat.eqb`
* `PrimFloat.float`
* `PrimFloat.frshiftexp`
* `PrimFloat.ldshiftexp`
* `PrimFloat.leb`
* `PrimFloat.ltb`
* `PrimFloat.mul`
* `PrimFloat.normfr_mantissa`
* `PrimFloat.of_uint63`
* `PrimFloat.opp`
* `PrimFloat.sub`
* `PrimInt63.eqb`
* `PrimInt63.int`
* `PrimInt63.land`
* `PrimInt63.lor`
* `PrimInt63.lsl`
* `PrimInt63.lsr`
* `PrimInt63.sub`

Theorems (2): `C112_not_nan`, `C113_side_number`

## 33 axioms/primitives

* `ClassicalDedekindReals.sig_forall_dec`
* `ClassicalDedekindReals.sig_not_dec`
* `Classical_Prop.classic`
* `FloatAxioms.Prim2SF_SF2Prim`
* `FloatAxioms.Prim2SF_valid`
* `FloatAxioms.SF2Prim_Prim2SF`
* `FloatAxioms.abs_spec`
* `FloatAxioms.add_spec`
* `FloatAxioms.eqb_spec`
* `FloatAxioms.ltb_spec`
* `FloatAxioms.mul_spec`
* `FunctionalExtensionality.functional_extensionality_dep`
* `PrimFloat.abs`
* `PrimFloat.add`
* `PrimFloat.div`
* `PrimFloat.eqb`
* `PrimFloat.float`
* `PrimFloat.frshiftexp`
* `PrimFloat.ldshiftexp`
* `PrimFloat.leb`
* `PrimFloat.ltb`
* `PrimFloat.mul`
* `PrimFloat.normfr_mantissa`
* `PrimFloat.of_uint63`
* `PrimFloat.opp`
* `PrimFloat.sub`
* `PrimInt63.eqb`
* `PrimInt63.int`
* `PrimInt63.land`
* `PrimInt63.lor`
* `PrimInt63.lsl`
* `PrimInt63.lsr`
* `PrimInt63.sub`

Theorems (1): `C97_transform`

## 33 axioms/primitives

* `ClassicalDedekindReals.sig_forall_dec`
* `ClassicalDedekindReals.sig_not_dec`
* `Classical_Prop.classic`
* `FloatAxioms.Prim2SF_SF2Prim`
* `FloatAxioms.Prim2SF_valid`
* `FloatAxioms.SF2Prim_Prim2SF`
* `FloatAxioms.abs_spec`
* `FloatAxioms.add_spec`
* `FloatAxioms.eqb_spec`
* `FloatAxioms.mul_spec`
* `FloatAxioms.opp_spec`
* `FunctionalExtensionality.functional_extensionality_dep`
* `PrimFloat.abs`
* `PrimFloat.add`
* `PrimFloat.div`
* `PrimFloat.eqb`
* `PrimFloat.float`
* `PrimFloat.frshiftexp`
* `PrimFloat.ldshiftexp`
* `PrimFloat.leb`
* `PrimFloat.ltb`
* `PrimFloat.mul`
* `PrimFloat.normfr_mantissa`
* `PrimFloat.of_uint63`
* `PrimFloat.opp`
* `PrimFloat.sub`
* `PrimInt63.eqb`
* `PrimInt63.int`
* `PrimInt63.land`
* `PrimInt63.lor`
* `PrimInt63.lsl`
* `PrimInt63.lsr`
* `PrimInt63.sub`

Theorems (1): `C113_perpendicular`

## 33 axioms/primitives

* `ClassicalDedekindReals.sig_forall_dec`
* `ClassicalDedekindReals.sig_not_dec`
* `Classical_Prop.classic`
* `FloatAxioms.Prim2SF_SF2Prim`
* `FloatAxioms.Prim2SF_valid`
* `FloatAxioms.SF2Prim_Prim2SF`
* `FloatAxioms.abs_spec`
* `FloatAxioms.add_spec`
* `FloatAxioms.eqb_spec`
* `FloatAxioms.opp_spec`
* `FloatAxioms.sub_spec`
* `FunctionalExtensionality.functional_extensionality_dep`
* `PrimFloat.abs`
* `PrimFloat.add`
* `PrimFloat.div`
* `PrimFloat.eqb`
* `PrimFloat.float`
* `PrimFloat.frshiftexp`
* `PrimFloat.ldshiftexp`
* `PrimFloat.leb`
* `PrimFloat.ltb`
* `PrimFloat.mul`
* `PrimFloat.normfr_mantissa`
* `PrimFloat.of_uint63`
* `PrimFloat.opp`
* `PrimFloat.sub`
* `PrimInt63.eqb`
* `PrimInt63.int`
* `PrimInt63.land`
* `PrimInt63.lor`
* `PrimInt63.lsl`
* `PrimInt63.lsr`
* `PrimInt63.sub`

Theorems (1): `C87_add_sub`

## 33 axioms/primitives

* `ClassicalDedekindReals.sig_forall_dec`
* `ClassicalDedekindReals.sig_not_dec`
* `Classical_Prop.classic`
* `FloatAxioms.Prim2SF_SF2Prim`
* `FloatAxioms.Prim2SF_valid`
* `FloatAxioms.SF2Prim_Prim2SF`
* `FloatAxioms.abs_spec`
* `FloatAxioms.eqb_spec`
* `FloatAxioms.ltb_spec`
* `FloatAxioms.mul_spec`
* `FloatAxioms.sub_spec`
* `FunctionalExtensionality.functional_extensionality_dep`
* `PrimFloat.abs`
* `PrimFloat.add`
* `PrimFloat.div`
* `PrimFloat.eqb`
* `PrimFloat.float`
* `PrimFloat.frshiftexp`
* `PrimFloat.ldshiftexp`
* `PrimFloat.leb`
* `PrimFloat.ltb`
* `PrimFloat.mul`
* `PrimFloat.normfr_mantissa`
* `PrimFloat.of_uint63`
* `PrimFloat.opp`
* `PrimFloat.sub`
* `PrimInt63.eqb`
* `PrimInt63.int`
* `PrimInt63.land`
* `PrimInt63.lor`
* `PrimInt63.lsl`
* `PrimInt63.lsr`
* `PrimInt63.sub`

Theorems (2): `C110_determinant`, `C86_range_partial`

## 33 axioms/primitives

* `ClassicalDedekindReals.sig_forall_dec`
* `ClassicalDedekindReals.sig_not_dec`
* `Classical_Prop.classic`
* `FloatAxioms.Prim2SF_SF2Prim`
* `FloatAxioms.Prim2SF_valid`
* `FloatAxioms.SF2Prim_Prim2SF`
* `FloatAxioms.add_spec`
* `FloatAxioms.eqb_spec`
* `FloatAxioms.leb_spec`
* `FloatAxioms.ltb_spec`
* `FloatAxioms.mul_spec`
* `FunctionalExtensionality.functional_extensionality_dep`
* `PrimFloat.abs`
* `PrimFloat.add`
* `PrimFloat.div`
* `PrimFloat.eqb`
* `PrimFloat.float`
* `PrimFloat.frshiftexp`
* `PrimFloat.ldshiftexp`
* `PrimFloat.leb`
* `PrimFloat.ltb`
* `PrimFloat.mul`
* `PrimFloat.normfr_mantissa`
* `PrimFloat.of_uint63`
* `PrimFloat.opp`
* `PrimFloat.sub`
* `PrimInt63.eqb`
* `PrimInt63.int`
* `PrimInt63.land`
* `PrimInt63.lor`
* `PrimInt63.lsl`
* `PrimInt63.lsr`
* `PrimInt63.sub`

Theorems (2): `C11_total_preorder_float`, `C15_shortest_float`

## 33 axioms/primitives

* `ClassicalDedekindReals.sig_forall_dec`
* `ClassicalDedekindReals.sig_not_dec`
* `Classical_Prop.classic`
* `FloatAxioms.Prim2SF_SF2Prim`
* `FloatAxioms.Prim2SF_valid`
* `FloatAxioms.SF2Prim_Prim2SF`
* `FloatAxioms.eqb_spec`
* `FloatAxioms.leb_spec`
* `FloatAxioms.ltb_spec`
* `FloatAxioms.mul_spec`
* `FloatAxioms.sub_spec`
* `FunctionalExtensionality.functional_extensionality_dep`
* `PrimFloat.abs`
* `PrimFloat.add`
* `PrimFloat.div`
* `PrimFloat.eqb`
* `PrimFloat.float`
* `PrimFloat.frshiftexp`
* `PrimFloat.ldshiftexp`
* `PrimFloat.leb`
* `PrimFloat.ltb`
* `PrimFloat.mul`
* `PrimFloat.normfr_mantissa`
* `PrimFloat.of_uint63`
* `PrimFloat.opp`
* `PrimFloat.sub`
* `PrimInt63.eqb`
* `PrimInt63.int`
* `PrimInt63.land`
* `PrimInt63.lor`
* `PrimInt63.lsl`
* `PrimInt63.lsr`
* `PrimInt63.sub`

Theorems (1): `C31_tiling_float`

## 34 axioms/primitives

* `ClassicalDedekindReals.sig_forall_dec`
* `ClassicalDedekindReals.sig_not_dec`
* `Classical_Prop.classic`
* `FloatAxioms.Prim2SF_SF2Prim`
* `FloatAxioms.Prim2SF_valid`
* `FloatAxioms.SF2Prim_Prim2SF`
* `FloatAxioms.abs_spec`
* `FloatAxioms.add_spec`
* `FloatAxioms.div_spec`
* `FloatAxioms.eqb_spec`
* `FloatAxioms.ltb_spec`
* `FloatAxioms.mul_spec`
* `FunctionalExtensionality.functional_extensionality_dep`
* `PrimFloat.abs`
* `PrimFloat.add`
* `PrimFloat.div`
* `PrimFloat.eqb`
* `PrimFloat.float`
* `PrimFloat.frshiftexp`
* `PrimFloat.ldshiftexp`
* `PrimFloat.leb`
* `PrimFloat.ltb`
* `PrimFloat.mul`
* `PrimFloat.normfr_mantissa`
* `PrimFloat.of_uint63`
* `PrimFloat.opp`
* `PrimFloat.sub`
* `PrimInt63.eqb`
* `PrimInt63.int`
* `PrimInt63.land`
* `PrimInt63.lor`
* `PrimInt63.lsl`
* `PrimInt63.lsr`
* `PrimInt63.sub`

Theorems (2): `C113_assigned`, `C87_length`

## 34 axioms/primitives

* `ClassicalDedekindReals.sig_forall_dec`
* `ClassicalDedekindReals.sig_not_dec`
* `Classical_Prop.classic`
* `FloatAxioms.Prim2SF_SF2Prim`
* `FloatAxioms.Prim2SF_valid`
* `FloatAxioms.SF2Prim_Prim2SF`
* `FloatAxioms.abs_spec`
* `FloatAxioms.add_spec`
* `FloatAxioms.eqb_spec`
* `FloatAxioms.leb_spec`
* `FloatAxioms.ltb_spec`
* `FloatAxioms.opp_spec`
* `FunctionalExtensionality.functional_extensionality_dep`
* `PrimFloat.abs`
* `PrimFloat.add`
* `PrimFloat.div`
* `PrimFloat.eqb`
* `PrimFloat.float`
* `PrimFloat.frshiftexp`
* `PrimFloat.ldshiftexp`
* `PrimFloat.leb`
* `PrimFloat.ltb`
* `PrimFloat.mul`
* `PrimFloat.normfr_mantissa`
* `PrimFloat.of_uint63`
* `PrimFloat.opp`
* `PrimFloat.sub`
* `PrimInt63.eqb`
* `PrimInt63.int`
* `PrimInt63.land`
* `PrimInt63.lor`
* `PrimInt63.lsl`
* `PrimInt63.lsr`
* `PrimInt63.sub`

Theorems (1): `C112_segment`

## 34 axioms/primitives

* `ClassicalDedekindReals.sig_forall_dec`
* `ClassicalDedekindReals.sig_not_dec`
* `Classical_Prop.classic`
* `FloatAxioms.Prim2SF_SF2Prim`
* `FloatAxioms.Prim2SF_valid`
* `FloatAxioms.SF2Prim_Prim2SF`
* `FloatAxioms.abs_spec`
* `FloatAxioms.add_spec`
* `FloatAxioms.eqb_spec`
* `FloatAxioms.ltb_spec`
* `FloatAxioms.mul_spec`
* `FloatAxioms.sub_spec`
* `FunctionalExtensionality.functional_extensionality_dep`
* `PrimFloat.abs`
* `PrimFloat.add`
* `PrimFloat.div`
* `PrimFloat.eqb`
* `PrimFloat.float`
* `PrimFloat.frshiftexp`
* `PrimFloat.ldshiftexp`
* `PrimFloat.leb`
* `PrimFloat.ltb`
* `PrimFloat.mul`
* `PrimFloat.normfr_mantissa`
* `PrimFloat.of_uint63`
* `PrimFloat.opp`
* `PrimFloat.sub`
* `PrimInt63.eqb`
* `PrimInt63.int`
* `PrimInt63.land`
* `PrimInt63.lor`
* `PrimInt63.lsl`
* `PrimInt63.lsr`
* `PrimInt63.sub`

Theorems (1): `C97_from_center`

## 34 axioms/primitives

* `ClassicalDedekindReals.sig_forall_dec`
* `ClassicalDedekindReals.sig_not_dec`
* `Classical_Prop.classic`
* `FloatAxioms.Prim2SF_SF2Prim`
* `FloatAxioms.Prim2SF_valid`
* `FloatAxioms.SF2Prim_Prim2SF`
* `FloatAxioms.abs_spec`
* `FloatAxioms.add_spec`
* `FloatAxioms.eqb_spec`
* `FloatAxioms.mul_spec`
* `FloatAxioms.opp_spec`
* `FloatAxioms.sub_spec`
* `FunctionalExtensionality.functional_extensionality_dep`
* `PrimFloat.abs`
* `PrimFloat.add`
* `PrimFloat.div`
* `PrimFloat.eqb`
* `PrimFloat.float`
* `PrimFloat.frshiftexp`
* `PrimFloat.ldshiftexp`
* `PrimFloat.leb`
* `PrimFloat.ltb`
* `PrimFloat.mul`
* `PrimFloat.normfr_mantissa`
* `PrimFloat.of_uint63`
* `PrimFloat.opp`
* `PrimFloat.sub`
* `PrimInt63.eqb`
* `PrimInt63.int`
* `PrimInt63.land`
* `PrimInt63.lor`
* `PrimInt63.lsl`
* `PrimInt63.lsr`
* `PrimInt63.sub`

Theorems (1): `C87_lerp`

## 34 axioms/primitives

* `ClassicalDedekindReals.sig_forall_dec`
* `ClassicalDedekindReals.sig_not_dec`
* `Classical_Prop.classic`
* `FloatAxioms.Prim2SF_SF2Prim`
* `FloatAxioms.Prim2SF_valid`
* `FloatAxioms.SF2Prim_Prim2SF`
* `FloatAxioms.abs_spec`
* `FloatAxioms.eqb_spec`
* `FloatAxioms.leb_spec`
* `FloatAxioms.ltb_spec`
* `FloatAxioms.mul_spec`
* `FloatAxioms.sub_spec`
* `FunctionalExtensionality.functional_extensionality_dep`
* `PrimFloat.abs`
* `PrimFloat.add`
* `PrimFloat.div`
* `PrimFloat.eqb`
* `PrimFloat.float`
* `PrimFloat.frshiftexp`
* `PrimFloat.ldshiftexp`
* `PrimFloat.leb`
* `PrimFloat.ltb`
* `PrimFloat.mul`
* `PrimFloat.normfr_mantissa`
* `PrimFloat.of_uint63`
* `PrimFloat.opp`
* `PrimFloat.sub`
* `PrimInt63.eqb`
* `PrimInt63.int`
* `PrimInt63.land`
* `PrimInt63.lor`
* `PrimInt63.lsl`
* `PrimInt63.lsr`
* `PrimInt63.sub`

Theorems (10): `C108_doubles`, `C108_doubles_contains`, `C84_convex`, `C84_convex_inside`, `C84_inside`, `C84_same_answers`, `C84_simple`, `C84_simple_curve`, `C84_tangents`, `C97_to_polygon_partial`

## 34 axioms/primitives

* `ClassicalDedekindReals.sig_forall_dec`
* `ClassicalDedekindReals.sig_not_dec`
* `Classical_Prop.classic`
* `FloatAxioms.Prim2SF_SF2Prim`
* `FloatAxioms.Prim2SF_valid`
* `FloatAxioms.SF2Prim_Prim2SF`
* `FloatAxioms.abs_spec`
* `FloatAxioms.eqb_spec`
* `FloatAxioms.leb_spec`
* `FloatAxioms.ltb_spec`
* `FloatAxioms.opp_spec`
* `FloatAxioms.sub_spec`
* `FunctionalExtensionality.functional_extensionality_dep`
* `PrimFloat.abs`
* `PrimFloat.add`
* `PrimFloat.div`
* `PrimFloat.eqb`
* `PrimFloat.float`
* `PrimFloat.frshiftexp`
* `PrimFloat.ldshiftexp`
* `PrimFloat.leb`
* `PrimFloat.ltb`
* `PrimFloat.mul`
* `PrimFloat.normfr_mantissa`
* `PrimFloat.of_uint63`
* `PrimFloat.opp`
* `PrimFloat.sub`
* `PrimInt63.eqb`
* `PrimInt63.int`
* `PrimInt63.land`
* `PrimInt63.lor`
* `PrimInt63.lsl`
* `PrimInt63.lsr`
* `PrimInt63.sub`

Theorems (1): `C124_affine`

## 34 axioms/primitives

* `ClassicalDedekindReals.sig_forall_dec`
* `ClassicalDedekindReals.sig_not_dec`
* `Classical_Prop.classic`
* `FloatAxioms.Prim2SF_SF2Prim`
* `FloatAxioms.Prim2SF_valid`
* `FloatAxioms.SF2Prim_Prim2SF`
* `FloatAxioms.abs_spec`
* `FloatAxioms.eqb_spec`
* `FloatAxioms.ltb_spec`
* `FloatAxioms.mul_spec`
* `FloatAxioms.opp_spec`
* `FloatAxioms.sub_spec`
* `FunctionalExtensionality.functional_extensionality_dep`
* `PrimFloat.abs`
* `PrimFloat.add`
* `PrimFloat.div`
* `PrimFloat.eqb`
* `PrimFloat.float`
* `PrimFloat.frshiftexp`
* `PrimFloat.ldshiftexp`
* `PrimFloat.leb`
* `PrimFloat.ltb`
* `PrimFloat.mul`
* `PrimFloat.normfr_mantissa`
* `PrimFloat.of_uint63`
* `PrimFloat.opp`
* `PrimFloat.sub`
* `PrimInt63.eqb`
* `PrimInt63.int`
* `PrimInt63.land`
* `PrimInt63.lor`
* `PrimInt63.lsl`
* `PrimInt63.lsr`
* `PrimInt63.sub`

Theorems (1): `C87_cross`

## 35 axioms/primitives

* `ClassicalDedekindReals.sig_forall_dec`
* `ClassicalDedekindReals.sig_not_dec`
* `Classical_Prop.classic`
* `FloatAxioms.Prim2SF_SF2Prim`
* `FloatAxioms.Prim2SF_valid`
* `FloatAxioms.SF2Prim_Prim2SF`
* `FloatAxioms.abs_spec`
* `FloatAxioms.add_spec`
* `FloatAxioms.div_spec`
* `FloatAxioms.eqb_spec`
* `FloatAxioms.ltb_spec`
* `FloatAxioms.mul_spec`
* `FloatAxioms.opp_spec`
* `FunctionalExtensionality.functional_extensionality_dep`
* `PrimFloat.abs`
* `PrimFloat.add`
* `PrimFloat.div`
* `PrimFloat.eqb`
* `PrimFloat.float`
* `PrimFloat.frshiftexp`
* `PrimFloat.ldshiftexp`
* `PrimFloat.leb`
* `PrimFloat.ltb`
* `PrimFloat.mul`
* `PrimFloat.normfr_mantissa`
* `PrimFloat.of_uint63`
* `PrimFloat.opp`
* `PrimFloat.sub`
* `PrimInt63.eqb`
* `PrimInt63.int`
* `PrimInt63.land`
* `PrimInt63.lor`
* `PrimInt63.lsl`
* `PrimInt63.lsr`
* `PrimInt63.sub`

Theorems (1): `C113_unit`

## 35 axioms/primitives

* `ClassicalDedekindReals.sig_forall_dec`
* `ClassicalDedekindReals.sig_not_dec`
* `Classical_Prop.classic`
* `FloatAxioms.Prim2SF_SF2Prim`
* `FloatAxioms.Prim2SF_valid`
* `FloatAxioms.SF2Prim_Prim2SF`
* `FloatAxioms.abs_spec`
* `FloatAxioms.add_spec`
* `FloatAxioms.eqb_spec`
* `FloatAxioms.leb_spec`
* `FloatAxioms.ltb_spec`
* `FloatAxioms.mul_spec`
* `FloatAxioms.sub_spec`
* `FunctionalExtensionality.functional_extensionality_dep`
* `PrimFloat.abs`
* `PrimFloat.add`
* `PrimFloat.div`
* `PrimFloat.eqb`
* `PrimFloat.float`
* `PrimFloat.frshiftexp`
* `PrimFloat.ldshiftexp`
* `PrimFloat.leb`
* `PrimFloat.ltb`
* `PrimFloat.mul`
* `PrimFloat.normfr_mantissa`
* `PrimFloat.of_uint63`
* `PrimFloat.opp`
* `PrimFloat.sub`
* `PrimInt63.eqb`
* `PrimInt63.int`
* `PrimInt63.land`
* `PrimInt63.lor`
* `PrimInt63.lsl`
* `PrimInt63.lsr`
* `PrimInt63.sub`

Theorems (2): `C110_moves`, `C110_polygon`

## 35 axioms/primitives

* `ClassicalDedekindReals.sig_forall_dec`
* `ClassicalDedekindReals.sig_not_dec`
* `Classical_Prop.classic`
* `FloatAxioms.Prim2SF_SF2Prim`
* `FloatAxioms.Prim2SF_valid`
* `FloatAxioms.SF2Prim_Prim2SF`
* `FloatAxioms.abs_spec`
* `FloatAxioms.add_spec`
* `FloatAxioms.eqb_spec`
* `FloatAxioms.ltb_spec`
* `FloatAxioms.mul_spec`
* `FloatAxioms.opp_spec`
* `FloatAxioms.sub_spec`
* `FunctionalExtensionality.functional_extensionality_dep`
* `PrimFloat.abs`
* `PrimFloat.add`
* `PrimFloat.div`
* `PrimFloat.eqb`
* `PrimFloat.float`
* `PrimFloat.frshiftexp`
* `PrimFloat.ldshiftexp`
* `PrimFloat.leb`
* `PrimFloat.ltb`
* `PrimFloat.mul`
* `PrimFloat.normfr_mantissa`
* `PrimFloat.of_uint63`
* `PrimFloat.opp`
* `PrimFloat.sub`
* `PrimInt63.eqb`
* `PrimInt63.int`
* `PrimInt63.land`
* `PrimInt63.lor`
* `PrimInt63.lsl`
* `PrimInt63.lsr`
* `PrimInt63.sub`

Theorems (2): `C116_degenerate`, `C124_vec`

## 35 axioms/primitives

* `ClassicalDedekindReals.sig_forall_dec`
* `ClassicalDedekindReals.sig_not_dec`
* `Classical_Prop.classic`
* `FloatAxioms.Prim2SF_SF2Prim`
* `FloatAxioms.Prim2SF_valid`
* `FloatAxioms.SF2Prim_Prim2SF`
* `FloatAxioms.abs_spec`
* `FloatAxioms.eqb_spec`
* `FloatAxioms.leb_spec`
* `FloatAxioms.ltb_spec`
* `FloatAxioms.mul_spec`
* `FloatAxioms.opp_spec`
* `FloatAxioms.sub_spec`
* `FunctionalExtensionality.functional_extensionality_dep`
* `PrimFloat.abs`
* `PrimFloat.add`
* `PrimFloat.div`
* `PrimFloat.eqb`
* `PrimFloat.float`
* `PrimFloat.frshiftexp`
* `PrimFloat.ldshiftexp`
* `PrimFloat.leb`
* `PrimFloat.ltb`
* `PrimFloat.mul`
* `PrimFloat.normfr_mantissa`
* `PrimFloat.of_uint63`
* `PrimFloat.opp`
* `PrimFloat.sub`
* `PrimInt63.eqb`
* `PrimInt63.int`
* `PrimInt63.land`
* `PrimInt63.lor`
* `PrimInt63.lsl`
* `PrimInt63.lsr`
* `PrimInt63.sub`

Theorems (5): `C94_convex`, `C94_inside`, `C94_same_answers`, `C94_simple`, `C94_tangents`

## 36 axioms/primitives

* `ClassicalDedekindReals.sig_forall_dec`
* `ClassicalDedekindReals.sig_not_dec`
* `Classical_Prop.classic`
* `FloatAxioms.Prim2SF_SF2Prim`
* `FloatAxioms.Prim2SF_valid`
* `FloatAxioms.SF2Prim_Prim2SF`
* `FloatAxioms.abs_spec`
* `FloatAxioms.add_spec`
* `FloatAxioms.div_spec`
* `FloatAxioms.eqb_spec`
* `FloatAxioms.ltb_spec`
* `FloatAxioms.mul_spec`
* `FloatAxioms.opp_spec`
* `FloatAxioms.sub_spec`
* `FunctionalExtensionality.functional_extensionality_dep`
* `PrimFloat.abs`
* `PrimFloat.add`
* `PrimFloat.div`
* `PrimFloat.eqb`
* `PrimFloat.float`
* `PrimFloat.frshiftexp`
* `PrimFloat.ldshiftexp`
* `PrimFloat.leb`
* `PrimFloat.ltb`
* `PrimFloat.mul`
* `PrimFloat.normfr_mantissa`
* `PrimFloat.of_uint63`
* `PrimFloat.opp`
* `PrimFloat.sub`
* `PrimInt63.eqb`
* `PrimInt63.int`
* `PrimInt63.land`
* `PrimInt63.lor`
* `PrimInt63.lsl`
* `PrimInt63.lsr`
* `PrimInt63.sub`

Theorems (4): `C110_inverse`, `C120_line`, `C125_segment`, `C92_ray_doubles_partial`

## 36 axioms/primitives

* `ClassicalDedekindReals.sig_forall_dec`
* `ClassicalDedekindReals.sig_not_dec`
* `Classical_Prop.classic`
* `FloatAxioms.Prim2SF_SF2Prim`
* `FloatAxioms.Prim2SF_valid`
* `FloatAxioms.SF2Prim_Prim2SF`
* `FloatAxioms.abs_spec`
* `FloatAxioms.add_spec`
* `FloatAxioms.eqb_spec`
* `FloatAxioms.leb_spec`
* `FloatAxioms.ltb_spec`
* `FloatAxioms.mul_spec`
* `FloatAxioms.opp_spec`
* `FloatAxioms.sub_spec`
* `FunctionalExtensionality.functional_extensionality_dep`
* `PrimFloat.abs`
* `PrimFloat.add`
* `PrimFloat.div`
* `PrimFloat.eqb`
* `PrimFloat.float`
* `PrimFloat.frshiftexp`
* `PrimFloat.ldshiftexp`
* `PrimFloat.leb`
* `PrimFloat.ltb`
* `PrimFloat.mul`
* `PrimFloat.normfr_mantissa`
* `PrimFloat.of_uint63`
* `PrimFloat.opp`
* `PrimFloat.sub`
* `PrimInt63.eqb`
* `PrimInt63.int`
* `PrimInt63.land`
* `PrimInt63.lor`
* `PrimInt63.lsl`
* `PrimInt63.lsr`
* `PrimInt63.sub`

Theorems (2): `C124_shapes`, `C40_partition_finite`

## 37 axioms/primitives

* `ClassicalDedekindReals.sig_forall_dec`
* `ClassicalDedekindReals.sig_not_dec`
* `Classical_Prop.classic`
* `FloatAxioms.Prim2SF_SF2Prim`
* `FloatAxioms.Prim2SF_valid`
* `FloatAxioms.SF2Prim_Prim2SF`
* `FloatAxioms.abs_spec`
* `FloatAxioms.add_spec`
* `FloatAxioms.div_spec`
* `FloatAxioms.eqb_spec`
* `FloatAxioms.leb_spec`
* `FloatAxioms.ltb_spec`
* `FloatAxioms.mul_spec`
* `FloatAxioms.opp_spec`
* `FloatAxioms.sub_spec`
* `FunctionalExtensionality.functional_extensionality_dep`
* `PrimFloat.abs`
* `PrimFloat.add`
* `PrimFloat.div`
* `PrimFloat.eqb`
* `PrimFloat.float`
* `PrimFloat.frshiftexp`
* `PrimFloat.ldshiftexp`
* `PrimFloat.leb`
* `PrimFloat.ltb`
* `PrimFloat.mul`
* `PrimFloat.normfr_mantissa`
* `PrimFloat.of_uint63`
* `PrimFloat.opp`
* `PrimFloat.sub`
* `PrimInt63.eqb`
* `PrimInt63.int`
* `PrimInt63.land`
* `PrimInt63.lor`
* `PrimInt63.lsl`
* `PrimInt63.lsr`
* `PrimInt63.sub`

Theorems (12): `C120_ray`, `C120_segment`, `C123_triangle`, `C125_from_normal`, `C125_line`, `C125_parallel`, `C88_line_from_points`, `C88_line_new`, `C89_ray_from_points`, `C89_ray_new`, `C90_seg_from_points`, `C90_seg_new`

## 45 axioms/primitives

* `ClassicalDedekindReals.sig_forall_dec`
* `ClassicalDedekindReals.sig_not_dec`
* `Classical_Prop.classic`
* `FloatAxioms.Prim2SF_SF2Prim`
* `FloatAxioms.Prim2SF_valid`
* `FloatAxioms.SF2Prim_Prim2SF`
* `FloatAxioms.abs_spec`
* `FloatAxioms.eqb_spec`
* `FloatAxioms.of_uint63_spec`
* `FloatAxioms.opp_spec`
* `FunctionalExtensionality.functional_extensionality_dep`
* `PrimFloat.abs`
* `PrimFloat.add`
* `PrimFloat.div`
* `PrimFloat.eqb`
* `PrimFloat.float`
* `PrimFloat.frshiftexp`
* `PrimFloat.ldshiftexp`
* `PrimFloat.leb`
* `PrimFloat.ltb`
* `PrimFloat.mul`
* `PrimFloat.normfr_mantissa`
* `PrimFloat.of_uint63`
* `PrimFloat.opp`
* `PrimFloat.sub`
* `PrimInt63.add`
* `PrimInt63.eqb`
* `PrimInt63.int`
* `PrimInt63.land`
* `PrimInt63.leb`
* `PrimInt63.lor`
* `PrimInt63.lsl`
* `PrimInt63.lsr`
* `PrimInt63.ltb`
* `PrimInt63.sub`
* `Uint63.add_spec`
* `Uint63.eqb_correct`
* `Uint63.eqb_refl`
* `Uint63.leb_spec`
* `Uint63.lor_spec`
* `Uint63.lsl_spec`
* `Uint63.lsr_spec`
* `Uint63.ltb_spec`
* `Uint63.of_to_Z`
* `Uint63.sub_spec`

Theorems (7): `C101_pivot_refuted`, `C103_in_box_refuted`, `C114_cos_sin`, `C121_thin_refuted`, `C84_limit_needed`, `C94_margin_needed`, `C95_limit_needed`

## 46 axioms/primitives

* `ClassicalDedekindReals.sig_forall_dec`
* `ClassicalDedekindReals.sig_not_dec`
* `Classical_Prop.classic`
* `FloatAxioms.Prim2SF_SF2Prim`
* `FloatAxioms.Prim2SF_valid`
* `FloatAxioms.SF2Prim_Prim2SF`
* `FloatAxioms.abs_spec`
* `FloatAxioms.eqb_spec`
* `FloatAxioms.mul_spec`
* `FloatAxioms.of_uint63_spec`
* `FloatAxioms.opp_spec`
* `FunctionalExtensionality.functional_extensionality_dep`
* `PrimFloat.abs`
* `PrimFloat.add`
* `PrimFloat.div`
* `PrimFloat.eqb`
* `PrimFloat.float`
* `PrimFloat.frshiftexp`
* `PrimFloat.ldshiftexp`
* `PrimFloat.leb`
* `PrimFloat.ltb`
* `PrimFloat.mul`
* `PrimFloat.normfr_mantissa`
* `PrimFloat.of_uint63`
* `PrimFloat.opp`
* `PrimFloat.sub`
* `PrimInt63.add`
* `PrimInt63.eqb`
* `PrimInt63.int`
* `PrimInt63.land`
* `PrimInt63.leb`
* `PrimInt63.lor`
* `PrimInt63.lsl`
* `PrimInt63.lsr`
* `PrimInt63.ltb`
* `PrimInt63.sub`
* `Uint63.add_spec`
* `Uint63.eqb_correct`
* `Uint63.eqb_refl`
* `Uint63.leb_spec`
* `Uint63.lor_spec`
* `Uint63.lsl_spec`
* `Uint63.lsr_spec`
* `Uint63.ltb_spec`
* `Uint63.of_to_Z`
* `Uint63.sub_spec`

Theorems (4): `C101_polar`, `C110_limit_needed`, `C114_polar`, `C115_far_center_refuted`

## 47 axioms/primitives

* `ClassicalDedekindReals.sig_forall_dec`
* `ClassicalDedekindReals.sig_not_dec`
* `Classical_Prop.classic`
* `FloatAxioms.Prim2SF_SF2Prim`
* `FloatAxioms.Prim2SF_valid`
* `FloatAxioms.SF2Prim_Prim2SF`
* `FloatAxioms.abs_spec`
* `FloatAxioms.add_spec`
* `FloatAxioms.div_spec`
* `FloatAxioms.eqb_spec`
* `FloatAxioms.of_uint63_spec`
* `FloatAxioms.opp_spec`
* `FunctionalExtensionality.functional_extensionality_dep`
* `PrimFloat.abs`
* `PrimFloat.add`
* `PrimFloat.div`
* `PrimFloat.eqb`
* `PrimFloat.float`
* `PrimFloat.frshiftexp`
* `PrimFloat.ldshiftexp`
* `PrimFloat.leb`
* `PrimFloat.ltb`
* `PrimFloat.mul`
* `PrimFloat.normfr_mantissa`
* `PrimFloat.of_uint63`
* `PrimFloat.opp`
* `PrimFloat.sub`
* `PrimInt63.add`
* `PrimInt63.eqb`
* `PrimInt63.int`
* `PrimInt63.land`
* `PrimInt63.leb`
* `PrimInt63.lor`
* `PrimInt63.lsl`
* `PrimInt63.lsr`
* `PrimInt63.ltb`
* `PrimInt63.sub`
* `Uint63.add_spec`
* `Uint63.eqb_correct`
* `Uint63.eqb_refl`
* `Uint63.leb_spec`
* `Uint63.lor_spec`
* `Uint63.lsl_spec`
* `Uint63.lsr_spec`
* `Uint63.ltb_spec`
* `Uint63.of_to_Z`
* `Uint63.sub_spec`

Theorems (1): `C97_center`

## 47 axioms/primitives

* `ClassicalDedekindReals.sig_forall_dec`
* `ClassicalDedekindReals.sig_not_dec`
* `Classical_Prop.classic`
* `FloatAxioms.Prim2SF_SF2Prim`
* `FloatAxioms.Prim2SF_valid`
* `FloatAxioms.SF2Prim_Prim2SF`
* `FloatAxioms.abs_spec`
* `FloatAxioms.add_spec`
* `FloatAxioms.eqb_spec`
* `FloatAxioms.mul_spec`
* `FloatAxioms.of_uint63_spec`
* `FloatAxioms.opp_spec`
* `FunctionalExtensionality.functional_extensionality_dep`
* `PrimFloat.abs`
* `PrimFloat.add`
* `PrimFloat.div`
* `PrimFloat.eqb`
* `PrimFloat.float`
* `PrimFloat.frshiftexp`
* `PrimFloat.ldshiftexp`
* `PrimFloat.leb`
* `PrimFloat.ltb`
* `PrimFloat.mul`
* `PrimFloat.normfr_mantissa`
* `PrimFloat.of_uint63`
* `PrimFloat.opp`
* `PrimFloat.sub`
* `PrimInt63.add`
* `PrimInt63.eqb`
* `PrimInt63.int`
* `PrimInt63.land`
* `PrimInt63.leb`
* `PrimInt63.lor`
* `PrimInt63.lsl`
* `PrimInt63.lsr`
* `PrimInt63.ltb`
* `PrimInt63.sub`
* `Uint63.add_spec`
* `Uint63.eqb_correct`
* `Uint63.eqb_refl`
* `Uint63.leb_spec`
* `Uint63.lor_spec`
* `Uint63.lsl_spec`
* `Uint63.lsr_spec`
* `Uint63.ltb_spec`
* `Uint63.of_to_Z`
* `Uint63.sub_spec`

Theorems (1): `C118_polar`

## 48 axioms/primitives

* `ClassicalDedekindReals.sig_forall_dec`
* `ClassicalDedekindReals.sig_not_dec`
* `Classical_Prop.classic`
* `FloatAxioms.Prim2SF_SF2Prim`
* `FloatAxioms.Prim2SF_valid`
* `FloatAxioms.SF2Prim_Prim2SF`
* `FloatAxioms.abs_spec`
* `FloatAxioms.add_spec`
* `FloatAxioms.div_spec`
* `FloatAxioms.eqb_spec`
* `FloatAxioms.mul_spec`
* `FloatAxioms.of_uint63_spec`
* `FloatAxioms.opp_spec`
* `FunctionalExtensionality.functional_extensionality_dep`
* `PrimFloat.abs`
* `PrimFloat.add`
* `PrimFloat.div`
* `PrimFloat.eqb`
* `PrimFloat.float`
* `PrimFloat.frshiftexp`
* `PrimFloat.ldshiftexp`
* `PrimFloat.leb`
* `PrimFloat.ltb`
* `PrimFloat.mul`
* `PrimFloat.normfr_mantissa`
* `PrimFloat.of_uint63`
* `PrimFloat.opp`
* `PrimFloat.sub`
* `PrimInt63.add`
* `PrimInt63.eqb`
* `PrimInt63.int`
* `PrimInt63.land`
* `PrimInt63.leb`
* `PrimInt63.lor`
* `PrimInt63.lsl`
* `PrimInt63.lsr`
* `PrimInt63.ltb`
* `PrimInt63.sub`
* `Uint63.add_spec`
* `Uint63.eqb_correct`
* `Uint63.eqb_refl`
* `Uint63.leb_spec`
* `Uint63.lor_spec`
* `Uint63.lsl_spec`
* `Uint63.lsr_spec`
* `Uint63.ltb_spec`
* `Uint63.of_to_Z`
* `Uint63.sub_spec`

Theorems (3): `C115_convex`, `C115_regular`, `C115_star`

## 48 axioms/primitives

* `ClassicalDedekindReals.sig_forall_dec`
* `ClassicalDedekindReals.sig_not_dec`
* `Classical_Prop.classic`
* `FloatAxioms.Prim2SF_SF2Prim`
* `FloatAxioms.Prim2SF_valid`
* `FloatAxioms.SF2Prim_Prim2SF`
* `FloatAxioms.abs_spec`
* `FloatAxioms.add_spec`
* `FloatAxioms.eqb_spec`
* `FloatAxioms.mul_spec`
* `FloatAxioms.of_uint63_spec`
* `FloatAxioms.opp_spec`
* `FloatAxioms.sub_spec`
* `FunctionalExtensionality.functional_extensionality_dep`
* `PrimFloat.abs`
* `PrimFloat.add`
* `PrimFloat.div`
* `PrimFloat.eqb`
* `PrimFloat.float`
* `PrimFloat.frshiftexp`
* `PrimFloat.ldshiftexp`
* `PrimFloat.leb`
* `PrimFloat.ltb`
* `PrimFloat.mul`
* `PrimFloat.normfr_mantissa`
* `PrimFloat.of_uint63`
* `PrimFloat.opp`
* `PrimFloat.sub`
* `PrimInt63.add`
* `PrimInt63.eqb`
* `PrimInt63.int`
* `PrimInt63.land`
* `PrimInt63.leb`
* `PrimInt63.lor`
* `PrimInt63.lsl`
* `PrimInt63.lsr`
* `PrimInt63.ltb`
* `PrimInt63.sub`
* `Uint63.add_spec`
* `Uint63.eqb_correct`
* `Uint63.eqb_refl`
* `Uint63.leb_spec`
* `Uint63.lor_spec`
* `Uint63.lsl_spec`
* `Uint63.lsr_spec`
* `Uint63.ltb_spec`
* `Uint63.of_to_Z`
* `Uint63.sub_spec`

Theorems (10): `C101_compose`, `C101_pivot_partial`, `C101_rotated`, `C114_back`, `C114_length`, `C114_pivot`, `C114_pivot_fixed`, `C114_rotated`, `C114_rotation`, `C118_turn`

## 49 axioms/primitives

* `ClassicalDedekindReals.sig_forall_dec`
* `ClassicalDedekindReals.sig_not_dec`
* `Classical_Prop.classic`
* `FloatAxioms.Prim2SF_SF2Prim`
* `FloatAxioms.Prim2SF_valid`
* `FloatAxioms.SF2Prim_Prim2SF`
* `FloatAxioms.abs_spec`
* `FloatAxioms.add_spec`
* `FloatAxioms.div_spec`
* `FloatAxioms.eqb_spec`
* `FloatAxioms.ltb_spec`
* `FloatAxioms.mul_spec`
* `FloatAxioms.of_uint63_spec`
* `FloatAxioms.opp_spec`
* `FunctionalExtensionality.functional_extensionality_dep`
* `PrimFloat.abs`
* `PrimFloat.add`
* `PrimFloat.div`
* `PrimFloat.eqb`
* `PrimFloat.float`
* `PrimFloat.frshiftexp`
* `PrimFloat.ldshiftexp`
* `PrimFloat.leb`
* `PrimFloat.ltb`
* `PrimFloat.mul`
* `PrimFloat.normfr_mantissa`
* `PrimFloat.of_uint63`
* `PrimFloat.opp`
* `PrimFloat.sub`
* `PrimInt63.add`
* `PrimInt63.eqb`
* `PrimInt63.int`
* `PrimInt63.land`
* `PrimInt63.leb`
* `PrimInt63.lor`
* `PrimInt63.lsl`
* `PrimInt63.lsr`
* `PrimInt63.ltb`
* `PrimInt63.sub`
* `Uint63.add_spec`
* `Uint63.eqb_correct`
* `Uint63.eqb_refl`
* `Uint63.leb_spec`
* `Uint63.lor_spec`
* `Uint63.lsl_spec`
* `Uint63.lsr_spec`
* `Uint63.ltb_spec`
* `Uint63.of_to_Z`
* `Uint63.sub_spec`

Theorems (3): `C117_clamped`, `C117_project`, `C117_scaled_to`

## 49 axioms/primitives

* `ClassicalDedekindReals.sig_forall_dec`
* `ClassicalDedekindReals.sig_not_dec`
* `Classical_Prop.classic`
* `FloatAxioms.Prim2SF_SF2Prim`
* `FloatAxioms.Prim2SF_valid`
* `FloatAxioms.SF2Prim_Prim2SF`
* `FloatAxioms.abs_spec`
* `FloatAxioms.add_spec`
* `FloatAxioms.div_spec`
* `FloatAxioms.eqb_spec`
* `FloatAxioms.mul_spec`
* `FloatAxioms.of_uint63_spec`
* `FloatAxioms.opp_spec`
* `FloatAxioms.sub_spec`
* `FunctionalExtensionality.functional_extensionality_dep`
* `PrimFloat.abs`
* `PrimFloat.add`
* `PrimFloat.div`
* `PrimFloat.eqb`
* `PrimFloat.float`
* `PrimFloat.frshiftexp`
* `PrimFloat.ldshiftexp`
* `PrimFloat.leb`
* `PrimFloat.ltb`
* `PrimFloat.mul`
* `PrimFloat.normfr_mantissa`
* `PrimFloat.of_uint63`
* `PrimFloat.opp`
* `PrimFloat.sub`
* `PrimInt63.add`
* `PrimInt63.eqb`
* `PrimInt63.int`
* `PrimInt63.land`
* `PrimInt63.leb`
* `PrimInt63.lor`
* `PrimInt63.lsl`
* `PrimInt63.lsr`
* `PrimInt63.ltb`
* `PrimInt63.sub`
* `Uint63.add_spec`
* `Uint63.eqb_correct`
* `Uint63.eqb_refl`
* `Uint63.leb_spec`
* `Uint63.lor_spec`
* `Uint63.lsl_spec`
* `Uint63.lsr_spec`
* `Uint63.ltb_spec`
* `Uint63.of_to_Z`
* `Uint63.sub_spec`

Theorems (4): `C103_in_box_partial`, `C103_nearest`, `C121_centroid`, `C121_convex`

## 49 axioms/primitives

* `ClassicalDedekindReals.sig_forall_dec`
* `ClassicalDedekindReals.sig_not_dec`
* `Classical_Prop.classic`
* `FloatAxioms.Prim2SF_SF2Prim`
* `FloatAxioms.Prim2SF_valid`
* `FloatAxioms.SF2Prim_Prim2SF`
* `FloatAxioms.abs_spec`
* `FloatAxioms.add_spec`
* `FloatAxioms.eqb_spec`
* `FloatAxioms.leb_spec`
* `FloatAxioms.ltb_spec`
* `FloatAxioms.mul_spec`
* `FloatAxioms.of_uint63_spec`
* `FloatAxioms.opp_spec`
* `FunctionalExtensionality.functional_extensionality_dep`
* `PrimFloat.abs`
* `PrimFloat.add`
* `PrimFloat.div`
* `PrimFloat.eqb`
* `PrimFloat.float`
* `PrimFloat.frshiftexp`
* `PrimFloat.ldshiftexp`
* `PrimFloat.leb`
* `PrimFloat.ltb`
* `PrimFloat.mul`
* `PrimFloat.normfr_mantissa`
* `PrimFloat.of_uint63`
* `PrimFloat.opp`
* `PrimFloat.sub`
* `PrimInt63.add`
* `PrimInt63.eqb`
* `PrimInt63.int`
* `PrimInt63.land`
* `PrimInt63.leb`
* `PrimInt63.lor`
* `PrimInt63.lsl`
* `PrimInt63.lsr`
* `PrimInt63.ltb`
* `PrimInt63.sub`
* `Uint63.add_spec`
* `Uint63.eqb_correct`
* `Uint63.eqb_refl`
* `Uint63.leb_spec`
* `Uint63.lor_spec`
* `Uint63.lsl_spec`
* `Uint63.lsr_spec`
* `Uint63.ltb_spec`
* `Uint63.of_to_Z`
* `Uint63.sub_spec`

Theorems (1): `C101_rotation`

## 49 axioms/primitives

* `ClassicalDedekindReals.sig_forall_dec`
* `ClassicalDedekindReals.sig_not_dec`
* `Classical_Prop.classic`
* `FloatAxioms.Prim2SF_SF2Prim`
* `FloatAxioms.Prim2SF_valid`
* `FloatAxioms.SF2Prim_Prim2SF`
* `FloatAxioms.abs_spec`
* `FloatAxioms.add_spec`
* `FloatAxioms.eqb_spec`
* `FloatAxioms.ltb_spec`
* `FloatAxioms.mul_spec`
* `FloatAxioms.of_uint63_spec`
* `FloatAxioms.opp_spec`
* `FloatAxioms.sub_spec`
* `FunctionalExtensionality.functional_extensionality_dep`
* `PrimFloat.abs`
* `PrimFloat.add`
* `PrimFloat.div`
* `PrimFloat.eqb`
* `PrimFloat.float`
* `PrimFloat.frshiftexp`
* `PrimFloat.ldshiftexp`
* `PrimFloat.leb`
* `PrimFloat.ltb`
* `PrimFloat.mul`
* `PrimFloat.normfr_mantissa`
* `PrimFloat.of_uint63`
* `PrimFloat.opp`
* `PrimFloat.sub`
* `PrimInt63.add`
* `PrimInt63.eqb`
* `PrimInt63.int`
* `PrimInt63.land`
* `PrimInt63.leb`
* `PrimInt63.lor`
* `PrimInt63.lsl`
* `PrimInt63.lsr`
* `PrimInt63.ltb`
* `PrimInt63.sub`
* `Uint63.add_spec`
* `Uint63.eqb_correct`
* `Uint63.eqb_refl`
* `Uint63.leb_spec`
* `Uint63.lor_spec`
* `Uint63.lsl_spec`
* `Uint63.lsr_spec`
* `Uint63.ltb_spec`
* `Uint63.of_to_Z`
* `Uint63.sub_spec`

Theorems (1): `C114_orthonormal`

## 50 axioms/primitives

* `ClassicalDedekindReals.sig_forall_dec`
* `ClassicalDedekindReals.sig_not_dec`
* `Classical_Prop.classic`
* `FloatAxioms.Prim2SF_SF2Prim`
* `FloatAxioms.Prim2SF_valid`
* `FloatAxioms.SF2Prim_Prim2SF`
* `FloatAxioms.abs_spec`
* `FloatAxioms.add_spec`
* `FloatAxioms.div_spec`
* `FloatAxioms.eqb_spec`
* `FloatAxioms.ltb_spec`
* `FloatAxioms.mul_spec`
* `FloatAxioms.of_uint63_spec`
* `FloatAxioms.opp_spec`
* `FloatAxioms.sub_spec`
* `FunctionalExtensionality.functional_extensionality_dep`
* `PrimFloat.abs`
* `PrimFloat.add`
* `PrimFloat.div`
* `PrimFloat.eqb`
* `PrimFloat.float`
* `PrimFloat.frshiftexp`
* `PrimFloat.ldshiftexp`
* `PrimFloat.leb`
* `PrimFloat.ltb`
* `PrimFloat.mul`
* `PrimFloat.normfr_mantissa`
* `PrimFloat.of_uint63`
* `PrimFloat.opp`
* `PrimFloat.sub`
* `PrimInt63.add`
* `PrimInt63.eqb`
* `PrimInt63.int`
* `PrimInt63.land`
* `PrimInt63.leb`
* `PrimInt63.lor`
* `PrimInt63.lsl`
* `PrimInt63.lsr`
* `PrimInt63.ltb`
* `PrimInt63.sub`
* `Uint63.add_spec`
* `Uint63.eqb_correct`
* `Uint63.eqb_refl`
* `Uint63.leb_spec`
* `Uint63.lor_spec`
* `Uint63.lsl_spec`
* `Uint63.lsr_spec`
* `Uint63.ltb_spec`
* `Uint63.of_to_Z`
* `Uint63.sub_spec`

Theorems (9): `C116_inverse`, `C116_undo`, `C117_reflect`, `C119_line`, `C119_ray`, `C122_inner`, `C122_outer`, `C97_fit_partial`, `C97_inflate`

## 51 axioms/primitives

* `ClassicalDedekindReals.sig_forall_dec`
* `ClassicalDedekindReals.sig_not_dec`
* `Classical_Prop.classic`
* `FloatAxioms.Prim2SF_SF2Prim`
* `FloatAxioms.Prim2SF_valid`
* `FloatAxioms.SF2Prim_Prim2SF`
* `FloatAxioms.abs_spec`
* `FloatAxioms.add_spec`
* `FloatAxioms.div_spec`
* `FloatAxioms.eqb_spec`
* `FloatAxioms.leb_spec`
* `FloatAxioms.ltb_spec`
* `FloatAxioms.mul_spec`
* `FloatAxioms.of_uint63_spec`
* `FloatAxioms.opp_spec`
* `FloatAxioms.sub_spec`
* `FunctionalExtensionality.functional_extensionality_dep`
* `PrimFloat.abs`
* `PrimFloat.add`
* `PrimFloat.div`
* `PrimFloat.eqb`
* `PrimFloat.float`
* `PrimFloat.frshiftexp`
* `PrimFloat.ldshiftexp`
* `PrimFloat.leb`
* `PrimFloat.ltb`
* `PrimFloat.mul`
* `PrimFloat.normfr_mantissa`
* `PrimFloat.of_uint63`
* `PrimFloat.opp`
* `PrimFloat.sub`
* `PrimInt63.add`
* `PrimInt63.eqb`
* `PrimInt63.int`
* `PrimInt63.land`
* `PrimInt63.leb`
* `PrimInt63.lor`
* `PrimInt63.lsl`
* `PrimInt63.lsr`
* `PrimInt63.ltb`
* `PrimInt63.sub`
* `Uint63.add_spec`
* `Uint63.eqb_correct`
* `Uint63.eqb_refl`
* `Uint63.leb_spec`
* `Uint63.lor_spec`
* `Uint63.lsl_spec`
* `Uint63.lsr_spec`
* `Uint63.ltb_spec`
* `Uint63.of_to_Z`
* `Uint63.sub_spec`

Theorems (13): `C103_same_outcome`, `C106_doubles`, `C106_doubles_inputs`, `C107_doubles_contains`, `C107_doubles_region`, `C109_doubles`, `C111_doubles`, `C116_identity`, `C119_segment`, `C95_encloses_between`, `C95_encloses_few`, `C95_raises`, `C95_same_hull`
