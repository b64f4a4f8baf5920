{
 "claims": [
  {
   "property": "C01",
   "status": "proved",
   "theorems": [
    "C01_next_up_adjacent",
    "C01_next_down_adjacent",
    "C01_next_specials"
   ],
   "note": "All f32 and f64 values; statement in the extended-real order."
  },
  {
   "property": "C02",
   "status": "proved",
   "theorems": [
    "C02_next_down_next_up",
    "C02_next_up_next_down",
    "C02_mirror"
   ],
   "note": "Equality up to the sign of zero where the step crosses zero (feq), Leibniz equality for the mirror law."
  },
  {
   "property": "C03",
   "status": "proved",
   "theorems": [
    "C03_min",
    "C03_max",
    "C03_min_max",
    "C03_clamp",
    "C03_in_range",
    "C03_nan",
    "C03_clamp_nan"
   ],
   "note": ""
  },
  {
   "property": "C04",
   "status": "partial",
   "theorems": [
    "C04_fequals_spec",
    "C04_almost_eq",
    "C04_fequals_sym",
    "C04_fequals_nan",
    "C04_fequals_refl_refuted",
    "C04_fequals_refl_partial",
    "C04_fequals_inf"
   ],
   "note": "Reflexivity is false for infinities (C04_fequals_refl_refuted: inf-inf is NaN); everything else holds in full."
  },
  {
   "property": "C05",
   "status": "partial",
   "theorems": [
    "C05_limits",
    "C05_special_values",
    "C05_classification_refuted",
    "C05_classification_partial"
   ],
   "note": "GFloat::is_infinite for f32/f64 returns is_finite(); the full classification is refuted, is_nan and is_finite are proved."
  },
  {
   "property": "C06",
   "status": "partial",
   "theorems": [
    "C06_lower",
    "C06_upper_f64_partial",
    "C06_bracket_width_f64_partial",
    "C06_upper_f32_refuted",
    "C06_upper_f32_all_below",
    "C06_constants_rounded"
   ],
   "note": "f32 pi_upper has the numerator of pi_lower and is below pi, so the upper half is refuted for f32 and proved for f64."
  },
  {
   "property": "C07",
   "status": "proved",
   "theorems": [
    "C07_widening",
    "C07_narrowing",
    "C07_same_format",
    "C07_from_i64",
    "C07_to_i64",
    "C07_i64_roundtrip"
   ],
   "note": ""
  },
  {
   "property": "C08",
   "status": "proved",
   "theorems": [
    "C08_sign_predicates",
    "C08_signum",
    "C08_abs",
    "C08_square_recip",
    "C08_constants"
   ],
   "note": ""
  },
  {
   "property": "C09",
   "status": "proved",
   "theorems": [
    "C09_add_encloses",
    "C09_sub_encloses",
    "C09_add_tight",
    "C09_sub_tight"
   ],
   "note": ""
  },
  {
   "property": "C10",
   "status": "partial",
   "theorems": [
    "C10_mul_encloses_refuted",
    "C10_mul_encloses_partial",
    "C10_mul_encloses_unbounded_partial",
    "C10_mul_unbounded_refuted",
    "C10_mul_tight_partial",
    "C10_straddle_lower",
    "C10_straddle_upper",
    "C10_straddle_iff",
    "C10_straddle_partial"
   ],
   "note": "Refuted as stated: when both operands contain zero strictly inside, the upper bound is wrong ([-1,2]*[-3,1] misses 3). Proved for every other sign combination, with tightness; infinite endpoints can give 0*inf=NaN (also refuted), proved whenever the bounds are not NaN. For two straddling factors the lower bound is right and C10_straddle_iff says exactly when the upper bound is."
  },
  {
   "property": "C11",
   "status": "proved",
   "theorems": [
    "C11_div_encloses",
    "C11_div_zero_whole",
    "C11_div_tight"
   ],
   "note": ""
  },
  {
   "property": "C12",
   "status": "proved",
   "theorems": [
    "C12_add_scalar_encloses",
    "C12_sub_scalar_encloses",
    "C12_mul_scalar_encloses",
    "C12_mul_scalar_encloses_unbounded",
    "C12_div_scalar_encloses",
    "C12_div_scalar_zero",
    "C12_scalar_tight"
   ],
   "note": "Also covers infinite endpoints when the result bounds are not NaN."
  },
  {
   "property": "C13",
   "status": "proved",
   "theorems": [
    "C13_square_encloses",
    "C13_square_straddle",
    "C13_square_tight",
    "C13_square_negative_lower_bound"
   ],
   "note": "The lower bound for an interval with an endpoint at zero is one float below zero (C13_square_negative_lower_bound); this is a witness about a boundary case, not a gap in the claim."
  },
  {
   "property": "C14",
   "status": "proved",
   "theorems": [
    "C14_sqrt_encloses",
    "C14_trait_sqrt_encloses",
    "C14_sqrt_tight",
    "C14_sqrt_negative_lower_nan"
   ],
   "note": "C14_sqrt_negative_lower_nan records the behaviour outside the claim."
  },
  {
   "property": "C15",
   "status": "proved",
   "theorems": [
    "C15_neg_exact",
    "C15_neg_involutive",
    "C15_abs_encloses",
    "C15_abs_exact",
    "C15_min_encloses",
    "C15_max_encloses",
    "C15_min_exact",
    "C15_max_exact"
   ],
   "note": "abs of a strictly negative interval is sound but not tight (its upper bound is right, its lower bound is 0)."
  },
  {
   "property": "C16",
   "status": "proved",
   "theorems": [
    "C16_union_is_hull",
    "C16_union_least",
    "C16_intersect"
   ],
   "note": ""
  },
  {
   "property": "C17",
   "status": "proved",
   "theorems": [
    "C17_contains",
    "C17_in_range",
    "C17_is_exact",
    "C17_is_same",
    "C17_sign_queries"
   ],
   "note": ""
  },
  {
   "property": "C18",
   "status": "partial",
   "theorems": [
    "C18_approx_inside_refuted",
    "C18_approx_inside_partial",
    "C18_approx_inside_iff",
    "C18_approx_midpoint_partial"
   ],
   "note": "Refuted for large bounds (inf+sup overflows); proved whenever the rounded sum of the bounds is in range. C18_approx_inside_iff: this is the exact condition. It is then the correctly rounded midpoint."
  },
  {
   "property": "C19",
   "status": "proved",
   "theorems": [
    "C19_lt",
    "C19_gt",
    "C19_eq",
    "C19_antisymmetric",
    "C19_transitive",
    "C19_scalar"
   ],
   "note": ""
  },
  {
   "property": "C20",
   "status": "proved",
   "theorems": [
    "C20_constructor_assert",
    "C20_single_step",
    "C20_sequences"
   ],
   "note": ""
  },
  {
   "property": "C21",
   "status": "partial",
   "theorems": [
    "C21_sin_cos_refuted",
    "C21_sin_partial",
    "C21_cos_partial",
    "C21_sin_gap_refuted",
    "C21_cos_gap_refuted"
   ],
   "note": "Proved for widths <= PI, >= 2 PI, or opposite slopes at the two ends; refuted in general: over [1,7] the extremum inside is missed, and C21_sin_gap_refuted/C21_cos_gap_refuted show that every interval left out misses one unless it ends within rounding of an extremum."
  },
  {
   "property": "C22",
   "status": "partial",
   "theorems": [
    "C22_asin_acos_inverted",
    "C22_atan_encloses",
    "C22_asin_acos_refuted",
    "C22_f32_refuted",
    "C22_asin_partial",
    "C22_acos_partial",
    "C22_asin_exact",
    "C22_acos_exact"
   ],
   "note": "atan proved for every interval, also unbounded. asin/acos refuted for negative arguments (result is cut to [0, PI/2]) and in f32 at asin 1 / acos 0; C22_asin_exact and C22_acos_exact say exactly which values are enclosed. Below -1/2 the asin result is an inverted interval."
  },
  {
   "property": "C23",
   "status": "partial",
   "theorems": [
    "C23_atan2_terminates",
    "C23_atan2_refuted",
    "C23_axes_refuted",
    "C23_f32_refuted",
    "C23_atan2_partial"
   ],
   "note": "Proved when neither argument is exactly zero (f64; in f32 also needs the angle below the f32 upper constants). Refuted on the axes: an exactly zero argument returns [0,0]. Termination proved."
  },
  {
   "property": "C24",
   "status": "partial",
   "theorems": [
    "C24_constants_f64_partial",
    "C24_constants_f32_refuted",
    "C24_half"
   ],
   "note": "f64 proved; for f32 every one of the four pi intervals misses its constant (refuted). half is proved for both."
  },
  {
   "property": "C25",
   "status": "proved",
   "theorems": [
    "C25_fundamental"
   ],
   "note": "Covers multiplication too, for products whose operands do not both straddle zero."
  },
  {
   "property": "C26",
   "status": "proved",
   "theorems": [
    "C26_dot_symmetric",
    "C26_square_norm_is_dot",
    "C26_square_norm_nonneg"
   ],
   "note": "dot symmetry and square_norm = dot are Leibniz equalities of floats."
  },
  {
   "property": "C27",
   "status": "proved",
   "theorems": [
    "C27_dot_error",
    "C27_dot_error_any_length"
   ],
   "note": "Bound with u = 2^-prec and eta = smallest positive float; also without the side condition n*u <= 1/2."
  },
  {
   "property": "C28",
   "status": "proved",
   "theorems": [
    "C28_cross_exact",
    "C28_cross_anticommutes_float",
    "C28_cross_self_float",
    "C28_cross_self_zero_or_nan"
   ],
   "note": "Anticommutativity in floats needs no hypothesis (equal value or both NaN)."
  },
  {
   "property": "C29",
   "status": "proved",
   "theorems": [
    "C29_componentwise",
    "C29_points_componentwise",
    "C29_neg_componentwise",
    "C29_equality_componentwise",
    "C29_almost_equal_componentwise",
    "C29_accessors",
    "C29_exact",
    "C29_points_affine",
    "C29_min_max_float"
   ],
   "note": ""
  },
  {
   "property": "C30",
   "status": "proved",
   "theorems": [
    "C30_norm",
    "C30_distance",
    "C30_distance_metric",
    "C30_normalize",
    "C30_normalize_zero"
   ],
   "note": ""
  },
  {
   "property": "C31",
   "status": "proved",
   "theorems": [
    "C31_transpose_involutive",
    "C31_row_col_index_agree",
    "C31_scale_entrywise",
    "C31_identity_zero_entries",
    "C31_product_exact",
    "C31_assoc_exact",
    "C31_identity_exact",
    "C31_transpose_product_exact",
    "C31_transpose_product_float",
    "C31_identity_float",
    "C31_assoc_int",
    "C31_identity_int",
    "C31_transpose_product_int"
   ],
   "note": "Exact arithmetic for associativity; transpose laws bit-exact for floats and integers; all laws bit-exact for wrapping integers."
  },
  {
   "property": "C32",
   "status": "proved",
   "theorems": [
    "C32_inverse_two_sided",
    "C32_inverse_involutive",
    "C32_inverse_singular"
   ],
   "note": "Exact arithmetic (IEEE without rounding)."
  },
  {
   "property": "C33",
   "status": "proved",
   "theorems": [
    "C33_inverse_carried",
    "C33_product_is_identity",
    "C33_affine_stays_affine"
   ],
   "note": "`built` is the inductive closure of all constructors under product and inverse."
  },
  {
   "property": "C34",
   "status": "proved",
   "theorems": [
    "C34_compose_points",
    "C34_compose_vectors",
    "C34_compose_affine",
    "C34_roundtrip_point",
    "C34_roundtrip_vector",
    "C34_roundtrip_affine",
    "C34_inverse_maps_inverse"
   ],
   "note": ""
  },
  {
   "property": "C35",
   "status": "proved",
   "theorems": [
    "C35_rotate_rigid",
    "C35_rotate_additive",
    "C35_rotate_axes",
    "C35_rotate_axis_turns"
   ],
   "note": ""
  },
  {
   "property": "C36",
   "status": "proved",
   "theorems": [
    "C36_translate_point",
    "C36_translate_vector",
    "C36_scale",
    "C36_scale_inverse",
    "C36_identity"
   ],
   "note": "Bit-level for f32 and f64 up to the sign of zero."
  },
  {
   "property": "C37",
   "status": "proved",
   "theorems": [
    "C37_look_at_frame",
    "C37_look_at_points"
   ],
   "note": ""
  },
  {
   "property": "C38",
   "status": "proved",
   "theorems": [
    "C38_perspective_point",
    "C38_perspective_frustum",
    "C38_perspective_depth",
    "C38_perspective_plane_panics"
   ],
   "note": "Also: points on the camera plane make the map panic."
  },
  {
   "property": "C39",
   "status": "partial",
   "theorems": [
    "C39_normals_perpendicular_refuted",
    "C39_normals_perpendicular_partial",
    "C39_actual",
    "C39_exactly_when"
   ],
   "note": "Refuted: the code multiplies the last entry of each row by n.z twice, i.e. it maps (n.x, n.y, n.z^2). C39_exactly_when: perpendicularity holds exactly when n.z is 0 or 1 or n is along the z axis."
  },
  {
   "property": "C40",
   "status": "partial",
   "theorems": [
    "C40_vector_exact",
    "C40_point_exact",
    "C40_affine_float_no_panic",
    "C40_perspective_float_panics",
    "C40_interval_affine_refuted",
    "C40_interval_always_panics"
   ],
   "note": "Floats and exact arithmetic: proved in full. Interval vectors: refuted, the map always panics (the assert uses interval !=, and the interval sum is widened)."
  },
  {
   "property": "C41",
   "status": "proved",
   "theorems": [
    "C41_interval_point_encloses",
    "C41_affine_interval_point"
   ],
   "note": "Also for projective transforms, where the homogeneous coordinate of the point is nonzero."
  },
  {
   "property": "C42",
   "status": "proved",
   "theorems": [
    "C42_ray_map_eval",
    "C42_ray_eval",
    "C42_ray_tmax_kept",
    "C42_ray_roundtrip"
   ],
   "note": ""
  },
  {
   "property": "C43",
   "status": "proved",
   "theorems": [
    "C43_inside_means_between_corners",
    "C43_new_is_smallest_box"
   ],
   "note": "Proved in full for f32 and f64."
  },
  {
   "property": "C44",
   "status": "proved",
   "theorems": [
    "C44_union_contains_both",
    "C44_union_is_least",
    "C44_union_laws",
    "C44_default_is_unit",
    "C44_default_is_empty",
    "C44_intersect_is_common_part",
    "C44_overlaps_iff_interiors_meet",
    "C44_overlaps_symmetric_and_shares"
   ],
   "note": "Proved in full for f32 and f64."
  },
  {
   "property": "C45",
   "status": "partial",
   "theorems": [
    "C45_diagonal",
    "C45_max_extent",
    "C45_center_inside_refuted",
    "C45_center_inside_partial",
    "C45_center_inside_iff"
   ],
   "note": "diagonal and max_extent proved in full. center: refuted (pmax + pmin overflows for a box near the largest float), proved when the corner sums are finite. C45_center_inside_iff: this is the exact condition."
  },
  {
   "property": "C46",
   "status": "partial",
   "theorems": [
    "C46_slab_test_refuted",
    "C46_slab_test_partial",
    "C46_lower_plane_always_missed",
    "C46_parameter_range_partial"
   ],
   "note": "Exact arithmetic. Refuted: a ray running inside the plane of a lower bound (zero direction component, origin on pmin of a slab of positive width) is always reported as a miss because 0/0 poisons min/max; C46_lower_plane_always_missed proves this for all such rays. In every other case the test and the parameter interval are exact."
  },
  {
   "property": "C47",
   "status": "partial",
   "theorems": [
    "C47_never_panics",
    "C47_do_intersect_iff_hit",
    "C47_hit_record",
    "C47_closest_face",
    "C47_hit_on_ray_refuted",
    "C47_hit_exact_partial"
   ],
   "note": "No panic, t range, exact face coordinate and normal proved for all floats. Refuted for origins strictly inside: the reported point is the nearest surface point, not the ray point. Everything else proved in exact arithmetic."
  },
  {
   "property": "C48",
   "status": "partial",
   "theorems": [
    "C48_map_encloses_refuted",
    "C48_map_encloses_partial",
    "C48_map_inverse_encloses_partial",
    "C48_computed_box",
    "C48_encloses_iff",
    "C48_centred_cube_iff",
    "C48_axis_rotations_partial"
   ],
   "note": "Refuted: map_bbox accumulates into the wrong index, so rotating the unit box by 90 degrees about z loses points. Proved (enclosing and tight) when the linear part is diagonal. C48_encloses_iff says exactly when it encloses for any affine transform; centred cubes rotated about an axis are fine."
  },
  {
   "property": "C49",
   "status": "proved",
   "theorems": [
    "C49_first_hit",
    "C49_full_turn",
    "C49_do_intersect",
    "C49_new_total"
   ],
   "note": "Exact arithmetic: total; the returned t is the least parameter in [0, tmax] of a point on the clipped sphere inside the phi wedge (points on the z axis or on phi = PI = -PI, whose polar angle is ambiguous, may be classified either way)."
  },
  {
   "property": "C50",
   "status": "partial",
   "theorems": [
    "C50_roots_refuted",
    "C50_roots_partial",
    "C50_double_root_at_zero"
   ],
   "note": "Exact arithmetic. Refuted for b = c = 0 (the double root at 0 comes back as (NaN, 0)); proved for all other real coefficients with a != 0, and the exceptional case is characterised. C49 holds in spite of it."
  },
  {
   "property": "C51",
   "status": "proved",
   "theorems": [
    "C51_hit_in_bbox",
    "C51_bbox_value"
   ],
   "note": "Exact arithmetic, all constructed spheres and all hits."
  },
  {
   "property": "C52",
   "status": "partial",
   "theorems": [
    "C52_pole_normal",
    "C52_uv_refuted",
    "C52_normal_refuted",
    "C52_surface_partial",
    "C52_upper_partial",
    "C52_lower_half"
   ],
   "note": "Refuted below z = 0: theta is clamped before acos. C52_lower_half: every such hit off the axis has v = 0 and a wrong normal (value given). Hits with z >= 0: parameters, derivatives and normal proved (C52_upper_partial; C52_surface_partial for spheres cut at zmin >= 0). At the poles dpdu is zero and every component of the float normal is NaN (C52_pole_normal), so nothing is left out."
  },
  {
   "property": "C53",
   "status": "partial",
   "theorems": [
    "C53_area_refuted",
    "C53_area_partial",
    "C53_area_gap",
    "C53_spec_unique"
   ],
   "note": "Refuted: rays hit -PI <= phi <= phi_max but area() covers 0 <= phi <= phi_max; C53_area_gap: for every cut sphere it is too small by the area of a half turn. Equal to the hittable area for phi_max = 2 PI."
  },
  {
   "property": "C54",
   "status": "proved",
   "theorems": [
    "C54_do_intersect_agrees"
   ],
   "note": "Any scalar semantics, any primitive tree, user shapes assumed consistent (customs_agree)."
  },
  {
   "property": "C55",
   "status": "partial",
   "theorems": [
    "C55_closest_refuted",
    "C55_last_hit_partial",
    "C55_closest_partial"
   ],
   "note": "Refuted: the list keeps the last hit, because the ray is not shortened. Partial: last hit is what is returned, closest if members are ordered far to near."
  },
  {
   "property": "C56",
   "status": "proved",
   "theorems": [
    "C56_list_hits_iff_member_hits",
    "C56_list_do_intersect"
   ],
   "note": "Any scalar semantics and any list."
  },
  {
   "property": "C57",
   "status": "proved",
   "theorems": [
    "C57_contains_members",
    "C57_is_least",
    "C57_order_irrelevant",
    "C57_empty_list"
   ],
   "note": "f32 and f64; the empty list has the empty box."
  },
  {
   "property": "C58",
   "status": "partial",
   "theorems": [
    "C58_world_point_refuted",
    "C58_t_preserved_partial",
    "C58_transformed_sphere_partial"
   ],
   "note": "Refuted: the hit record of a transformed primitive is returned untransformed (object-space point). Partial: t is preserved and the set of hit rays is that of the mapped shape."
  },
  {
   "property": "C59",
   "status": "proved",
   "theorems": [
    "C59_uniform",
    "C59_concentric",
    "C59_uniform_bijective",
    "C59_concentric_bijective"
   ],
   "note": "Exact arithmetic. Values, Jacobian determinant, radius law and bijectivity onto the disk for both maps."
  },
  {
   "property": "C60",
   "status": "partial",
   "theorems": [
    "C60_lens_equation",
    "C60_focal_plane_refuted",
    "C60_focus_partial"
   ],
   "note": "Refuted: the common focus point lies on z = film_distance - focal_distance instead of z = -focal_distance (the parameter t is computed from the film, not from the lens). Lens equation proved in full; partial: the one focus point (all coordinates), lens origin as the scaled disk sample, unit direction, tmax = highest."
  },
  {
   "property": "C61",
   "status": "partial",
   "theorems": [
    "C61_fov_refuted",
    "C61_actual_angle_partial"
   ],
   "note": "Refuted: film_width has a factor 1/2 where 2 is needed. Partial: the angle covered is 2 atan(tan(fov/2)/4)."
  },
  {
   "property": "C62",
   "status": "proved",
   "theorems": [
    "C62_constants",
    "C62_release_ops",
    "C62_release_dot",
    "C62_release_matrix_product",
    "C62_release_vectors",
    "C62_debug_ops",
    "C62_debug_dot",
    "C62_debug_matrix_product",
    "C62_no_overflow_ops",
    "C62_no_overflow_dot",
    "C62_no_overflow_matrix_product",
    "C62_division",
    "C62_order",
    "C62_almost_eq",
    "C62_abs"
   ],
   "note": ""
  },
  {
   "property": "C63",
   "status": "partial",
   "theorems": [
    "C63_add_sub_neg_enclose",
    "C63_scalar_ops_enclose",
    "C63_from_encloses",
    "C63_from_exact",
    "C63_square_norm_encloses",
    "C63_square_distance_encloses",
    "C63_dot_encloses_refuted",
    "C63_dot_encloses_partial",
    "C63_norm_encloses_refuted",
    "C63_norm_of_possible_zero_is_nan",
    "C63_norm_encloses_partial"
   ],
   "note": "dot: refuted when both factors of a component straddle zero (inherits the multiplication defect), proved otherwise. norm: refuted (NaN bound for every vector of dimension >= 1 that may be zero), proved when the squared norm has a nonnegative lower bound. Everything else proved in full."
  },
  {
   "property": "C64",
   "status": "partial",
   "theorems": [
    "C64_box_normal_from_tangents_refuted",
    "C64_box_frame_partial",
    "C64_sphere_normal"
   ],
   "note": "Refuted for boxes: every box hit has dpdu x dpdv = -n. Partial: the frame is orthonormal. For spheres the normal equals the normalised cross product of the derivatives (C64_sphere_normal)."
  },
  {
   "property": "C65",
   "status": "partial",
   "theorems": [
    "C65_tan_refuted",
    "C65_tan_partial"
   ],
   "note": "Proved for widths <= PI or >= 2 PI; refuted in general over [1,7], where sin and cos themselves fail (C21)."
  },
  {
   "property": "C66",
   "status": "partial",
   "theorems": [
    "C66_is_nan",
    "C66_is_finite",
    "C66_is_infinite_refuted",
    "C66_is_infinite_actual",
    "C66_point_constants",
    "C66_two",
    "C66_special_values"
   ],
   "note": "is_infinite on intervals inherits the float bug: refuted (true on [1,2], false on infinity()), actual behaviour proved. All else proved."
  },
  {
   "property": "C67",
   "status": "partial",
   "theorems": [
    "C67_from_i64_refuted",
    "C67_from_i64_partial",
    "C67_from_f32",
    "C67_from_f64_f32_refuted",
    "C67_from_f64_partial",
    "C67_to_i64_partial",
    "C67_to_f32_partial",
    "C67_to_f64_partial",
    "C67_into_partial"
   ],
   "note": "from_i64 refuted at 2^prec+1 and from_f64 into f32 intervals refuted (rounded point instead of an enclosure); proved exact where representable. Midpoint conversions proved unless inf+sup overflows."
  },
  {
   "property": "C68",
   "status": "partial",
   "theorems": [
    "C68_is_positive_negative",
    "C68_nonstrict_signs_refuted",
    "C68_nonstrict_signs_partial",
    "C68_is_zero_one",
    "C68_signum_encloses_refuted",
    "C68_signum_encloses_partial",
    "C68_clamp_encloses_refuted",
    "C68_clamp_encloses_partial",
    "C68_min_max_encloses_refuted",
    "C68_min_max_encloses_partial",
    "C68_in_range_refuted",
    "C68_in_range_partial",
    "C68_in_range_strict",
    "C68_recip_encloses",
    "C68_fequals_sound",
    "C68_almost_eq",
    "C68_almost_eq_scalar"
   ],
   "note": "Refuted for nonstrict signs and in_range on touching intervals, signum on intervals around zero, clamp with wide limits, min_max of overlapping intervals; each with a proved part. Strict signs, is_zero/is_one, recip, fequals, almost_eq proved."
  },
  {
   "property": "C69",
   "status": "proved",
   "theorems": [
    "C69_next_up",
    "C69_next_down",
    "C69_pi_lower",
    "C69_pi_upper",
    "C69_pi_close"
   ],
   "note": "Proved for both formats."
  },
  {
   "property": "C70",
   "status": "partial",
   "theorems": [
    "C70_sin_cos_tan_ordered",
    "C70_atan_ordered",
    "C70_atan2_ordered",
    "C70_asin_acos_refuted",
    "C70_asin_acos_partial",
    "C70_values_at_ends",
    "C70_sin_cos_range",
    "C70_sin_cos_pair"
   ],
   "note": "Proved for sin, cos, tan, atan, atan2. asin/acos refuted at [-1,-1] (bounds cross); proved when the upper bound is >= 0."
  },
  {
   "property": "C71",
   "status": "partial",
   "theorems": [
    "C71_add_sub_div",
    "C71_exact_operations",
    "C71_sqrt",
    "C71_mul_refuted",
    "C71_mul_partial",
    "C71_square_refuted",
    "C71_square_partial"
   ],
   "note": "Proved for +, -, /, unary minus, abs, min, max, union, intersection, sqrt. * refuted when both outer factors straddle zero (consequence of C10's wrong product); square refuted ([0,1] in [-1,1]: the inner result reaches one float below 0). Proved otherwise."
  },
  {
   "property": "C72",
   "status": "partial",
   "theorems": [
    "C72_add_comm",
    "C72_mul_comm_refuted",
    "C72_mul_comm_partial",
    "C72_min_max_set_ops_comm",
    "C72_sub_is_add_neg",
    "C72_scalar_is_point"
   ],
   "note": "Proved for +, min, max, union, intersection, a-b = a+(-b), scalar operands. * refuted for two straddling factors, proved otherwise."
  },
  {
   "property": "C73",
   "status": "proved",
   "theorems": [
    "C73_float_in_interval",
    "C73_error_bound"
   ],
   "note": "In full under the hypotheses of the statement."
  },
  {
   "property": "C74",
   "status": "partial",
   "theorems": [
    "C74_hit_record",
    "C74_do_intersect",
    "C74_new",
    "C74_roots_ordered",
    "C74_hit_in_bbox_refuted",
    "C74_hit_in_bbox_partial"
   ],
   "note": "Bounding-box containment is refuted: a ball of radius 7/4 seen from x = -8192 (f32; -5*2^25 in f64) is hit at x = -2. C74_hit_in_bbox_partial: the point is in the box grown by 100 roundings of (|origin|^2 + radius^2)/radius. The rest holds for all floats."
  },
  {
   "property": "C75",
   "status": "partial",
   "theorems": [
    "C75_no_false_miss_refuted",
    "C75_no_false_hit_refuted",
    "C75_no_false_miss_partial",
    "C75_exact_differences_partial",
    "C75_no_false_hit_partial",
    "C75_accuracy",
    "C75_reported_hit"
   ],
   "note": "Both exact directions refuted by rounding (C75_no_false_miss_refuted, C75_no_false_hit_refuted). Proved: no miss when the ray is in the box on a relative neighbourhood 1/(1+u)..1/(1-u) of a parameter or when the corner differences are exact; a hit is a hit up to a parameter error of (2u+u^2)|s| + half the smallest float per coordinate; reported parameters are that accurate (C75_accuracy)."
  },
  {
   "property": "C76",
   "status": "partial",
   "theorems": [
    "C76_norm_error",
    "C76_distance_error",
    "C76_normalize_unit_refuted",
    "C76_normalize_overflow",
    "C76_normalize_unit_partial"
   ],
   "note": "The unconditional unit-length claim is refuted: (MAX,0,0) normalizes to the zero vector because the squared length overflows. Proved for every vector of length at least 2^-40 whose float length is finite, with error 6u; norm and distance errors are proved for every length n with n*u <= 1/2."
  },
  {
   "property": "C77",
   "status": "proved",
   "theorems": [
    "C77_cross_error",
    "C77_ray_error",
    "C77_map_vector_error",
    "C77_map_point_error",
    "C77_matrix_product_error"
   ],
   "note": "Componentwise backward-style bounds for all finite results; maps for matrices with last row (0,0,0,1)."
  },
  {
   "property": "C78",
   "status": "partial",
   "theorems": [
    "C78_concentric_accurate",
    "C78_uniform_accurate",
    "C78_in_disk_refuted",
    "C78_in_disk_partial"
   ],
   "note": "The claim that samples stay in the closed unit disk is refuted: with a library accurate to one ulp the f32 sample of the corner (0,0) has squared length above 1. Proved: the sample lies within radius 1+9u, and both coordinates are finite and within 16u of the exact sample, for both maps."
  },
  {
   "property": "C79",
   "status": "proved",
   "theorems": [
    "C79_matrix_eq",
    "C79_matrix_almost_eq",
    "C79_transform_almost_eq",
    "C79_float_transform_eq",
    "C79_float_transform_almost_eq",
    "C79_interval_vector_approx"
   ],
   "note": ""
  },
  {
   "property": "C80",
   "status": "proved",
   "theorems": [
    "C80_sin_tight",
    "C80_cos_tight",
    "C80_atan_tight",
    "C80_asin_tight",
    "C80_acos_tight",
    "C80_no_float_extremum"
   ],
   "note": ""
  },
  {
   "property": "C81",
   "status": "proved",
   "theorems": [
    "C81_rays",
    "C81_film_distance"
   ],
   "note": "Covers the focusing behaviour of the code as written (the plane at D - focal distance; see C60 for its relation to the intended plane of focus). The world-space bounds are for finite results. The film width and height are bounded in C95."
  },
  {
   "property": "C82",
   "status": "partial",
   "theorems": [
    "C82_hits_are_real",
    "C82_do_intersect",
    "C82_no_miss_refuted",
    "C82_no_miss_partial",
    "C82_surely",
    "C82_no_miss_cut_partial",
    "C82_reported_partial",
    "C82_first_partial"
   ],
   "note": "No-miss is refuted for rays lying in a lower face plane of a box (C46) and proved for rays avoiding these planes, also with wedge-cut spheres (C82_no_miss_cut_partial, up to points with an ambiguous polar angle). C82_reported_partial says which parameter is reported in every scene; it is the first one when lists have at most one member (C82_first_partial), for longer lists see C55."
  },
  {
   "property": "C83",
   "status": "partial",
   "theorems": [
    "C83_bbox_exists",
    "C83_bbox_contains_refuted",
    "C83_bbox_contains_partial",
    "C83_culling_refuted",
    "C83_culling_partial"
   ],
   "note": "Containment and culling are refuted for a box rotated by a quarter turn (C48: wrong index in the box transform) and proved for all trees whose transforms scale the axes and translate."
  },
  {
   "property": "C84",
   "status": "proved",
   "theorems": [
    "C84_solver_stable"
   ],
   "note": "The case b = c = 0 (where the solver divides zero by zero) is C50. Sizes outside 2^-50..2^50 can overflow or underflow in b*b and 4ac."
  },
  {
   "property": "C85",
   "status": "partial",
   "theorems": [
    "C85_hit_near",
    "C85_no_false_miss_refuted",
    "C85_no_false_miss_partial"
   ],
   "note": "C85_hit_near is the accuracy half in full. The no-miss half is refuted: a full ball (z_min = -r, z_max = r, r = 4/3) looked at along its axis from distance 5 is missed, because the rounded height of the hit point exceeds z_max. The partial theorem proves it for rays that are inside the ball and outside of it by 100 roundings somewhere on their extent, stay clear of the planes z_min and z_max near the sphere, and when the angle is not cut. Missing: hits within rounding distance of z_min, z_max or phi_max, and grazing rays."
  },
  {
   "property": "C86",
   "status": "partial",
   "theorems": [
    "C86_rotate_refuted",
    "C86_rotate_partial",
    "C86_axes",
    "C86_rigid",
    "C86_map_and_back"
   ],
   "note": "Refuted for axes whose squared length overflows (axis (MAX,0,0) normalizes to zero and the transform degenerates to cos(a) times the identity); proved for axes of length at least 2^-40 with finite float length. Everything else (coordinate axes, rigidity, mapping there and back) is proved in full."
  },
  {
   "property": "C87",
   "status": "partial",
   "theorems": [
    "C87_look_at_refuted",
    "C87_look_at_partial",
    "C87_frame"
   ],
   "note": "Refuted: an up direction whose squared length overflows gives NaN entries. Proved for up directions and lines of sight of length between 2^-30 and 2^50, eyes within 2^100 of the origin and angles whose sine is at least 1/64. Missing: more extreme lengths and smaller angles."
  },
  {
   "property": "C88",
   "status": "partial",
   "theorems": [
    "C88_project_refuted",
    "C88_project_partial",
    "C88_round_trip_partial",
    "C88_frustum"
   ],
   "note": "Refuted: for near = 2 and far = MAX the product far * near overflows and the depth is infinite. Proved, for a platform tan within one ulp, for fields of view between 1/1024 and nearly PI (tangent of the half angle at most 1024), clipping planes and depths between 1/1024 and 65536 and other coordinates zero or between 2^-50 and 2^50; the round trip for depths below about 1/(64 u) times the near plane. Missing: more extreme parameters."
  },
  {
   "property": "C89",
   "status": "partial",
   "theorems": [
    "C89_entries",
    "C89_residual",
    "C89_singular_refuted",
    "C89_singular_partial"
   ],
   "note": "Accuracy of the entries and of the products with the matrix: proved. Singular matrices are not always recognisable (refuted): a rank 2 block has a rounded determinant that is not zero and an entirely finite \"inverse\". Proved for matrices in which every product of the determinant is zero, e.g. a zero row or column."
  },
  {
   "property": "C90",
   "status": "partial",
   "theorems": [
    "C90_no_panic_refuted",
    "C90_nested_scaling_panics",
    "C90_no_panic_partial",
    "C90_one_level"
   ],
   "note": "Refuted as stated: two nested scalings by the smallest normal number panic, because the once mapped direction is infinite and infinity times the zeros of the last row is NaN. Proved when transforms are not nested (no size condition), and for any nesting when the exponents of ray and matrices add up to less than the exponent range."
  },
  {
   "property": "C91",
   "status": "proved",
   "theorems": [
    "C91_points",
    "C91_vectors",
    "C91_product_affine"
   ],
   "note": ""
  },
  {
   "property": "C92",
   "status": "proved",
   "theorems": [
    "C92_ray_points"
   ],
   "note": ""
  },
  {
   "property": "C93",
   "status": "partial",
   "theorems": [
    "C93_exact_refuted",
    "C93_translate_partial",
    "C93_scale_partial"
   ],
   "note": "Refuted: (1,1,1) moved by (MAX,MAX,MAX) and back is the origin. Proved: translations return the point up to 3 roundings of |point| + |offset|, scalings up to 4 roundings of the point plus an underflow term, for factors whose reciprocal is finite and not subnormal."
  },
  {
   "property": "C94",
   "status": "proved",
   "theorems": [
    "C94_ray_carried",
    "C94_scene_hit",
    "C94_no_shape_lost"
   ],
   "note": ""
  },
  {
   "property": "C95",
   "status": "proved",
   "theorems": [
    "C95_film_size",
    "C95_usual_lens"
   ],
   "note": "The factor 1/2 in the width is the code's (see C61 for the angle it covers)."
  },
  {
   "property": "C96",
   "status": "partial",
   "theorems": [
    "C96_outward_refuted",
    "C96_outward_partial",
    "C96_lower_half",
    "C96_first_coordinate",
    "C96_first_tangent",
    "C96_second_tangent_partial",
    "C96_second_coordinate"
   ],
   "note": "The full claim is C96_outward. Refuted for hits below the equator (C96_outward_refuted, a ball of radius 5 hit at (-3,0,-4)): the code clamps z/radius at 0 before acos. C96_outward_partial proves it for hits not below the equator and C96_lower_half gives the normal of the others; hits nearer to the axis than a few roundings are left out (at the axis itself every component is NaN, C52_pole_normal)."
  },
  {
   "property": "C97",
   "status": "proved",
   "theorems": [
    "C97_encloses",
    "C97_encloses_inverse",
    "C97_tight",
    "C97_tight_inverse",
    "C97_isotone",
    "C97_translate",
    "C97_scale",
    "C97_scale_inverse"
   ],
   "note": "Float counterpart of the diagonal case of C48; for transforms with off-diagonal entries enclosure is refuted under C48. Boxes with infinite bounds are excluded because infinity times a zero entry is NaN."
  },
  {
   "property": "C98",
   "status": "partial",
   "theorems": [
    "C98_contains",
    "C98_moves",
    "C98_no_nan",
    "C98_empty_refuted",
    "C98_empty_partial"
   ],
   "note": "Containment, absence of panics and of NaN bounds: proved. Emptiness is refuted for transformed empty lists (mapping the empty box sorts its corners and yields the largest box) and proved for lists of any nesting."
  },
  {
   "property": "C99",
   "status": "proved",
   "theorems": [
    "C99_accurate",
    "C99_monotone"
   ],
   "note": "The surface meant is 0 <= phi <= phi_max; that rays also hit -PI <= phi <= 0 is refuted under C53."
  },
  {
   "property": "C100",
   "status": "partial",
   "theorems": [
    "C100_identity_refuted",
    "C100_identity_partial",
    "C100_identity_scene_partial"
   ],
   "note": "Refuted as stated for libraries following the IEEE rule for atan2 of signed zeros: the identity map turns a coordinate -0 into +0, so a hit on the negative x axis moves from azimuth -PI to PI and out of the wedge (C100_identity_refuted). Proved: for finite rays without a -0 coordinate both intersect and do_intersect give identical results for every primitive (C100_identity_partial); scenes of boxes, spheres with an uncut azimuth, lists and arbitrary transforms are hit by the same finite rays, those with -0 included (C100_identity_scene_partial). Missing for rays with -0: narrower wedges, user-defined primitives, the reported interaction."
  }
 ]
}