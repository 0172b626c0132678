{
 "claims": [
  {
   "property": "C01",
   "status": "proved",
   "theorems": [
    "C01_unary",
    "C01_binary",
    "C01_ternary",
    "C01_broadcast",
    "C01_storage",
    "C01_div",
    "C01_div_trap",
    "C01_div_scalar"
   ],
   "note": ""
  },
  {
   "property": "C02",
   "status": "proved",
   "theorems": [
    "C02_sum",
    "C02_sum_defined",
    "C02_min",
    "C02_max",
    "C02_equal"
   ],
   "note": ""
  },
  {
   "property": "C03",
   "status": "proved",
   "theorems": [
    "C03_swizzle_read",
    "C03_swizzle_at",
    "C03_swizzle_at_bound_refuted"
   ],
   "note": "Reading a swizzle is proved for every vector, index list and both code paths. The separate element access on a swizzle, v.xy[i], asserts the wrong bound: C03_swizzle_at_bound_refuted."
  },
  {
   "property": "C04",
   "status": "proved",
   "theorems": [
    "C04_swizzle_write",
    "C04_swizzle_write_any_dim",
    "C04_read_back"
   ],
   "note": ""
  },
  {
   "property": "C05",
   "status": "partial",
   "theorems": [
    "C05_paths_agree_distinct",
    "C05_paths_agree_refuted"
   ],
   "note": "Proved for distinct indices; refuted for repeated indices (v.xx = (1,2) differs between the SIMD and scalar paths)."
  },
  {
   "property": "C06",
   "status": "partial",
   "theorems": [
    "C06_swizzle_assign_partial",
    "C06_swizzle_assign_refuted",
    "C06_scalar_assign"
   ],
   "note": "Proved when the right-hand storage is not larger than the left-hand one (always so for equal packing); refuted for an unpacked SIMD right-hand side assigned to a packed left-hand side (writes past the end of the array)."
  },
  {
   "property": "C07",
   "status": "proved",
   "theorems": [
    "C07_concat",
    "C07_pipe",
    "C07_pipe_assoc"
   ],
   "note": ""
  },
  {
   "property": "C08",
   "status": "proved",
   "theorems": [
    "C08_upcast",
    "C08_downcast",
    "C08_downcast_zero",
    "C08_roundtrip",
    "C08_scale_invariant"
   ],
   "note": ""
  },
  {
   "property": "C09",
   "status": "proved",
   "theorems": [
    "C09_clamp_bounds",
    "C09_clamp_inside",
    "C09_clamp_outside",
    "C09_clamp_idempotent",
    "C09_clamp_monotone",
    "C09_saturate"
   ],
   "note": ""
  },
  {
   "property": "C10",
   "status": "proved",
   "theorems": [
    "C10_dot",
    "C10_dot_hermitian",
    "C10_bilinear",
    "C10_positive_definite",
    "C10_length",
    "C10_cauchy_schwarz",
    "C10_triangle",
    "C10_distance_metric"
   ],
   "note": ""
  },
  {
   "property": "C11",
   "status": "proved",
   "theorems": [
    "C11_length_precise",
    "C11_distance_precise"
   ],
   "note": ""
  },
  {
   "property": "C12",
   "status": "proved",
   "theorems": [
    "C12_normalize",
    "C12_normalize_precise",
    "C12_normalize_precise_zero",
    "C12_normalize_precise_unit"
   ],
   "note": ""
  },
  {
   "property": "C13",
   "status": "proved",
   "theorems": [
    "C13_cross3",
    "C13_cross3_bilinear",
    "C13_cross3_basis",
    "C13_cross2"
   ],
   "note": ""
  },
  {
   "property": "C14",
   "status": "partial",
   "theorems": [
    "C14_cross_partial",
    "C14_orthogonal_partial",
    "C14_too_few",
    "C14_orthogonal_refuted"
   ],
   "note": "Proved for every dimension up to 5; for dimension 6 and above proved when the leading minors of the reduced matrices are nonzero. Refuted without that condition: in dimension 6 the result need not be orthogonal to the arguments, because the minors use the general determinant (C29)."
  },
  {
   "property": "C15",
   "status": "proved",
   "theorems": [
    "C15_gram_schmidt",
    "C15_in_place"
   ],
   "note": ""
  },
  {
   "property": "C16",
   "status": "partial",
   "theorems": [
    "C16_gram_schmidt_safe_iff_partial",
    "C16_gram_schmidt_safe_refuted"
   ],
   "note": "GramSchmidtOrthogonalize is proved to divide by zero exactly when some vector depends on the earlier ones, so the stated safety holds only for independent inputs; refuted in general by a concrete dependent family."
  },
  {
   "property": "C17",
   "status": "proved",
   "theorems": [
    "C17_construction",
    "C17_layout_independent",
    "C17_vector"
   ],
   "note": ""
  },
  {
   "property": "C18",
   "status": "proved",
   "theorems": [
    "C18_faithful_store",
    "C18_row_column"
   ],
   "note": ""
  },
  {
   "property": "C19",
   "status": "proved",
   "theorems": [
    "C19_layout",
    "C19_order",
    "C19_flip",
    "C19_flip_order",
    "C19_roundtrip",
    "C19_action",
    "C19_action_follow"
   ],
   "note": ""
  },
  {
   "property": "C20",
   "status": "proved",
   "theorems": [
    "C20_extract",
    "C20_insert",
    "C20_extract_insert",
    "C20_insert_extract"
   ],
   "note": ""
  },
  {
   "property": "C21",
   "status": "proved",
   "theorems": [
    "C21_product",
    "C21_layout_independent",
    "C21_product_assign"
   ],
   "note": ""
  },
  {
   "property": "C22",
   "status": "proved",
   "theorems": [
    "C22_vec_mat",
    "C22_mat_vec"
   ],
   "note": ""
  },
  {
   "property": "C23",
   "status": "proved",
   "theorems": [
    "C23_chain_precede",
    "C23_chain_follow",
    "C23_convert_compose"
   ],
   "note": ""
  },
  {
   "property": "C24",
   "status": "proved",
   "theorems": [
    "C24_homogeneous_follow",
    "C24_homogeneous_precede",
    "C24_affine",
    "C24_affine_padded_precede",
    "C24_affine_padded_follow"
   ],
   "note": ""
  },
  {
   "property": "C25",
   "status": "proved",
   "theorems": [
    "C25_elementwise",
    "C25_scalar",
    "C25_division",
    "C25_module_laws"
   ],
   "note": ""
  },
  {
   "property": "C26",
   "status": "proved",
   "theorems": [
    "C26_transpose",
    "C26_transpose_product",
    "C26_sum_trace_norm",
    "C26_norm_trace",
    "C26_min_max",
    "C26_layout_independent"
   ],
   "note": ""
  },
  {
   "property": "C27",
   "status": "proved",
   "theorems": [
    "C27_equality",
    "C27_equivalence",
    "C27_opposite_order"
   ],
   "note": ""
  },
  {
   "property": "C28",
   "status": "proved",
   "theorems": [
    "C28_determinant",
    "C28_laws"
   ],
   "note": ""
  },
  {
   "property": "C29",
   "status": "partial",
   "theorems": [
    "C29_determinant_partial",
    "C29_determinant_refuted"
   ],
   "note": "Exact characterisation: the result is the determinant when the leading principal minors of orders 1..n-2 are all nonzero and 0 otherwise. Hence refuted in general: a 5x5 permutation matrix has determinant -1 but the function returns 0."
  },
  {
   "property": "C30",
   "status": "proved",
   "theorems": [
    "C30_inverse"
   ],
   "note": ""
  },
  {
   "property": "C31",
   "status": "proved",
   "theorems": [
    "C31_inverse"
   ],
   "note": ""
  },
  {
   "property": "C32",
   "status": "partial",
   "theorems": [
    "C32_upper",
    "C32_lower",
    "C32_upper_follow",
    "C32_lower_follow",
    "C32_other_triangle_refuted"
   ],
   "note": "Proved for every triangular matrix with nonzero diagonal, both orders and layouts. The clause 'ignoring the other triangle' is refuted: nonzero elements in the other triangle change the result."
  },
  {
   "property": "C33",
   "status": "proved",
   "theorems": [
    "C33_lu"
   ],
   "note": ""
  },
  {
   "property": "C34",
   "status": "proved",
   "theorems": [
    "C34_lup",
    "C34_expand_permutation"
   ],
   "note": ""
  },
  {
   "property": "C35",
   "status": "proved",
   "theorems": [
    "C35_lu_solve",
    "C35_lup_solve",
    "C35_lup_solve_vec",
    "C35_lu_solve_vec",
    "C35_permute"
   ],
   "note": ""
  },
  {
   "property": "C36",
   "status": "proved",
   "theorems": [
    "C36_lu_inverse",
    "C36_lup_inverse"
   ],
   "note": ""
  },
  {
   "property": "C37",
   "status": "proved",
   "theorems": [
    "C37_qr"
   ],
   "note": ""
  },
  {
   "property": "C38",
   "status": "proved",
   "theorems": [
    "C38_least_squares",
    "C38_exact",
    "C38_least_squares_vector"
   ],
   "note": ""
  },
  {
   "property": "C39",
   "status": "proved",
   "theorems": [
    "C39_pseudoinverse",
    "C39_inverse"
   ],
   "note": ""
  },
  {
   "property": "C40",
   "status": "proved",
   "theorems": [
    "C40_lq",
    "C40_transpose",
    "C40_solve",
    "C40_solve_vector",
    "C40_pseudoinverse",
    "C40_selection"
   ],
   "note": "Solve(Matrix) is modelled with an argument of Columns columns; the code declares Rows columns, so it is only usable when Rows = Columns."
  },
  {
   "property": "C41",
   "status": "proved",
   "theorems": [
    "C41_svd2x2",
    "C41_values"
   ],
   "note": ""
  },
  {
   "property": "C42",
   "status": "partial",
   "theorems": [
    "C42_two_sided_rotation",
    "C42_two_sided",
    "C42_two_sided_terminates",
    "C42_one_sided_rotation",
    "C42_one_sided",
    "C42_wide",
    "C42_zero_matrix_faults",
    "C42_refuted"
   ],
   "note": "Invariants and result are proved for both iterations and every nonzero matrix, termination for the two-sided one. Refuted for the zero matrix: the pre-scaling divides 0 by 0, so neither iteration returns a decomposition. That the iterations may also stop before they have converged is the subject of C88."
  },
  {
   "property": "C43",
   "status": "partial",
   "theorems": [
    "C43_in_bounds",
    "C43_out_of_bounds",
    "C43_refuted"
   ],
   "note": "Proved for Inverse and for square systems; Solve is in bounds exactly for Rows >= Columns with column vectors and Rows <= Columns with row vectors, and refuted for the other shapes (reads S past its end)."
  },
  {
   "property": "C44",
   "status": "proved",
   "theorems": [
    "C44_least_squares",
    "C44_least_squares_follow",
    "C44_pseudoinverse",
    "C44_rank_deficient"
   ],
   "note": ""
  },
  {
   "property": "C45",
   "status": "proved",
   "theorems": [
    "C45_bernstein",
    "C45_ends",
    "C45_affine",
    "C45_bounds"
   ],
   "note": ""
  },
  {
   "property": "C46",
   "status": "proved",
   "theorems": [
    "C46_line",
    "C46_through",
    "C46_segment",
    "C46_segment_from",
    "C46_plane",
    "C46_plane_from",
    "C46_line_plane",
    "C46_plane_line"
   ],
   "note": ""
  },
  {
   "property": "C47",
   "status": "proved",
   "theorems": [
    "C47_plane_line",
    "C47_parallel"
   ],
   "note": ""
  },
  {
   "property": "C48",
   "status": "partial",
   "theorems": [
    "C48_ray",
    "C48_segment_partial",
    "C48_end_missed",
    "C48_segment_refuted",
    "C48_line_segment_partial"
   ],
   "note": "Rays: proved in full (C48_ray). Segments: the code tests 0 <= t < length, so the second end point is excluded; C48_segment_partial is the exact statement for the half-open segment, C48_end_missed and C48_segment_refuted show that a plane through the second end point only is missed. Missing: nothing else, the claim as stated is false for segments."
  },
  {
   "property": "C49",
   "status": "proved",
   "theorems": [
    "C49_line_line",
    "C49_ray_within",
    "C49_segment_segment"
   ],
   "note": ""
  },
  {
   "property": "C50",
   "status": "partial",
   "theorems": [
    "C50_ray_triangle_partial",
    "C50_near_refuted",
    "C50_small_refuted"
   ],
   "note": "Exact characterisation proved (C50_ray_triangle_partial): a point is returned iff |det| >= eps and the ray parameter is >= eps, with barycentric coordinates. The claim as stated is refuted by the eps tests: hits closer than eps (C50_near_refuted) and triangles with small determinant (C50_small_refuted) are missed."
  },
  {
   "property": "C51",
   "status": "proved",
   "theorems": [
    "C51_area",
    "C51_area2",
    "C51_area3",
    "C51_centroid"
   ],
   "note": ""
  },
  {
   "property": "C52",
   "status": "proved",
   "theorems": [
    "C52_identity",
    "C52_scale",
    "C52_translation",
    "C52_compose"
   ],
   "note": ""
  },
  {
   "property": "C53",
   "status": "proved",
   "theorems": [
    "C53_aligned",
    "C53_general",
    "C53_volume",
    "C53_inverse"
   ],
   "note": ""
  },
  {
   "property": "C54",
   "status": "proved",
   "theorems": [
    "C54_action",
    "C54_polar",
    "C54_compose",
    "C54_special_orthogonal"
   ],
   "note": ""
  },
  {
   "property": "C55",
   "status": "proved",
   "theorems": [
    "C55_action",
    "C55_fixes_axis",
    "C55_turns",
    "C55_compose",
    "C55_special_orthogonal",
    "C55_coordinate_axes"
   ],
   "note": ""
  },
  {
   "property": "C56",
   "status": "proved",
   "theorems": [
    "C56_sequence",
    "C56_matrix",
    "C56_named",
    "C56_quaternion"
   ],
   "note": ""
  },
  {
   "property": "C57",
   "status": "proved",
   "theorems": [
    "C57_axis_angle",
    "C57_coordinate_axis",
    "C57_three_axes"
   ],
   "note": ""
  },
  {
   "property": "C58",
   "status": "proved",
   "theorems": [
    "C58_image",
    "C58_corners",
    "C58_box",
    "C58_flat"
   ],
   "note": ""
  },
  {
   "property": "C59",
   "status": "partial",
   "theorems": [
    "C59_image",
    "C59_near_far",
    "C59_depth_order",
    "C59_sides",
    "C59_mirror_partial",
    "C59_mirror_first",
    "C59_mirror_refuted",
    "C59_2d",
    "C59_3d",
    "C59_degenerate"
   ],
   "note": "Planes, depth order and side planes proved for every dimension, both orders and both sides of the eye, over the reals with Coq's tangent. Mirroring: true for every axis but the first (C59_mirror_partial). The documented rule fails for the first ratio: negating it mirrors all the other axes instead (C59_mirror_first, C59_mirror_refuted)."
  },
  {
   "property": "C60",
   "status": "partial",
   "theorems": [
    "C60_eye_partial",
    "C60_target_partial",
    "C60_isometry_partial",
    "C60_bases_partial",
    "C60_orientation_partial",
    "C60_look_at2",
    "C60_look_at3",
    "C60_high_dim",
    "C60_refuted"
   ],
   "note": "Eye, target, distances, basis vectors and handedness for every dimension >= 2, both vector orders and every flip, provided the cross product works (at most five dimensions, or nonzero leading minors of the reduced matrices); in six and more dimensions the function divides by zero for ordinary inputs (C60_high_dim, C60_refuted). The 2D and 3D overloads are given as explicit formulas without that condition. Without flips the 2D and 4D transforms are reflections (C60_orientation_partial). Exact arithmetic over any real closed field."
  },
  {
   "property": "C61",
   "status": "proved",
   "theorems": [
    "C61_hamilton",
    "C61_relations",
    "C61_algebra"
   ],
   "note": ""
  },
  {
   "property": "C62",
   "status": "proved",
   "theorems": [
    "C62_construction",
    "C62_access",
    "C62_conversion",
    "C62_operations",
    "C62_meaning",
    "C62_normalize"
   ],
   "note": ""
  },
  {
   "property": "C63",
   "status": "proved",
   "theorems": [
    "C63_inverse",
    "C63_inverse_zero",
    "C63_conjugate"
   ],
   "note": ""
  },
  {
   "property": "C64",
   "status": "proved",
   "theorems": [
    "C64_sandwich",
    "C64_isometry",
    "C64_scale_invariant",
    "C64_compose",
    "C64_zero"
   ],
   "note": ""
  },
  {
   "property": "C65",
   "status": "proved",
   "theorems": [
    "C65_rotates",
    "C65_shapes",
    "C65_special_orthogonal",
    "C65_product"
   ],
   "note": ""
  },
  {
   "property": "C66",
   "status": "partial",
   "theorems": [
    "C66_rotation_partial",
    "C66_refuted"
   ],
   "note": "Proved for rotations with trace > -1. For half turns (trace -1) the code divides by zero: C66_refuted. Missing: nothing else; the code has no branch for that case."
  },
  {
   "property": "C67",
   "status": "proved",
   "theorems": [
    "C67_euler",
    "C67_length",
    "C67_exp_log",
    "C67_log_exp",
    "C67_principal",
    "C67_zero",
    "C67_pow",
    "C67_pow_nat",
    "C67_derivative"
   ],
   "note": "Exp, Log and Pow over Coq's real numbers, for every well-formed quaternion and both layouts: Euler's formula, |Exp q| = e^s, Exp (Log q) = q for nonzero q, Log (Exp q) = q for vector parts shorter than pi, principal branch, no result at zero, power laws (additive, natural exponents are repeated products, length), and t -> Exp (t q) solves e' = q e, e(0) = 1."
  },
  {
   "property": "C68",
   "status": "proved",
   "theorems": [
    "C68_axis_angle",
    "C68_negative",
    "C68_rebuild",
    "C68_degenerate"
   ],
   "note": "For any atan2 meeting its specification (one is constructed): Axis and Angle of RotationAxisAngle, negative angles, rebuilding every unit quaternion, and the degenerate cases. Finding: the comment of Axis says (1,0,0) is returned near 180 degrees; it is returned for 0 and 360 degrees, a half turn returns its true axis."
  },
  {
   "property": "C69",
   "status": "proved",
   "theorems": [
    "C69_vector",
    "C69_matrix",
    "C69_angle_axis"
   ],
   "note": "For every formatting of numbers that can be read back (number_io; an instance for the integers is proved), any text after the object and any white space before it, vectors and matrices of every shape; the angle and axis of a quaternion. The stream, with its error bits and the get/peek/extraction functions of the standard library, is part of the model."
  },
  {
   "property": "C70",
   "status": "partial",
   "theorems": [
    "C70_array",
    "C70_vector",
    "C70_terminates",
    "C70_bad_stream",
    "C70_angle_axis",
    "C70_quaternion_space",
    "C70_elements_refuted"
   ],
   "note": "Exact characterisation of the accepted texts (white space, bracket, the right number of elements at depth 0, closing bracket; iff), nothing consumed beyond the bracket, termination on every stream. Missing: nothing about shape, but the claim is false for the elements: they are not checked (C70_elements_refuted: [1,x,3] reads 0, [1,,3] leaves an indeterminate value). Texts shorter than 2^62 characters."
  },
  {
   "property": "C71",
   "status": "partial",
   "theorems": [
    "C71_vector_partial",
    "C71_real_text",
    "C71_real_throws",
    "C71_real_element",
    "C71_refuted"
   ],
   "note": "Elements with nonzero imaginary part round-trip (C71_vector_partial). Refuted for purely real elements: every vector having one throws when its own text is read (C71_real_element, C71_refuted)."
  },
  {
   "property": "C72",
   "status": "proved",
   "theorems": [
    "C72_positive",
    "C72_range",
    "C72_trace",
    "C72_down",
    "C72_down_skipped"
   ],
   "note": "Range, order and trace for every positive step and unrolling limit, and for negative steps when the loop is unrolled. Finding: with a negative step and a count above the limit the loop runs zero times (C72_down_skipped)."
  },
  {
   "property": "C73",
   "status": "proved",
   "theorems": [
    "C73_fast2sum",
    "C73_step",
    "C73_sum",
    "C73_sum_pair",
    "C73_dot",
    "C73_order_refuted",
    "C73_sum_refuted",
    "C73_complex_refuted"
   ],
   "note": "IEEE-754 formats of any precision > 1 and range, round to nearest even, including signed zeros, subnormals and infinities. Error-free Fast2Sum, exact error at every step, an a priori error bound of second order for SumCompensated and DotCompensated. Findings: the last Fast2Sum of SumCompensated can lose the compensation (C73_sum_refuted), and for complex elements the branch on the moduli loses the error of the smaller part (C73_complex_refuted)."
  },
  {
   "property": "C74",
   "status": "proved",
   "theorems": [
    "C74_product",
    "C74_fmta",
    "C74_zero",
    "C74_cross",
    "C74_self",
    "C74_underflow_refuted",
    "C74_exact"
   ],
   "note": "Exact arithmetic over any commutative ring, and IEEE-754 arithmetic: the error of the product is exact, and the relative error of FMTA and of the 3D cross product is at most 2^(1-prec) (two roundings) if the products do not underflow; correct sign, exact zeros. Without that condition: C74_underflow_refuted."
  },
  {
   "property": "C75",
   "status": "proved",
   "theorems": [
    "C75_constants",
    "C75_inverse",
    "C75_linear",
    "C75_right_angle",
    "C75_clamp",
    "C75_saturate"
   ],
   "note": "Inverse, linear, exact values over any real field; right angle over Coq's reals; Clamp is the nearest point, Saturate. C75_constants: all six literals, rounded to long double (binary64, x87 or binary128) and then to the scalar type, are the correctly rounded mathematical constants."
  },
  {
   "property": "C76",
   "status": "partial",
   "theorems": [
    "C76_undefined_iff",
    "C76_scalar_undefined_iff",
    "C76_quotient",
    "C76_wrap",
    "C76_signed",
    "C76_zero_padding",
    "C76_unsigned",
    "C76_padding_undefined",
    "C76_refuted"
   ],
   "note": "Exact condition under which the quotient is undefined, for any partial division. Division by zero in padding is impossible; unsigned types and dividends with zero padding are safe. False in general: (Vector<int,3>(1,1,1) + INT_MIN) / -1 divides INT_MIN by -1 in the padding lane (C76_padding_undefined), because only the padding of the divisor is overwritten."
  },
  {
   "property": "C77",
   "status": "partial",
   "theorems": [
    "C77_diagonal",
    "C77_refuted",
    "C77_one_sided_sorted"
   ],
   "note": "Magnitudes are proved to be sorted in decreasing order for the one-sided iteration. Refuted for the two-sided iteration: diag(-1, 2) is returned as is, with a negative first value and in increasing order."
  },
  {
   "property": "C78",
   "status": "proved",
   "theorems": [
    "C78_length",
    "C78_normalize",
    "C78_length_finite",
    "C78_length_precise",
    "C78_length_nan",
    "C78_length_infinite",
    "C78_normalize_degenerate",
    "C78_normalize_precise",
    "C78_normalize_unit",
    "C78_total",
    "C78_plain"
   ],
   "note": "Real elements, rounding to nearest even. The formats need emax >= 2 prec and emax >= prec + 7, met by float, double and long double; at most 2^prec lanes. Every order of summation is covered. What the maximum of a NaN is, is left open. The plain Length and Normalize overflow for (2^600), C78_plain. They are as accurate as the precise versions when the length is finite and the square of some element is at least 2^(emin + 2 prec - 1): C78_length, C78_normalize; when the length is finite: C78_length_finite."
  },
  {
   "property": "C79",
   "status": "proved",
   "theorems": [
    "C79_sum",
    "C79_sum_finite",
    "C79_dot",
    "C79_run",
    "C79_product",
    "C79_vector_matrix",
    "C79_exact"
   ],
   "note": "Real elements, rounding to nearest even; every order of summation. The error bounds are for finite results; C79_sum_finite gives a condition for finiteness of sums, C79_exact one for products. Examples show that order and layouts do affect the results otherwise."
  },
  {
   "property": "C80",
   "status": "partial",
   "theorems": [
    "C80_precise",
    "C80_one",
    "C80_real",
    "C80_direction_refuted"
   ],
   "note": "For precisions of at least 8 bits: the parts have an absolute error of at most 10 u whenever the larger part exceeds 2^-emax (C80_precise); zero and non-finite numbers give exactly 1. False for subnormal numbers with both parts at most 2^-emax: the reciprocal of the larger part overflows and the result is 1 whatever the direction (C80_one, C80_direction_refuted)."
  },
  {
   "property": "C81",
   "status": "proved",
   "theorems": [
    "C81_matrix",
    "C81_layout",
    "C81_vector",
    "C81_quaternion"
   ],
   "note": "The engine is any function from states to numbers and states. The statistics of the numbers are the distribution's, not modelled."
  },
  {
   "property": "C82",
   "status": "partial",
   "theorems": [
    "C82_two",
    "C82_family",
    "C82_sound_partial",
    "C82_exact_partial",
    "C82_real",
    "C82_complex",
    "C82_void_refuted",
    "C82_missing_refuted"
   ],
   "note": "For any partial addition of types. Proved for families closed under addition, in particular all real types and complex<T> with T. False in general: a failing sum may give void instead of an error (C82_void_refuted), and a type may be missing although the sum exists (C82_missing_refuted); C82_exact_partial characterises when it is found."
  },
  {
   "property": "C83",
   "status": "proved",
   "theorems": [
    "C83_dot",
    "C83_length",
    "C83_inequalities",
    "C83_length_precise",
    "C83_normalize",
    "C83_normalize_null",
    "C83_gram_schmidt",
    "C83_norm",
    "C83_adjoint",
    "C83_scale"
   ],
   "note": "Exact arithmetic over R[i] with R any real closed field. Gram-Schmidt for independent vectors; a dependent vector leads to a division by zero, as for real elements (C16)."
  },
  {
   "property": "C84",
   "status": "proved",
   "theorems": [
    "C84_qr",
    "C84_least_squares",
    "C84_exact",
    "C84_least_squares_vector",
    "C84_pseudoinverse",
    "C84_inverse",
    "C84_lq",
    "C84_lq_solve",
    "C84_lq_solve_vector",
    "C84_lq_pseudoinverse"
   ],
   "note": "Exact arithmetic over R[i]. Solve and Inverse divide by zero exactly if the rank is not full. The adjoint is written out as hermx, independent of the code's ConjTranspose."
  },
  {
   "property": "C85",
   "status": "proved",
   "theorems": [
    "C85_svd2x2",
    "C85_values",
    "C85_small_rotation"
   ],
   "note": ""
  },
  {
   "property": "C86",
   "status": "partial",
   "theorems": [
    "C86_two_sided_rotation",
    "C86_two_sided_partial",
    "C86_two_sided_terminates",
    "C86_diagonal",
    "C86_two_sided_refuted",
    "C86_one_sided_rotation",
    "C86_one_sided_partial",
    "C86_one_sided_refuted",
    "C86_wide",
    "C86_zero_matrix_faults",
    "C86_one_sided_sorted"
   ],
   "note": "False in general. Two-sided: S(i) = std::real(X(i, i)) drops the imaginary part of a diagonal element no rotation has touched; diag(i, 1) comes back as diag(0, 1). One-sided: in the QR branch copysign(S(i), real(R(i, i))) replaces the phase of R(i, i) by a sign; diag(i, 0) does not come back. Proved: unitary factors and the invariants after any number of sweeps, the distance of U S V from A in the two-sided case, A = U diag(phase S) V in the one-sided case, equality if the diagonal of A is real or all singular values reach the threshold, termination of the two-sided iteration. That the one-sided iteration converges is false in general (see C88). The zero matrix divides 0 by 0."
  },
  {
   "property": "C87",
   "status": "proved",
   "theorems": [
    "C87_in_bounds",
    "C87_out_of_bounds",
    "C87_least_squares",
    "C87_least_squares_follow",
    "C87_pseudoinverse",
    "C87_rank_deficient"
   ],
   "note": ""
  },
  {
   "property": "C88",
   "status": "partial",
   "theorems": [
    "C88_two_sided_refuted",
    "C88_two_sided_partial",
    "C88_one_sided_partial",
    "C88_two_rows",
    "C88_two_columns",
    "C88_three_columns",
    "C88_one_sided_refuted"
   ],
   "note": "False: the loop compares the largest error of a sweep with that of the previous sweep and stops if it did not decrease. C88_two_sided_refuted: for [[0,4,3],[0,0,0],[-5,10,0]] and every tolerance up to 1/5 the result misses A by more than 9/50 in the sum of squares. C88_one_sided_refuted: for [[-2,-3,0,0],[2,2,-3,0],[2,-3,0,3],[0,-2,1,3]] two columns of U have a scalar product of at least 9/20. Proved: the two-sided iteration converges within three sweeps for at most two rows, the one-sided one for at most two columns; with three columns the one-sided iteration stops only at a singular value decomposition; for any size, if the last sweep found no error, the result is within the tolerance (two-sided) or is a singular value decomposition (one-sided)."
  },
  {
   "property": "C89",
   "status": "proved",
   "theorems": [
    "C89_lower",
    "C89_upper",
    "C89_lower_follow",
    "C89_upper_follow",
    "C89_lower_backward",
    "C89_upper_backward"
   ],
   "note": "Componentwise bounds on the residual and existence of the perturbed system, for column and row vectors. The hypothesis that the column of the result is finite is decided by the computation itself; it fails for a zero on the diagonal."
  },
  {
   "property": "C90",
   "status": "proved",
   "theorems": [
    "C90_lu",
    "C90_lup",
    "C90_pivoting"
   ],
   "note": "C90_lu and C90_lup bound the residual when the computed factors are finite, C90_pivoting shows that they are for LUP away from overflow."
  },
  {
   "property": "C91",
   "status": "proved",
   "theorems": [
    "C91_lu_solve",
    "C91_lu_solve_follow",
    "C91_lup_solve",
    "C91_lup_solve_follow",
    "C91_inverse",
    "C91_inverse_follow",
    "C91_lup_norm",
    "C91_pivoting_needed"
   ],
   "note": "Residual bounds for Solve with LU and LUP and for Inverse, both orders. C91_lup_norm needs no hypothesis on the factors. C91_pivoting_needed: without exchanging rows (DecomposeLU) the residual is not small relative to |A||x|."
  },
  {
   "property": "C92",
   "status": "partial",
   "theorems": [
    "C92_orthonormal",
    "C92_square",
    "C92_rows",
    "C92_refuted"
   ],
   "note": "C92_orthonormal, C92_square and C92_rows hold for runs whose reflection vectors are not tiny relative to the largest element; C92_refuted is the counterexample for the others, a column of subnormal numbers."
  },
  {
   "property": "C93",
   "status": "proved",
   "theorems": [
    "C93_residual"
   ],
   "note": "C93_residual, same conditions on the run as C92."
  },
  {
   "property": "C94",
   "status": "proved",
   "theorems": [
    "C94_finite",
    "C94_orthonormal",
    "C94_residual"
   ],
   "note": "C94_finite: no overflow; C94_orthonormal and C94_residual are C92 and C93 without hypotheses on the result."
  },
  {
   "property": "C95",
   "status": "proved",
   "theorems": [
    "C95_solve",
    "C95_orthogonal",
    "C95_least_squares",
    "C95_inverse",
    "C95_inverse_square",
    "C95_lq",
    "C95_lq_solve"
   ],
   "note": "C95_solve (square), C95_orthogonal and C95_least_squares (tall), C95_inverse, C95_inverse_square, C95_lq, C95_lq_solve; the solution has to be finite."
  },
  {
   "property": "C96",
   "status": "partial",
   "theorems": [
    "C96_product",
    "C96_length",
    "C96_chain",
    "C96_chain_bound",
    "C96_rotate",
    "C96_rotate_length",
    "C96_rotate_refuted"
   ],
   "note": "C96_product, C96_length, C96_chain, C96_chain_bound, C96_rotate, C96_rotate_length; C96_rotate_refuted: rotation by a quaternion whose squared length overflows."
  },
  {
   "property": "C97",
   "status": "partial",
   "theorems": [
    "C97_rotation",
    "C97_terminates",
    "C97_ends",
    "C97_pairs",
    "C97_growth",
    "C97_rows",
    "C97_columns",
    "C97_svd",
    "C97_u_refuted"
   ],
   "note": "C97_rotation, C97_terminates, C97_ends, C97_pairs, C97_growth, C97_rows, C97_columns, C97_svd; C97_u_refuted: U is not orthonormal for a column of subnormal numbers. Not proved: a bound for the product when the QR decomposition is used."
  },
  {
   "property": "C98",
   "status": "partial",
   "theorems": [
    "C98_growth",
    "C98_curve",
    "C98_hull",
    "C98_ends",
    "C98_box_refuted"
   ],
   "note": "C98_curve, C98_growth, C98_hull, C98_ends; C98_box_refuted: without the rounding bound the point may leave the box around the control points."
  },
  {
   "property": "C99",
   "status": "partial",
   "theorems": [
    "C99_det2",
    "C99_sign2",
    "C99_det3",
    "C99_det4",
    "C99_inverse2",
    "C99_inverse3",
    "C99_inverse4",
    "C99_zero_refuted",
    "C99_sign3_refuted"
   ],
   "note": "C99_det2, C99_det3, C99_det4, C99_sign2, C99_inverse2, C99_inverse3, C99_inverse4; C99_zero_refuted: an invertible matrix with determinant zero and an infinite inverse; C99_sign3_refuted: a 3x3 determinant of the wrong sign."
  },
  {
   "property": "C100",
   "status": "partial",
   "theorems": [
    "C100_line",
    "C100_scalar",
    "C100_distance",
    "C100_parallel",
    "C100_plane",
    "C100_ray",
    "C100_segment",
    "C100_lines",
    "C100_parallel_refuted",
    "C100_missed_refuted"
   ],
   "note": "C100_scalar, C100_distance, C100_line, C100_plane, C100_parallel, C100_ray, C100_segment, C100_lines; C100_parallel_refuted: an intersection reported for a parallel line; C100_missed_refuted: none reported for a line that meets the plane."
  },
  {
   "property": "C101",
   "status": "partial",
   "theorems": [
    "C101_centroid",
    "C101_side",
    "C101_heron",
    "C101_area",
    "C101_area_root",
    "C101_nan_refuted",
    "C101_flat_refuted",
    "C101_overflow_refuted"
   ],
   "note": "C101_side, C101_heron, C101_area (square of the area), C101_area_root, C101_centroid; C101_nan_refuted: NaN for three points on a line; C101_flat_refuted: 0 for a large thin triangle; C101_overflow_refuted: infinite although the area is representable."
  },
  {
   "property": "C102",
   "status": "partial",
   "theorems": [
    "C102_hit",
    "C102_miss",
    "C102_small_refuted",
    "C102_interior_refuted"
   ],
   "note": "C102_hit, C102_miss; C102_small_refuted: a small triangle is missed because of the absolute threshold; C102_interior_refuted: a ray through the inside of a triangle of ordinary size is missed."
  },
  {
   "property": "C103",
   "status": "proved",
   "theorems": [
    "C103_rotation",
    "C103_orthogonal"
   ],
   "note": "C103_rotation, C103_orthogonal. Scalar types of matrix and quaternion equal; the order of the matrix and the rows and columns beyond the third are in M_Quat.v. C103_length_example shows that the term in the length is needed."
  },
  {
   "property": "C104",
   "status": "partial",
   "theorems": [
    "C104_scalar",
    "C104_quaternion",
    "C104_round_trip",
    "C104_half_turn_refuted"
   ],
   "note": "C104_scalar, C104_quaternion, C104_round_trip: under the condition that the error of the scalar part is less than the scalar part; C104_half_turn_refuted: it fails without it."
  },
  {
   "property": "C105",
   "status": "partial",
   "theorems": [
    "C105_side",
    "C105_faces",
    "C105_depth",
    "C105_planes",
    "C105_far_refuted",
    "C105_size_refuted"
   ],
   "note": "C105_side, C105_faces, C105_depth, C105_planes: error bounds of the map given by the elements of the matrix; C105_far_refuted, C105_size_refuted: the faces are not mapped to -1 and 1 for boxes far from the origin or whose size overflows."
  },
  {
   "property": "C106",
   "status": "partial",
   "theorems": [
    "C106_A",
    "C106_B",
    "C106_depth",
    "C106_planes",
    "C106_close_refuted",
    "C106_overflow_refuted"
   ],
   "note": "C106_A, C106_B, C106_depth, C106_planes: error bounds of the elements and of the depth; C106_close_refuted, C106_overflow_refuted: planes close together or far away. The elements that use std::tan are not modelled in floating point."
  },
  {
   "property": "C107",
   "status": "proved",
   "theorems": [
    "C107_element",
    "C107_rotation",
    "C107_length",
    "C107_finite"
   ],
   "note": "C107_element, C107_rotation, C107_length, C107_finite; turn_axis, turn_length and turn_angle show that the exact map is the rotation. std::cos and std::sin are parameters. C107_finite shows that no element overflows when the axis, the cosine and the sine are finite and at most 2 in size."
  }
 ]
}