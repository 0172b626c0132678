# Formal model of Mathter in Rocq/Coq 8.16.1

The subject is the header-only linear algebra library in `/repo/include/Mathter`. It was read as text; nothing in
`/repo` was built, run or changed. `properties.jsonl` lists the properties in API terms, `MANIFEST.json` maps each
property to the theorems proved for it.

## 1. Modelling decisions

* **Scalars.** The library is generic in the scalar `T`. Data movement (swizzles, layouts, I/O) is modelled for an
  arbitrary type. Arithmetic is modelled *exactly*: over any mathcomp `comRingType` / `fieldType` where only ring or
  field operations occur, over an ordered field (`realFieldType`) where magnitudes are compared, over a real closed
  field (`rcfType`) where square roots occur, and over Coq's reals `R` (made an `rcfType` instance in
  `RealStruct.v`) where trigonometric functions occur. Rounding, overflow, NaN and infinities are therefore *not*
  covered by the exact-arithmetic theorems. Floating point is modelled only in `M_Float*.v` (Flocq).
* **Division by zero / undefined behaviour** is a distinct outcome: a model function that divides returns `option`,
  and `None` means "the C++ code divides by zero at this point" (integer UB, or an infinity/NaN for floats). Theorems
  state exactly when `Some` is returned. Square roots of negative numbers are likewise excluded by proof.
* **Out-of-range reads and uninitialised memory** return an arbitrary value `junk`, which is a universally quantified
  parameter of the model, or `None` where the property is about bounds. A theorem that holds for every `junk` shows
  that no such value influences the result.
* **Static shapes** (template parameters) become explicit `nat` parameters; an object of the model is a `seq` with a
  well-formedness predicate (`size` equals the shape). The abstraction function to mathcomp matrices
  (`mxof : mat -> 'M[T]_(m,n)`) is used only in statements and proofs, never in the model.
* **Loops** become structural recursion/folds in the same iteration order as the code.
* **Assertions** (`assert(...)`) are preconditions and appear as hypotheses.
* **Specifications** are mathcomp's `'M[F]_(m,n)`, `*m`, `\det`, `^T`, `\sum`, or small definitions in `Spec*.v`
  independent of the model.

## 2. Files (rocq/theories)

Model files (`M_*.v`) contain definitions only, each citing file and lines. Proof files (`P_*.v`) hold lemmas.
Property files (`Props_*.v`) hold the theorems listed in MANIFEST.json, each closed by `exact`, followed by
`Print Assumptions`, and the `Example`s that show that hypotheses can be met.

## 3. Plan per property

| Prop | Model | Proof idea |
|---|---|---|
| C01, C02 | storage arrays with padding, `DoUnary/Binary/TernaryOp` SIMD and scalar path, masked reductions | lane-wise lemma on `seq`; reduction over `take dim` |
| C03-C06 | `Linearize`, `Delinearize`, `Blend`, swizzle assignment, both paths; writes outside the storage are an explicit `None` | lemma per path, index arithmetic; refutation witnesses for duplicates / mixed packing |
| C07 | `Assign` recursion, `operator\|` | induction over parts |
| C08 | up/down-cast constructors | field reasoning per lane |
| C09 | `Min`, `Max`, `Clamp`, `Saturate` | order case analysis |
| C10-C12 | `Dot`, `Length`, `LengthPrecise`, `Normalize*` over `rcfType` | bigop lemmas, Cauchy-Schwarz |
| C13 | `Cross` via swizzles and `FMTA` | `ring` |
| C14 | `CrossND` loop over minors with `Determinant` | Laplace expansion (`expand_det_row`); correctness relative to the determinant used, full for N <= 5; refuted beyond because of C29 |
| C15, C16 | Gram-Schmidt double loop | induction over the list with span invariant; refutation witness for dependent input |
| C17-C20, C27 | matrix storage as stripes, layout flag, accessors | `nth`/`set_nth` lemmas |
| C21-C26 | per-layout multiply algorithms, matrix-vector, homogeneous and affine products, elementwise ops | fold = bigop, refinement to `*m` |
| C28, C30 | closed formulas | `\det` expansion + `ring`/`field` |
| C29 | Bareiss algorithm as coded | Sylvester/Bareiss invariant under nonzero leading minors (partial); refutation for a zero leading minor |
| C31, C36 | LUP based inverse | from C34, C35 |
| C32 | triangular solvers | induction over rows |
| C33, C34 | elimination loops | loop invariant `P A = L U` |
| C35 | `Solve` | from C32-C34 |
| C37-C40 | Householder QR, LQ by flips | reflection algebra, invariant over columns |
| C41 | closed form 2x2 SVD | case analysis over `rcfType` |
| C42 | Jacobi sweeps | invariant over any number of rotations |
| C43, C44 | SVD `Solve` with bounds-checked reads | refutation for wide/tall shapes, least squares for the rest |
| C45 | de Casteljau in place | binomial induction |
| C46-C51 | geometry classes and intersections | field/order reasoning, `nra` over R |
| C52-C60 | transform builders | matrix algebra, trigonometric identities over `R` |
| C61-C68 | quaternions with layouts | `ring`/`field`, trigonometry over `R` |
| C69-C71 | character-list streams, tokeniser, printer | induction over strings |
| C72 | unrolled recursion and loop | induction |
| C73, C74 | Flocq generic format | Flocq error-free transformation theorems |
| C75 | scalar functions | `field` |
| C76 | two's complement integers with trapping division | case analysis per lane |
| C77 | sorting of the singular values | order reasoning; refutation for the two-sided iteration |
| C78 | floating point `Length`, `LengthPrecise`, `NormalizePrecise` | rounding error analysis with Flocq, induction over any order of summation |
| C79 | floating point `Sum`, `Dot`, matrix products | the same, forward error bounds |
| C80 | complex `Normalize` in floating point | the same; refutation for subnormal numbers |
| C81 | `Random` | induction over the draws |
| C82 | `common_arithmetic_type` over an abstract partial sum of types | induction over the list of types |
| C83, C84 | complex vectors, matrices, QR and LQ | the real proofs with conjugates over `R[i]` |
| C85-C87 | complex 2x2 SVD, Jacobi iterations, `Solve`, `Inverse` | unitary invariants; refutation for phases on the diagonal |
| C88 | stopping rule of the Jacobi loops | strict decrease of the error up to three columns; refutations by following a run exactly, or in verified interval arithmetic |
| C89 | triangular solvers in floating point | residual of each row by induction over the updates it receives; Oettli-Prager |
| C90 | LU and LUP in floating point | invariant of the elimination; growth bound through monotonicity of rounding |
| C91 | `Solve`, `Inverse` in floating point | the residuals of the three steps combined |
| C92, C93 | QR in floating point | one reflection as an exact reflection plus a perturbation of the column; induction over the loop; the zeroed part separately |
| C94 | QR in floating point does not overflow | every intermediate is bounded by the length of a column of the scaled matrix |
| C95 | QR and LQ `Solve`, `Inverse` in floating point | algebra of the residual over the reals, with C79, C89, C92, C93 for the parts |
| C96 | quaternion products, chains of products, rotation of vectors in floating point | each lane as a floating-point dot product (C79), Cauchy-Schwarz, multiplicativity of the length; counterexample computed |
| C97 | one-sided Jacobi SVD in floating point | every rotation is near an isometry; composition of isometries with error growth by induction over the sweeps; the loop variable decreases through finitely many numbers; counterexample computed |
| C98 | Bezier curves in floating point | the in-place loops as rows of convex combinations, error growth by induction over the rows, Pascal's rule for the Bernstein polynomials; counterexample computed |
| C99 | determinants and inverses of 2x2, 3x3 and 4x4 matrices in floating point | the straight-line code as expressions, an error calculus for products and sums relative to the permanent, cofactor identities by ring; counterexamples computed |
| C100 | lines, hyperplanes and their intersections in floating point | errors of Dot from C79, residual of the plane equation by splitting it into the roundings; counterexamples computed |
| C101 | area and centroid of a triangle in floating point | lengths from C78, Heron's product with the error calculus of C99, Lipschitz bound of Heron's polynomial, Gram determinant by the law of cosines; counterexamples computed |
| C102 | ray and triangle in floating point | errors of the triple products with the calculus of C99 and an error bound of FMTA without the hypotheses of C74, residuals of the coordinates, Cramer's rule; counterexamples computed |
| C103 | matrix of a quaternion in floating point | exact doubling, errors of two products and a sum, no overflow from magnitudes; the exact matrix is n times the rotation plus (1 - n) on the diagonal |
| C104 | quaternion of a matrix in floating point | errors of the trace, of the root by the difference of squares, and of the quotient by its residual; round trip with C103; counterexample computed |
| C105 | orthographic projection in floating point | relative errors with underflow terms through products, sums and a quotient by a difference; counterexamples computed |
| C106 | depth of a perspective projection in floating point | as C105, sign of the view exact; counterexamples computed |
| C107 | rotation about an axis in floating point | as C105; the formula of Rodrigues shown to be the rotation |

Nothing in the list is believed to be inexpressible; where only a part can be proved or the code violates the property,
the theorem is suffixed `_partial` or `_refuted` and section 5 says what is missing.

## 4. Trusted base

**Kernel.** Coq 8.16.1's kernel; every file is rebuilt and re-checked with `coqchk` by the gate. No plugin, no kernel
check switched off, no `Admitted`, no axiom of this development: every model parameter (`junk`, the order of a
reduction, `atan2`, `epsilon`, number formatting, the maximum of NaNs) is a universally quantified variable of a closed
section, and each hypothesis on such a parameter is shown to be met by an `Example` or a constructed instance.

**Axioms.** `Print Assumptions` follows each theorem. Outside of sections it lists one of three sets:

* **Set A** (`sig_forall_dec`, `sig_not_dec`, `functional_extensionality_dep`, `classic`), 142 theorems:
  C100_distance, C100_line, C100_lines, C100_missed_refuted, C100_parallel, C100_parallel_refuted, C100_plane,
  C100_ray, C100_scalar, C100_segment, C101_area, C101_area_root, C101_centroid, C101_flat_refuted, C101_heron,
  C101_nan_refuted, C101_overflow_refuted, C101_side, C102_hit, C102_interior_refuted, C102_miss, C102_small_refuted,
  C103_orthogonal, C103_rotation, C104_half_turn_refuted, C104_quaternion, C104_round_trip, C104_scalar, C105_depth,
  C105_faces, C105_far_refuted, C105_planes, C105_side, C105_size_refuted, C106_A, C106_B, C106_close_refuted,
  C106_depth, C106_overflow_refuted, C106_planes, C107_element, C107_finite, C107_length, C107_rotation,
  C73_complex_refuted, C73_dot, C73_fast2sum, C73_order_refuted, C73_step, C73_sum, C73_sum_pair, C73_sum_refuted,
  C74_cross, C74_fmta, C74_product, C74_self, C74_underflow_refuted, C74_zero, C75_constants, C78_length,
  C78_length_finite, C78_length_infinite, C78_length_nan, C78_length_precise, C78_normalize, C78_normalize_degenerate,
  C78_normalize_precise, C78_normalize_unit, C78_plain, C78_total, C79_dot, C79_exact, C79_product, C79_run, C79_sum,
  C79_sum_finite, C79_vector_matrix, C80_direction_refuted, C80_one, C80_precise, C80_real, C89_lower,
  C89_lower_backward, C89_lower_follow, C89_upper, C89_upper_backward, C89_upper_follow, C90_lu, C90_lup,
  C90_pivoting, C91_inverse, C91_inverse_follow, C91_lu_solve, C91_lu_solve_follow, C91_lup_norm, C91_lup_solve,
  C91_lup_solve_follow, C91_pivoting_needed, C92_orthonormal, C92_refuted, C92_rows, C92_square, C93_residual,
  C94_finite, C94_orthonormal, C94_residual, C95_inverse, C95_inverse_square, C95_least_squares, C95_lq, C95_lq_solve,
  C95_orthogonal, C95_solve, C96_chain, C96_chain_bound, C96_length, C96_product, C96_rotate, C96_rotate_length,
  C96_rotate_refuted, C97_columns, C97_ends, C97_growth, C97_rotation, C97_rows, C97_svd, C97_terminates,
  C97_u_refuted, C98_box_refuted, C98_curve, C98_ends, C98_growth, C98_hull, C99_det2, C99_det3, C99_det4,
  C99_inverse2, C99_inverse3, C99_inverse4, C99_sign2, C99_sign3_refuted, C99_zero_refuted.
* **Set B** (set A and `constructive_indefinite_description`), 41 theorems: C54_action, C54_compose, C54_polar,
  C54_special_orthogonal, C55_action, C55_compose, C55_coordinate_axes, C55_fixes_axis, C55_special_orthogonal,
  C55_turns, C56_matrix, C56_named, C56_quaternion, C56_sequence, C57_axis_angle, C57_coordinate_axis, C57_three_axes,
  C59_2d, C59_3d, C59_degenerate, C59_depth_order, C59_image, C59_mirror_first, C59_mirror_partial,
  C59_mirror_refuted, C59_near_far, C59_sides, C67_derivative, C67_euler, C67_exp_log, C67_length, C67_log_exp,
  C67_pow, C67_pow_nat, C67_principal, C67_zero, C68_axis_angle, C68_degenerate, C68_negative, C68_rebuild,
  C75_right_angle.
* **None** ("Closed under the global context"): the other 326 theorems of MANIFEST.json.

All of these come from Coq's standard library: `Reals` (`sig_forall_dec`, `sig_not_dec`,
`functional_extensionality_dep`) and `Logic` (`classic`, `constructive_indefinite_description`). Set B is the price of
making Coq's `R` an instance of mathcomp's `rcfType` (`RealStruct.v`, decidable equality and the intermediate value
theorem); set A is that of Flocq and `Reals`.

**Reading of the C++ text.** The model is a hand translation. Each definition cites the lines it renders. What is
assumed of the environment:

* the standard library and xsimd behave as specified; the order of `std::reduce` and `xsimd::reduce_*` is left open
  (any bracketing of any rotation), which batch sizes exist is a parameter;
* template instantiation selects the overload named in the comment; unions and `std::array` reads go to the element
  stated; functions called with the scalar type of the property (no mixed scalar types, except where stated);
* exact arithmetic files ignore rounding; `M_Float.v`, `M_FloatN.v`, `M_FloatS.v`, `M_FloatC.v`, `M_FloatLU.v`, `M_FloatQR.v`, `M_FloatQRS.v`, `M_FloatQ.v`, `M_FloatSVD.v`, `M_FloatBezier.v`, `M_FloatDet.v`, `M_FloatGeo.v`, `M_FloatTriangle.v`, `M_FloatRay.v`, `M_FloatQM.v`, `M_FloatOrtho.v` and `M_FloatRot.v` use IEEE-754 binary formats with rounding to
  nearest even, without contraction or excess precision (`M_FloatLU.v` admits contraction of `a - b * c`); `M_Int.v` uses two's complement integers.

**Modelled, file by file** (relative to `include/Mathter`):

| Header | Modelled | Not modelled |
|---|---|---|
| Common/Functional | `min`, `max`, `fma`, `conj`, `madd` as their mathematical meaning; `std::fma` in `M_Float.v` | `constexpr` and SFINAE plumbing |
| Common/MathUtil | `Fast2Sum`, `Normalize` of complex numbers | |
| Common/OptimizationUtil | `ForUnrolled`, `LoopUnroll` | |
| Common/TypeTraits, Types | layouts, orders, dimensions as parameters; `common_arithmetic_type` | remaining type-level plumbing |
| Common/DeterministicInitializer | contents of fresh objects are arbitrary | which value is used |
| Vector/SIMDUtil, OperationUtil | batch sizes, storage sizes, masked fills, unary/binary/ternary operations, both paths | alignment |
| Vector/Vector | storage, constructors, up/down-casts, element access | iterators, `data()` |
| Vector/Swizzle, Concat | all of reading, assigning, concatenation | the named accessors (`xyz` ...), which are instances |
| Vector/Arithmetic, Comparison | all operators, `FMA`, `FMTA`, division on both paths | |
| Vector/Math | all functions | |
| Matrix/Matrix, Cast, Comparison, Arithmetic, Math, Algorithm | all functions | |
| Decompositions/* | LU, LUP, QR, LQ, SVD (closed form, one-sided, two-sided), `Solve`, `Inverse`, `DeterminantLUP`, real and complex scalars | – |
| Geometry/* | all classes and all `Intersect` overloads | |
| Transforms/* | all builders, `Random` as a sequence of draws | |
| Quaternion/* | all functions and literals, both layouts | SIMD paths of the product beyond lane algebra |
| IoStream | printing and parsing of vectors, matrices and quaternions, complex elements, the stream with its error bits | locale |
| Utility | all functions and constants | |

## 5. Results and findings

`MANIFEST.json` has the theorems and a note for each property. A property is *partial* where the claim in
`properties.jsonl` is false for some input: then there is a theorem with the exact condition, and a `_refuted` theorem
with a witness. In no case is a true part of a claim left unproved.

Defects of the code that came out of the proofs:

* C03: `v.xy[i]` asserts the bound of the vector, not that of the swizzle.
* C05: assignment to a swizzle with repeated indices differs between the SIMD and the scalar path.
* C06: assigning an unpacked SIMD vector to a packed swizzle writes past the end of the array.
* C14, C29, C60: the Bareiss determinant returns 0 for an invertible matrix with a vanishing leading minor; cross
  products in six and more dimensions, and `LookAt` there, inherit it.
* C16: Gram-Schmidt divides by zero for dependent vectors.
* C32: the triangular solvers read the other triangle.
* C42: SVD of the zero matrix divides 0 by 0.
* C43: SVD `Solve` reads the singular values past their end for wide (column) or tall (row) systems.
* C48: the second end point of a segment is not part of it in line-plane intersection.
* C50: ray-triangle hits closer than epsilon, or of small triangles, are missed.
* C59: the documented mirroring rule of `Perspective` fails for the first ratio.
* C66: rotation matrices of half turns cannot be converted to quaternions (division by zero).
* C68: the comment of `Axis` names the wrong angle.
* C70: elements of a vector read from a stream are not checked: `[1,x,3]` is accepted.
* C71: a complex vector with a purely real element cannot be read back.
* C72: `ForUnrolled` with a negative step and a count above the limit runs zero iterations.
* C73: the last `Fast2Sum` of `SumCompensated` may lose the compensation; complex sums lose the error of the smaller part.
* C76: `(Vector<int,3>(1,1,1) + INT_MIN) / -1` is undefined because of the padding lane.
* C77: the two-sided SVD returns negative and unsorted singular values.
* C86: for complex matrices the two-sided SVD drops imaginary parts left on the diagonal (diag(i, 1) comes back as diag(0, 1)), and the QR branch of the one-sided SVD replaces phases by signs (diag(i, 0) does not come back).
* C92: `DecomposeQR` of a matrix with a column of subnormal numbers beside one of ordinary size returns a Q that is not
  orthogonal and a product far from the matrix.
* C96: rotating a vector by a quaternion whose squared length overflows gives the zero vector (its length is not
  computed by the scaled `LengthPrecise`).
* C97: the one-sided SVD returns a U whose columns are not orthonormal when a column is so small that its length rounds
  to zero (`Length` is not scaled, and the QR decomposition that should repair it fails as in C92).
* C99: Determinant and Inverse of small matrices have no pivoting and no test for singularity: for 1+2^-52, 1; 1, 1-2^-52 in
  double the determinant is computed as zero and every element of the inverse is infinite, though the matrix is invertible; the sign
  of a 3x3 determinant may be wrong.
* C100: Intersect compares the product of normal and direction with zero: rounding makes it report an intersection for some lines
  exactly parallel to the plane and none for some lines that meet it.
* C101: Triangle::Area multiplies the four factors of Heron's formula without protection: NaN for some triples of points on a line
  (a factor rounds below zero), 0 for some thin triangles, infinity from about 2^255 on in double although the area is representable.
* C102: Intersect of a ray and a triangle compares the determinant with epsilon whatever the size of the triangle: triangles with edges
  below about 2^-26 (double) are never hit by a unit direction. Without a tolerance at the edges, some rays through the inside are missed.
* C104: MatrixToQuaternion divides by the scalar part, whose error grows like 1/c near half turns: a quaternion of length 1 up to rounding
  with scalar part 2^-30 is converted to a matrix and back to scalar part 0 and infinite and NaN vector parts (double).
* C105: Orthographic computes the centre of the box from max + min: the box [2^53, 2^53 + 2] is mapped to [0, 2] instead of [-1, 1]. If
  max - min overflows, the scale and the offset are 0 and nothing in the matrix shows it.
* C106: Perspective computes far * near before dividing by far - near, which overflows for planes beyond about 2^512 (double).

* C80: the complex `Normalize` returns 1 for every subnormal number whose reciprocal overflows.
* C82: `common_arithmetic_type` tests neighbouring types only: `complex<float>, float, double` is "valid" with type
  `void`, and `float, int, complex<float>` is "invalid" although the sum has a type.
* C88: the Jacobi loops stop as soon as the largest error of a sweep is not smaller than that of the sweep before, converged or
  not: the two-sided SVD of [[0,4,3],[0,0,0],[-5,10,0]] misses the matrix by more than 9/50 in the sum of squares;
  the one-sided SVD of [[-2,-3,0,0],[2,2,-3,0],[2,-3,0,3],[0,-2,1,3]] returns U with two columns whose scalar product is above 9/20.

**Mutation tests.** `seeded/LOG.jsonl` records every seeded error: the definition, the edit, the claim it breaks, the
theorems that failed and those tightened afterwards. Edits that no theorem noticed led to new or stronger theorems
(listed under "tightened"); edits that are semantically neutral are marked as such.
