{"id": "C01", "title": "Packing never changes an elementwise vector result", "statement": "For every elementwise vector operation (+, -, *, /, unary minus, MultiplyAdd, FMA, Min, Max, Clamp, Abs, ...) and all operands, element i of the result is the scalar operation applied to element i of the operands, and is the same value whether the operands are packed or SIMD-padded and whatever bytes happen to be in the padding lanes. In particular padding lanes never cause an integer division by zero.", "quantifier": "all dimensions, all element values, all padding contents, both packing modes, all elementwise operations", "why_tests_cant": "The padding content depends on the history of the object (default construction, broadcast construction, earlier arithmetic), so it ranges over all bit patterns and all dimensions; tests only see the few contents their own code produces.", "anchors": ["include/Mathter/Vector/OperationUtil.hpp: DoUnaryOp, DoBinaryOp, DoTernaryOp", "include/Mathter/Vector/Arithmetic.hpp: divides_safe, operators, MultiplyAdd, FMA", "include/Mathter/Vector/SIMDUtil.hpp: GetBatchSize, GetStorageSize"]}
{"id": "C02", "title": "Reductions and comparisons ignore padding lanes", "statement": "Sum, Dot, Min, Max, ScaleElements, Length and == / != on vectors depend only on the Dim logical elements: Sum is the sum of the Dim elements, Min/Max is attained by and bounds the Dim elements, and two vectors compare equal exactly when all Dim elements are equal, for both packing modes and any padding content.", "quantifier": "all dimensions, element values, padding contents and packing modes", "why_tests_cant": "A stale value in a padding lane is only visible if a reduction forgets to mask it; whether it is masked has to be known for every dimension and every padding content.", "anchors": ["include/Mathter/Vector/OperationUtil.hpp: FillMasked, FillMaskedWithFirst", "include/Mathter/Vector/Math.hpp: Sum, Dot, Min, Max, ScaleElements", "include/Mathter/Vector/Comparison.hpp"]}
{"id": "C03", "title": "Reading a swizzle selects exactly the named elements", "statement": "Converting a swizzle with index list (i1..ik) of a vector v to a vector yields the k-vector whose n-th element is v[in], for any index list with repetitions allowed, shorter or longer than v, on both the SIMD and the scalar path.", "quantifier": "all source dimensions, all index lists with in-range entries, all values, both packing modes", "why_tests_cant": "There are dim^k index lists per size and two code paths; unit tests exercise a handful of names.", "anchors": ["include/Mathter/Vector/Swizzle.hpp: Linearize, Swizzle::operator[]", "include/Mathter/Vector/Vector.hpp: Vector(const Swizzle&)"]}
{"id": "C04", "title": "Writing a swizzle updates exactly the named elements", "statement": "Assigning a vector w to a swizzle of v with pairwise distinct indices (i1..ik) sets v[in] to w[n] for every n and leaves every other element of v unchanged; reading the swizzle back gives w.", "quantifier": "all dimensions, all lists of distinct in-range indices, all values, both packing modes", "why_tests_cant": "The frame condition (all other elements untouched) and the SIMD gather/blend mask computation must be right for each of the exponentially many index lists.", "anchors": ["include/Mathter/Vector/Swizzle.hpp: Delinearize, Blend, generators, operator=(Vector)"]}
{"id": "C05", "title": "SIMD and scalar swizzle assignment agree", "statement": "Assignment through a swizzle gives the same resulting vector whether the vector is packed (scalar path) or SIMD (shuffle and blend path), for every index list the library accepts.", "quantifier": "all index lists including lists with repeated indices, all values", "why_tests_cant": "Requires comparing two algorithms over all index lists; agreement on the distinct-index names used in tests says nothing about repeated indices.", "anchors": ["include/Mathter/Vector/Swizzle.hpp: Delinearize, DelinearizationIndices, BlendMask"]}
{"id": "C06", "title": "Swizzle-to-swizzle assignment is a simultaneous permutation", "statement": "v.idx1 = w.idx2 sets v[idx1[n]] to the old value of w[idx2[n]] for each n, also when v and w are the same vector (v.xy = v.yx swaps), writes nothing outside the storage of v, and leaves all other elements unchanged.", "quantifier": "all pairs of index lists of equal length (left list distinct), all values, all aliasing and packing combinations", "why_tests_cant": "Aliasing and mixed packing form a product of configurations; memory writes past the storage are invisible to value-based tests.", "anchors": ["include/Mathter/Vector/Swizzle.hpp: operator=(Swizzle), operator=(scalar)"]}
{"id": "C07", "title": "Concatenating constructors and operator| concatenate", "statement": "Constructing a vector from any sequence of scalars, vectors and swizzles, or with operator|, yields the elements of the parts in order with nothing dropped, duplicated or reordered; concatenation is associative.", "quantifier": "all sequences of parts with any sizes", "why_tests_cant": "The number and sizes of parts are unbounded; the offset bookkeeping must hold for every split.", "anchors": ["include/Mathter/Vector/Vector.hpp: Assign, concatenating constructor", "include/Mathter/Vector/Concat.hpp: operator|"]}
{"id": "C08", "title": "Homogeneous up-cast and perspective down-cast are inverse", "statement": "Vector<Dim+1>(v) appends 1; Vector<Dim>(h) divides the first Dim elements by the last; the down-cast of the up-cast of v is v, and scaling h by any nonzero factor does not change its down-cast.", "quantifier": "all dimensions, all v, all h with nonzero last element, all nonzero factors", "why_tests_cant": "Scale invariance is a statement about all scale factors and all points.", "anchors": ["include/Mathter/Vector/Vector.hpp: homogeneous upcast/downcast constructors"]}
{"id": "C09", "title": "Clamp and Saturate stay within bounds and are idempotent", "statement": "Clamp(v, lo, hi) with lo <= hi returns elements inside [lo, hi], equals v wherever v is already inside, is idempotent and monotone; Saturate is Clamp to [0,1].", "quantifier": "all values and all bounds lo <= hi, all dimensions", "why_tests_cant": "Order laws over all inputs including the boundary points.", "anchors": ["include/Mathter/Vector/Math.hpp: Clamp, Saturate, Min, Max", "include/Mathter/Utility.hpp: Clamp, Saturate"]}
{"id": "C10", "title": "Dot, Length and Distance obey the inner product laws", "statement": "Dot is bilinear, symmetric and positive definite; Length is non-negative, zero only for the zero vector, absolutely homogeneous and satisfies Cauchy-Schwarz and the triangle inequality; Distance is a metric.", "quantifier": "all real vectors of all dimensions and all scalars (exact arithmetic)", "why_tests_cant": "Inequalities over all vectors in all dimensions.", "anchors": ["include/Mathter/Vector/Math.hpp: Dot, LengthSquared, Length, Distance"]}
{"id": "C11", "title": "LengthPrecise equals Length", "statement": "LengthPrecise(v) is the Euclidean length of v for every v including the zero vector: the internal rescaling by the largest element cancels exactly, and no division by zero takes place.", "quantifier": "all vectors of all dimensions (exact arithmetic), all positive lower clamp values", "why_tests_cant": "The rescaling has a special case at tiny and huge magnitudes; equality must hold for all magnitudes.", "anchors": ["include/Mathter/Vector/Math.hpp: LengthPrecise, ScaleElements"]}
{"id": "C12", "title": "Normalize gives the unit vector of the same direction", "statement": "For every nonzero v, Normalize(v) and NormalizePrecise(v) have length one and are a positive multiple of v; NormalizePrecise of the zero vector returns the given unit fallback (default first basis vector), so NormalizePrecise always has length one.", "quantifier": "all vectors of all dimensions, all unit fallbacks", "why_tests_cant": "Universally quantified over vectors; the degenerate branch must be taken exactly for the zero vector.", "anchors": ["include/Mathter/Vector/Math.hpp: Normalize, NormalizePrecise"]}
{"id": "C13", "title": "Cross product in 3D and 2D", "statement": "Cross(a,b) in 3D is orthogonal to a and b, antisymmetric, bilinear, satisfies |a x b|^2 = |a|^2|b|^2 - (a.b)^2 and Dot(Cross(a,b),c) = det[a;b;c] (right-handed); 2D Cross(a) is a rotated by +90 degrees.", "quantifier": "all vectors over any commutative ring", "why_tests_cant": "Polynomial identities over all inputs.", "anchors": ["include/Mathter/Vector/Math.hpp: Cross, CrossND", "include/Mathter/Vector/Arithmetic.hpp: FMTA"]}
{"id": "C14", "title": "N-dimensional cross product is orthogonal to all its arguments", "statement": "For N >= 2 and N-1 vectors in N dimensions, Cross returns the vector c with Dot(c, x) = det of the matrix with rows arguments and x for every x up to the documented sign; hence c is orthogonal to every argument.", "quantifier": "all dimensions, all argument vectors", "why_tests_cant": "Dimension is unbounded, and for large dimensions the minors go through a different determinant algorithm.", "anchors": ["include/Mathter/Vector/Math.hpp: CrossND, Cross", "include/Mathter/Matrix/Math.hpp: Determinant, BareissAlgorithm"]}
{"id": "C15", "title": "Gram-Schmidt produces an orthogonal basis with the same span", "statement": "GramSchmidtOrthogonalize of linearly independent vectors returns pairwise orthogonal nonzero vectors whose first k members span the same space as the first k inputs, for every k; no division by zero happens.", "quantifier": "any number of linearly independent vectors in any dimension", "why_tests_cant": "Inductive property over the number of vectors.", "anchors": ["include/Mathter/Vector/Math.hpp: GramSchmidtOrthogonalize"]}
{"id": "C16", "title": "Gram-Schmidt is safe on every input", "statement": "GramSchmidtOrthogonalize never divides by zero, including when the inputs are linearly dependent or contain the zero vector.", "quantifier": "all lists of vectors", "why_tests_cant": "Dependent inputs are a measure-zero set not hit by sampling.", "anchors": ["include/Mathter/Vector/Math.hpp: GramSchmidtOrthogonalize"]}
{"id": "C17", "title": "Element construction is row-major whatever the layout", "statement": "A matrix constructed from R*C scalars has the (i*C+j)-th scalar at (i,j), for either memory layout, order and packing.", "quantifier": "all shapes, layouts, values", "why_tests_cant": "All shapes and index pairs.", "anchors": ["include/Mathter/Matrix/Matrix.hpp: Matrix(elements...), Assign, operator()"]}
{"id": "C18", "title": "Element access is a faithful store", "statement": "After m(i,j)=x, m(i,j) reads x and every other element is unchanged; Row/Column getters return the elements of that row/column and the setters replace exactly that row/column, for both layouts.", "quantifier": "all shapes, layouts, in-range indices, values, and all histories of such writes", "why_tests_cant": "Frame conditions over arbitrary sequences of writes.", "anchors": ["include/Mathter/Matrix/Matrix.hpp: operator(), Row, Column"]}
{"id": "C19", "title": "Matrix conversion preserves the transform and round-trips", "statement": "Converting between layouts keeps every element; converting between PRECEDE_VECTOR and FOLLOW_VECTOR transposes, so applying the converted matrix to a vector gives the same vector; converting there and back is the identity.", "quantifier": "all shapes, all four order/layout combinations on each side, all values and vectors", "why_tests_cant": "Product of configurations times all values.", "anchors": ["include/Mathter/Matrix/Matrix.hpp: converting constructors", "include/Mathter/Matrix/Cast.hpp: FlipLayoutAndOrder, FlipOrder, SetOrder"]}
{"id": "C20", "title": "Extract and Insert are inverse and framed", "statement": "Extract<R,C>(r,c) returns the submatrix at (r,c); Insert writes exactly that window; Extract after Insert returns what was inserted and Insert of what was extracted changes nothing.", "quantifier": "all shapes, window sizes and in-range offsets, all layout pairs", "why_tests_cant": "All windows in all shapes.", "anchors": ["include/Mathter/Matrix/Matrix.hpp: Extract, Insert"]}
{"id": "C21", "title": "Matrix product is the mathematical product for every layout pair", "statement": "For matrices of shapes RxK and KxC and any of the layout combinations, (A*B)(i,j) = sum_k A(i,k)B(k,j), independent of layout and packing.", "quantifier": "all shapes R,K,C, all layouts, all values over any commutative ring", "why_tests_cant": "Separate algorithms exist per layout pair; equality for all shapes needs induction.", "anchors": ["include/Mathter/Matrix/Arithmetic.hpp: impl::Multiply, operator*"]}
{"id": "C22", "title": "Matrix-vector product agrees with the matrix product in both orders", "statement": "M*v (PRECEDE) and v*M (FOLLOW) are the mathematical products for both layouts; v*M equals converting M to the other order and multiplying from the other side.", "quantifier": "all shapes, layouts, values", "why_tests_cant": "All shapes and separate code paths per layout.", "anchors": ["include/Mathter/Matrix/Arithmetic.hpp: vector x matrix operators"]}
{"id": "C23", "title": "Composition of transforms", "statement": "(A*B)*v = A*(B*v) for PRECEDE_VECTOR and v*(A*B) = (v*A)*B for FOLLOW_VECTOR, so M3*M2*M1 applies M1 first in PRECEDE and M1*M2*M3 applies M1 first in FOLLOW; composing then converting order equals converting then composing in reverse.", "quantifier": "all chains of matrices of any length, all layouts, all vectors", "why_tests_cant": "Chains of arbitrary length over all values.", "anchors": ["include/Mathter/Matrix/Arithmetic.hpp: operator*", "include/Mathter/Matrix/Matrix.hpp: converting constructor"]}
{"id": "C24", "title": "Homogeneous and affine point transformation", "statement": "Multiplying a Dim-vector by a (Dim+1)x(Dim+1) matrix equals augmenting with 1, multiplying, and perspective dividing; multiplying by the affine Dim x (Dim+1) matrix equals linear part plus translation, and agrees with the square matrix padded with (0..0,1).", "quantifier": "all dimensions, layouts, both orders, all points whose image has nonzero homogeneous coordinate", "why_tests_cant": "All dimensions, points and matrices.", "anchors": ["include/Mathter/Matrix/Arithmetic.hpp: homogeneous and affine vector x matrix operators"]}
{"id": "C25", "title": "Elementwise matrix arithmetic and scalar operations", "statement": "A+B, A-B, -A, s*A, A*s, A/s and the compound assignments act on each element (i,j) independently for every mixture of layouts; the usual module laws hold and compound assignment equals the binary operator.", "quantifier": "all shapes, layout pairs, values", "why_tests_cant": "Mixed-layout code paths for all shapes.", "anchors": ["include/Mathter/Matrix/Arithmetic.hpp: ElementwiseOp, ScalarOp, compound operators"]}
{"id": "C26", "title": "Transpose and matrix functions are layout independent", "statement": "Transpose(A)(j,i)=A(i,j), it is involutive, (A*B)^T = B^T A^T; Trace, Sum, Norm, Min, Max depend only on the elements, not on layout; Norm(A)^2 = trace(A^T A).", "quantifier": "all shapes, layouts, values", "why_tests_cant": "All shapes and configurations.", "anchors": ["include/Mathter/Matrix/Math.hpp: Transpose, Trace, Sum, Norm, Min, Max"]}
{"id": "C27", "title": "Matrix equality is elementwise across layouts", "statement": "A == B holds exactly when all elements are equal, whatever the two layouts; it is an equivalence relation and A != B is its negation.", "quantifier": "all shapes, layouts, values", "why_tests_cant": "All values.", "anchors": ["include/Mathter/Matrix/Comparison.hpp"]}
{"id": "C28", "title": "Determinant of 2x2, 3x3 and 4x4 matrices", "statement": "Determinant returns the mathematical determinant (Leibniz sum) for sizes 2, 3 and 4; hence it is multiplicative, invariant under transposition and layout, and zero exactly for singular matrices.", "quantifier": "all matrices over any commutative ring", "why_tests_cant": "Polynomial identity in up to 16 variables.", "anchors": ["include/Mathter/Matrix/Math.hpp: Determinant (2x2, 3x3, 4x4)"]}
{"id": "C29", "title": "Determinant of larger matrices", "statement": "Determinant returns the mathematical determinant for every square matrix of size at least 5.", "quantifier": "all sizes >= 5, all matrices over a field", "why_tests_cant": "Zero pivots are measure-zero and size is unbounded; random tests never meet a zero leading minor.", "anchors": ["include/Mathter/Matrix/Math.hpp: BareissAlgorithm, Determinant"]}
{"id": "C30", "title": "Inverse of 2x2, 3x3 and 4x4 matrices", "statement": "When the determinant is nonzero, Inverse(A)*A = A*Inverse(A) = I for sizes 2, 3, 4; when it is zero the code divides by zero.", "quantifier": "all invertible matrices over a field", "why_tests_cant": "Rational identities in up to 16 variables.", "anchors": ["include/Mathter/Matrix/Math.hpp: Inverse (2x2, 3x3, 4x4)"]}
{"id": "C31", "title": "Inverse of larger matrices", "statement": "For every invertible square matrix of any size the general Inverse returns the two-sided inverse, in both orders and layouts.", "quantifier": "all sizes, all invertible matrices over an ordered field", "why_tests_cant": "Depends on pivoting at every step for every size.", "anchors": ["include/Mathter/Matrix/Math.hpp: Inverse (general)", "include/Mathter/Decompositions/DecomposeLU.hpp: DecomposeLUP, Inverse"]}
{"id": "C32", "title": "Triangular solvers solve the system", "statement": "SolveUpperTriangular(A,b) / SolveLowerTriangular(A,b) return x with A x = b (PRECEDE) or x A = b (FOLLOW) for triangular A with nonzero diagonal, ignoring the other triangle, for vector and matrix right-hand sides.", "quantifier": "all sizes, all triangular matrices with nonzero diagonal, all right-hand sides, both orders and layouts", "why_tests_cant": "Back substitution correctness is inductive in the size.", "anchors": ["include/Mathter/Matrix/Algorithm.hpp: SolveUpperTriangular, SolveLowerTriangular"]}
{"id": "C33", "title": "LU decomposition", "statement": "If no pivot vanishes, DecomposeLU returns L unit lower triangular and U upper triangular with L*U = A; it divides by zero exactly when a leading principal minor of size < n vanishes.", "quantifier": "all sizes, all square matrices over a field", "why_tests_cant": "Inductive elimination invariant over all sizes.", "anchors": ["include/Mathter/Decompositions/DecomposeLU.hpp: DecomposeLU"]}
{"id": "C34", "title": "LUP decomposition exists for every square matrix", "statement": "DecomposeLUP returns, for every square matrix including singular ones, without dividing by zero: a permutation P, L unit lower triangular with entries of magnitude at most one, U upper triangular, with row i of L*U equal to row P[i] of A.", "quantifier": "all sizes, all square matrices over an ordered field", "why_tests_cant": "Pivoting decisions and row swaps in three objects must stay consistent for every input and size.", "anchors": ["include/Mathter/Decompositions/DecomposeLU.hpp: DecomposeLUP, DecompositionLUP"]}
{"id": "C35", "title": "LU and LUP Solve return the solution", "statement": "For invertible A, DecomposeLUP(A).Solve(b) is the unique x with A x = b (PRECEDE) or x A = b (FOLLOW); Solve with a matrix right-hand side solves every column/row; DecomposeLU likewise when it exists.", "quantifier": "all sizes, all invertible matrices, all right-hand sides, both orders", "why_tests_cant": "Needs the permutation to be applied in the right direction for every permutation (an involutive test permutation hides a wrong direction).", "anchors": ["include/Mathter/Decompositions/DecomposeLU.hpp: Solve, Permute, InversePermute"]}
{"id": "C36", "title": "LU and LUP Inverse", "statement": "DecomposeLU(A).Inverse() and DecomposeLUP(A).Inverse() are the two-sided inverse for every invertible A, in both orders.", "quantifier": "all sizes, all invertible matrices, both orders", "why_tests_cant": "Same as Solve; permutation direction for all permutations.", "anchors": ["include/Mathter/Decompositions/DecomposeLU.hpp: Inverse, ExpandPermutation"]}
{"id": "C37", "title": "QR decomposition of every matrix", "statement": "DecomposeQR returns Q with orthonormal columns and R upper triangular with Q*R = A for every matrix with Rows >= Columns including rank deficient and zero matrices, without dividing by zero or taking the root of a negative number.", "quantifier": "all shapes, all real matrices (exact arithmetic)", "why_tests_cant": "Householder invariant over all columns, degenerate columns included.", "anchors": ["include/Mathter/Decompositions/DecomposeQR.hpp: DecomposeQR, HouseholderReflection"]}
{"id": "C38", "title": "QR Solve is least squares", "statement": "For A with full column rank DecomposeQR(A).Solve(b) minimises |Ax-b| over all x (normal equations hold); for square invertible A it is the exact solution.", "quantifier": "all shapes, all full-rank A, all b, all competing x", "why_tests_cant": "Optimality against every competitor vector.", "anchors": ["include/Mathter/Decompositions/DecomposeQR.hpp: Solve"]}
{"id": "C39", "title": "QR Inverse is the Moore-Penrose pseudoinverse", "statement": "For A with full column rank DecomposeQR(A).Inverse() satisfies the four Penrose equations, and is the inverse when A is square.", "quantifier": "all shapes and full-rank matrices", "why_tests_cant": "All matrices.", "anchors": ["include/Mathter/Decompositions/DecomposeQR.hpp: Inverse"]}
{"id": "C40", "title": "LQ decomposition and solve", "statement": "DecomposeLQ returns L lower triangular and Q with orthonormal rows with L*Q = A for every matrix with Rows <= Columns; it is the transpose of the QR decomposition of the transpose.", "quantifier": "all shapes and matrices", "why_tests_cant": "All shapes and matrices.", "anchors": ["include/Mathter/Decompositions/DecomposeQR.hpp: DecomposeLQ, DecompositionLQ"]}
{"id": "C41", "title": "SVD of a 2x2 matrix", "statement": "The closed-form 2x2 SVD returns orthogonal U and V and diagonal S with U*S*V = A for every real 2x2 matrix.", "quantifier": "all real 2x2 matrices", "why_tests_cant": "Case analysis on degenerate/symmetric/scaled-orthogonal matrices, a continuum with branches.", "anchors": ["include/Mathter/Decompositions/DecomposeSVD.hpp: DecomposeSVD2x2 and helpers"]}
{"id": "C42", "title": "Jacobi SVD keeps the product and orthogonality at every step", "statement": "At every step of the one- and two-sided Jacobi iterations U and V stay orthogonal and U*S*V stays equal to the (scaled) input, so whenever the iteration stops with a diagonal S the result is a singular value decomposition of A, however many sweeps ran.", "quantifier": "all matrices, any number of sweeps, any convergence tolerance", "why_tests_cant": "Invariant over unbounded iteration counts.", "anchors": ["include/Mathter/Decompositions/DecomposeSVD.hpp: DecomposeSVD2Sided, DecomposeSVD1Sided, GivensRotateLeft, GivensRotateRight"]}
{"id": "C43", "title": "SVD Solve never leaves the bounds of its arrays", "statement": "DecompositionSVD::Solve and Inverse access only existing singular values for every shape of matrix.", "quantifier": "all shapes, both orders", "why_tests_cant": "Out-of-bounds reads are silent and depend on shape.", "anchors": ["include/Mathter/Decompositions/DecomposeSVD.hpp: DecompositionSVD::Solve, Inverse"]}
{"id": "C44", "title": "SVD Solve is least squares", "statement": "With a valid SVD of full-rank A with Rows >= Columns, Solve(b) (PRECEDE) minimises |Ax-b| and Inverse is the pseudoinverse.", "quantifier": "all shapes, all A, all b", "why_tests_cant": "Optimality against every competitor.", "anchors": ["include/Mathter/Decompositions/DecomposeSVD.hpp: Solve, Inverse"]}
{"id": "C45", "title": "Bezier curves are Bernstein polynomials", "statement": "BezierCurve::operator()(t) equals the Bernstein form sum_k C(n,k) t^k (1-t)^(n-k) p_k; it starts at the first and ends at the last control point, commutes with affine maps, and for t in [0,1] stays within the bounding interval of the control points in every coordinate.", "quantifier": "all degrees, all control points, all parameters", "why_tests_cant": "Degree is unbounded; inductive identity.", "anchors": ["include/Mathter/Geometry/BezierCurve.hpp: BezierCurve::operator(), PointAt"]}
{"id": "C46", "title": "Lines, rays, segments and hyperplanes convert consistently", "statement": "Line/Ray PointAt are affine parametrisations; a segment's Interpol(0), Interpol(1) are its end points and InterpolOf inverts Interpol; Through passes through both points; a 2D line converted to a hyperplane contains exactly the points of the line and back; Hyperplane::Distance is zero exactly on the plane.", "quantifier": "all dimensions, points, directions and parameters", "why_tests_cant": "All inputs.", "anchors": ["include/Mathter/Geometry/Line.hpp", "include/Mathter/Geometry/LineSegment.hpp", "include/Mathter/Geometry/Ray.hpp", "include/Mathter/Geometry/Hyperplane.hpp"]}
{"id": "C47", "title": "Plane-line intersection is sound and complete", "statement": "Intersect(plane, line) returns a point exactly when the line is not parallel to the plane, and the point lies on both; it is the only common point.", "quantifier": "all dimensions, all planes and lines", "why_tests_cant": "Soundness and uniqueness over all inputs.", "anchors": ["include/Mathter/Geometry/Intersection.hpp: Intersect(Hyperplane, Line)"]}
{"id": "C48", "title": "Plane-segment and plane-ray intersection", "statement": "Intersect(plane, segment) (ray) returns a point exactly when the plane meets the closed segment (ray) in a single point, and returns that point.", "quantifier": "all planes, segments (end points included) and rays", "why_tests_cant": "Boundary end points are measure-zero and never hit by random tests.", "anchors": ["include/Mathter/Geometry/Intersection.hpp: Intersect(Hyperplane, LineSegment), Intersect(Hyperplane, Ray)"]}
{"id": "C49", "title": "Line-line and segment-segment intersection in 2D", "statement": "Intersect(line, line) and Intersect(segment, segment) return the unique common point when the carriers are not parallel and (for segments) the point lies on both closed segments; nothing is returned for non-parallel carriers whose common point lies outside.", "quantifier": "all lines and segments in the plane", "why_tests_cant": "All configurations, including touching end points.", "anchors": ["include/Mathter/Geometry/Intersection.hpp: Intersect(Line, Line), Intersect(LineSegment, LineSegment)"]}
{"id": "C50", "title": "Ray-triangle intersection", "statement": "Intersect(ray, triangle) returns a point exactly when the ray (t >= 0) meets the closed triangle in one point for non-parallel rays, the returned point lies on both, and IntersectBarycentric-style interpolation coordinates are the barycentric coordinates of that point.", "quantifier": "all rays and non-degenerate triangles", "why_tests_cant": "Boundary cases (edges, vertices, grazing) over a continuum.", "anchors": ["include/Mathter/Geometry/Intersection.hpp: Intersect(Ray, Triangle3D)"]}
{"id": "C51", "title": "Triangle area and centroid", "statement": "Area (Heron) equals half the length of the cross product of two edges for every triangle including degenerate ones, the radicand is never negative; Centroid is the mean of the corners.", "quantifier": "all triangles in 2D/3D", "why_tests_cant": "Identity and non-negativity over all triples.", "anchors": ["include/Mathter/Geometry/Triangle.hpp: Area, Centroid"]}
{"id": "C52", "title": "Identity, Scale and Translation transforms", "statement": "Applying Identity, Scale(s), Translation(t) to a point p gives p, the elementwise product s*p, and p+t, for every matrix shape the builders convert to, in both orders and layouts; Translations compose additively, scales multiplicatively.", "quantifier": "all dimensions, all points, all parameters", "why_tests_cant": "All dimensions and shapes.", "anchors": ["include/Mathter/Transforms/IdentityBuilder.hpp", "include/Mathter/Transforms/ScaleBuilder.hpp", "include/Mathter/Transforms/TranslationBuilder.hpp"]}
{"id": "C53", "title": "Shear transforms", "statement": "The axis-aligned and the general shear add the documented multiple of one axis to another, preserve volume (determinant one) and are inverted by the opposite shear.", "quantifier": "all dimensions, axes, directions, amounts", "why_tests_cant": "All dimensions and axis pairs.", "anchors": ["include/Mathter/Transforms/ShearBuilder.hpp"]}
{"id": "C54", "title": "2D rotation", "statement": "Rotation(a) rotates counter-clockwise by a in both orders: the matrix is orthogonal with determinant one, angles add under composition, Rotation(0) is the identity and Rotation(-a) the inverse.", "quantifier": "all real angles and points", "why_tests_cant": "Continuum of angles.", "anchors": ["include/Mathter/Transforms/Rotation2DBuilder.hpp"]}
{"id": "C55", "title": "3D axis rotations", "statement": "RotationX/Y/Z and RotationAxisAngle(axis, a) with unit axis give matrices in SO(3) that fix the axis, turn orthogonal vectors by a counter-clockwise around the axis, and angles add; RotationX/Y/Z are the axis-angle rotations about the basis vectors.", "quantifier": "all unit axes and real angles", "why_tests_cant": "Continuum of axes and angles.", "anchors": ["include/Mathter/Transforms/Rotation3DBuilder.hpp: single axis, axis-angle"]}
{"id": "C56", "title": "Composite 3D rotations", "statement": "RotationAxis3<A,B,C>(a,b,c), RotationEuler and RotationRPY equal the composition of the three single-axis rotations in the documented sequence, in both matrix orders and as quaternion.", "quantifier": "all axis triples and angles, both orders, matrices and quaternions", "why_tests_cant": "27 axis triples times a continuum of angles times targets.", "anchors": ["include/Mathter/Transforms/Rotation3DBuilder.hpp: RotationAxis3, RotationEuler, RotationRPY"]}
{"id": "C57", "title": "Rotation matrix and quaternion of the same builder agree", "statement": "For every rotation builder, converting to a quaternion and applying it to a vector gives the same vector as converting to a matrix and applying that.", "quantifier": "all builders, angles, unit axes, vectors", "why_tests_cant": "Continuum of inputs across two representations.", "anchors": ["include/Mathter/Transforms/Rotation3DBuilder.hpp", "include/Mathter/Quaternion/RotationArithmetic.hpp"]}
{"id": "C58", "title": "Orthographic projection maps the box to the NDC box", "statement": "Orthographic(min,max,near,far) maps the axis-aligned box corner min to (-1,..,-1,near) and max to (1,..,1,far) and is affine in between, in any dimension and both orders.", "quantifier": "all boxes with nonzero extents, all dimensions, all NDC bounds", "why_tests_cant": "All dimensions and boxes.", "anchors": ["include/Mathter/Transforms/OrthographicBuilder.hpp"]}
{"id": "C59", "title": "Perspective projection maps the frustum to the NDC box", "statement": "Perspective maps points of the near plane to NDC depth near and of the far plane to NDC depth far, preserves depth order in between, and maps the frustum's side planes to +-1; a negative field of view or ratio mirrors the image as documented.", "quantifier": "all planes 0 < near < far or both negative, all fields of view, all ratios including negative ones", "why_tests_cant": "Rational map over continuum; the sign conventions cannot be sampled exhaustively.", "anchors": ["include/Mathter/Transforms/PerspectiveBuilder.hpp"]}
{"id": "C60", "title": "View transform", "statement": "LookAt(eye, target, bases, flips) maps eye to the origin, target onto the (possibly flipped) last axis at distance |target-eye|, preserves distances, and the given basis vector to the half plane of its axis.", "quantifier": "all eye/target positions and independent basis vectors, 2D, 3D and N dimensions, both orders", "why_tests_cant": "Continuum of inputs and dimensions.", "anchors": ["include/Mathter/Transforms/ViewBuilder.hpp"]}
{"id": "C61", "title": "Quaternion multiplication is the Hamilton product", "statement": "Multiplication satisfies i^2=j^2=k^2=ijk=-1 extended bilinearly; it is associative, distributive, has unit 1, and |pq|^2=|p|^2|q|^2; results do not depend on the storage layouts of the operands.", "quantifier": "all quaternions over a commutative ring, all layout pairs", "why_tests_cant": "Polynomial identities in up to 12 variables and all layouts.", "anchors": ["include/Mathter/Quaternion/Arithmetic.hpp: impl::Multiply, operators"]}
{"id": "C62", "title": "Quaternion layout is unobservable", "statement": "Construction, element access, conversion, comparison, arithmetic with quaternions and scalars, Conj, Inverse and Length yield the same scalar and vector parts for SCALAR_FIRST and VECTOR_FIRST storage; converting layouts round-trips.", "quantifier": "all quaternions, both layouts in each operand position", "why_tests_cant": "All layout combinations of all operations.", "anchors": ["include/Mathter/Quaternion/Quaternion.hpp", "include/Mathter/Quaternion/Arithmetic.hpp", "include/Mathter/Quaternion/Math.hpp", "include/Mathter/Quaternion/Comparison.hpp"]}
{"id": "C63", "title": "Quaternion inverse and conjugate", "statement": "q*Inverse(q) = Inverse(q)*q = 1 for every nonzero q, Conj is an anti-automorphism, q*Conj(q) = |q|^2, Inverse equals Conj for unit quaternions.", "quantifier": "all nonzero quaternions", "why_tests_cant": "All quaternions.", "anchors": ["include/Mathter/Quaternion/Math.hpp: Conj, Inverse, LengthSquared"]}
{"id": "C64", "title": "Quaternion rotation of vectors", "statement": "For every nonzero q, v -> q(v) is linear, preserves lengths, dot and cross products, does not change when q is scaled by a nonzero real, and (p*q)(v) = p(q(v)).", "quantifier": "all nonzero quaternions and all vectors", "why_tests_cant": "Rational identities over all inputs.", "anchors": ["include/Mathter/Quaternion/RotationArithmetic.hpp: Quaternion::operator()"]}
{"id": "C65", "title": "Quaternion to matrix conversion", "statement": "For unit q the 3x3, 3x4, 4x3 and 4x4 matrices converted from q rotate every vector exactly as q(v) does, have determinant one and orthonormal columns, in both orders; conversion turns products into products.", "quantifier": "all unit quaternions, shapes, orders, layouts", "why_tests_cant": "All unit quaternions and shapes.", "anchors": ["include/Mathter/Quaternion/Quaternion.hpp: impl::QuaternionToMatrix, operator Matrix"]}
{"id": "C66", "title": "Matrix to quaternion conversion", "statement": "Converting any rotation matrix in SO(3) to a quaternion gives a unit quaternion representing the same rotation.", "quantifier": "all rotation matrices", "why_tests_cant": "Half-turn rotations form a measure-zero set that random tests never hit.", "anchors": ["include/Mathter/Quaternion/Quaternion.hpp: impl::MatrixToQuaternion"]}
{"id": "C67", "title": "Quaternion Exp, Log and Pow", "statement": "Exp(Log(q)) = q for every nonzero q, |Exp(q)| = e^s, Log(Exp(q)) = q when the vector part is shorter than pi, Pow(q,1) = q, Pow(q,a+b)=Pow(q,a)*Pow(q,b).", "quantifier": "all nonzero quaternions, all real exponents", "why_tests_cant": "Transcendental identities over a continuum with a degenerate real-axis case.", "anchors": ["include/Mathter/Quaternion/Math.hpp: Exp, Log, Pow"]}
{"id": "C68", "title": "Quaternion axis and angle", "statement": "For a quaternion built by RotationAxisAngle(axis, angle) with unit axis and 0 < angle < 2pi, Axis returns the axis and Angle the angle; for any unit quaternion rebuilding from its Axis and Angle gives the same quaternion.", "quantifier": "all unit axes, angles in the open interval, all unit quaternions", "why_tests_cant": "Continuum.", "anchors": ["include/Mathter/Quaternion/Math.hpp: Axis, Angle", "include/Mathter/Transforms/Rotation3DBuilder.hpp: axis-angle quaternion"]}
{"id": "C69", "title": "Stream output parses back to the same object", "statement": "Writing a vector, matrix or quaternion to a stream and reading it back into the same type yields equal elements, for all shapes and any element formatting that itself round-trips.", "quantifier": "all shapes, all values, all element texts free of brackets, commas and spaces", "why_tests_cant": "Round-trip over all strings and shapes.", "anchors": ["include/Mathter/IoStream.hpp: operator<<, operator>>, ReadArray, SplitArray, PrintArray, ParseArray"]}
{"id": "C70", "title": "Stream input of malformed text fails cleanly", "statement": "Reading text that is not a bracketed list with the exact number of elements never yields an object: the operation reports failure; it terminates on every input and consumes no characters beyond the closing bracket of a well-formed array.", "quantifier": "all input strings", "why_tests_cant": "All strings.", "anchors": ["include/Mathter/IoStream.hpp: ReadWhileSpace, ReadArray, SplitArray, ParseArray"]}
{"id": "C71", "title": "Complex elements round-trip through streams", "statement": "A vector of complex numbers written by operator<< is read back equal by operator>>, including purely real and purely imaginary elements, and a purely real element text is accepted.", "quantifier": "all complex values and shapes", "why_tests_cant": "Special printing cases (zero parts) are measure-zero.", "anchors": ["include/Mathter/IoStream.hpp: PrintElement, ParseElement"]}
{"id": "C72", "title": "Unrolled loops visit exactly the iteration range", "statement": "ForUnrolled<First,Last,Step,Limit>(f) calls f exactly with First, First+Step, ... below Last in increasing order, regardless of whether the loop is unrolled.", "quantifier": "all ranges, positive steps and unroll limits", "why_tests_cant": "All ranges.", "anchors": ["include/Mathter/Common/OptimizationUtil.hpp: ForUnrolled"]}
{"id": "C73", "title": "Compensated summation building block is error free", "statement": "Fast2Sum(a,b) with |a| >= |b| returns the rounded sum and its exact rounding error in IEEE-754 arithmetic, so sum + error = a + b exactly; SumCompensated therefore tracks the exact error of every addition meeting the precondition.", "quantifier": "all finite binary32/binary64 values without overflow", "why_tests_cant": "2^128 input pairs.", "anchors": ["include/Mathter/Common/MathUtil.hpp: Fast2Sum", "include/Mathter/Vector/Math.hpp: SumCompensated"]}
{"id": "C74", "title": "FMTA computes ab+cd with one rounding of each correction", "statement": "FMTA(a,b,c,d) computes ab+cd such that the error of the product cd is recovered exactly before the final addition; hence the result is exact whenever both fused operations are, and in exact arithmetic it equals ab+cd.", "quantifier": "all finite floating point inputs without overflow/underflow", "why_tests_cant": "2^256 inputs.", "anchors": ["include/Mathter/Vector/Arithmetic.hpp: FMTA"]}
{"id": "C75", "title": "Angle unit conversion and scalar utilities", "statement": "Deg2Rad and Rad2Deg are mutually inverse and linear; Deg2Rad(180) = pi.", "quantifier": "all real numbers", "why_tests_cant": "Continuum.", "anchors": ["include/Mathter/Utility.hpp: Deg2Rad, Rad2Deg"]}
{"id": "C76", "title": "Padding lanes and integer division", "statement": "Dividing a vector of fixed-width integers by a vector or a scalar is defined whenever the division of each of its elements is defined: padding lanes never divide by zero and never produce the unrepresentable quotient INT_MIN / -1. The result has the truncated quotients as its elements.", "quantifier": "all widths, signed and unsigned, all elements, all padding contents, batched and scalar path", "why_tests_cant": "A fault in a padding lane depends on what earlier operations left there; tests of single operations start from zero padding.", "anchors": ["include/Mathter/Vector/Arithmetic.hpp: divides_safe, operator/", "include/Mathter/Vector/OperationUtil.hpp: FillMaskedWithFirst"]}
{"id": "C77", "title": "Singular values are nonnegative and sorted", "statement": "The singular values returned by the iterative DecomposeSVD are nonnegative and in decreasing order, for both algorithms.", "quantifier": "all matrices, any number of sweeps", "why_tests_cant": "Sign and order depend on the rotations chosen at every step.", "anchors": ["include/Mathter/Decompositions/DecomposeSVD.hpp: DecomposeSVD2Sided, DecomposeSVD1Sided"]}
{"id": "C78", "title": "Precise length and normalisation in floating point", "statement": "LengthPrecise and NormalizePrecise neither overflow nor underflow harmfully. For every vector of finite floating point numbers LengthPrecise is the Euclidean length up to relative rounding error proportional to the dimension, plus at most half the smallest subnormal number, and it is infinite only if that length exceeds the largest number. It is NaN if an element is NaN and infinite if an element is infinite and none is NaN. For every vector of finite numbers other than the null vector the elements of NormalizePrecise are at most one in magnitude, have the signs of the given elements and are those of the unit vector up to the same kind of error; for null vectors and vectors with a non-finite element it returns the given degenerate vector.", "quantifier": "all binary formats with sufficient range, all dimensions, all elements, any order of summation, any padding", "why_tests_cant": "Rounding errors depend on all bits of all elements, and harmful overflow or underflow only occurs for particular combinations of exponents.", "anchors": ["include/Mathter/Vector/Math.hpp: LengthPrecise, NormalizePrecise, ScaleElements, Length, Normalize"]}
{"id": "C79", "title": "Rounding errors of sums, dot products and matrix products", "statement": "The computed sum of a vector differs from the exact sum by at most ((1+u)^(n-1)-1) times the sum of the magnitudes, n being the number of nonzero elements; padding does not contribute. A computed dot product, and each element of a computed matrix product or vector-matrix product of inner dimension n, differs from the exact value by at most ((1+u)^n-1) sum |a_i b_i| plus n (1+u)^n half subnormals. If the products are multiples of a power of two and the sum of their magnitudes fits into the significand, the results are exact and therefore independent of the layouts.", "quantifier": "all binary formats, all dimensions, all elements with a finite result, any order of summation, any padding, all combinations of layouts, with and without fused multiply-add", "why_tests_cant": "Rounding errors depend on all bits of all elements and on the order of summation, which differs between instruction sets.", "anchors": ["include/Mathter/Vector/Math.hpp: Sum, Dot", "include/Mathter/Matrix/Arithmetic.hpp: operator*", "include/Mathter/Common/Functional.hpp: madd"]}
{"id": "C80", "title": "Normalising a complex number in floating point", "statement": "Common's Normalize returns a complex number of modulus one, up to rounding, that has the direction of the given number; it returns 1 for zero and for non-finite numbers, and never overflows.", "quantifier": "all binary formats with sufficient range, all complex numbers", "why_tests_cant": "Rounding errors depend on all bits of both parts; overflow of the reciprocal only occurs for subnormal numbers.", "anchors": ["include/Mathter/Common/MathUtil.hpp: Normalize"]}
{"id": "C81", "title": "Random builders", "statement": "Random fills every element of a vector, matrix or quaternion with one number each drawn from the distribution, in the same order for both memory layouts: element (i, j) of a matrix is number i * Columns + j. No number is drawn twice or discarded.", "quantifier": "all distributions and engines, all dimensions and layouts", "why_tests_cant": "Tests check the statistics of results; a skipped or duplicated draw is invisible to them.", "anchors": ["include/Mathter/Transforms/RandomBuilder.hpp: RandomBuilder, Random"]}
{"id": "C82", "title": "The common arithmetic type", "statement": "common_arithmetic_type of a list of scalar types is the type of the sum of values of these types, and it exists exactly if the sum can be formed.", "quantifier": "all lists of types, any partial addition of types", "why_tests_cant": "There are infinitely many lists; tests instantiate a few.", "anchors": ["include/Mathter/Common/TypeTraits.hpp: common_arithmetic_type"]}
{"id": "C83", "title": "Vectors and matrices of complex numbers", "statement": "For complex elements Dot is the Hermitian product, linear in its first argument; Length is a norm with the Cauchy-Schwarz and triangle inequalities; LengthPrecise and NormPrecise equal Length and Norm; Normalize and NormalizePrecise return the unit vector that is a positive real multiple of the argument; Gram-Schmidt returns non-zero, pairwise orthogonal vectors spanning the same subspaces; ConjTranspose is the adjoint; ScaleElements of a matrix is the largest magnitude of a real or imaginary part of an element.", "quantifier": "all dimensions, layouts and complex elements (exact arithmetic)", "why_tests_cant": "Most tests use real elements, for which a missing or misplaced conjugate cannot be seen.", "anchors": ["include/Mathter/Vector/Math.hpp: Dot, Length, ScaleElements, LengthPrecise, Normalize, NormalizePrecise, GramSchmidtOrthogonalize", "include/Mathter/Matrix/Math.hpp: Norm, NormPrecise, ScaleElements, ConjTranspose"]}
{"id": "C84", "title": "QR and LQ decompositions of complex matrices", "statement": "DecomposeQR of a complex matrix with Rows >= Columns returns Q with Q^* Q = 1 and R upper triangular with QR = A, also for rank deficient matrices; Solve is the unique least squares solution and Inverse the pseudoinverse if the rank is full. DecomposeLQ does the same for Rows <= Columns, with lower triangular L and Q Q^* = 1.", "quantifier": "all shapes, layouts and complex matrices (exact arithmetic)", "why_tests_cant": "A conjugate missing from the reflection only matters for some arguments of the leading entries; all matrices, degenerate columns included.", "anchors": ["include/Mathter/Decompositions/DecomposeQR.hpp: HouseholderReflection, DecomposeQR, DecomposeLQ, DecompositionQR, DecompositionLQ"]}
{"id": "C85", "title": "SVD of complex 2x2 matrices", "statement": "DecomposeSVD2x2 of any complex 2x2 matrix returns unitary rotations U and V, a unit determinant factor and two non-negative real numbers with U diag(s11, det s22) V = A; the two numbers are the singular values; the cosine of V is real, positive and at least the magnitude of its sine.", "quantifier": "all complex 2x2 matrices, both signs of a zero (exact arithmetic)", "why_tests_cant": "The case split on zero elements and on the largest of four elements has branches that random matrices never enter; conjugates cancel for real matrices.", "anchors": ["include/Mathter/Decompositions/DecomposeSVD.hpp: DecomposeSVD2x2, DecomposeRQ2x2, DiagonalizeTriangular2x2, MinimizeDiagonalizingRotation, DecomposeScaledOrthogonal2x2"]}
{"id": "C86", "title": "Jacobi SVD of complex matrices", "statement": "The two-sided and one-sided Jacobi iterations on a complex matrix keep U and V unitary and the product equal to A; every rotation clears its pair; with a positive tolerance the two-sided iteration stops; when the iteration has converged, U diag(S) V = A with real S. Wide matrices are decomposed through the transpose.", "quantifier": "all shapes, layouts, complex matrices and numbers of sweeps (exact arithmetic)", "why_tests_cant": "The result depends on the phases of the diagonal elements left after the last rotation; tests use a few random full-rank matrices, whose diagonal elements have all been rotated.", "anchors": ["include/Mathter/Decompositions/DecomposeSVD.hpp: DecomposeSVDJacobiTwoSided, DecomposeSVDJacobiOneSided, DecomposeSVD"]}
{"id": "C87", "title": "Solve and Inverse with the SVD of a complex matrix", "statement": "Given a singular value decomposition of a complex matrix with non-zero singular values, Solve returns the unique least squares solution for tall matrices and column vectors, and for wide matrices and row vectors; Inverse is the Moore-Penrose inverse for every shape; a zero singular value is a division by zero. The singular values are read inside their bounds exactly for those shapes.", "quantifier": "all shapes, complex matrices and right-hand sides (exact arithmetic)", "why_tests_cant": "A transpose in place of a conjugate transpose is invisible for real matrices; all shapes, right-hand sides and ranks.", "anchors": ["include/Mathter/Decompositions/DecomposeSVD.hpp: DecompositionSVD::Solve, DecompositionSVD::Inverse"]}
{"id": "C88", "title": "The Jacobi SVD iterations stop only after convergence", "statement": "When DecomposeSVD stops, its result is a decomposition of A: in the two-sided iteration the sum of squares of A - U diag(S) V is within the tolerance, in the one-sided iteration the columns of U are orthonormal and U diag(S) V = A.", "quantifier": "all nonzero real matrices, tolerances and signs of zero (exact arithmetic)", "why_tests_cant": "The loops stop when the largest error of a sweep is not smaller than that of the sweep before, which is no sign of convergence; a few per cent of random matrices are affected, a handful of test matrices may all be lucky.", "anchors": ["include/Mathter/Decompositions/DecomposeSVD.hpp:384-404", "include/Mathter/Decompositions/DecomposeSVD.hpp:443-462"]}
{"id": "C89", "title": "Triangular solvers are backward stable in floating point", "statement": "SolveUpperTriangular and SolveLowerTriangular compute, in binary floating point with rounding to nearest, an x that solves a system whose coefficients differ from those given by a relative amount of at most (1+u)^n - 1 each, up to underflow; if a column of the result is finite, no diagonal element is zero.", "quantifier": "all precisions and exponent ranges, all sizes, all finite triangular matrices, all right-hand sides, both orders of multiplication, products contracted to fused multiply-subtract or not", "why_tests_cant": "Tests compare a few well-conditioned systems with a fixed tolerance; a bound on the error in the presence of rounding has to hold for ill-conditioned systems too.", "anchors": ["include/Mathter/Matrix/Algorithm.hpp:14-40", "include/Mathter/Matrix/Algorithm.hpp:71-83"]}
{"id": "C90", "title": "LU and LUP decompositions are backward stable in floating point", "statement": "If the factors computed are finite, L has an exactly unit lower triangular, U an exactly upper triangular shape, P is a permutation and |PA - LU| <= ((1+u)^n - 1) |L||U| element by element up to underflow. With pivoting, if 2^(n-1) max|A| does not overflow, the factors are finite, |L| <= 1 and |U(i,j)| <= 2^i max|A|.", "quantifier": "all precisions and exponent ranges, all sizes, all matrices, contracted or not", "why_tests_cant": "The growth of the elements and the rounding errors depend on the pivots; no sample of matrices bounds them.", "anchors": ["include/Mathter/Decompositions/DecomposeLU.hpp:206-227", "include/Mathter/Decompositions/DecomposeLU.hpp:230-270"]}
{"id": "C91", "title": "Solving and inverting by LU(P) has a small residual in floating point", "statement": "The solution computed by DecompositionLU::Solve and DecompositionLUP::Solve, and the matrix computed by Inverse, leave a residual of at most (3g + g^2)|L||U||x| with g = (1+u)^n - 1, up to underflow; with pivoting this is at most (3g + g^2) n 2^(n-1) max|A| sum|x|.", "quantifier": "all precisions and exponent ranges, all sizes, all matrices and right-hand sides for which the result is finite, both orders of multiplication, contracted or not", "why_tests_cant": "Tests invert a handful of small matrices and compare within a tolerance; the bound concerns every matrix, including nearly singular ones.", "anchors": ["include/Mathter/Decompositions/DecomposeLU.hpp:127-136", "include/Mathter/Decompositions/DecomposeLU.hpp:172-187", "include/Mathter/Matrix/Math.hpp:444-450"]}
{"id": "C92", "title": "The Q of the floating-point QR decomposition is orthonormal up to rounding", "statement": "If every reflection vector of the run has length zero or at least 2^(3-emax+prec) after scaling and the results are finite, then the columns of Q satisfy |<q_i,q_j> - delta_ij| <= m (N^2-1), N = r^n (1 + nF), with r - 1 a small multiple of the unit roundoff and F of the underflow threshold; for a square matrix the rows satisfy the same with N^2-1. Without the condition on the lengths it fails: a column of subnormal numbers beside a column of ones gives a Q with <q_0,q_1> = -1/2 in magnitude and |q_0|^2 = 2.", "quantifier": "all precisions and exponent ranges with 3 prec <= emax, all sizes m >= n, all matrices, all orders of the reductions, any padding, contracted or not", "why_tests_cant": "The errors of all reflections accumulate; the bound is for every matrix and every size, and the failing inputs mix magnitudes 300 orders apart.", "anchors": ["include/Mathter/Decompositions/DecomposeQR.hpp:177-201", "include/Mathter/Decompositions/DecomposeQR.hpp:210-248"]}
{"id": "C93", "title": "The floating-point QR decomposition is backward stable", "statement": "Under the conditions of C92 every element of QR - A is bounded by a small multiple of the unit roundoff times the length of its column of A, up to underflow. The bound includes the part of R below the diagonal, which the code sets to zero without computing it exactly, and the scaling of the matrix before and after.", "quantifier": "all precisions and exponent ranges with 3 prec <= emax, all sizes m >= n, all matrices, all orders of the reductions, any padding, contracted or not", "why_tests_cant": "Tests compare QR with A within a tolerance for a few small matrices; the bound holds for all matrices, also nearly rank deficient ones.", "anchors": ["include/Mathter/Decompositions/DecomposeQR.hpp:177-201", "include/Mathter/Decompositions/DecomposeQR.hpp:210-248", "include/Mathter/Matrix/Math.hpp:42-50"]}
{"id": "C94", "title": "The floating-point QR decomposition of a finite matrix does not overflow", "statement": "If the matrix is finite and no reflection vector has a nonzero length below 2^(3-emax+prec) after scaling, then scaler, Q and the lengths computed by DecomposeQR are finite, and R is finite when scaler times a slightly enlarged number of rows is representable. So the bounds of C92 and C93 hold for every such matrix, without assuming anything about the result: elements near the overflow threshold included.", "quantifier": "all precisions and exponent ranges with 3 prec <= emax, all sizes m >= n within the exponent range, all finite matrices, all orders of the reductions, any padding, contracted or not", "why_tests_cant": "Overflow in an intermediate sum shows only for extreme inputs; the scaling has to keep every intermediate of every run in range.", "anchors": ["include/Mathter/Decompositions/DecomposeQR.hpp:177-201", "include/Mathter/Decompositions/DecomposeQR.hpp:210-248", "include/Mathter/Matrix/Math.hpp:42-50"]}
{"id": "C95", "title": "Solve and Inverse of the floating-point QR and LQ decompositions", "statement": "For a square matrix with the conditions of C94, the x returned by DecompositionQR::Solve has a residual b - A x bounded by multiples of the unit roundoff of |b|, |Q| |R| |x| and the column lengths of A. For a tall matrix the residual is orthogonal to every column of Q and of A up to such a bound: x is a least squares solution up to rounding. A X for the X of Inverse is Q QT up to a bound, and the identity for a square matrix. The LQ decomposition of a wide matrix has the mirrored properties: L lower triangular, L Q near A, rows of Q orthonormal, and x A near b for square systems.", "quantifier": "all precisions and exponent ranges with 3 prec <= emax, all sizes, all finite matrices and right hand sides with finite results, all layouts, contracted or not", "why_tests_cant": "Tests solve a handful of well conditioned systems; the residual bound does not depend on the condition number and holds for every matrix.", "anchors": ["include/Mathter/Decompositions/DecomposeQR.hpp:75-105", "include/Mathter/Decompositions/DecomposeQR.hpp:153-174", "include/Mathter/Decompositions/DecomposeQR.hpp:253-259", "include/Mathter/Matrix/Algorithm.hpp:14-40"]}
{"id": "C96", "title": "Quaternion products and rotations in floating point", "statement": "Every element of a floating-point product of two quaternions is within ((1+u)^4-1)|p||q| plus an underflow term of the exact product, and the length of the product is |p||q| up to twice that. In a product of n quaternions of length at most 1+d the length stays below ((1+2g)(1+d))^n and the error against the exact product grows no faster than that minus (1+d)^n. Rotating a vector by q(v) = q v q^-1, for q of any length whose squared length neither overflows nor underflows, gives the exact rotation up to a bound rot_err, and keeps the length of the vector up to twice rot_err. Without the condition on the squared length it fails: a quaternion of length 2^600 rotates (1,0,0) to (0,0,0).", "quantifier": "all precisions and exponent ranges, all finite quaternions and vectors, all chains of any length, any order of the reduction in LengthSquared and any padding", "why_tests_cant": "Tests compare a few rotations with a tolerance; drift of long products and the dependence on the length of the quaternion need a bound for all inputs.", "anchors": ["include/Mathter/Quaternion/Arithmetic.hpp:15-46", "include/Mathter/Quaternion/Arithmetic.hpp:132-138", "include/Mathter/Quaternion/Math.hpp:33-36", "include/Mathter/Quaternion/Math.hpp:77-82", "include/Mathter/Quaternion/Math.hpp:121-126", "include/Mathter/Quaternion/RotationArithmetic.hpp:19-26"]}
{"id": "C97", "title": "The one-sided Jacobi SVD in floating point", "statement": "Every rotation (c, s) computed by DiagonalizeHermitian2x2 and MinimizeDiagonalizingRotation has length 1 up to 5u, whatever std::hypot returns, as long as it is finite. The sweeps of DecomposeSVDJacobiOneSided always end. After any number of sweeps with finite results the rows and the columns of V are orthonormal up to a bound that grows by a factor 1+15u with every rotation. If no column of X is short or zero, U S V is the matrix up to a bound of the same kind. The columns of U need not be orthonormal: for the columns (1,0,0) and (0,d,d), with d the smallest subnormal number, the second column of U has length sqrt 2.", "quantifier": "all precisions >= 5 and exponent ranges with 3 prec <= emax, all sizes m >= n, all matrices with finite results, any hypot, any number of sweeps, all orders of the reductions and any padding", "why_tests_cant": "Tests multiply U S V back for a few random matrices; that rounding errors do not add up to more than the bound, and that no matrix makes the sweeps go on forever, concerns every run.", "anchors": ["include/Mathter/Decompositions/DecomposeSVD.hpp:160-178", "include/Mathter/Decompositions/DecomposeSVD.hpp:186-208", "include/Mathter/Decompositions/DecomposeSVD.hpp:343-358", "include/Mathter/Decompositions/DecomposeSVD.hpp:419-425", "include/Mathter/Decompositions/DecomposeSVD.hpp:428-513"]}
{"id": "C98", "title": "Bezier curves in floating point", "statement": "For finite control points with coordinates of size at most M and a parameter t in [0,1], PointAt of a curve of any order n does not overflow as long as M is a few rounding errors below the overflow threshold, and each coordinate of the point is within ((1+u)^(3n)-1) M plus an underflow term of the Bernstein polynomial. So the point stays in the box around the control points up to that bound; it may leave the box itself (a curve with two equal control points 62+2^-47 has a point above them). At t = 0 and t = 1 the result is exactly the first and the last control point.", "quantifier": "all precisions and exponent ranges, all orders, dimensions, finite control points and parameters in [0,1]", "why_tests_cant": "Tests evaluate a few curves of order 1 to 3 at a few parameters; the bound concerns every order and the accumulation of rounding errors over the rows.", "anchors": ["include/Mathter/Geometry/BezierCurve.hpp:60-73"]}
{"id": "C99", "title": "Determinants and inverses of 2x2, 3x3 and 4x4 matrices in floating point", "statement": "For a matrix with elements of size at most M, if the computed determinant is finite it is within ((1+u)^k-1) times the permanent of the absolute values, plus an underflow term, of the determinant, with k = 2, 5 and 11 for 2, 3 and 4 rows, whatever the order of the additions in Sum. If moreover the elements X of the computed inverse are finite, the determinant computed is not zero and both A X and X A are within an explicit bound of the identity: the errors of the cofactors and of the determinant divided by the determinant computed, and u times the elements of X. A 2x2 determinant computed to be positive or negative has that sign. The determinant of an invertible 2x2 matrix may be computed as zero, making the inverse infinite, and the sign of a 3x3 determinant may be wrong.", "quantifier": "all precisions (at least 5 bits) and exponent ranges, all matrices, all orders of the additions in Sum, both layouts", "why_tests_cant": "Tests invert a few matrices of small integers, for which every product is exact, and compare with a tolerance; the bound concerns every matrix, near singular or subnormal, and every order of the reduction.", "anchors": ["include/Mathter/Matrix/Math.hpp:166-228", "include/Mathter/Matrix/Math.hpp:297-436", "include/Mathter/Vector/Math.hpp:143-153"]}
{"id": "C100", "title": "Lines, hyperplanes and their intersections in floating point", "statement": "In any dimension, Distance of a point from a hyperplane is within (1+u)^(n+1)-1 times the sum of the sizes of its terms, plus an underflow term, of n.p - s. If Intersect of a hyperplane and a line returns a finite point, the point is within two roundings per coordinate of base + t direction, and n.P - s is bounded by |s| times the deviation of the normal from unit length plus (1+u)^(n+2)-1 times the sizes of n.base, t n.direction and s, plus an underflow term: the error is not amplified by a small angle, except through t. Intersect returns nothing only if n.direction is zero up to the rounding error of Dot. Rays and segments report exactly the parameters in range. The intersection of two lines in the plane is near both. A line exactly parallel to a plane may be reported to intersect it, and a line that meets it may not.", "quantifier": "all precisions and exponent ranges, all dimensions, all orders of the additions in Dot, all planes and lines whose result is finite", "why_tests_cant": "Tests intersect a few planes and lines with exact coordinates; nearly parallel lines, normals that are unit only up to rounding and the orders of the reduction are not covered.", "anchors": ["include/Mathter/Geometry/Intersection.hpp:25-42", "include/Mathter/Geometry/Intersection.hpp:80-166", "include/Mathter/Geometry/Hyperplane.hpp:28-67", "include/Mathter/Geometry/Line.hpp:55-57"]}
{"id": "C101", "title": "Area and centroid of a triangle in floating point", "statement": "Every side length computed by Area is within (1+u)^(n/2+6)-1 of the true distance of the corners, plus half the underflow unit. If Area is finite, it is not negative and the error of its square is at most (24((1+u)^20-1) + 3/2((1+u)^(n/2+6)-1)) N^4 plus an underflow term, where N bounds the sides and the square of the true area is a quarter of the Gram determinant of two sides; the error of the area itself is at most the root of that. Centroid is within three roundings of the mean of the corners relative to the sizes of the coordinates. Area may be NaN for three points on a line, 0 for a triangle of area over seven million, and infinite for a triangle whose area is representable.", "quantifier": "all precisions (at least 5 bits) and exponent ranges, all dimensions, all paddings and orders of the additions in LengthPrecise, all triangles whose area is finite", "why_tests_cant": "Tests compute the area of a few well-shaped triangles; thin triangles, where Heron's formula cancels, and large or small ones, where the product of four lengths leaves the range, are not covered.", "anchors": ["include/Mathter/Geometry/Triangle.hpp:38-44", "include/Mathter/Geometry/Triangle.hpp:48-50", "include/Mathter/Vector/Math.hpp:206-213"]}
{"id": "C102", "title": "Intersection of a ray and a triangle in floating point", "statement": "Let D be the determinant of the problem, u and v the barycentric coordinates and t the parameter computed. If a point is returned and the values are finite, then 0 <= u <= 1, 0 <= v, u + v <= 1 up to one rounding, t is at least epsilon, |D| times the distance in every coordinate between base + t direction and the point of the triangle with coordinates u, v is at most 12 roundings of the triple products involved, plus an underflow term, and the point returned is within two roundings of base + t direction. If none is returned, then |D| is at most epsilon up to the error of D, or one of u, v, t, each within its error bound of the exact coordinate times D, is out of range. The bounds depend on the edges and on the offset from the base to a corner only, not on the position in space. A ray through the inside of a triangle with edges of 2^-27 is missed because the threshold for D is absolute, and so are some rays through the inside of triangles of ordinary size.", "quantifier": "all precisions (at least 5 bits) and exponent ranges, all paddings and orders of the additions in Dot, all rays and triangles for which the values computed are finite", "why_tests_cant": "Tests shoot a few rays with exact coordinates at one triangle; grazing rays, rays near an edge, small triangles and the orders of the reduction are not covered.", "anchors": ["include/Mathter/Geometry/Intersection.hpp:214-252", "include/Mathter/Vector/Math.hpp:370-380", "include/Mathter/Vector/Arithmetic.hpp:251-269", "include/Mathter/Geometry/Line.hpp:55-57"]}
{"id": "C103", "title": "The matrix of a quaternion in floating point", "statement": "If the squared length n of the quaternion is at most 2, no element of its rotation matrix overflows, and every element differs from that of the rotation v -> q v q^-1 by at most 2(1+u)((1+u)^2-1)n + u(1+2|n-1|), about 5u for a unit quaternion, plus 2(1+u)^2 times the underflow unit, plus 2|n-1| because the code does not divide by the length. Every pair of rows is orthonormal up to 6 e + 3 e^2, where e is that error.", "quantifier": "all precisions (at least 5 bits) and exponent ranges, all finite quaternions of non-zero length with squared length at most 2", "why_tests_cant": "Tests convert a few unit quaternions and compare with a tolerance; how the error grows as the length drifts away from 1, and elements that underflow, are not covered.", "anchors": ["include/Mathter/Quaternion/Quaternion.hpp:130-153"]}
{"id": "C104", "title": "The quaternion of a rotation matrix in floating point, and back", "statement": "Let a matrix have elements within e <= 1/4 of those of the rotation by the unit quaternion Q with scalar part c > 0. If the bound s = (1+u)^2 (3e+12u)/(4c) + ((1+u)^2-1)c + half the underflow unit is less than c, the scalar part computed is finite and within s of c, and each element of the vector part that is finite is within (2e + 3u + 4s)/(4(c-s)) plus two roundings and underflow terms of that of Q. So converting a quaternion to a matrix and back returns the normalised quaternion up to such an error, which grows like 1/c^2 near half turns. Without the condition it fails: a unit quaternion with scalar part 2^-30 comes back with scalar part 0 and infinite and NaN vector parts.", "quantifier": "all precisions (at least 5 bits) and exponent ranges (at least prec + 7), all matrices near a rotation, all finite quaternions with positive scalar part", "why_tests_cant": "Tests convert a few rotations by moderate angles and compare with a tolerance; how the error grows near half turns is not covered.", "anchors": ["include/Mathter/Quaternion/Quaternion.hpp:155-168", "include/Mathter/Quaternion/Quaternion.hpp:130-153"]}
{"id": "C105", "title": "Orthographic projection in floating point", "statement": "Let a and b be the bounds of the box in a coordinate. If their difference and the offset are finite, a and b differ, and the map given by the scale and the offset computed differs at x from (2x - a - b)/(b - a) by at most (2((1+u)^2-1)|x| + ((1+u)^5-1)|a+b|)/|b-a| plus underflow terms; in the last coordinate it differs from the map of [a, b] to [near, far] by at most (((1+u)^5-1)|x| + ((1+u)^9-1)|a+b|/2) |far-near|/|b-a| + ((1+u)^9-1)|far+near|/2 plus underflow terms. So the faces of the box are mapped near -1, 1 and near, far unless the box is small compared with its distance from the origin: [2^53, 2^53+2] is mapped to [0, 2]. A box whose size overflows is mapped to 0 with all elements finite.", "quantifier": "all precisions (at least 5 bits) and exponent ranges (at least prec + 7), all dimensions, boxes, planes and points for which the difference and the offset are finite", "why_tests_cant": "Tests map the corners of one box near the origin and compare with a tolerance; boxes far from the origin, very large and very small ones are not covered.", "anchors": ["include/Mathter/Transforms/OrthographicBuilder.hpp:50-62", "include/Mathter/Vector/Arithmetic.hpp:214-217"]}
{"id": "C106", "title": "Depth of a perspective projection in floating point", "statement": "Let N, F be the planes of the view and n, f the depths they are mapped to. If F - N and the elements A and B are finite, N and F differ, the error of A is at most (((1+u)^4-1)(|fF|+|nN|) + (1+u)^3 eta)/|F-N| + eta/2, that of B at most ((1+u)^5-1)|FN(n-f)|/|F-N| plus underflow terms, and the depth (A z + B)/(C z) of a point at z differs from the exact one by at most the error of A plus that of B divided by |z|; at N and F the exact depths are n and f. Planes close together lose this: N = 1, F = 1 + 2^-52 with n = -1, f = 1 are mapped to -2 and 0. B overflows for N = 2^600, F = 2^601 although its value is representable.", "quantifier": "all precisions (at least 5 bits) and exponent ranges, views to either side, all planes, depths and points for which F - N, A and B are finite", "why_tests_cant": "Tests use a few planes of moderate size and compare with a tolerance; planes close together or far away are not covered.", "anchors": ["include/Mathter/Transforms/PerspectiveBuilder.hpp:43-49"]}
{"id": "C107", "title": "Rotation about an axis in floating point", "statement": "Every element of the matrix of RotationAxisAngle that is finite differs from that of v -> cos t v + sin t (axis x v) + (1 - cos t)(axis . v) axis by at most (1+u)^5 - 1 times the sum of the sizes of the three terms, plus underflow terms, plus the error of the cosine and sine returned by the library times the sizes of the terms they multiply. For a unit axis that map fixes the axis, keeps lengths and turns vectors orthogonal to the axis by t. For an axis with |axis . axis - 1| <= d <= 1 and elements within e of the exact ones, the computed matrix changes the length of every vector v by at most (3 e + 9 d)|v|. No element overflows when the axis, the cosine and the sine are finite and at most 2 in size.", "quantifier": "all precisions (at least 5 bits) and exponent ranges, all axes, all angles and all values returned for the cosine and the sine for which the element is finite", "why_tests_cant": "Tests rotate by a few angles about a few axes and compare with a tolerance; axes that are not exactly of unit length and the error of each element are not covered.", "anchors": ["include/Mathter/Transforms/Rotation3DBuilder.hpp:62-83"]}
