{"id": "C01", "title": "next_up / next_down return the adjacent float", "statement": "For every non-NaN x other than +inf, x.next_up() is strictly greater than x and no float lies strictly between; dually for next_down; NaN, and the infinity in the direction of travel, are returned unchanged.", "quantifier": "every f32 and every f64 value (all bit patterns, including subnormals, signed zeros, infinities and NaN)", "why_tests_cant": "2^64 inputs; the interesting ones (binade boundaries, subnormal/normal boundary, zero, MAX, -inf) are a measure-zero subset and the bit trick must be right for each.", "anchors": ["src/math/scalar.rs:GFloat::next_up (f32, f64)", "src/math/scalar.rs:GFloat::next_down (f32, f64)"]}
{"id": "C02", "title": "next_up and next_down are mutually inverse and mirror images", "statement": "next_down(-x) = -next_up(x) for all x; next_down(next_up(x)) == x and next_up(next_down(x)) == x except where one of them saturates at an infinity.", "quantifier": "every f32 and every f64 value (all bit patterns, including subnormals, signed zeros, infinities and NaN)", "why_tests_cant": "An algebraic law over the whole domain.", "anchors": ["src/math/scalar.rs:GFloat::next_up", "src/math/scalar.rs:GFloat::next_down"]}
{"id": "C03", "title": "min / max / min_max / clamp / in_range order laws", "statement": "For non-NaN arguments Scalar::min/max return one of the arguments and a lower/upper bound of both, min_max returns (min,max) in order, clamp(lo,hi) with lo<=hi lies in [lo,hi] and leaves values already inside unchanged, in_range is exactly lo<=x<=hi; with a NaN argument min and max return their second argument and clamp returns self.", "quantifier": "every f32 and every f64 value (all bit patterns, including subnormals, signed zeros, infinities and NaN) for each argument", "why_tests_cant": "Needs all triples including NaN, infinities and signed zeros.", "anchors": ["src/math/scalar.rs:Scalar::min", "src/math/scalar.rs:Scalar::max", "src/math/scalar.rs:Scalar::min_max", "src/math/scalar.rs:Scalar::clamp", "src/math/scalar.rs:Scalar::in_range"]}
{"id": "C04", "title": "fequals / almost_eq is a reflexive, symmetric tolerance test", "statement": "fequals is symmetric for all inputs; x.fequals(x) holds for every finite x; it is false as soon as an argument is NaN; it is true exactly when the rounded |a-b| is below the absolute or the rounded relative tolerance. (Reflexivity is also expected of infinities.)", "quantifier": "every f32 and every f64 value (all bit patterns, including subnormals, signed zeros, infinities and NaN), pairs", "why_tests_cant": "Sampling cannot exclude an asymmetric pair or a finite non-reflexive value.", "anchors": ["src/math/scalar.rs:GFloat::fequals", "src/math/scalar.rs:AlmostEqual for f32/f64"]}
{"id": "C05", "title": "float classification predicates agree with IEEE classes", "statement": "GFloat::is_nan / is_finite / is_infinite on f32 and f64 hold exactly for NaN, finite values and the two infinities, and the three classes partition all floats.", "quantifier": "every f32 and every f64 value (all bit patterns, including subnormals, signed zeros, infinities and NaN)", "why_tests_cant": "A universally quantified classification; the suite never calls is_infinite.", "anchors": ["src/math/scalar.rs:GFloat::is_infinite", "src/math/scalar.rs:GFloat::is_finite", "src/math/scalar.rs:GFloat::is_nan"]}
{"id": "C06", "title": "*_lower / *_upper constants bracket the real constants", "statement": "pi_lower <= pi <= pi_upper as real numbers, and likewise for tau, pi/2 and pi/4, for f32 and f64; the bracket is one ulp wide.", "quantifier": "both float formats, all four constants (pi is a real number, not a float)", "why_tests_cant": "Tests compare floats with floats; they cannot compare with the real number pi.", "anchors": ["src/math/scalar.rs:pi_lower", "src/math/scalar.rs:pi_upper", "src/math/scalar.rs:tau_lower", "src/math/scalar.rs:frac_pi_2_upper", "src/math/scalar.rs:frac_pi_4_upper"]}
{"id": "C07", "title": "casts: widening is lossless, narrowing rounds to nearest, to_i64 truncates and saturates", "statement": "to_f64 of any f32 has the same value and from_f64 maps it back to the same f32; from_i64(n) is the correctly rounded n and to_i64(from_i64(n)) = n whenever |n| <= 2^precision; to_i64 truncates toward zero, saturates at i64 bounds and maps NaN to 0.", "quantifier": "every f32 and every f64 value (all bit patterns, including subnormals, signed zeros, infinities and NaN) and every i64", "why_tests_cant": "Domain of 2^64 values.", "anchors": ["src/math/scalar.rs:to_i64", "src/math/scalar.rs:to_f32", "src/math/scalar.rs:to_f64", "src/math/scalar.rs:from_i64", "src/math/scalar.rs:from_f64"]}
{"id": "C08", "title": "signum / abs and sign predicates", "statement": "signum is in {-1,0,1} and is the mathematical sign (0 for NaN); abs is |x| for every non-NaN x; is_positive/is_negative/is_nonpositive/is_nonnegative decide the sign and are all false on NaN.", "quantifier": "every f32 and every f64 value (all bit patterns, including subnormals, signed zeros, infinities and NaN)", "why_tests_cant": "All values including -0.0 and NaN.", "anchors": ["src/math/scalar.rs:SignedScalar"]}
{"id": "C09", "title": "Interval + and - enclose the exact result, to within one extra ulp", "statement": "If real x is in interval a and real y in b then x+y is in a+b and x-y in a-b (infinite endpoints allowed); with finite endpoints each computed bound is at most one float beyond the tightest float bound.", "quantifier": "all pairs of valid intervals over f32 and over f64 and all reals in them", "why_tests_cant": "Inclusion ranges over reals between floats and must survive every rounding, overflow and subnormal case.", "anchors": ["src/math/interval.rs:Add<Self>", "src/math/interval.rs:Sub<Self>", "src/math/interval.rs:AddAssign", "src/math/interval.rs:SubAssign"]}
{"id": "C10", "title": "Interval * Interval encloses the exact product", "statement": "If x in a and y in b then x*y in a*b.", "quantifier": "all pairs of valid finite intervals over f32/f64 and all reals in them, every sign combination", "why_tests_cant": "Nine sign cases times all magnitudes; the mixed-sign case has no test.", "anchors": ["src/math/interval.rs:Mul<Self>", "src/math/interval.rs:MulAssign<Self>"]}
{"id": "C11", "title": "Interval / Interval encloses the exact quotient", "statement": "If x in a, y in b and y != 0 then x/y in a/b; if 0 in b the result is the whole line; bounds are within one extra ulp of tight when the divisor excludes 0 and endpoints are finite.", "quantifier": "all pairs of valid intervals (infinite endpoints allowed)", "why_tests_cant": "Quantifies over reals and every sign combination.", "anchors": ["src/math/interval.rs:Div<Self>", "src/math/interval.rs:DivAssign<Self>"]}
{"id": "C12", "title": "mixed Interval-scalar arithmetic encloses the exact result", "statement": "For x in a and finite float c: x+c in a+c, x-c in a-c, x*c in a*c (finite a), x/c in a/c (c != 0); a/0 is the whole line.", "quantifier": "all valid intervals, all finite scalars", "why_tests_cant": "As C09.", "anchors": ["src/math/interval.rs:Add<T>", "src/math/interval.rs:Sub<T>", "src/math/interval.rs:Mul<T>", "src/math/interval.rs:Div<T>", "src/math/interval.rs:MulAssign<T>", "src/math/interval.rs:DivAssign<T>"]}
{"id": "C13", "title": "Interval::square encloses squares and is tight", "statement": "x in a implies x*x in a.square(); if a contains 0 in its interior the lower bound is exactly 0; bounds are within one ulp of tight.", "quantifier": "all valid intervals", "why_tests_cant": "As C09.", "anchors": ["src/math/interval.rs:Interval::square", "src/math/interval.rs:Scalar::square for Interval"]}
{"id": "C14", "title": "Interval sqrt encloses square roots", "statement": "If a is valid and its lower bound is >= 0 then x in a implies sqrt(x) in a.sqrt(), for the inherent and the trait version.", "quantifier": "all valid intervals with nonnegative lower bound", "why_tests_cant": "As C09; correct rounding of sqrt must be combined with the ulp widening.", "anchors": ["src/math/interval.rs:Interval::sqrt", "src/math/interval_as_gfloat.rs:GFloat::sqrt"]}
{"id": "C15", "title": "Interval negation, abs, min, max enclose the exact results", "statement": "x in a, y in b implies -x in -a, |x| in abs(a), min(x,y) in min(a,b), max(x,y) in max(a,b); negation is exact and involutive.", "quantifier": "all valid intervals", "why_tests_cant": "Universally quantified over reals and endpoints.", "anchors": ["src/math/interval.rs:Neg", "src/math/interval.rs:SignedScalar::abs", "src/math/interval.rs:Scalar::max", "src/math/interval.rs:Scalar::min"]}
{"id": "C16", "title": "union is the hull, intersect is set intersection", "statement": "a.union(b) contains x iff x lies between the smaller lower and the larger upper bound, contains both operands and is the least such interval; when the operands share a point, a.intersect(b) contains x iff both do.", "quantifier": "all pairs of valid intervals", "why_tests_cant": "Set-level equality over all reals.", "anchors": ["src/math/interval.rs:Interval::union", "src/math/interval.rs:Interval::intersect"]}
{"id": "C17", "title": "interval queries agree with set semantics", "statement": "contains(t) iff t is in the set; in_range(t0,t1) iff the set is inside [t0,t1]; is_exact iff it is a single point; is_same iff the sets are equal; is_positive/negative/nonpositive/nonnegative iff every member has that sign.", "quantifier": "all valid intervals and all floats", "why_tests_cant": "Universally quantified.", "anchors": ["src/math/interval.rs:contains", "src/math/interval.rs:in_range", "src/math/interval.rs:is_exact", "src/math/interval.rs:is_same", "src/math/interval.rs:is_positive"]}
{"id": "C18", "title": "approx lies inside the interval", "statement": "For a valid finite interval, approx() is a float contained in it.", "quantifier": "all valid finite intervals", "why_tests_cant": "Fails only near overflow, which random tests never reach.", "anchors": ["src/math/interval.rs:Interval::approx", "src/math/interval.rs:From<Interval<f32>> for f32"]}
{"id": "C19", "title": "interval comparison is certain order", "statement": "a < b iff every member of a is less than every member of b; a == b iff both are the same single point; partial_cmp is antisymmetric and transitive; comparison with a scalar agrees with comparison with the point interval.", "quantifier": "all valid intervals, all reals in them", "why_tests_cant": "Quantifies over all members.", "anchors": ["src/math/interval.rs:PartialOrd<Self>", "src/math/interval.rs:PartialEq<Self>", "src/math/interval.rs:PartialOrd<T>", "src/math/interval.rs:PartialEq<T>"]}
{"id": "C20", "title": "interval operations never build an inverted interval", "statement": "Starting from valid intervals with finite endpoints, +,-,*,/,neg,square,abs,min,max,union,extend_by_ulp and sqrt (lower bound >= 0), and + - * / by a finite scalar, return valid intervals (inf <= sup), so the debug assertion in Interval::new never fires; this holds for any sequence of such operations whose intermediate results stay finite.", "quantifier": "all valid finite intervals, all operation sequences", "why_tests_cant": "Invariant over unbounded histories.", "anchors": ["src/math/interval.rs:Interval::new", "src/math/interval.rs"]}
{"id": "C21", "title": "Interval sin / cos enclose the exact values", "statement": "x in a implies sin(x) in a.sin() and cos(x) in a.cos(), given that the platform sin/cos are within one ulp and sign-correct.", "quantifier": "all valid finite intervals, all reals in them, every libm meeting the accuracy contract", "why_tests_cant": "Quantifies over reals and over libm implementations; the test only draws widths in [0, pi].", "anchors": ["src/math/interval_as_gfloat.rs:GFloat::sin", "src/math/interval_as_gfloat.rs:GFloat::cos", "src/math/interval_as_gfloat.rs:GFloat::sin_cos"]}
{"id": "C22", "title": "Interval asin / acos / atan enclose the exact values", "statement": "x in a (within the domain) implies asin(x) in a.asin(), acos(x) in a.acos(), atan(x) in a.atan(), given one-ulp-accurate platform functions.", "quantifier": "all valid intervals within the domain", "why_tests_cant": "Quantifies over reals; no test covers them.", "anchors": ["src/math/interval_as_gfloat.rs:GFloat::asin", "src/math/interval_as_gfloat.rs:GFloat::acos", "src/math/interval_as_gfloat.rs:GFloat::atan", "src/math/interval.rs:map_monotonic_inc", "src/math/interval.rs:map_monotonic_dec"]}
{"id": "C23", "title": "Interval atan2 encloses the exact angle", "statement": "y in Y, x in X, (x,y) != (0,0) implies atan2(y,x) in Y.atan2(X).", "quantifier": "all valid finite intervals", "why_tests_cant": "The test only draws non-zero points, never intervals or axes.", "anchors": ["src/math/interval_as_gfloat.rs:GFloat::atan2"]}
{"id": "C24", "title": "constant intervals contain the real constants", "statement": "Interval::pi/tau/frac_pi_2/frac_pi_4/half contain the real constants.", "quantifier": "both float formats", "why_tests_cant": "Compares with real numbers.", "anchors": ["src/math/interval_as_gfloat.rs:GFloat::pi", "src/math/interval_as_gfloat.rs:GFloat::tau", "src/math/interval_as_gfloat.rs:GFloat::frac_pi_2", "src/math/interval_as_gfloat.rs:GFloat::frac_pi_4"]}
{"id": "C25", "title": "fundamental theorem of interval arithmetic for composed expressions", "statement": "Evaluating any expression built from +,-,neg,/,square,sqrt,abs,min,max and scalar mixed operations over intervals encloses its exact real value whenever the inputs do and no intermediate bound is NaN.", "quantifier": "all expressions (any size), all inputs", "why_tests_cant": "Induction over expressions of any size.", "anchors": ["src/math/interval.rs"]}
{"id": "C26", "title": "dot and square_norm in floats: symmetric, consistent, sign-correct", "statement": "For f32/f64 vectors of any length, a.dot(b) and b.dot(a) are the same float, v.square_norm() is the same float as v.dot(v), and square_norm is either NaN or >= 0.", "quantifier": "all N, all vectors of floats", "why_tests_cant": "All lengths and all values including special ones.", "anchors": ["src/math/vector.rs:InnerProduct::dot", "src/math/vector.rs:Norm::square_norm"]}
{"id": "C27", "title": "floating-point dot product error bound", "statement": "For vectors of length n without overflow, |fl(a.dot(b)) - a.b| <= gamma(n) * sum |a_i b_i| + n*eta with the standard unit-roundoff constants.", "quantifier": "all n, all finite vectors", "why_tests_cant": "Worst-case rounding analysis.", "anchors": ["src/math/vector.rs:InnerProduct::dot"]}
{"id": "C28", "title": "cross product laws", "statement": "In exact arithmetic a x b is orthogonal to a and b, satisfies |a x b|^2 = |a|^2|b|^2 - (a.b)^2 and is bilinear; in floats a x b == -(b x a) and a x a == 0 for finite non-overflowing input.", "quantifier": "all vectors", "why_tests_cant": "Algebraic identity on all inputs.", "anchors": ["src/math/vector.rs:cross"]}
{"id": "C29", "title": "vector / point arithmetic is componentwise and affine", "statement": "+,-,*,/ act componentwise in every dimension; point - point + point and point + vector - vector cancel in exact arithmetic; min/max are componentwise and give the componentwise order bounds.", "quantifier": "all N, all vectors", "why_tests_cant": "All lengths.", "anchors": ["src/math/vector.rs"]}
{"id": "C30", "title": "norm, distance and normalize", "statement": "In exact arithmetic norm(v)^2 = v.v, distance is a metric-style |a-b|, and normalize returns a unit vector parallel to v for every nonzero v (result undefined = NaN for v = 0).", "quantifier": "all vectors of any dimension", "why_tests_cant": "Universally quantified.", "anchors": ["src/math/vector_traits.rs:Norm::norm", "src/math/vector_traits.rs:Norm::distance", "src/math/vector_traits.rs:Norm::normalize"]}
{"id": "C31", "title": "matrix algebra", "statement": "transpose is involutive, reverses products; matrix product is associative with identity; row/col/index agree; scalar multiplication is entrywise. Over wrapping machine integers the laws hold bit-exactly.", "quantifier": "all 4x4 matrices over exact reals, and over i32/i64/u32/... with wrap-around", "why_tests_cant": "Sixteen free entries.", "anchors": ["src/math/transform.rs:Matrix4x4"]}
{"id": "C32", "title": "inverse() is the two-sided inverse", "statement": "If det(M) != 0 then M * M.inverse() = I and M.inverse() * M = I in exact arithmetic, and M.inverse().inverse() = M; if det = 0 no entry of the result is finite.", "quantifier": "all 4x4 matrices", "why_tests_cant": "A 16-variable rational identity; random floating point tests only approximate it, and this function has none.", "anchors": ["src/math/transform_inverse_impl.rs:inverse_impl_adjugate", "src/math/transform.rs:Invertible for Matrix4x4"]}
{"id": "C33", "title": "every constructible transform carries its true inverse", "statement": "For identity, translate, scale (nonzero), rotate_x/y/z, rotate (nonzero axis), look_at (non-degenerate), perspective (valid), and any combination of these with * and inverse(), matrix()*inverse_matrix() = I in exact arithmetic.", "quantifier": "all transforms built by any finite composition", "why_tests_cant": "Induction over unbounded constructor histories.", "anchors": ["src/math/transform.rs:Transform"]}
{"id": "C34", "title": "map / map_inverse are inverse to each other and compose", "statement": "(A*B).map(p) = A.map(B.map(p)); t.map_inverse(t.map(x)) = x for points (when the homogeneous coordinate is nonzero) and vectors (affine); t.inverse().map = t.map_inverse.", "quantifier": "all transforms with mutually inverse matrices, all points, vectors, rays", "why_tests_cant": "Universally quantified.", "anchors": ["src/math/transform.rs:map_point", "src/math/transform.rs:map_vector", "src/math/transform.rs:Mul<Transform>", "src/geometry/ray.rs:TransformMap<Ray>"]}
{"id": "C35", "title": "rotations are rigid and rotate by the given angle", "statement": "rotate(axis,angle) preserves dot products and cross products, fixes the axis, turns every vector orthogonal to the axis by exactly the angle (right-handed), is additive in the angle, and coincides with rotate_x/y/z on the coordinate axes.", "quantifier": "all nonzero axes, all angles, all vectors", "why_tests_cant": "Universally quantified over reals.", "anchors": ["src/math/transform.rs:rotate", "src/math/transform.rs:rotate_x", "src/math/transform.rs:rotate_y", "src/math/transform.rs:rotate_z"]}
{"id": "C36", "title": "translate / scale act as advertised in floats", "statement": "For finite f32/f64 input translate(v).map(p) is p+v componentwise (the same floats up to the sign of zero), translate leaves vectors unchanged, and scale(s).map multiplies componentwise.", "quantifier": "all finite floats", "why_tests_cant": "Every rounding of the 4x4 product must cancel.", "anchors": ["src/math/transform.rs:translate", "src/math/transform.rs:scale", "src/math/transform.rs:map_point", "src/math/transform.rs:map_vector"]}
{"id": "C37", "title": "look_at builds the documented camera frame", "statement": "map sends pos to the origin and target to (0,0,-|target-pos|); map_inverse sends the origin to pos; the frame is right-handed orthonormal and y is the normalized projection of up.", "quantifier": "all pos, target, up with up not parallel to target-pos", "why_tests_cant": "Universally quantified over reals.", "anchors": ["src/math/transform.rs:look_at", "src/math/transform.rs:init_from_orthogonal_basis"]}
{"id": "C38", "title": "perspective maps the frustum onto the cube", "statement": "A point with z in [-far,-near] maps into [-1,1]x[-1,1]x[0,1] iff it is inside the frustum; z=-near maps to 0, z=-far to 1, depth is strictly monotone.", "quantifier": "all 0<near<far, 0<fov<pi, all points", "why_tests_cant": "Universally quantified.", "anchors": ["src/math/transform.rs:perspective"]}
{"id": "C39", "title": "normals stay perpendicular under transforms", "statement": "If n.v = 0 then map(n).map(v) = 0 for an invertible affine transform.", "quantifier": "all invertible affine transforms, all normals and vectors", "why_tests_cant": "No test maps a normal.", "anchors": ["src/math/transform.rs:map_normal"]}
{"id": "C40", "title": "mapping a vector panics exactly when the transform moves it off the w=0 plane", "statement": "Transform::map on Vector3<f32> never panics for affine transforms and finite vectors, and panics when the fourth row has a nonzero product; on Vector3<Interval> it should also succeed for affine transforms.", "quantifier": "all matrices, vectors, intervals", "why_tests_cant": "Reachability of a panic over all inputs.", "anchors": ["src/math/transform.rs:map_vector"]}
{"id": "C41", "title": "interval point mapping encloses the exact image", "statement": "For an affine transform over f32/f64 (fourth row 0,0,0,1) mapping a Point3<Interval> encloses the exact image of every enclosed real point.", "quantifier": "all affine matrices, all interval points, all reals in them", "why_tests_cant": "Quantifies over reals and rounding.", "anchors": ["src/math/transform.rs:map_point", "src/math/vectori.rs"]}
{"id": "C42", "title": "rays: eval and transformation commute and tmax is kept", "statement": "t.map(ray).eval(s) = t.map(ray.eval(s)) for affine transforms; mapping leaves tmax unchanged.", "quantifier": "all affine transforms, rays, parameters", "why_tests_cant": "Universally quantified.", "anchors": ["src/geometry/ray.rs:Ray::eval", "src/geometry/ray.rs:TransformMap<Ray>"]}
{"id": "C43", "title": "Bbox3::new orders its corners and contains them", "statement": "For non-NaN corners in any order, pmin <= pmax componentwise, both inputs are inside, and it is the least such box.", "quantifier": "all pairs of non-NaN f32 points", "why_tests_cant": "All orderings incl. equal, infinite and signed-zero coordinates.", "anchors": ["src/geometry/bbox.rs:Bbox3::new"]}
{"id": "C44", "title": "union / intersect / inside / overlaps agree with set semantics", "statement": "For boxes with non-NaN coordinates and any f32 point p: inside(a.intersect(b),p) iff inside both; inside either implies inside the union; union is the least enclosing box, commutative, associative, idempotent; for boxes with nonempty interior overlaps iff the open interiors meet, and it is symmetric; ordered boxes that overlap share a point; default() contains no point and is the identity of union for boxes with pmin != +inf and pmax != -inf.", "quantifier": "all f32 boxes and points", "why_tests_cant": "Lattice laws over all boxes.", "anchors": ["src/geometry/bbox.rs:union", "src/geometry/bbox.rs:intersect", "src/geometry/bbox.rs:overlaps", "src/geometry/bbox.rs:inside", "src/geometry/bbox.rs:Default"]}
{"id": "C45", "title": "center is inside, diagonal and max_extent are right", "statement": "For a well-formed finite box center() is inside it, diagonal() is componentwise nonnegative, max_extent() returns an axis whose extent is maximal together with the bounds of that axis.", "quantifier": "all well-formed finite f32 boxes", "why_tests_cant": "Rounding and overflow on all boxes.", "anchors": ["src/geometry/bbox.rs:center", "src/geometry/bbox.rs:diagonal", "src/geometry/bbox.rs:max_extent"]}
{"id": "C46", "title": "ray/box slab test returns exactly the parameter interval inside the box", "statement": "In exact arithmetic, for a well-formed box and a ray with tmax >= 0, intersect_ray returns Some((t0,t1)) iff some t in [0,tmax] is inside, and then {t in [0,tmax] : ray(t) inside} = [t0,t1].", "quantifier": "all boxes, all rays (including axis-parallel ones)", "why_tests_cant": "All directions incl. zero components and boundary origins.", "anchors": ["src/geometry/bbox.rs:intersect_ray"]}
{"id": "C47", "title": "box hit records are consistent", "statement": "Bbox3::intersect never panics, reports a t in [0,tmax], a point whose coordinate on the reported face equals the box bound exactly, and a unit outward normal of that face; do_intersect iff intersect is Some; in exact arithmetic t is the least parameter inside the box and the reported point is the ray's point at t.", "quantifier": "all f32 boxes and rays", "why_tests_cant": "Reachability of the panic arm and consistency for all floats.", "anchors": ["src/geometry/bbox.rs:IntersectsRay for Bbox3"]}
{"id": "C48", "title": "transforming a box encloses the transformed points", "statement": "Every point of the box maps, under an affine transform, into the mapped box.", "quantifier": "all affine transforms, boxes, points", "why_tests_cant": "Universally quantified.", "anchors": ["src/geometry/bbox.rs:map_bbox"]}
{"id": "C49", "title": "sphere intersection finds the first valid hit", "statement": "In exact arithmetic intersect returns the least t in [0,tmax] whose ray point lies on the sphere with z in [z_min,z_max] and phi <= phi_max, and None iff there is none.", "quantifier": "all spheres, all rays with nonzero direction", "why_tests_cant": "All geometry incl. tangency, origin on the surface, clipped hemispheres.", "anchors": ["src/geometry/sphere.rs:Sphere::intersect_ray", "src/geometry/sphere.rs:solve_quadratic"]}
{"id": "C50", "title": "solve_quadratic returns the sorted real roots", "statement": "For a != 0 it returns None iff the discriminant is negative and otherwise the two roots in increasing order.", "quantifier": "all a,b,c", "why_tests_cant": "Universally quantified.", "anchors": ["src/geometry/sphere.rs:solve_quadratic"]}
{"id": "C51", "title": "sphere bounding box contains every hit", "statement": "Every reported hit point is inside Sphere::bbox().", "quantifier": "all spheres and rays", "why_tests_cant": "Universally quantified.", "anchors": ["src/geometry/sphere.rs:Bounded3 for Sphere"]}
{"id": "C52", "title": "sphere surface parameterisation", "statement": "The reported (u,v) are in [0,1]^2 and invert the documented parameterisation, dpdu and dpdv are its partial derivatives at the hit, and n is the unit outward normal.", "quantifier": "all spheres, all hits", "why_tests_cant": "Derivatives cannot be tested by sampling.", "anchors": ["src/geometry/sphere.rs:Sphere::intersect", "src/geometry/primitive.rs:SurfaceInteraction::new"]}
{"id": "C53", "title": "sphere area formula", "statement": "area() equals the surface area of the clipped sphere described by the parameterisation.", "quantifier": "all spheres", "why_tests_cant": "An integral.", "anchors": ["src/geometry/sphere.rs:area"]}
{"id": "C54", "title": "do_intersect agrees with intersect for every primitive", "statement": "For every primitive, including arbitrarily nested lists and transformed primitives, do_intersect(ray) iff intersect(ray).is_some().", "quantifier": "all primitive trees of any depth, all rays, any float semantics", "why_tests_cant": "Structural induction over trees.", "anchors": ["src/geometry/primitive.rs:IntersectsRay", "src/geometry/sphere.rs", "src/geometry/bbox.rs"]}
{"id": "C55", "title": "a primitive list reports the closest hit", "statement": "PrimitiveList::intersect returns a hit with the least t_ray among its members' hits.", "quantifier": "all lists, all rays", "why_tests_cant": "All lists of any length in any order.", "anchors": ["src/geometry/primitive.rs:PrimitiveList::intersect"]}
{"id": "C56", "title": "a primitive list hits iff some member hits", "statement": "PrimitiveList::intersect is Some iff some member's intersect is Some and then returns one of the members' results; do_intersect iff some member do_intersects; empty list never hits.", "quantifier": "all lists", "why_tests_cant": "Any length.", "anchors": ["src/geometry/primitive.rs:PrimitiveList"]}
{"id": "C57", "title": "list bounding box is the union of the members", "statement": "Every point inside a member's box is inside the list's box and it is the least such (for members with finite boxes); order of insertion is irrelevant.", "quantifier": "all lists", "why_tests_cant": "Any length and order.", "anchors": ["src/geometry/primitive.rs:Bounded3 for PrimitiveList"]}
{"id": "C58", "title": "transformed primitives: t is preserved and results are in world space", "statement": "A hit of a transformed primitive has the same t in world space, and the reported point lies on the world-space ray.", "quantifier": "all invertible affine transforms, primitives, rays", "why_tests_cant": "Universally quantified.", "anchors": ["src/geometry/primitive.rs:TransformedPrimitive"]}
{"id": "C59", "title": "disk sampling maps stay in the disk and preserve area", "statement": "uniform_sample_disk and concentric_sample_disk map [0,1]^2 into the closed unit disk, with Jacobian determinant of constant absolute value pi; concentric squares go to concentric circles.", "quantifier": "all points of the unit square", "why_tests_cant": "Calculus over the whole square.", "anchors": ["src/cameras/camera.rs:uniform_sample_disk", "src/cameras/camera.rs:concentric_sample_disk"]}
{"id": "C60", "title": "thin lens camera obeys the lens equation and focuses the focal plane", "statement": "1/focal_length = 1/focal_distance + 1/film_distance; all rays generated for one film sample pass through a single point, which lies on the plane z = -focal_distance; rays start on the lens, have unit direction and tmax = highest.", "quantifier": "all camera parameters and samples", "why_tests_cant": "Universally quantified over reals.", "anchors": ["src/cameras/thin_lens.rs:ThinLensCamera::new", "src/cameras/thin_lens.rs:generate_ray"]}
{"id": "C61", "title": "thin lens camera honours the requested field of view", "statement": "The rays generated at the left and right film edges through the lens centre enclose the angle fov.", "quantifier": "all camera parameters", "why_tests_cant": "Universally quantified.", "anchors": ["src/cameras/thin_lens.rs:ThinLensCamera::new"]}
{"id": "C62", "title": "integer scalars: checked and wrapping semantics agree when no overflow occurs", "statement": "For u8..i64 vectors and matrices, in release mode every dot/matrix product equals the exact integer result modulo 2^bits, and in debug mode it equals the exact result or panics.", "quantifier": "all integer widths, all vectors and matrices", "why_tests_cant": "All values.", "anchors": ["src/math/scalar.rs:Scalar for integers", "src/math/vector.rs", "src/math/transform.rs"]}
{"id": "C63", "title": "vectors of intervals enclose the exact results", "statement": "For vectors of intervals of any dimension, +, -, unary minus, scaling by a float, square_norm, square_distance, dot and norm enclose the exact real result for all enclosed real vectors.", "quantifier": "all dimensions, all interval vectors, all reals in them", "why_tests_cant": "Quantifies over reals, roundings and dimensions.", "anchors": ["src/math/vector.rs", "src/math/vectori.rs", "src/math/vector_traits.rs:Norm::norm"]}
{"id": "C64", "title": "surface frames are right-handed: n = dpdu x dpdv", "statement": "Every reported surface interaction has n equal to the unit vector along dpdu x dpdv, the convention of SurfaceInteraction::new.", "quantifier": "all boxes and rays (f32/f64), all spheres and hits in exact arithmetic", "why_tests_cant": "All six faces, all inputs.", "anchors": ["src/geometry/bbox.rs:IntersectsRay for Bbox3", "src/geometry/primitive.rs:SurfaceInteraction::new"]}
{"id": "C65", "title": "Interval tan encloses the exact value", "statement": "x in a and cos(x) != 0 implies tan(x) in a.tan(), given one-ulp-accurate, sign-correct platform sin/cos.", "quantifier": "all valid finite intervals, all reals in them, every libm meeting the accuracy contract", "why_tests_cant": "Quantifies over reals and libm implementations.", "anchors": ["src/math/interval_as_gfloat.rs:GFloat::tan"]}
{"id": "C66", "title": "Interval classification and constants", "statement": "On intervals is_nan, is_finite and is_infinite answer for both bounds (NaN bound, both finite, both the same infinity); zero, one, half, neg_zero, min_positive, highest, lowest and the epsilons denote exactly one number; two encloses 2 tightly; nan/infinity/neg_infinity are a NaN interval and intervals beyond every bounded one.", "quantifier": "all intervals, both formats", "why_tests_cant": "is_infinite must be right for every pair of bounds; a test of a few intervals cannot show it.", "anchors": ["src/math/interval_as_gfloat.rs:is_nan", "src/math/interval_as_gfloat.rs:is_infinite", "src/math/interval_as_gfloat.rs:is_finite", "src/math/interval.rs:Scalar for Interval"]}
{"id": "C67", "title": "Interval conversions", "statement": "from_i64/from_f32/from_f64 give an interval containing the converted number; to_i64/to_f32/to_f64 and f32::from/f64::from give the correctly rounded midpoint, converted.", "quantifier": "all integers of i64, all floats, all bounded ordered intervals", "why_tests_cant": "The failures are at integers beyond the significand, which tests do not sample.", "anchors": ["src/math/interval_as_gfloat.rs:from_i64", "src/math/interval_as_gfloat.rs:from_f64", "src/math/interval_as_gfloat.rs:to_f32", "src/math/interval.rs:From<Interval<f32>> for f32"]}
{"id": "C68", "title": "Trait methods with default bodies are right on intervals", "statement": "is_positive, is_nonnegative, signum, clamp, min_max, in_range, recip, fequals, almost_eq, is_zero and is_one called on intervals through the traits mean the same as on the numbers they stand for: a predicate is true iff it holds for all members, a value encloses all results.", "quantifier": "all non-empty intervals and all their members", "why_tests_cant": "Overlapping and zero-touching intervals are a measure-zero corner of the input space.", "anchors": ["src/math/scalar.rs:SignedScalar::is_nonnegative", "src/math/scalar.rs:Scalar::clamp", "src/math/scalar.rs:Scalar::min_max", "src/math/scalar.rs:GFloat::fequals", "src/math/interval.rs:AlmostEqual for Interval"]}
{"id": "C69", "title": "Neighbours and pi bounds of intervals", "statement": "next_up/next_down of an interval move both bounds to the adjacent float; every member of the interval pi_lower (tau_lower, ...) is <= the constant and every member of pi_upper is >= it.", "quantifier": "all proper intervals; both formats", "why_tests_cant": "Concerns irrational constants and adjacency over all floats.", "anchors": ["src/math/interval_as_gfloat.rs:next_up", "src/math/interval_as_gfloat.rs:next_down", "src/math/scalar.rs:GFloat::pi_lower"]}
{"id": "C70", "title": "Elementary functions of intervals give valid intervals", "statement": "For every bounded valid interval sin, cos, tan, asin, acos, atan, atan2 give an interval whose lower bound is at most its upper bound; sin/cos/tan always contain the values at both ends, sin and cos stay within two floats of [-1,1]; sin_cos is the pair of sin and cos.", "quantifier": "all bounded valid intervals (all non-empty ones for atan, atan2), every libm meeting the accuracy contract", "why_tests_cant": "Whether bounds cross depends on branch choices over all pairs of floats and on libm.", "anchors": ["src/math/interval_as_gfloat.rs:GFloat::sin", "src/math/interval_as_gfloat.rs:GFloat::asin", "src/math/interval_as_gfloat.rs:GFloat::atan", "src/math/interval_as_gfloat.rs:GFloat::atan2"]}
{"id": "C71", "title": "Interval operations are inclusion isotonic", "statement": "If a is within c and b within d then a op b is within c op d, for +, -, *, /, unary minus, abs, min, max, union, intersection, square and sqrt: shrinking the inputs never enlarges or moves the result.", "quantifier": "all pairs of nested bounded valid intervals (non-empty ones for the exact operations), f32 and f64", "why_tests_cant": "Ranges over four intervals at once and over all roundings.", "anchors": ["src/math/interval.rs:Add", "src/math/interval.rs:Mul", "src/math/interval.rs:Div", "src/math/interval.rs:sqrt", "src/math/interval.rs:union"]}
{"id": "C72", "title": "Interval operations obey the expected symmetry laws", "statement": "a+b and b+a, a*b and b*a, min, max, union and intersection in either order have equal bounds; a-b equals a+(-b); a scalar operand acts as the one-point interval.", "quantifier": "all bounded valid intervals and finite scalars, f32 and f64", "why_tests_cant": "All pairs of intervals; the case splits in * differ by order.", "anchors": ["src/math/interval.rs:Add", "src/math/interval.rs:Sub", "src/math/interval.rs:Mul", "src/math/interval.rs:Div", "src/math/interval.rs:From"]}
{"id": "C73", "title": "The interval result contains the float result", "statement": "Computing an expression with floats gives a number inside the interval obtained by computing the same expression with intervals that contain the inputs, as long as no float subresult overflows or is NaN, no interval subresult is NaN and no product has two factors straddling zero; so the width of the interval result bounds the rounding error of the float result.", "quantifier": "all expressions of any size over +, -, *, /, unary minus, abs, square, sqrt, min, max, extend and scalar operands; all inputs; f32 and f64", "why_tests_cant": "Quantifies over all expressions and inputs.", "anchors": ["src/math/interval.rs:Interval", "src/math/interval_as_gfloat.rs", "src/math/scalar.rs:Scalar"]}
{"id": "C74", "title": "Sphere hits in floats are consistent", "statement": "In f32/f64 arithmetic a reported hit has 0 <= t <= tmax, its point is the ray evaluated at t, its z is within [z_min,z_max], its azimuth is not above phi_max, and it lies in the sphere's bounding box; do_intersect agrees with intersect; Sphere::new panics exactly when z_min < z_max fails; the two roots of the quadratic are in order.", "quantifier": "all float spheres and rays, every platform libm", "why_tests_cant": "Rounding cases are not reached by sampling.", "anchors": ["src/geometry/sphere.rs:Sphere::intersect_ray", "src/geometry/sphere.rs:Sphere::new", "src/geometry/sphere.rs:solve_quadratic", "src/geometry/sphere.rs:Bounded3 for Sphere"]}
{"id": "C75", "title": "The float slab test agrees with exact geometry up to rounding", "statement": "In f32/f64 arithmetic Bbox3::do_intersect answers whether the exact ray meets the exact box within its extent, and the reported parameters are the first and last such parameter up to a few roundings.", "quantifier": "all finite boxes with ordered corners, all finite rays, no overflow of corner differences, no ray inside a lower face plane", "why_tests_cant": "The disagreements are single roundings at grazing incidence.", "anchors": ["src/geometry/bbox.rs:Bbox3::intersect_ray", "src/geometry/bbox.rs:IntersectsRay for Bbox3"]}
{"id": "C76", "title": "Vector lengths are accurate to a few roundings", "statement": "In f32/f64 arithmetic norm and distance return the Euclidean length up to a relative error of about n+1 roundings (n+2 for distance) plus an underflow term, and normalize returns a vector of length 1 up to 6 roundings in the direction of the input.", "quantifier": "all float vectors of any dimension with a finite result; f32 and f64", "why_tests_cant": "The bound quantifies over every rounding pattern; overflow and underflow of the squared length are rare inputs.", "anchors": ["src/math/vector.rs:InnerScalar::norm", "src/math/vector.rs:normalize", "src/math/vector.rs:distance"]}
{"id": "C77", "title": "Cross products, ray points, transforms and matrix products are accurate to a few roundings", "statement": "In f32/f64 arithmetic each component of a cross product, of a ray point, of a mapped vector or point (affine transforms) and of a matrix product differs from the exact result by at most k roundings (k = 2, 2, 3, 4, 4) of the sum of the magnitudes of its terms plus an underflow term.", "quantifier": "all float vectors, rays, affine transforms and matrices whose result is finite; f32 and f64", "why_tests_cant": "Quantifies over all rounding patterns.", "anchors": ["src/math/vector.rs:cross", "src/math/transform.rs:Transform::map_vector", "src/math/transform.rs:Transform::map_point", "src/math/transform.rs:Mul for Matrix4x4"]}
{"id": "C78", "title": "Disk samples in f32/f64 match the exact maps", "statement": "In f32/f64 arithmetic uniform_sample_disk and concentric_sample_disk return finite points of the closed unit disk, within 16 roundings of the exact sample point.", "quantifier": "all float points of the unit square; f32 and f64; every platform sin/cos accurate to one ulp", "why_tests_cant": "Quantifies over every float of the unit square and every library satisfying the accuracy contract.", "anchors": ["src/cameras/camera.rs:uniform_sample_disk", "src/cameras/camera.rs:concentric_sample_disk"]}
{"id": "C79", "title": "Equality of matrices, transforms and vectors is entrywise", "statement": "Two matrices are (approximately) equal exactly when all sixteen entries are; two transforms exactly when both their matrices and both their inverse matrices are. For float transforms approximate equality is symmetric and reflexive exactly on finite transforms. The approximation of an interval vector is made of the midpoints of its components.", "quantifier": "all matrices and transforms over any scalar; all float transforms", "why_tests_cant": "A comparison that skips an entry is only exposed by inputs differing in that entry.", "anchors": ["src/math/transform.rs:AlmostEqual for Matrix4x4", "src/math/transform.rs:AlmostEqual for Transform", "src/math/vectori.rs:From"]}
{"id": "C80", "title": "Interval sin, cos, atan, asin and acos are tight", "statement": "The bounds returned by the interval sine and cosine differ from values the function takes on the interval by at most five units of roundoff; arctangent, and arcsine and arccosine of arguments in [0,1], are within seven units of roundoff of the values at the ends.", "quantifier": "every finite interval of f32 or f64 and every math library accurate to one ulp", "why_tests_cant": "An enclosure can always be made correct by widening it to [-1,1]; that it is never needlessly wide is a claim about all intervals, including those ending next to an extremum.", "anchors": ["src/math/interval.rs:sin", "src/math/interval.rs:cos", "src/math/interval.rs:asin", "src/math/interval.rs:acos", "src/math/interval.rs:atan"]}
{"id": "C81", "title": "Float camera rays of one film sample pass through one point of the plane of focus", "statement": "In f32/f64 arithmetic generate_ray returns, for every lens sample, a ray whose camera-space origin is the lens radius times the exact disk sample up to 18 roundings, whose camera-space direction has length 1 up to 6 roundings and points, up to 8 roundings, to a point that depends on the film sample only and lies within a few roundings of the exact image of the film point; both are carried to world space by the camera's inverse matrix with the usual bounds, and the extent is unlimited. The constructor's film distance satisfies the lens equation up to four roundings.", "quantifier": "all cameras with sizes between 1/1024 and 2^20 whose plane of focus is not the lens plane, an affine view, all film and lens samples of the unit square, every platform sin/cos accurate to one ulp; f32 and f64", "why_tests_cant": "Quantifies over all cameras and all samples and over every rounding pattern.", "anchors": ["src/cameras/thin_lens.rs:ThinLens::generate_ray", "src/cameras/thin_lens.rs:ThinLens::new"]}
{"id": "C82", "title": "A scene is hit exactly where the ray meets one of its shapes", "statement": "For scenes built from boxes, spheres, transformed primitives and lists nested to any depth, intersect never panics, a reported hit is a point of the scene at the reported parameter inside the ray's extent, a ray that meets the scene is reported to hit it, do_intersect gives the same answer, and without branching the reported parameter is the first one.", "quantifier": "all primitive trees of any size and depth, all valid transforms, all rays, in exact arithmetic", "why_tests_cant": "The claim is an induction over arbitrary nesting; each level composes transforms and selections.", "anchors": ["src/geometry/primitive.rs:Primitive::intersect", "src/geometry/primitive.rs:TransformedPrimitive", "src/geometry/primitive.rs:PrimitiveList"]}
{"id": "C83", "title": "The bounding box of a scene contains it and may be used for culling", "statement": "The bounding box of any primitive tree contains every point of the tree's shape; hence a ray that misses the box misses the scene, and skipping such primitives loses no hit.", "quantifier": "all primitive trees of any size and depth, all valid transforms, all rays, in exact arithmetic", "why_tests_cant": "Arbitrary nesting of transforms and lists.", "anchors": ["src/geometry/primitive.rs:TransformedPrimitive::bbox", "src/geometry/primitive.rs:PrimitiveList::bbox", "src/geometry/bbox.rs:Transform::map_bbox"]}
{"id": "C84", "title": "The float quadratic solver is stable", "statement": "In f32/f64 arithmetic the quadratic solver behind the sphere test returns, for coefficients a, b, c, two finite sorted numbers, each within five roundings of a root of an equation whose coefficients differ from the given ones by at most one rounding; it returns None only when such a nearby equation has no real root.", "quantifier": "all finite coefficients with a between 2^-50 and 2^50 in size, b and c zero or of such size, b and c not both zero; f32 and f64", "why_tests_cant": "rounding errors of every combination of coefficients, including near-double roots and catastrophic cancellation", "anchors": ["src/geometry/sphere.rs: solve_quadratic"]}
{"id": "C85", "title": "Float sphere hits lie near the sphere and clear crossings are reported", "statement": "In f32/f64 arithmetic a hit reported for a sphere has a finite parameter and point, and both the exact ray point at that parameter and the reported point satisfy the sphere equation up to 100 roundings of |origin|^2 + radius^2. A ray that meets the sphere within its extent is reported to hit it.", "quantifier": "all float spheres with radius between 2^-10 and 2^20 and all float rays with origin up to 2^20 and direction between 2^-10 and 2^10; f32 and f64; every math library", "why_tests_cant": "Quantifies over every rounding pattern, including grazing rays and rays starting on or near the surface.", "anchors": ["src/geometry/sphere.rs: Sphere::intersect", "src/geometry/sphere.rs: Sphere::do_intersect", "src/geometry/sphere.rs: solve_quadratic"]}
{"id": "C86", "title": "Float rotations are rotations up to rounding", "statement": "In f32/f64 arithmetic rotate_x, rotate_y and rotate_z (up to 3 roundings per entry) and rotate about any nonzero axis (up to 54) are the rotation by the given angle about the given axis; the stored inverse is exactly the transpose. Such transforms keep dot products up to rounding; mapping a vector neither panics nor overflows, gives the turned vector up to a few roundings of its length, and mapping back returns the vector up to rounding.", "quantifier": "all float angles, all finite nonzero float axes, all float vectors up to length 2^100; every platform sin/cos accurate to one ulp; f32 and f64", "why_tests_cant": "Quantifies over every axis, angle, vector and rounding pattern.", "anchors": ["src/math/transform.rs:Transform::rotate", "src/math/transform.rs:Transform::rotate_x", "src/math/transform.rs:Transform::rotate_y", "src/math/transform.rs:Transform::rotate_z", "src/math/transform.rs:TransformMap for Vector3"]}
{"id": "C87", "title": "Float look_at gives an orthonormal camera frame up to rounding", "statement": "In f32/f64 arithmetic look_at returns finite affine matrices that take world coordinates to the coordinates of the right-handed orthonormal frame with the eye as origin, the third axis pointing from the target to the eye and the second axis towards up, and back; the error per coordinate is at most 262 roundings divided by the sine of the angle between up and the line of sight, times the size of the vector (distance from the eye), plus four roundings of the eye position.", "quantifier": "all finite eyes, targets and up directions that are not parallel to the line of sight; f32 and f64", "why_tests_cant": "Quantifies over all camera placements and every rounding pattern.", "anchors": ["src/math/transform.rs:Transform::look_at", "src/math/transform.rs:Transform::init_from_orthogonal_basis"]}
{"id": "C88", "title": "Float perspective projects and unprojects points up to rounding", "statement": "In f32/f64 arithmetic Transform::perspective(fov, near, far) maps every point off the camera plane to its exact perspective projection (the view frustum goes to [-1,1]x[-1,1]x[0,1]): x and y with a relative error of at most 6 roundings, the depth with at most 7 roundings of the two terms it is made of. Mapping the result back with the stored inverse returns the point with a relative error of at most 41 roundings times one plus the ratio of the depth to the near plane.", "quantifier": "all fields of view in (0, PI), all clipping planes 0 < near < far, all finite points with z not zero; f32 and f64", "why_tests_cant": "Quantifies over all projections and points and every rounding pattern; the inverse matrix is computed by Cramer's rule in floats.", "anchors": ["src/math/transform.rs:Transform::perspective", "src/math/transform.rs:Matrix4x4::inverse", "src/math/transform.rs:Transform::map_point"]}
{"id": "C89", "title": "The float matrix inverse is accurate up to the cancellation in the determinant", "statement": "In f32/f64 arithmetic every entry of Matrix4x4::inverse() is finite and within 24 roundings of the exact inverse's entry, measured by the size of the terms it is made of and multiplied by the cancellation in the determinant (permanent of the absolute values over the determinant); the products with the matrix differ from the identity by as much. The inverse of a singular matrix has an entry that is not finite.", "quantifier": "all float matrices with entries zero or between 1/4096 and 4096, nonzero determinant and cancellation at most 1/32 of 1/roundoff; all finite singular matrices", "why_tests_cant": "Quantifies over all matrices and every rounding pattern.", "anchors": ["src/math/transform_inverse_impl.rs:inverse", "src/math/transform.rs:Matrix4x4::inverse"]}
{"id": "C90", "title": "Tracing a float ray through a scene does not panic", "statement": "In f32/f64 arithmetic intersect and do_intersect of a scene whose transforms are finite and affine return for every finite ray: the assertion on the fourth coordinate in mapping points and vectors never fails.", "quantifier": "all scenes of any size and depth, all finite rays; f32 and f64; every math library", "why_tests_cant": "Whether an intermediate ray overflows depends on the whole chain of nested transforms.", "anchors": ["src/geometry/primitive.rs:TransformedPrimitive", "src/geometry/primitive.rs:PrimitiveList", "src/math/transform.rs:Transform::map_vector", "src/math/transform.rs:Transform::map_point", "src/geometry/ray.rs:Ray"]}
{"id": "C91", "title": "Composed float transforms map like the two in turn", "statement": "In f32/f64 arithmetic mapping a point or vector with the product of two affine transforms and mapping it with one after the other both give the exact image up to 8 roundings (points; 6 and 7 for vectors) of the sum of the magnitudes of the terms plus an underflow term. A finite product of affine transforms is exactly affine, so mapping with it cannot panic.", "quantifier": "all finite affine float transforms and finite points and vectors whose results are finite; f32 and f64", "why_tests_cant": "Quantifies over all transforms, points and rounding patterns.", "anchors": ["src/math/transform.rs:Mul<Transform<T>> for Transform<T>", "src/math/transform.rs:Transform::map_point", "src/math/transform.rs:Transform::map_vector"]}
{"id": "C92", "title": "Mapping a float ray commutes with evaluating it", "statement": "In f32/f64 arithmetic the point at parameter s of the mapped ray and the mapped point at parameter s of the ray both are the exact image of the exact ray point up to 6 roundings of the sum of the magnitudes of the terms plus an underflow term.", "quantifier": "all finite affine float transforms, rays and parameters whose results are finite; f32 and f64", "why_tests_cant": "Quantifies over all transforms, rays and rounding patterns.", "anchors": ["src/geometry/ray.rs:TransformMap<Ray<U>> for Transform<T>", "src/geometry/ray.rs:Ray::eval"]}
{"id": "C93", "title": "Float translations and scalings can be undone", "statement": "In f32/f64 arithmetic mapping a point with a translation or a scaling and mapping the result back with the stored inverse returns the same point.", "quantifier": "all finite float offsets, nonzero scale factors and points whose results are finite; f32 and f64", "why_tests_cant": "Absorption depends on every pair of magnitudes.", "anchors": ["src/math/transform.rs:Transform::translate", "src/math/transform.rs:Transform::scale"]}
{"id": "C94", "title": "Float hits in nested scenes are where the shapes are", "statement": "For any scene of boxes, spheres, lists and nested affine transforms in f32/f64: if a hit is reported, the world point at the reported parameter, carried exactly into the space of one of the shapes, is within a few roundings per transform passed (relative to the magnitudes added up, plus an underflow term) and a few roundings of the intersection routine of the surface of that sphere or of that box. At every parameter the ray tested against a shape is the world ray carried there, up to the same bound. If the test of a shape says yes for the ray as it arrives, the scene does not report a miss.", "quantifier": "all scenes with finite affine inverse matrices, of any depth; rays that arrive finite and at ordinary sizes at the shape hit; f32 and f64", "why_tests_cant": "Rounding errors accumulate over every nesting depth and every transform.", "anchors": ["src/geometry/primitive.rs:TransformedPrimitive::intersect", "src/geometry/primitive.rs:PrimitiveList::intersect", "src/geometry/sphere.rs:Sphere::intersect", "src/geometry/bbox.rs:Bbox3::intersect", "src/geometry/ray.rs:TransformMap<Ray<U>> for Transform<T>"]}
{"id": "C95", "title": "The float camera's film has the size its arguments ask for", "statement": "In f32/f64 arithmetic the film of the camera built by ThinLens::new is as wide as exact arithmetic makes it (half of tan(fov/2) times the film distance) up to 8 roundings and as high as that width over the aspect ratio up to 9; width over film distance and width over height are right up to 5 and 2 roundings. For moderate sizes the camera built satisfies every condition under which its rays are described by C81.", "quantifier": "all fields of view from 1/1024 radians with tan(fov/2) up to 1024, focal distance, focal length and aspect ratio between 1/1024 and 2^20 in size, focal distance and length at least 1/1024 apart; every platform tan accurate to one ulp; f32 and f64", "why_tests_cant": "Quantifies over all camera parameters and every rounding pattern.", "anchors": ["src/cameras/thin_lens.rs:ThinLens::new"]}
{"id": "C96", "title": "Float normals and tangents of sphere hits are accurate", "statement": "In f32/f64 arithmetic the normal reported for a sphere hit is finite and points from the centre to the hit point up to rounding, the first texture coordinate is the fraction of the wedge at which the point lies up to rounding, the first tangent is the derivative along the circle of latitude, the second tangent points up the meridian, and the second coordinate is the fraction of the polar angle between the cuts, up to rounding (heights moved by 2 roundings of the radius). The normal is wrong below the equator, where its value is described.", "quantifier": "all spheres built from arguments of moderate size (a wedge that is not nearly closed, some height above the equator), all rays of moderate size and all their hits a few roundings off the axis; every platform sin, cos, acos and atan2 accurate to one ulp; f32 and f64", "why_tests_cant": "Quantifies over all spheres, rays, rounding patterns and platform libraries.", "anchors": ["src/geometry/sphere.rs:Sphere::intersect", "src/geometry/sphere.rs:Sphere::new", "src/geometry/primitive.rs:SurfaceInteraction::new"]}
{"id": "C97", "title": "Boxes moved or scaled in floats contain the mapped points", "statement": "In f32/f64 arithmetic the box returned by map_bbox for a translation, a scaling or any affine transform without off-diagonal entries contains, bit for bit, the image map_point computes for every float point of the box, results that overflow included; its bounds along each axis are the computed images of the box's corners. The same holds for the inverse maps.", "quantifier": "all finite float offsets and factors, all finite boxes and float points in them; f32 and f64", "why_tests_cant": "One rounding in the wrong direction would leave a point outside; all points, boxes and offsets are quantified.", "anchors": ["src/geometry/bbox.rs:Transform::map_bbox", "src/math/transform.rs:Transform::map_point", "src/math/transform.rs:Transform::translate", "src/math/transform.rs:Transform::scale"]}
{"id": "C98", "title": "The bounding box of a float scene contains its parts", "statement": "In f32/f64 arithmetic the bounding box of a scene contains, without rounding allowance, the point to which map_point carries any point of a box, of a sphere's extent or of a user-defined primitive's box through the transforms above it; it has no NaN bound; and a scene without shapes has an empty bounding box.", "quantifier": "all scenes of any size and depth whose transforms are finite, affine and only scale the axes and translate and whose boxes below transforms are finite; f32 and f64", "why_tests_cant": "Arbitrary nesting; one rounding in the wrong direction at any level would leave a part outside.", "anchors": ["src/geometry/primitive.rs:TransformedPrimitive::bbox", "src/geometry/primitive.rs:PrimitiveList::bbox", "src/geometry/bbox.rs:Transform::map_bbox", "src/geometry/bbox.rs:Bbox3::union", "src/geometry/bbox.rs:Default for Bbox3", "src/geometry/sphere.rs:Bounded3 for Sphere"]}
{"id": "C99", "title": "The float area of a sphere part is accurate and monotone", "statement": "In f32/f64 arithmetic area() is the area of the part 0 <= phi <= phi_max of the sphere between its cuts up to 4 roundings plus an underflow term; it is never negative, and a larger radius, wider wedge or wider cuts never give a smaller area.", "quantifier": "all float spheres whose area does not overflow; f32 and f64", "why_tests_cant": "Monotonicity relates all pairs of spheres and all roundings.", "anchors": ["src/geometry/sphere.rs:Sphere::area", "src/geometry/sphere.rs:Sphere::new"]}
{"id": "C100", "title": "Wrapping a primitive in the identity transform changes nothing", "statement": "In f32/f64 arithmetic a primitive wrapped in the identity transform is hit by exactly the same rays as the primitive itself, and with the same reported interaction.", "quantifier": "all primitives (user-defined ones included) and all finite rays; f32 and f64", "why_tests_cant": "Quantifies over every primitive and every ray, including rays with signed zeros.", "anchors": ["src/geometry/primitive.rs:TransformedPrimitive", "src/math/transform.rs:Transform::identity", "src/geometry/ray.rs:TransformMap<Ray<U>> for Transform<T>"]}
