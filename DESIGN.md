# A machine-checked model of `scarlet` in Rocq (Coq 8.16.1)

## 1. What is modelled

The Rust code is *generic*: almost everything is written once for `T: Scalar`/`T: GFloat`.
The model keeps that structure.  A Rust trait is a Coq type class containing **operations only
(no laws)**; a Rust generic function is a Gallina function over that class; a trait `impl` is an
instance.  Nothing in a class is an assumption, so no theorem rests on hidden fields.

| Rust | Coq (theories/Model) |
|---|---|
| `math/scalar.rs` traits and default methods | `Scalar.v` |
| `f32`, `f64` (`impl Scalar/SignedScalar/GFloat`) | `FloatBase.v`, `Float.v` (Flocq `binary_float`, RNE, bit-level `next_up/next_down`) |
| integer scalars | `Ints.v` |
| `math/interval.rs`, `interval_as_gfloat.rs` | `Interval.v` |
| `math/vector.rs`, `vector_traits.rs`, `vectori.rs` | `Vec.v` |
| `math/transform.rs`, `transform_inverse_impl.rs` | `Transform.v` |
| `geometry/*.rs` | `Geometry.v` |
| `cameras/*.rs` | `Camera.v` |
| (not Rust) panics as values | `Outcome.v` |
| (not Rust) IEEE arithmetic with rounding removed | `XReal.v` |

Three kinds of scalar instance are used:

* **`float F32`, `float F64`** - Flocq's IEEE-754 binary32/binary64, round to nearest even, one NaN
  (payloads are not observable through the API).  Used for every property about the floats
  themselves, interval inclusion, comparison-only code (boxes, lists) and rounding facts.
* **`xr`** - IEEE-754 arithmetic *without rounding*: a finite real with a sign bit (for signed
  zeros), two infinities and NaN.  Division by zero, 0/0, inf-inf, comparisons with NaN behave as
  in IEEE.  Used for the geometric/algebraic properties that are only meant to hold up to rounding.
  Because undefined operations yield NaN/inf, "the result is the finite real r" is a real claim.
* **machine integers** - `option Z` (`None` = the program panicked), with wrapping (release) and
  checked (debug) arithmetic.

`sin, cos, tan, asin, acos, atan, atan2` on floats are an oracle record (`libm`) the theorems
quantify over; accuracy hypotheses about it appear in the theorem statements, and a library meeting
them is constructed (`exact_libm`, the correctly rounded functions).

Panics are explicit: a function containing `assert!`/`assert_eq!`/`panic!` returns an outcome that
can be a panic.  `debug_assert!` in `Interval::new` is modelled by the release behaviour (no check)
plus theorems about when the checked condition holds (C20, C22).

## 2. Layout

* `theories/Model/` - the code, function by function, each definition with its source lines.
* `theories/Spec*.v` - the vocabulary of the statements: floats as extended reals, intervals as sets
  of reals, points/vectors as triples of reals, surfaces, cameras. No function of the model occurs
  in them except the data types (and, for expressions, the interval operations being evaluated).
* `theories/Proofs/` - lemmas. `theories/Props/` - the properties, one block per id: definitions of
  the full claim where it is false, theorems closed by `exact lemma`, `Print Assumptions`, and an
  `Example Cxx_case` showing that the hypotheses are met by a concrete non-trivial case.
* Naming: `_refuted` - the full claim is false of the code, with a witness; `_partial` - the part
  that holds, with a comment saying what is missing.

## 3. What is not modelled, and simplifications

* `Rem`/`RemAssign` for scalars (unused in the crate; `Interval`'s is `unimplemented!()`).
* `Debug`, `Clone`, `Copy` derives, `Rc`/`Box` allocation (`alloc_primitive`): sharing is not observable because primitives are immutable.
* Assign operators (`+=` ...) of scalars and intervals, each `*self = *self op rhs`, are identified with the plain operator.
* NaN payloads and the sign of NaN; the choice `f32::min/max` make between zeros of different sign (std leaves it open; the second argument is taken).
* `FnMut` arguments of `map_monotonic_inc/dec` are pure functions.
* The compiler, the hardware's conformance to IEEE-754, and the libm (an oracle with a contract).
* `#[cfg(test)]` modules and the commented-out Gaussian elimination.
* User-defined shapes (`dyn Primitive` outside the crate) are a parameter of the primitive tree.

## 4. Per property: how it is stated and proved

Status and remarks repeat MANIFEST.json; the theorems are in `theories/Props/`, all named `Cxx_...`.

| id | property | proof method | status | remarks |
|---|---|---|---|---|
| C01 | next_up / next_down return the adjacent float | bit-level `next_up`/`next_down` proved equal to Flocq `Bsucc`/`Bpred`, then adjacency in the order of the extended reals | proved (3 thms) | All f32 and f64 values; statement in the extended-real order. |
| C02 | next_up and next_down are mutually inverse and mirror images | from C01 and antisymmetry; the mirror law by case analysis on the bits | proved (3 thms) | Equality up to the sign of zero where the step crosses zero (feq), Leibniz equality for the mirror law. |
| C03 | min / max / min_max / clamp / in_range order laws | case analysis on comparison results; Flocq comparison lemmas | proved (7 thms) |  |
| C04 | fequals / almost_eq is a reflexive, symmetric tolerance test | unfold to rounded reals; rounding is monotone and symmetric; counterexample `inf` | partial (7 thms) | Reflexivity is false for infinities (C04_fequals_refl_refuted: inf-inf is NaN); everything else holds in full. |
| C05 | float classification predicates agree with IEEE classes | case analysis on float constructors; Flocq bounds on finite floats | partial (4 thms) | GFloat::is_infinite for f32/f64 returns is_finite(); the full classification is refuted, is_nan and is_finite are proved. |
| C06 | *_lower / *_upper constants bracket the real constants | Machin's formula with an alternating-series remainder bounds pi to 19 digits; constants evaluated by the kernel | partial (6 thms) | f32 pi_upper has the numerator of pi_lower and is below pi, so the upper half is refuted for f32 and proved for f64. |
| C07 | casts: widening is lossless, narrowing rounds to nearest, to_i64 truncates and saturates | Flocq conversion correctness; integer truncation by `Btrunc` | proved (6 thms) |  |
| C08 | signum / abs and sign predicates | case analysis; comparison with zero | proved (5 thms) |  |
| C09 | Interval + and - enclose the exact result, to within one extra ulp | monotone rounding + adjacency: rounding then one float outward always encloses; tightness by adjacency | proved (4 thms) |  |
| C10 | Interval * Interval encloses the exact product | as C09 with case analysis on the signs; counterexample computed by the kernel | partial (9 thms) | Refuted as stated: when both operands contain zero strictly inside, the upper bound is wrong ([-1,2]*[-3,1] misses 3). Proved for every other sign combination, with tightness; infinite endpoints can give 0*inf=NaN (also refuted), proved whenever the bounds are not NaN. For two straddling factors the lower bound is right and C10_straddle_iff says exactly when the upper bound is. |
| C11 | Interval / Interval encloses the exact quotient | as C09; division by an interval containing zero handled separately | proved (3 thms) |  |
| C12 | mixed Interval-scalar arithmetic encloses the exact result | as C09 | proved (7 thms) | Also covers infinite endpoints when the result bounds are not NaN. |
| C13 | Interval::square encloses squares and is tight | as C09, three sign cases | proved (4 thms) | The lower bound for an interval with an endpoint at zero is one float below zero (C13_square_negative_lower_bound); this is a witness about a boundary case, not a gap in the claim. |
| C14 | Interval sqrt encloses square roots | as C09, monotone sqrt | proved (4 thms) | C14_sqrt_negative_lower_nan records the behaviour outside the claim. |
| C15 | Interval negation, abs, min, max enclose the exact results | order reasoning on bounds | proved (8 thms) | abs of a strictly negative interval is sound but not tight (its upper bound is right, its lower bound is 0). |
| C16 | union is the hull, intersect is set intersection | order reasoning on bounds | proved (3 thms) |  |
| C17 | interval queries agree with set semantics | order reasoning on bounds; both directions | proved (5 thms) |  |
| C18 | approx lies inside the interval | exact doubling/halving in FLT formats | partial (4 thms) | Refuted for large bounds (inf+sup overflows); proved whenever the rounded sum of the bounds is in range. C18_approx_inside_iff: this is the exact condition. It is then the correctly rounded midpoint. |
| C19 | interval comparison is certain order | order reasoning; antisymmetry and transitivity from the order on bounds | proved (6 thms) |  |
| C20 | interval operations never build an inverted interval | per operation, then structural induction over arbitrary expressions | proved (3 thms) |  |
| C21 | Interval sin / cos enclose the exact values | platform `libm` is an arbitrary record with a one-ulp contract; real analysis of sin/cos on monotone pieces | partial (5 thms) | Proved for widths <= PI, >= 2 PI, or opposite slopes at the two ends; refuted in general: over [1,7] the extremum inside is missed, and C21_sin_gap_refuted/C21_cos_gap_refuted show that every interval left out misses one unless it ends within rounding of an extremum. |
| C22 | Interval asin / acos / atan enclose the exact values | same contract; monotone functions | partial (8 thms) | atan proved for every interval, also unbounded. asin/acos refuted for negative arguments (result is cut to [0, PI/2]) and in f32 at asin 1 / acos 0; C22_asin_exact and C22_acos_exact say exactly which values are enclosed. Below -1/2 the asin result is an inverted interval. |
| C23 | Interval atan2 encloses the exact angle | same contract; case analysis on quadrants, fuel shown sufficient | partial (5 thms) | Proved when neither argument is exactly zero (f64; in f32 also needs the angle below the f32 upper constants). Refuted on the axes: an exactly zero argument returns [0,0]. Termination proved. |
| C24 | constant intervals contain the real constants | constants evaluated by the kernel against the pi bounds | partial (3 thms) | f64 proved; for f32 every one of the four pi intervals misses its constant (refuted). half is proved for both. |
| C25 | fundamental theorem of interval arithmetic for composed expressions | structural induction over expressions | proved (1 thms) | Covers multiplication too, for products whose operands do not both straddle zero. |
| C26 | dot and square_norm in floats: symmetric, consistent, sign-correct | induction on the dimension | proved (3 thms) | dot symmetry and square_norm = dot are Leibniz equalities of floats. |
| C27 | floating-point dot product error bound | Flocq relative/absolute error, induction on the dimension | proved (2 thms) | Bound with u = 2^-prec and eta = smallest positive float; also without the side condition n*u <= 1/2. |
| C28 | cross product laws | exact instance + `ring`; float symmetry by commutativity of rounding | proved (4 thms) | Anticommutativity in floats needs no hypothesis (equal value or both NaN). |
| C29 | vector / point arithmetic is componentwise and affine | componentwise, induction on the dimension | proved (9 thms) |  |
| C30 | norm, distance and normalize | exact instance, sqrt algebra | proved (5 thms) |  |
| C31 | matrix algebra | `ring` over the 16 entries; integers modulo 2^n | proved (13 thms) | Exact arithmetic for associativity; transpose laws bit-exact for floats and integers; all laws bit-exact for wrapping integers. |
| C32 | inverse() is the two-sided inverse | `field` on the adjugate formula | proved (3 thms) | Exact arithmetic (IEEE without rounding). |
| C33 | every constructible transform carries its true inverse | induction on the closure of constructors under product and inverse | proved (3 thms) | `built` is the inductive closure of all constructors under product and inverse. |
| C34 | map / map_inverse are inverse to each other and compose | from C33 | proved (7 thms) |  |
| C35 | rotations are rigid and rotate by the given angle | exact instance, trigonometric identities | proved (4 thms) |  |
| C36 | translate / scale act as advertised in floats | float instance, evaluation of the 4x4 products with zeros and ones | proved (5 thms) | Bit-level for f32 and f64 up to the sign of zero. |
| C37 | look_at builds the documented camera frame | exact instance, orthonormal frame algebra | proved (2 thms) |  |
| C38 | perspective maps the frustum onto the cube | exact instance | proved (4 thms) | Also: points on the camera plane make the map panic. |
| C39 | normals stay perpendicular under transforms | exact instance; counterexample | partial (4 thms) | Refuted: the code multiplies the last entry of each row by n.z twice, i.e. it maps (n.x, n.y, n.z^2). C39_exactly_when: perpendicularity holds exactly when n.z is 0 or 1 or n is along the z axis. |
| C40 | mapping a vector panics exactly when the transform moves it off the w=0 plane | float, exact and interval instances | partial (6 thms) | Floats and exact arithmetic: proved in full. Interval vectors: refuted, the map always panics (the assert uses interval !=, and the interval sum is widened). |
| C41 | interval point mapping encloses the exact image | interval inclusion lemmas composed | proved (2 thms) | Also for projective transforms, where the homogeneous coordinate of the point is nonzero. |
| C42 | rays: eval and transformation commute and tmax is kept | exact and float instances | proved (4 thms) |  |
| C43 | Bbox3::new orders its corners and contains them | comparison reasoning on floats | proved (2 thms) | Proved in full for f32 and f64. |
| C44 | union / intersect / inside / overlaps agree with set semantics | comparison reasoning on floats | proved (8 thms) | Proved in full for f32 and f64. |
| C45 | center is inside, diagonal and max_extent are right | comparison reasoning; overflow counterexample | partial (5 thms) | diagonal and max_extent proved in full. center: refuted (pmax + pmin overflows for a box near the largest float), proved when the corner sums are finite. C45_center_inside_iff: this is the exact condition. |
| C46 | ray/box slab test returns exactly the parameter interval inside the box | exact instance with signed zeros/inf/NaN, case analysis per axis | partial (4 thms) | Exact arithmetic. Refuted: a ray running inside the plane of a lower bound (zero direction component, origin on pmin of a slab of positive width) is always reported as a miss because 0/0 poisons min/max; C46_lower_plane_always_missed proves this for all such rays. In every other case the test and the parameter interval are exact. |
| C47 | box hit records are consistent | floats for ranges and face data, exact instance for the point | partial (6 thms) | No panic, t range, exact face coordinate and normal proved for all floats. Refuted for origins strictly inside: the reported point is the nearest surface point, not the ray point. Everything else proved in exact arithmetic. |
| C48 | transforming a box encloses the transformed points | exact instance; counterexample | partial (7 thms) | Refuted: map_bbox accumulates into the wrong index, so rotating the unit box by 90 degrees about z loses points. Proved (enclosing and tight) when the linear part is diagonal. C48_encloses_iff says exactly when it encloses for any affine transform; centred cubes rotated about an axis are fine. |
| C49 | sphere intersection finds the first valid hit | exact instance, completeness and soundness of the quadratic and of the wedge test | proved (4 thms) | Exact arithmetic: total; the returned t is the least parameter in [0, tmax] of a point on the clipped sphere inside the phi wedge (points on the z axis or on phi = PI = -PI, whose polar angle is ambiguous, may be classified either way). |
| C50 | solve_quadratic returns the sorted real roots | exact instance | partial (3 thms) | Exact arithmetic. Refuted for b = c = 0 (the double root at 0 comes back as (NaN, 0)); proved for all other real coefficients with a != 0, and the exceptional case is characterised. C49 holds in spite of it. |
| C51 | sphere bounding box contains every hit | exact instance | proved (2 thms) | Exact arithmetic, all constructed spheres and all hits. |
| C52 | sphere surface parameterisation | Coquelicot derivatives | partial (6 thms) | Refuted below z = 0: theta is clamped before acos. C52_lower_half: every such hit off the axis has v = 0 and a wrong normal (value given). Hits with z >= 0: parameters, derivatives and normal proved (C52_upper_partial; C52_surface_partial for spheres cut at zmin >= 0). At the poles dpdu is zero and every component of the float normal is NaN (C52_pole_normal), so nothing is left out. |
| C53 | sphere area formula | Coquelicot integral of the area element | partial (4 thms) | Refuted: rays hit -PI <= phi <= phi_max but area() covers 0 <= phi <= phi_max; C53_area_gap: for every cut sphere it is too small by the area of a half turn. Equal to the hittable area for phi_max = 2 PI. |
| C54 | do_intersect agrees with intersect for every primitive | induction over primitive trees | proved (1 thms) | Any scalar semantics, any primitive tree, user shapes assumed consistent (customs_agree). |
| C55 | a primitive list reports the closest hit | list induction; counterexample | partial (3 thms) | Refuted: the list keeps the last hit, because the ray is not shortened. Partial: last hit is what is returned, closest if members are ordered far to near. |
| C56 | a primitive list hits iff some member hits | list induction | proved (2 thms) | Any scalar semantics and any list. |
| C57 | list bounding box is the union of the members | list induction on floats | proved (4 thms) | f32 and f64; the empty list has the empty box. |
| C58 | transformed primitives: t is preserved and results are in world space | structural; counterexample | partial (3 thms) | Refuted: the hit record of a transformed primitive is returned untransformed (object-space point). Partial: t is preserved and the set of hit rays is that of the mapped shape. |
| C59 | disk sampling maps stay in the disk and preserve area | derivatives, Jacobians, bijectivity | proved (4 thms) | Exact arithmetic. Values, Jacobian determinant, radius law and bijectivity onto the disk for both maps. |
| C60 | thin lens camera obeys the lens equation and focuses the focal plane | exact instance, line/plane algebra | partial (3 thms) | Refuted: the common focus point lies on z = film_distance - focal_distance instead of z = -focal_distance (the parameter t is computed from the film, not from the lens). Lens equation proved in full; partial: the one focus point (all coordinates), lens origin as the scaled disk sample, unit direction, tmax = highest. |
| C61 | thin lens camera honours the requested field of view | exact instance, atan/tan | partial (2 thms) | Refuted: film_width has a factor 1/2 where 2 is needed. Partial: the angle covered is 2 atan(tan(fov/2)/4). |
| C62 | integer scalars: checked and wrapping semantics agree when no overflow occurs | modular arithmetic; induction on dimension | proved (15 thms) |  |
| C63 | vectors of intervals enclose the exact results | C09-C14 composed, induction on the dimension | partial (11 thms) | dot: refuted when both factors of a component straddle zero (inherits the multiplication defect), proved otherwise. norm: refuted (NaN bound for every vector of dimension >= 1 that may be zero), proved when the squared norm has a nonnegative lower bound. Everything else proved in full. |
| C64 | surface frames are right-handed: n = dpdu x dpdv | float evaluation on faces; exact instance for spheres | partial (3 thms) | Refuted for boxes: every box hit has dpdu x dpdv = -n. Partial: the frame is orthonormal. For spheres the normal equals the normalised cross product of the derivatives (C64_sphere_normal). |
| C65 | Interval tan encloses the exact value | C21 and C11 composed | partial (2 thms) | Proved for widths <= PI or >= 2 PI; refuted in general over [1,7], where sin and cos themselves fail (C21). |
| C66 | Interval classification and constants | case analysis; counterexample | partial (7 thms) | is_infinite on intervals inherits the float bug: refuted (true on [1,2], false on infinity()), actual behaviour proved. All else proved. |
| C67 | Interval conversions | C18 and float conversions | partial (9 thms) | from_i64 refuted at 2^prec+1 and from_f64 into f32 intervals refuted (rounded point instead of an enclosure); proved exact where representable. Midpoint conversions proved unless inf+sup overflows. |
| C68 | Trait methods with default bodies are right on intervals | set semantics of comparisons | partial (17 thms) | Refuted for nonstrict signs and in_range on touching intervals, signum on intervals around zero, clamp with wide limits, min_max of overlapping intervals; each with a proved part. Strict signs, is_zero/is_one, recip, fequals, almost_eq proved. |
| C69 | Neighbours and pi bounds of intervals | C01; pi bounds | proved (5 thms) | Proved for both formats. |
| C70 | Elementary functions of intervals give valid intervals | trig monotone pieces plus the one-ulp contract; order of rounded corners | partial (8 thms) | Proved for sin, cos, tan, atan, atan2. asin/acos refuted at [-1,-1] (bounds cross); proved when the upper bound is >= 0. |
| C71 | Interval operations are inclusion isotonic | corner lemmas: result bounds are monotone rounded functions of the corner values | partial (7 thms) | Proved for +, -, /, unary minus, abs, min, max, union, intersection, sqrt. * refuted when both outer factors straddle zero (consequence of C10's wrong product); square refuted ([0,1] in [-1,1]: the inner result reaches one float below 0). Proved otherwise. |
| C72 | Interval operations obey the expected symmetry laws | equality of corner values; exact commutativity of rounded operations | partial (6 thms) | Proved for +, min, max, union, intersection, a-b = a+(-b), scalar operands. * refuted for two straddling factors, proved otherwise. |
| C73 | The interval result contains the float result | induction on the expression: rounding to nearest never leaves an interval with float ends | proved (2 thms) | In full under the hypotheses of the statement. |
| C74 | Sphere hits in floats are consistent | case analysis of the code with the float comparison lemmas; concrete rounding witness for the box | partial (6 thms) | Bounding-box containment is refuted: a ball of radius 7/4 seen from x = -8192 (f32; -5*2^25 in f64) is hit at x = -2. C74_hit_in_bbox_partial: the point is in the box grown by 100 roundings of (/origin/^2 + radius^2)/radius. The rest holds for all floats. |
| C75 | The float slab test agrees with exact geometry up to rounding | monotonicity of rounding and division for completeness; relative/absolute error of the rounded difference and quotient for soundness; integer witnesses for the refutations | partial (7 thms) | Both exact directions refuted by rounding (C75_no_false_miss_refuted, C75_no_false_hit_refuted). Proved: no miss when the ray is in the box on a relative neighbourhood 1/(1+u)..1/(1-u) of a parameter or when the corner differences are exact; a hit is a hit up to a parameter error of (2u+u^2)/s/ + half the smallest float per coordinate; reported parameters are that accurate (C75_accuracy). |
| C76 | Vector lengths are accurate to a few roundings | square-root perturbation on top of the dot-product error bound; concrete overflow witness for the refutation | partial (5 thms) | The unconditional unit-length claim is refuted: (MAX,0,0) normalizes to the zero vector because the squared length overflows. Proved for every vector of length at least 2^-40 whose float length is finite, with error 6u; norm and distance errors are proved for every length n with n*u <= 1/2. |
| C77 | Cross products, ray points, transforms and matrix products are accurate to a few roundings | an error-tracking predicate (magnitude, number of roundings, underflow term) closed under float +, -, *; the homogeneous coordinate of an affine map is exactly 1 | proved (5 thms) | Componentwise backward-style bounds for all finite results; maps for matrices with last row (0,0,0,1). |
| C78 | Disk samples in f32/f64 match the exact maps | forward error analysis through the angle and sin/cos (Lipschitz bounds, one-ulp library contract); the refutation builds a concrete one-ulp library for f32 | partial (4 thms) | The claim that samples stay in the closed unit disk is refuted: with a library accurate to one ulp the f32 sample of the corner (0,0) has squared length above 1. Proved: the sample lies within radius 1+9u, and both coordinates are finite and within 16u of the exact sample, for both maps. |
| C79 | Equality of matrices, transforms and vectors is entrywise | induction over the comparison loops (fold over vectors), then the float comparison lemmas of C03/C04 | proved (6 thms) |  |
| C80 | Interval sin, cos, atan, asin and acos are tight | the library contract bounds the outward-rounded end values; that an extremum is only reported when the curve comes within rounding of it uses the sign of the slope at both ends, and the irrationality of PI (Cartwright's argument) for floats that would be extrema | proved (6 thms) |  |
| C81 | Float camera rays of one film sample pass through one point of the plane of focus | forward error analysis of each step of generate_ray, combined with the disk sampling (C78), normalization (C76) and transform (C77) bounds | proved (2 thms) | Covers the focusing behaviour of the code as written (the plane at D - focal distance; see C60 for its relation to the intended plane of focus). The world-space bounds are for finite results. The film width and height are bounded in C95. |
| C82 | A scene is hit exactly where the ray meets one of its shapes | structural induction over the tree with the ray generalized; leaves by C46, C47, C49, transforms by invertibility of the matrix pair | partial (8 thms) | No-miss is refuted for rays lying in a lower face plane of a box (C46) and proved for rays avoiding these planes, also with wedge-cut spheres (C82_no_miss_cut_partial, up to points with an ambiguous polar angle). C82_reported_partial says which parameter is reported in every scene; it is the first one when lists have at most one member (C82_first_partial), for longer lists see C55. |
| C83 | The bounding box of a scene contains it and may be used for culling | structural induction over the tree; the union of boxes by min/max, transforms by the diagonal case of C48; refutation by a rotated box | partial (5 thms) | Containment and culling are refuted for a box rotated by a quarter turn (C48: wrong index in the box transform) and proved for all trees whose transforms scale the axes and translate. |
| C84 | The float quadratic solver is stable | each rounding is a factor 1+e; the factors in the discriminant are pushed into b and c, the rest into the roots; both branches of the sign test reduce to one real lemma | proved (1 thms) | The case b = c = 0 (where the solver divides zero by zero) is C50. Sizes outside 2^-50..2^50 can overflow or underflow in b*b and 4ac. |
| C85 | Float sphere hits lie near the sphere and clear crossings are reported | residual bounds of both roots (forward error of each rounding in the three coefficients and in the solver) give the accuracy; for the no-miss half the discriminant stays positive and the two computed roots lie on the two sides of the vertex, so one of them lies between the inside and the outside parameter; an explicit ray for the refutation | partial (3 thms) | C85_hit_near is the accuracy half in full. The no-miss half is refuted: a full ball (z_min = -r, z_max = r, r = 4/3) looked at along its axis from distance 5 is missed, because the rounded height of the hit point exceeds z_max. The partial theorem proves it for rays that are inside the ball and outside of it by 100 roundings somewhere on their extent, stay clear of the planes z_min and z_max near the sphere, and when the angle is not cut. Missing: hits within rounding distance of z_min, z_max or phi_max, and grazing rays. |
| C86 | Float rotations are rotations up to rounding | each matrix entry is a fixed expression tree of values of size at most 4, so its error is a sum of absolute roundings on top of the normalize and sin/cos bounds; rigidity by comparing with Rodrigues formula, which preserves dot products; round trip by the adjoint of the matrix | partial (5 thms) | Refuted for axes whose squared length overflows (axis (MAX,0,0) normalizes to zero and the transform degenerates to cos(a) times the identity); proved for axes of length at least 2^-40 with finite float length. Everything else (coordinate axes, rigidity, mapping there and back) is proved in full. |
| C87 | Float look_at gives an orthonormal camera frame up to rounding | normalize errors, absolute rounding errors of the two cross products, and stability of normalization in real arithmetic (relative error divided by the length of the cross product); the translation column by the dot product bound | partial (3 thms) | Refuted: an up direction whose squared length overflows gives NaN entries. Proved for up directions and lines of sight of length between 2^-30 and 2^50, eyes within 2^100 of the origin and angles whose sine is at least 1/64. Missing: more extreme lengths and smaller angles. |
| C88 | Float perspective projects and unprojects points up to rounding | relative errors of the entries (library tangent, reciprocal, the exact-by-construction gap between near and far), Cramer's inverse entry by entry with the zero pattern of the matrix, then forward error of the homogeneous division and of the cancellation in the inverse's last row | partial (4 thms) | Refuted: for near = 2 and far = MAX the product far * near overflows and the depth is infinite. Proved, for a platform tan within one ulp, for fields of view between 1/1024 and nearly PI (tangent of the half angle at most 1024), clipping planes and depths between 1/1024 and 65536 and other coordinates zero or between 2^-50 and 2^50; the round trip for depths below about 1/(64 u) times the near plane. Missing: more extreme parameters. |
| C89 | The float matrix inverse is accurate up to the cancellation in the determinant | running error analysis of the adjugate with one invariant (value, size of its terms, number of roundings) through products and sums; division by the determinant; uniqueness of the exact inverse | partial (4 thms) | Accuracy of the entries and of the products with the matrix: proved. Singular matrices are not always recognisable (refuted): a rank 2 block has a rounded determinant that is not zero and an entirely finite "inverse". Proved for matrices in which every product of the determinant is zero, e.g. a zero row or column. |
| C90 | Tracing a float ray through a scene does not panic | induction over the primitive tree with a bound 2^j on the ray that grows by k+3 per transform; rounding never exceeds a representable power of two | partial (4 thms) | Refuted as stated: two nested scalings by the smallest normal number panic, because the once mapped direction is infinite and infinity times the zeros of the last row is NaN. Proved when transforms are not nested (no size condition), and for any nesting when the exponents of ray and matrices add up to less than the exponent range. |
| C91 | Composed float transforms map like the two in turn | one lemma on a rounded sum of products of perturbed factors, applied to the matrix product and to the second map | proved (3 thms) |  |
| C92 | Mapping a float ray commutes with evaluating it | the same lemma on origin + s * direction | proved (1 thms) |  |
| C93 | Float translations and scalings can be undone | the maps are the componentwise sum, difference and product (C36); two rounding errors added up | partial (3 thms) | Refuted: (1,1,1) moved by (MAX,MAX,MAX) and back is the origin. Proved: translations return the point up to 3 roundings of /point/ + /offset/, scalings up to 4 roundings of the point plus an underflow term, for factors whose reciprocal is finite and not subnormal. |
| C94 | Float hits in nested scenes are where the shapes are | induction on the way through the scene with an error invariant (k roundings and an underflow term) for origin and direction; the leaf bounds of C75 and C85 | proved (3 thms) |  |
| C95 | The float camera's film has the size its arguments ask for | forward error analysis of ThinLens::new, step by step (relative error calculus) | proved (2 thms) | The factor 1/2 in the width is the code's (see C61 for the angle it covers). |
| C96 | Float normals and tangents of sphere hits are accurate | scaled error calculus through atan2, sin, cos, acos, both derivatives and their cross product; conditioning of the normalization | partial (7 thms) | The full claim is C96_outward. Refuted for hits below the equator (C96_outward_refuted, a ball of radius 5 hit at (-3,0,-4)): the code clamps z/radius at 0 before acos. C96_outward_partial proves it for hits not below the equator and C96_lower_half gives the normal of the others; hits nearer to the axis than a few roundings are left out (at the axis itself every component is NaN, C52_pole_normal). |
| C97 | Boxes moved or scaled in floats contain the mapped points | The nine updates of map_bbox are evaluated symbolically for an arbitrary float matrix; each corner and each mapped coordinate is one rounded product plus one rounded sum (zeros change nothing), and correctly rounded operations are monotone in the extended order of the floats. | proved (8 thms) | Float counterpart of the diagonal case of C48; for transforms with off-diagonal entries enclosure is refuted under C48. Boxes with infinite bounds are excluded because infinity times a zero entry is NaN. |
| C98 | The bounding box of a float scene contains its parts | Induction over primitive trees; C97 at each transform, the union laws of C44 at each list. | partial (5 thms) | Containment, absence of panics and of NaN bounds: proved. Emptiness is refuted for transformed empty lists (mapping the empty box sorts its corners and yields the largest box) and proved for lists of any nesting. |
| C99 | The float area of a sphere part is accurate and monotone | Rounding-error bounds of the two products and the difference, the surface integral of C53, and monotonicity of correctly rounded operations. | proved (2 thms) | The surface meant is 0 <= phi <= phi_max; that rays also hit -PI <= phi <= 0 is refuted under C53. |
| C100 | Wrapping a primitive in the identity transform changes nothing | Float model of map_ray_inverse by the identity (IdentityFloat.v): nonzero coordinates come back equal by C36, positive zeros stay positive by computation on the signs, so the mapped ray is the same ray. The refutation evaluates one ray and one sphere in f32 and f64, with atan2 constrained only by its rule at signed zeros (SpecSign.v); a library meeting the rule is given. For scenes: all operations of the two tests respect equality up to the sign of a zero, except division by a zero direction, which only swaps two kinds of misses (IdentityBox.v, IdentitySphere.v); induction over the scene. | partial (3 thms) | Refuted as stated for libraries following the IEEE rule for atan2 of signed zeros: the identity map turns a coordinate -0 into +0, so a hit on the negative x axis moves from azimuth -PI to PI and out of the wedge (C100_identity_refuted). Proved: for finite rays without a -0 coordinate both intersect and do_intersect give identical results for every primitive (C100_identity_partial); scenes of boxes, spheres with an uncut azimuth, lists and arbitrary transforms are hit by the same finite rays, those with -0 included (C100_identity_scene_partial). Missing for rays with -0: narrower wedges, user-defined primitives, the reported interaction. |

## 5. Trusted base

* The Coq 8.16.1 kernel (including its `vm_compute` bytecode machine, used to evaluate closed float
  computations) and `coqc`. No `native_compute`, no plugins, no OCaml, no extraction.
* The faithfulness of `theories/Model` to the Rust source and of `theories/Spec*.v` to the English
  statements; both are meant to be read. Model definitions cite the source lines.
* Flocq's definition of IEEE-754 binary formats and the standard library's real numbers, sin, cos,
  atan, PI and integrals (Coquelicot's `RInt`, `is_derive`).
* No axiom is declared in this development; there is no `Admitted`, no section-less `Variable`, no
  functor or module type, and no kernel check is switched off.

## 6. Defects found in the code (each proved in the model)

* `GFloat::is_infinite` of f32/f64 returns `is_finite` (C05); intervals inherit it (C66).
* f32 `pi_upper` has the numerator of `pi_lower`: all f32 upper constants are too small (C06, C24).
* `Interval * Interval` is wrong when both operands contain zero inside (C10, C63); 0*inf gives NaN bounds.
* `Interval::approx`, `Bbox3::center` overflow (C18, C45).
* Interval `sin`/`cos`/`tan` miss extrema for widths between PI and 2 PI (C21, C65); `asin`/`acos` are cut
  to [0, PI/2] and inverted for negative arguments (C22); `atan2` returns [0,0] on the axes (C23).
* Trait-level `is_nonnegative`, `signum`, `clamp`, `min_max`, `in_range` do not mean on intervals what they mean on numbers (C68);
  `from_i64`, `from_f64` return a rounded point instead of an enclosure (C67).
* `map_normal` multiplies the last column by `n.z` twice (C39); mapping interval vectors always panics (C40).
* Slab test misses rays in the plane of a lower face (C46); hit point of a box wrong for inside origins (C47);
  `map_bbox` accumulates into the wrong index (C48); box frames are left-handed (C64).
* `solve_quadratic` returns a NaN root for b = c = 0 (C50); sphere v and normal wrong for z < 0 (C52); area mismatch (C53).
* `PrimitiveList::intersect` returns the last hit, not the closest (C55); transformed primitives report object-space hits (C58).
* Thin lens: focus plane displaced, field of view wrong by a factor (C60, C61).

## 7. Wrong-program testing

`/verif/seeded/LOG.jsonl` records every edit of the model tried in a scratch copy: definition, edit,
claim it breaks, theorems that failed, theorems tightened.

### What `Print Assumptions` lists

Every theorem in `Props/` is followed by `Print Assumptions`. The only axioms that occur are four from the Coq standard library:

* `ClassicalDedekindReals.sig_forall_dec`, `ClassicalDedekindReals.sig_not_dec` (the construction of `R`)
* `FunctionalExtensionality.functional_extensionality_dep` (used by `R` and Flocq)
* `Classical_Prop.classic` (used by `R`'s completeness lemmas, Flocq and Coquelicot)

Grouped by the exact set listed:

**none (closed under the global context)** - 40 theorems:
C29_accessors, C29_almost_equal_componentwise, C29_componentwise, C29_equality_componentwise,
C29_neg_componentwise, C29_points_componentwise, C31_assoc_int, C31_identity_int, C31_identity_zero_entries,
C31_row_col_index_agree, C31_scale_entrywise, C31_transpose_involutive, C31_transpose_product_int,
C34_inverse_maps_inverse, C42_ray_tmax_kept, C54_do_intersect_agrees, C55_last_hit_partial,
C56_list_do_intersect, C56_list_hits_iff_member_hits, C62_abs, C62_almost_eq, C62_constants, C62_debug_dot,
C62_debug_matrix_product, C62_debug_ops, C62_division, C62_no_overflow_dot, C62_no_overflow_matrix_product,
C62_no_overflow_ops, C62_order, C62_release_dot, C62_release_matrix_product, C62_release_ops,
C62_release_vectors, C66_is_finite, C66_is_nan, C79_interval_vector_approx, C79_matrix_almost_eq,
C79_matrix_eq, C79_transform_almost_eq

**`sig_forall_dec`, `functional_extensionality_dep`** - 19 theorems:
C28_cross_exact, C29_exact, C29_points_affine, C31_assoc_exact, C31_identity_exact, C31_product_exact,
C31_transpose_product_exact, C34_roundtrip_point, C34_roundtrip_vector, C39_actual, C39_exactly_when,
C39_normals_perpendicular_partial, C40_point_exact, C40_vector_exact, C42_ray_eval, C42_ray_map_eval,
C63_from_encloses, C63_from_exact, C88_frustum

**`sig_forall_dec`, `sig_not_dec`, `functional_extensionality_dep`** - 3 theorems:
C53_spec_unique, C86_rigid, C87_frame

**`sig_forall_dec`, `sig_not_dec`, `classic`, `functional_extensionality_dep`** - 421 theorems:
C01_next_down_adjacent, C01_next_specials, C01_next_up_adjacent, C02_mirror, C02_next_down_next_up,
C02_next_up_next_down, C03_clamp, C03_clamp_nan, C03_in_range, C03_max, C03_min, C03_min_max, C03_nan,
C04_almost_eq, C04_fequals_inf, C04_fequals_nan, C04_fequals_refl_partial, C04_fequals_refl_refuted,
C04_fequals_spec, C04_fequals_sym, C05_classification_partial, C05_classification_refuted, C05_limits,
C05_special_values, C06_bracket_width_f64_partial, C06_constants_rounded, C06_lower, C06_upper_f32_all_below,
C06_upper_f32_refuted, C06_upper_f64_partial, C07_from_i64, C07_i64_roundtrip, C07_narrowing, C07_same_format,
C07_to_i64, C07_widening, C08_abs, C08_constants, C08_sign_predicates, C08_signum, C08_square_recip,
C09_add_encloses, C09_add_tight, C09_sub_encloses, C09_sub_tight, C100_identity_partial,
C100_identity_refuted, C100_identity_scene_partial, C10_mul_encloses_partial, C10_mul_encloses_refuted,
C10_mul_encloses_unbounded_partial, C10_mul_tight_partial, C10_mul_unbounded_refuted, C10_straddle_iff,
C10_straddle_lower, C10_straddle_partial, C10_straddle_upper, C11_div_encloses, C11_div_tight,
C11_div_zero_whole, C12_add_scalar_encloses, C12_div_scalar_encloses, C12_div_scalar_zero,
C12_mul_scalar_encloses, C12_mul_scalar_encloses_unbounded, C12_scalar_tight, C12_sub_scalar_encloses,
C13_square_encloses, C13_square_negative_lower_bound, C13_square_straddle, C13_square_tight,
C14_sqrt_encloses, C14_sqrt_negative_lower_nan, C14_sqrt_tight, C14_trait_sqrt_encloses, C15_abs_encloses,
C15_abs_exact, C15_max_encloses, C15_max_exact, C15_min_encloses, C15_min_exact, C15_neg_exact,
C15_neg_involutive, C16_intersect, C16_union_is_hull, C16_union_least, C17_contains, C17_in_range,
C17_is_exact, C17_is_same, C17_sign_queries, C18_approx_inside_iff, C18_approx_inside_partial,
C18_approx_inside_refuted, C18_approx_midpoint_partial, C19_antisymmetric, C19_eq, C19_gt, C19_lt, C19_scalar,
C19_transitive, C20_constructor_assert, C20_sequences, C20_single_step, C21_cos_gap_refuted, C21_cos_partial,
C21_sin_cos_refuted, C21_sin_gap_refuted, C21_sin_partial, C22_acos_exact, C22_acos_partial,
C22_asin_acos_inverted, C22_asin_acos_refuted, C22_asin_exact, C22_asin_partial, C22_atan_encloses,
C22_f32_refuted, C23_atan2_partial, C23_atan2_refuted, C23_atan2_terminates, C23_axes_refuted,
C23_f32_refuted, C24_constants_f32_refuted, C24_constants_f64_partial, C24_half, C25_fundamental,
C26_dot_symmetric, C26_square_norm_is_dot, C26_square_norm_nonneg, C27_dot_error, C27_dot_error_any_length,
C28_cross_anticommutes_float, C28_cross_self_float, C28_cross_self_zero_or_nan, C29_min_max_float,
C30_distance, C30_distance_metric, C30_norm, C30_normalize, C30_normalize_zero, C31_identity_float,
C31_transpose_product_float, C32_inverse_involutive, C32_inverse_singular, C32_inverse_two_sided,
C33_affine_stays_affine, C33_inverse_carried, C33_product_is_identity, C34_compose_affine, C34_compose_points,
C34_compose_vectors, C34_roundtrip_affine, C35_rotate_additive, C35_rotate_axes, C35_rotate_axis_turns,
C35_rotate_rigid, C36_identity, C36_scale, C36_scale_inverse, C36_translate_point, C36_translate_vector,
C37_look_at_frame, C37_look_at_points, C38_perspective_depth, C38_perspective_frustum,
C38_perspective_plane_panics, C38_perspective_point, C39_normals_perpendicular_refuted,
C40_affine_float_no_panic, C40_interval_affine_refuted, C40_interval_always_panics,
C40_perspective_float_panics, C41_affine_interval_point, C41_interval_point_encloses, C42_ray_roundtrip,
C43_inside_means_between_corners, C43_new_is_smallest_box, C44_default_is_empty, C44_default_is_unit,
C44_intersect_is_common_part, C44_overlaps_iff_interiors_meet, C44_overlaps_symmetric_and_shares,
C44_union_contains_both, C44_union_is_least, C44_union_laws, C45_center_inside_iff, C45_center_inside_partial,
C45_center_inside_refuted, C45_diagonal, C45_max_extent, C46_lower_plane_always_missed,
C46_parameter_range_partial, C46_slab_test_partial, C46_slab_test_refuted, C47_closest_face,
C47_do_intersect_iff_hit, C47_hit_exact_partial, C47_hit_on_ray_refuted, C47_hit_record, C47_never_panics,
C48_axis_rotations_partial, C48_centred_cube_iff, C48_computed_box, C48_encloses_iff,
C48_map_encloses_partial, C48_map_encloses_refuted, C48_map_inverse_encloses_partial, C49_do_intersect,
C49_first_hit, C49_full_turn, C49_new_total, C50_double_root_at_zero, C50_roots_partial, C50_roots_refuted,
C51_bbox_value, C51_hit_in_bbox, C52_lower_half, C52_normal_refuted, C52_pole_normal, C52_surface_partial,
C52_upper_partial, C52_uv_refuted, C53_area_gap, C53_area_partial, C53_area_refuted, C55_closest_partial,
C55_closest_refuted, C57_contains_members, C57_empty_list, C57_is_least, C57_order_irrelevant,
C58_t_preserved_partial, C58_transformed_sphere_partial, C58_world_point_refuted, C59_concentric,
C59_concentric_bijective, C59_uniform, C59_uniform_bijective, C60_focal_plane_refuted, C60_focus_partial,
C60_lens_equation, C61_actual_angle_partial, C61_fov_refuted, C63_add_sub_neg_enclose,
C63_dot_encloses_partial, C63_dot_encloses_refuted, C63_norm_encloses_partial, C63_norm_encloses_refuted,
C63_norm_of_possible_zero_is_nan, C63_scalar_ops_enclose, C63_square_distance_encloses,
C63_square_norm_encloses, C64_box_frame_partial, C64_box_normal_from_tangents_refuted, C64_sphere_normal,
C65_tan_partial, C65_tan_refuted, C66_is_infinite_actual, C66_is_infinite_refuted, C66_point_constants,
C66_special_values, C66_two, C67_from_f32, C67_from_f64_f32_refuted, C67_from_f64_partial,
C67_from_i64_partial, C67_from_i64_refuted, C67_into_partial, C67_to_f32_partial, C67_to_f64_partial,
C67_to_i64_partial, C68_almost_eq, C68_almost_eq_scalar, C68_clamp_encloses_partial,
C68_clamp_encloses_refuted, C68_fequals_sound, C68_in_range_partial, C68_in_range_refuted,
C68_in_range_strict, C68_is_positive_negative, C68_is_zero_one, C68_min_max_encloses_partial,
C68_min_max_encloses_refuted, C68_nonstrict_signs_partial, C68_nonstrict_signs_refuted, C68_recip_encloses,
C68_signum_encloses_partial, C68_signum_encloses_refuted, C69_next_down, C69_next_up, C69_pi_close,
C69_pi_lower, C69_pi_upper, C70_asin_acos_partial, C70_asin_acos_refuted, C70_atan2_ordered, C70_atan_ordered,
C70_sin_cos_pair, C70_sin_cos_range, C70_sin_cos_tan_ordered, C70_values_at_ends, C71_add_sub_div,
C71_exact_operations, C71_mul_partial, C71_mul_refuted, C71_sqrt, C71_square_partial, C71_square_refuted,
C72_add_comm, C72_min_max_set_ops_comm, C72_mul_comm_partial, C72_mul_comm_refuted, C72_scalar_is_point,
C72_sub_is_add_neg, C73_error_bound, C73_float_in_interval, C74_do_intersect, C74_hit_in_bbox_partial,
C74_hit_in_bbox_refuted, C74_hit_record, C74_new, C74_roots_ordered, C75_accuracy,
C75_exact_differences_partial, C75_no_false_hit_partial, C75_no_false_hit_refuted, C75_no_false_miss_partial,
C75_no_false_miss_refuted, C75_reported_hit, C76_distance_error, C76_norm_error, C76_normalize_overflow,
C76_normalize_unit_partial, C76_normalize_unit_refuted, C77_cross_error, C77_map_point_error,
C77_map_vector_error, C77_matrix_product_error, C77_ray_error, C78_concentric_accurate, C78_in_disk_partial,
C78_in_disk_refuted, C78_uniform_accurate, C79_float_transform_almost_eq, C79_float_transform_eq,
C80_acos_tight, C80_asin_tight, C80_atan_tight, C80_cos_tight, C80_no_float_extremum, C80_sin_tight,
C81_film_distance, C81_rays, C82_do_intersect, C82_first_partial, C82_hits_are_real, C82_no_miss_cut_partial,
C82_no_miss_partial, C82_no_miss_refuted, C82_reported_partial, C82_surely, C83_bbox_contains_partial,
C83_bbox_contains_refuted, C83_bbox_exists, C83_culling_partial, C83_culling_refuted, C84_solver_stable,
C85_hit_near, C85_no_false_miss_partial, C85_no_false_miss_refuted, C86_axes, C86_map_and_back,
C86_rotate_partial, C86_rotate_refuted, C87_look_at_partial, C87_look_at_refuted, C88_project_partial,
C88_project_refuted, C88_round_trip_partial, C89_entries, C89_residual, C89_singular_partial,
C89_singular_refuted, C90_nested_scaling_panics, C90_no_panic_partial, C90_no_panic_refuted, C90_one_level,
C91_points, C91_product_affine, C91_vectors, C92_ray_points, C93_exact_refuted, C93_scale_partial,
C93_translate_partial, C94_no_shape_lost, C94_ray_carried, C94_scene_hit, C95_film_size, C95_usual_lens,
C96_first_coordinate, C96_first_tangent, C96_lower_half, C96_outward_partial, C96_outward_refuted,
C96_second_coordinate, C96_second_tangent_partial, C97_encloses, C97_encloses_inverse, C97_isotone, C97_scale,
C97_scale_inverse, C97_tight, C97_tight_inverse, C97_translate, C98_contains, C98_empty_partial,
C98_empty_refuted, C98_moves, C98_no_nan, C99_accurate, C99_monotone

