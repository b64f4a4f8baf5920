(** * Properties C26-C30 and C63: vectors, points, norms, and vectors of intervals.

    [rdot], [rlen] are the real dot product and Euclidean length in any dimension; [isV v a]:
    the exact-arithmetic vector [v] has the real components [a]; [fvals v]: the real values of
    a float vector; [memv a v]: the real vector [a] lies in the interval vector [v]
    (SpecGeom.v). *)
From Coq Require Import ZArith Reals Bool Lra Lia.
From Coq Require Vector Fin.
From Flocq Require Import Core BinarySingleNaN.
From Verif.Model Require Import FloatBase Scalar Float Interval Outcome Vec Transform XReal.
From Verif Require Import Spec SpecGeom.
From Verif.Proofs Require Import FloatLemmas ScalarProofs IntervalRefute XRealLemmas TransformCases VectorFloat VectorExact VectorInterval VectorCases.
Open Scope R_scope.
Notation FI f := (interval (float f)).
Notation "v @ i" := (Vector.nth v i) (at level 20, only parsing).

(** ** C26 *)
Theorem C26_dot_symmetric : forall (f : fmt) (m : libm f) n (a b : vec (float f) n), dot a b = dot b a.
Proof. intros f m n a b. exact (dot_comm a b). Qed.
Print Assumptions C26_dot_symmetric.
Theorem C26_square_norm_is_dot : forall (f : fmt) (m : libm f) n (v : vec (float f) n), square_norm v = dot v v.
Proof. intros f m n v. exact (sqnorm_dot v). Qed.
Print Assumptions C26_square_norm_is_dot.
Theorem C26_square_norm_nonneg : forall (f : fmt) (m : libm f) n (v : vec (float f) n),
  (nonnan (square_norm v) <-> fall nonnan v) /\
  (nonnan (square_norm v) -> fle (fzero false) (square_norm v)).
Proof. intros f m n v. exact (sqnorm_ok v). Qed.
Print Assumptions C26_square_norm_nonneg.
Example C26_case : forall f, fall nonnan (fv f 1 (-2) 3) /\ fall nonnan (one1 (finf true : float f)).
Proof. exact C26_sample. Qed.

(** ** C27 *)
Theorem C27_dot_error : forall (f : fmt) (m : libm f) n (v w : vec (float f) n), finite (dot v w) ->
  INR n * unit_roundoff f <= 1 / 2 ->
  Rabs (B2R (dot v w) - rdot (fvals v) (fvals w)) <=
    INR n * unit_roundoff f / (1 - INR n * unit_roundoff f) * rsum (fun i => Rabs (fvals v i * fvals w i))
    + INR n * smallest_float f.
Proof. intros f m n v w. exact (dot_err_gamma v w). Qed.
Print Assumptions C27_dot_error.
(** without the bound on [n] *)
Theorem C27_dot_error_any_length : forall (f : fmt) (m : libm f) n (v w : vec (float f) n), finite (dot v w) ->
  Rabs (B2R (dot v w) - rdot (fvals v) (fvals w)) <=
    ((1 + unit_roundoff f) ^ n - 1) * rsum (fun i => Rabs (fvals v i * fvals w i))
    + INR n * (1 + unit_roundoff f) ^ n * (smallest_float f / 2).
Proof. intros f m n v w. exact (dot_err v w). Qed.
Print Assumptions C27_dot_error_any_length.
Example C27_case : forall f (m : libm f), finite (dot (fv f 1 (-2) 3) (fv f 4 5 6)) /\ INR 3 * unit_roundoff f <= 1 / 2.
Proof. exact C27_sample. Qed.

(** ** C28 *)
Theorem C28_cross_exact : forall u v w a b c k r, is3 u a -> is3 v b -> is3 w c -> isR k r ->
  is3 (cross u v) (cross3 a b) /\
  isR (dot u (cross u v)) 0 /\ isR (dot v (cross u v)) 0 /\
  isR (square_norm (cross u v)) (dot3 a a * dot3 b b - dot3 a b * dot3 a b) /\
  (exists d, is3 (cross (v_add u w) v) d /\ is3 (v_add (cross u v) (cross w v)) d) /\
  (exists d, is3 (cross u (v_add v w)) d /\ is3 (v_add (cross u v) (cross u w)) d) /\
  (exists d, is3 (cross (v_scale u k) v) d /\ is3 (v_scale (cross u v) k) d) /\
  (exists d, is3 (cross u v) d /\ is3 (v_neg (cross v u)) d).
Proof. intros u v w a b c k r Hu Hv Hw Hk. exact (conj (is3_cross u v a b Hu Hv) (cross_laws u v w a b c k r Hu Hv Hw Hk)). Qed.
Print Assumptions C28_cross_exact.
Theorem C28_cross_anticommutes_float : forall (f : fmt) (m : libm f) (a b : vec (float f) 3) i,
  fsame (cross a b @ i) (v_neg (cross b a) @ i).
Proof. intros f m a b. exact (cross_anti a b). Qed.
Print Assumptions C28_cross_anticommutes_float.
Theorem C28_cross_self_float : forall (f : fmt) (m : libm f) (a : vec (float f) 3),
  fall (fun x => finite x /\ Rabs (B2R x) <= bpow radix2 (emax f / 2 - 1)) a ->
  feqv (cross a a) (Vector.const (fzero false) 3).
Proof. intros f m a. exact (cross_self_fin a). Qed.
Print Assumptions C28_cross_self_float.
(** with no bound at all: every component is zero or NaN *)
Theorem C28_cross_self_zero_or_nan : forall (f : fmt) (m : libm f) (a : vec (float f) 3) i,
  nonnan (cross a a @ i) -> feq (cross a a @ i) (fzero false).
Proof. intros f m a. exact (cross_self a). Qed.
Print Assumptions C28_cross_self_zero_or_nan.
Example C28_case : forall f, fall (fun x => finite x /\ Rabs (B2R x) <= bpow radix2 (emax f / 2 - 1)) (fv f 1 (-2) 3) /\
  is3 (xv 1 2 3) (mk3 1 2 3) /\ isR (xn 2) 2.
Proof. intros f. exact (conj (C28_sample f) (conj (is3_xv 1 2 3) (isR_xn 2))). Qed.

(** ** C29 *)
Theorem C29_componentwise : forall (T : Type) (S : Scalar T) n (a b : vec T n) (s : T) i,
  v_add a b @ i = (a @ i + b @ i)%S /\ v_sub a b @ i = (a @ i - b @ i)%S /\
  v_mul a b @ i = (a @ i * b @ i)%S /\ v_div a b @ i = (a @ i / b @ i)%S /\
  v_scale a s @ i = (a @ i * s)%S /\ v_divs a s @ i = (a @ i / s)%S /\
  v_min a b @ i = smin (a @ i) (b @ i) /\ v_max a b @ i = smax (a @ i) (b @ i) /\
  @v_default T S n @ i = szero.
Proof. exact @comp_ops. Qed.
Print Assumptions C29_componentwise.
Theorem C29_points_componentwise : forall (T : Type) (S : Scalar T) n (a b : vec T n) i,
  p_sub_p a b @ i = (a @ i - b @ i)%S /\ p_add_v a b @ i = (a @ i + b @ i)%S /\
  v_add_p a b @ i = (a @ i + b @ i)%S /\ p_sub_v a b @ i = (a @ i - b @ i)%S.
Proof. exact @comp_points. Qed.
Print Assumptions C29_points_componentwise.
Theorem C29_neg_componentwise : forall (T : Type) (S : SignedScalar T) n (a : vec T n) i, v_neg a @ i = sneg (a @ i).
Proof. exact @neg_comp. Qed.
Print Assumptions C29_neg_componentwise.
Theorem C29_equality_componentwise : forall (T : Type) (S : Scalar T) n (a b : vec T n),
  v_eqb a b = true <-> forall i, (a @ i == b @ i)%S = true.
Proof. exact @v_eqb_iff. Qed.
Print Assumptions C29_equality_componentwise.
Theorem C29_almost_equal_componentwise : forall (T : Type) (A : AlmostEq T) n (a b : vec T n),
  v_almost_eq a b = true <-> forall i, almost_eq (a @ i) (b @ i) = true.
Proof. exact @v_almost_iff. Qed.
Print Assumptions C29_almost_equal_componentwise.
(** the constructors and the accessors list the components in order *)
Theorem C29_accessors : forall T (x y z w : T) (v2 : vec T 2) (v3 : vec T 3) (v4 : vec T 4),
  Vector.to_list (vec2 x y) = (x :: y :: nil)%list /\ Vector.to_list (vec3 x y z) = (x :: y :: z :: nil)%list /\
  Vector.to_list (vec4 x y z w) = (x :: y :: z :: w :: nil)%list /\
  Vector.to_list v2 = (vx v2 :: vy v2 :: nil)%list /\ Vector.to_list v3 = (vx v3 :: vy v3 :: vz v3 :: nil)%list /\
  Vector.to_list v4 = (vx v4 :: vy v4 :: vz v4 :: vw v4 :: nil)%list.
Proof. exact @accessors. Qed.
Print Assumptions C29_accessors.
Theorem C29_exact : forall n (v w : vec xr n) a b k r, isV v a -> isV w b -> isR k r ->
  isV (v_add v w) (fun i => a i + b i) /\ isV (v_sub v w) (fun i => a i - b i) /\ isV (v_mul v w) (fun i => a i * b i) /\
  isV (v_scale v k) (fun i => a i * r) /\ isV (v_neg v) (fun i => - a i) /\
  (r <> 0 -> isV (v_divs v k) (fun i => a i / r)) /\
  isV (v_min v w) (fun i => Rmin (a i) (b i)) /\ isV (v_max v w) (fun i => Rmax (a i) (b i)).
Proof. exact @isV_ops. Qed.
Print Assumptions C29_exact.
Theorem C29_points_affine : forall n (p q v : vec xr n) a b c, isV p a -> isV q b -> isV v c ->
  isV (p_add_v q (p_sub_p p q)) a /\ isV (v_add_p (p_sub_p p q) q) a /\ isV (p_sub_v (p_add_v p v) v) a /\
  isV (p_sub_p (p_add_v p v) p) c.
Proof. exact @point_affine. Qed.
Print Assumptions C29_points_affine.
Theorem C29_min_max_float : forall (f : fmt) (m : libm f) n (a b : vec (float f) n) i, nonnan (a @ i) -> nonnan (b @ i) ->
  (fle (v_min a b @ i) (a @ i) /\ fle (v_min a b @ i) (b @ i) /\ (v_min a b @ i = a @ i \/ v_min a b @ i = b @ i)) /\
  (fle (a @ i) (v_max a b @ i) /\ fle (b @ i) (v_max a b @ i) /\ (v_max a b @ i = a @ i \/ v_max a b @ i = b @ i)).
Proof. intros f m n a b i. exact (minmax_float a b i). Qed.
Print Assumptions C29_min_max_float.
Example C29_case : forall f, realv (xv 1 2 3) /\ isR (xn 2) 2 /\ fall nonnan (fv f 1 (-2) 3).
Proof. exact C29_sample. Qed.

(** ** C30 *)
Theorem C30_norm : forall n (v : vec xr n) a, isV v a ->
  isR (norm v) (rlen a) /\ isR (square_norm v) (rdot a a) /\ isR (dot v v) (rdot a a) /\
  isR (norm v * norm v)%S (rdot a a).
Proof. intros n v a H. destruct (norm_sq v a H) as (_ & _ & _ & H1 & H2). exact (conj (isR_norm v a H) (conj H2 (conj (isR_dot v v a a H H) H1))). Qed.
Print Assumptions C30_norm.
Theorem C30_distance : forall n (p q : vec xr n) a b, isV p a -> isV q b -> isR (distance p q) (rlen (fun i => a i - b i)).
Proof. exact @isR_distance. Qed.
Print Assumptions C30_distance.
Theorem C30_distance_metric : forall n (p q r : vec xr n) a b c, isV p a -> isV q b -> isV r c ->
  exists d e g, isR (distance p q) d /\ isR (distance q p) d /\ isR (distance q r) e /\ isR (distance p r) g /\
    0 <= d /\ (d = 0 <-> forall i, a i = b i) /\ g <= d + e.
Proof. exact @distance_metric. Qed.
Print Assumptions C30_distance_metric.
Theorem C30_normalize : forall n (v : vec xr n) a, isV v a -> ~ (forall i, a i = 0) ->
  exists u, isV (normalize v) u /\ rlen u = 1 /\ exists k, 0 < k /\ forall i, u i = k * a i.
Proof. exact @normalize_ok. Qed.
Print Assumptions C30_normalize.
Theorem C30_normalize_zero : forall n (v : vec xr n), isV v (fun _ => 0) -> forall i, normalize v @ i = XNaN.
Proof. exact @normalize_zero. Qed.
Print Assumptions C30_normalize_zero.
Example C30_case : exists a, isV (xv 1 2 3) a /\ ~ (forall i, a i = 0).
Proof. exact C30_sample. Qed.

(** ** C63 vectors of intervals *)
Theorem C63_add_sub_neg_enclose : forall (f : fmt) (m : libm f) n (v w : vec (FI f) n) a b, memv a v -> memv b w ->
  memv (fun i => a i + b i) (v_add v w) /\ memv (fun i => a i - b i) (v_sub v w) /\ memv (fun i => - a i) (v_neg v).
Proof. intros f m n v w a b. exact (comp_mem v w a b). Qed.
Print Assumptions C63_add_sub_neg_enclose.
Theorem C63_scalar_ops_enclose : forall (f : fmt) (m : libm f) n (v : vec (FI f) n) (c : float f) a, memv a v -> finite c ->
  ((forall i, bounded (v @ i)) -> memv (fun i => a i * B2R c) (vi_mul_s v c)) /\
  (B2R c <> 0 -> memv (fun i => a i / B2R c) (vi_div_s v c)).
Proof. intros f m n v c a. exact (scalar_mem v c a). Qed.
Print Assumptions C63_scalar_ops_enclose.
Theorem C63_from_encloses : forall (f : fmt) (m : libm f) n (v : vec (float f) n), fall finite v -> memv (fvals v) (vi_from v).
Proof. intros f m n v. exact (from_mem v). Qed.
Print Assumptions C63_from_encloses.
(** the conversion adds nothing: each component contains its float and no other number *)
Theorem C63_from_exact : forall (f : fmt) (m : libm f) n (v : vec (float f) n) a, fall finite v ->
  (memv a (vi_from v) <-> forall i, a i = fvals v i).
Proof. intros f m n v a. exact (from_exact v a). Qed.
Print Assumptions C63_from_exact.
Theorem C63_square_norm_encloses : forall (f : fmt) (m : libm f) n (v : vec (FI f) n) a, memv a v -> mem (rdot a a) (square_norm v).
Proof. intros f m n v a. exact (sqnorm_mem v a). Qed.
Print Assumptions C63_square_norm_encloses.
Theorem C63_square_distance_encloses : forall (f : fmt) (m : libm f) n (v w : vec (FI f) n) a b, memv a v -> memv b w ->
  mem (rdot (fun i => a i - b i) (fun i => a i - b i)) (square_distance v w).
Proof. intros f m n v w a b. exact (sqdist_mem v w a b). Qed.
Print Assumptions C63_square_distance_encloses.
(** the dot product inherits the defect of interval multiplication *)
Definition C63_dot_encloses (f : fmt) (m : libm f) : Prop := forall n (v w : vec (FI f) n) a b,
  (forall i, bounded (v @ i)) -> (forall i, bounded (w @ i)) -> memv a v -> memv b w -> mem (rdot a b) (dot v w).
Theorem C63_dot_encloses_refuted : forall (f : fmt) (m : libm f), ~ C63_dot_encloses f m.
Proof. exact dot_refuted. Qed.
Print Assumptions C63_dot_encloses_refuted.
(** missing: components whose factors both contain zero strictly inside *)
Theorem C63_dot_encloses_partial : forall (f : fmt) (m : libm f) n (v w : vec (FI f) n) a b, memv a v -> memv b w ->
  (forall i, bounded (v @ i)) -> (forall i, bounded (w @ i)) ->
  (forall i, ~ (straddles (v @ i) /\ straddles (w @ i))) -> mem (rdot a b) (dot v w).
Proof. intros f m n v w a b. exact (dot_mem v w a b). Qed.
Print Assumptions C63_dot_encloses_partial.
(** the norm of a vector that may be zero has a NaN bound *)
Definition C63_norm_encloses (f : fmt) (m : libm f) : Prop := forall n (v : vec (FI f) n) a,
  (forall i, bounded (v @ i)) -> memv a v -> mem (rlen a) (norm v).
Theorem C63_norm_encloses_refuted : forall (f : fmt) (m : libm f), ~ C63_norm_encloses f m.
Proof. exact norm_refuted. Qed.
Print Assumptions C63_norm_encloses_refuted.
Theorem C63_norm_of_possible_zero_is_nan : forall (f : fmt) (m : libm f) n (v : vec (FI f) (S n)),
  memv (fun _ => 0) v -> ~ proper (norm v).
Proof. intros f m n v. exact (norm_nan v). Qed.
Print Assumptions C63_norm_of_possible_zero_is_nan.
(** missing: vectors whose squared norm has a negative lower bound *)
Theorem C63_norm_encloses_partial : forall (f : fmt) (m : libm f) n (v : vec (FI f) n) a, memv a v ->
  fle (fzero false) (inf (square_norm v)) -> mem (rlen a) (norm v).
Proof. intros f m n v a. exact (norm_mem v a). Qed.
Print Assumptions C63_norm_encloses_partial.
Example C63_case : forall f (m : libm f), memv (fun i => 1/2) (vec3 (ZI f 0 1) (ZI f (-3) 2) (ZI f 0 4)) /\
  (forall i, bounded (vec3 (ZI f 0 1) (ZI f (-3) 2) (ZI f 0 4) @ i)) /\
  (forall i, ~ (straddles (vec3 (ZI f 0 1) (ZI f (-3) 2) (ZI f 0 4) @ i) /\ straddles (vec3 (ZI f (-1) 1) (ZI f 0 1) (ZI f 2 4) @ i))) /\
  fle (fzero false) (inf (square_norm (vec3 (ZI f 1 2) (ZI f 3 4) (ZI f (-1) 1)))).
Proof. exact C63_sample. Qed.
