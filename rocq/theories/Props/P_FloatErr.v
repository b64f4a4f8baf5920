(** * C76-C77: rounding errors of vector and transform operations in f32/f64.

    [rlen] is the Euclidean length, [fvals v] the real values of the float vector [v].
    [close3 p a B k c] (SpecError.v): each component of [p] is within k*B_i + c of a_i.
    [rel_err f k] = (1+u)^k - 1 with [u] the unit roundoff; [smallest_float f] is the least positive
    float.  [fM M A]: the finite float matrix [M] has the real entries [A]. *)
From Coq Require Import ZArith Reals Bool Lra.
From Coq Require Vector Fin.
From Flocq Require Import Core BinarySingleNaN.
From Verif.Model Require Import FloatBase Scalar Float Interval Outcome Vec Transform XReal Geometry.
From Verif Require Import Spec SpecGeom SpecShape SpecError.
From Verif.Proofs Require Import TransformCases VectorErr MapErr ErrCases.
Open Scope R_scope.
Notation "v @ i" := (Vector.nth v i) (at level 20, only parsing).

(** ** C76 lengths *)
Theorem C76_norm_error : forall (f : fmt) (m : libm f) n (v : vec (float f) n),
  let u := unit_roundoff f in let g := INR n * u / (1 - INR n * u) in
  finite (norm v) -> INR n * u <= 1 / 2 ->
  Rabs (B2R (norm v) - rlen (fvals v)) <= ((1 + u) * g + u) * rlen (fvals v) + (1 + u) * sqrt (INR n * smallest_float f) + smallest_float f / 2.
Proof. intros f m n. exact norm_err. Qed.
Print Assumptions C76_norm_error.
Theorem C76_distance_error : forall (f : fmt) (m : libm f) n (p q : vec (float f) n),
  let u := unit_roundoff f in let g := INR n * u / (1 - INR n * u) in let L := rlen (fun i => fvals p i - fvals q i) in
  finite (distance p q) -> INR n * u <= 1 / 2 ->
  Rabs (B2R (distance p q) - L) <= (((1 + u) * g + u) * (1 + u) + u) * L + (1 + u) * sqrt (INR n * smallest_float f) + smallest_float f / 2.
Proof. intros f m n p q u g L A B. exact (distance_err p q A B). Qed.
Print Assumptions C76_distance_error.
(** every finite nonzero vector normalizes to unit length *)
Definition C76_normalize_unit (f : fmt) (m : libm f) : Prop := forall v : vec (float f) 3, fall finite v -> ~ (forall i, fvals v i = 0) ->
  fall finite (normalize v) /\ Rabs (rlen (fvals (normalize v)) - 1) <= 6 * unit_roundoff f.
(** refuted: (MAX, 0, 0) normalizes to the zero vector *)
Theorem C76_normalize_unit_refuted : forall (f : fmt) (m : libm f), ~ C76_normalize_unit f m.
Proof. exact unit_len_refuted. Qed.
Print Assumptions C76_normalize_unit_refuted.
Theorem C76_normalize_overflow : forall (f : fmt) (m : libm f), exists v : vec (float f) 3,
  fall finite v /\ ~ (forall i, fvals v i = 0) /\ fall finite (normalize v) /\ forall i, fvals (normalize v) i = 0.
Proof. exact normalize_overflow. Qed.
Print Assumptions C76_normalize_overflow.
(** missing from the full claim: vectors shorter than 2^-40 or whose float length overflows *)
Theorem C76_normalize_unit_partial : forall (f : fmt) (m : libm f) (v : vec (float f) 3),
  finite (norm v) -> bpow radix2 (-40) <= rlen (fvals v) ->
  fall finite (normalize v) /\ Rabs (rlen (fvals (normalize v)) - 1) <= 6 * unit_roundoff f /\
  forall i, Rabs (fvals (normalize v) i - fvals v i / rlen (fvals v)) <= 6 * unit_roundoff f.
Proof. intros f m. exact normalize_err. Qed.
Print Assumptions C76_normalize_unit_partial.
Example C76_case : forall (f : fmt) (m : libm f), let v := fv f 1 (-2) 3 in let w := fv f 4 0 7 in
  finite (norm v) /\ finite (distance v w) /\ INR 3 * unit_roundoff f <= 1 / 2 /\ bpow radix2 (-40) <= rlen (fvals v).
Proof. exact C76_sample. Qed.

(** ** C77 cross products, rays, maps, matrix products *)
Theorem C77_cross_error : forall (f : fmt) (m : libm f) (a b : vec (float f) 3), fall finite (cross a b) ->
  close3 (cross a b) (cross3 (f3 a) (f3 b)) (cross_abs (f3 a) (f3 b)) (rel_err f 2) ((1 + unit_roundoff f) * smallest_float f).
Proof. intros f m. exact cross_err. Qed.
Print Assumptions C77_cross_error.
Theorem C77_ray_error : forall (f : fmt) (m : libm f) (r : ray (float f)) (t : float f), fall finite (ray_eval r t) ->
  let o := f3 (origin r) in let d := f3 (direction r) in
  close3 (ray_eval r t) (add3 o (scl3 (B2R t) d)) (add3 (abs3 o) (abs3 (scl3 (B2R t) d))) (rel_err f 2) ((1 + unit_roundoff f) * (smallest_float f / 2)).
Proof. intros f m. exact ray_err. Qed.
Print Assumptions C77_ray_error.
Theorem C77_map_vector_error : forall (f : fmt) (m : libm f) (t : transform (float f)) A (v q : vec (float f) 3),
  fM (t_matrix t) A -> affine A -> t_map_vector t v = Ret q -> fall finite q ->
  close3 q (app_vec A (f3 v)) (app_vec (absM A) (abs3 (f3 v))) (rel_err f 3) (3 * (1 + unit_roundoff f) ^ 2 * (smallest_float f / 2)).
Proof. intros f m. exact vector_err. Qed.
Print Assumptions C77_map_vector_error.
Theorem C77_map_point_error : forall (f : fmt) (m : libm f) (t : transform (float f)) A (p q : vec (float f) 3),
  fM (t_matrix t) A -> affine A -> fall finite p -> t_map_point t p = Ret q -> fall finite q ->
  close3 q (add3 (app_vec A (f3 p)) (mk3 (A i0 i3) (A i1 i3) (A i2 i3)))
    (add3 (app_vec (absM A) (abs3 (f3 p))) (mk3 (Rabs (A i0 i3)) (Rabs (A i1 i3)) (Rabs (A i2 i3)))) (rel_err f 4)
    (3 * (1 + unit_roundoff f) ^ 3 * (smallest_float f / 2)).
Proof. intros f m. exact point_err. Qed.
Print Assumptions C77_map_point_error.
Theorem C77_matrix_product_error : forall (f : fmt) (m : libm f) (a b : matrix (float f)) A B i j, fM a A -> fM b B -> finite (m_mul a b @ i @ j) ->
  Rabs (B2R (m_mul a b @ i @ j) - rmul A B i j) <= rel_err f 4 * rmul (absM A) (absM B) i j + 4 * (1 + unit_roundoff f) ^ 3 * (smallest_float f / 2).
Proof. intros f m. exact matrix_err. Qed.
Print Assumptions C77_matrix_product_error.
Example C77_case : forall (f : fmt) (m : libm f), let v := fv f 1 (-2) 3 in let w := fv f 4 0 7 in
  fall finite v /\ fall finite (cross v w) /\ fall finite (ray_eval (mkRay v w (f_of_Z 9)) (f_of_Z 2)) /\
  (exists A, fM (t_matrix (ft f)) A /\ affine A) /\
  (exists q, t_map_vector (ft f) v = Ret q /\ fall finite q) /\ (exists q, t_map_point (ft f) v = Ret q /\ fall finite q) /\
  forall i j, finite (m_mul (t_matrix (ft f)) (t_matrix (ft f)) @ i @ j).
Proof. exact C77_sample. Qed.
