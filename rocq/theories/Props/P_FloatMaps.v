(** * C91-C93: composed maps, mapped rays and maps there and back in f32/f64.

    [aff A p] and [app_vec A v] are the exact images of a point and a vector under the affine matrix
    [A]; [fM M A]: the finite float matrix [M] has the real entries [A].  [close3 p a B k c]: each
    component of the float triple [p] is within k*B_i + c of a_i.  [absM], [abs3]: entrywise absolute
    values; [mass A]: the sum of all of them; [size3]: the sum of the magnitudes of the components.
    [rel_err f k] = (1+u)^k - 1 with [u] the unit roundoff; [smallest_float f] the least positive float.
    [f3 v] are the real values of the float triple [v]. *)
From Coq Require Import ZArith Reals Bool Lra.
From Coq Require Vector Fin.
From Flocq Require Import Core BinarySingleNaN.
From Verif.Model Require Import FloatBase Scalar Float Interval Outcome Vec Transform XReal Geometry.
From Verif Require Import Spec SpecGeom SpecShape SpecError SpecRot SpecMaps.
From Verif.Proofs Require Import TransformCases MapComp MapBack.
Open Scope R_scope.

(** ** C91 mapping with a product is mapping twice, up to rounding *)
Theorem C91_points : forall (f : fmt) (m : libm f) (t v : transform (float f)) A C (p q r s : vec (float f) 3),
  fM (t_matrix t) A -> affine A -> fM (t_matrix v) C -> affine C -> (forall i j, finite (Vector.nth (Vector.nth (t_matrix (t_mul t v)) i) j)) -> fall finite p ->
  t_map_point v p = Ret q -> fall finite q -> t_map_point t q = Ret r -> fall finite r -> t_map_point (t_mul t v) p = Ret s -> fall finite s ->
  let exact := aff A (aff C (f3 p)) in let B := aff (absM A) (aff (absM C) (abs3 (f3 p))) in
  close3 r exact B (rel_err f 8) (4 * smallest_float f * mass A) /\ close3 s exact B (rel_err f 8) (4 * smallest_float f * (1 + size3 (f3 p))).
Proof. intros f m t v A C p q r s HA AA HC AC FM Fp E1 F1 E2 F2 E3 F3. exact (conj (two_points t v A C p q r HA AA HC AC Fp E1 F1 E2 F2) (prod_point t v A C p s HA AA HC AC FM Fp E3 F3)). Qed.
Print Assumptions C91_points.
Theorem C91_vectors : forall (f : fmt) (m : libm f) (t v : transform (float f)) A C (p q r s : vec (float f) 3),
  fM (t_matrix t) A -> affine A -> fM (t_matrix v) C -> affine C -> (forall i j, finite (Vector.nth (Vector.nth (t_matrix (t_mul t v)) i) j)) ->
  t_map_vector v p = Ret q -> fall finite q -> t_map_vector t q = Ret r -> fall finite r -> t_map_vector (t_mul t v) p = Ret s -> fall finite s ->
  let exact := app_vec A (app_vec C (f3 p)) in let B := app_vec (absM A) (app_vec (absM C) (abs3 (f3 p))) in
  close3 r exact B (rel_err f 6) (4 * smallest_float f * mass A) /\ close3 s exact B (rel_err f 7) (4 * smallest_float f * (1 + size3 (f3 p))).
Proof. intros f m t v A C p q r s HA AA HC AC FM E1 F1 E2 F2 E3 F3. exact (conj (two_vectors t v A C p q r HA AA HC AC E1 F1 E2 F2) (prod_vector t v A C p s HA AA HC AC FM E3 F3)). Qed.
Print Assumptions C91_vectors.
(** a finite product of affine transforms is affine, exactly: none of the maps above can panic *)
Theorem C91_product_affine : forall (f : fmt) (m : libm f) (t v : transform (float f)) A C, fM (t_matrix t) A -> affine A -> fM (t_matrix v) C -> affine C ->
  (forall i j, finite (Vector.nth (Vector.nth (t_matrix (t_mul t v)) i) j)) ->
  (exists M, fM (t_matrix (t_mul t v)) M /\ affine M) /\
  forall p, fall finite p -> (exists q, t_map_point (t_mul t v) p = Ret q) /\ (exists q, t_map_vector (t_mul t v) p = Ret q).
Proof. intros f m t v A C. exact (product_affine t v A C). Qed.
Print Assumptions C91_product_affine.

(** ** C92 a point of a mapped ray is the mapped point of the ray, up to rounding *)
Theorem C92_ray_points : forall (f : fmt) (m : libm f) (t : transform (float f)) A (r r' : ray (float f)) (s : float f) (q : vec (float f) 3),
  fM (t_matrix t) A -> affine A -> fall finite (origin r) -> t_map_ray t r = Ret r' -> fall finite (origin r') -> fall finite (direction r') -> fall finite (ray_eval r' s) ->
  fall finite (ray_eval r s) -> t_map_point t (ray_eval r s) = Ret q -> fall finite q ->
  let o := f3 (origin r) in let d := f3 (direction r) in
  let exact := aff A (add3 o (scl3 (B2R s) d)) in let B := aff (absM A) (add3 (abs3 o) (scl3 (Rabs (B2R s)) (abs3 d))) in
  close3 (ray_eval r' s) exact B (rel_err f 6) (4 * smallest_float f * (1 + Rabs (B2R s))) /\ close3 q exact B (rel_err f 6) (4 * smallest_float f * mass A).
Proof. intros f m t A r r' s q HA AA Fo E Fo' Fd' F Fe Eq Fq. exact (conj (ray_point t A r r' s HA AA Fo E Fo' Fd' F) (point_ray t A r s q HA AA Fe Eq Fq)). Qed.
Print Assumptions C92_ray_points.

(** ** C93 translations and scalings there and back *)
Definition C93_exact (f : fmt) (m : libm f) : Prop := forall v p q w : vec (float f) 3, fall finite v -> fall finite p ->
  t_map_point (translate v) p = Ret q -> fall finite q -> t_map_point_inverse (translate v) q = Ret w -> fall finite w -> f3 w = f3 p.
(** refuted: (1, 1, 1) moved by (MAX, MAX, MAX) and back is the origin *)
Theorem C93_exact_refuted : forall (f : fmt) (m : libm f), ~ C93_exact f m.
Proof. intros f m H. destruct (not_exact f m) as (v & p & q & w & A & B & C & D & E & F & G). exact (G (H v p q w A B C D E F)). Qed.
Print Assumptions C93_exact_refuted.
(** missing from the full claim: the rounding error *)
Theorem C93_translate_partial : forall (f : fmt) (m : libm f) (v p : vec (float f) 3), fall finite v -> fall finite p ->
  exists q, t_map_point (translate v) p = Ret q /\
  (fall finite q -> exists w, t_map_point_inverse (translate v) q = Ret w /\
    (fall finite w -> close3 w (f3 p) (add3 (abs3 (f3 p)) (abs3 (f3 v))) (3 * unit_roundoff f) 0)).
Proof. intros f m. exact translate_back. Qed.
Print Assumptions C93_translate_partial.
Theorem C93_scale_partial : forall (f : fmt) (m : libm f) (s p : vec (float f) 3), usable_scale s -> fall finite p ->
  let close (w : vec (float f) 3) := forall i, Rabs (B2R (Vector.nth w i) - B2R (Vector.nth p i)) <= 4 * unit_roundoff f * Rabs (B2R (Vector.nth p i)) + smallest_float f * (1 + / Rabs (B2R (Vector.nth s i))) in
  (exists q, t_map_point (scale s) p = Ret q /\ (fall finite q -> exists w, t_map_point_inverse (scale s) q = Ret w /\ (fall finite w -> close w))) /\
  (exists q, t_map_vector (scale s) p = Ret q /\ (fall finite q -> exists w, t_map_vector_inverse (scale s) q = Ret w /\ (fall finite w -> close w))).
Proof. intros f m. exact scale_back. Qed.
Print Assumptions C93_scale_partial.

(** a scaling followed by a translation, a point and a ray meeting the hypotheses of C91-C93 *)
Example C91_case : forall (f : fmt) (m : libm f), let t := t_mul (translate (fv f 1 (-2) 3)) (scale (fv f 2 3 4)) in let p := fv f 4 0 7 in let r := mkRay p (fv f 1 1 1) (f_of_Z 9) in
  (exists A, fM (t_matrix t) A /\ affine A) /\ (forall i j, finite (Vector.nth (Vector.nth (t_matrix (t_mul t t)) i) j)) /\ fall finite p /\
  (exists q1 q2 q, t_map_point t p = Ret q1 /\ fall finite q1 /\ t_map_point t q1 = Ret q2 /\ fall finite q2 /\ t_map_point (t_mul t t) p = Ret q /\ fall finite q) /\
  (exists q1 q2 q, t_map_vector t p = Ret q1 /\ fall finite q1 /\ t_map_vector t q1 = Ret q2 /\ fall finite q2 /\ t_map_vector (t_mul t t) p = Ret q /\ fall finite q) /\
  (exists r' q, t_map_ray t r = Ret r' /\ fall finite (origin r') /\ fall finite (direction r') /\ fall finite (ray_eval r' (f_of_Z 2)) /\ fall finite (ray_eval r (f_of_Z 2)) /\ t_map_point t (ray_eval r (f_of_Z 2)) = Ret q /\ fall finite q) /\
  usable_scale (fv f 2 (-3) 7).
Proof. exact maps_sample. Qed.
