(** * Properties C43-C48 and C64: bounding boxes.

    [in_fbox], [box_finite], [box_ordered], [box_within], ... describe float boxes through
    their corner coordinates; [isB b lo hi]: the exact-arithmetic box [b] has the real corners
    [lo], [hi]; [in_box lo hi p]: the real point [p] is in the closed box (SpecShape.v);
    [at_ray o d t] is the real point o + t d (SpecGeom.v). *)
From Coq Require Import ZArith Reals Bool Lra Lia.
From Coq Require Vector Fin.
From Flocq Require Import Core BinarySingleNaN.
From Verif.Model Require Import FloatBase Scalar Float Interval Outcome Vec Transform XReal Geometry.
From Verif Require Import Spec SpecGeom SpecShape.
From Verif.Proofs Require Import FloatLemmas ScalarProofs IntervalRefute XRealLemmas TransformCases BoxFloat BoxExact BoxCases BoxClosest BoxMapExact.
From Verif.Proofs Require Import ExactCond.
Open Scope R_scope.
Notation "v @ i" := (Vector.nth v i) (at level 20, only parsing).

(** ** C43 *)
Theorem C43_inside_means_between_corners : forall (f : fmt) (m : libm f) (b : bbox (float f)) p,
  b_inside b p = true <-> in_fbox b p.
Proof. intros f m b p. exact (inside_spec b p). Qed.
Print Assumptions C43_inside_means_between_corners.
Theorem C43_new_is_smallest_box : forall (f : fmt) (m : libm f) (p q : vec (float f) 3), fall nonnan p -> fall nonnan q ->
  box_ordered (b_new p q) /\ b_inside (b_new p q) p = true /\ b_inside (b_new p q) q = true /\
  (forall c, b_inside c p = true -> b_inside c q = true ->
     box_within (b_new p q) c /\ (forall x, b_inside (b_new p q) x = true -> b_inside c x = true)).
Proof. intros f m p q. exact (new_ok p q). Qed.
Print Assumptions C43_new_is_smallest_box.
Example C43_case : forall f, fall nonnan (fv f 3 (-2) 5) /\ fall nonnan (fv f 1 7 5).
Proof. exact C43_sample. Qed.

(** ** C44 *)
Theorem C44_union_contains_both : forall (f : fmt) (m : libm f) (a b : bbox (float f)), box_nonnan a -> box_nonnan b ->
  box_within a (b_union a b) /\ box_within b (b_union a b) /\
  (forall p, b_inside a p = true \/ b_inside b p = true -> b_inside (b_union a b) p = true).
Proof. intros f m a b Ha Hb. exact (conj (proj1 (union_upper a b Ha Hb)) (conj (proj2 (union_upper a b Ha Hb)) (union_inside a b Ha Hb))). Qed.
Print Assumptions C44_union_contains_both.
Theorem C44_union_is_least : forall (f : fmt) (m : libm f) (a b c : bbox (float f)), box_nonnan a -> box_nonnan b ->
  box_within a c -> box_within b c -> box_within (b_union a b) c.
Proof. intros f m a b c Ha Hb. exact (union_least a b Ha Hb c). Qed.
Print Assumptions C44_union_is_least.
Theorem C44_union_laws : forall (f : fmt) (m : libm f) (a b c : bbox (float f)), box_nonnan a -> box_nonnan b -> box_nonnan c ->
  box_same (b_union a b) (b_union b a) /\
  box_same (b_union (b_union a b) c) (b_union a (b_union b c)) /\
  box_same (b_union a a) a.
Proof. intros f m a b c. exact (union_laws a b c). Qed.
Print Assumptions C44_union_laws.
Theorem C44_default_is_unit : forall (f : fmt) (m : libm f) (b : bbox (float f)), box_nonnan b ->
  (forall i, pmin b @ i <> finf false /\ pmax b @ i <> finf true) ->
  box_same (b_union b_default b) b /\ box_same (b_union b b_default) b.
Proof. intros f m b. exact (default_unit b). Qed.
Print Assumptions C44_default_is_unit.
Theorem C44_default_is_empty : forall (f : fmt) (m : libm f) (p : vec (float f) 3), b_inside b_default p = false.
Proof. intros f m p. exact (default_empty p). Qed.
Print Assumptions C44_default_is_empty.
Theorem C44_intersect_is_common_part : forall (f : fmt) (m : libm f) (a b : bbox (float f)), box_nonnan a -> box_nonnan b ->
  forall p, b_inside (b_intersect a b) p = true <-> b_inside a p = true /\ b_inside b p = true.
Proof. intros f m a b. exact (inter_inside a b). Qed.
Print Assumptions C44_intersect_is_common_part.
Theorem C44_overlaps_iff_interiors_meet : forall (f : fmt) (m : libm f) (a b : bbox (float f)), box_fat a -> box_fat b ->
  (b_overlaps a b = true <-> exists r, interior a r /\ interior b r).
Proof. intros f m a b. exact (overlaps_interior a b). Qed.
Print Assumptions C44_overlaps_iff_interiors_meet.
Theorem C44_overlaps_symmetric_and_shares : forall (f : fmt) (m : libm f) (a b : bbox (float f)),
  b_overlaps a b = b_overlaps b a /\
  (box_ordered a -> box_ordered b -> b_overlaps a b = true -> exists p, b_inside a p = true /\ b_inside b p = true).
Proof. intros f m a b. exact (conj (overlaps_sym a b) (overlaps_share a b)). Qed.
Print Assumptions C44_overlaps_symmetric_and_shares.
Example C44_case : forall f (m : libm f), box_fat (boxA f) /\ box_fat (boxB f) /\ box_nonnan (boxA f) /\ box_ordered (boxA f) /\ box_nonnan (boxB f) /\
  b_overlaps (boxA f) (boxB f) = true /\ (forall i, pmin (boxA f) @ i <> finf false /\ pmax (boxA f) @ i <> finf true).
Proof. exact C44_sample. Qed.

(** ** C45 *)
Theorem C45_diagonal : forall (f : fmt) (m : libm f) (b : bbox (float f)), box_finite b -> forall i,
  rounds_to (b_diagonal b @ i) (B2R (pmax b @ i) - B2R (pmin b @ i)) /\
  (fle (pmin b @ i) (pmax b @ i) -> fle (fzero false) (b_diagonal b @ i)).
Proof. intros f m b. exact (diag_ok b). Qed.
Print Assumptions C45_diagonal.
Theorem C45_max_extent : forall (f : fmt) (m : libm f) (b : bbox (float f)), box_finite b ->
  exists i lo hi, b_max_extent b = ((lo, hi), proj1_sig (Fin.to_nat i)) /\
    lo = pmin b @ i /\ hi = pmax b @ i /\ forall j, fle (b_diagonal b @ j) (b_diagonal b @ i).
Proof. intros f m b. exact (max_extent_ok b). Qed.
Print Assumptions C45_max_extent.
Definition C45_center_inside (f : fmt) (m : libm f) : Prop :=
  forall b : bbox (float f), box_finite b -> box_ordered b -> b_inside b (b_center b) = true.
Theorem C45_center_inside_refuted : forall (f : fmt) (m : libm f), ~ C45_center_inside f m.
Proof. intros f m. exact (center_refuted f m). Qed.
Print Assumptions C45_center_inside_refuted.
(** the missing case: corner sums beyond the largest float *)
Theorem C45_center_inside_partial : forall (f : fmt) (m : libm f) (b : bbox (float f)), box_finite b -> box_ordered b ->
  (forall i, finite (sadd (pmax b @ i) (pmin b @ i))) -> b_inside b (b_center b) = true.
Proof. intros f m b. exact (center_ok b). Qed.
Print Assumptions C45_center_inside_partial.
(** the exact condition: no corner sum rounds beyond the largest float *)
Theorem C45_center_inside_iff : forall (f : fmt) (m : libm f) (b : bbox (float f)), box_finite b -> box_ordered b ->
  (b_inside b (b_center b) = true <->
   forall i, Rabs (rndf f (B2R (pmax b @ i) + B2R (pmin b @ i))) < bpow radix2 (emax f)).
Proof. intros f m. exact center_iff. Qed.
Print Assumptions C45_center_inside_iff.
Example C45_case : forall f (m : libm f), box_finite (boxB f) /\ box_ordered (boxB f) /\ (forall i, finite (sadd (pmax (boxB f) @ i) (pmin (boxB f) @ i))) /\
  box_finite (huge_box f) /\ box_ordered (huge_box f).
Proof. exact C45_sample. Qed.

(** ** C46 *)
Definition C46_slab_test : Prop := forall b r lo hi o d tm, isB b lo hi -> le3 lo hi -> isRay r o d tm -> 0 <= tm ->
  (b_do_intersect b r = true <-> exists t, 0 <= t <= tm /\ in_box lo hi (at_ray o d t)).
Theorem C46_slab_test_refuted : ~ C46_slab_test.
Proof. exact slab_refuted. Qed.
Print Assumptions C46_slab_test_refuted.
(** missing: rays that run inside the plane of a lower bound; they are always missed (next theorem) *)
Theorem C46_slab_test_partial : forall b r lo hi o d tm, isB b lo hi -> le3 lo hi -> isRay r o d tm -> 0 <= tm -> no_graze lo hi o d ->
  (b_do_intersect b r = true <-> exists t, 0 <= t <= tm /\ in_box lo hi (at_ray o d t)).
Proof. exact hit_exists. Qed.
Print Assumptions C46_slab_test_partial.
Theorem C46_lower_plane_always_missed : forall b r lo hi o d tm, isB b lo hi -> isRay r o d tm -> 0 <= tm -> ~ no_graze lo hi o d ->
  b_intersect_ray b r = None.
Proof. exact slab_graze. Qed.
Print Assumptions C46_lower_plane_always_missed.
Theorem C46_parameter_range_partial : forall b r lo hi o d tm, isB b lo hi -> le3 lo hi -> isRay r o d tm -> 0 <= tm -> no_graze lo hi o d ->
  match b_intersect_ray b r with
  | None => forall t, 0 <= t <= tm -> ~ in_box lo hi (at_ray o d t)
  | Some (x, y) => exists t0 t1, isR x t0 /\ isR y t1 /\ t0 <= t1 /\
      forall t, (0 <= t <= tm /\ in_box lo hi (at_ray o d t)) <-> t0 <= t <= t1
  end.
Proof. exact slab_ok. Qed.
Print Assumptions C46_parameter_range_partial.
Example C46_case : isB (xbox 0 0 0 1 2 3) (mk3 0 0 0) (mk3 1 2 3) /\ le3 (mk3 0 0 0) (mk3 1 2 3) /\
  isRay (xray (1/2) 2 (-1) 0 0 1 10) (mk3 (1/2) 2 (-1)) (mk3 0 0 1) 10 /\ no_graze (mk3 0 0 0) (mk3 1 2 3) (mk3 (1/2) 2 (-1)) (mk3 0 0 1) /\
  b_do_intersect (xbox 0 0 0 1 2 3) (xray (1/2) 2 (-1) 0 0 1 10) = true.
Proof. exact C46_sample. Qed.

(** ** C47 *)
Theorem C47_never_panics : forall (f : fmt) (m : libm f) (b : bbox (float f)) (r : ray (float f)), exists h, b_hit b r = Ret h.
Proof. intros f m b r. exact (hit_never_panics b r). Qed.
Print Assumptions C47_never_panics.
Theorem C47_do_intersect_iff_hit : forall (f : fmt) (m : libm f) (b : bbox (float f)) (r : ray (float f)),
  b_do_intersect b r = true <-> exists h, b_hit b r = Ret (Some h).
Proof. intros f m b r. exact (do_iff_hit b r). Qed.
Print Assumptions C47_do_intersect_iff_hit.
Theorem C47_hit_record : forall (f : fmt) (m : libm f) (b : bbox (float f)) (r : ray (float f)) h, b_hit b r = Ret (Some h) ->
  fle (fzero false) (t_ray h) /\ (fle (fzero false) (tmax r) -> fle (t_ray h) (tmax r)) /\
  exists i (upper : bool),
    si_p (h_si h) @ i = (if upper then pmax b else pmin b) @ i /\
    (forall j, j <> i -> si_p (h_si h) @ j = ray_eval r (t_ray h) @ j) /\
    B2R (si_n (h_si h) @ i) = (if upper then 1 else -1) /\ (forall j, j <> i -> B2R (si_n (h_si h) @ j) = 0).
Proof. intros f m b r h. exact (hit_float b r h). Qed.
Print Assumptions C47_hit_record.
(** the reported face is the one nearest to the point the ray is evaluated to, the distances being
    those computed in floats *)
Theorem C47_closest_face : forall (f : fmt) (m : libm f) (b : bbox (float f)) (r : ray (float f)) h, b_hit b r = Ret (Some h) ->
  let gap k (upper : bool) : float f := ssub (ray_eval r (t_ray h) @ k) ((if upper then pmax b else pmin b) @ k) in
  (forall k upper, finite (gap k upper)) ->
  exists i (upper : bool), si_p (h_si h) @ i = (if upper then pmax b else pmin b) @ i /\ B2R (si_n (h_si h) @ i) = (if upper then 1 else -1) /\
    forall j v, Rabs (B2R (gap i upper)) <= Rabs (B2R (gap j v)).
Proof. intros f m b r h. exact (closest_float b r h). Qed.
Print Assumptions C47_closest_face.
Definition C47_hit_on_ray : Prop := forall b r lo hi o d tm h, isB b lo hi -> le3 lo hi -> isRay r o d tm -> 0 <= tm ->
  b_hit b r = Ret (Some h) -> exists t, isR (t_ray h) t /\ is3 (si_p (h_si h)) (at_ray o d t).
Theorem C47_hit_on_ray_refuted : ~ C47_hit_on_ray.
Proof. exact hit_inside_refuted. Qed.
Print Assumptions C47_hit_on_ray_refuted.
(** Everything but one clause holds for every ray; the reported point is the ray's first point
    in the box only when the origin is not strictly inside.  For an origin strictly inside,
    t = 0 and the reported point is the nearest point of the surface. *)
Theorem C47_hit_exact_partial : forall b r lo hi o d tm h, isB b lo hi -> le3 lo hi -> isRay r o d tm -> 0 <= tm -> b_hit b r = Ret (Some h) ->
  exists t p n, isR (t_ray h) t /\ 0 <= t <= tm /\ is3 (si_p (h_si h)) p /\ is3 (si_n (h_si h)) n /\
    in_box lo hi (at_ray o d t) /\ (forall s, 0 <= s <= tm -> in_box lo hi (at_ray o d s) -> t <= s) /\
    in_box lo hi p /\ face_normal lo hi p n /\
    (forall q, on_surface lo hi q -> len3 (sub3 p (at_ray o d t)) <= len3 (sub3 q (at_ray o d t))) /\
    (~ inner lo hi o -> p = at_ray o d t) /\ (inner lo hi o -> t = 0).
Proof. exact hit_exact. Qed.
Print Assumptions C47_hit_exact_partial.
Example C47_case : forall f (m : libm f), exists h, b_hit (boxA f) (mkRay (fv f (-1) 1 1) (fv f 1 0 0) (f_of_Z 100)) = Ret (Some h).
Proof. exact C47_sample. Qed.
Example C47_case_inside : exists h, b_hit (xbox 0 0 0 4 4 4) (xray 1 2 2 0 0 1 10) = Ret (Some h) /\ inner (mk3 0 0 0) (mk3 4 4 4) (mk3 1 2 2).
Proof. exact C47_sample_inside. Qed.

(** ** C48 *)
Definition C48_map_encloses : Prop := forall t A B b lo hi, built_affine t -> isT t A B -> isB b lo hi -> le3 lo hi ->
  exists lo' hi', isB (t_map_bbox t b) lo' hi' /\ forall p, in_box lo hi p -> in_box lo' hi' (app_pt A p).
Theorem C48_map_encloses_refuted : ~ C48_map_encloses.
Proof. exact map_bbox_refuted. Qed.
Print Assumptions C48_map_encloses_refuted.
(** proved for transforms whose linear part is diagonal (scalings and translations), for which
    the result is even the smallest such box; false in general for rotations and shears *)
Theorem C48_map_encloses_partial : forall t A B b lo hi, isT t A B -> affine A -> diagonal A -> isB b lo hi -> le3 lo hi ->
  exists lo' hi', isB (t_map_bbox t b) lo' hi' /\ (forall p, in_box lo hi p -> in_box lo' hi' (app_pt A p)) /\
    (forall l h, (forall p, in_box lo hi p -> in_box l h (app_pt A p)) -> le3 l lo' /\ le3 hi' h).
Proof. exact map_bbox_partial. Qed.
Print Assumptions C48_map_encloses_partial.
Theorem C48_map_inverse_encloses_partial : forall t A B b lo hi, isT t A B -> affine B -> diagonal B -> isB b lo hi -> le3 lo hi ->
  exists lo' hi', isB (t_map_bbox_inverse t b) lo' hi' /\ (forall p, in_box lo hi p -> in_box lo' hi' (app_pt B p)) /\
    (forall l h, (forall p, in_box lo hi p -> in_box l h (app_pt B p)) -> le3 l lo' /\ le3 hi' h).
Proof. exact map_bbox_inv_partial. Qed.
Print Assumptions C48_map_inverse_encloses_partial.
(** what is computed for an arbitrary matrix: coordinate j is bounded by sums over the entries of
    column j, all multiplied by the bounds of coordinate j (the enclosing box needs row j, with the
    bounds of each coordinate in turn) *)
Theorem C48_computed_box : forall t A B b lo hi, isT t A B -> isB b lo hi ->
  let low j l h := Rmin (A i0 j * l) (A i0 j * h) + Rmin (A i1 j * l) (A i1 j * h) + Rmin (A i2 j * l) (A i2 j * h) in
  let high j l h := Rmax (A i0 j * l) (A i0 j * h) + Rmax (A i1 j * l) (A i1 j * h) + Rmax (A i2 j * l) (A i2 j * h) in
  isB (t_map_bbox t b)
    (mk3 (A i0 i3 + low i0 (cX lo) (cX hi)) (A i1 i3 + low i1 (cY lo) (cY hi)) (A i2 i3 + low i2 (cZ lo) (cZ hi)))
    (mk3 (A i0 i3 + high i0 (cX lo) (cX hi)) (A i1 i3 + high i1 (cY lo) (cY hi)) (A i2 i3 + high i2 (cZ lo) (cZ hi))).
Proof. intros t A B b lo hi H. exact (map_bbox_value (tm t) A b lo hi (proj1 H)). Qed.
Print Assumptions C48_computed_box.
(** so for any affine transform the result encloses the transformed box exactly when the column sums
    dominate the row sums (which are the right bounds) ... *)
Theorem C48_encloses_iff : forall t A B b lo hi, isT t A B -> affine A -> isB b lo hi -> le3 lo hi ->
  let low j l h := Rmin (A i0 j * l) (A i0 j * h) + Rmin (A i1 j * l) (A i1 j * h) + Rmin (A i2 j * l) (A i2 j * h) in
  let high j l h := Rmax (A i0 j * l) (A i0 j * h) + Rmax (A i1 j * l) (A i1 j * h) + Rmax (A i2 j * l) (A i2 j * h) in
  let low' i := Rmin (A i i0 * cX lo) (A i i0 * cX hi) + Rmin (A i i1 * cY lo) (A i i1 * cY hi) + Rmin (A i i2 * cZ lo) (A i i2 * cZ hi) in
  let high' i := Rmax (A i i0 * cX lo) (A i i0 * cX hi) + Rmax (A i i1 * cY lo) (A i i1 * cY hi) + Rmax (A i i2 * cZ lo) (A i i2 * cZ hi) in
  exists lo' hi', isB (t_map_bbox t b) lo' hi' /\
    ((forall p, in_box lo hi p -> in_box lo' hi' (app_pt A p)) <->
     (low i0 (cX lo) (cX hi) <= low' i0 /\ low i1 (cY lo) (cY hi) <= low' i1 /\ low i2 (cZ lo) (cZ hi) <= low' i2) /\
     (high' i0 <= high i0 (cX lo) (cX hi) /\ high' i1 <= high i1 (cY lo) (cY hi) /\ high' i2 <= high i2 (cZ lo) (cZ hi))).
Proof. exact map_bbox_iff. Qed.
Print Assumptions C48_encloses_iff.
(** ... and for a cube around the origin exactly when row and column i have the same sum of absolute values *)
Theorem C48_centred_cube_iff : forall t A B b r, isT t A B -> affine A -> 0 < r -> isB b (mk3 (- r) (- r) (- r)) (mk3 r r r) ->
  let rowsum i := Rabs (A i i0) + Rabs (A i i1) + Rabs (A i i2) in
  let colsum j := Rabs (A i0 j) + Rabs (A i1 j) + Rabs (A i2 j) in
  exists lo' hi', isB (t_map_bbox t b) lo' hi' /\
    ((forall p, in_box (mk3 (- r) (- r) (- r)) (mk3 r r r) p -> in_box lo' hi' (app_pt A p)) <->
     rowsum i0 = colsum i0 /\ rowsum i1 = colsum i1 /\ rowsum i2 = colsum i2).
Proof. exact map_cube_iff. Qed.
Print Assumptions C48_centred_cube_iff.
(** in particular a centred cube may be rotated about any coordinate axis *)
Theorem C48_axis_rotations_partial : forall x a b r, isR x a -> 0 < r -> isB b (mk3 (- r) (- r) (- r)) (mk3 r r r) ->
  forall t, t = rotate_x x \/ t = rotate_y x \/ t = rotate_z x ->
  exists A B lo' hi', isT t A B /\ isB (t_map_bbox t b) lo' hi' /\
    forall p, in_box (mk3 (- r) (- r) (- r)) (mk3 r r r) p -> in_box lo' hi' (app_pt A p).
Proof. exact cube_rotations. Qed.
Print Assumptions C48_axis_rotations_partial.
Example C48_case_cube : isR (xn (PI / 3)) (PI / 3) /\ isB (xbox (-2) (-2) (-2) 2 2 2) (mk3 (- (2)) (- (2)) (- (2))) (mk3 2 2 2).
Proof. split; [apply isR_xn|exact (isB_xbox (-2) (-2) (-2) 2 2 2)]. Qed.
Example C48_case : exists A B, isT (t_mul (translate (xv 1 2 3)) (scale (xv 2 (-1) 5))) A B /\ affine A /\ diagonal A /\ affine B /\ diagonal B.
Proof. exact C48_sample. Qed.

(** ** C64 *)
Definition C64_box_normal_from_tangents (f : fmt) (m : libm f) : Prop :=
  forall (b : bbox (float f)) (r : ray (float f)) h, b_hit b r = Ret (Some h) ->
    f3 (si_n (h_si h)) = cross3 (f3 (si_dpdu (h_si h))) (f3 (si_dpdv (h_si h))).
Theorem C64_box_normal_from_tangents_refuted : forall (f : fmt) (m : libm f), ~ C64_box_normal_from_tangents f m.
Proof. intros f m. exact (box_normal_refuted f m). Qed.
Print Assumptions C64_box_normal_from_tangents_refuted.
(** what does hold: an orthonormal frame, but always of the opposite orientation *)
Theorem C64_box_frame_partial : forall (f : fmt) (m : libm f) (b : bbox (float f)) (r : ray (float f)) h, b_hit b r = Ret (Some h) ->
  let n := f3 (si_n (h_si h)) in let u := f3 (si_dpdu (h_si h)) in let v := f3 (si_dpdv (h_si h)) in
  dot3 n n = 1 /\ dot3 u u = 1 /\ dot3 v v = 1 /\ dot3 u v = 0 /\ dot3 u n = 0 /\ dot3 v n = 0 /\ cross3 u v = scl3 (-1) n.
Proof. intros f m b r h. exact (hit_frame b r h). Qed.
Print Assumptions C64_box_frame_partial.
Example C64_case : forall f (m : libm f), exists h, b_hit (boxA f) (mkRay (fv f (-1) 1 1) (fv f 1 0 0) (f_of_Z 100)) = Ret (Some h).
Proof. exact C47_sample. Qed.
