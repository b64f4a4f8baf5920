(** * C97: boxes mapped by float translations and scalings. *)
From Coq Require Import ZArith Reals.
From Coq Require Vector Fin.
From Flocq Require Import Core BinarySingleNaN.
From Verif.Model Require Import FloatBase Scalar Float Interval Outcome Vec Transform XReal Geometry.
From Verif Require Import Spec SpecGeom SpecShape.
From Verif.Proofs Require Import TransformCases BoxMapFloat BoxMapCases.
Open Scope R_scope.

(** ** C97 *)
(** The map of every float point of a box is inside the mapped box, bit for bit: no rounding allowance,
    and results that overflow included. For every affine transform without off-diagonal entries. *)
Theorem C97_encloses : forall (f : fmt) (m : libm f) (t : transform (float f)) A (b : bbox (float f)) p,
  fM (tm t) A -> affine A -> diagonal A -> box_finite b -> fall finite p -> in_fbox b p ->
  exists q, t_map_point t p = Ret q /\ in_fbox (t_map_bbox t b) q.
Proof. intros f m t. exact (map_encloses (tm t)). Qed.
Print Assumptions C97_encloses.
Theorem C97_encloses_inverse : forall (f : fmt) (m : libm f) (t : transform (float f)) A (b : bbox (float f)) p,
  fM (tminv t) A -> affine A -> diagonal A -> box_finite b -> fall finite p -> in_fbox b p ->
  exists q, t_map_point_inverse t p = Ret q /\ in_fbox (t_map_bbox_inverse t b) q.
Proof. intros f m t. exact (map_encloses (tminv t)). Qed.
Print Assumptions C97_encloses_inverse.
(** The mapped box is no larger than it must be: along each axis its two bounds are the coordinates of
    the maps of the box's two corners, in one order or the other. *)
Theorem C97_tight : forall (f : fmt) (m : libm f) (t : transform (float f)) A (b : bbox (float f)),
  fM (tm t) A -> affine A -> diagonal A -> box_finite b -> box_ordered b -> forall i, exists q1 q2,
  t_map_point t (pmin b) = Ret q1 /\ t_map_point t (pmax b) = Ret q2 /\
  let lo := Vector.nth (pmin (t_map_bbox t b)) i in let hi := Vector.nth (pmax (t_map_bbox t b)) i in
  (feq lo (Vector.nth q1 i) /\ feq hi (Vector.nth q2 i)) \/ (feq lo (Vector.nth q2 i) /\ feq hi (Vector.nth q1 i)).
Proof. intros f m t. exact (map_tight (tm t)). Qed.
Print Assumptions C97_tight.
Theorem C97_tight_inverse : forall (f : fmt) (m : libm f) (t : transform (float f)) A (b : bbox (float f)),
  fM (tminv t) A -> affine A -> diagonal A -> box_finite b -> box_ordered b -> forall i, exists q1 q2,
  t_map_point_inverse t (pmin b) = Ret q1 /\ t_map_point_inverse t (pmax b) = Ret q2 /\
  let lo := Vector.nth (pmin (t_map_bbox_inverse t b)) i in let hi := Vector.nth (pmax (t_map_bbox_inverse t b)) i in
  (feq lo (Vector.nth q1 i) /\ feq hi (Vector.nth q2 i)) \/ (feq lo (Vector.nth q2 i) /\ feq hi (Vector.nth q1 i)).
Proof. intros f m t. exact (map_tight (tminv t)). Qed.
Print Assumptions C97_tight_inverse.
(** A box within another is mapped into the map of the other. *)
Theorem C97_isotone : forall (f : fmt) (m : libm f) (t : transform (float f)) A (a b : bbox (float f)),
  fM (tm t) A -> affine A -> diagonal A -> box_finite a -> box_finite b -> box_ordered a -> box_within a b ->
  box_within (t_map_bbox t a) (t_map_bbox t b).
Proof. intros f m t. exact (map_isotone (tm t)). Qed.
Print Assumptions C97_isotone.
(** Every translation by finite amounts, both ways. *)
Theorem C97_translate : forall (f : fmt) (m : libm f) (v : vec (float f) 3) (b : bbox (float f)) p,
  fall finite v -> box_finite b -> fall finite p -> in_fbox b p ->
  (exists q, t_map_point (translate v) p = Ret q /\ in_fbox (t_map_bbox (translate v) b) q) /\
  (exists q, t_map_point_inverse (translate v) p = Ret q /\ in_fbox (t_map_bbox_inverse (translate v) b) q).
Proof. intros f m. exact translate_box. Qed.
Print Assumptions C97_translate.
(** Every scaling by finite factors, of either sign or zero. *)
Theorem C97_scale : forall (f : fmt) (m : libm f) (v : vec (float f) 3) (b : bbox (float f)) p,
  fall finite v -> box_finite b -> fall finite p -> in_fbox b p ->
  exists q, t_map_point (scale v) p = Ret q /\ in_fbox (t_map_bbox (scale v) b) q.
Proof. intros f m. exact scale_box. Qed.
Print Assumptions C97_scale.
(** Undoing a scaling, when the float reciprocals of the factors are finite. *)
Theorem C97_scale_inverse : forall (f : fmt) (m : libm f) (v : vec (float f) 3) (b : bbox (float f)) p,
  (forall i, finite (fdiv (f_of_Z 1) (Vector.nth v i))) -> box_finite b -> fall finite p -> in_fbox b p ->
  exists q, t_map_point_inverse (scale v) p = Ret q /\ in_fbox (t_map_bbox_inverse (scale v) b) q.
Proof. intros f m. exact scale_box_inv. Qed.
Print Assumptions C97_scale_inverse.
(** the box [-1,3]x[2,5]x[0,7], the point (1,3,0) and the vector (3,-2,7) *)
Example C97_case : forall f (m : libm f), fall finite (fv f 3 (-2) 7) /\ (forall i, finite (fdiv (f_of_Z 1) (Vector.nth (fv f 3 (-2) 7) i))) /\
  box_finite (box97 f) /\ box_ordered (box97 f) /\ fall finite (fv f 1 3 0) /\ in_fbox (box97 f) (fv f 1 3 0).
Proof. exact C97_sample. Qed.
(** finite translations and scalings have finite affine matrices without off-diagonal entries *)
Example C97_case_translate : forall f (m : libm f) (v : vec (float f) 3), fall finite v ->
  exists A B, fM (tm (translate v)) A /\ affine A /\ diagonal A /\ fM (tminv (translate v)) B /\ affine B /\ diagonal B.
Proof. intros f m. exact translate_ok. Qed.
Example C97_case_scale : forall f (m : libm f) (v : vec (float f) 3), fall finite v ->
  exists A, fM (tm (scale v)) A /\ affine A /\ diagonal A.
Proof. intros f m. exact scale_ok. Qed.
