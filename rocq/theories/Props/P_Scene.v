(** * C82, C83: scenes built from boxes, spheres, transformed primitives and lists, nested to any depth.

    [describes q s] (SpecScene.v): the primitive [q] describes the point set [s] of real space, where a
    transformed primitive describes the image of a set under the transform's matrix and a list the union.
    [pts s p]: the point p belongs to s.  [isRay r o d tm]: the exact-arithmetic ray [r] has real origin
    [o], direction [d] and extent [tm]. *)
From Coq Require Import ZArith Reals Bool List Lra.
From Coq Require Vector Fin.
From Flocq Require Import Core BinarySingleNaN.
From Verif.Model Require Import FloatBase Scalar Float Interval Outcome Vec Transform XReal Geometry.
From Verif Require Import Spec SpecGeom SpecShape SpecSphere SpecPrim SpecScene.
From Verif.Proofs Require Import TransformCases BoxCases SphereCases SceneProofs.
Open Scope R_scope.

(** ** C82 *)
(** no panic; a reported hit is a point of the scene at the reported parameter, within the extent *)
Theorem C82_hits_are_real : forall q s, describes q s -> forall r o d tm, isRay r o d tm -> 0 <= tm -> d <> zero3 ->
  (exists x, p_intersect q r = Ret x) /\
  forall h, p_intersect q r = Ret (Some h) -> exists u, isR (t_ray h) u /\ 0 <= u <= tm /\ pts s (at_ray o d u).
Proof. exact scene_sound. Qed.
Print Assumptions C82_hits_are_real.
(** the cheaper query gives the same answer *)
Theorem C82_do_intersect : forall q s r o d tm, describes q s -> isRay r o d tm -> 0 <= tm -> d <> zero3 ->
  (p_do_intersect q r = Ret true <-> exists h, p_intersect q r = Ret (Some h)) /\
  (p_do_intersect q r = Ret false <-> p_intersect q r = Ret None) /\
  exists b, p_do_intersect q r = Ret b.
Proof. exact scene_do. Qed.
Print Assumptions C82_do_intersect.
(** a ray that meets the scene is reported to hit *)
Definition C82_no_miss : Prop := forall q s r o d tm u, describes q s -> isRay r o d tm -> 0 <= tm -> d <> zero3 ->
  0 <= u <= tm -> pts s (at_ray o d u) -> exists h, p_intersect q r = Ret (Some h).
(** refuted by a ray in a lower face plane of a box *)
Theorem C82_no_miss_refuted : ~ C82_no_miss.
Proof. exact no_miss_refuted. Qed.
Print Assumptions C82_no_miss_refuted.
(** proved for scenes without wedge cuts and rays that run in no lower face plane of a box *)
Theorem C82_no_miss_partial : forall q s, describes q s -> plain s -> forall r o d tm, isRay r o d tm -> 0 <= tm -> d <> zero3 -> clear_of s o d ->
  forall u, 0 <= u <= tm -> pts s (at_ray o d u) -> exists h, p_intersect q r = Ret (Some h).
Proof. exact scene_complete. Qed.
Print Assumptions C82_no_miss_partial.
(** [surely] and [pts] differ only in points of wedge-cut spheres that have two polar angles *)
Theorem C82_surely : forall s p, (surely s p -> pts s p) /\ (plain s -> pts s p -> surely s p).
Proof. exact surely_spec. Qed.
Print Assumptions C82_surely.
(** with wedge cuts: every ray that surely meets the scene and runs in no lower face plane of a box is reported to hit *)
Theorem C82_no_miss_cut_partial : forall q s, describes q s -> forall r o d tm, isRay r o d tm -> 0 <= tm -> d <> zero3 -> clear_of s o d ->
  met s o d tm -> exists h, p_intersect q r = Ret (Some h).
Proof. exact scene_complete_cut. Qed.
Print Assumptions C82_no_miss_cut_partial.
(** which parameter is reported, in every scene: the first for boxes and spheres, for a list that of
    the last member met (not the first one along the ray, see C55) *)
Theorem C82_reported_partial : forall q s, describes q s -> forall r o d tm, isRay r o d tm -> 0 <= tm -> d <> zero3 -> clear_of s o d ->
  forall h, p_intersect q r = Ret (Some h) -> exists u, isR (t_ray h) u /\ reported s o d tm u.
Proof. exact scene_reported. Qed.
Print Assumptions C82_reported_partial.
Example C82_case_cut : exists s, xsphere 1 (-1) 1 (xn 0) = Ret s /\ describes (PList (cons (PBox (xbox (-1) 1 (-1) 1 (3/2) 1)) (cons (PSphere s) nil))) pair_shape /\ ~ plain pair_shape /\
  clear_of pair_shape (mk3 0 2 0) (mk3 0 (-1) 0) /\ met pair_shape (mk3 0 2 0) (mk3 0 (-1) 0) 10 /\
  reported pair_shape (mk3 0 2 0) (mk3 0 (-1) 0) 10 3 /\ pts pair_shape (at_ray (mk3 0 2 0) (mk3 0 (-1) 0) (1/2)).
Proof. exact cut_case. Qed.
(** the reported parameter is the first one, when no list has two or more members (for lists see C55) *)
Theorem C82_first_partial : forall q s, describes q s -> plain s -> unbranched s -> forall r o d tm, isRay r o d tm -> 0 <= tm -> d <> zero3 ->
  forall h, p_intersect q r = Ret (Some h) ->
  exists u, isR (t_ray h) u /\ 0 <= u <= tm /\ pts s (at_ray o d u) /\ forall v, 0 <= v <= tm -> pts s (at_ray o d v) -> u <= v.
Proof. exact scene_first. Qed.
Print Assumptions C82_first_partial.
Example C82_case : exists s, xsphere 1 (-1) 1 pi = Ret s /\ describes (scene s) scene_shape /\ plain scene_shape /\ upright scene_shape /\
  clear_of scene_shape (mk3 20 (1/2) (1/2)) (mk3 (-1) 0 0) /\ pts scene_shape (at_ray (mk3 20 (1/2) (1/2)) (mk3 (-1) 0 0) 7).
Proof. exact scene_case. Qed.
Example C82_case_first : exists r h, describes turned turned_s /\ plain turned_s /\ unbranched turned_s /\
  r = xray (-1/2) (1/2) (-5) 0 0 1 10 /\ p_intersect turned r = Ret (Some h).
Proof. exact first_case. Qed.

(** ** C83 *)
(** the corners of the bounding box are always real numbers *)
Theorem C83_bbox_exists : forall q s, describes q s -> exists lo hi, isB (p_bbox q) lo hi.
Proof. exact scene_isB. Qed.
Print Assumptions C83_bbox_exists.
(** the bounding box of a scene contains the scene *)
Definition C83_bbox_contains : Prop := forall q s lo hi p, describes q s -> isB (p_bbox q) lo hi -> pts s p -> in_box lo hi p.
Theorem C83_bbox_contains_refuted : ~ C83_bbox_contains.
Proof. exact contains_refuted. Qed.
Print Assumptions C83_bbox_contains_refuted.
(** proved when all transforms only scale the axes and translate *)
Theorem C83_bbox_contains_partial : forall q s, describes q s -> upright s ->
  forall lo hi p, isB (p_bbox q) lo hi -> pts s p -> in_box lo hi p.
Proof. exact scene_box. Qed.
Print Assumptions C83_bbox_contains_partial.
(** skipping a primitive whose bounding box is missed never loses a hit *)
Definition C83_culling : Prop := forall q s r o d tm h lo hi, describes q s -> isRay r o d tm -> 0 <= tm -> d <> zero3 ->
  p_intersect q r = Ret (Some h) -> isB (p_bbox q) lo hi -> no_graze lo hi o d -> b_do_intersect (p_bbox q) r = true.
(** refuted by a box rotated by a quarter turn *)
Theorem C83_culling_refuted : ~ C83_culling.
Proof. exact cull_refuted. Qed.
Print Assumptions C83_culling_refuted.
Theorem C83_culling_partial : forall q s r o d tm h lo hi, describes q s -> upright s -> isRay r o d tm -> 0 <= tm -> d <> zero3 ->
  p_intersect q r = Ret (Some h) -> isB (p_bbox q) lo hi -> no_graze lo hi o d -> b_do_intersect (p_bbox q) r = true.
Proof. exact scene_cull. Qed.
Print Assumptions C83_culling_partial.
Example C83_case : exists s, xsphere 1 (-1) 1 pi = Ret s /\ describes (scene s) scene_shape /\ plain scene_shape /\ upright scene_shape /\
  clear_of scene_shape (mk3 20 (1/2) (1/2)) (mk3 (-1) 0 0) /\ pts scene_shape (at_ray (mk3 20 (1/2) (1/2)) (mk3 (-1) 0 0) 7).
Proof. exact scene_case. Qed.
