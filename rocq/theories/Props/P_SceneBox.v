(** * C98: bounding boxes of float scenes. *)
From Coq Require Import ZArith Reals List.
From Coq Require Vector Fin.
From Flocq Require Import Core BinarySingleNaN.
From Verif.Model Require Import FloatBase Scalar Float Interval Outcome Vec Transform XReal Geometry.
From Verif Require Import Spec SpecGeom SpecShape SpecBoxes.
From Verif.Proofs Require Import TransformCases BoxMapCases SceneBoxFloat.
Open Scope R_scope.

(** ** C98 *)
(** Scenes of any size and depth: the point to which any part of the scene is carried by the float
    transforms above it lies in the scene's float bounding box, without rounding allowance. *)
Theorem C98_contains : forall (f : fmt) (m : libm f) (p : prim (float f)) q, upright_scene p -> sits p q -> in_fbox (p_bbox p) q.
Proof. intros f m. exact scene_box. Qed.
Print Assumptions C98_contains.
(** Carrying a point of the scene one level up neither panics nor leaves the box. *)
Theorem C98_moves : forall (f : fmt) (m : libm f) (p : prim (float f)) t q, upright_scene (PTransformed p t) -> sits p q ->
  exists q', t_map_point t q = Ret q' /\ sits (PTransformed p t) q' /\ in_fbox (p_bbox (PTransformed p t)) q'.
Proof. intros f m. exact scene_moves. Qed.
Print Assumptions C98_moves.
(** No bound of such a box is NaN. *)
Theorem C98_no_nan : forall (f : fmt) (m : libm f) (p : prim (float f)), upright_scene p -> box_nonnan (p_bbox p).
Proof. intros f m. exact scene_nonnan. Qed.
Print Assumptions C98_no_nan.
(** the other half of the claim: a scene without shapes has an empty bounding box *)
Definition C98_empty (f : fmt) (m : libm f) : Prop := forall (p : prim (float f)) q,
  upright_scene p -> shapeless p -> b_inside (p_bbox p) q = false.
(** false: an empty list, translated by zero, has a box that contains (1,2,3), because mapping a box puts
    its corners in order and so turns the empty box into the largest one *)
Theorem C98_empty_refuted : forall (f : fmt) (m : libm f), ~ C98_empty f m.
Proof. exact empty_refuted. Qed.
Print Assumptions C98_empty_refuted.
(** it holds when there are only lists (missing: transformed empty lists, for which it is false) *)
Theorem C98_empty_partial : forall (f : fmt) (m : libm f) (p : prim (float f)) q, hollow p -> b_inside (p_bbox p) q = false.
Proof. exact hollow_empty. Qed.
Print Assumptions C98_empty_partial.
(** a list of a box and a moved ball, scaled by (3,-2,7) *)
Example C98_case : forall f (m : libm f), upright_scene (scene98 f).
Proof. exact scene98_upright. Qed.
Example C98_case_sits : forall f (m : libm f), exists q, sits (scene98 f) q.
Proof. exact scene98_sits. Qed.
Example C98_case_hollow : forall f, hollow (PList (PList nil :: PList nil :: nil) : prim (float f)).
Proof. exact (fun f => conj I (conj I I)). Qed.
