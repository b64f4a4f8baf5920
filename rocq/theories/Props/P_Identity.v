(** * C100: wrapping a primitive in the identity transform in f32 and f64. *)
From Coq Require Import ZArith Reals List.
From Flocq Require Import Core BinarySingleNaN.
From Verif.Model Require Import FloatBase Scalar Float Interval Outcome Vec Transform XReal Geometry.
From Verif Require Import Spec SpecGeom SpecShape SpecTrig SpecFrame SpecSign.
From Verif.Proofs Require Import FrameCases IdentityFloat IdentitySphere.
Open Scope R_scope.

(** ** C100 *)
(** The full claim: a primitive placed with the identity transform is hit by the same finite rays. *)
Definition C100_identity {f : fmt} (m : libm f) : Prop := forall (p : prim (float f)) (r : ray (float f)), ray_finite r ->
  p_do_intersect (PTransformed p t_identity) r = p_do_intersect p r.
(** It fails with every library that follows the IEEE rule for atan2 of signed zeros: the mapping turns
    the coordinate -0 into +0, which moves a hit point on the negative x axis from azimuth -PI to PI and so
    out of a wedge that ends before PI. *)
Theorem C100_identity_refuted : forall (f : fmt) (m : libm f), signed_atan2 m -> ~ C100_identity m.
Proof. exact identity_refuted. Qed.
Print Assumptions C100_identity_refuted.
(** such a library, accurate as well *)
Example C100_library : forall f, signed_atan2 (signed_libm f) /\ good_atan2 (signed_libm f).
Proof. exact signed_meets. Qed.
(** What holds: for a finite ray none of whose coordinates is -0 the whole result is the same, for every
    primitive (user-defined ones included). Missing: rays with a coordinate -0. *)
Theorem C100_identity_partial : forall (f : fmt) (m : libm f) (p : prim (float f)) (r : ray (float f)),
  fall finite (origin r) -> fall finite (direction r) -> no_neg_zero (origin r) -> no_neg_zero (direction r) ->
  p_do_intersect (PTransformed p t_identity) r = p_do_intersect p r /\ p_intersect (PTransformed p t_identity) r = p_intersect p r.
Proof. exact identity_kept. Qed.
Print Assumptions C100_identity_partial.
(** a ray with zeros among its coordinates *)
Example C100_case : forall f, ray_finite (clean_ray f) /\ no_neg_zero (origin (clean_ray f)) /\ no_neg_zero (direction (clean_ray f)).
Proof. exact clean_sample. Qed.
(** What also holds: scenes of boxes, lists, any transforms and spheres whose wedge ends beyond every value
    atan2 returns are hit by the same finite rays, those with coordinates -0 included; a panic in a
    transform inside is kept too. Missing: narrower wedges, user-defined primitives and the reported
    interaction for rays with a coordinate -0. *)
Theorem C100_identity_scene_partial : forall (f : fmt) (m : libm f) (p : prim (float f)) (r : ray (float f)), full_scene p -> ray_finite r ->
  p_do_intersect (PTransformed p t_identity) r = p_do_intersect p r.
Proof. intros f m. exact identity_scene. Qed.
Print Assumptions C100_identity_scene_partial.
(** a library, a scene of two balls and a ray with coordinates -0 *)
Example C100_scene_case : forall f, let m := frame_libm f in exists s : sphere (float f), ball5 f = Ret s /\
  full_scene (PList (PTransformed (PSphere s) (translate (vec3 (f_of_Z 7) (f_of_Z 0) (f_of_Z 0))) :: PSphere s :: nil)) /\ ray_finite (zray f) /\ ~ no_neg_zero (origin (zray f)).
Proof. exact full_sample. Qed.
(** such a ray hits a box *)
Example C100_box_case : forall f (m : libm f), ray_finite (zray f) /\ ~ no_neg_zero (origin (zray f)) /\
  p_do_intersect (PBox (mkB (vec3 (f_of_Z (-5)) (f_of_Z (-5)) (f_of_Z (-5))) (vec3 (f_of_Z 5) (f_of_Z 5) (f_of_Z 5)))) (zray f) = Ret true.
Proof. exact box_sample. Qed.
