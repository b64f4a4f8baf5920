(** Property C90: tracing a float ray through a scene does not panic.

    The theorems range over both formats, every libm [m] and primitive trees of any size and depth
    ([prim]: boxes, spheres, transformed primitives, lists and user-defined primitives that do not
    panic themselves).  [intersect] is [p_intersect], [do_intersect] is [p_do_intersect]; [Ret] is a
    normal return.  [affine_scene], [nesting], [entries_within] and [ray_within] are in SpecPanic.v. *)
From Coq Require Import ZArith Reals Bool List Lra.
From Coq Require Vector Fin.
From Flocq Require Import Core BinarySingleNaN.
From Verif.Model Require Import FloatBase Scalar Float Interval Outcome Vec Transform Geometry.
From Verif Require Import Spec SpecGeom SpecShape SpecPanic.
From Verif.Proofs Require Import TransformCases ScenePanic.
Open Scope R_scope.

(** ** C90 *)
Definition C90_no_panic (f : fmt) (m : libm f) : Prop := forall (p : prim (float f)) (r : ray (float f)),
  affine_scene p -> fall finite (origin r) -> fall finite (direction r) ->
  (exists h, p_intersect p r = Ret h) /\ (exists d, p_do_intersect p r = Ret d).
(** refuted: any primitive under two nested scalings by the smallest normal number and a ray with direction
    (4, 0, 0).  The first inverse map overflows to infinity, the second multiplies infinity by the
    zeros of the last matrix row and the assertion on the fourth coordinate fails. *)
Theorem C90_no_panic_refuted : forall (f : fmt) (m : libm f), ~ C90_no_panic f m.
Proof. exact refuted_panic. Qed.
Print Assumptions C90_no_panic_refuted.
Theorem C90_nested_scaling_panics : forall (f : fmt) (m : libm f) (q : prim (float f)), affine_scene q -> let tiny := fdiv (f_of_Z 1) (f_of_Z (2 ^ (emax f - 2))) : float f in
  let p := PTransformed (PTransformed q (scale (vec3 tiny tiny tiny))) (scale (vec3 tiny tiny tiny)) in
  let r := mkRay (fv f 0 0 0) (fv f 4 0 0) (f_of_Z 1) in
  affine_scene p /\ fall finite (origin r) /\ fall finite (direction r) /\ p_intersect p r = Panic /\ p_do_intersect p r = Panic.
Proof. exact nested_panic. Qed.
Print Assumptions C90_nested_scaling_panics.
(** missing from the full claim: scenes in which transforms are nested so that magnitudes add up to
    more than the exponent range (128 for f32, 1024 for f64) *)
Theorem C90_no_panic_partial : forall (f : fmt) (m : libm f) (k j : Z) (p : prim (float f)) (r : ray (float f)),
  affine_scene p -> entries_within k p -> ray_within j r -> (0 <= j)%Z -> (0 <= k)%Z -> (j + nesting p * (k + 3) < emax f)%Z ->
  (exists h, p_intersect p r = Ret h) /\ (exists d, p_do_intersect p r = Ret d).
Proof. intros f m k j p r A B C D E F. exact (no_panic p k j r A B C D E F). Qed.
Print Assumptions C90_no_panic_partial.
(** ... and no condition on magnitudes is needed when transforms are not nested in one another *)
Theorem C90_one_level : forall (f : fmt) (m : libm f) (p : prim (float f)) (r : ray (float f)),
  affine_scene p -> fall finite (origin r) -> fall finite (direction r) -> (nesting p <= 1)%Z ->
  (exists h, p_intersect p r = Ret h) /\ (exists d, p_do_intersect p r = Ret d).
Proof. intros f m p r A B C D. exact (one_level p r A B C D). Qed.
Print Assumptions C90_one_level.
(** a list of a box and a ball that is moved by (1,-2,3) and then doubled, and a ray *)
Example C90_case : forall (f : fmt) (m : libm f) (b : bbox (float f)) (s : sphere (float f)),
  let p := PList (PBox b :: PTransformed (PTransformed (PSphere s) (translate (fv f 1 (-2) 3))) (scale (fv f 2 2 2)) :: nil) in
  affine_scene p /\ entries_within 2 p /\ ray_within 3 (mkRay (fv f 5 0 (-7)) (fv f 1 (-1) 2) (f_of_Z 9)) /\ nesting p = 2%Z /\ (3 + nesting p * (2 + 3) < emax f)%Z.
Proof. exact C90_sample. Qed.
