(** * C94: tracing float rays through scenes with nested transforms, compared with exact geometry.

    [reaches p r As q r']: the shape [q] is part of the scene [p], the ray [r] arrives there as [r'], and
    [As] are the inverse matrices passed on the way; [carry As x]: the exact image of the world point [x]
    in the space of the shape; [drift f As o d t]: four roundings of the sum of the magnitudes for every
    matrix passed, plus an underflow term (SpecTrace.v).  [affine_scene] (SpecPanic.v): all transforms
    have finite affine inverse matrices.  [usual_ray], [usual_radius]: sizes far from the ends of the
    float range (SpecQuad.v). *)
From Coq Require Import ZArith Reals Bool List Lra.
From Coq Require Vector Fin.
From Flocq Require Import Core BinarySingleNaN.
From Verif.Model Require Import FloatBase Scalar Float Interval Outcome Vec Transform XReal Geometry.
From Verif Require Import Spec SpecGeom SpecShape SpecError SpecQuad SpecMaps SpecPanic SpecTrace.
From Verif.Proofs Require Import TransformCases SlabCases SpherePole TraceFloat TraceCases.
Import ListNotations.
Open Scope R_scope.

(** The ray that arrives at a shape is the world ray carried exactly into the space of the shape, up to
    the drift, at every parameter *)
Theorem C94_ray_carried : forall (f : fmt) (m : libm f) (p q : prim (float f)) (r r' : ray (float f)) As (t : R),
  reaches p r As q r' -> fall finite (origin r') -> fall finite (direction r') ->
  tmax r' = tmax r /\
  off_by (at_ray (f3 (origin r')) (f3 (direction r')) t) (carry As (at_ray (f3 (origin r)) (f3 (direction r)) t)) (drift f As (f3 (origin r)) (f3 (direction r)) t).
Proof. intros f m p q r r' As t H FO FD. exact (conj (reach_tmax _ _ _ _ _ H) (line_drift p r As q r' t H FO FD)). Qed.
Print Assumptions C94_ray_carried.

(** Every hit of a scene is a hit of one of its shapes: the world point at the reported parameter, carried
    exactly into the space of that shape, is within the drift and a few roundings of the surface of the
    sphere, or of the box *)
Theorem C94_scene_hit : forall (f : fmt) (m : libm f) (p : prim (float f)) (r : ray (float f)) (h : hit (float f)),
  affine_scene p -> p_intersect p r = Ret (Some h) ->
  exists As q r', reaches p r As q r' /\ tmax r' = tmax r /\
  let u := unit_roundoff f in let t := B2R (t_ray h) in let o := f3 (origin r) in let d := f3 (direction r) in
  let P := carry As (at_ray o d t) in let e := drift f As o d t in
  match q with
  | PSphere s => usual_ray (origin r') (direction r') -> usual_radius (radius s) ->
      let o' := f3 (origin r') in let rad := B2R (radius s) in
      finite (t_ray h) /\ Rabs (len3 P - rad) <= (cX e + cY e + cZ e) + 72 * u * (dot3 o' o' + rad * rad) / rad
  | PBox b => box_finite b -> box_ordered b -> ray_finite r' -> ray_no_graze b r' ->
      (forall i, finite (ssub (pmin b @ i) (origin r' @ i)) /\ finite (ssub (pmax b @ i) (origin r' @ i))) -> 0 <= B2R (tmax r) ->
      finite (t_ray h) /\ 0 <= t <= B2R (tmax r) /\
      in_grown_box (f3 (pmin b)) (f3 (pmax b)) (add3 (scl3 (3 * u * t + smallest_float f) (abs3 (f3 (direction r')))) e) P
  | PCustom _ _ c => c r' = Ret (Some h)
  | _ => False
  end.
Proof. intros f m. exact scene_hit. Qed.
Print Assumptions C94_scene_hit.

(** ... and if the test of a shape the ray arrives at says yes, the scene does not say no *)
Theorem C94_no_shape_lost : forall (f : fmt) (m : libm f) (p q : prim (float f)) (r r' : ray (float f)) As d,
  reaches p r As q r' -> p_do_intersect q r' = Ret true -> p_do_intersect p r = Ret d -> d = true.
Proof. intros f m p q r r' As d. exact (leaf_do p r As q r' d). Qed.
Print Assumptions C94_no_shape_lost.

(** ** C75, the reported parameter of a box hit: the exact ray point there is in the box enlarged by a few
    roundings of the way travelled *)
Theorem C75_reported_hit : forall (f : fmt) (m : libm f) (b : bbox (float f)) (r : ray (float f)) (h : hit (float f)),
  box_finite b -> box_ordered b -> ray_finite r -> ray_no_graze b r ->
  (forall i, finite (ssub (pmin b @ i) (origin r @ i)) /\ finite (ssub (pmax b @ i) (origin r @ i))) -> 0 <= B2R (tmax r) -> b_hit b r = Ret (Some h) ->
  let t := B2R (t_ray h) in finite (t_ray h) /\ 0 <= t <= B2R (tmax r) /\
  in_grown_box (f3 (pmin b)) (f3 (pmax b)) (scl3 (3 * unit_roundoff f * t + smallest_float f) (abs3 (f3 (direction r)))) (at_ray (f3 (origin r)) (f3 (direction r)) t).
Proof. intros f m. exact box_reported. Qed.
Print Assumptions C75_reported_hit.

(** a ball inside a translation inside a scaling, next to a box; and a translated box: both are hit *)
Example C94_case : forall (f : fmt) (m : libm f),
  (exists s, ball43 f = Ret s /\
    let p := PList [PBox (mkB (fv f 0 (-1) (-1)) (fv f 1 1 1)); PTransformed (PTransformed (PSphere s) (translate (fv f 1 (-2) 3))) (scale (fv f 2 2 2))] in
    let r := mkRay (fv f (-8) (-4) 6) (fv f 2 0 0) (f_of_Z 10) in
    affine_scene p /\ (exists h, p_intersect p r = Ret (Some h)) /\
    exists A B r', reaches p r [A; B] (PSphere s) r' /\ usual_ray (origin r') (direction r') /\ usual_radius (radius s)) /\
  (let b := mkB (fv f 0 (-1) (-1)) (fv f 1 1 1) in let p := PTransformed (PBox b) (translate (fv f 1 (-2) 3)) in let r := mkRay (fv f 0 (-2) 3) (fv f 1 0 0) (f_of_Z 10) in
    affine_scene p /\ (exists h, p_intersect p r = Ret (Some h)) /\
    exists A r', reaches p r [A] (PBox b) r' /\ box_finite b /\ box_ordered b /\ ray_finite r' /\ ray_no_graze b r' /\
      (forall i, finite (ssub (pmin b @ i) (origin r' @ i)) /\ finite (ssub (pmax b @ i) (origin r' @ i))) /\ 0 <= B2R (tmax r)).
Proof. exact trace_sample. Qed.
