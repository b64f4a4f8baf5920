(** * C88: the perspective projection in f32/f64.

    SpecPersp.v: [screen t n f p] is the exact projection with tan(fov/2) = t (C88_frustum says what
    it does with the view frustum), [near_screen] and [near_rel3] compare a float triple with it,
    [usual_*] are ranges of parameters.  [f3 v] are the real values of the float triple [v]. *)
From Coq Require Import ZArith Reals Bool Lra.
From Coq Require Vector Fin.
From Flocq Require Import Core BinarySingleNaN.
From Verif.Model Require Import FloatBase Scalar Float Interval Outcome Vec Transform XReal.
From Verif Require Import Spec SpecGeom SpecShape SpecTrig SpecError SpecQuad SpecPersp.
From Verif.Proofs Require Import TransformCases IntervalTrig2 PerspFloat PerspThms.
Open Scope R_scope.

(** ** C88 the projected point is the exact projection up to rounding *)
Definition C88_project (f : fmt) (m : libm f) : Prop := forall (fov near far : float f) (p : vec (float f) 3),
  finite fov -> 0 < B2R fov < PI -> finite near -> finite far -> 0 < B2R near < B2R far -> fall finite p -> cZ (f3 p) <> 0 ->
  exists q, t_map_point (perspective fov near far) p = Ret q /\
    near_screen (6 * unit_roundoff f) (7 * unit_roundoff f * depth_scale (B2R near) (B2R far) (cZ (f3 p))) q
      (screen (tan (B2R fov / 2)) (B2R near) (B2R far) (f3 p)).
(** refuted: far * near overflows for near = 2 and far = MAX, and the depth is not finite *)
Theorem C88_project_refuted : forall (f : fmt) (m : libm f), ~ C88_project f m.
Proof.
  intros f m H. destruct (persp_overflow f m) as (n & g & p & Fn & Fg & L & Fp & Z & E).
  destruct (C88_sample f m) as ((Fa & A & _) & _). destruct (H _ n g p Fa) as (q & Q & N & _); try assumption; [lra|]. exact (E _ q Q N).
Qed.
Print Assumptions C88_project_refuted.
(** missing from the full claim: the parameters outside the [usual_*] ranges *)
Theorem C88_project_partial : forall (f : fmt) (m : libm f), good_tan m -> forall (fov near far : float f) (p : vec (float f) 3),
  usual_fov fov -> usual_planes near far -> usual_point p ->
  exists q, t_map_point (perspective fov near far) p = Ret q /\
    near_screen (6 * unit_roundoff f) (7 * unit_roundoff f * depth_scale (B2R near) (B2R far) (cZ (f3 p))) q
      (screen (tan (B2R fov / 2)) (B2R near) (B2R far) (f3 p)).
Proof. intros f m G fov near far p A B C. destruct (persp_float fov near far p G A B C) as (q & E & N & _). exists q. auto. Qed.
Print Assumptions C88_project_partial.
(** ** C88 mapping back with the stored inverse returns the point, with a relative error that grows
    like the ratio of the depth to the near plane *)
Theorem C88_round_trip_partial : forall (f : fmt) (m : libm f), good_tan m -> forall (fov near far : float f) (p : vec (float f) 3),
  usual_fov fov -> usual_planes near far -> usual_point p -> 64 * unit_roundoff f * (1 + Rabs (cZ (f3 p)) / B2R near) <= 1 ->
  exists q r, t_map_point (perspective fov near far) p = Ret q /\ t_map_point_inverse (perspective fov near far) q = Ret r /\
    near_rel3 (41 * unit_roundoff f * (1 + Rabs (cZ (f3 p)) / B2R near)) r (f3 p).
Proof. intros f m G fov near far p A B C D. destruct (persp_float fov near far p G A B C) as (q & E & _ & R). destruct (R D) as (r & E2 & N). exists q, r. auto. Qed.
Print Assumptions C88_round_trip_partial.
(** the exact projection takes the part of the frustum in front of the camera, and nothing else, to
    [-1,1] x [-1,1] x [0,1] *)
Theorem C88_frustum : forall t n f x y z : R, 0 < t -> 0 < n < f -> z < 0 -> let q := screen t n f (mk3 x y z) in
  (cX q <= 1 <-> x <= - z * t) /\ (-1 <= cX q <-> z * t <= x) /\ (cY q <= 1 <-> y <= - z * t) /\ (-1 <= cY q <-> z * t <= y) /\
  (0 <= cZ q <-> z <= - n) /\ (cZ q <= 1 <-> - f <= z).
Proof. exact screen_frustum. Qed.
Print Assumptions C88_frustum.
(** fov 1 radian, near 1, far 3, the point (1, -3, -2); a correctly rounded tan is good *)
Example C88_case : forall (f : fmt) (m : libm f), let fov := f_of_Z 1 : float f in let near := f_of_Z 1 : float f in let far := f_of_Z 3 : float f in let p := fv f 1 (-3) (-2) in
  good_tan (exact_libm f) /\ usual_fov fov /\ usual_planes near far /\ usual_point p /\ 64 * unit_roundoff f * (1 + Rabs (cZ (f3 p)) / B2R near) <= 1 /\
  screen 1 (B2R near) (B2R far) (f3 p) = mk3 (/ 2) (-3 / 2) (3 / 4).
Proof. intros f m. split; [exact (exact_tan f)|exact (C88_sample f m)]. Qed.
