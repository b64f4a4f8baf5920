(** * Properties C84, C85: the quadratic solver and ray-sphere intersection in f32/f64.

    [moderate x]: a finite float with 2^-50 <= |x| <= 2^50; [within_rel k z r]: |z - r| <= k |r|;
    [sorted_roots a b c r0 r1]: r0 <= r1 are the roots of a x^2 + b x + c with multiplicity
    (SpecQuad.v).  [unit_roundoff f] is 2^-24 for f32 and 2^-53 for f64 (SpecGeom.v). *)
From Coq Require Import ZArith Reals Bool Lra Lia.
From Coq Require Vector Fin.
From Flocq Require Import Core BinarySingleNaN.
From Verif.Model Require Import FloatBase Scalar Float Interval Outcome Vec Transform XReal Geometry.
From Verif Require Import Spec SpecGeom SpecShape SpecSphere SpecError SpecQuad.
From Verif.Proofs Require Import FloatLemmas ScalarProofs TransformCases QuadFloat SpherePole SphereSeen.
Open Scope R_scope.

(** ** C84: what is returned are, up to 5 units of roundoff, the real roots of an equation whose
    coefficients differ from the given ones by one unit of roundoff; None only if such an equation
    has no real root *)
Theorem C84_solver_stable : forall (f : fmt) (m : libm f) (a b c : float f), let u := unit_roundoff f in
  moderate a -> zero_or_moderate b -> zero_or_moderate c -> ~ (B2R b = 0 /\ B2R c = 0) ->
  exists b' c', within_rel u b' (B2R b) /\ within_rel u c' (B2R c) /\
    match solve_quadratic a b c with
    | None => b' * b' < 4 * B2R a * c'
    | Some (t0, t1) => finite t0 /\ finite t1 /\ exists r0 r1,
        sorted_roots (B2R a) b' c' r0 r1 /\ within_rel (5 * u) (B2R t0) r0 /\ within_rel (5 * u) (B2R t1) r1
    end.
Proof. intros f m. exact quad_stable. Qed.
Print Assumptions C84_solver_stable.
Example C84_case : forall f, moderate (f_of_Z 1 : float f) /\ zero_or_moderate (f_of_Z (-3) : float f) /\
  zero_or_moderate (f_of_Z 2 : float f) /\ ~ (B2R (f_of_Z (-3) : float f) = 0 /\ B2R (f_of_Z 2 : float f) = 0) /\
  (forall m : libm f, solve_quadratic (f_of_Z 1 : float f) (f_of_Z (-3)) (f_of_Z 2) = Some (f_of_Z 1, f_of_Z 2)).
Proof. exact C84_sample. Qed.

(** ** C85: where the reported hits on a sphere lie, and which crossings are reported.
    [usual_ray], [usual_radius]: sizes far from the ends of the float range; [on_extent tm t]:
    0 <= t, and t <= tm unless tm is infinite (SpecQuad.v); [at_ray o d t] is o + t d in the reals;
    [meets]: the exact ray meets the part z0 <= z <= z1 of the sphere at t (SpecSphere.v) *)
Theorem C85_hit_near : forall (f : fmt) (m : libm f) (s : sphere (float f)) (r : ray (float f)) (h : hit (float f)),
  usual_ray (origin r) (direction r) -> usual_radius (radius s) -> s_hit s r = Some h ->
  let o := f3 (origin r) in let d := f3 (direction r) in
  let p := at_ray o d (B2R (t_ray h)) in let q := f3 (si_p (h_si h)) in
  let rad := B2R (radius s) in let u := unit_roundoff f in
  finite (t_ray h) /\ (forall i, finite (Vector.nth (si_p (h_si h)) i)) /\
  Rabs (dot3 p p - rad * rad) <= 72 * u * (dot3 o o + rad * rad) /\
  Rabs (dot3 q q - rad * rad) <= 100 * u * (dot3 o o + rad * rad) /\
  Rabs (len3 q - rad) * rad <= 100 * u * (dot3 o o + rad * rad).
Proof. exact hit_near. Qed.
Print Assumptions C85_hit_near.
(** the full claim: whatever the ray meets is reported *)
Definition C85_no_false_miss (f : fmt) (m : libm f) : Prop :=
  forall (rd z0 z1 p1 : float f) (s : sphere (float f)) (r : ray (float f)),
    s_new rd z0 z1 p1 = Ret s -> usual_radius rd -> usual_ray (origin r) (direction r) ->
    (forall y x : float f, ~ flt p1 (gatan2 y x)) -> finite (tmax r) ->
    (exists t, meets (B2R rd) (B2R z0) (B2R z1) (f3 (origin r)) (f3 (direction r)) (B2R (tmax r)) t) ->
    s_do_intersect s r = true.
(** it fails for a full ball of radius 4/3 seen along its axis from distance 5: the rounded height of
    the hit point is above z_max *)
Theorem C85_no_false_miss_refuted : forall (f : fmt) (m : libm f), ~ C85_no_false_miss f m.
Proof. exact pole_refuted. Qed.
Print Assumptions C85_no_false_miss_refuted.
(** what holds: a ray that is inside the ball somewhere and outside of it somewhere else, both by a
    margin of 100 units of roundoff, is reported, provided the ray keeps clear of the planes z_min
    and z_max where it is near the sphere, and the angle is not cut *)
Theorem C85_no_false_miss_partial : forall (f : fmt) (m : libm f) (s : sphere (float f)) (r : ray (float f)),
  usual_ray (origin r) (direction r) -> usual_radius (radius s) ->
  (forall y x : float f, ~ flt (phi_max s) (gatan2 y x)) -> finite (z_min s) -> finite (z_max s) ->
  let o := f3 (origin r) in let d := f3 (direction r) in
  let R2 := B2R (radius s) * B2R (radius s) in let M := dot3 o o + R2 in
  let p := at_ray o d in let u := unit_roundoff f in
  (exists s1 s2, on_extent (tmax r) s1 /\ on_extent (tmax r) s2 /\
     dot3 (p s1) (p s1) + 100 * u * M <= R2 /\ R2 + 100 * u * M <= dot3 (p s2) (p s2)) ->
  (forall t, on_extent (tmax r) t -> Rabs (dot3 (p t) (p t) - R2) <= 100 * u * M ->
     B2R (z_min s) + 5 * u * sqrt M <= cZ (p t) <= B2R (z_max s) - 5 * u * sqrt M) ->
  s_do_intersect s r = true.
Proof. intros f m. exact sphere_seen. Qed.
Print Assumptions C85_no_false_miss_partial.
(** the same ball seen from the side meets the hypotheses of both theorems *)
Example C85_case : forall (f : fmt) (m : libm f),
  (exists s h, ball43 f = Ret s /\ s_hit s (side_ray f) = Some h /\
     usual_ray (origin (side_ray f)) (direction (side_ray f)) /\ usual_radius (radius s)) /\
  (exists s, ball43 f = Ret s /\ let r := side_ray f in
    usual_ray (origin r) (direction r) /\ usual_radius (radius s) /\
    (forall y x : float f, ~ flt (phi_max s) (gatan2 y x)) /\ finite (z_min s) /\ finite (z_max s) /\
    let o := f3 (origin r) in let d := f3 (direction r) in
    let R2 := B2R (radius s) * B2R (radius s) in let M := dot3 o o + R2 in
    let p := at_ray o d in let u := unit_roundoff f in
    (exists s1 s2, on_extent (tmax r) s1 /\ on_extent (tmax r) s2 /\
       dot3 (p s1) (p s1) + 100 * u * M <= R2 /\ R2 + 100 * u * M <= dot3 (p s2) (p s2)) /\
    (forall t, on_extent (tmax r) t -> Rabs (dot3 (p t) (p t) - R2) <= 100 * u * M ->
       B2R (z_min s) + 5 * u * sqrt M <= cZ (p t) <= B2R (z_max s) - 5 * u * sqrt M)).
Proof. intros f m. split; [exact (side_hit f m)|exact (seen_sample f m)]. Qed.
