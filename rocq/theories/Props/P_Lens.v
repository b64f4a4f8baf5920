(** * C81: the rays of the thin lens camera in f32/f64, compared with exact arithmetic.

    [usual_lens c], [usual_size x] (SpecLens.v): all sizes are between 1/1024 and 2^20 (focal distance
    and lens radius may be smaller), and the plane of focus is not within a relative 2^-20 of the lens.
    [unit_sample p]: a finite point of the unit square.  [good_sin_cos m] (SpecTrig.v): the platform's
    sin and cos are accurate to one unit in the last place and sign-correct.  [is2 v a b] (SpecCamera.v):
    the exact-arithmetic pair [v] is (a, b).  [close3] (SpecError.v): componentwise distance bound. *)
From Coq Require Import ZArith Reals Bool Lra.
From Coq Require Vector Fin.
From Flocq Require Import Core BinarySingleNaN.
From Verif.Model Require Import FloatBase Scalar Float Interval Outcome Vec Transform XReal Geometry Camera.
From Verif Require Import Spec SpecGeom SpecShape SpecCamera SpecTrig SpecError SpecLens.
From Verif.Proofs Require Import IntervalTrig2 ErrCases CameraFloat LensCases.
Open Scope R_scope.

(** For each film sample there is one finite camera-space point Q, within a few roundings of the point
    where the line from the film point through the lens centre meets the plane z = D - fd, such that for
    every lens sample the call returns a ray that
    starts within a few roundings of the lens radius times the exact disk sample, in the lens plane,
    runs in the direction from there to Q (unit length to within 6u),
    and is carried to world space by the camera's inverse matrix up to the usual rounding bounds. *)
Theorem C81_rays : forall (f : fmt) (m : libm f) (c : thin_lens (float f)) (film : vec (float f) 2) (A : rmat),
  good_sin_cos m -> usual_lens c -> unit_sample film -> fM (t_inverse_matrix (view c)) A -> affine A ->
  let u := unit_roundoff f in
  let D := B2R (film_distance c) in let fd := B2R (focal_distance c) in
  let w := B2R (film_width c) in let h := B2R (film_height c) in let lr := B2R (lens_radius c) in
  exists Q : vec (float f) 3, fall finite Q /\
    Rabs (B2R (vx Q) - (1 - fd / D) * ((1 / 2 - B2R (vx film)) * w)) <= 4 * u * (1 + Rabs (fd / D)) * Rabs w /\
    Rabs (B2R (vy Q) - (1 - fd / D) * ((1 / 2 - B2R (vy film)) * h)) <= 4 * u * (1 + Rabs (fd / D)) * Rabs h /\
    Rabs (B2R (vz Q) - (D - fd)) <= 4 * u * (Rabs D + Rabs fd) /\
    forall (lens : vec (float f) 2) (lens' : vec xr 2) X Y, unit_sample lens ->
    is2 lens' (B2R (vx lens)) (B2R (vy lens)) -> is2 (concentric_sample_disk lens') X Y ->
    exists (o d : vec (float f) 3) r, generate_ray c (mkCS film lens) = Ret r /\ tmax r = shighest /\
      fall finite o /\ fall finite d /\
      Rabs (B2R (vx o) - lr * X) <= 18 * u * Rabs lr + smallest_float f /\
      Rabs (B2R (vy o) - lr * Y) <= 18 * u * Rabs lr + smallest_float f /\
      B2R (vz o) = 0 /\
      rlen (fvals o) <= (1 + 11 * u) * Rabs lr + smallest_float f /\
      Rabs (rlen (fvals d) - 1) <= 6 * u /\
      (forall i, Rabs (fvals d i - (fvals Q i - fvals o i) / rlen (fun i => fvals Q i - fvals o i)) <= 8 * u) /\
      (fall finite (origin r) -> close3 (origin r)
         (add3 (app_vec A (f3 o)) (mk3 (A i0 i3) (A i1 i3) (A i2 i3)))
         (add3 (app_vec (absM A) (abs3 (f3 o))) (mk3 (Rabs (A i0 i3)) (Rabs (A i1 i3)) (Rabs (A i2 i3))))
         (rel_err f 4) (3 * (1 + u) ^ 3 * (smallest_float f / 2))) /\
      (fall finite (direction r) -> close3 (direction r) (app_vec A (f3 d)) (app_vec (absM A) (abs3 (f3 d)))
         (rel_err f 3) (3 * (1 + u) ^ 2 * (smallest_float f / 2))).
Proof. exact @lens_rays. Qed.
Print Assumptions C81_rays.
(** the constructor places the film at the distance given by the lens equation, to within four roundings,
    and stores view, focal distance and lens radius as given *)
Theorem C81_film_distance : forall (f : fmt) (m : libm f) (view_ : transform (float f)) (fd fov fl lr ar : float f),
  usual_size fd -> usual_size fl -> / 1024 <= Rabs (B2R fd - B2R fl) ->
  let c := thin_lens_new view_ fd fov fl lr ar in
  let D := B2R fd * B2R fl / (B2R fd - B2R fl) in
  view c = view_ /\ focal_distance c = fd /\ lens_radius c = lr /\
  finite (film_distance c) /\ Rabs (B2R (film_distance c) - D) <= 4 * unit_roundoff f * Rabs D.
Proof. exact @film_distance_err. Qed.
Print Assumptions C81_film_distance.
(** a camera with a translated and scaled view, film 2 behind the lens, and a plane of focus at 3 *)
Example C81_case : forall f, let m := exact_libm f in good_sin_cos m /\ usual_lens (lens_cam f) /\
  (exists p : vec (float f) 2, unit_sample p /\ B2R (vx p) = 1 / 4 /\ B2R (vy p) = 3 / 4) /\
  (exists A, fM (t_inverse_matrix (view (lens_cam f))) A /\ affine A) /\
  is2 (vec2 (XFin (1 / 4) false) (XFin (3 / 4) false)) (1 / 4) (3 / 4) /\
  (usual_size (f_of_Z 3 : float f) /\ usual_size (f_of_Z 2 : float f) /\
  / 1024 <= Rabs (B2R (f_of_Z 3 : float f) - B2R (f_of_Z 2 : float f))).
Proof. exact C81_sample. Qed.
