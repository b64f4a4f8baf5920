(** * C96: the surface frame of sphere hits in f32 and f64. *)
From Coq Require Import ZArith Reals.
From Coq Require Vector Fin.
From Flocq Require Import Core BinarySingleNaN.
From Verif.Model Require Import FloatBase Scalar Float Interval Outcome Vec Transform XReal Geometry.
From Verif Require Import Spec SpecGeom SpecShape SpecTrig SpecError SpecQuad SpecRot SpecFrame.
From Verif.Proofs Require Import TransformCases FrameFloat FrameHit FrameCases FrameV.
Open Scope R_scope.

(** ** C96 *)
(** the full claim: away from the axis every reported normal points from the centre to the hit point,
    up to rounding *)
Definition C96_outward (f : fmt) (m : libm f) : Prop := forall (rd z0 z1 p1 : float f) (s : sphere (float f)) (r : ray (float f)) h,
  s_new rd z0 z1 p1 = Ret s -> usual_radius rd -> usual_cut rd z0 z1 p1 -> usual_ray (origin r) (direction r) -> s_hit s r = Some h ->
  let q := f3 (si_p (h_si h)) in let rad := B2R rd in let rho := axis_dist q in
  let N := dot3 (f3 (origin r)) (f3 (origin r)) + rad * rad in
  / 1024 <= rho -> 1024 * unit_roundoff f * N <= rho * rho ->
  fall finite (si_n (h_si h)) /\ near3 (512 * unit_roundoff f * N / (rho * rad)) (f3 (si_n (h_si h))) (dir3 q).
Theorem C96_outward_refuted : forall (f : fmt) (m : libm f), good_sin_cos m -> good_asin_acos m -> good_atan2 m -> ~ C96_outward f m.
Proof. exact outward_refuted. Qed.
Print Assumptions C96_outward_refuted.
(** it holds for the hits that are not below the equator (missing: the hits with z < 0, for which the
    claim is false, and hits within a few roundings of the axis) *)
Theorem C96_outward_partial : forall (f : fmt) (m : libm f) (rd z0 z1 p1 : float f) (s : sphere (float f)) (r : ray (float f)) h,
  good_sin_cos m -> good_asin_acos m -> good_atan2 m ->
  s_new rd z0 z1 p1 = Ret s -> usual_radius rd -> usual_cut rd z0 z1 p1 -> usual_ray (origin r) (direction r) -> s_hit s r = Some h ->
  let q := f3 (si_p (h_si h)) in let o := f3 (origin r) in let rad := B2R rd in let rho := axis_dist q in let N := dot3 o o + rad * rad in
  0 <= cZ q -> / 1024 <= rho -> 1024 * unit_roundoff f * N <= rho * rho ->
  fall finite (si_n (h_si h)) /\ near3 (512 * unit_roundoff f * N / (rho * rad)) (f3 (si_n (h_si h))) (dir3 q).
Proof. intros f m. exact hit_normal. Qed.
Print Assumptions C96_outward_partial.
(** the hits that are not above the equator: the normal is tilted as if the point were on the equator *)
Theorem C96_lower_half : forall (f : fmt) (m : libm f) (rd z0 z1 p1 : float f) (s : sphere (float f)) (r : ray (float f)) h,
  good_sin_cos m -> good_asin_acos m -> good_atan2 m ->
  s_new rd z0 z1 p1 = Ret s -> usual_radius rd -> usual_cut rd z0 z1 p1 -> usual_ray (origin r) (direction r) -> s_hit s r = Some h ->
  let q := f3 (si_p (h_si h)) in let o := f3 (origin r) in let rad := B2R rd in let rho := axis_dist q in let N := dot3 o o + rad * rad in
  cZ q <= 0 -> / 1024 <= rho -> 1024 * unit_roundoff f * N <= rho * rho ->
  fall finite (si_n (h_si h)) /\ near3 (128 * unit_roundoff f) (f3 (si_n (h_si h))) (dir3 (mk3 (rad * cX q) (rad * cY q) (rho * cZ q))).
Proof. intros f m. exact hit_normal_lower. Qed.
Print Assumptions C96_lower_half.
(** the first texture coordinate is the fraction of the wedge [-PI, phi_max] at which the point lies *)
Theorem C96_first_coordinate : forall (f : fmt) (m : libm f) (s : sphere (float f)) (r : ray (float f)) h, good_atan2 m ->
  usual_radius (radius s) -> usual_ray (origin r) (direction r) -> finite (phi_max s) -> -3 <= B2R (phi_max s) <= 7 -> s_hit s r = Some h ->
  let q := f3 (si_p (h_si h)) in let B := B2R (phi_max s) + PI in let c := Vector.nth (si_uv (h_si h)) Fin.F1 in 0 < axis_dist q ->
  finite c /\ exists t, - PI <= t <= PI /\ cX q = axis_dist q * cos t /\ cY q = axis_dist q * sin t /\
    Rabs (B2R c - (t + PI) / B) <= 64 * unit_roundoff f / B.
Proof. intros f m. exact hit_u. Qed.
Print Assumptions C96_first_coordinate.
(** the first tangent is the derivative along the circle of latitude: (-y, x, 0) times the wedge *)
Theorem C96_first_tangent : forall (f : fmt) (m : libm f) (s : sphere (float f)) (r : ray (float f)) h,
  usual_radius (radius s) -> usual_ray (origin r) (direction r) -> finite (phi_max s) -> -3 <= B2R (phi_max s) <= 7 -> s_hit s r = Some h ->
  let q := f3 (si_p (h_si h)) in let B := B2R (phi_max s) + PI in / 1024 <= axis_dist q ->
  fall finite (si_dpdu (h_si h)) /\ near3 (32 * unit_roundoff f * axis_dist q) (f3 (si_dpdu (h_si h))) (scl3 B (mk3 (- cY q) (cX q) 0)).
Proof. intros f m. exact hit_dpdu. Qed.
Print Assumptions C96_first_tangent.
(** the second tangent points up the meridian through the hit point: along (-z x, -z y, x^2 + y^2)
    (missing: hits below the equator, and hits within a few roundings of the axis) *)
Theorem C96_second_tangent_partial : forall (f : fmt) (m : libm f) (rd z0 z1 p1 : float f) (s : sphere (float f)) (r : ray (float f)) h,
  good_sin_cos m -> good_asin_acos m -> good_atan2 m ->
  s_new rd z0 z1 p1 = Ret s -> usual_radius rd -> usual_cut rd z0 z1 p1 -> usual_ray (origin r) (direction r) -> s_hit s r = Some h ->
  let q := f3 (si_p (h_si h)) in let o := f3 (origin r) in let rad := B2R rd in let rho := axis_dist q in let N := dot3 o o + rad * rad in
  0 <= cZ q -> / 1024 <= rho -> 1024 * unit_roundoff f * N <= rho * rho ->
  fall finite (si_dpdv (h_si h)) /\ 0 < len3 (f3 (si_dpdv (h_si h))) /\
  near3 (512 * unit_roundoff f * N / (rho * rad)) (dir3 (f3 (si_dpdv (h_si h)))) (dir3 (mk3 (- cZ q * cX q) (- cZ q * cY q) (rho * rho))).
Proof. intros f m. exact hit_dpdv. Qed.
Print Assumptions C96_second_tangent_partial.
(** the second texture coordinate is the fraction of the polar angle between the lower and the upper cut
    at which the point lies, for a point and cuts moved in height by at most 2 roundings of the radius,
    every height being clipped to [0, radius] *)
Theorem C96_second_coordinate : forall (f : fmt) (m : libm f) (rd z0 z1 p1 : float f) (s : sphere (float f)) (r : ray (float f)) h, good_asin_acos m ->
  s_new rd z0 z1 p1 = Ret s -> usual_radius rd -> usual_cut rd z0 z1 p1 -> usual_ray (origin r) (direction r) -> s_hit s r = Some h ->
  let c := Vector.nth (si_uv (h_si h)) (Fin.FS Fin.F1) in let rad := B2R rd in let u := unit_roundoff f in
  let clip v := Rmin (Rmax v 0) 1 in
  finite c /\ exists w w0 w1, 0 <= w0 <= w /\ w <= w1 <= 1 /\ / 1024 <= acos w0 - acos w1 /\
    Rabs (w - clip (cZ (f3 (si_p (h_si h))) / rad)) <= 2 * u /\ Rabs (w0 - clip (B2R z0 / rad)) <= 2 * u /\ Rabs (w1 - clip (B2R z1 / rad)) <= 2 * u /\
    Rabs (B2R c - (acos w0 - acos w) / (acos w0 - acos w1)) <= 36 * u / (acos w0 - acos w1).
Proof. intros f m. exact hit_v. Qed.
Print Assumptions C96_second_coordinate.
Example C96_case_platform : forall f, good_sin_cos (frame_libm f) /\ good_asin_acos (frame_libm f) /\ good_atan2 (frame_libm f).
Proof. exact frame_libm_good. Qed.
Example C96_case : forall (f : fmt) (m : libm f) k, (k = 4 \/ k = -4)%Z -> good_atan2 m -> exists s h, ball5 f = Ret s /\ s_hit s (ball5_ray f k) = Some h /\
  usual_radius (f_of_Z 5 : float f) /\ usual_cut (f_of_Z 5 : float f) (f_of_Z (-5)) (f_of_Z 5) (f_of_Z 6) /\ usual_ray (origin (ball5_ray f k)) (direction (ball5_ray f k)) /\
  f3 (origin (ball5_ray f k)) = mk3 (-10) 0 (IZR k) /\ f3 (si_p (h_si h)) = mk3 (-3) 0 (IZR k) /\ axis_dist (mk3 (-3) 0 (IZR k)) = 3 /\
  1024 * unit_roundoff f * (10 * 10 + 4 * 4 + 5 * 5) <= 3 * 3.
Proof. exact ball5_hit. Qed.
