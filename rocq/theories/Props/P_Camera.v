(** * C59-C61: the disk sampling maps and the thin lens camera, in exact arithmetic. *)
From Coq Require Import ZArith Reals Bool List.
From Coq Require Vector Fin.
From Verif.Model Require Import FloatBase Scalar Interval Outcome Vec Transform XReal Geometry Camera.
From Verif Require Import Spec SpecGeom SpecShape SpecCamera.
From Verif.Proofs Require Import XRealLemmas TransformCases CameraProofs CameraThms DiskBijection.
Open Scope R_scope.

(** ** C59 *)
Theorem C59_uniform : exists F G : R -> R -> R,
  (forall p x y, is2 p x y -> 0 <= y -> is2 (uniform_sample_disk p) (F x y) (G x y)) /\
  (forall x y, 0 <= x <= 1 -> 0 <= y <= 1 -> F x y * F x y + G x y * G x y <= 1) /\
  (forall x y, 0 <= y -> F x y * F x y + G x y * G x y = y) /\
  (forall x y, 0 < y -> jacobian F G x y (- PI)).
Proof. exact uniform_map. Qed.
Print Assumptions C59_uniform.
(** every square |1-2x|, |1-2y| <= s goes to the circle of radius s *)
Theorem C59_concentric : exists F G : R -> R -> R,
  (forall p x y, is2 p x y -> is2 (concentric_sample_disk p) (F x y) (G x y)) /\
  (forall x y, 0 <= x <= 1 -> 0 <= y <= 1 -> F x y * F x y + G x y * G x y <= 1) /\
  (forall x y, sqrt (F x y * F x y + G x y * G x y) = Rmax (Rabs (1 - 2 * x)) (Rabs (1 - 2 * y))) /\
  (forall x y, Rabs (1 - 2 * x) <> Rabs (1 - 2 * y) -> jacobian F G x y PI).
Proof. exact concentric_map. Qed.
Print Assumptions C59_concentric.
(** no disk point is produced twice, none is left out *)
Theorem C59_uniform_bijective : forall X Y, 0 < X * X + Y * Y <= 1 -> exists x y, 0 <= x < 1 /\ 0 < y <= 1 /\
  (forall p, is2 p x y -> is2 (uniform_sample_disk p) X Y) /\
  (forall p' x' y', is2 p' x' y' -> 0 <= x' < 1 -> 0 < y' <= 1 -> is2 (uniform_sample_disk p') X Y -> x' = x /\ y' = y).
Proof. exact uniform_bijective. Qed.
Print Assumptions C59_uniform_bijective.
Theorem C59_concentric_bijective : forall X Y, X * X + Y * Y <= 1 -> exists x y, 0 <= x <= 1 /\ 0 <= y <= 1 /\
  (forall p, is2 p x y -> is2 (concentric_sample_disk p) X Y) /\
  (forall p' x' y', is2 p' x' y' -> is2 (concentric_sample_disk p') X Y -> x' = x /\ y' = y).
Proof. exact concentric_bijective. Qed.
Print Assumptions C59_concentric_bijective.
Example C59_case : is2 (x2 (1/3) (2/3)) (1/3) (2/3).
Proof. exact (is2_x2 (1/3) (2/3)). Qed.

(** ** C60 *)
Theorem C60_lens_equation : forall view_ fd' fov' fl' lr' ar' fd fl, isR fd' fd -> isR fl' fl -> fd <> 0 -> fl <> 0 -> fd <> fl ->
  exists D, isR (film_distance (thin_lens_new view_ fd' fov' fl' lr' ar')) D /\ D <> 0 /\ 1 / fl = 1 / fd + 1 / D.
Proof. exact lens_equation. Qed.
Print Assumptions C60_lens_equation.
(** all rays for one film sample meet in one point of the plane z = - focal_distance *)
Definition C60_focal_plane : Prop := forall view_ fd' fov' fl' lr' ar' fd fov fl lr ar film fx fy,
  built_affine view_ -> isR fd' fd -> isR fov' fov -> isR fl' fl -> isR lr' lr -> isR ar' ar -> 0 < fl -> fl < fd -> 0 < fov < PI -> 0 < ar ->
  is2 film fx fy -> 0 <= fx <= 1 -> 0 <= fy <= 1 ->
  exists Q Qw, cZ Q = - fd /\ unmaps_pt view_ Q Qw /\
    forall lens lx ly, is2 lens lx ly -> 0 <= lx <= 1 -> 0 <= ly <= 1 ->
    exists r o d t, generate_ray (thin_lens_new view_ fd' fov' fl' lr' ar') (mkCS film lens) = Ret r /\ isRay r o d x_max /\ at_ray o d t = Qw.
Theorem C60_focal_plane_refuted : ~ C60_focal_plane.
Proof. exact plane_refuted. Qed.
Print Assumptions C60_focal_plane_refuted.
(** They do meet in one point, but on the plane z = film_distance - focal_distance.  (When the two
    distances are equal that plane is the lens itself and rays may have no direction.)
    [o], [d], [Q] are in camera space, [o'], [d'], [Qw] in world space. *)
Theorem C60_focus_partial : forall view_ fd' fov' fl' lr' ar' fd fov fl lr ar film fx fy,
  built_affine view_ -> isR fd' fd -> isR fov' fov -> isR fl' fl -> isR lr' lr -> isR ar' ar -> fd <> 0 -> fl <> 0 -> fd <> fl -> fd <> 2 * fl -> ar <> 0 ->
  is2 film fx fy ->
  exists D Q Qw, isR (film_distance (thin_lens_new view_ fd' fov' fl' lr' ar')) D /\
    Q = mk3 ((1/2 - fx) * ((D - fd) * tan (fov / 2) / 2)) ((1/2 - fy) * ((D - fd) * tan (fov / 2) / 2) / ar) (D - fd) /\ unmaps_pt view_ Q Qw /\
    forall lens lx ly, is2 lens lx ly -> 0 <= lx <= 1 -> 0 <= ly <= 1 ->
    exists r o d o' d' t, generate_ray (thin_lens_new view_ fd' fov' fl' lr' ar') (mkCS film lens) = Ret r /\ isRay r o' d' x_max /\
      unmaps_pt view_ o o' /\ unmaps_vec view_ d d' /\ 
      (forall X Y, is2 (concentric_sample_disk lens) X Y -> o = mk3 (lr * X) (lr * Y) 0) /\ len3 o <= Rabs lr /\ len3 d = 1 /\ 0 < t /\
      at_ray o d t = Q /\ at_ray o' d' t = Qw.
Proof. exact camera_rays. Qed.
Print Assumptions C60_focus_partial.
Example C60_case : built_affine t_identity /\ isR (xn 3) 3 /\ 3 <> 2 * 1 /\ is2 (x2 (1/3) (2/3)) (1/3) (2/3) /\
  exists r, generate_ray (thin_lens_new t_identity (xn 3) (xn (PI/2)) (xn 1) (xn 1) (xn 1)) (mkCS (x2 (1/3) (2/3)) (x2 0 (1/2))) = Ret r.
Proof. exact C60_sample. Qed.

(** ** C61 *)
(** camera-space directions [d0], [d1] at the left and right film edges *)
Definition C61_fov : Prop := forall view_ fd' fov' fl' lr' ar' fd fov fl lr ar,
  built_affine view_ -> isR fd' fd -> isR fov' fov -> isR fl' fl -> isR lr' lr -> isR ar' ar -> 0 < fl -> 2 * fl < fd -> 0 < fov < PI -> 0 < lr -> 0 < ar ->
  forall lens film0 film1, is2 lens (1/2) (1/2) -> is2 film0 0 (1/2) -> is2 film1 1 (1/2) ->
  exists r0 r1 o0 o1 d0 d1 d0' d1',
    generate_ray (thin_lens_new view_ fd' fov' fl' lr' ar') (mkCS film0 lens) = Ret r0 /\ isRay r0 o0 d0' x_max /\ unmaps_vec view_ d0 d0' /\
    generate_ray (thin_lens_new view_ fd' fov' fl' lr' ar') (mkCS film1 lens) = Ret r1 /\ isRay r1 o1 d1' x_max /\ unmaps_vec view_ d1 d1' /\
    dot3 d0 d1 = cos fov.
Theorem C61_fov_refuted : ~ C61_fov.
Proof. exact fov_refuted. Qed.
Print Assumptions C61_fov_refuted.
(** the angle actually covered, horizontally and vertically *)
Theorem C61_actual_angle_partial : forall view_ fd' fov' fl' lr' ar' fd fov fl lr ar,
  built_affine view_ -> isR fd' fd -> isR fov' fov -> isR fl' fl -> isR lr' lr -> isR ar' ar -> fd <> 0 -> fl <> 0 -> fd <> fl -> fd <> 2 * fl -> ar <> 0 ->
  forall lens, is2 lens (1/2) (1/2) ->
  exists d_left d_right d_top d_bottom,
    (forall film x y d, ((x, y, d) = (0, 1/2, d_left) \/ (x, y, d) = (1, 1/2, d_right) \/ (x, y, d) = (1/2, 0, d_top) \/ (x, y, d) = (1/2, 1, d_bottom)) ->
       is2 film x y -> exists r o' d', generate_ray (thin_lens_new view_ fd' fov' fl' lr' ar') (mkCS film lens) = Ret r /\ isRay r o' d' x_max /\
         unmaps_pt view_ zero3 o' /\ unmaps_vec view_ d d') /\
    dot3 d_left d_right = cos (2 * atan (tan (fov / 2) / 4)) /\ dot3 d_top d_bottom = cos (2 * atan (tan (fov / 2) / (4 * ar))).
Proof. exact fov_actual. Qed.
Print Assumptions C61_actual_angle_partial.
Example C61_case : built_affine t_identity /\ isR (xn 3) 3 /\ 3 <> 2 * 1 /\ is2 (x2 (1/3) (2/3)) (1/3) (2/3) /\
  exists r, generate_ray (thin_lens_new t_identity (xn 3) (xn (PI/2)) (xn 1) (xn 1) (xn 1)) (mkCS (x2 (1/3) (2/3)) (x2 0 (1/2))) = Ret r.
Proof. exact C60_sample. Qed.
