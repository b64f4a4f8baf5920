(** * Specification vocabulary for rotations in floats. *)
From Coq Require Import Reals.
From Verif.Model Require Import FloatBase Transform.
From Verif Require Import Spec SpecGeom SpecError.
Open Scope R_scope.

(** the unit vector in the direction of [v] *)
Definition dir3 (v : R3) : R3 := scl3 (/ len3 v) v.
(** [b] turned by the angle [a] about the unit vector [k] (Rodrigues' formula) *)
Definition turned (k : R3) (a : R) (b : R3) : R3 :=
  add3 (add3 (scl3 (cos a) b) (scl3 ((1 - cos a) * dot3 k b) k)) (scl3 (sin a) (cross3 k b)).
(** every component of [p] is within [e] of that of [q] *)
Definition near3 (e : R) (p q : R3) : Prop :=
  Rabs (cX p - cX q) <= e /\ Rabs (cY p - cY q) <= e /\ Rabs (cZ p - cZ q) <= e.
(** the sum of the magnitudes of the components *)
Definition size3 (b : R3) : R := Rabs (cX b) + Rabs (cY b) + Rabs (cZ b).
(** a linear map: last row (0 0 0 1), last column (0 0 0 1) *)
Definition linear4 (A : rmat) : Prop :=
  affine A /\ A i0 i3 = 0 /\ A i1 i3 = 0 /\ A i2 i3 = 0.
(** the float transform [t] is, up to [k] units of roundoff per entry, the rotation by the angle [a]
    about the unit vector [ax]; its stored inverse is exactly the transpose *)
Definition float_rotation {f : fmt} (k : R) (t : transform (float f)) (ax : R3) (a : R) : Prop :=
  exists A, fM (t_matrix t) A /\ fM (t_inverse_matrix t) (rtransp A) /\ linear4 A /\
  forall b, near3 (k * unit_roundoff f * size3 b) (app_vec A b) (turned ax a b).
(** the coordinates of [v] in the frame with axes X, Y, Z, and the vector with coordinates [k] *)
Definition coords (X Y Z v : R3) : R3 := mk3 (dot3 X v) (dot3 Y v) (dot3 Z v).
Definition combine (X Y Z k : R3) : R3 := add3 (scl3 (cX k) X) (add3 (scl3 (cY k) Y) (scl3 (cZ k) Z)).
(** three pairwise orthogonal unit vectors, right-handed *)
Definition right_frame (X Y Z : R3) : Prop :=
  dot3 X X = 1 /\ dot3 Y Y = 1 /\ dot3 Z Z = 1 /\ dot3 X Y = 0 /\ dot3 Y Z = 0 /\ dot3 X Z = 0 /\ cross3 X Y = Z.
(** the camera's axes: backwards, to the right and upwards for an eye at [p] looking at [t] *)
Definition back_axis (p t : R3) : R3 := dir3 (sub3 p t).
Definition right_axis (p t up : R3) : R3 := dir3 (cross3 (dir3 up) (back_axis p t)).
Definition up_axis (p t up : R3) : R3 := cross3 (back_axis p t) (right_axis p t up).
(** the sine of the angle between the up direction and the line of sight *)
Definition up_sine (p t up : R3) : R := len3 (cross3 (dir3 up) (back_axis p t)).
(** the float transform [t] takes world coordinates to the coordinates of the camera at [P] with
    axes X, Y, Z, and its stored inverse takes them back: vectors up to [k] times their size, points
    up to [k] times their distance from [P], plus [e] *)
Definition near_camera {f : fmt} (t : transform (float f)) (P X Y Z : R3) (k e : R) : Prop :=
  exists A B, fM (t_matrix t) A /\ fM (t_inverse_matrix t) B /\ affine A /\ affine B /\
  (forall v, near3 (k * size3 v) (app_vec A v) (coords X Y Z v)) /\
  (forall v, near3 (k * size3 v) (app_vec B v) (combine X Y Z v)) /\
  (forall q, near3 (k * size3 (sub3 q P) + e) (app_pt A q) (coords X Y Z (sub3 q P))) /\
  (forall v, near3 (k * size3 v) (app_pt B v) (add3 P (combine X Y Z v))).
