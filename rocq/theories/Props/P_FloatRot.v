(** * C86-C87: rotations and look_at in f32/f64.

    [float_rotation k t ax a] (SpecRot.v): up to [k] units of roundoff per matrix entry the linear
    float transform [t] turns every vector by the angle [a] about the unit vector [ax], and its
    stored inverse is the transpose of its matrix.  [turned] is Rodrigues' formula, [dir3 v] the
    unit vector along [v], [f3 v] the real values of the float triple [v]. *)
From Coq Require Import ZArith Reals Bool Lra.
From Coq Require Vector Fin.
From Flocq Require Import Core BinarySingleNaN.
From Verif.Model Require Import FloatBase Scalar Float Interval Outcome Vec Transform XReal.
From Verif Require Import Spec SpecGeom SpecShape SpecTrig SpecError SpecRot.
From Verif.Proofs Require Import TransformCases IntervalTrig2 RotFloat LookFloat RotCases.
Open Scope R_scope.

(** ** rotation about an arbitrary axis *)
Definition C86_rotate (f : fmt) (m : libm f) : Prop := forall (v : vec (float f) 3) (a : float f),
  fall finite v -> f3 v <> zero3 -> finite a -> float_rotation 54 (rotate v a) (dir3 (f3 v)) (B2R a).
(** refuted: about the axis (MAX, 0, 0) the rotation by 3 radians reverses the axis itself *)
Theorem C86_rotate_refuted : forall (f : fmt) (m : libm f), good_sin_cos m -> ~ C86_rotate f m.
Proof. intros f m G H. destruct (rotate_huge f m G) as (v & a & A & B & C & D). exact (D (H v a A B C)). Qed.
Print Assumptions C86_rotate_refuted.
(** missing from the full claim: axes shorter than 2^-40 or whose float length overflows *)
Theorem C86_rotate_partial : forall (f : fmt) (m : libm f) (v : vec (float f) 3) (a : float f), good_sin_cos m ->
  finite a -> finite (norm v) -> bpow radix2 (-40) <= len3 (f3 v) -> float_rotation 54 (rotate v a) (dir3 (f3 v)) (B2R a).
Proof. intros f m. exact rotate_float. Qed.
Print Assumptions C86_rotate_partial.

(** ** rotations about the coordinate axes *)
Theorem C86_axes : forall (f : fmt) (m : libm f) (a : float f), good_sin_cos m -> finite a ->
  float_rotation 3 (rotate_x a) (mk3 1 0 0) (B2R a) /\
  float_rotation 3 (rotate_y a) (mk3 0 1 0) (B2R a) /\
  float_rotation 3 (rotate_z a) (mk3 0 0 1) (B2R a).
Proof. intros f m. exact axes_float. Qed.
Print Assumptions C86_axes.

(** ** what follows for any such transform: lengths and angles are kept up to rounding *)
Theorem C86_rigid : forall (f : fmt) (m : libm f) (k : R) (t : transform (float f)) (ax : R3) (a : R) (A : rmat) (b c : R3),
  dot3 ax ax = 1 -> 0 <= k <= 54 -> float_rotation k t ax a -> fM (t_matrix t) A ->
  Rabs (dot3 (app_vec A b) (app_vec A c) - dot3 b c) <= (6 * k + 1) * unit_roundoff f * (len3 b * len3 c).
Proof. intros f m k t ax a A b c. exact (rigid_t k t ax a A b c). Qed.
Print Assumptions C86_rigid.

(** ** mapping a float vector and mapping it back: no panic, no overflow, the right image, and the
    same vector up to rounding *)
Theorem C86_map_and_back : forall (f : fmt) (m : libm f) (k : R) (t : transform (float f)) (ax : R3) (a : R) (b : vec (float f) 3),
  dot3 ax ax = 1 -> 0 <= k <= 54 -> float_rotation k t ax a -> fall finite b -> len3 (f3 b) <= bpow radix2 100 ->
  exists q w : vec (float f) 3,
    t_map_vector t b = Ret q /\ fall finite q /\ t_map_vector_inverse t q = Ret w /\ fall finite w /\
    len3 (sub3 (f3 q) (turned ax a (f3 b))) <= (3 * k + 10) * unit_roundoff f * len3 (f3 b) + 4 * smallest_float f /\
    len3 (sub3 (f3 w) (f3 b)) <= (6 * k + 20) * unit_roundoff f * len3 (f3 b) + 7 * smallest_float f.
Proof. intros f m k t ax a b. exact (there_back k t ax a b). Qed.
Print Assumptions C86_map_and_back.

(** a usable axis and angle, a vector to be turned, and a math library meeting the contract *)
Example C86_case : forall (f : fmt) (m : libm f), let v := fv f 1 (-2) 3 in let w := fv f 4 0 7 in let a := f_of_Z 5 : float f in
  good_sin_cos (exact_libm f) /\ finite a /\ finite (norm v) /\ bpow radix2 (-40) <= len3 (f3 v) /\ fall finite w /\ len3 (f3 w) <= bpow radix2 100.
Proof. exact C86_sample. Qed.
(** that axis is a unit vector, as the last two theorems ask *)
Example C86_case_axis : forall (v : R3), 0 < len3 v -> dot3 (dir3 v) (dir3 v) = 1.
Proof. exact dir3_unit. Qed.

(** ** C87 look_at: a right-handed orthonormal camera frame up to rounding.  The error grows with the
    inverse of the sine of the angle between the up direction and the line of sight. *)
Definition C87_look_at (f : fmt) (m : libm f) : Prop := forall p t up : vec (float f) 3, fall finite p -> fall finite t -> fall finite up ->
  let P := f3 p in let s := up_sine P (f3 t) (f3 up) in 0 < s ->
  near_camera (look_at p t up) P (right_axis P (f3 t) (f3 up)) (up_axis P (f3 t) (f3 up)) (back_axis P (f3 t))
    (262 * unit_roundoff f / s) (4 * unit_roundoff f * size3 P + 2 * smallest_float f).
(** refuted: with the up direction (MAX, 0, 0) the matrix contains NaN *)
Theorem C87_look_at_refuted : forall (f : fmt) (m : libm f), ~ C87_look_at f m.
Proof. intros f m H. destruct (look_huge f m) as (p & t & up & A & B & C & D & E). destruct (H p t up A B C D) as (M & _ & HM & _). exact (E M HM). Qed.
Print Assumptions C87_look_at_refuted.
(** missing from the full claim: up directions and lines of sight shorter than 2^-30 or longer than
    2^50, eyes beyond 2^100, and up directions within a degree (sine 1/64) of the line of sight *)
Theorem C87_look_at_partial : forall (f : fmt) (m : libm f) (p t up : vec (float f) 3), fall finite p -> fall finite t -> fall finite up ->
  let P := f3 p in let s := up_sine P (f3 t) (f3 up) in
  bpow radix2 (-30) <= len3 (f3 up) <= bpow radix2 50 -> bpow radix2 (-30) <= len3 (sub3 P (f3 t)) <= bpow radix2 50 -> len3 P <= bpow radix2 100 ->
  / 64 <= s ->
  near_camera (look_at p t up) P (right_axis P (f3 t) (f3 up)) (up_axis P (f3 t) (f3 up)) (back_axis P (f3 t))
    (262 * unit_roundoff f / s) (4 * unit_roundoff f * size3 P + 2 * smallest_float f).
Proof. intros f m. exact look_camera. Qed.
Print Assumptions C87_look_at_partial.
(** the axes named there form a right-handed orthonormal frame *)
Theorem C87_frame : forall p t up : R3, 0 < len3 (sub3 p t) -> 0 < up_sine p t up ->
  right_frame (right_axis p t up) (up_axis p t up) (back_axis p t).
Proof. exact axes_frame. Qed.
Print Assumptions C87_frame.
Example C87_case : forall (f : fmt) (m : libm f), let p := fv f 0 0 4 in let t := fv f 0 0 (-2) in let up := fv f 0 3 0 in
  fall finite p /\ fall finite t /\ fall finite up /\ bpow radix2 (-30) <= len3 (f3 up) <= bpow radix2 50 /\
  bpow radix2 (-30) <= len3 (sub3 (f3 p) (f3 t)) <= bpow radix2 50 /\ len3 (f3 p) <= bpow radix2 100 /\ up_sine (f3 p) (f3 t) (f3 up) = 1 /\
  right_axis (f3 p) (f3 t) (f3 up) = mk3 1 0 0.
Proof. exact C87_sample. Qed.
