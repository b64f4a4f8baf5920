(** * C78: disk sampling in f32/f64 compared with exact arithmetic.

    [good_sin_cos m] (SpecTrig.v): the platform's sin and cos are accurate to one unit in the last
    place and sign-correct.  [is2 v a b] (SpecCamera.v): the exact-arithmetic pair [v] is (a, b). *)
From Coq Require Import ZArith Reals Bool Lra.
From Coq Require Vector Fin.
From Flocq Require Import Core BinarySingleNaN.
From Verif.Model Require Import FloatBase Scalar Float Interval Outcome Vec Transform XReal Geometry Camera.
From Verif Require Import Spec SpecGeom SpecShape SpecCamera SpecTrig.
From Verif.Proofs Require Import IntervalTrig2 DiskFloat DiskCases.
Open Scope R_scope.

(** the float sample is finite and within 16 roundings of the exact sample for the same input *)
Theorem C78_concentric_accurate : forall (f : fmt) (m : libm f), good_sin_cos m ->
  forall (p : vec (float f) 2) (p' : vec xr 2) X Y, fall finite p -> 0 <= B2R (vx p) <= 1 -> 0 <= B2R (vy p) <= 1 ->
  is2 p' (B2R (vx p)) (B2R (vy p)) -> is2 (concentric_sample_disk p') X Y ->
  let q := concentric_sample_disk p in finite (vx q) /\ finite (vy q) /\
    Rabs (B2R (vx q) - X) <= 16 * unit_roundoff f /\ Rabs (B2R (vy q) - Y) <= 16 * unit_roundoff f.
Proof. exact concentric_accurate. Qed.
Print Assumptions C78_concentric_accurate.
Theorem C78_uniform_accurate : forall (f : fmt) (m : libm f), good_sin_cos m ->
  forall (p : vec (float f) 2) (p' : vec xr 2) X Y, fall finite p -> 0 <= B2R (vx p) <= 1 -> 0 <= B2R (vy p) <= 1 ->
  is2 p' (B2R (vx p)) (B2R (vy p)) -> is2 (uniform_sample_disk p') X Y ->
  let q := uniform_sample_disk p in finite (vx q) /\ finite (vy q) /\
    Rabs (B2R (vx q) - X) <= 16 * unit_roundoff f /\ Rabs (B2R (vy q) - Y) <= 16 * unit_roundoff f.
Proof. exact uniform_accurate. Qed.
Print Assumptions C78_uniform_accurate.
(** every sample lies in the closed unit disk *)
Definition C78_in_disk : Prop := forall (f : fmt) (m : libm f), good_sin_cos m ->
  forall p : vec (float f) 2, fall finite p -> 0 <= B2R (vx p) <= 1 -> 0 <= B2R (vy p) <= 1 ->
  let q := concentric_sample_disk p in B2R (vx q) * B2R (vx q) + B2R (vy q) * B2R (vy q) <= 1.
(** refuted: for the corner (0,0) and a one-ulp accurate library, in f32 *)
Theorem C78_in_disk_refuted : ~ C78_in_disk.
Proof. exact in_disk_refuted. Qed.
Print Assumptions C78_in_disk_refuted.
(** it lies in the disk of radius 1 + 9u *)
Theorem C78_in_disk_partial : forall (f : fmt) (m : libm f), good_sin_cos m ->
  forall p : vec (float f) 2, fall finite p -> 0 <= B2R (vx p) <= 1 -> 0 <= B2R (vy p) <= 1 ->
  let q := concentric_sample_disk p in let s := uniform_sample_disk p in
  sqrt (B2R (vx q) * B2R (vx q) + B2R (vy q) * B2R (vy q)) <= 1 + 9 * unit_roundoff f /\
  sqrt (B2R (vx s) * B2R (vx s) + B2R (vy s) * B2R (vy s)) <= 1 + 9 * unit_roundoff f.
Proof. exact in_disk_close. Qed.
Print Assumptions C78_in_disk_partial.
Example C78_case : forall f, good_sin_cos (exact_libm f) /\ (exists p : vec (float f) 2, fall finite p /\ B2R (vx p) = 1 / 4 /\ B2R (vy p) = 3 / 4) /\
  is2 (vec2 (XFin (1 / 4) false) (XFin (3 / 4) false)) (1 / 4) (3 / 4).
Proof. exact C78_sample. Qed.
