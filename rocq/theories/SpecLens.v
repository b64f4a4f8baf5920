(** * Specification vocabulary for the thin lens camera in f32/f64. *)
From Coq Require Import ZArith Reals.
From Coq Require Vector Fin.
From Flocq Require Import Core BinarySingleNaN.
From Verif.Model Require Import FloatBase Vec Camera.
From Verif Require Import Spec SpecGeom.
Open Scope R_scope.

(** a finite sample of the unit square *)
Definition unit_sample {f} (p : vec (float f) 2) : Prop := fall finite p /\ 0 <= B2R (vx p) <= 1 /\ 0 <= B2R (vy p) <= 1.
(** sizes far from the ends of the float range, and a plane of focus that is not the lens itself *)
Definition usual_size {f} (x : float f) : Prop := finite x /\ / 1024 <= Rabs (B2R x) <= 1048576.
Definition usual_lens {f} (c : thin_lens (float f)) : Prop :=
  usual_size (film_width c) /\ usual_size (film_height c) /\ usual_size (film_distance c) /\
  (finite (focal_distance c) /\ Rabs (B2R (focal_distance c)) <= 1048576) /\
  (finite (lens_radius c) /\ Rabs (B2R (lens_radius c)) <= 1048576) /\
  / 1048576 * (Rabs (B2R (film_distance c)) + Rabs (B2R (focal_distance c))) <= Rabs (B2R (film_distance c) - B2R (focal_distance c)).
