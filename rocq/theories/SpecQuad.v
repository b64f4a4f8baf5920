(** * Specification vocabulary for the quadratic solver and the ray-sphere test in floats. *)
From Coq Require Import ZArith Reals.
From Coq Require Vector Fin.
From Flocq Require Import Core BinarySingleNaN.
From Verif.Model Require Import FloatBase Vec.
From Verif Require Import Spec SpecGeom SpecShape.
Open Scope R_scope.

(** a finite float of moderate size: 2^-50 <= |x| <= 2^50 *)
Definition moderate {f} (x : float f) : Prop := finite x /\ bpow radix2 (-50) <= Rabs (B2R x) <= bpow radix2 50.
Definition zero_or_moderate {f} (x : float f) : Prop := moderate x \/ (finite x /\ B2R x = 0).
(** [z] approximates [r] with relative error at most [k] *)
Definition within_rel (k z r : R) : Prop := Rabs (z - r) <= k * Rabs r.
(** [r0 <= r1] are the roots of a x^2 + b x + c, with multiplicity *)
Definition sorted_roots (a b c r0 r1 : R) : Prop :=
  r0 <= r1 /\ forall x, a * (x * x) + b * x + c = a * ((x - r0) * (x - r1)).
(** sizes far from the ends of the float range: coordinates of the origin up to 2^20, a direction
    of length 2^-10 or more with components up to 2^10, a radius between 2^-10 and 2^20 *)
Definition usual_ray {f} (o d : vec (float f) 3) : Prop :=
  (forall i, finite (Vector.nth o i) /\ Rabs (B2R (Vector.nth o i)) <= 1048576) /\
  (forall i, finite (Vector.nth d i) /\ Rabs (B2R (Vector.nth d i)) <= 1024) /\
  / 1048576 <= dot3 (f3 d) (f3 d).
Definition usual_radius {f} (x : float f) : Prop := finite x /\ / 1024 <= B2R x <= 1048576.
(** the parameter [t] is on the extent of a ray with the given [tmax] *)
Definition on_extent {f} (tm : float f) (t : R) : Prop := 0 <= t /\ (tm = finf false \/ (finite tm /\ t <= B2R tm)).
