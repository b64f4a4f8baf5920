(** * Specification vocabulary for the surface frame of sphere hits in floats. *)
From Coq Require Import ZArith Reals.
From Coq Require Vector Fin.
From Flocq Require Import Core BinarySingleNaN.
From Verif.Model Require Import FloatBase Float Vec.
From Verif Require Import Spec SpecGeom SpecShape SpecTrig.
Open Scope R_scope.

(** the platform's atan2: one-ulp accurate for an angle in [-PI, PI] of the point (x, y) *)
Definition good_atan2 {f} (m : libm f) : Prop := forall y x, finite y -> finite x -> B2R y <> 0 \/ B2R x <> 0 ->
  exists t r, - PI <= t <= PI /\ 0 < r /\ B2R x = r * cos t /\ B2R y = r * sin t /\ within_ulp (m_atan2 m y x) t.
(** the distance of a point from the z axis *)
Definition axis_dist (p : R3) : R := sqrt (cX p * cX p + cY p * cY p).
(** arguments of [Sphere::new] of moderate size, a wedge that is not nearly closed, and at least 1/512
    of the radius of height above the equator *)
Definition usual_cut {f} (rd z0 z1 p1 : float f) : Prop :=
  (finite z0 /\ Rabs (B2R z0) <= 1048576) /\ (finite z1 /\ Rabs (B2R z1) <= 1048576) /\ (finite p1 /\ -3 <= B2R p1 <= 7) /\
  Rmax (B2R z0) 0 + B2R rd / 512 <= Rmin (B2R z1) (B2R rd).
