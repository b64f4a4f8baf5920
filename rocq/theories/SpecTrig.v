(** * Specification vocabulary for the elementary functions of intervals: what is assumed of the
    platform's math library, and angles. *)
From Coq Require Import Reals.
From Flocq Require Import Core BinarySingleNaN.
From Verif.Model Require Import FloatBase Float Interval.
From Verif Require Import Spec.
Open Scope R_scope.

Section Trig.
Context {f : fmt}.
(** [z] is accurate to one unit in the last place for the real number [r]: [r] is not beyond the
    floats next to [z] *)
Definition within_ulp (z : float f) (r : R) : Prop :=
  finite z /\ (forall y, flt y z -> below y r) /\ (forall y, flt z y -> above y r).
(** [z] and [r] have the same sign *)
Definition same_sign (z : float f) (r : R) : Prop := (0 < B2R z <-> 0 < r) /\ (B2R z < 0 <-> r < 0).

(** the platform's sin and cos: one-ulp accurate and sign-correct on finite floats *)
Definition good_sin_cos (m : libm f) : Prop := forall x, finite x ->
  within_ulp (m_sin m x) (sin (B2R x)) /\ same_sign (m_sin m x) (sin (B2R x)) /\
  within_ulp (m_cos m x) (cos (B2R x)) /\ same_sign (m_cos m x) (cos (B2R x)).
(** the platform's asin and acos on [-1, 1] *)
Definition good_asin_acos (m : libm f) : Prop := forall x, finite x -> -1 <= B2R x <= 1 ->
  within_ulp (m_asin m x) (asin (B2R x)) /\ within_ulp (m_acos m x) (acos (B2R x)).
(** the platform's atan, also at the infinities *)
Definition good_atan (m : libm f) : Prop :=
  (forall x, finite x -> within_ulp (m_atan m x) (atan (B2R x))) /\
  within_ulp (m_atan m (finf false)) (PI / 2) /\ within_ulp (m_atan m (finf true)) (- (PI / 2)).

(** the interval is the single point zero *)
Definition just_zero (i : interval (float f)) : Prop := forall r, mem r i <-> r = 0.
End Trig.

(** [t] is the angle of the point (x, y), in (-PI, PI] *)
Definition angle2 (y x t : R) : Prop :=
  - PI < t <= PI /\ exists r, 0 < r /\ x = r * cos t /\ y = r * sin t.
