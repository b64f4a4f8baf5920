(** * C99: the area of sphere parts in f32 and f64. *)
From Coq Require Import ZArith Reals.
From Flocq Require Import Core BinarySingleNaN.
From Verif.Model Require Import FloatBase Scalar Float Interval Outcome Vec Transform XReal Geometry.
From Verif Require Import Spec SpecGeom SpecShape SpecSphere.
From Verif.Proofs Require Import AreaFloat.
Open Scope R_scope.

(** ** C99 *)
(** area() is the surface integral over the part 0 <= phi <= phi_max between the cuts up to 4 roundings and
    an underflow term, unless it overflows. (C53: rays also hit the part -PI <= phi <= 0.) *)
Theorem C99_accurate : forall (f : fmt) (m : libm f) (rd z0 z1 p1 : float f) (s : sphere (float f)),
  s_new rd z0 z1 p1 = Ret s -> 0 < B2R rd -> - B2R rd <= B2R z0 -> B2R z1 <= B2R rd -> finite (s_area s) ->
  exists A, area_of (spherical (B2R rd)) 0 (B2R p1) (acos (B2R z1 / B2R rd)) (acos (B2R z0 / B2R rd)) A /\
    Rabs (B2R (s_area s) - A) <= 4 * unit_roundoff f * Rabs A + smallest_float f * (B2R z1 - B2R z0 + 1).
Proof. intros f m. exact area_accurate. Qed.
Print Assumptions C99_accurate.
(** A part with larger radius, wider wedge and wider cuts never gets a smaller area, and no area is
    negative; if the larger one does not overflow, neither does the smaller. *)
Theorem C99_monotone : forall (f : fmt) (m : libm f) (s s' : sphere (float f)), finite (s_area s') ->
  fle (fzero false) (phi_max s) -> fle (phi_max s) (phi_max s') -> fle (fzero false) (radius s) -> fle (radius s) (radius s') ->
  fle (z_min s') (z_min s) -> fle (z_min s) (z_max s) -> fle (z_max s) (z_max s') ->
  finite (s_area s) /\ fle (fzero false) (s_area s) /\ fle (s_area s) (s_area s').
Proof. intros f m. exact area_monotone. Qed.
Print Assumptions C99_monotone.
(** two balls cut at different heights *)
Example C99_case : forall f (m : libm f), exists s s', s_new (f_of_Z 2) (f_of_Z (-1)) (f_of_Z 1) (f_of_Z 3) = Ret s /\ s_new (f_of_Z 5) (f_of_Z (-2)) (f_of_Z 4) (f_of_Z 6) = Ret s' /\
  finite (s_area s) /\ finite (s_area s') /\ 0 < B2R (f_of_Z 2 : float f) /\ - B2R (f_of_Z 2 : float f) <= B2R (f_of_Z (-1) : float f) /\ B2R (f_of_Z 1 : float f) <= B2R (f_of_Z 2 : float f) /\
  fle (fzero false) (phi_max s) /\ fle (phi_max s) (phi_max s') /\ fle (fzero false) (radius s) /\ fle (radius s) (radius s') /\ fle (z_min s') (z_min s) /\ fle (z_min s) (z_max s) /\ fle (z_max s) (z_max s').
Proof. exact area_sample. Qed.
