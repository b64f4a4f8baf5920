(** * Specification vocabulary for the perspective projection in floats. *)
From Coq Require Import ZArith Reals.
From Coq Require Vector Fin.
From Flocq Require Import Core BinarySingleNaN.
From Verif.Model Require Import FloatBase Float Vec.
From Verif Require Import Spec SpecGeom SpecShape SpecTrig SpecQuad.
Open Scope R_scope.

(** the platform's tan is accurate to one unit in the last place (where the tangent is not huge) *)
Definition good_tan {f} (m : libm f) : Prop := forall x, finite x -> Rabs (tan (B2R x)) <= bpow radix2 100 ->
  within_ulp (m_tan m x) (tan (B2R x)).
(** a field of view of at least 1/1024 radians that is not nearly PI *)
Definition usual_fov {f} (a : float f) : Prop :=
  finite a /\ / 1024 <= B2R a < PI /\ tan (B2R a / 2) <= 1024.
(** clipping planes 0 < near < far, between 1/1024 and 65536 *)
Definition usual_planes {f} (near far : float f) : Prop :=
  finite near /\ finite far /\ / 1024 <= B2R near /\ B2R near < B2R far /\ B2R far <= 65536.
(** a point at a depth between 1/1024 and 65536 whose other coordinates are zero or between 2^-50
    and 2^50 in magnitude *)
Definition usual_point {f} (p : vec (float f) 3) : Prop :=
  zero_or_moderate (Vector.nth p Fin.F1) /\ zero_or_moderate (Vector.nth p (Fin.FS Fin.F1)) /\
  finite (Vector.nth p (Fin.FS (Fin.FS Fin.F1))) /\ / 1024 <= Rabs (cZ (f3 p)) <= 65536.
(** the exact projection with tan(fov/2) = t: the frustum goes to [-1,1]x[-1,1]x[0,1] *)
Definition screen (t n f : R) (p : R3) : R3 :=
  mk3 (- cX p / (cZ p * t)) (- cY p / (cZ p * t)) (f * (cZ p + n) / ((f - n) * cZ p)).
(** the size of the two terms f/(f-n) and f n/((f-n) z) that make up the projected depth *)
Definition depth_scale (n f z : R) : R := f / (f - n) * (1 + n / Rabs z).
(** finite coordinates, the first two within relative error [k] of those of [r], the third within [c] *)
Definition near_screen {f} (k c : R) (q : vec (float f) 3) (r : R3) : Prop := fall finite q /\
  within_rel k (cX (f3 q)) (cX r) /\ within_rel k (cY (f3 q)) (cY r) /\ Rabs (cZ (f3 q) - cZ r) <= c.
(** finite coordinates, each within relative error [k] of that of [r] *)
Definition near_rel3 {f} (k : R) (q : vec (float f) 3) (r : R3) : Prop := fall finite q /\
  within_rel k (cX (f3 q)) (cX r) /\ within_rel k (cY (f3 q)) (cY r) /\ within_rel k (cZ (f3 q)) (cZ r).
