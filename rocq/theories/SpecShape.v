(** * Specification vocabulary for boxes, spheres and primitives.

    Only the *data* of the model (boxes, rays, spheres, hit records) is mentioned here, none
    of its functions. *)
From Coq Require Import ZArith Reals Bool List.
From Coq Require Vector Fin.
From Flocq Require Import Core BinarySingleNaN.
From Verif.Model Require Import FloatBase Interval XReal Vec Transform Outcome Geometry.
From Verif Require Import Spec SpecGeom.
Open Scope R_scope.

(** ** Float boxes *)
Section FloatBox.
Context {f : fmt}.
(** the float point [p] lies in the closed box [b] *)
Definition in_fbox (b : bbox (float f)) (p : vec (float f) 3) : Prop :=
  forall i, fle (Vector.nth (pmin b) i) (Vector.nth p i) /\ fle (Vector.nth p i) (Vector.nth (pmax b) i).
Definition box_nonnan (b : bbox (float f)) : Prop :=
  forall i, nonnan (Vector.nth (pmin b) i) /\ nonnan (Vector.nth (pmax b) i).
Definition box_finite (b : bbox (float f)) : Prop :=
  forall i, finite (Vector.nth (pmin b) i) /\ finite (Vector.nth (pmax b) i).
(** lower corner below upper corner *)
Definition box_ordered (b : bbox (float f)) : Prop :=
  forall i, fle (Vector.nth (pmin b) i) (Vector.nth (pmax b) i).
(** nonempty interior *)
Definition box_fat (b : bbox (float f)) : Prop :=
  forall i, flt (Vector.nth (pmin b) i) (Vector.nth (pmax b) i).
(** the bounds of [a] are within those of [b] *)
Definition box_within (a b : bbox (float f)) : Prop :=
  forall i, fle (Vector.nth (pmin b) i) (Vector.nth (pmin a) i) /\ fle (Vector.nth (pmax a) i) (Vector.nth (pmax b) i).
(** the same bounds *)
Definition box_same (a b : bbox (float f)) : Prop :=
  forall i, feq (Vector.nth (pmin a) i) (Vector.nth (pmin b) i) /\ feq (Vector.nth (pmax a) i) (Vector.nth (pmax b) i).
(** [x < r] and [r < x] for a float [x] and a real [r] *)
Definition fltR (x : float f) (r : R) : Prop :=
  match x with B754_nan => False | B754_infinity s => s = true | _ => B2R x < r end.
Definition fgtR (x : float f) (r : R) : Prop :=
  match x with B754_nan => False | B754_infinity s => s = false | _ => r < B2R x end.
(** the real point [a] is strictly inside the box *)
Definition interior (b : bbox (float f)) (a : Fin.t 3 -> R) : Prop :=
  forall i, fltR (Vector.nth (pmin b) i) (a i) /\ fgtR (Vector.nth (pmax b) i) (a i).
End FloatBox.

(** ** Real boxes *)
(** the exact-arithmetic box [b] has the real corners [lo] and [hi] *)
Definition isB (b : bbox xr) (lo hi : R3) : Prop := is3 (pmin b) lo /\ is3 (pmax b) hi.
Definition le3 (a b : R3) : Prop := cX a <= cX b /\ cY a <= cY b /\ cZ a <= cZ b.
(** the real point [p] is in the closed box *)
Definition in_box (lo hi p : R3) : Prop := le3 lo p /\ le3 p hi.
(** the real point [p] is strictly inside the box *)
Definition inner (lo hi p : R3) : Prop :=
  cX lo < cX p < cX hi /\ cY lo < cY p < cY hi /\ cZ lo < cZ p < cZ hi.
(** [p] is on the surface of the box *)
Definition on_surface (lo hi p : R3) : Prop := in_box lo hi p /\ ~ inner lo hi p.
(** [p] lies in a face plane of the box whose outward unit normal is [n] *)
Definition face_normal (lo hi p n : R3) : Prop :=
  (cX p = cX lo /\ n = mk3 (-1) 0 0) \/ (cX p = cX hi /\ n = mk3 1 0 0) \/
  (cY p = cY lo /\ n = mk3 0 (-1) 0) \/ (cY p = cY hi /\ n = mk3 0 1 0) \/
  (cZ p = cZ lo /\ n = mk3 0 0 (-1)) \/ (cZ p = cZ hi /\ n = mk3 0 0 1).
(** along one axis: the line from [o] in direction [d] runs inside the plane of the lower
    bound of a slab of positive width *)
Definition grazes (lo hi o d : R) : Prop := d = 0 /\ o = lo /\ lo < hi.
(** the line does so along no axis *)
Definition no_graze (lo hi o d : R3) : Prop :=
  ~ grazes (cX lo) (cX hi) (cX o) (cX d) /\ ~ grazes (cY lo) (cY hi) (cY o) (cY d) /\ ~ grazes (cZ lo) (cZ hi) (cZ o) (cZ d).
(** the real values of a float triple *)
Definition f3 {f} (v : vec (float f) 3) : R3 :=
  mk3 (B2R (Vector.nth v Fin.F1)) (B2R (Vector.nth v (Fin.FS Fin.F1))) (B2R (Vector.nth v (Fin.FS (Fin.FS Fin.F1)))).
(** the point of the float ray [r] at the real parameter [t], in exact arithmetic, lies in the
    float box [b] *)
Definition ray_in_box {f} (b : bbox (float f)) (r : ray (float f)) (t : R) : Prop :=
  in_box (f3 (pmin b)) (f3 (pmax b)) (at_ray (f3 (origin r)) (f3 (direction r)) t).
Definition ray_finite {f} (r : ray (float f)) : Prop :=
  fall finite (origin r) /\ fall finite (direction r) /\ finite (tmax r).
Definition ray_no_graze {f} (b : bbox (float f)) (r : ray (float f)) : Prop :=
  no_graze (f3 (pmin b)) (f3 (pmax b)) (f3 (origin r)) (f3 (direction r)).
(** off-diagonal entries of the linear part all zero *)
Definition diagonal (A : rmat) : Prop :=
  A i0 i1 = 0 /\ A i0 i2 = 0 /\ A i1 i0 = 0 /\ A i1 i2 = 0 /\ A i2 i0 = 0 /\ A i2 i1 = 0.
