(** * Specification vocabulary: the way of a ray through the transforms of a scene, in real numbers. *)
From Coq Require Import ZArith Reals List.
From Coq Require Vector Fin.
From Flocq Require Import Core BinarySingleNaN.
From Verif.Model Require Import FloatBase Scalar Float Outcome Vec Transform Geometry.
From Verif Require Import Spec SpecGeom SpecShape SpecError SpecMaps.
Open Scope R_scope.

(** [reaches p r As q r']: inside the scene [p] there is the primitive [q]; the ray [r] arrives there as
    [r'], and the transforms on the way have the inverse matrices [As], outermost first *)
Inductive reaches {f} {m : libm f} : prim (float f) -> ray (float f) -> list rmat -> prim (float f) -> ray (float f) -> Prop :=
| reach_here p r : reaches p r nil p r
| reach_down p t r r1 A As q r' : fM (tminv t) A -> affine A -> t_map_ray_inverse t r = Ret r1 -> reaches p r1 As q r' -> reaches (PTransformed p t) r (A :: As) q r'
| reach_member ps p r As q r' : In p ps -> reaches p r As q r' -> reaches (PList ps) r As q r'.

(** the exact image of a point under all the matrices, the first one first *)
Fixpoint carry (As : list rmat) (p : R3) : R3 := match As with nil => p | A :: As' => carry As' (aff A p) end.
(** what underflow may contribute on the way: a small multiple of the smallest positive float, enlarged
    by the matrices passed *)
Fixpoint underflow (f : fmt) (As : list rmat) (e : R) : R := match As with nil => e | A :: As' => underflow f As' (2 * mass A * e + 2 * smallest_float f) end.
(** how far the point at parameter [t] of the ray (o, d) may be off after the maps: four roundings of
    the sum of the magnitudes for each of them *)
Definition drift (f : fmt) (As : list rmat) (o d : R3) (t : R) : R3 :=
  let B := carry (map absM As) (add3 (abs3 o) (scl3 (Rabs t) (abs3 d))) in
  let k := rel_err f (4 * length As) in let c := (1 + Rabs t) * underflow f As 0 in
  mk3 (k * cX B + c) (k * cY B + c) (k * cZ B + c).
(** [p] and [q] differ by at most [e] in each component *)
Definition off_by (p q e : R3) : Prop := Rabs (cX p - cX q) <= cX e /\ Rabs (cY p - cY q) <= cY e /\ Rabs (cZ p - cZ q) <= cZ e.
(** [p] is in the box enlarged by [e] on every side *)
Definition in_grown_box (lo hi e p : R3) : Prop := in_box (sub3 lo e) (add3 hi e) p.
(** boxes and spheres and user-defined primitives, as opposed to transforms and lists *)
Definition is_leaf {f} (p : prim (float f)) : Prop := match p with PTransformed _ _ | PList _ => False | _ => True end.
