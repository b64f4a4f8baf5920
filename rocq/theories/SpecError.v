(** * Specification vocabulary for rounding-error bounds. *)
From Coq Require Import ZArith Reals.
From Coq Require Vector Fin.
From Flocq Require Import Core BinarySingleNaN.
From Verif.Model Require Import FloatBase Vec Transform.
From Verif Require Import Spec SpecGeom SpecShape.
Open Scope R_scope.

Definition abs3 (a : R3) : R3 := mk3 (Rabs (cX a)) (Rabs (cY a)) (Rabs (cZ a)).
Definition absM (A : rmat) : rmat := fun i j => Rabs (A i j).
(** every component of the float triple [p] is within k times that of [B], plus c, of the exact
    triple [a] *)
Definition close3 {f} (p : vec (float f) 3) (a B : R3) (k c : R) : Prop :=
  Rabs (cX (f3 p) - cX a) <= k * cX B + c /\ Rabs (cY (f3 p) - cY a) <= k * cY B + c /\ Rabs (cZ (f3 p) - cZ a) <= k * cZ B + c.
(** the relative error of k roundings in a row *)
Definition rel_err (f : fmt) (k : nat) : R := (1 + unit_roundoff f) ^ k - 1.
(** |a_i b_j| + |a_j b_i|, the magnitudes a cross product subtracts *)
Definition cross_abs (a b : R3) : R3 :=
  mk3 (Rabs (cY a * cZ b) + Rabs (cZ a * cY b)) (Rabs (cZ a * cX b) + Rabs (cX a * cZ b)) (Rabs (cX a * cY b) + Rabs (cY a * cX b)).
