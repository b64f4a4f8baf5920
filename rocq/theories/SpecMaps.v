(** * Specification vocabulary: affine maps, in real numbers. *)
From Coq Require Import ZArith Reals.
From Coq Require Vector Fin.
From Flocq Require Import Core BinarySingleNaN.
From Verif.Model Require Import FloatBase Vec Transform.
From Verif Require Import Spec SpecGeom SpecError.
Open Scope R_scope.

(** the image of the point [p] under the affine map with matrix [A] *)
Definition aff (A : rmat) (p : R3) : R3 := add3 (app_vec A p) (mk3 (A i0 i3) (A i1 i3) (A i2 i3)).
(** the sum of the magnitudes of the sixteen entries *)
Definition mass (A : rmat) : R := rsum (fun i => rsum (fun j => Rabs (A i j))).
(** scale factors that are finite, not zero, have a finite reciprocal and are at most 2^126 (f32) or
    2^1022 (f64), so that the reciprocal is not subnormal *)
Definition usable_scale {f} (s : vec (float f) 3) : Prop :=
  forall i, let x := Vector.nth s i in finite x /\ B2R x <> 0 /\ finite (fdiv (f_of_Z 1) x) /\ Rabs (B2R x) <= bpow radix2 (emax f - 2).
