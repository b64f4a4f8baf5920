(** * Specification vocabulary: scenes whose transforms are moderate. *)
From Coq Require Import ZArith Reals List.
From Coq Require Vector Fin.
From Flocq Require Import Core BinarySingleNaN.
From Verif.Model Require Import FloatBase Outcome Vec Transform Geometry.
From Verif Require Import Spec SpecGeom SpecShape.
Open Scope R_scope.

(** how many transforms lie above a shape of the scene, at most *)
Fixpoint nesting {T} (p : prim T) : Z :=
  match p with
  | PTransformed q _ => 1 + nesting q
  | PList ps => List.fold_right (fun q acc => Z.max (nesting q) acc) 0%Z ps
  | _ => 0
  end.
(** all transforms of the scene carry finite affine inverse matrices; user-defined primitives never
    panic *)
Fixpoint affine_scene {f} (p : prim (float f)) : Prop :=
  match p with
  | PTransformed q t => (exists B, fM (tminv t) B /\ affine B) /\ affine_scene q
  | PList ps => List.fold_right (fun q acc => affine_scene q /\ acc) True ps
  | PCustom _ d h => (forall r, exists b, d r = Ret b) /\ (forall r, exists x, h r = Ret x)
  | _ => True
  end.
(** no entry of an inverse matrix exceeds 2^k *)
Fixpoint entries_within {f} (k : Z) (p : prim (float f)) : Prop :=
  match p with
  | PTransformed q t => (forall i j, Rabs (B2R (Vector.nth (Vector.nth (tminv t) i) j)) <= bpow radix2 k) /\ entries_within k q
  | PList ps => List.fold_right (fun q acc => entries_within k q /\ acc) True ps
  | _ => True
  end.
(** a finite ray whose origin and direction components do not exceed 2^j *)
Definition ray_within {f} (j : Z) (r : ray (float f)) : Prop :=
  (forall i, finite (Vector.nth (origin r) i) /\ Rabs (B2R (Vector.nth (origin r) i)) <= bpow radix2 j) /\
  (forall i, finite (Vector.nth (direction r) i) /\ Rabs (B2R (Vector.nth (direction r) i)) <= bpow radix2 j).
