(** * Specification vocabulary for the float matrix inverse. *)
From Coq Require Import ZArith Reals.
From Coq Require Vector Fin.
From Flocq Require Import Core BinarySingleNaN.
From Verif.Model Require Import FloatBase Transform.
From Verif Require Import Spec SpecGeom SpecError.
Open Scope R_scope.

(** the permanent: the determinant's expansion with every sign positive *)
Fixpoint rperm {n : nat} : (Fin.t n -> Fin.t n -> R) -> R :=
  match n with
  | O => fun _ => 1
  | S m => fun A => rsum (fun j => A Fin.F1 j * rperm (fun i k => A (Fin.FS i) (skip j k)))
  end.
(** row [i] and column [j] deleted *)
Definition minor (A : rmat) (i j : Fin.t 4) : Fin.t 3 -> Fin.t 3 -> R := fun k l => A (skip i k) (skip j l).
(** how much cancels in the determinant: at least 1, and exactly 1 when nothing cancels *)
Definition cancellation (A : rmat) : R := rperm (absM A) / Rabs (rdet A).
(** the size of the terms of the numerator of entry (i, j) of the inverse, over the determinant *)
Definition entry_size (A : rmat) (i j : Fin.t 4) : R := rperm (minor (absM A) j i) / Rabs (rdet A).
(** every entry is zero or between 1/4096 and 4096 in magnitude *)
Definition mid_entries (A : rmat) : Prop := forall i j, A i j = 0 \/ / 4096 <= Rabs (A i j) <= 4096.
