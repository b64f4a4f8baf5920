(** * Specification vocabulary for the integer scalar types: plain integer mathematics. *)
From Coq Require Import ZArith Bool.
From Coq Require Vector Fin.
From Verif.Model Require Import FloatBase Ints Vec Transform.
Open Scope Z_scope.

Definition width (t : ity) : Z :=
  match t with U8 | I8 => 8 | U16 | I16 => 16 | U32 | I32 => 32 | U64 | I64 => 64 end.
Definition signed (t : ity) : Prop := match t with I8 | I16 | I32 | I64 => True | _ => False end.
(** smallest and largest value of the type *)
Definition zmin (t : ity) : Z :=
  match t with I8 | I16 | I32 | I64 => - 2 ^ (width t - 1) | _ => 0 end.
Definition zmax (t : ity) : Z :=
  match t with I8 | I16 | I32 | I64 => 2 ^ (width t - 1) - 1 | _ => 2 ^ width t - 1 end.
Definition fits (t : ity) (z : Z) : Prop := zmin t <= z <= zmax t.
(** equal modulo [2^width] *)
Definition congr (t : ity) (a b : Z) : Prop := exists k, a = b + k * 2 ^ width t.

Section Holds.
Context {md : mode} {t : ity}.
(** the computation finished and its value is [z] *)
Definition holds (x : mint md t) (z : Z) : Prop := mval x = Some z.
Definition panicked (x : mint md t) : Prop := mval x = None.
(** an ordinary value of the type that equals [z] modulo [2^width] *)
Definition wraps_to (x : mint md t) (z : Z) : Prop := exists v, holds x v /\ fits t v /\ congr t v z.
(** ordinary values of the type: no panic, in range *)
Definition zvec {n} (v : vec (mint md t) n) (a : Fin.t n -> Z) : Prop :=
  forall i, holds (Vector.nth v i) (a i) /\ fits t (a i).
Definition zmat (m : matrix (mint md t)) (a : Fin.t 4 -> Fin.t 4 -> Z) : Prop :=
  forall i j, holds (Vector.nth (Vector.nth m i) j) (a i j) /\ fits t (a i j).
End Holds.

Fixpoint zsum {n : nat} : (Fin.t n -> Z) -> Z :=
  match n with
  | O => fun _ => 0
  | S m => fun g => g Fin.F1 + zsum (fun i => g (Fin.FS i))
  end.
Definition zdot {n} (a b : Fin.t n -> Z) : Z := zsum (fun i => a i * b i).
Definition zmul (a b : Fin.t 4 -> Fin.t 4 -> Z) : Fin.t 4 -> Fin.t 4 -> Z := fun i j => zsum (fun k => a i k * b k j).
(** all products and all partial sums (from the left) of the dot product are in range *)
Fixpoint no_overflow_from (t : ity) (acc : Z) {n : nat} : (Fin.t n -> Z) -> Prop :=
  match n with
  | O => fun _ => True
  | S m => fun g => fits t (g Fin.F1) /\ fits t (acc + g Fin.F1) /\
      no_overflow_from t (acc + g Fin.F1) (fun i => g (Fin.FS i))
  end.
Definition no_overflow (t : ity) {n} (g : Fin.t n -> Z) : Prop := no_overflow_from t 0 g.
