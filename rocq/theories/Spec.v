(** * Specification vocabulary used by the property statements.

    Nothing here refers to the functions of the model: floats are read as real numbers
    ([B2R]), intervals as sets of real numbers, vectors and matrices as functions of
    their indices. *)
From Coq Require Import ZArith Reals Bool.
From Flocq Require Import Core BinarySingleNaN.
From Verif.Model Require Import FloatBase Interval.
Open Scope R_scope.

Section FloatSpec.
Context {f : fmt}.

Definition nonnan (x : float f) : Prop := BinarySingleNaN.is_nan x = false.
Definition finite (x : float f) : Prop := BinarySingleNaN.is_finite x = true.

(** [x] is a lower (upper) bound of the real [r]: minus (plus) infinity always is, a
    finite float when its value is on the right side; NaN and the other infinity never. *)
Definition below (x : float f) (r : R) : Prop :=
  match x with
  | B754_infinity s => s = true
  | B754_nan => False
  | _ => B2R x <= r
  end.
Definition above (x : float f) (r : R) : Prop :=
  match x with
  | B754_infinity s => s = false
  | B754_nan => False
  | _ => r <= B2R x
  end.

(** Order of the non-NaN floats in the extended reals. *)
Definition flt (x y : float f) : Prop :=
  match x, y with
  | B754_nan, _ | _, B754_nan => False
  | B754_infinity s, B754_infinity t => s = true /\ t = false
  | B754_infinity s, _ => s = true
  | _, B754_infinity t => t = false
  | _, _ => B2R x < B2R y
  end.
(** Same extended-real value ([-0] and [+0] are the same value); NaN equals nothing. *)
Definition feq (x y : float f) : Prop :=
  match x, y with
  | B754_nan, _ | _, B754_nan => False
  | B754_infinity s, B754_infinity t => s = t
  | B754_infinity _, _ | _, B754_infinity _ => False
  | _, _ => B2R x = B2R y
  end.
Definition fle (x y : float f) : Prop := flt x y \/ feq x y.

(** [z] is the IEEE round-to-nearest-even result for the exact real [r]: the rounded
    value when that is in range, otherwise the infinity of [r]'s sign. *)
Definition rounds_to (z : float f) (r : R) : Prop :=
  if Rlt_bool (Rabs (rndf f r)) (bpow radix2 (emax f))
  then finite z /\ B2R z = rndf f r
  else z = B754_infinity (Rlt_bool r 0).

(** The set of reals an interval stands for. *)
Definition mem (r : R) (i : interval (float f)) : Prop := below (inf i) r /\ above (sup i) r.

(** No NaN bound. *)
Definition proper (i : interval (float f)) : Prop := nonnan (inf i) /\ nonnan (sup i).
(** Both bounds finite. *)
Definition bounded (i : interval (float f)) : Prop := finite (inf i) /\ finite (sup i).
(** The interval's own well-formedness condition: sup >= inf. *)
Definition ordered (i : interval (float f)) : Prop := fle (inf i) (sup i).
(** The interval stands for at least one real ([+inf,+inf] does not). *)
Definition nonempty (i : interval (float f)) : Prop := exists r, mem r i.

(** [a] is a subset of [b]. *)
Definition within (a b : interval (float f)) : Prop := forall r, mem r a -> mem r b.
(** Same bounds (zeros of either sign are the same bound). *)
Definition same_bounds (a b : interval (float f)) : Prop := feq (inf a) (inf b) /\ feq (sup a) (sup b).

(** Zero is strictly inside. *)
Definition straddles (i : interval (float f)) : Prop :=
  flt (inf i) (fzero false) /\ flt (fzero false) (sup i).

(** [z] is at most one float below (above) the best float lower (upper) bound of the set
    [P]: any float strictly smaller than some lower bound of [P] is already [<= z]. *)
Definition near_lower (z : float f) (P : R -> Prop) : Prop :=
  forall y1 y2, flt y1 y2 -> (forall r, P r -> below y2 r) -> fle y1 z.
Definition near_upper (z : float f) (P : R -> Prop) : Prop :=
  forall y1 y2, flt y2 y1 -> (forall r, P r -> above y2 r) -> fle z y1.
End FloatSpec.

(** Images of sets of reals under an operation. *)
Definition image1 (g : R -> R) (P : R -> Prop) (t : R) : Prop := exists r, P r /\ t = g r.
Definition image2 (g : R -> R -> R) (P Q : R -> Prop) (t : R) : Prop :=
  exists r s, P r /\ Q s /\ t = g r s.
