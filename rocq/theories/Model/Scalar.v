(** * The traits of /repo/src/math/scalar.rs as classes of operations (no laws).

    A class field is a required trait method, or a default method that some [impl]
    overrides; all other default methods are ordinary definitions below. *)
From Coq Require Import ZArith Bool.
From Verif.Model Require Import FloatBase.

Declare Scope scalar_scope.
Delimit Scope scalar_scope with S.

(** [trait Scalar: PartialEq + PartialOrd + NumOps + NumAssignOps + Copy + Debug]
    (scalar.rs:10-85).  The assign operators [+=] etc. of every impl are
    [*self = *self op rhs], so they are not separate fields.  [Rem] is not modelled
    (nothing in the crate uses it; Interval's is [unimplemented!()]). *)
Class Scalar (T : Type) := {
  szero : T;                       (* scalar.rs:25 *)
  sone : T;                        (* scalar.rs:26 *)
  slowest : T;                     (* scalar.rs:27 *)
  shighest : T;                    (* scalar.rs:28 *)
  sadd : T -> T -> T;
  ssub : T -> T -> T;
  smul : T -> T -> T;
  sdiv : T -> T -> T;
  seqb : T -> T -> bool;           (* PartialEq::eq *)
  scmp : T -> T -> option comparison; (* PartialOrd::partial_cmp *)
  smin : T -> T -> T;              (* overridable default, scalar.rs:44 *)
  smax : T -> T -> T;              (* overridable default, scalar.rs:52 *)
  ssquare : T -> T                 (* overridable default, scalar.rs:82 *)
}.

Infix "+" := sadd : scalar_scope.
Infix "-" := ssub : scalar_scope.
Infix "*" := smul : scalar_scope.
Infix "/" := sdiv : scalar_scope.

(** The comparison operators derived from [partial_cmp] (core::cmp::PartialOrd). *)
Definition lt_of {T} (cmp : T -> T -> option comparison) (a b : T) : bool :=
  match cmp a b with Some Lt => true | _ => false end.
Definition le_of {T} (cmp : T -> T -> option comparison) (a b : T) : bool :=
  match cmp a b with Some Lt | Some Eq => true | _ => false end.
Definition gt_of {T} (cmp : T -> T -> option comparison) (a b : T) : bool :=
  match cmp a b with Some Gt => true | _ => false end.
Definition ge_of {T} (cmp : T -> T -> option comparison) (a b : T) : bool :=
  match cmp a b with Some Gt | Some Eq => true | _ => false end.

Definition slt {T} `{Scalar T} (a b : T) : bool := lt_of scmp a b.
Definition sle {T} `{Scalar T} (a b : T) : bool := le_of scmp a b.
Definition sgt {T} `{Scalar T} (a b : T) : bool := gt_of scmp a b.
Definition sge {T} `{Scalar T} (a b : T) : bool := ge_of scmp a b.
Definition sne {T} `{Scalar T} (a b : T) : bool := negb (seqb a b).

Infix "<" := slt : scalar_scope.
Infix "<=" := sle : scalar_scope.
Infix ">" := sgt : scalar_scope.
Infix ">=" := sge : scalar_scope.
Infix "==" := seqb (at level 70) : scalar_scope.

(** Default bodies of the overridable methods, parameterised by what they use. *)
(** scalar.rs:44-50 *)
Definition default_min {T} (cmp : T -> T -> option comparison) (self other : T) : T :=
  if lt_of cmp self other then self else other.
(** scalar.rs:52-58 *)
Definition default_max {T} (cmp : T -> T -> option comparison) (self other : T) : T :=
  if gt_of cmp self other then self else other.
(** scalar.rs:82-84 *)
Definition default_square {T} (mul : T -> T -> T) (self : T) : T := mul self self.

Section ScalarDefaults.
Context {T : Type} {S : Scalar T}.
Local Open Scope scalar_scope.

(** scalar.rs:31-33 *)
Definition stwo : T := sone + sone.
(** scalar.rs:36-38 *)
Definition is_one (self : T) : bool := self == sone.
(** scalar.rs:40-42 *)
Definition is_zero (self : T) : bool := self == szero.
(** scalar.rs:60-66 *)
Definition min_max (self other : T) : T * T :=
  if self < other then (self, other) else (other, self).
(** scalar.rs:68-76 *)
Definition clamp (self lo hi : T) : T :=
  if self < lo then lo else if self > hi then hi else self.
(** scalar.rs:78-80 *)
Definition in_range (self lo hi : T) : bool := (self >= lo) && (self <= hi).
End ScalarDefaults.

(** [trait SignedScalar: Scalar + Neg] (scalar.rs:87-122). *)
Class SignedScalar (T : Type) := {
  signed_scalar : Scalar T;
  sneg : T -> T;
  sabs : T -> T                    (* overridable default, scalar.rs:115 *)
}.
#[global] Existing Instance signed_scalar | 100.
Notation "- x" := (sneg x) : scalar_scope.

Section SignedDefaults.
Context {T : Type} {S : SignedScalar T}.
Local Open Scope scalar_scope.

(** scalar.rs:89-91 *)
Definition is_positive (self : T) : bool := self > szero.
(** scalar.rs:93-95 *)
Definition is_negative (self : T) : bool := self < szero.
(** scalar.rs:97-99 *)
Definition is_nonpositive (self : T) : bool := self <= szero.
(** scalar.rs:101-103 *)
Definition is_nonnegative (self : T) : bool := self >= szero.
(** scalar.rs:105-113 *)
Definition signum (self : T) : T :=
  if is_positive self then sone
  else if is_negative self then - sone
  else szero.
End SignedDefaults.

(** scalar.rs:115-121 *)
Definition default_abs {T} (cmp : T -> T -> option comparison) (zero : T) (neg : T -> T) (self : T) : T :=
  if lt_of cmp self zero then neg self else self.

(** [trait GFloat: SignedScalar] (scalar.rs:124-208).  The [*_lower]/[*_upper]
    constants have defaults (scalar.rs:156-179) which f32 and f64 override. *)
Class GFloat (T : Type) := {
  gfloat_signed : SignedScalar T;
  next_up : T -> T;
  next_down : T -> T;
  to_i64 : T -> Z;
  to_f32 : T -> float F32;
  to_f64 : T -> float F64;
  from_i64 : Z -> T;
  from_f32 : float F32 -> T;
  from_f64 : float F64 -> T;
  gnan : T;
  infinity : T;
  neg_infinity : T;
  neg_zero : T;
  min_positive_value : T;
  is_nan : T -> bool;
  is_finite : T -> bool;
  is_infinite : T -> bool;
  half : T;
  pi : T;
  tau : T;
  frac_pi_2 : T;
  frac_pi_4 : T;
  abs_epsilon : T;
  rel_epsilon : T;
  pi_lower : T; pi_upper : T;
  tau_lower : T; tau_upper : T;
  frac_pi_2_lower : T; frac_pi_2_upper : T;
  frac_pi_4_lower : T; frac_pi_4_upper : T;
  gsqrt : T -> T;
  gsin : T -> T;
  gcos : T -> T;
  gsin_cos : T -> T * T;
  gtan : T -> T;
  gasin : T -> T;
  gacos : T -> T;
  gatan : T -> T;
  gatan2 : T -> T -> T
}.

#[global] Existing Instance gfloat_signed | 100.

Section GFloatDefaults.
Context {T : Type} {G : GFloat T}.
Local Open Scope scalar_scope.

(** scalar.rs:183-185 *)
Definition recip (self : T) : T := sone / self.

(** scalar.rs:196-207 *)
Definition fequals (self other : T) : bool :=
  let diff := sabs (self - other) in
  if diff < abs_epsilon then true
  else
    let largest := smax (sabs self) (sabs other) in
    diff < largest * rel_epsilon.
End GFloatDefaults.

(** Methods that, on the concrete type [Float = f32], resolve to *inherent* std methods
    instead of the trait defaults (inherent methods take priority):
    [f32::min], [f32::max] (ignore a NaN argument), [f32::abs] (clears the sign bit),
    [f32::clamp].  Used by the non-generic code in geometry/ and cameras/. *)
Class Native (T : Type) := {
  nmin : T -> T -> T;
  nmax : T -> T -> T;
  nabs : T -> T
}.

(** [f32::min]/[f32::max]: the non-NaN argument if exactly one is NaN; for equal
    arguments (including zeros of different sign, where std leaves the choice open)
    the second one. *)
Definition native_min {T} (cmp : T -> T -> option comparison) (isnan : T -> bool) (x y : T) : T :=
  if isnan x then y else if isnan y then x else if lt_of cmp x y then x else y.
Definition native_max {T} (cmp : T -> T -> option comparison) (isnan : T -> bool) (x y : T) : T :=
  if isnan x then y else if isnan y then x else if gt_of cmp x y then x else y.

(** [f32::clamp] (inherent; std: [assert!(min <= max)], then two comparisons).
    In sphere.rs it is only called with the constants 0 and 1, so the assert never fires. *)
Definition native_clamp {T} `{Scalar T} (self lo hi : T) : T :=
  let x := if (self < lo)%S then lo else self in
  if (x > hi)%S then hi else x.

(** [AlmostEqual] for integers is [==], for f32/f64 it is [fequals] (scalar.rs:762-811). *)
Class AlmostEq (T : Type) := almost_eq : T -> T -> bool.
