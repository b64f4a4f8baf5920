(** * /repo/src/math/interval.rs and interval_as_gfloat.rs

    [debug_assert!(sup >= inf)] in [Interval::new] is not compiled in release builds; the
    model has the release behaviour (the record is built unconditionally) and
    [new_asserts] is the asserted condition, about which there are separate theorems. *)
From Coq Require Import ZArith Bool.
From Verif.Model Require Import FloatBase Scalar.

(** interval.rs:13-17 *)
Record interval (T : Type) := mkI { inf : T; sup : T }.
Arguments mkI {T}. Arguments inf {T}. Arguments sup {T}.

Section Interval.
Context {T : Type} {G : GFloat T}.
Local Open Scope scalar_scope.

(** interval.rs:21-29 *)
Definition i_new (a b : T) : interval T := mkI a b.
(** The condition of the debug_assert, interval.rs:22-27 *)
Definition new_asserts (a b : T) : bool := b >= a.

(** interval.rs:31-33 *)
Definition i_is_positive (self : interval T) : bool := inf self > szero.
(** interval.rs:35-37 *)
Definition i_is_negative (self : interval T) : bool := sup self < szero.
(** interval.rs:39-41 *)
Definition i_is_nonpositive (self : interval T) : bool := sup self <= szero.
(** interval.rs:43-45 *)
Definition i_is_nonnegative (self : interval T) : bool := inf self >= szero.

(** interval.rs:47-63 *)
Definition i_square (self : interval T) : interval T :=
  if i_is_nonnegative self then
    i_new (next_down (inf self * inf self)) (next_up (sup self * sup self))
  else if i_is_nonpositive self then
    i_new (next_down (sup self * sup self)) (next_up (inf self * inf self))
  else
    let abs_max := smax (- inf self) (sup self) in
    i_new szero (next_up (abs_max * abs_max)).

(** interval.rs:65-67 (the inherent [sqrt]) *)
Definition i_sqrt (self : interval T) : interval T :=
  i_new (next_down (gsqrt (inf self))) (next_up (gsqrt (sup self))).

(** interval.rs:69-71 *)
Definition i_approx (self : interval T) : T := (inf self + sup self) * half.
(** interval.rs:73-75 *)
Definition i_in_range (self : interval T) (t0 t1 : T) : bool := (inf self >= t0) && (sup self <= t1).
(** interval.rs:77-79 *)
Definition i_is_exact (self : interval T) : bool := inf self == sup self.
(** interval.rs:81-83 *)
Definition i_contains (self : interval T) (t : T) : bool := (sup self >= t) && (inf self <= t).
(** interval.rs:85-87 *)
Definition i_is_same (self other : interval T) : bool :=
  (inf self == inf other) && (sup self == sup other).
(** interval.rs:89-91 *)
Definition i_extend_by_ulp (self : interval T) : interval T :=
  i_new (next_down (inf self)) (next_up (sup self)).
(** interval.rs:93-98 ([F: FnMut] is modelled by a pure function: every caller passes one) *)
Definition i_map_monotonic_inc (self : interval T) (f : T -> T) : interval T :=
  i_extend_by_ulp (i_new (f (inf self)) (f (sup self))).
(** interval.rs:100-105 *)
Definition i_map_monotonic_dec (self : interval T) (f : T -> T) : interval T :=
  i_extend_by_ulp (i_new (f (sup self)) (f (inf self))).
(** interval.rs:107-109 *)
Definition i_intersect (self rhs : interval T) : interval T :=
  i_new (smax (inf self) (inf rhs)) (smin (sup self) (sup rhs)).
(** interval.rs:111-113 *)
Definition i_union (self rhs : interval T) : interval T :=
  i_new (smin (inf self) (inf rhs)) (smax (sup self) (sup rhs)).

(** AlmostEqual<Self>, interval.rs:116-121 *)
Definition i_almost_eq (self other : interval T) : bool :=
  fequals (inf self) (inf other) && fequals (sup self) (sup other).
(** AlmostEqual<T>, interval.rs:122-126 *)
Definition i_almost_eq_s (self : interval T) (other : T) : bool :=
  i_contains self other && fequals (inf self) other && fequals (sup self) other.
(** From<T>, interval.rs:127-132 *)
Definition i_from (t : T) : interval T := i_new t t.
(** From<(T,T)>, interval.rs:133-138 *)
Definition i_from_pair (t : T * T) : interval T := i_new (fst t) (snd t).
(** From<Interval<f32>> for f32 / f64, interval.rs:152-163 *)
Definition i_into (t : interval T) : T := i_approx t.

(** Add<Self>, interval.rs:164-174; AddAssign<Self>, 318-323 *)
Definition i_add (self rhs : interval T) : interval T :=
  i_new (next_down (inf self + inf rhs)) (next_up (sup self + sup rhs)).
(** Sub<Self>, interval.rs:175-185; SubAssign<Self>, 324-329 *)
Definition i_sub (self rhs : interval T) : interval T :=
  i_new (next_down (inf self - sup rhs)) (next_up (sup self - inf rhs)).
(** Add<T>, interval.rs:186-193 *)
Definition i_add_s (self : interval T) (rhs : T) : interval T :=
  i_new (next_down (inf self + rhs)) (next_up (sup self + rhs)).
(** Sub<T>, interval.rs:194-201 *)
Definition i_sub_s (self : interval T) (rhs : T) : interval T :=
  i_new (next_down (inf self - rhs)) (next_up (sup self - rhs)).

(** Mul<Self>, interval.rs:202-247; MulAssign<Self>, 330-335 *)
Definition i_mul (a b : interval T) : interval T :=
  if i_is_nonnegative a then
    let x := if i_is_nonnegative b then inf a else sup a in
    let y := if i_is_nonpositive b then inf a else sup a in
    i_new (next_down (x * inf b)) (next_up (y * sup b))
  else if i_is_nonpositive a then
    let x := if i_is_nonpositive b then sup a else inf a in
    let y := if i_is_nonnegative b then sup a else inf a in
    i_new (next_down (x * sup b)) (next_up (y * inf b))
  else
    if i_is_nonnegative b then
      i_new (next_down (inf a * sup b)) (next_up (sup a * sup b))
    else if i_is_nonpositive b then
      i_new (next_down (sup a * inf b)) (next_up (inf a * inf b))
    else
      i_new (next_down (smin (inf a * sup b) (sup a * inf b)))
            (next_up (smax (inf a * inf a) (sup b * sup b))).

(** Mul<T>, interval.rs:248-259; MulAssign<T>, 260-265 *)
Definition i_mul_s (self : interval T) (rhs : T) : interval T :=
  if is_nonnegative rhs then
    i_new (next_down (inf self * rhs)) (next_up (sup self * rhs))
  else
    i_new (next_down (sup self * rhs)) (next_up (inf self * rhs)).

(** Div<Self>, interval.rs:266-297; DivAssign<Self>, 336-341 *)
Definition i_div (a b : interval T) : interval T :=
  if i_is_positive b then
    let x := if i_is_nonnegative a then sup b else inf b in
    let y := if i_is_nonpositive a then sup b else inf b in
    i_new (next_down (inf a / x)) (next_up (sup a / y))
  else if i_is_negative b then
    let x := if i_is_nonpositive a then inf b else sup b in
    let y := if i_is_nonnegative a then inf b else sup b in
    i_new (next_down (sup a / x)) (next_up (inf a / y))
  else
    i_new neg_infinity infinity.

(** Div<T>, interval.rs:304-317; DivAssign<T>, 298-303 *)
Definition i_div_s (self : interval T) (rhs : T) : interval T :=
  if rhs > szero then
    i_new (next_down (inf self / rhs)) (next_up (sup self / rhs))
  else if rhs < szero then
    i_new (next_down (sup self / rhs)) (next_up (inf self / rhs))
  else
    i_new neg_infinity infinity.

(** Neg, interval.rs:342-349 *)
Definition i_neg (self : interval T) : interval T := i_new (- sup self) (- inf self).

(** PartialEq<Self>, interval.rs:350-356 *)
Definition i_eqb (self other : interval T) : bool :=
  i_is_exact self && i_is_exact other && (inf self == inf other).
(** PartialOrd<Self>, interval.rs:357-370 *)
Definition i_cmp (self other : interval T) : option comparison :=
  if i_eqb self other then Some Eq
  else if sup self < inf other then Some Lt
  else if sup other < inf self then Some Gt
  else None.
(** PartialEq<T>, interval.rs:371-376 *)
Definition i_eqb_s (self : interval T) (other : T) : bool :=
  i_is_exact self && (inf self == other).
(** PartialOrd<T>, interval.rs:377-390 *)
Definition i_cmp_s (self : interval T) (other : T) : option comparison :=
  if i_eqb_s self other then Some Eq
  else if sup self < other then Some Lt
  else if other < inf self then Some Gt
  else None.

(** impl Scalar: max and min, interval.rs:420-427 *)
Definition i_max (self other : interval T) : interval T :=
  i_new (smax (inf self) (inf other)) (smax (sup self) (sup other)).
Definition i_min (self other : interval T) : interval T :=
  i_new (smin (inf self) (inf other)) (smin (sup self) (sup other)).

(** impl Scalar for Interval<T>, interval.rs:403-432 *)
Global Instance interval_scalar : Scalar (interval T) := {|
  szero := i_new szero szero;
  sone := i_new sone sone;
  slowest := i_new slowest slowest;
  shighest := i_new shighest shighest;
  sadd := i_add; ssub := i_sub; smul := i_mul; sdiv := i_div;
  seqb := i_eqb;
  scmp := i_cmp;
  smin := i_min;
  smax := i_max;
  ssquare := i_square
|}.

(** impl SignedScalar: abs, interval.rs:435-441 *)
Definition i_abs (self : interval T) : interval T :=
  if is_negative (inf self) then
    i_new szero (smax (sabs (inf self)) (sabs (sup self)))
  else
    i_from_pair (min_max (inf self) (sup self)).

Global Instance interval_signed : SignedScalar (interval T) := {|
  signed_scalar := interval_scalar;
  sneg := i_neg;
  sabs := i_abs
|}.

(* ---- interval_as_gfloat.rs ---- *)

(** interval_as_gfloat.rs:8-10 *)
Definition i_next_up (self : interval T) : interval T := i_new (next_up (inf self)) (next_up (sup self)).
(** interval_as_gfloat.rs:12-14 *)
Definition i_next_down (self : interval T) : interval T := i_new (next_down (inf self)) (next_down (sup self)).

(** interval_as_gfloat.rs:61-63 *)
Definition i_is_nan (self : interval T) : bool := is_nan (inf self) || is_nan (sup self).
(** interval_as_gfloat.rs:65-67 *)
Definition i_is_infinite (self : interval T) : bool :=
  is_infinite (inf self) && is_infinite (sup self) && (signum (inf self) == signum (sup self)).
(** interval_as_gfloat.rs:69-71 *)
Definition i_is_finite (self : interval T) : bool := is_finite (inf self) && is_finite (sup self).

(** interval_as_gfloat.rs:73-78 (the trait's [sqrt]) *)
Definition i_gsqrt (self : interval T) : interval T :=
  i_from_pair (min_max (next_down (gsqrt (inf self))) (next_up (gsqrt (sup self)))).

(** interval_as_gfloat.rs:80-102 *)
Definition i_sin (self : interval T) : interval T :=
  let diff := sup self - inf self in
  if diff >= tau then i_new (- sone) sone
  else
    let cos_inf := gcos (inf self) in
    let cos_sup := gcos (sup self) in
    if signum cos_inf == signum cos_sup then
      let (t0, t1) := min_max (gsin (inf self)) (gsin (sup self)) in
      i_new (next_down t0) (next_up t1)
    else if is_negative cos_inf then
      i_new (- sone) (next_up (smax (gsin (inf self)) (gsin (sup self))))
    else
      i_new (next_down (smin (gsin (inf self)) (gsin (sup self)))) sone.

(** interval_as_gfloat.rs:103-125 *)
Definition i_cos (self : interval T) : interval T :=
  let diff := sup self - inf self in
  if diff >= tau then i_new (- sone) sone
  else
    let sin_inf := gsin (inf self) in
    let sin_sup := gsin (sup self) in
    if signum sin_inf == signum sin_sup then
      let (t0, t1) := min_max (gcos (inf self)) (gcos (sup self)) in
      i_new (next_down t0) (next_up t1)
    else if is_positive sin_inf then
      i_new (- sone) (next_up (smax (gcos (inf self)) (gcos (sup self))))
    else
      i_new (next_down (smin (gcos (inf self)) (gcos (sup self)))) sone.

(** interval_as_gfloat.rs:131-134 *)
Definition i_tan (self : interval T) : interval T := i_div (i_sin self) (i_cos self).
(** interval_as_gfloat.rs:136-139 *)
Definition i_asin (self : interval T) : interval T :=
  i_intersect (i_map_monotonic_inc self gasin) (i_new szero frac_pi_2_upper).
(** interval_as_gfloat.rs:141-144 *)
Definition i_acos (self : interval T) : interval T :=
  i_intersect (i_map_monotonic_dec self gacos) (i_new szero frac_pi_2_upper).
(** interval_as_gfloat.rs:146-148 *)
Definition i_atan (self : interval T) : interval T := i_map_monotonic_inc self gatan.

(** interval_as_gfloat.rs:150-187.  The recursive call of the source is bounded by
    [fuel]; [None] means the recursion did not stop.  [x.is_zero()]/[y.is_zero()] are the
    trait default ([self == Self::zero()], the interval's exact-point equality); the sign
    tests are the inherent ones. *)
Fixpoint i_atan2_fuel (fuel : nat) (y x : interval T) : option (interval T) :=
  match fuel with
  | O => None
  | S fuel =>
    if is_zero x || is_zero y then Some szero
    else if i_is_nonnegative x then
      Some (i_intersect (i_map_monotonic_inc (i_div y x) gatan)
                        (i_new (- frac_pi_2_upper) frac_pi_2_upper))
    else if i_is_nonpositive x then
      if i_is_nonnegative y then
        Some (i_intersect (i_add_s (i_map_monotonic_inc (i_div y x) gatan) pi)
                          (i_new frac_pi_2_lower pi_upper))
      else if i_is_negative y then
        Some (i_intersect (i_sub_s (i_map_monotonic_inc (i_div y x) gatan) pi)
                          (i_new (- pi_upper) (- frac_pi_2_lower)))
      else
        Some (i_new (- pi_upper) pi_upper)
    else
      match i_atan2_fuel fuel y (i_new (inf x) szero),
            i_atan2_fuel fuel y (i_new szero (sup x)) with
      | Some l, Some r => Some (i_union l r)
      | _, _ => None
      end
  end.

(** Depth 2 always suffices for floats ([i_atan2_terminates] in Proofs), so the [None]
    branch is never taken. *)
Definition i_atan2 (y x : interval T) : interval T :=
  match i_atan2_fuel 2 y x with Some r => r | None => i_new gnan gnan end.

(** impl GFloat for Interval<T>, interval_as_gfloat.rs:6-235; the [*_lower]/[*_upper]
    constants are the trait defaults (scalar.rs:156-179). *)
Definition i_pi : interval T := mkI pi_lower pi_upper.                          (* :194-199 *)
Definition i_tau : interval T := mkI tau_lower tau_upper.                       (* :201-206 *)
Definition i_frac_pi_2 : interval T := mkI frac_pi_2_lower frac_pi_2_upper.     (* :208-213 *)
Definition i_frac_pi_4 : interval T := mkI frac_pi_4_lower frac_pi_4_upper.     (* :215-220 *)

Global Instance interval_gfloat : GFloat (interval T) := {|
  gfloat_signed := interval_signed;
  next_up := i_next_up;
  next_down := i_next_down;
  to_i64 := fun s => to_i64 (i_approx s);        (* :16-18 *)
  to_f32 := fun s => to_f32 (i_approx s);        (* :20-22 *)
  to_f64 := fun s => to_f64 (i_approx s);        (* :24-26 *)
  from_i64 := fun z => i_from (from_i64 z);      (* :28-30 *)
  from_f32 := fun z => i_from (from_f32 z);      (* :32-34 *)
  from_f64 := fun z => i_from (from_f64 z);      (* :36-38 *)
  gnan := i_new gnan gnan;                       (* :40-42 *)
  infinity := i_new infinity infinity;           (* :45-47 *)
  neg_infinity := i_new neg_infinity neg_infinity; (* :49-51 *)
  neg_zero := i_new neg_zero neg_zero;           (* :53-55 *)
  min_positive_value := i_new min_positive_value min_positive_value; (* :57-59 *)
  is_nan := i_is_nan;
  is_finite := i_is_finite;
  is_infinite := i_is_infinite;
  half := i_from half;                           (* :190-192 *)
  pi := i_pi; tau := i_tau; frac_pi_2 := i_frac_pi_2; frac_pi_4 := i_frac_pi_4;
  abs_epsilon := mkI abs_epsilon abs_epsilon;    (* :229-234 *)
  rel_epsilon := mkI rel_epsilon rel_epsilon;    (* :222-227 *)
  pi_lower := i_next_down i_pi; pi_upper := i_next_up i_pi;
  tau_lower := i_next_down i_tau; tau_upper := i_next_up i_tau;
  frac_pi_2_lower := i_next_down i_frac_pi_2; frac_pi_2_upper := i_next_up i_frac_pi_2;
  frac_pi_4_lower := i_next_down i_frac_pi_4; frac_pi_4_upper := i_next_up i_frac_pi_4;
  gsqrt := i_gsqrt;
  gsin := i_sin; gcos := i_cos;
  gsin_cos := fun s => (i_sin s, i_cos s);       (* :127-129 *)
  gtan := i_tan; gasin := i_asin; gacos := i_acos; gatan := i_atan;
  gatan2 := i_atan2
|}.

Global Instance interval_almost_eq : AlmostEq (interval T) := i_almost_eq.
End Interval.
