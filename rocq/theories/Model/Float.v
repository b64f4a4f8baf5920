(** * [impl Scalar / SignedScalar / GFloat for f32, f64]  (/repo/src/math/scalar.rs:341-760).

    Written once for both formats; the two impls in the source are textually identical
    except for the widths and constants, which are selected by [match f]. *)
From Coq Require Import ZArith Bool.
From Flocq Require Import Core BinarySingleNaN.
From Verif.Model Require Import FloatBase Scalar.

Open Scope Z_scope.

(** The platform's elementary functions (std / libm): an oracle.  Theorems quantify over
    it and state the accuracy they need. *)
Record libm (f : fmt) := {
  m_sin : float f -> float f;
  m_cos : float f -> float f;
  m_tan : float f -> float f;
  m_asin : float f -> float f;
  m_acos : float f -> float f;
  m_atan : float f -> float f;
  m_atan2 : float f -> float f -> float f
}.
(** Declared a class only so that a local [libm] is found by instance search. *)
Existing Class libm.
Arguments m_sin {f}. Arguments m_cos {f}. Arguments m_tan {f}.
Arguments m_asin {f}. Arguments m_acos {f}. Arguments m_atan {f}. Arguments m_atan2 {f}.

Section FloatImpl.
Context (f : fmt).
Notation T := (float f).

(** TINY_BITS, NEG_TINY_BITS, CLEAR_SIGN_MASK (scalar.rs:381-382, 402-403, 574-575, 595-596). *)
Definition tiny_bits : Z := 1.
Definition neg_tiny_bits : Z :=
  match f with F32 => 0x80000001 | F64 => 0x8000000000000001 end.
Definition clear_sign_mask : Z :=
  match f with F32 => 0x7fffffff | F64 => 0x7fffffffffffffff end.

(** scalar.rs:378-398 (f32), 571-591 (f64) *)
Definition f_next_up (self : T) : T :=
  let bits := to_bits self in
  if BinarySingleNaN.is_nan self || (bits =? to_bits (finf (f := f) false)) then self
  else
    let abs := Z.land bits clear_sign_mask in
    let next_bits :=
      if abs =? 0 then tiny_bits
      else if bits =? abs then bits + 1
      else bits - 1 in
    of_bits next_bits.

(** scalar.rs:399-419 (f32), 592-612 (f64) *)
Definition f_next_down (self : T) : T :=
  let bits := to_bits self in
  if BinarySingleNaN.is_nan self || (bits =? to_bits (finf (f := f) true)) then self
  else
    let abs := Z.land bits clear_sign_mask in
    let next_bits :=
      if abs =? 0 then neg_tiny_bits
      else if bits =? abs then bits - 1
      else bits + 1 in
    of_bits next_bits.

(** impl Scalar for f32/f64, scalar.rs:341-368.  [one] is the literal 1.0. *)
Global Instance float_scalar : Scalar T := {|
  szero := fzero false;
  sone := f_of_Z 1;
  slowest := fmin_value;
  shighest := fmax_value;
  sadd := fadd; ssub := fsub; smul := fmul; sdiv := fdiv;
  seqb := feqb;
  scmp := fcmp;
  smin := default_min fcmp;
  smax := default_max fcmp;
  ssquare := default_square fmul
|}.

(** impl SignedScalar for f32/f64 {}, scalar.rs:373-374 *)
Global Instance float_signed : SignedScalar T := {|
  signed_scalar := float_scalar;
  sneg := fneg;
  sabs := default_abs fcmp (fzero false) fneg
|}.

(** The std constants, by their bit patterns (std::f32::consts, std::f64::consts);
    [Props/P_Scalar.v] proves they are the correctly rounded decimal literals of std. *)
Definition f_pi : T := of_bits match f with F32 => 0x40490fdb | F64 => 0x400921fb54442d18 end.
Definition f_tau : T := of_bits match f with F32 => 0x40c90fdb | F64 => 0x401921fb54442d18 end.
Definition f_frac_pi_2 : T := of_bits match f with F32 => 0x3fc90fdb | F64 => 0x3ff921fb54442d18 end.
Definition f_frac_pi_4 : T := of_bits match f with F32 => 0x3f490fdb | F64 => 0x3fe921fb54442d18 end.
Definition f_min_positive : T := of_bits match f with F32 => 0x00800000 | F64 => 0x0010000000000000 end.

(** pi_lower, pi_upper: scalar.rs:497-504 (f32), 690-697 (f64). *)
Definition f_pi_lower : T :=
  match f with
  | F32 => fdiv (f_of_Z 13176794) (f_of_Z (2 ^ 22))
  | F64 => fdiv (fadd (f_of_Z 3373259426) (fdiv (f_of_Z 273688) (f_of_Z (2 ^ 21)))) (f_of_Z (2 ^ 30))
  end.
Definition f_pi_upper : T :=
  match f with
  | F32 => fdiv (f_of_Z 13176794) (f_of_Z (2 ^ 22))
  | F64 => fdiv (fadd (f_of_Z 3373259426) (fdiv (f_of_Z 273689) (f_of_Z (2 ^ 21)))) (f_of_Z (2 ^ 30))
  end.
(** scalar.rs:505-528 (f32), 698-721 (f64) *)
Definition f_tau_lower : T := fmul f_pi_lower (f_of_Z 2).
Definition f_tau_upper : T := fmul f_pi_upper (f_of_Z 2).
Definition f_frac_pi_2_lower : T := fdiv f_pi_lower (f_of_Z 2).
Definition f_frac_pi_2_upper : T := fdiv f_pi_upper (f_of_Z 2).
Definition f_frac_pi_4_lower : T := fdiv f_pi_lower (f_of_Z 4).
Definition f_frac_pi_4_upper : T := fdiv f_pi_upper (f_of_Z 4).

(** 0.5 (scalar.rs:468, 661); 1e-6 (489, 682); 1e-4 for f32 / 1e-6 for f64 (493, 686). *)
Definition f_half : T := flit 1 2.
Definition f_abs_epsilon : T := flit 1 1000000.
Definition f_rel_epsilon : T := match f with F32 => flit 1 10000 | F64 => flit 1 1000000 end.

(** [is_infinite] really returns [self.is_finite()] (scalar.rs:462-464, 655-657). *)
Global Instance float_gfloat (m : libm f) : GFloat T := {|
  gfloat_signed := float_signed;
  next_up := f_next_up;
  next_down := f_next_down;
  to_i64 := f_to_i64;                       (* scalar.rs:422-424, 615-617 *)
  to_f32 := fconv f F32;                    (* scalar.rs:425-427, 618-620 *)
  to_f64 := fconv f F64;                    (* scalar.rs:428-430, 621-623 *)
  from_i64 := f_of_Z;                       (* scalar.rs:431-433, 624-626 *)
  from_f32 := fconv F32 f;                  (* scalar.rs:434-436, 627-629 *)
  from_f64 := fconv F64 f;                  (* scalar.rs:437-439, 630-632 *)
  gnan := fnan;
  infinity := finf false;
  neg_infinity := finf true;
  neg_zero := fzero true;
  min_positive_value := f_min_positive;
  is_nan := BinarySingleNaN.is_nan;         (* scalar.rs:456-458 *)
  is_finite := BinarySingleNaN.is_finite;   (* scalar.rs:459-461 *)
  is_infinite := BinarySingleNaN.is_finite; (* scalar.rs:462-464: returns is_finite *)
  half := f_half;
  pi := f_pi; tau := f_tau; frac_pi_2 := f_frac_pi_2; frac_pi_4 := f_frac_pi_4;
  abs_epsilon := f_abs_epsilon;
  rel_epsilon := f_rel_epsilon;
  pi_lower := f_pi_lower; pi_upper := f_pi_upper;
  tau_lower := f_tau_lower; tau_upper := f_tau_upper;
  frac_pi_2_lower := f_frac_pi_2_lower; frac_pi_2_upper := f_frac_pi_2_upper;
  frac_pi_4_lower := f_frac_pi_4_lower; frac_pi_4_upper := f_frac_pi_4_upper;
  gsqrt := fsqrt;                           (* scalar.rs:532-534 *)
  gsin := m_sin m; gcos := m_cos m;         (* scalar.rs:536-542 *)
  gsin_cos := fun x => (m_sin m x, m_cos m x); (* scalar.rs:544-546: std sin_cos = (sin, cos) *)
  gtan := m_tan m; gasin := m_asin m; gacos := m_acos m; gatan := m_atan m;
  gatan2 := m_atan2 m
|}.

(** Inherent std methods of f32/f64. *)
Global Instance float_native : Native T := {|
  nmin := native_min fcmp BinarySingleNaN.is_nan;
  nmax := native_max fcmp BinarySingleNaN.is_nan;
  nabs := fabs
|}.

(** impl AlmostEqual for f32/f64: fequals (scalar.rs:802-811) *)
Global Instance float_almost_eq (m : libm f) : AlmostEq T :=
  @fequals T (float_gfloat m).
End FloatImpl.
