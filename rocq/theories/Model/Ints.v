(** * Machine integers: [impl Scalar for u8..i64], [impl SignedScalar for i8..i64]
    (/repo/src/math/scalar.rs:229-340, 369-372).

    A value is [Some z] (in range) or [None]: the program has panicked while computing it.
    [Release]: + - * wrap around; [Debug]: overflow panics.  Division by zero and MIN / -1
    panic in both. *)
From Coq Require Import ZArith Bool.
From Verif.Model Require Import FloatBase Scalar.
Open Scope Z_scope.

Inductive ity := U8 | U16 | U32 | U64 | I8 | I16 | I32 | I64.
Inductive mode := Release | Debug.

Definition ibits (t : ity) : Z :=
  match t with U8 | I8 => 8 | U16 | I16 => 16 | U32 | I32 => 32 | U64 | I64 => 64 end.
Definition isigned (t : ity) : bool := match t with I8 | I16 | I32 | I64 => true | _ => false end.
(** [lowest]/[highest] as written in scalar.rs:229-340 *)
Definition ilo (t : ity) : Z :=
  match t with
  | U8 | U16 | U32 | U64 => 0
  | I8 => -128 | I16 => -32768 | I32 => -2147483648 | I64 => -9223372036854775808
  end.
Definition ihi (t : ity) : Z :=
  match t with
  | U8 => 255 | U16 => 65535 | U32 => 4294967295 | U64 => 18446744073709551615
  | I8 => 127 | I16 => 32767 | I32 => 2147483647 | I64 => 9223372036854775807
  end.
Definition in_rng (t : ity) (z : Z) : bool := (ilo t <=? z) && (z <=? ihi t).
(** two's complement wrap-around *)
Definition wrap (t : ity) (z : Z) : Z := (z - ilo t) mod 2 ^ ibits t + ilo t.

Record mint (md : mode) (t : ity) := MI { mval : option Z }.
Arguments MI {md t}. Arguments mval {md t}.

Section Ints.
Context {md : mode} {t : ity}.
(** the result of an arithmetic operation whose exact result is [z] *)
Definition iresult (z : Z) : option Z :=
  match md with
  | Release => Some (wrap t z)
  | Debug => if in_rng t z then Some z else None
  end.
Definition ilift2 (op : Z -> Z -> option Z) (a b : mint md t) : mint md t :=
  MI (match mval a, mval b with Some x, Some y => op x y | _, _ => None end).
Definition iadd := ilift2 (fun x y => iresult (x + y)).
Definition isub := ilift2 (fun x y => iresult (x - y)).
Definition imul := ilift2 (fun x y => iresult (x * y)).
Definition idiv := ilift2 (fun x y =>
  if (y =? 0) || negb (in_rng t (Z.quot x y)) then None else Some (Z.quot x y)).
Definition ineg (a : mint md t) : mint md t :=
  MI (match mval a with Some x => iresult (- x) | None => None end).
Definition icmp_ (a b : mint md t) : option comparison :=
  match mval a, mval b with Some x, Some y => Some (x ?= y) | _, _ => None end.
Definition ieq_ (a b : mint md t) : bool :=
  match mval a, mval b with Some x, Some y => x =? y | _, _ => false end.

#[global] Instance int_scalar : Scalar (mint md t) := {|
  szero := MI (Some 0); sone := MI (Some 1);
  slowest := MI (Some (ilo t)); shighest := MI (Some (ihi t));
  sadd := iadd; ssub := isub; smul := imul; sdiv := idiv;
  seqb := ieq_; scmp := icmp_;
  smin := default_min icmp_; smax := default_max icmp_; ssquare := default_square imul
|}.
(** In Rust only for the signed types. *)
#[global] Instance int_signed : SignedScalar (mint md t) := {|
  signed_scalar := int_scalar;
  sneg := ineg;
  sabs := default_abs icmp_ (MI (Some 0)) ineg
|}.
(** AlmostEqual for integers is [==] (scalar.rs:762-801) *)
#[global] Instance int_almost_eq : AlmostEq (mint md t) := ieq_.
End Ints.
