(** * IEEE-754 floats: formats, bit patterns and primitive operations.

    Rust's [f32]/[f64] are IEEE-754 binary32/binary64 with round-to-nearest-even
    arithmetic.  They are modelled by Flocq's [binary_float] (one NaN: Rust does not
    specify NaN payloads and no function of the crate exposes them).
    [Float = f32] is fixed in /repo/src/math/scalar.rs:6. *)
From Coq Require Import ZArith Reals Bool.
From Flocq Require Import Core BinarySingleNaN.
From Flocq Require Binary Bits.

Open Scope Z_scope.

(** The two float types of the crate. *)
Inductive fmt := F32 | F64.

(** Width of the stored fraction and of the exponent field. *)
Definition mw (f : fmt) : Z := match f with F32 => 23 | F64 => 52 end.
Definition ew (f : fmt) : Z := match f with F32 => 8 | F64 => 11 end.
Definition prec (f : fmt) : Z := mw f + 1.
Definition emax (f : fmt) : Z := 2 ^ (ew f - 1).
(** Number of bits of the format: 32 or 64. *)
Definition bits_width (f : fmt) : Z := mw f + ew f + 1.

Lemma mw_pos f : 0 < mw f.
Proof. destruct f; reflexivity. Qed.
Lemma ew_pos f : 0 < ew f.
Proof. destruct f; reflexivity. Qed.
Lemma prec_emax f : prec f < emax f.
Proof. destruct f; reflexivity. Qed.

Global Instance prec_gt_0_f f : Prec_gt_0 (prec f).
Proof. destruct f; reflexivity. Qed.
Global Instance prec_lt_emax_f f : Prec_lt_emax (prec f) (emax f).
Proof. destruct f; reflexivity. Qed.

Definition float (f : fmt) : Set := binary_float (prec f) (emax f).

(** Exponent function of the format and rounding to nearest even in it. *)
Notation fexpf f := (SpecFloat.fexp (prec f) (emax f)) (only parsing).
Notation rndf f := (round radix2 (SpecFloat.fexp (prec f) (emax f)) ZnearestE) (only parsing).

Section Ops.
Context {f : fmt}.

Definition fnan : float f := B754_nan.
Definition finf (s : bool) : float f := B754_infinity s.
Definition fzero (s : bool) : float f := B754_zero s.

(** Rust [+ - * /], unary [-], [sqrt] on f32/f64. *)
Definition fadd (x y : float f) : float f := Bplus mode_NE x y.
Definition fsub (x y : float f) : float f := Bminus mode_NE x y.
Definition fmul (x y : float f) : float f := Bmult mode_NE x y.
Definition fdiv (x y : float f) : float f := Bdiv mode_NE x y.
Definition fneg (x : float f) : float f := Bopp x.
Definition fsqrt (x : float f) : float f := Bsqrt mode_NE x.
(** Rust's inherent [f32::abs]: clears the sign bit. *)
Definition fabs (x : float f) : float f := Babs x.
(** Rust [partial_cmp] and [==]. *)
Definition fcmp (x y : float f) : option comparison := Bcompare x y.
Definition feqb (x y : float f) : bool := Beqb x y.

(** Integer to float conversion ([as f32]/[as f64]): round to nearest even. *)
Definition f_of_Z (z : Z) : float f := binary_normalize (prec f) (emax f) _ _ mode_NE z 0 false.

(** Decimal float literals: the correctly rounded value of [num/den]
    (rustc rounds literals to nearest even). *)
Definition flit (num den : positive) : float f :=
  SF2B _ (proj1 (Bdiv_correct_aux (prec f) (emax f) _ _ mode_NE false num 0 false den 0)).

(** [f32::MAX]/[f64::MAX] and [MIN]. *)
Definition fmax_value : float f := Bmax_float.
Definition fmin_value : float f := Bopp Bmax_float.

(** [to_bits]: IEEE encoding, sign bit | exponent | fraction.  NaN is encoded as the
    canonical quiet NaN; [next_up]/[next_down] never look at the bits of a NaN. *)
Definition to_bits (x : float f) : Z :=
  match x with
  | B754_zero s => Bits.join_bits (mw f) (ew f) s 0 0
  | B754_infinity s => Bits.join_bits (mw f) (ew f) s 0 (2 ^ ew f - 1)
  | B754_nan => Bits.join_bits (mw f) (ew f) false (2 ^ (mw f - 1)) (2 ^ ew f - 1)
  | B754_finite s m e _ =>
      if 0 <=? Z.pos m - 2 ^ mw f
      then Bits.join_bits (mw f) (ew f) s (Z.pos m - 2 ^ mw f) (e - SpecFloat.emin (prec f) (emax f) + 1)
      else Bits.join_bits (mw f) (ew f) s (Z.pos m) 0
  end.

(** [from_bits]: Flocq's IEEE decoder, forgetting the NaN payload. *)
Definition of_bits (b : Z) : float f :=
  Binary.B2BSN (prec f) (emax f)
    (Bits.binary_float_of_bits (mw f) (ew f) (mw_pos f) (ew_pos f) (prec_emax f) b).

End Ops.

(** Float-to-float cast ([as f32]/[as f64]): specials are preserved, finite values are
    rounded to nearest even (exact when widening). *)
Definition fconv (f g : fmt) (x : float f) : float g :=
  match x with
  | B754_zero s => B754_zero s
  | B754_infinity s => B754_infinity s
  | B754_nan => B754_nan
  | B754_finite s m e _ => binary_normalize (prec g) (emax g) _ _ mode_NE (cond_Zopp s (Z.pos m)) e s
  end.

(** [as i64] on floats: NaN -> 0, saturate, otherwise truncate toward zero. *)
Definition i64_min : Z := - 2 ^ 63.
Definition i64_max : Z := 2 ^ 63 - 1.
Definition f_to_i64 {f} (x : float f) : Z :=
  match x with
  | B754_nan => 0
  | B754_infinity true => i64_min
  | B754_infinity false => i64_max
  | _ => Z.max i64_min (Z.min i64_max (Btrunc x))
  end.
