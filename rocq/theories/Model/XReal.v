(** * IEEE-754 arithmetic with the rounding removed.

    Not a part of /repo: a third scalar instance at which the generic model can be read in
    "exact arithmetic".  A value is a real number (with a sign bit that only matters when it
    is zero), an infinity or NaN; every operation follows IEEE-754 except that a finite
    result is not rounded and cannot overflow.  Division by zero, 0/0, inf - inf, 0 * inf,
    square roots of negative numbers and comparisons with NaN behave as in IEEE, so "the result is
    the real number r" is a claim the code can fail. *)
From Coq Require Import ZArith Reals Bool.
From Flocq Require Import Core BinarySingleNaN.
From Verif.Model Require Import FloatBase Scalar.
Open Scope R_scope.

Inductive xr :=
| XFin (r : R) (s : bool)   (* [s]: sign bit, used only when r = 0 *)
| XInf (s : bool)
| XNaN.

Definition Rltb (a b : R) : bool := if Rlt_dec a b then true else false.
Definition Reqb (a b : R) : bool := if Req_EM_T a b then true else false.

(** the sign bit of a finite number *)
Definition fsign (r : R) (s : bool) : bool := if Reqb r 0 then s else Rltb r 0.

Definition xneg (x : xr) : xr :=
  match x with XFin r s => XFin (- r) (negb s) | XInf s => XInf (negb s) | XNaN => XNaN end.

Definition xadd_ (x y : xr) : xr :=
  match x, y with
  | XNaN, _ | _, XNaN => XNaN
  | XInf s, XInf t => if Bool.eqb s t then XInf s else XNaN
  | XInf s, _ => XInf s
  | _, XInf t => XInf t
  | XFin r s, XFin q t => XFin (r + q) (fsign r s && fsign q t)
  end.
Definition xsub_ (x y : xr) : xr := xadd_ x (xneg y).

Definition xmul_ (x y : xr) : xr :=
  match x, y with
  | XNaN, _ | _, XNaN => XNaN
  | XInf s, XInf t => XInf (xorb s t)
  | XInf s, XFin q t => if Reqb q 0 then XNaN else XInf (xorb s (fsign q t))
  | XFin r s, XInf t => if Reqb r 0 then XNaN else XInf (xorb (fsign r s) t)
  | XFin r s, XFin q t => XFin (r * q) (xorb (fsign r s) (fsign q t))
  end.

Definition xdiv_ (x y : xr) : xr :=
  match x, y with
  | XNaN, _ | _, XNaN => XNaN
  | XInf s, XInf t => XNaN
  | XInf s, XFin q t => XInf (xorb s (fsign q t))
  | XFin r s, XInf t => XFin 0 (xorb (fsign r s) t)
  | XFin r s, XFin q t =>
      if Reqb q 0 then (if Reqb r 0 then XNaN else XInf (xorb (fsign r s) (fsign q t)))
      else XFin (r / q) (xorb (fsign r s) (fsign q t))
  end.

Definition xsqrt (x : xr) : xr :=
  match x with
  | XFin r s => if Rltb r 0 then XNaN else XFin (sqrt r) s
  | XInf false => XInf false
  | _ => XNaN
  end.

Definition Rcmp (a b : R) : comparison := if Rltb a b then Lt else if Reqb a b then Eq else Gt.
Definition xcmp (x y : xr) : option comparison :=
  match x, y with
  | XNaN, _ | _, XNaN => None
  | XInf s, XInf t => Some (if Bool.eqb s t then Eq else if s then Lt else Gt)
  | XInf s, _ => Some (if s then Lt else Gt)
  | _, XInf t => Some (if t then Gt else Lt)
  | XFin r _, XFin q _ => Some (Rcmp r q)
  end.
Definition xeqb (x y : xr) : bool := match xcmp x y with Some Eq => true | _ => false end.
Definition xabs (x : xr) : xr :=
  match x with XFin r _ => XFin (Rabs r) false | XInf _ => XInf false | XNaN => XNaN end.
Definition x_is_nan (x : xr) : bool := match x with XNaN => true | _ => false end.
Definition x_is_finite (x : xr) : bool := match x with XFin _ _ => true | _ => false end.

(** Elementary functions: the exact real functions on their domains, NaN outside. *)
Definition xfun (g : R -> R) (x : xr) : xr := match x with XFin r s => XFin (g r) s | _ => XNaN end.
Definition xfun11 (g : R -> R) (x : xr) : xr :=
  match x with
  | XFin r s => if Rltb r (-1) || Rltb 1 r then XNaN else XFin (g r) s
  | _ => XNaN end.
Definition xatan (x : xr) : xr :=
  match x with XFin r s => XFin (atan r) s | XInf s => XFin (if s then - (PI / 2) else PI / 2) s | XNaN => XNaN end.
(** angle of the point (x, y) in [-PI, PI]; [sy], [sx] are the sign bits *)
Definition ratan2 (y : R) (sy : bool) (x : R) (sx : bool) : R :=
  if Reqb y 0 then (if fsign x sx then (if fsign y sy then - PI else PI) else 0)
  else if Reqb x 0 then (if Rltb y 0 then - (PI / 2) else PI / 2)
  else if Rltb 0 x then atan (y / x)
  else if Rltb y 0 then atan (y / x) - PI else atan (y / x) + PI.
Definition xatan2 (y x : xr) : xr :=
  match y, x with
  | XNaN, _ | _, XNaN => XNaN
  | XFin ry sy, XFin rx sx => XFin (ratan2 ry sy rx sx) (fsign ry sy)
  | XFin ry sy, XInf false => XFin 0 (fsign ry sy)
  | XFin ry sy, XInf true => XFin (if fsign ry sy then - PI else PI) (fsign ry sy)
  | XInf sy, XFin _ _ => XFin (if sy then - (PI / 2) else PI / 2) sy
  | XInf sy, XInf false => XFin (if sy then - (PI / 4) else PI / 4) sy
  | XInf sy, XInf true => XFin (if sy then - (3 * PI / 4) else 3 * PI / 4) sy
  end.

Definition x_of_float {f} (x : float f) : xr :=
  match x with
  | B754_nan => XNaN
  | B754_infinity s => XInf s
  | B754_zero s => XFin 0 s
  | B754_finite _ _ _ _ => XFin (B2R x) false
  end.
Definition x_trunc (x : xr) : Z :=
  match x with
  | XNaN => 0%Z
  | XInf true => i64_min
  | XInf false => i64_max
  | XFin r _ => Z.max i64_min (Z.min i64_max (Ztrunc r))
  end.

(** f32::MAX *)
Definition x_max : R := IZR ((2 ^ 24 - 1) * 2 ^ 104).

#[global] Instance xr_scalar : Scalar xr := {|
  szero := XFin 0 false;
  sone := XFin 1 false;
  slowest := XFin (- x_max) true;
  shighest := XFin x_max false;
  sadd := xadd_; ssub := xsub_; smul := xmul_; sdiv := xdiv_;
  seqb := xeqb;
  scmp := xcmp;
  smin := default_min xcmp;
  smax := default_max xcmp;
  ssquare := default_square xmul_
|}.
#[global] Instance xr_signed : SignedScalar xr := {|
  signed_scalar := xr_scalar;
  sneg := xneg;
  sabs := default_abs xcmp (XFin 0 false) xneg
|}.
(** There are no neighbouring floats in exact arithmetic: [next_up]/[next_down] are the
    identity and the bracket constants are the constants.  [to_f32]/[to_f64] (used by
    nothing that is instantiated here) return NaN. *)
#[global] Instance xr_gfloat : GFloat xr := {|
  gfloat_signed := xr_signed;
  next_up := fun x => x; next_down := fun x => x;
  to_i64 := x_trunc; to_f32 := fun _ => fnan; to_f64 := fun _ => fnan;
  from_i64 := fun z => XFin (IZR z) false;
  from_f32 := x_of_float; from_f64 := x_of_float;
  gnan := XNaN; infinity := XInf false; neg_infinity := XInf true;
  neg_zero := XFin 0 true;
  min_positive_value := XFin (bpow radix2 (-126)) false;
  is_nan := x_is_nan; is_finite := x_is_finite; is_infinite := x_is_finite;
  half := XFin (1 / 2) false;
  pi := XFin PI false; tau := XFin (2 * PI) false; frac_pi_2 := XFin (PI / 2) false; frac_pi_4 := XFin (PI / 4) false;
  abs_epsilon := XFin (1 / 1000000) false; rel_epsilon := XFin (1 / 10000) false;
  pi_lower := XFin PI false; pi_upper := XFin PI false;
  tau_lower := XFin (2 * PI) false; tau_upper := XFin (2 * PI) false;
  frac_pi_2_lower := XFin (PI / 2) false; frac_pi_2_upper := XFin (PI / 2) false;
  frac_pi_4_lower := XFin (PI / 4) false; frac_pi_4_upper := XFin (PI / 4) false;
  gsqrt := xsqrt;
  gsin := xfun sin; gcos := xfun cos; gsin_cos := fun x => (xfun sin x, xfun cos x);
  gtan := xfun tan;
  gasin := xfun11 asin; gacos := xfun11 acos; gatan := xatan;
  gatan2 := xatan2
|}.
#[global] Instance xr_native : Native xr := {|
  nmin := native_min xcmp x_is_nan;
  nmax := native_max xcmp x_is_nan;
  nabs := xabs
|}.
