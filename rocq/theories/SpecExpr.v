(** * Specification: arithmetic expressions, their exact real meaning and their interval
    evaluation (used by C20 and C25). *)
From Coq Require Import Reals.
From Verif.Model Require Import FloatBase Scalar Float Interval.
From Verif Require Import Spec.
Open Scope R_scope.

Section Expr.
Context {f : fmt}.

Inductive expr :=
| EVar (n : nat)
| ENeg (e : expr) | EAbs (e : expr) | ESquare (e : expr) | ESqrt (e : expr) | EExtend (e : expr)
| EAdd (e1 e2 : expr) | ESub (e1 e2 : expr) | EMul (e1 e2 : expr) | EDiv (e1 e2 : expr)
| EMin (e1 e2 : expr) | EMax (e1 e2 : expr)
| EAddS (e : expr) (t : float f) | ESubS (e : expr) (t : float f)
| EMulS (e : expr) (t : float f) | EDivS (e : expr) (t : float f).

(** [reval env e r]: [r] is the exact value of [e]; undefined for division by zero, square
    roots of negative numbers and non-finite scalar constants. *)
Inductive reval (env : nat -> R) : expr -> R -> Prop :=
| RVar n : reval env (EVar n) (env n)
| RNeg e r : reval env e r -> reval env (ENeg e) (- r)
| RAbs e r : reval env e r -> reval env (EAbs e) (Rabs r)
| RSquare e r : reval env e r -> reval env (ESquare e) (r * r)
| RSqrt e r : reval env e r -> 0 <= r -> reval env (ESqrt e) (sqrt r)
| RExtend e r : reval env e r -> reval env (EExtend e) r
| RAdd e1 e2 r s : reval env e1 r -> reval env e2 s -> reval env (EAdd e1 e2) (r + s)
| RSub e1 e2 r s : reval env e1 r -> reval env e2 s -> reval env (ESub e1 e2) (r - s)
| RMul e1 e2 r s : reval env e1 r -> reval env e2 s -> reval env (EMul e1 e2) (r * s)
| RDiv e1 e2 r s : reval env e1 r -> reval env e2 s -> s <> 0 -> reval env (EDiv e1 e2) (r / s)
| RMin e1 e2 r s : reval env e1 r -> reval env e2 s -> reval env (EMin e1 e2) (Rmin r s)
| RMax e1 e2 r s : reval env e1 r -> reval env e2 s -> reval env (EMax e1 e2) (Rmax r s)
| RAddS e t r : reval env e r -> finite t -> reval env (EAddS e t) (r + BinarySingleNaN.B2R t)
| RSubS e t r : reval env e r -> finite t -> reval env (ESubS e t) (r - BinarySingleNaN.B2R t)
| RMulS e t r : reval env e r -> finite t -> reval env (EMulS e t) (r * BinarySingleNaN.B2R t)
| RDivS e t r : reval env e r -> finite t -> BinarySingleNaN.B2R t <> 0 ->
    reval env (EDivS e t) (r / BinarySingleNaN.B2R t).

(** The same expression computed with the crate's interval operations (trait methods). *)
Fixpoint ieval {m : libm f} (env : nat -> interval (float f)) (e : expr) : interval (float f) :=
  match e with
  | EVar n => env n
  | ENeg e => sneg (ieval env e)
  | EAbs e => sabs (ieval env e)
  | ESquare e => ssquare (ieval env e)
  | ESqrt e => gsqrt (ieval env e)
  | EExtend e => i_extend_by_ulp (ieval env e)
  | EAdd e1 e2 => sadd (ieval env e1) (ieval env e2)
  | ESub e1 e2 => ssub (ieval env e1) (ieval env e2)
  | EMul e1 e2 => smul (ieval env e1) (ieval env e2)
  | EDiv e1 e2 => sdiv (ieval env e1) (ieval env e2)
  | EMin e1 e2 => smin (ieval env e1) (ieval env e2)
  | EMax e1 e2 => smax (ieval env e1) (ieval env e2)
  | EAddS e t => i_add_s (ieval env e) t
  | ESubS e t => i_sub_s (ieval env e) t
  | EMulS e t => i_mul_s (ieval env e) t
  | EDivS e t => i_div_s (ieval env e) t
  end.

(** [P] holds of the computed value of [e] and of all its subexpressions. *)
Fixpoint everywhere {m : libm f} (P : interval (float f) -> Prop) (env : nat -> interval (float f)) (e : expr) : Prop :=
  P (ieval env e) /\
  match e with
  | EVar _ => True
  | ENeg e | EAbs e | ESquare e | ESqrt e | EExtend e
  | EAddS e _ | ESubS e _ | EMulS e _ | EDivS e _ => everywhere P env e
  | EAdd e1 e2 | ESub e1 e2 | EMul e1 e2 | EDiv e1 e2 | EMin e1 e2 | EMax e1 e2 =>
      everywhere P env e1 /\ everywhere P env e2
  end.

(** No product of two intervals that both have zero strictly inside. *)
Fixpoint no_double_straddle {m : libm f} (env : nat -> interval (float f)) (e : expr) : Prop :=
  match e with
  | EVar _ => True
  | ENeg e | EAbs e | ESquare e | ESqrt e | EExtend e
  | EAddS e _ | ESubS e _ | EMulS e _ | EDivS e _ => no_double_straddle env e
  | EMul e1 e2 => no_double_straddle env e1 /\ no_double_straddle env e2 /\
      ~ (straddles (ieval env e1) /\ straddles (ieval env e2))
  | EAdd e1 e2 | ESub e1 e2 | EDiv e1 e2 | EMin e1 e2 | EMax e1 e2 =>
      no_double_straddle env e1 /\ no_double_straddle env e2
  end.

(** All scalar constants are finite. *)
Fixpoint scalars_finite (e : expr) : Prop :=
  match e with
  | EVar _ => True
  | ENeg e | EAbs e | ESquare e | ESqrt e | EExtend e => scalars_finite e
  | EAddS e t | ESubS e t | EMulS e t | EDivS e t => scalars_finite e /\ finite t
  | EMul e1 e2 | EAdd e1 e2 | ESub e1 e2 | EDiv e1 e2 | EMin e1 e2 | EMax e1 e2 =>
      scalars_finite e1 /\ scalars_finite e2
  end.

(** The same expression computed with the crate's float operations (trait methods); [extend]
    concerns the bounds only. *)
Fixpoint feval {m : libm f} (env : nat -> float f) (e : expr) : float f :=
  match e with
  | EVar n => env n
  | ENeg e => sneg (feval env e)
  | EAbs e => sabs (feval env e)
  | ESquare e => ssquare (feval env e)
  | ESqrt e => gsqrt (feval env e)
  | EExtend e => feval env e
  | EAdd e1 e2 => sadd (feval env e1) (feval env e2)
  | ESub e1 e2 => ssub (feval env e1) (feval env e2)
  | EMul e1 e2 => smul (feval env e1) (feval env e2)
  | EDiv e1 e2 => sdiv (feval env e1) (feval env e2)
  | EMin e1 e2 => smin (feval env e1) (feval env e2)
  | EMax e1 e2 => smax (feval env e1) (feval env e2)
  | EAddS e t => sadd (feval env e) t
  | ESubS e t => ssub (feval env e) t
  | EMulS e t => smul (feval env e) t
  | EDivS e t => sdiv (feval env e) t
  end.

(** The float evaluation meets no infinity and no NaN. *)
Fixpoint all_finite {m : libm f} (env : nat -> float f) (e : expr) : Prop :=
  finite (feval env e) /\
  match e with
  | EVar _ => True
  | ENeg e | EAbs e | ESquare e | ESqrt e | EExtend e => all_finite env e
  | EAddS e t | ESubS e t | EMulS e t | EDivS e t => all_finite env e /\ finite t
  | EAdd e1 e2 | ESub e1 e2 | EMul e1 e2 | EDiv e1 e2 | EMin e1 e2 | EMax e1 e2 =>
      all_finite env e1 /\ all_finite env e2
  end.
End Expr.
Arguments expr : clear implicits.
