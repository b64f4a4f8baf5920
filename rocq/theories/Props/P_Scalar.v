(** * Properties C01-C08: floats as [Scalar]/[GFloat].

    Statements read floats through [Spec] only: [flt]/[fle]/[feq] is the order of the
    extended reals, [B2R] the real value, [rounds_to z r] correct rounding. *)
From Coq Require Import ZArith Reals Bool Lra.
From Flocq Require Import Core BinarySingleNaN.
From Verif.Model Require Import FloatBase Scalar Float.
From Verif Require Import Spec.
From Verif.Proofs Require Import ScalarProofs ScalarMisc.
Open Scope R_scope.

(** A platform with trivial elementary functions; enough to exhibit cases for theorems
    that do not constrain the platform. *)
Definition some_libm (f : fmt) : libm f := {|
  m_sin := fun x => x; m_cos := fun x => x; m_tan := fun x => x; m_asin := fun x => x;
  m_acos := fun x => x; m_atan := fun x => x; m_atan2 := fun x _ => x |}.

(** ** C01 *)
Theorem C01_next_up_adjacent : forall (f : fmt) (m : libm f) (x : float f),
  nonnan x -> x <> finf false ->
  flt x (next_up x) /\ (forall y, flt x y -> fle (next_up x) y).
Proof. intros f m. exact next_up_adjacent. Qed.
Print Assumptions C01_next_up_adjacent.

Theorem C01_next_down_adjacent : forall (f : fmt) (m : libm f) (x : float f),
  nonnan x -> x <> finf true ->
  flt (next_down x) x /\ (forall y, flt y x -> fle y (next_down x)).
Proof. intros f m. exact next_down_adjacent. Qed.
Print Assumptions C01_next_down_adjacent.

Theorem C01_next_specials : forall (f : fmt) (m : libm f),
  next_up (fnan : float f) = fnan /\ next_down (fnan : float f) = fnan /\
  next_up (finf false : float f) = finf false /\ next_down (finf true : float f) = finf true /\
  next_up (finf true : float f) = fmin_value /\ next_down (finf false : float f) = fmax_value.
Proof. intros f m. exact next_specials. Qed.
Print Assumptions C01_next_specials.

(** Non-vacuity: zero, a subnormal, the largest finite float and an infinity qualify. *)
Example C01_case : forall f : fmt,
  (nonnan (fzero true : float f) /\ fzero true <> (finf false : float f)) /\
  (nonnan (fmax_value : float f) /\ fmax_value <> (finf false : float f) /\
   @next_up _ (float_gfloat f (some_libm f)) fmax_value = finf false) /\
  (nonnan (finf true : float f) /\ finf true <> (finf false : float f)) /\
  nonnan (@next_up _ (float_gfloat f (some_libm f)) (fzero false)).
Proof. intros []; repeat split; try discriminate; apply B2SF_inj; vm_compute; reflexivity. Qed.

(** ** C02 *)
Theorem C02_next_down_next_up : forall (f : fmt) (m : libm f) (x : float f),
  nonnan x -> x <> finf false -> feq (next_down (next_up x)) x.
Proof. intros f m. exact next_down_next_up. Qed.
Print Assumptions C02_next_down_next_up.

Theorem C02_next_up_next_down : forall (f : fmt) (m : libm f) (x : float f),
  nonnan x -> x <> finf true -> feq (next_up (next_down x)) x.
Proof. intros f m. exact next_up_next_down. Qed.
Print Assumptions C02_next_up_next_down.

Theorem C02_mirror : forall (f : fmt) (m : libm f) (x : float f),
  next_down (fneg x) = fneg (next_up x).
Proof. intros f m. exact next_mirror. Qed.
Print Assumptions C02_mirror.

Example C02_case : nonnan (flit 1 10 : float F32) /\ (flit 1 10 : float F32) <> finf false /\
  @next_up _ (float_gfloat F32 (some_libm F32)) (flit 1 10) <> flit 1 10.
Proof. repeat split; intros H; apply (f_equal B2SF) in H; vm_compute in H; discriminate. Qed.

(** ** C03 *)
Theorem C03_min : forall (f : fmt) (x y : float f), nonnan x -> nonnan y ->
  (smin x y = x \/ smin x y = y) /\ fle (smin x y) x /\ fle (smin x y) y.
Proof. intros f. exact smin_spec. Qed.
Print Assumptions C03_min.

Theorem C03_max : forall (f : fmt) (x y : float f), nonnan x -> nonnan y ->
  (smax x y = x \/ smax x y = y) /\ fle x (smax x y) /\ fle y (smax x y).
Proof. intros f. exact smax_spec. Qed.
Print Assumptions C03_max.

Theorem C03_min_max : forall (f : fmt) (x y : float f), nonnan x -> nonnan y ->
  (min_max x y = (x, y) \/ min_max x y = (y, x)) /\ fle (fst (min_max x y)) (snd (min_max x y)).
Proof. intros f. exact min_max_spec. Qed.
Print Assumptions C03_min_max.

Theorem C03_clamp : forall (f : fmt) (x lo hi : float f), nonnan x -> fle lo hi ->
  fle lo (clamp x lo hi) /\ fle (clamp x lo hi) hi /\
  (fle lo x -> fle x hi -> clamp x lo hi = x) /\
  (flt x lo -> clamp x lo hi = lo) /\ (flt hi x -> clamp x lo hi = hi).
Proof. intros f. exact clamp_spec. Qed.
Print Assumptions C03_clamp.

Theorem C03_in_range : forall (f : fmt) (x lo hi : float f),
  in_range x lo hi = true <-> (fle lo x /\ fle x hi).
Proof. intros f. exact in_range_spec. Qed.
Print Assumptions C03_in_range.

Theorem C03_nan : forall (f : fmt) (x y : float f), ~ nonnan x \/ ~ nonnan y ->
  smin x y = y /\ smax x y = y /\ min_max x y = (y, x).
Proof. intros f. exact min_max_nan. Qed.
Print Assumptions C03_nan.

Theorem C03_clamp_nan : forall (f : fmt) (lo hi : float f), clamp (fnan : float f) lo hi = fnan.
Proof. intros f. exact clamp_nan. Qed.
Print Assumptions C03_clamp_nan.

Example C03_case :
  nonnan (flit 1 10 : float F64) /\ nonnan (f_of_Z 3 : float F64) /\
  fle (f_of_Z (-2) : float F64) (f_of_Z 3) /\
  clamp (flit 1 10 : float F64) (f_of_Z 1) (f_of_Z 3) = f_of_Z 1 /\
  in_range (f_of_Z 2 : float F64) (f_of_Z 1) (f_of_Z 3) = true /\ ~ nonnan (fnan : float F64).
Proof.
  split; [reflexivity|]. split; [reflexivity|]. split; [apply sle_spec; vm_compute; reflexivity|].
  split; [apply B2SF_inj; vm_compute; reflexivity|]. split; [vm_compute; reflexivity|discriminate].
Qed.

(** ** C04 *)
(** [fequals] is the test |a-b| < 1e-6 or |a-b| < max(|a|,|b|) * rel in correctly
    rounded arithmetic, with rel = 1e-4 for f32 and 1e-6 for f64. *)
Theorem C04_fequals_spec : forall (f : fmt) (m : libm f) (a b : float f), finite a -> finite b ->
  (fequals a b = true <->
   (rndf f (Rabs (B2R a - B2R b)) < rndf f (1 / 10 ^ 6) \/
    rndf f (Rabs (B2R a - B2R b)) <
      rndf f (Rmax (Rabs (B2R a)) (Rabs (B2R b)) *
              rndf f (match f with F32 => 1 / 10 ^ 4 | F64 => 1 / 10 ^ 6 end)))).
Proof. exact fequals_spec_lit. Qed.
Print Assumptions C04_fequals_spec.

(** [almost_eq] on floats is the same test; on a NaN or an infinity it is false *)
Theorem C04_almost_eq : forall (f : fmt) (m : libm f) (a b : float f),
  (almost_eq a b = true <->
   finite a /\ finite b /\
   (rndf f (Rabs (B2R a - B2R b)) < rndf f (1 / 10 ^ 6) \/
    rndf f (Rabs (B2R a - B2R b)) <
      rndf f (Rmax (Rabs (B2R a)) (Rabs (B2R b)) *
              rndf f (match f with F32 => 1 / 10 ^ 4 | F64 => 1 / 10 ^ 6 end)))).
Proof. exact almost_eq_float. Qed.
Print Assumptions C04_almost_eq.

Theorem C04_fequals_sym : forall (f : fmt) (m : libm f) (a b : float f), fequals a b = fequals b a.
Proof. exact (@fequals_sym). Qed.
Print Assumptions C04_fequals_sym.

Theorem C04_fequals_nan : forall (f : fmt) (m : libm f) (a b : float f),
  ~ nonnan a \/ ~ nonnan b -> fequals a b = false.
Proof. exact (@fequals_nan). Qed.
Print Assumptions C04_fequals_nan.

(** The expected reflexivity law, for every float that equals itself. *)
Definition C04_reflexive (f : fmt) (m : libm f) : Prop :=
  forall x : float f, nonnan x -> fequals x x = true.
(** It fails: an infinity is not [fequals] to itself (inf - inf is NaN). *)
Theorem C04_fequals_refl_refuted : forall (f : fmt) (m : libm f), ~ C04_reflexive f m.
Proof. exact fequals_refl_refuted. Qed.
Print Assumptions C04_fequals_refl_refuted.

(** Missing from the full law: infinities, for which it is false. *)
Theorem C04_fequals_refl_partial : forall (f : fmt) (m : libm f) (x : float f),
  finite x -> fequals x x = true.
Proof. exact (@fequals_refl). Qed.
Print Assumptions C04_fequals_refl_partial.

Theorem C04_fequals_inf : forall (f : fmt) (m : libm f) (x : float f) (s : bool),
  fequals (finf s) x = false /\ fequals x (finf s) = false.
Proof. exact fequals_inf_any. Qed.
Print Assumptions C04_fequals_inf.

Example C04_case : finite (flit 1 3 : float F32) /\ finite (flit 33333 100000 : float F32) /\
  @fequals _ (float_gfloat F32 (some_libm F32)) (flit 1 3) (flit 33333 100000) = true /\
  @fequals _ (float_gfloat F32 (some_libm F32)) (flit 1 3) (flit 3332 10000) = false.
Proof. repeat split; vm_compute; reflexivity. Qed.

(** ** C05 *)
(** The classification the method names promise. *)
Definition C05_classification (f : fmt) (m : libm f) : Prop := forall x : float f,
  (is_nan x = true <-> x = fnan) /\
  (is_finite x = true <-> x <> fnan /\ x <> finf false /\ x <> finf true) /\
  (is_infinite x = true <-> x = finf false \/ x = finf true).
(** [GFloat::is_infinite] returns [self.is_finite()] for f32 and f64. *)
Theorem C05_classification_refuted : forall (f : fmt) (m : libm f), ~ C05_classification f m.
Proof. exact classification_refuted. Qed.
Print Assumptions C05_classification_refuted.

(** Missing: [is_infinite], which is wrong on every input except NaN. *)
Theorem C05_classification_partial : forall (f : fmt) (m : libm f) (x : float f),
  (is_nan x = true <-> x = fnan) /\
  (is_finite x = true <-> x <> fnan /\ x <> finf false /\ x <> finf true) /\
  (is_infinite x = true <-> x <> fnan /\ x <> finf false /\ x <> finf true).
Proof. exact classification_partial. Qed.
Print Assumptions C05_classification_partial.

Example C05_case : @is_infinite _ (float_gfloat F32 (some_libm F32)) (f_of_Z 1) = true /\
  @is_infinite _ (float_gfloat F32 (some_libm F32)) (finf false) = false.
Proof. split; reflexivity. Qed.

(** ** C06 *)
Theorem C06_lower : forall (f : fmt) (m : libm f),
  B2R (pi_lower : float f) <= PI /\ B2R (tau_lower : float f) <= 2 * PI /\
  B2R (frac_pi_2_lower : float f) <= PI / 2 /\ B2R (frac_pi_4_lower : float f) <= PI / 4.
Proof. intros f m. exact (lower_consts f). Qed.
Print Assumptions C06_lower.

Definition C06_upper (f : fmt) (m : libm f) : Prop :=
  PI <= B2R (pi_upper : float f) /\ 2 * PI <= B2R (tau_upper : float f) /\
  PI / 2 <= B2R (frac_pi_2_upper : float f) /\ PI / 4 <= B2R (frac_pi_4_upper : float f).
(** For f64 the upper constants are upper bounds ... *)
Theorem C06_upper_f64_partial : forall m : libm F64, C06_upper F64 m.
Proof. intros m. exact upper_consts_f64. Qed.
Print Assumptions C06_upper_f64_partial.
(** ... one ulp above the lower ones ... *)
Theorem C06_bracket_width_f64_partial : forall m : libm F64,
  next_up (pi_lower : float F64) = pi_upper /\ next_up (tau_lower : float F64) = tau_upper /\
  next_up (frac_pi_2_lower : float F64) = frac_pi_2_upper /\
  next_up (frac_pi_4_lower : float F64) = frac_pi_4_upper.
Proof. intros m. exact bracket_width_f64. Qed.
Print Assumptions C06_bracket_width_f64_partial.
(** ... but for f32 all four upper constants are strictly below the real constants
    ([pi_upper] has the same numerator as [pi_lower]). *)
Theorem C06_upper_f32_refuted : forall m : libm F32, ~ C06_upper F32 m.
Proof. intros m. exact upper_f32_refuted. Qed.
Print Assumptions C06_upper_f32_refuted.
Theorem C06_upper_f32_all_below : forall m : libm F32,
  B2R (pi_upper : float F32) < PI /\ B2R (tau_upper : float F32) < 2 * PI /\
  B2R (frac_pi_2_upper : float F32) < PI / 2 /\ B2R (frac_pi_4_upper : float F32) < PI / 4.
Proof. intros m. exact upper_consts_f32. Qed.
Print Assumptions C06_upper_f32_all_below.

(** The plain constants are the correctly rounded ones. *)
Theorem C06_constants_rounded : forall (f : fmt) (m : libm f),
  B2R (pi : float f) = rndf f PI /\ B2R (tau : float f) = rndf f (2 * PI) /\
  B2R (frac_pi_2 : float f) = rndf f (PI / 2) /\ B2R (frac_pi_4 : float f) = rndf f (PI / 4).
Proof. intros f m. exact (std_constants_rounded f). Qed.
Print Assumptions C06_constants_rounded.

(** ** C07 *)
Theorem C07_widening : forall (m : libm F32) (m' : libm F64) (x : float F32),
  (finite x -> finite (to_f64 x) /\ B2R (to_f64 x) = B2R x) /\
  from_f64 (to_f64 x) = x /\ to_f32 (from_f32 x : float F64) = x.
Proof. exact widening. Qed.
Print Assumptions C07_widening.

Theorem C07_narrowing : forall (m : libm F32) (m' : libm F64) (x : float F64),
  (finite x -> rounds_to (to_f32 x) (B2R x) /\ rounds_to (from_f64 x : float F32) (B2R x)) /\
  to_f32 (fnan : float F64) = fnan /\ (forall s, to_f32 (finf s : float F64) = finf s).
Proof. exact narrowing. Qed.
Print Assumptions C07_narrowing.

Theorem C07_same_format : forall (m : libm F32) (m' : libm F64),
  (forall x : float F32, to_f32 x = x /\ from_f32 x = x) /\
  (forall x : float F64, to_f64 x = x /\ from_f64 x = x).
Proof. exact same_format. Qed.
Print Assumptions C07_same_format.

Theorem C07_from_i64 : forall (f : fmt) (m : libm f) (n : Z), rounds_to (from_i64 n : float f) (IZR n).
Proof. exact from_i64_rounds. Qed.
Print Assumptions C07_from_i64.

Theorem C07_to_i64 : forall (f : fmt) (m : libm f) (x : float f),
  (finite x -> to_i64 x = Z.max (- 2 ^ 63) (Z.min (2 ^ 63 - 1) (Ztrunc (B2R x)))) /\
  to_i64 (fnan : float f) = 0%Z /\ to_i64 (finf false : float f) = (2 ^ 63 - 1)%Z /\
  to_i64 (finf true : float f) = (- 2 ^ 63)%Z.
Proof. intros f m. exact (to_i64_spec f). Qed.
Print Assumptions C07_to_i64.

Theorem C07_i64_roundtrip : forall (f : fmt) (m : libm f) (n : Z),
  (Z.abs n <= 2 ^ prec f)%Z -> to_i64 (from_i64 n : float f) = n.
Proof. intros f m. exact (i64_roundtrip f). Qed.
Print Assumptions C07_i64_roundtrip.

Example C07_case : finite (flit 1 10 : float F32) /\ finite (flit 1 10 : float F64) /\
  (Z.abs (-16777215) <= 2 ^ prec F32)%Z /\
  @to_i64 _ (float_gfloat F32 (some_libm F32)) (flit 37 10) = 3%Z /\
  B2R (flit 1 10 : float F32) <> B2R (flit 1 10 : float F64).
Proof.
  repeat split; try discriminate.
  match goal with |- B2R ?x <> B2R ?y => b2r_eval x; b2r_eval y end. simpl bpow. lra.
Qed.

(** ** C08 *)
Theorem C08_sign_predicates : forall (f : fmt) (x : float f),
  (is_positive x = true <-> flt (fzero false) x) /\ (is_negative x = true <-> flt x (fzero false)) /\
  (is_nonpositive x = true <-> fle x (fzero false)) /\ (is_nonnegative x = true <-> fle (fzero false) x).
Proof. intros f. exact sign_predicates. Qed.
Print Assumptions C08_sign_predicates.

Theorem C08_signum : forall (f : fmt) (x : float f),
  (flt (fzero false) x -> B2R (signum x) = 1) /\ (flt x (fzero false) -> B2R (signum x) = -1) /\
  (feq x (fzero false) \/ ~ nonnan x -> signum x = fzero false).
Proof. exact signum_values. Qed.
Print Assumptions C08_signum.

Theorem C08_abs : forall (f : fmt) (x : float f),
  (finite x -> finite (sabs x) /\ B2R (sabs x) = Rabs (B2R x)) /\
  (forall s, sabs (finf s : float f) = finf false) /\ sabs (fnan : float f) = fnan.
Proof. exact abs_all. Qed.
Print Assumptions C08_abs.

Theorem C08_square_recip : forall (f : fmt) (m : libm f) (x : float f), finite x ->
  rounds_to (ssquare x) (B2R x * B2R x) /\ (B2R x <> 0 -> rounds_to (recip x) (1 / B2R x)).
Proof. intros f m x H. exact (conj (square_rounds x H) (recip_rounds x H)). Qed.
Print Assumptions C08_square_recip.

Theorem C08_constants : forall (f : fmt) (m : libm f),
  B2R (szero : float f) = 0 /\ B2R (sone : float f) = 1 /\ B2R (stwo : float f) = 2 /\ B2R (half : float f) = 1 / 2 /\
  forall x : float f, (is_zero x = true <-> feq x (szero : float f)) /\ (is_one x = true <-> feq x (sone : float f)).
Proof. exact scalar_consts. Qed.
Print Assumptions C08_constants.

Example C08_case : flt (f_of_Z (-3) : float F32) (fzero false) /\ finite (f_of_Z (-3) : float F32) /\
  signum (f_of_Z (-3) : float F32) = f_of_Z (-1).
Proof.
  split; [apply slt_spec; vm_compute; reflexivity|]. split; [reflexivity|].
  apply B2SF_inj; vm_compute; reflexivity.
Qed.
