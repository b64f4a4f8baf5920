(** * Properties C66-C69 and additions to C05, C18, C22: intervals as seen by generic code.

    [mem r a]: the real [r] lies between the bounds of [a]. The functions below are the trait
    methods ([is_positive], [clamp], ...) that generic code (vectors, transforms) calls when
    its scalar type is an interval. *)
From Coq Require Import ZArith Reals Bool Lra Lia.
From Flocq Require Import Core BinarySingleNaN.
From Verif.Model Require Import FloatBase Scalar Float Interval.
From Verif Require Import Spec SpecTrig.
From Verif.Proofs Require Import IntervalRefute IntervalTrig2 IntervalTraits.
Open Scope R_scope.
Notation FI f := (interval (float f)).

(** ** C05: the limits of the float formats and the special values *)
Theorem C05_limits : forall (f : fmt) (m : libm f),
  (forall x : float f, finite x -> B2R (slowest : float f) <= B2R x <= B2R (shighest : float f)) /\
  finite (slowest : float f) /\ finite (shighest : float f) /\ B2R (slowest : float f) = - B2R (shighest : float f) /\
  finite (min_positive_value : float f) /\ B2R (min_positive_value : float f) = bpow radix2 (2 - emax f).
Proof. intros f m. exact c_limits. Qed.
Print Assumptions C05_limits.
Theorem C05_special_values : forall (f : fmt) (m : libm f),
  (gnan : float f) = fnan /\ (infinity : float f) = finf false /\ (neg_infinity : float f) = finf true /\
  (neg_zero : float f) = fzero true /\ (szero : float f) = fzero false /\
  finite (sone : float f) /\ B2R (sone : float f) = 1 /\ finite (half : float f) /\ B2R (half : float f) = 1 / 2 /\
  finite (stwo : float f) /\ B2R (stwo : float f) = 2.
Proof. intros f m. exact c_specials. Qed.
Print Assumptions C05_special_values.

(** ** C18: approx is the correctly rounded midpoint *)
Theorem C18_approx_midpoint_partial : forall (f : fmt) (m : libm f) (a : FI f), bounded a ->
  Rabs (rndf f (B2R (inf a) + B2R (sup a))) < bpow radix2 (emax f) ->
  rounds_to (i_approx a) ((B2R (inf a) + B2R (sup a)) / 2).
Proof. intros f m. exact t_approx. Qed.
Print Assumptions C18_approx_midpoint_partial.

(** ** C22: for arguments below -1/2 asin and acos build an interval whose bounds are the wrong
    way round (which a debug build reports by panicking in [Interval::new]) *)
Theorem C22_asin_acos_inverted : forall (f : fmt) (m : libm f) (a : FI f), good_asin_acos m ->
  bounded a -> -1 <= B2R (inf a) -> B2R (sup a) <= - (1 / 2) -> B2R (inf a) <= B2R (sup a) ->
  ~ ordered (gasin a) /\ ~ ordered (gacos a).
Proof. exact asin_acos_inverted. Qed.
Print Assumptions C22_asin_acos_inverted.
Example C22_inverted_case : forall f, good_asin_acos (exact_libm f) /\ bounded (ZI f (-1) (-1)) /\
  -1 <= B2R (inf (ZI f (-1) (-1))) /\ B2R (sup (ZI f (-1) (-1))) <= - (1 / 2) /\ B2R (inf (ZI f (-1) (-1))) <= B2R (sup (ZI f (-1) (-1))).
Proof. exact inverted_case. Qed.

(** ** C66: classification and constants *)
Theorem C66_is_nan : forall (f : fmt) (m : libm f) (a : FI f), is_nan a = true <-> ~ proper a.
Proof. intros f m. exact t_is_nan. Qed.
Print Assumptions C66_is_nan.
Theorem C66_is_finite : forall (f : fmt) (m : libm f) (a : FI f), is_finite a = true <-> bounded a.
Proof. intros f m. exact t_is_finite. Qed.
Print Assumptions C66_is_finite.
Definition C66_is_infinite (f : fmt) (m : libm f) : Prop := forall a : FI f,
  is_infinite a = true <-> exists s, inf a = finf s /\ sup a = finf s.
Theorem C66_is_infinite_refuted : forall (f : fmt) (m : libm f), ~ C66_is_infinite f m.
Proof. exact is_infinite_refuted. Qed.
Print Assumptions C66_is_infinite_refuted.
(** What it does instead: true for bounded intervals whose two bounds have the same sign. *)
Theorem C66_is_infinite_actual : forall (f : fmt) (m : libm f) (a : FI f),
  is_infinite a = true <-> bounded a /\ (0 < B2R (inf a) <-> 0 < B2R (sup a)) /\ (B2R (inf a) < 0 <-> B2R (sup a) < 0).
Proof. intros f m. exact t_is_infinite. Qed.
Print Assumptions C66_is_infinite_actual.
Theorem C66_point_constants : forall (f : fmt) (m : libm f) (r : R),
  (mem r (szero : FI f) <-> r = 0) /\ (mem r (sone : FI f) <-> r = 1) /\ (mem r (half : FI f) <-> r = 1 / 2) /\
  (mem r (neg_zero : FI f) <-> r = 0) /\
  (mem r (min_positive_value : FI f) <-> r = B2R (min_positive_value : float f)) /\
  (mem r (shighest : FI f) <-> r = B2R (shighest : float f)) /\ (mem r (slowest : FI f) <-> r = B2R (slowest : float f)) /\
  (mem r (abs_epsilon : FI f) <-> r = B2R (abs_epsilon : float f)) /\ (mem r (rel_epsilon : FI f) <-> r = B2R (rel_epsilon : float f)).
Proof. intros f m. exact ci_points. Qed.
Print Assumptions C66_point_constants.
Theorem C66_two : forall (f : fmt) (m : libm f),
  mem 2 (stwo : FI f) /\ near_lower (inf (stwo : FI f)) (fun t => t = 2) /\ near_upper (sup (stwo : FI f)) (fun t => t = 2).
Proof. intros f m. exact ci_two. Qed.
Print Assumptions C66_two.
(** nan is not proper; the two infinities contain no real number and lie beyond every bounded interval. *)
Theorem C66_special_values : forall (f : fmt) (m : libm f),
  ~ proper (gnan : FI f) /\ is_nan (gnan : FI f) = true /\
  (forall r, ~ mem r (infinity : FI f)) /\ (forall r, ~ mem r (neg_infinity : FI f)) /\
  proper (infinity : FI f) /\ proper (neg_infinity : FI f) /\
  (forall a : FI f, bounded a -> ordered a -> (infinity > a)%S = true /\ (neg_infinity < a)%S = true).
Proof. intros f m. exact ci_specials. Qed.
Print Assumptions C66_special_values.
Example C66_case : forall f (m : libm f), bounded (ZI f (-3) 2) /\ ordered (ZI f (-3) 2) /\
  is_infinite (ZI f 1 2) = true /\ is_infinite (ZI f (-3) 2) = false /\ is_infinite (infinity : FI f) = false /\ is_finite (infinity : FI f) = false.
Proof.
  intros f m. repeat match goal with |- _ /\ _ => split end; try zi; destruct f; vm_compute; reflexivity.
Qed.

(** ** C67: conversions *)
Definition C67_from_i64 (f : fmt) (m : libm f) : Prop := forall z : Z, (Z.abs z < 2 ^ 63)%Z -> mem (IZR z) (from_i64 z : FI f).
(** 2^24 + 1 (f32), 2^53 + 1 (f64): the integer is rounded and the single rounded point is returned. *)
Theorem C67_from_i64_refuted : forall (f : fmt) (m : libm f), ~ C67_from_i64 f m.
Proof. exact from_i64_refuted. Qed.
Print Assumptions C67_from_i64_refuted.
Theorem C67_from_i64_partial : forall (f : fmt) (m : libm f) (z : Z) (r : R), (Z.abs z <= 2 ^ prec f)%Z ->
  (mem r (from_i64 z : FI f) <-> r = IZR z).
Proof. intros f m. exact t_from_i64. Qed.
Print Assumptions C67_from_i64_partial.
Theorem C67_from_f32 : forall (f : fmt) (m : libm f) (x : float F32) (r : R), finite x ->
  (mem r (from_f32 x : FI f) <-> r = B2R x).
Proof. exact from_f_exact. Qed.
Print Assumptions C67_from_f32.
Definition C67_from_f64 (f : fmt) (m : libm f) : Prop :=
  forall x : float F64, finite x -> Rabs (B2R x) < bpow radix2 100 -> mem (B2R x) (from_f64 x : FI f).
Theorem C67_from_f64_f32_refuted : forall m : libm F32, ~ C67_from_f64 F32 m.
Proof. exact from_f64_refuted. Qed.
Print Assumptions C67_from_f64_f32_refuted.
Theorem C67_from_f64_partial : forall (m : libm F64) (x : float F64) (r : R), finite x ->
  (mem r (from_f64 x : FI F64) <-> r = B2R x).
Proof. exact from_f64_exact. Qed.
Print Assumptions C67_from_f64_partial.
(** Going back: the midpoint, rounded to the format of the bounds, then converted. *)
Theorem C67_to_i64_partial : forall (f : fmt) (m : libm f) (a : FI f), bounded a -> ordered a ->
  Rabs (rndf f (B2R (inf a) + B2R (sup a))) < bpow radix2 (emax f) ->
  to_i64 a = Z.max (- 2 ^ 63) (Z.min (2 ^ 63 - 1) (Ztrunc (rndf f ((B2R (inf a) + B2R (sup a)) / 2)))).
Proof. intros f m. exact t_to_i64. Qed.
Print Assumptions C67_to_i64_partial.
Theorem C67_to_f32_partial : forall (f : fmt) (m : libm f) (a : FI f), bounded a -> ordered a ->
  Rabs (rndf f (B2R (inf a) + B2R (sup a))) < bpow radix2 (emax f) ->
  rounds_to (to_f32 a) (rndf f ((B2R (inf a) + B2R (sup a)) / 2)).
Proof. intros f m. exact t_to_f32. Qed.
Print Assumptions C67_to_f32_partial.
Theorem C67_to_f64_partial : forall (f : fmt) (m : libm f) (a : FI f), bounded a -> ordered a ->
  Rabs (rndf f (B2R (inf a) + B2R (sup a))) < bpow radix2 (emax f) ->
  rounds_to (to_f64 a) (rndf f ((B2R (inf a) + B2R (sup a)) / 2)).
Proof. intros f m. exact t_to_f64. Qed.
Print Assumptions C67_to_f64_partial.
(** [f32::from] / [f64::from] an interval *)
Theorem C67_into_partial : forall (f : fmt) (m : libm f) (a : FI f), bounded a -> ordered a ->
  Rabs (rndf f (B2R (inf a) + B2R (sup a))) < bpow radix2 (emax f) ->
  finite (i_into a) /\ B2R (i_into a) = rndf f ((B2R (inf a) + B2R (sup a)) / 2).
Proof. intros f m. exact t_approx_fin. Qed.
Print Assumptions C67_into_partial.
Example C67_case : forall f (m : libm f), bounded (ZI f (-3) 2) /\ ordered (ZI f (-3) 2) /\
  Rabs (rndf f (B2R (inf (ZI f (-3) 2)) + B2R (sup (ZI f (-3) 2)))) < bpow radix2 (emax f) /\
  (Z.abs (-12345) <= 2 ^ prec f)%Z /\ to_i64 (ZI f (-3) 9) = 3%Z.
Proof.
  intros f m. split; [zi|]. split; [zi|]. split; [apply approx_case|]. destruct f; split; vm_compute; solve [reflexivity | discriminate].
Qed.

(** ** C68: the trait's default methods on intervals *)
Theorem C68_is_positive_negative : forall (f : fmt) (m : libm f) (a : FI f), nonempty a ->
  (is_positive a = true <-> forall r, mem r a -> 0 < r) /\ (is_negative a = true <-> forall r, mem r a -> r < 0).
Proof. exact t_pos_neg. Qed.
Print Assumptions C68_is_positive_negative.
Definition C68_is_nonnegative (f : fmt) (m : libm f) : Prop :=
  forall a : FI f, nonempty a -> (is_nonnegative a = true <-> forall r, mem r a -> 0 <= r).
Definition C68_is_nonpositive (f : fmt) (m : libm f) : Prop :=
  forall a : FI f, nonempty a -> (is_nonpositive a = true <-> forall r, mem r a -> r <= 0).
(** False on [0,1] and [-1,0]; the inherent methods of the same name answer true there (C17). *)
Theorem C68_nonstrict_signs_refuted : forall (f : fmt) (m : libm f), ~ C68_is_nonnegative f m /\ ~ C68_is_nonpositive f m.
Proof. exact nonneg_refuted. Qed.
Print Assumptions C68_nonstrict_signs_refuted.
Theorem C68_nonstrict_signs_partial : forall (f : fmt) (m : libm f) (a : FI f), nonempty a ->
  (is_nonnegative a = true <-> (forall r, mem r a -> 0 < r) \/ (forall r, mem r a <-> r = 0)) /\
  (is_nonpositive a = true <-> (forall r, mem r a -> r < 0) \/ (forall r, mem r a <-> r = 0)).
Proof. exact t_nonstrict. Qed.
Print Assumptions C68_nonstrict_signs_partial.
Theorem C68_is_zero_one : forall (f : fmt) (m : libm f) (a : FI f), nonempty a ->
  (is_zero a = true <-> forall r, mem r a <-> r = 0) /\ (is_one a = true <-> forall r, mem r a <-> r = 1).
Proof. exact t_zero_one. Qed.
Print Assumptions C68_is_zero_one.
Definition C68_signum_encloses (f : fmt) (m : libm f) : Prop := forall (a : FI f) r, mem r a ->
  (0 < r -> mem 1 (signum a)) /\ (r < 0 -> mem (-1) (signum a)) /\ (r = 0 -> mem 0 (signum a)).
Theorem C68_signum_encloses_refuted : forall (f : fmt) (m : libm f), ~ C68_signum_encloses f m.
Proof. exact signum_refuted. Qed.
Print Assumptions C68_signum_encloses_refuted.
(** Missing: intervals that contain zero and something else; there the result is the point zero. *)
Theorem C68_signum_encloses_partial : forall (f : fmt) (m : libm f) (a : FI f) r,
  (forall s, mem s a -> 0 < s) \/ (forall s, mem s a -> s < 0) \/ (forall s, mem s a <-> s = 0) -> mem r a ->
  (0 < r -> mem 1 (signum a)) /\ (r < 0 -> mem (-1) (signum a)) /\ (r = 0 -> mem 0 (signum a)).
Proof. intros f m. exact t_signum. Qed.
Print Assumptions C68_signum_encloses_partial.
Definition C68_clamp_encloses (f : fmt) (m : libm f) : Prop := forall (a lo hi : FI f) r l h,
  mem r a -> mem l lo -> mem h hi -> l <= h -> mem (Rmax l (Rmin r h)) (clamp a lo hi).
Theorem C68_clamp_encloses_refuted : forall (f : fmt) (m : libm f), ~ C68_clamp_encloses f m.
Proof. exact clamp_refuted. Qed.
Print Assumptions C68_clamp_encloses_refuted.
(** Missing: limits that are not single points. *)
Theorem C68_clamp_encloses_partial : forall (f : fmt) (m : libm f) (a lo hi : FI f) l h r,
  (forall s, mem s lo <-> s = l) -> (forall s, mem s hi <-> s = h) -> l <= h ->
  mem r a -> mem (Rmax l (Rmin r h)) (clamp a lo hi).
Proof. intros f m. exact t_clamp. Qed.
Print Assumptions C68_clamp_encloses_partial.
Definition C68_min_max_encloses (f : fmt) (m : libm f) : Prop := forall (a b : FI f) r s, mem r a -> mem s b ->
  mem (Rmin r s) (fst (min_max a b)) /\ mem (Rmax r s) (snd (min_max a b)).
Theorem C68_min_max_encloses_refuted : forall (f : fmt) (m : libm f), ~ C68_min_max_encloses f m.
Proof. exact min_max_refuted. Qed.
Print Assumptions C68_min_max_encloses_refuted.
(** Missing: overlapping intervals. *)
Theorem C68_min_max_encloses_partial : forall (f : fmt) (m : libm f) (a b : FI f) r s,
  (forall r s, mem r a -> mem s b -> r < s) \/ (forall r s, mem r a -> mem s b -> s < r) ->
  mem r a -> mem s b -> mem (Rmin r s) (fst (min_max a b)) /\ mem (Rmax r s) (snd (min_max a b)).
Proof. intros f m. exact t_min_max. Qed.
Print Assumptions C68_min_max_encloses_partial.
Definition C68_in_range (f : fmt) (m : libm f) : Prop := forall a lo hi : FI f, nonempty a -> nonempty lo -> nonempty hi ->
  (in_range a lo hi = true <-> forall r l h, mem r a -> mem l lo -> mem h hi -> l <= r <= h).
Theorem C68_in_range_refuted : forall (f : fmt) (m : libm f), ~ C68_in_range f m.
Proof. exact in_range_refuted. Qed.
Print Assumptions C68_in_range_refuted.
(** Missing: the converse (an interval touching a limit is reported out of range). *)
Theorem C68_in_range_partial : forall (f : fmt) (m : libm f) (a lo hi : FI f) r l h,
  in_range a lo hi = true -> mem r a -> mem l lo -> mem h hi -> l <= r <= h.
Proof. intros f m. exact t_in_range. Qed.
Print Assumptions C68_in_range_partial.
Theorem C68_in_range_strict : forall (f : fmt) (m : libm f) (a lo hi : FI f), nonempty a -> nonempty lo -> nonempty hi ->
  (forall r l h, mem r a -> mem l lo -> mem h hi -> l < r < h) -> in_range a lo hi = true.
Proof. exact t_in_range_strict. Qed.
Print Assumptions C68_in_range_strict.
Theorem C68_recip_encloses : forall (f : fmt) (m : libm f) (a : FI f) r, mem r a -> r <> 0 -> mem (1 / r) (recip a).
Proof. intros f m. exact t_recip. Qed.
Print Assumptions C68_recip_encloses.
(** When two bounded intervals are reported approximately equal, all their members are. *)
Theorem C68_fequals_sound : forall (f : fmt) (m : libm f) (a b : FI f) r s, bounded a -> bounded b ->
  fequals a b = true -> mem r a -> mem s b ->
  Rabs (r - s) < B2R (abs_epsilon : float f) \/ Rabs (r - s) < Rmax (Rabs r) (Rabs s) * B2R (rel_epsilon : float f).
Proof. intros f m. exact t_fequals. Qed.
Print Assumptions C68_fequals_sound.
(** [almost_eq] compares bound with bound (C04 says what [fequals] means on floats). *)
Theorem C68_almost_eq : forall (f : fmt) (m : libm f) (a b : FI f),
  almost_eq a b = true <-> fequals (inf a) (inf b) = true /\ fequals (sup a) (sup b) = true.
Proof. intros f m. exact t_almost_eq. Qed.
Print Assumptions C68_almost_eq.
Theorem C68_almost_eq_scalar : forall (f : fmt) (m : libm f) (a : FI f) (t : float f), finite t ->
  (i_almost_eq_s a t = true <-> mem (B2R t) a /\ fequals (inf a) t = true /\ fequals (sup a) t = true).
Proof. intros f m. exact t_almost_eq_s. Qed.
Print Assumptions C68_almost_eq_scalar.
Example C68_case : forall f (m : libm f), nonempty (ZI f 0 1) /\ nonempty (ZI f 2 3) /\
  is_positive (ZI f 2 3) = true /\ (ZI f 0 1 < ZI f 2 3)%S = true /\ fequals (ZI f 2 2) (ZI f 2 2) = true /\
  in_range (ZI f 0 1) (ZI f (-1) (-1)) (ZI f 2 3) = true /\ is_one (ZI f 1 1) = true /\
  almost_eq (ZI f 2 3) (ZI f 2 3) = true /\ i_almost_eq_s (ZI f 2 2) (f_of_Z 2) = true /\ bounded (ZI f 2 3).
Proof.
  intros f m. repeat match goal with |- _ /\ _ => split end; try zi; destruct f; vm_compute; reflexivity.
Qed.

(** ** C69: neighbours and pi bounds of intervals *)
(** next_up / next_down move each bound to the adjacent float. *)
Theorem C69_next_up : forall (f : fmt) (m : libm f) (a : FI f), proper a -> inf a <> finf false -> sup a <> finf false ->
  flt (inf a) (inf (next_up a)) /\ flt (sup a) (sup (next_up a)) /\
  (forall y, flt (inf a) y -> fle (inf (next_up a)) y) /\ (forall y, flt (sup a) y -> fle (sup (next_up a)) y).
Proof. intros f m. exact ci_next_up. Qed.
Print Assumptions C69_next_up.
Theorem C69_next_down : forall (f : fmt) (m : libm f) (a : FI f), proper a -> inf a <> finf true -> sup a <> finf true ->
  flt (inf (next_down a)) (inf a) /\ flt (sup (next_down a)) (sup a) /\
  (forall y, flt y (inf a) -> fle y (inf (next_down a))) /\ (forall y, flt y (sup a) -> fle y (sup (next_down a))).
Proof. intros f m. exact ci_next_down. Qed.
Print Assumptions C69_next_down.
(** Every member of the interval constants pi_lower, ... is a lower bound, of pi_upper, ... an
    upper bound - for f32 too, although the f32 constants themselves fail (C06). *)
Theorem C69_pi_lower : forall (f : fmt) (m : libm f) (r : R),
  (mem r (pi_lower : FI f) -> r <= PI) /\ (mem r (tau_lower : FI f) -> r <= 2 * PI) /\
  (mem r (frac_pi_2_lower : FI f) -> r <= PI / 2) /\ (mem r (frac_pi_4_lower : FI f) -> r <= PI / 4).
Proof. exact pi_lower_iv. Qed.
Print Assumptions C69_pi_lower.
Theorem C69_pi_upper : forall (f : fmt) (m : libm f) (r : R),
  (mem r (pi_upper : FI f) -> PI <= r) /\ (mem r (tau_upper : FI f) -> 2 * PI <= r) /\
  (mem r (frac_pi_2_upper : FI f) -> PI / 2 <= r) /\ (mem r (frac_pi_4_upper : FI f) -> PI / 4 <= r).
Proof. exact pi_upper_iv. Qed.
Print Assumptions C69_pi_upper.
(** They are not empty and not far off: within 2^-20 of the constant. *)
Theorem C69_pi_close : forall (f : fmt) (m : libm f),
  (exists r, mem r (pi_lower : FI f) /\ PI - / 2 ^ 20 < r) /\ (exists r, mem r (pi_upper : FI f) /\ r < PI + / 2 ^ 20) /\
  (exists r, mem r (tau_lower : FI f) /\ 2 * PI - / 2 ^ 20 < r) /\ (exists r, mem r (tau_upper : FI f) /\ r < 2 * PI + / 2 ^ 20) /\
  (exists r, mem r (frac_pi_2_lower : FI f) /\ PI / 2 - / 2 ^ 20 < r) /\ (exists r, mem r (frac_pi_2_upper : FI f) /\ r < PI / 2 + / 2 ^ 20) /\
  (exists r, mem r (frac_pi_4_lower : FI f) /\ PI / 4 - / 2 ^ 20 < r) /\ (exists r, mem r (frac_pi_4_upper : FI f) /\ r < PI / 4 + / 2 ^ 20).
Proof. exact pi_close. Qed.
Print Assumptions C69_pi_close.
Example C69_case : forall f, proper (ZI f (-3) 2) /\ inf (ZI f (-3) 2) <> finf false /\ sup (ZI f (-3) 2) <> finf false /\
  inf (ZI f (-3) 2) <> finf true /\ sup (ZI f (-3) 2) <> finf true.
Proof. intros f. split; [zi|]. destruct f; repeat split; discriminate. Qed.
