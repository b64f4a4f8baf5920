(** * Properties C21-C23, C65: interval sin, cos, tan, asin, acos, atan, atan2 over f32 and f64.

    The platform math library [m] is arbitrary; each theorem states the accuracy it needs of it
    ([good_sin_cos], [good_asin_acos], [good_atan] in SpecTrig: results within one ulp, and for
    sin and cos the right sign).  [C21_library_exists] shows a library with all three. *)
From Coq Require Import ZArith Reals Bool Lra Lia.
From Flocq Require Import Core BinarySingleNaN.
From Verif.Model Require Import FloatBase Scalar Float Interval.
From Verif Require Import Spec SpecTrig.
From Verif.Proofs Require Import PiBounds IntervalRefute IntervalTrig IntervalTrig2 IntervalTrig3 ArcExact.
Open Scope R_scope.
Notation FI f := (interval (float f)).

Example C21_library_exists : forall f, good_sin_cos (exact_libm f) /\ good_asin_acos (exact_libm f) /\ good_atan (exact_libm f).
Proof. exact exact_libm_good. Qed.

(** ** C21 *)
Definition C21_sin_encloses (f : fmt) (m : libm f) : Prop :=
  forall (a : FI f) x, bounded a -> ordered a -> mem x a -> mem (sin x) (gsin a).
Definition C21_cos_encloses (f : fmt) (m : libm f) : Prop :=
  forall (a : FI f) x, bounded a -> ordered a -> mem x a -> mem (cos x) (gcos a).
(** Both fail for intervals wider than PI: over [1, 7] the slope has the same sign at both ends,
    and only the two end values are looked at. *)
Theorem C21_sin_cos_refuted : forall (f : fmt) (m : libm f), good_sin_cos m ->
  ~ C21_sin_encloses f m /\ ~ C21_cos_encloses f m.
Proof. intros f m. exact sin_cos_refuted. Qed.
Print Assumptions C21_sin_cos_refuted.
(** Missing: intervals with PI < width < 2 PI whose slopes at the two ends do not have opposite
    signs. *)
Theorem C21_sin_partial : forall (f : fmt) (m : libm f) (a : FI f) x, good_sin_cos m -> bounded a -> mem x a ->
  B2R (sup a) - B2R (inf a) <= PI \/ 2 * PI <= B2R (sup a) - B2R (inf a) \/ cos (B2R (inf a)) * cos (B2R (sup a)) < 0 ->
  mem (sin x) (gsin a) /\ mem (sin x) (fst (gsin_cos a)).
Proof. intros f m a x G B M H. split; exact (sin_incl a x G B M H). Qed.
Print Assumptions C21_sin_partial.
Theorem C21_cos_partial : forall (f : fmt) (m : libm f) (a : FI f) x, good_sin_cos m -> bounded a -> mem x a ->
  B2R (sup a) - B2R (inf a) <= PI \/ 2 * PI <= B2R (sup a) - B2R (inf a) \/ sin (B2R (inf a)) * sin (B2R (sup a)) < 0 ->
  mem (cos x) (gcos a) /\ mem (cos x) (snd (gsin_cos a)).
Proof. intros f m a x G B M H. split; exact (cos_incl a x G B M H). Qed.
Print Assumptions C21_cos_partial.
Example C21_case : forall f, bounded (ZI f (-1) 2) /\ ordered (ZI f (-1) 2) /\ mem (PI / 2) (ZI f (-1) 2) /\
  B2R (sup (ZI f (-1) 2)) - B2R (inf (ZI f (-1) 2)) <= PI.
Proof.
  intros f. assert (L := PI_lower_bound). assert (U := PI_upper_bound). destruct (ZI_ends (m := exact_libm f) (-1) 2 ltac:(lia) ltac:(lia)) as (_ & V1 & _ & V2).
  rewrite V1, V2. split; [zi|]. split; [zi|]. split; [zi|lra].
Qed.

(** ** C65 *)
Definition C65_tan_encloses (f : fmt) (m : libm f) : Prop :=
  forall (a : FI f) x, bounded a -> ordered a -> mem x a -> cos x <> 0 -> mem (tan x) (gtan a).
(** Fails where sin and cos do, e.g. over [1, 7]. *)
Theorem C65_tan_refuted : forall (f : fmt) (m : libm f), good_sin_cos m -> ~ C65_tan_encloses f m.
Proof. exact tan_refuted. Qed.
Print Assumptions C65_tan_refuted.
(** Missing: widths strictly between PI and 2 PI. *)
Theorem C65_tan_partial : forall (f : fmt) (m : libm f) (a : FI f) x, good_sin_cos m -> bounded a -> mem x a -> cos x <> 0 ->
  B2R (sup a) - B2R (inf a) <= PI \/ 2 * PI <= B2R (sup a) - B2R (inf a) -> mem (tan x) (gtan a).
Proof. intros f m. exact tan_incl. Qed.
Print Assumptions C65_tan_partial.
Example C65_case : forall f, bounded (ZI f 1 2) /\ ordered (ZI f 1 2) /\ mem 1 (ZI f 1 2) /\ cos 1 <> 0 /\
  B2R (sup (ZI f 1 2)) - B2R (inf (ZI f 1 2)) <= PI.
Proof.
  intros f. assert (L := PI_lower_bound). assert (U := PI_upper_bound). destruct (ZI_ends (m := exact_libm f) 1 2 ltac:(lia) ltac:(lia)) as (_ & V1 & _ & V2).
  rewrite V1, V2. split; [zi|]. split; [zi|]. split; [zi|]. split; [|lra]. apply Rgt_not_eq. apply cos_gt_0; lra.
Qed.

(** ** C22 *)
(** atan: every interval, bounded or not. *)
Theorem C22_atan_encloses : forall (f : fmt) (m : libm f) (a : FI f) x, good_atan m -> mem x a -> mem (atan x) (gatan a).
Proof. intros f m. exact at_incl. Qed.
Print Assumptions C22_atan_encloses.
Definition C22_asin_encloses (f : fmt) (m : libm f) : Prop :=
  forall (a : FI f) x, bounded a -> -1 <= B2R (inf a) -> B2R (sup a) <= 1 -> mem x a -> mem (asin x) (gasin a).
Definition C22_acos_encloses (f : fmt) (m : libm f) : Prop :=
  forall (a : FI f) x, bounded a -> -1 <= B2R (inf a) -> B2R (sup a) <= 1 -> mem x a -> mem (acos x) (gacos a).
(** Both cut their result to [0, PI/2], which is wrong for negative arguments. *)
Theorem C22_asin_acos_refuted : forall (f : fmt) (m : libm f), good_asin_acos m ->
  ~ C22_asin_encloses f m /\ ~ C22_acos_encloses f m.
Proof. intros f m. exact asin_acos_refuted. Qed.
Print Assumptions C22_asin_acos_refuted.
(** In f32 the upper end of the cut is below PI/2, so asin 1 and acos 0 are lost too. *)
Theorem C22_f32_refuted : forall m : libm F32, good_asin_acos m ->
  ~ mem (asin 1) (gasin (ZI F32 1 1)) /\ ~ mem (acos 0) (gacos (ZI F32 0 0)).
Proof. exact f32_quarter_refuted. Qed.
Print Assumptions C22_f32_refuted.
(** Missing: x < 0, and in f32 values above the f32 [frac_pi_2_upper]. *)
Theorem C22_asin_partial : forall (f : fmt) (m : libm f) (a : FI f) x, good_asin_acos m ->
  bounded a -> -1 <= B2R (inf a) -> B2R (sup a) <= 1 -> mem x a -> 0 <= x ->
  (f = F64 \/ asin x <= B2R (frac_pi_2_upper : float f)) -> mem (asin x) (gasin a).
Proof. intros f m. exact asin_incl. Qed.
Print Assumptions C22_asin_partial.
Theorem C22_acos_partial : forall (f : fmt) (m : libm f) (a : FI f) x, good_asin_acos m ->
  bounded a -> -1 <= B2R (inf a) -> B2R (sup a) <= 1 -> mem x a -> 0 <= x ->
  (f = F64 \/ acos x <= B2R (frac_pi_2_upper : float f)) -> mem (acos x) (gacos a).
Proof. intros f m. exact acos_incl. Qed.
Print Assumptions C22_acos_partial.
(** exactly which values are enclosed: the cut to [0, frac_pi_2_upper] is the only defect *)
Theorem C22_asin_exact : forall (f : fmt) (m : libm f) (a : FI f) x, good_asin_acos m ->
  bounded a -> -1 <= B2R (inf a) -> B2R (sup a) <= 1 -> mem x a ->
  (mem (asin x) (gasin a) <-> 0 <= x /\ asin x <= B2R (frac_pi_2_upper : float f)).
Proof. intros f m. exact asin_exact. Qed.
Print Assumptions C22_asin_exact.
Theorem C22_acos_exact : forall (f : fmt) (m : libm f) (a : FI f) x, good_asin_acos m ->
  bounded a -> -1 <= B2R (inf a) -> B2R (sup a) <= 1 -> mem x a ->
  (mem (acos x) (gacos a) <-> acos x <= B2R (frac_pi_2_upper : float f)).
Proof. intros f m. exact acos_exact. Qed.
Print Assumptions C22_acos_exact.
Example C22_case : forall f, bounded (ZI f (-1) 1) /\ -1 <= B2R (inf (ZI f (-1) 1)) /\ B2R (sup (ZI f (-1) 1)) <= 1 /\ mem (1 / 3) (ZI f (-1) 1) /\
  mem 1000000 (mkI (fzero false) (finf false) : FI f).
Proof.
  intros f. destruct (ZI_ends (m := exact_libm f) (-1) 1 ltac:(lia) ltac:(lia)) as (_ & V1 & _ & V2). rewrite V1, V2.
  split; [zi|]. split; [lra|]. split; [lra|]. split; [zi|]. split; cbn; [lra|reflexivity].
Qed.

(** ** C23 *)
Definition C23_atan2_encloses (f : fmt) (m : libm f) : Prop :=
  forall (y x : FI f) r s t, bounded y -> bounded x -> mem r y -> mem s x -> angle2 r s t -> mem t (gatan2 y x).
(** The recursion of atan2 always ends: depth two is enough and deeper changes nothing. *)
Theorem C23_atan2_terminates : forall (f : fmt) (m : libm f) (y x : FI f) n,
  i_atan2_fuel (2 + n) y x = Some (gatan2 y x).
Proof. intros f m. exact i_atan2_terminates. Qed.
Print Assumptions C23_atan2_terminates.
(** Fails on the axes: whenever one argument is exactly zero the result is [0, 0]. *)
Theorem C23_atan2_refuted : forall (f : fmt) (m : libm f), ~ C23_atan2_encloses f m.
Proof. exact atan2_claim_refuted. Qed.
Print Assumptions C23_atan2_refuted.
Theorem C23_axes_refuted : forall (f : fmt) (m : libm f),
  ~ mem (PI / 2) (gatan2 (ZI f 1 1) (ZI f 0 0)) /\ ~ mem PI (gatan2 (ZI f 0 0) (ZI f (-1) (-1))).
Proof. exact atan2_refuted. Qed.
Print Assumptions C23_axes_refuted.
(** In f32 the angles PI/2 and PI are cut off even for proper intervals. *)
Theorem C23_f32_refuted : forall m : libm F32, good_atan m ->
  ~ mem (PI / 2) (gatan2 (ZI F32 1 1) (ZI F32 0 1)) /\ ~ mem PI (gatan2 (ZI F32 0 1) (ZI F32 (-1) (-1))).
Proof. exact atan2_f32_refuted. Qed.
Print Assumptions C23_f32_refuted.
(** Missing: an argument that is exactly zero; in f32, angles beyond the f32 upper constants. *)
Theorem C23_atan2_partial : forall (f : fmt) (m : libm f) (y x : FI f) r s t, good_atan m ->
  mem r y -> mem s x -> ~ just_zero x -> ~ just_zero y -> angle2 r s t ->
  (f = F64 \/ (Rabs t <= B2R (pi_upper : float f) /\ (s < 0 \/ Rabs t <= B2R (frac_pi_2_upper : float f)))) ->
  mem t (gatan2 y x).
Proof. exact atan2_final. Qed.
Print Assumptions C23_atan2_partial.
Example C23_case : forall f, mem 1 (ZI f (-1) 1) /\ mem (-1) (ZI f (-1) 1) /\ ~ just_zero (ZI f (-1) 1) /\ angle2 1 (-1) (3 * (PI / 4)).
Proof.
  intros f. assert (P := PI_RGT_0). split; [zi|]. split; [zi|]. split; [intros J; assert (K := proj1 (J 1) ltac:(zi)); lra|].
  split; [lra|]. exists (sqrt 2). assert (S := Rlt_sqrt2_0). rewrite cos_3PI4, sin_3PI4. split; [exact S|]. split; field; lra.
Qed.
