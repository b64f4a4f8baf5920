(** * C80: interval sin, cos, atan, asin, acos over f32/f64 are tight; C21: where sin is wrong.

    [unit_roundoff f] is 2^-24 for f32 and 2^-53 for f64. *)
From Coq Require Import ZArith Reals Bool Lra Lia.
From Flocq Require Import Core BinarySingleNaN.
From Verif.Model Require Import FloatBase Scalar Float Interval.
From Verif Require Import Spec SpecGeom SpecTrig.
From Verif.Proofs Require Import PiBounds IntervalRefute IntervalTrig2 PiIrrational TrigTight.
Open Scope R_scope.
Notation FI f := (interval (float f)).

(** ** C80 *)
(** each bound is within five roundings of a value the function takes on the interval *)
Theorem C80_sin_tight : forall (f : fmt) (m : libm f) (a : FI f), good_sin_cos m -> bounded a -> ordered a ->
  bounded (gsin a) /\ exists x y, mem x a /\ mem y a /\
    sin x - 5 * unit_roundoff f <= B2R (inf (gsin a)) /\ B2R (sup (gsin a)) <= sin y + 5 * unit_roundoff f.
Proof. intros f m. exact sin_tight. Qed.
Print Assumptions C80_sin_tight.
Theorem C80_cos_tight : forall (f : fmt) (m : libm f) (a : FI f), good_sin_cos m -> bounded a -> ordered a ->
  bounded (gcos a) /\ exists x y, mem x a /\ mem y a /\
    cos x - 5 * unit_roundoff f <= B2R (inf (gcos a)) /\ B2R (sup (gcos a)) <= cos y + 5 * unit_roundoff f.
Proof. intros f m. exact cos_tight. Qed.
Print Assumptions C80_cos_tight.
(** monotone functions: the bounds are within seven roundings of the values at the ends *)
Theorem C80_atan_tight : forall (f : fmt) (m : libm f) (a : FI f), good_atan m -> bounded a ->
  bounded (gatan a) /\ atan (B2R (inf a)) - 7 * unit_roundoff f <= B2R (inf (gatan a)) /\
  B2R (sup (gatan a)) <= atan (B2R (sup a)) + 7 * unit_roundoff f.
Proof. intros f m. exact atan_tight. Qed.
Print Assumptions C80_atan_tight.
Theorem C80_asin_tight : forall (f : fmt) (m : libm f) (a : FI f), good_asin_acos m -> bounded a -> ordered a ->
  0 <= B2R (inf a) -> B2R (sup a) <= 1 ->
  bounded (gasin a) /\ asin (B2R (inf a)) - 7 * unit_roundoff f <= B2R (inf (gasin a)) /\
  B2R (sup (gasin a)) <= asin (B2R (sup a)) + 7 * unit_roundoff f.
Proof. intros f m. exact asin_tight. Qed.
Print Assumptions C80_asin_tight.
Theorem C80_acos_tight : forall (f : fmt) (m : libm f) (a : FI f), good_asin_acos m -> bounded a -> ordered a ->
  0 <= B2R (inf a) -> B2R (sup a) <= 1 ->
  bounded (gacos a) /\ acos (B2R (sup a)) - 7 * unit_roundoff f <= B2R (inf (gacos a)) /\
  B2R (sup (gacos a)) <= acos (B2R (inf a)) + 7 * unit_roundoff f.
Proof. intros f m. exact acos_tight. Qed.
Print Assumptions C80_acos_tight.
Example C80_case : forall f, bounded (ZI f 0 1) /\ ordered (ZI f 0 1) /\ 
  0 <= B2R (inf (ZI f 0 1)) /\ B2R (sup (ZI f 0 1)) <= 1.
Proof.
  intros f. destruct (ZI_ends (m := exact_libm f) 0 1 ltac:(lia) ltac:(lia)) as (_ & V1 & _ & V2). rewrite V1, V2.
  split; [zi|]. split; [zi|]. repeat split; lra.
Qed.

(** no float is a zero of cos, and 0 is the only one of sin: a slope of 0 at an end is an exact 0 end *)
Theorem C80_no_float_extremum : forall (f : fmt) (x : float f), cos (B2R x) <> 0 /\ (B2R x <> 0 -> sin (B2R x) <> 0).
Proof. intros f x. split; [exact (float_cos_nz f x)|exact (float_sin_nz f x)]. Qed.
Print Assumptions C80_no_float_extremum.

(** ** C21: the intervals left out of [C21_sin_partial] do fail, all but those that end next to an extremum *)
Theorem C21_sin_gap_refuted : forall (f : fmt) (m : libm f) (a : FI f), good_sin_cos m -> bounded a ->
  PI < B2R (sup a) - B2R (inf a) < 2 * PI - 20 * unit_roundoff f -> 0 < cos (B2R (inf a)) * cos (B2R (sup a)) ->
  (Rmin (sin (B2R (inf a))) (sin (B2R (sup a))) > -1 + 5 * unit_roundoff f -> exists x, mem x a /\ sin x = -1 /\ ~ mem (sin x) (gsin a)) /\
  (Rmax (sin (B2R (inf a))) (sin (B2R (sup a))) < 1 - 5 * unit_roundoff f -> exists x, mem x a /\ sin x = 1 /\ ~ mem (sin x) (gsin a)).
Proof. intros f m. exact sin_gap. Qed.
Print Assumptions C21_sin_gap_refuted.
Theorem C21_cos_gap_refuted : forall (f : fmt) (m : libm f) (a : FI f), good_sin_cos m -> bounded a ->
  PI < B2R (sup a) - B2R (inf a) < 2 * PI - 20 * unit_roundoff f -> 0 < sin (B2R (inf a)) * sin (B2R (sup a)) ->
  (Rmin (cos (B2R (inf a))) (cos (B2R (sup a))) > -1 + 5 * unit_roundoff f -> exists x, mem x a /\ cos x = -1 /\ ~ mem (cos x) (gcos a)) /\
  (Rmax (cos (B2R (inf a))) (cos (B2R (sup a))) < 1 - 5 * unit_roundoff f -> exists x, mem x a /\ cos x = 1 /\ ~ mem (cos x) (gcos a)).
Proof. intros f m. exact cos_gap. Qed.
Print Assumptions C21_cos_gap_refuted.
Example C21_gap_case : forall f, bounded (ZI f 1 7) /\ PI < B2R (sup (ZI f 1 7)) - B2R (inf (ZI f 1 7)) < 2 * PI - 20 * unit_roundoff f /\
  0 < cos (B2R (inf (ZI f 1 7))) * cos (B2R (sup (ZI f 1 7))) /\ Rmin (sin (B2R (inf (ZI f 1 7)))) (sin (B2R (sup (ZI f 1 7)))) > -1 + 5 * unit_roundoff f /\
  0 < sin (B2R (inf (ZI f 1 7))) * sin (B2R (sup (ZI f 1 7))) /\ Rmin (cos (B2R (inf (ZI f 1 7)))) (cos (B2R (sup (ZI f 1 7)))) > -1 + 5 * unit_roundoff f.
Proof.
  intros f. destruct (ZI_ends (m := exact_libm f) 1 7 ltac:(lia) ltac:(lia)) as (_ & V1 & _ & V2). destruct signs_1_7_4 as (S1 & C1 & S7 & C7 & _).
  assert (U := DiskFloat.uu (m := exact_libm f)). assert (P := PI_lower_bound). assert (Q := PI_upper_bound). rewrite V1, V2. split; [zi|]. split; [split; lra|].
  split; [nra|]. split; [apply Rmin_case; lra|]. split; [nra|apply Rmin_case; lra].
Qed.
