(** * Properties C70-C72: the elementary functions build valid intervals; interval arithmetic is
    inclusion isotonic; symmetry laws. *)
From Coq Require Import ZArith Reals Bool Lra Lia.
From Flocq Require Import Core BinarySingleNaN.
From Verif.Model Require Import FloatBase Scalar Float Interval.
From Verif Require Import Spec SpecTrig.
From Verif.Proofs Require Import PiBounds IntervalProofs IntervalRefute IntervalTrig2 IntervalTrigOrder IntervalIso IntervalTraits.
Open Scope R_scope.
Notation FI f := (interval (float f)).

(** ** C70 *)
Theorem C70_sin_cos_tan_ordered : forall (f : fmt) (m : libm f) (a : FI f), good_sin_cos m -> bounded a ->
  ordered (gsin a) /\ ordered (gcos a) /\ ordered (gtan a).
Proof. intros f m. exact sin_cos_tan_ordered. Qed.
Print Assumptions C70_sin_cos_tan_ordered.
Theorem C70_atan_ordered : forall (f : fmt) (m : libm f) (a : FI f), good_atan m -> nonempty a -> ordered (gatan a).
Proof. intros f m. exact atan_ordered. Qed.
Print Assumptions C70_atan_ordered.
Theorem C70_atan2_ordered : forall (f : fmt) (m : libm f) (y x : FI f), good_atan m -> nonempty y -> nonempty x -> ordered (gatan2 y x).
Proof. intros f m. exact atan2_ordered. Qed.
Print Assumptions C70_atan2_ordered.
Definition C70_asin_acos_ordered (f : fmt) (m : libm f) : Prop := forall a : FI f,
  bounded a -> ordered a -> -1 <= B2R (inf a) -> B2R (sup a) <= 1 -> ordered (gasin a) /\ ordered (gacos a).
(** Below zero the cut to [0, PI/2] leaves nothing and the bounds come out crossed. *)
Theorem C70_asin_acos_refuted : forall (f : fmt) (m : libm f), good_asin_acos m -> ~ C70_asin_acos_ordered f m.
Proof. exact asin_acos_order_refuted. Qed.
Print Assumptions C70_asin_acos_refuted.
(** Missing: intervals below zero. *)
Theorem C70_asin_acos_partial : forall (f : fmt) (m : libm f) (a : FI f), good_asin_acos m ->
  bounded a -> ordered a -> -1 <= B2R (inf a) -> 0 <= B2R (sup a) <= 1 -> ordered (gasin a) /\ ordered (gacos a).
Proof. intros f m. exact asin_ordered. Qed.
Print Assumptions C70_asin_acos_partial.
(** Whatever the width, the values at the two ends are always enclosed, and sin and cos are never
    more than two floats outside [-1, 1]. *)
Theorem C70_values_at_ends : forall (f : fmt) (m : libm f) (a : FI f), good_sin_cos m -> bounded a ->
  (mem (sin (B2R (inf a))) (gsin a) /\ mem (sin (B2R (sup a))) (gsin a)) /\
  (mem (cos (B2R (inf a))) (gcos a) /\ mem (cos (B2R (sup a))) (gcos a)) /\
  (cos (B2R (inf a)) <> 0 -> mem (tan (B2R (inf a))) (gtan a)) /\ (cos (B2R (sup a)) <> 0 -> mem (tan (B2R (sup a))) (gtan a)).
Proof. intros f m a G B. exact (conj (sin_ends a G B) (conj (cos_ends a G B) (tan_ends a G B))). Qed.
Print Assumptions C70_values_at_ends.
Theorem C70_sin_cos_range : forall (f : fmt) (m : libm f) (a : FI f), good_sin_cos m -> bounded a ->
  (fle (next_down (next_down (- sone)))%S (inf (gsin a)) /\ fle (sup (gsin a)) (next_up (next_up sone))) /\
  (fle (next_down (next_down (- sone)))%S (inf (gcos a)) /\ fle (sup (gcos a)) (next_up (next_up sone))).
Proof. intros f m. exact sin_cos_range. Qed.
Print Assumptions C70_sin_cos_range.
(** [sin_cos] is the pair of [sin] and [cos], for floats and for intervals. *)
Theorem C70_sin_cos_pair : forall (f : fmt) (m : libm f) (x : float f) (a : FI f),
  gsin_cos x = (gsin x, gcos x) /\ gsin_cos a = (gsin a, gcos a).
Proof. intros f m x a. exact (conj eq_refl eq_refl). Qed.
Print Assumptions C70_sin_cos_pair.
Example C70_case : forall f, good_sin_cos (exact_libm f) /\ good_asin_acos (exact_libm f) /\ good_atan (exact_libm f) /\
  bounded (ZI f (-1) 1) /\ ordered (ZI f (-1) 1) /\ nonempty (ZI f (-1) 1) /\ -1 <= B2R (inf (ZI f (-1) 1)) /\ 0 <= B2R (sup (ZI f (-1) 1)) <= 1.
Proof.
  intros f. destruct (exact_libm_good f) as (G1 & G2 & G3). destruct (ZI_ends (m := exact_libm f) (-1) 1 ltac:(lia) ltac:(lia)) as (_ & V1 & _ & V2). rewrite V1, V2.
  repeat (split; [assumption || zi|]). lra.
Qed.

(** ** C71 *)
Theorem C71_add_sub_div : forall (f : fmt) (m : libm f) (a b c d : FI f),
  bounded a -> ordered a -> bounded b -> ordered b -> bounded c -> ordered c -> bounded d -> ordered d -> within a c -> within b d ->
  within (a + b)%S (c + d)%S /\ within (a - b)%S (c - d)%S /\ within (a / b)%S (c / d)%S.
Proof.
  intros f m a b c d Ba Oa Bb Ob Bc Oc Bd Od AC BD.
  exact (conj (add_iso a b c d Ba Oa Bb Ob Bc Oc Bd Od AC BD) (conj (sub_iso a b c d Ba Oa Bb Ob Bc Oc Bd Od AC BD) (div_iso a b c d Ba Oa Bb Ob Bc Oc Bd Od AC BD))).
Qed.
Print Assumptions C71_add_sub_div.
Theorem C71_exact_operations : forall (f : fmt) (m : libm f) (a b c d : FI f), nonempty a -> nonempty b -> within a c -> within b d ->
  within (- a)%S (- c)%S /\ within (sabs a) (sabs c) /\ within (smin a b) (smin c d) /\ within (smax a b) (smax c d) /\
  within (i_union a b) (i_union c d) /\ within (i_intersect a b) (i_intersect c d).
Proof. intros f m. exact exact_ops_iso. Qed.
Print Assumptions C71_exact_operations.
Theorem C71_sqrt : forall (f : fmt) (m : libm f) (a c : FI f), bounded a -> ordered a -> bounded c -> ordered c -> within a c ->
  0 <= B2R (inf c) -> within (i_sqrt a) (i_sqrt c).
Proof. intros f m. exact sqrt_iso. Qed.
Print Assumptions C71_sqrt.
Definition C71_mul (f : fmt) (m : libm f) : Prop := forall a b c d : FI f,
  bounded a -> ordered a -> bounded b -> ordered b -> bounded c -> ordered c -> bounded d -> ordered d -> within a c -> within b d ->
  within (a * b)%S (c * d)%S.
(** The product of two straddling intervals is too small, so it can fail to contain the product of
    parts of them: [-1,-1] * [-3,-3] against [-1,2] * [-3,1]. *)
Theorem C71_mul_refuted : forall (f : fmt) (m : libm f), ~ C71_mul f m.
Proof. exact mul_iso_refuted. Qed.
Print Assumptions C71_mul_refuted.
(** Missing: both outer factors straddle zero. *)
Theorem C71_mul_partial : forall (f : fmt) (m : libm f) (a b c d : FI f),
  bounded a -> ordered a -> bounded b -> ordered b -> bounded c -> ordered c -> bounded d -> ordered d -> within a c -> within b d ->
  ~ (straddles c /\ straddles d) -> within (a * b)%S (c * d)%S.
Proof. intros f m. exact mul_iso. Qed.
Print Assumptions C71_mul_partial.
Definition C71_square (f : fmt) (m : libm f) : Prop := forall a c : FI f,
  bounded a -> ordered a -> bounded c -> ordered c -> within a c -> within (ssquare a) (ssquare c).
(** The square of [0,1] has a negative lower bound, the square of [-1,1] has not. *)
Theorem C71_square_refuted : forall (f : fmt) (m : libm f), ~ C71_square f m.
Proof. exact square_iso_refuted. Qed.
Print Assumptions C71_square_refuted.
(** Missing: the outer interval straddles zero. *)
Theorem C71_square_partial : forall (f : fmt) (m : libm f) (a c : FI f),
  bounded a -> ordered a -> bounded c -> ordered c -> within a c -> ~ straddles c -> within (ssquare a) (ssquare c).
Proof. intros f m. exact square_iso. Qed.
Print Assumptions C71_square_partial.
Example C71_case : forall f, bounded (ZI f (-1) 2) /\ ordered (ZI f (-1) 2) /\ bounded (ZI f (-2) 3) /\ ordered (ZI f (-2) 3) /\ within (ZI f (-1) 2) (ZI f (-2) 3) /\
  bounded (ZI f 1 2) /\ within (ZI f 1 2) (ZI f 1 2) /\ ~ straddles (ZI f 1 2) /\ 0 <= B2R (inf (ZI f 1 2)) /\ nonempty (ZI f (-1) 2).
Proof.
  intros f. destruct (ZI_ends (m := exact_libm f) 1 2 ltac:(lia) ltac:(lia)) as (F1 & V1 & _ & V2).
  repeat (split; [zi|]). split; [intros r M; apply ZI_mem in M; try lia; apply ZI_mem; try lia; lra|]. split; [zi|]. split; [intros r M; exact M|]. split; [|split; [rewrite V1; lra|zi]].
  intros S. destruct S as [S _]. apply FloatLemmas.flt_E in S as (_ & _ & S). rewrite (FloatLemmas.E_B2R _ F1), V1 in S. change (BitsLemmas.E (fzero false : float f)) with 0 in S. lra.
Qed.

(** ** C72 *)
Theorem C72_add_comm : forall (f : fmt) (m : libm f) (a b : FI f), bounded a -> ordered a -> bounded b -> ordered b -> same_bounds (a + b)%S (b + a)%S.
Proof. intros f m. exact add_comm. Qed.
Print Assumptions C72_add_comm.
Definition C72_mul_comm (f : fmt) (m : libm f) : Prop := forall a b : FI f,
  bounded a -> ordered a -> bounded b -> ordered b -> same_bounds (a * b)%S (b * a)%S.
(** [-1,2] * [-3,1] and [-3,1] * [-1,2] differ. *)
Theorem C72_mul_comm_refuted : forall (f : fmt) (m : libm f), ~ C72_mul_comm f m.
Proof. exact mul_comm_refuted. Qed.
Print Assumptions C72_mul_comm_refuted.
(** Missing: both factors straddle zero. *)
Theorem C72_mul_comm_partial : forall (f : fmt) (m : libm f) (a b : FI f), bounded a -> ordered a -> bounded b -> ordered b ->
  ~ (straddles a /\ straddles b) -> same_bounds (a * b)%S (b * a)%S.
Proof. intros f m. exact mul_comm. Qed.
Print Assumptions C72_mul_comm_partial.
Theorem C72_min_max_set_ops_comm : forall (f : fmt) (m : libm f) (a b : FI f), proper a -> proper b ->
  same_bounds (smin a b) (smin b a) /\ same_bounds (smax a b) (smax b a) /\
  same_bounds (i_union a b) (i_union b a) /\ same_bounds (i_intersect a b) (i_intersect b a).
Proof. intros f m. exact minmax_comm. Qed.
Print Assumptions C72_min_max_set_ops_comm.
Theorem C72_sub_is_add_neg : forall (f : fmt) (m : libm f) (a b : FI f), bounded a -> ordered a -> bounded b -> ordered b ->
  same_bounds (a - b)%S (a + - b)%S.
Proof. intros f m. exact sub_add_neg. Qed.
Print Assumptions C72_sub_is_add_neg.
(** A scalar operand behaves as the one-point interval. *)
Theorem C72_scalar_is_point : forall (f : fmt) (m : libm f) (a : FI f) (t : float f), bounded a -> ordered a -> finite t ->
  same_bounds (i_add_s a t) (a + i_from t)%S /\ same_bounds (i_sub_s a t) (a - i_from t)%S /\
  same_bounds (i_mul_s a t) (a * i_from t)%S /\ same_bounds (i_div_s a t) (a / i_from t)%S.
Proof. intros f m. exact scalar_point. Qed.
Print Assumptions C72_scalar_is_point.
Example C72_case : forall f, bounded (ZI f (-1) 2) /\ ordered (ZI f (-1) 2) /\ bounded (ZI f 3 4) /\ ordered (ZI f 3 4) /\ finite (f_of_Z (-7) : float f) /\
  proper (ZI f (-1) 2) /\ ~ straddles (ZI f 3 4).
Proof.
  intros f. destruct (ZI_ends (m := exact_libm f) 3 4 ltac:(lia) ltac:(lia)) as (F1 & V1 & _ & V2).
  repeat (split; [zi|]). split; [destruct f; reflexivity|]. split; [zi|].
  intros S. destruct S as [S _]. apply FloatLemmas.flt_E in S as (_ & _ & S). rewrite (FloatLemmas.E_B2R _ F1), V1 in S. change (BitsLemmas.E (fzero false : float f)) with 0 in S. lra.
Qed.
