(** * Properties C09-C20, C24, C25: interval arithmetic over f32 and f64.

    [mem r a]: the real [r] lies between the bounds of [a] (a bound may be infinite, never
    NaN). [near_lower]/[near_upper]: at most one float away from the best float bound.
    [image1]/[image2]: the set of exact results. *)
From Coq Require Import ZArith Reals Bool Lra Lia.
From Flocq Require Import Core BinarySingleNaN.
From Verif.Model Require Import FloatBase Scalar Float Interval.
From Verif Require Import Spec SpecExpr.
From Verif.Proofs Require Import ScalarProofs IntervalProofs IntervalProofs2 IntervalRefute MulStraddle.
From Verif.Proofs Require Import ExactCond.
Open Scope R_scope.
Notation FI f := (interval (float f)).

(** ** C09 *)
Theorem C09_add_encloses : forall (f : fmt) (m : libm f) (a b : FI f) (r s : R),
  mem r a -> mem s b -> mem (r + s) (a + b)%S.
Proof. intros f m. exact add_incl. Qed.
Print Assumptions C09_add_encloses.
Theorem C09_sub_encloses : forall (f : fmt) (m : libm f) (a b : FI f) (r s : R),
  mem r a -> mem s b -> mem (r - s) (a - b)%S.
Proof. intros f m. exact sub_incl. Qed.
Print Assumptions C09_sub_encloses.
Theorem C09_add_tight : forall (f : fmt) (m : libm f) (a b : FI f),
  bounded a -> bounded b -> ordered a -> ordered b ->
  near_lower (inf (a + b)%S) (image2 Rplus (fun r => mem r a) (fun s => mem s b)) /\
  near_upper (sup (a + b)%S) (image2 Rplus (fun r => mem r a) (fun s => mem s b)).
Proof. intros f m. exact add_near. Qed.
Print Assumptions C09_add_tight.
Theorem C09_sub_tight : forall (f : fmt) (m : libm f) (a b : FI f),
  bounded a -> bounded b -> ordered a -> ordered b ->
  near_lower (inf (a - b)%S) (image2 Rminus (fun r => mem r a) (fun s => mem s b)) /\
  near_upper (sup (a - b)%S) (image2 Rminus (fun r => mem r a) (fun s => mem s b)).
Proof. intros f m. exact sub_near. Qed.
Print Assumptions C09_sub_tight.
Example C09_case : forall f, bounded (ZI f (-1) 2) /\ bounded (ZI f 3 7) /\ ordered (ZI f (-1) 2) /\ ordered (ZI f 3 7) /\
  mem (1 / 3) (ZI f (-1) 2) /\ mem (31 / 7) (ZI f 3 7) /\ mem 5 (mkI (finf true) (finf false) : FI f).
Proof. intros f. repeat match goal with |- _ /\ _ => split end; try zi; split; reflexivity. Qed.

(** ** C10 *)
(** The full property, for finite intervals. *)
Definition C10_mul_encloses (f : fmt) (m : libm f) : Prop :=
  forall (a b : FI f) r s, bounded a -> bounded b -> mem r a -> mem s b -> mem (r * s) (a * b)%S.
(** It fails when zero is strictly inside both operands: the upper bound is taken from
    inf(a)*inf(a) and sup(b)*sup(b) instead of inf(a)*inf(b) and sup(a)*sup(b). *)
Theorem C10_mul_encloses_refuted : forall (f : fmt) (m : libm f), ~ C10_mul_encloses f m.
Proof. exact mul_refuted. Qed.
Print Assumptions C10_mul_encloses_refuted.
(** Missing: both operands straddling zero.  All other sign combinations are proved. *)
Theorem C10_mul_encloses_partial : forall (f : fmt) (m : libm f) (a b : FI f) r s,
  bounded a -> bounded b -> mem r a -> mem s b -> ~ (straddles a /\ straddles b) -> mem (r * s) (a * b)%S.
Proof. intros f m. exact mul_incl_bounded. Qed.
Print Assumptions C10_mul_encloses_partial.
(** Infinite endpoints too, as long as no bound of the result is NaN ... *)
Theorem C10_mul_encloses_unbounded_partial : forall (f : fmt) (m : libm f) (a b : FI f) r s,
  mem r a -> mem s b -> ~ (straddles a /\ straddles b) -> proper (a * b)%S -> mem (r * s) (a * b)%S.
Proof. intros f m. exact mul_incl. Qed.
Print Assumptions C10_mul_encloses_unbounded_partial.
(** ... which does happen (0 * inf). *)
Theorem C10_mul_unbounded_refuted : forall (f : fmt) (m : libm f), ~ (forall (a b : FI f) r s,
  mem r a -> mem s b -> ~ (straddles a /\ straddles b) -> mem (r * s) (a * b)%S).
Proof. exact mul_inf_refuted. Qed.
Print Assumptions C10_mul_unbounded_refuted.
Theorem C10_mul_tight_partial : forall (f : fmt) (m : libm f) (a b : FI f),
  bounded a -> bounded b -> ordered a -> ordered b -> ~ (straddles a /\ straddles b) ->
  near_lower (inf (a * b)%S) (image2 Rmult (fun r => mem r a) (fun s => mem s b)) /\
  near_upper (sup (a * b)%S) (image2 Rmult (fun r => mem r a) (fun s => mem s b)).
Proof. intros f m. exact mul_near. Qed.
Print Assumptions C10_mul_tight_partial.
(** The remaining case, both operands straddling zero: the lower bound is right, the upper bound is the one for
    inf(a)^2 and sup(b)^2, and the product encloses exactly when that bound happens to be large enough ... *)
Theorem C10_straddle_lower : forall (f : fmt) (m : libm f) (a b : FI f) r s,
  bounded a -> bounded b -> straddles a -> straddles b -> mem r a -> mem s b -> below (inf (a * b)%S) (r * s).
Proof. intros f m. exact straddle_lower. Qed.
Print Assumptions C10_straddle_lower.
Theorem C10_straddle_upper : forall (f : fmt) (m : libm f) (a b : FI f), bounded a -> bounded b -> straddles a -> straddles b ->
  near_upper (sup (a * b)%S) (fun t => t = B2R (inf a) * B2R (inf a) \/ t = B2R (sup b) * B2R (sup b)) /\
  above (sup (a * b)%S) (B2R (inf a) * B2R (inf a)) /\ above (sup (a * b)%S) (B2R (sup b) * B2R (sup b)).
Proof. intros f m. exact straddle_upper. Qed.
Print Assumptions C10_straddle_upper.
Theorem C10_straddle_iff : forall (f : fmt) (m : libm f) (a b : FI f), bounded a -> bounded b -> straddles a -> straddles b ->
  ((forall r s, mem r a -> mem s b -> mem (r * s) (a * b)%S) <->
   above (sup (a * b)%S) (B2R (inf a) * B2R (inf b)) /\ above (sup (a * b)%S) (B2R (sup a) * B2R (sup b))).
Proof. intros f m. exact straddle_iff. Qed.
Print Assumptions C10_straddle_iff.
(** ... in particular when max(inf(a)^2, sup(b)^2) is at least the largest product *)
Theorem C10_straddle_partial : forall (f : fmt) (m : libm f) (a b : FI f) r s,
  bounded a -> bounded b -> straddles a -> straddles b -> mem r a -> mem s b ->
  Rmax (B2R (inf a) * B2R (inf b)) (B2R (sup a) * B2R (sup b)) <= Rmax (B2R (inf a) * B2R (inf a)) (B2R (sup b) * B2R (sup b)) ->
  mem (r * s) (a * b)%S.
Proof. intros f m. exact straddle_incl. Qed.
Print Assumptions C10_straddle_partial.
Example C10_case_straddle : forall f, bounded (ZI f (-3) 1) /\ bounded (ZI f (-1) 2) /\ straddles (ZI f (-3) 1) /\ straddles (ZI f (-1) 2) /\
  Rmax (B2R (inf (ZI f (-3) 1)) * B2R (inf (ZI f (-1) 2))) (B2R (sup (ZI f (-3) 1)) * B2R (sup (ZI f (-1) 2))) <=
  Rmax (B2R (inf (ZI f (-3) 1)) * B2R (inf (ZI f (-3) 1))) (B2R (sup (ZI f (-1) 2)) * B2R (sup (ZI f (-1) 2))).
Proof.
  intros f. assert (P : (1000 <= 2 ^ prec f)%Z) by (destruct f; vm_compute; discriminate).
  assert (V1 := proj2 (f_of_Z_exact (f := f) (-3) ltac:(lia))). assert (V2 := proj2 (f_of_Z_exact (f := f) 1 ltac:(lia))).
  assert (V3 := proj2 (f_of_Z_exact (f := f) (-1) ltac:(lia))). assert (V4 := proj2 (f_of_Z_exact (f := f) 2 ltac:(lia))). cbn [inf sup ZI]. rewrite V1, V2, V3, V4.
  split; [zi|]. split; [zi|]. split; [rewrite straddles_ZI; lia|]. split; [rewrite straddles_ZI; lia|]. unfold Rmax. destruct (Rle_dec _ _), (Rle_dec _ _); lra.
Qed.
Example C10_case : forall f, bounded (ZI f (-1) 2) /\ bounded (ZI f 3 7) /\ ~ straddles (ZI f 3 7) /\ straddles (ZI f (-1) 2) /\
  mem (1 / 3) (ZI f (-1) 2) /\ mem (31 / 7) (ZI f 3 7).
Proof.
  intros f. repeat match goal with |- _ /\ _ => split end; try zi.
  - rewrite straddles_ZI; lia.
  - rewrite straddles_ZI; lia.
Qed.

(** ** C11 *)
Theorem C11_div_encloses : forall (f : fmt) (m : libm f) (a b : FI f) r s,
  mem r a -> mem s b -> s <> 0 -> mem (r / s) (a / b)%S.
Proof. intros f m. exact div_incl. Qed.
Print Assumptions C11_div_encloses.
Theorem C11_div_zero_whole : forall (f : fmt) (m : libm f) (a b : FI f),
  mem 0 b -> (a / b)%S = mkI (finf true) (finf false).
Proof. intros f m. exact div_zero_whole. Qed.
Print Assumptions C11_div_zero_whole.
Theorem C11_div_tight : forall (f : fmt) (m : libm f) (a b : FI f),
  bounded a -> bounded b -> ordered a -> ordered b -> ~ mem 0 b ->
  near_lower (inf (a / b)%S) (image2 Rdiv (fun r => mem r a) (fun s => mem s b)) /\
  near_upper (sup (a / b)%S) (image2 Rdiv (fun r => mem r a) (fun s => mem s b)).
Proof. intros f m. exact div_near. Qed.
Print Assumptions C11_div_tight.
Example C11_case : forall f, bounded (ZI f (-1) 2) /\ bounded (ZI f (-7) (-3)) /\ ordered (ZI f (-1) 2) /\
  ordered (ZI f (-7) (-3)) /\ ~ mem 0 (ZI f (-7) (-3)) /\ mem 0 (ZI f (-1) 2) /\ mem (-5) (ZI f (-7) (-3)).
Proof.
  intros f. repeat match goal with |- _ /\ _ => split end; try zi.
  intros H. apply (ZI_facts f (-7) (-3)) in H; try lia. lra.
Qed.

(** ** C12 *)
Theorem C12_add_scalar_encloses : forall (f : fmt) (m : libm f) (a : FI f) (c : float f) r,
  mem r a -> finite c -> mem (r + B2R c) (i_add_s a c).
Proof. intros f m. exact add_s_incl. Qed.
Print Assumptions C12_add_scalar_encloses.
Theorem C12_sub_scalar_encloses : forall (f : fmt) (m : libm f) (a : FI f) (c : float f) r,
  mem r a -> finite c -> mem (r - B2R c) (i_sub_s a c).
Proof. intros f m. exact sub_s_incl. Qed.
Print Assumptions C12_sub_scalar_encloses.
Theorem C12_mul_scalar_encloses : forall (f : fmt) (m : libm f) (a : FI f) (c : float f) r,
  bounded a -> mem r a -> finite c -> mem (r * B2R c) (i_mul_s a c).
Proof. intros f m a c r Ba Ma Fc. exact (mul_s_incl a c r Ma Fc (mul_s_proper a c Ba Fc)). Qed.
Print Assumptions C12_mul_scalar_encloses.
Theorem C12_mul_scalar_encloses_unbounded : forall (f : fmt) (m : libm f) (a : FI f) (c : float f) r,
  mem r a -> finite c -> proper (i_mul_s a c) -> mem (r * B2R c) (i_mul_s a c).
Proof. intros f m. exact mul_s_incl. Qed.
Print Assumptions C12_mul_scalar_encloses_unbounded.
Theorem C12_div_scalar_encloses : forall (f : fmt) (m : libm f) (a : FI f) (c : float f) r,
  mem r a -> finite c -> B2R c <> 0 -> mem (r / B2R c) (i_div_s a c).
Proof. intros f m. exact div_s_incl. Qed.
Print Assumptions C12_div_scalar_encloses.
Theorem C12_div_scalar_zero : forall (f : fmt) (m : libm f) (a : FI f) (c : float f),
  B2R c = 0 -> finite c -> i_div_s a c = mkI (finf true) (finf false).
Proof. intros f m. exact div_s_zero. Qed.
Print Assumptions C12_div_scalar_zero.
Theorem C12_scalar_tight : forall (f : fmt) (m : libm f) (a : FI f) (c : float f), bounded a -> ordered a -> finite c ->
  (near_lower (inf (i_add_s a c)) (image1 (fun r => r + B2R c) (fun r => mem r a)) /\
   near_upper (sup (i_add_s a c)) (image1 (fun r => r + B2R c) (fun r => mem r a))) /\
  (near_lower (inf (i_sub_s a c)) (image1 (fun r => r - B2R c) (fun r => mem r a)) /\
   near_upper (sup (i_sub_s a c)) (image1 (fun r => r - B2R c) (fun r => mem r a))) /\
  (near_lower (inf (i_mul_s a c)) (image1 (fun r => r * B2R c) (fun r => mem r a)) /\
   near_upper (sup (i_mul_s a c)) (image1 (fun r => r * B2R c) (fun r => mem r a))) /\
  (B2R c <> 0 ->
   near_lower (inf (i_div_s a c)) (image1 (fun r => r / B2R c) (fun r => mem r a)) /\
   near_upper (sup (i_div_s a c)) (image1 (fun r => r / B2R c) (fun r => mem r a))).
Proof.
  intros f m a c Ba Oa Fc.
  exact (conj (add_s_near a c Ba Oa Fc) (conj (sub_s_near a c Ba Oa Fc) (conj (mul_s_near a c Ba Oa Fc) (div_s_near a c Ba Oa Fc)))).
Qed.
Print Assumptions C12_scalar_tight.
Example C12_case : bounded (ZI F32 (-1) 2) /\ ordered (ZI F32 (-1) 2) /\ mem (1 / 3) (ZI F32 (-1) 2) /\
  finite (flit 1 10 : float F32) /\ B2R (flit 1 10 : float F32) <> 0.
Proof.
  repeat match goal with |- _ /\ _ => split end; try zi; try reflexivity.
  match goal with |- B2R ?x <> _ => b2r_eval x end. simpl bpow. lra.
Qed.

(** ** C13 *)
Theorem C13_square_encloses : forall (f : fmt) (m : libm f) (a : FI f) r, mem r a -> mem (r * r) (ssquare a).
Proof. intros f m. exact square_incl. Qed.
Print Assumptions C13_square_encloses.
Theorem C13_square_straddle : forall (f : fmt) (m : libm f) (a : FI f),
  straddles a -> inf (ssquare a) = fzero false.
Proof. intros f m. exact square_straddle. Qed.
Print Assumptions C13_square_straddle.
Theorem C13_square_tight : forall (f : fmt) (m : libm f) (a : FI f), bounded a -> ordered a ->
  near_lower (inf (ssquare a)) (image1 (fun r => r * r) (fun r => mem r a)) /\
  near_upper (sup (ssquare a)) (image1 (fun r => r * r) (fun r => mem r a)).
Proof. intros f m. exact square_near. Qed.
Print Assumptions C13_square_tight.
(** When zero is an endpoint the lower bound drops one float below zero. *)
Theorem C13_square_negative_lower_bound : forall (f : fmt) (m : libm f),
  exists a : FI f, bounded a /\ ordered a /\ flt (inf (ssquare a)) (fzero false).
Proof.
  intros f m. exists (ZI f 0 1). repeat match goal with |- _ /\ _ => split end; try zi. exact (square_negative_lower f m).
Qed.
Print Assumptions C13_square_negative_lower_bound.
Example C13_case : forall f, bounded (ZI f (-3) 2) /\ ordered (ZI f (-3) 2) /\ straddles (ZI f (-3) 2) /\ mem (-5 / 2) (ZI f (-3) 2).
Proof.
  intros f. repeat match goal with |- _ /\ _ => split end; try zi. rewrite straddles_ZI; lia.
Qed.

(** ** C14 *)
Theorem C14_sqrt_encloses : forall (f : fmt) (m : libm f) (a : FI f) r,
  mem r a -> fle (fzero false) (inf a) -> mem (sqrt r) (i_sqrt a).
Proof. intros f m. exact sqrt_incl. Qed.
Print Assumptions C14_sqrt_encloses.
Theorem C14_trait_sqrt_encloses : forall (f : fmt) (m : libm f) (a : FI f) r,
  mem r a -> fle (fzero false) (inf a) -> mem (sqrt r) (gsqrt a).
Proof. intros f m. exact gsqrt_incl. Qed.
Print Assumptions C14_trait_sqrt_encloses.
Theorem C14_sqrt_tight : forall (f : fmt) (m : libm f) (a : FI f),
  bounded a -> ordered a -> fle (fzero false) (inf a) ->
  near_lower (inf (i_sqrt a)) (image1 sqrt (fun r => mem r a)) /\
  near_upper (sup (i_sqrt a)) (image1 sqrt (fun r => mem r a)).
Proof. intros f m. exact sqrt_near. Qed.
Print Assumptions C14_sqrt_tight.
(** With a negative lower bound (as produced by [0,1].square()) a bound is NaN. *)
Theorem C14_sqrt_negative_lower_nan : forall (f : fmt) (m : libm f) (a : FI f),
  flt (inf a) (fzero false) -> ~ proper (i_sqrt a) /\ ~ proper (gsqrt a).
Proof. exact sqrt_neg. Qed.
Print Assumptions C14_sqrt_negative_lower_nan.
Example C14_case : forall f, bounded (ZI f 0 2) /\ ordered (ZI f 0 2) /\ fle (fzero false) (inf (ZI f 0 2)) /\ mem 1.5 (ZI f 0 2).
Proof.
  intros f. repeat match goal with |- _ /\ _ => split end; try zi. rewrite fz0. apply fle_Z; lia.
Qed.

(** ** C15 *)
Theorem C15_neg_exact : forall (f : fmt) (m : libm f) (a : FI f) r, mem (- r) (- a)%S <-> mem r a.
Proof. intros f m. exact neg_mem. Qed.
Print Assumptions C15_neg_exact.
Theorem C15_neg_involutive : forall (f : fmt) (m : libm f) (a : FI f), (- - a)%S = a.
Proof. intros f m. exact neg_invol. Qed.
Print Assumptions C15_neg_involutive.
Theorem C15_abs_encloses : forall (f : fmt) (m : libm f) (a : FI f) r, mem r a -> mem (Rabs r) (sabs a).
Proof. intros f m. exact abs_incl. Qed.
Print Assumptions C15_abs_encloses.
(** ... and exactly, unless the whole interval is negative. *)
Theorem C15_abs_exact : forall (f : fmt) (m : libm f) (a : FI f) t,
  nonempty a -> ~ flt (sup a) (fzero false) -> mem t (sabs a) -> exists r, mem r a /\ t = Rabs r.
Proof. intros f m. exact abs_exact. Qed.
Print Assumptions C15_abs_exact.
Theorem C15_min_encloses : forall (f : fmt) (m : libm f) (a b : FI f) r s,
  mem r a -> mem s b -> mem (Rmin r s) (smin a b).
Proof. intros f m. exact min_incl. Qed.
Print Assumptions C15_min_encloses.
Theorem C15_max_encloses : forall (f : fmt) (m : libm f) (a b : FI f) r s,
  mem r a -> mem s b -> mem (Rmax r s) (smax a b).
Proof. intros f m. exact max_incl. Qed.
Print Assumptions C15_max_encloses.
Theorem C15_min_exact : forall (f : fmt) (m : libm f) (a b : FI f) t, nonempty a -> nonempty b ->
  mem t (smin a b) -> exists r s, mem r a /\ mem s b /\ t = Rmin r s.
Proof. intros f m. exact min_exact. Qed.
Print Assumptions C15_min_exact.
Theorem C15_max_exact : forall (f : fmt) (m : libm f) (a b : FI f) t, nonempty a -> nonempty b ->
  mem t (smax a b) -> exists r s, mem r a /\ mem s b /\ t = Rmax r s.
Proof. intros f m. exact max_exact. Qed.
Print Assumptions C15_max_exact.
Example C15_case : forall f, nonempty (ZI f (-3) 2) /\ ~ flt (sup (ZI f (-3) 2)) (fzero false) /\ nonempty (ZI f (-5) (-4)) /\ mem (-2) (ZI f (-3) 2).
Proof.
  intros f. repeat match goal with |- _ /\ _ => split end; try zi.
  cbn [ZI sup]. rewrite fz0, flt_ZB; lia.
Qed.

(** ** C16 *)
Theorem C16_union_is_hull : forall (f : fmt) (m : libm f) (a b : FI f) t, proper a -> proper b ->
  (mem t (i_union a b) <-> (below (inf a) t \/ below (inf b) t) /\ (above (sup a) t \/ above (sup b) t)).
Proof. intros f m. exact union_mem. Qed.
Print Assumptions C16_union_is_hull.
Theorem C16_union_least : forall (f : fmt) (m : libm f) (a b c : FI f), proper a -> proper b ->
  (forall t, mem t a -> mem t c) -> (forall t, mem t b -> mem t c) -> nonempty a -> nonempty b ->
  forall t, mem t (i_union a b) -> mem t c.
Proof. intros f m. exact union_least. Qed.
Print Assumptions C16_union_least.
Theorem C16_intersect : forall (f : fmt) (m : libm f) (a b : FI f) t, proper a -> proper b ->
  (mem t (i_intersect a b) <-> mem t a /\ mem t b).
Proof. intros f m. exact intersect_mem. Qed.
Print Assumptions C16_intersect.
Example C16_case : forall f, proper (ZI f (-3) 2) /\ proper (ZI f 1 4) /\ nonempty (ZI f (-3) 2) /\
  mem 1.5 (ZI f (-3) 2) /\ mem 1.5 (ZI f 1 4).
Proof. intros f. repeat match goal with |- _ /\ _ => split end; zi. Qed.

(** ** C17 *)
Theorem C17_contains : forall (f : fmt) (m : libm f) (a : FI f) (t : float f), finite t ->
  (i_contains a t = true <-> mem (B2R t) a).
Proof. intros f m. exact contains_spec. Qed.
Print Assumptions C17_contains.
Theorem C17_in_range : forall (f : fmt) (m : libm f) (a : FI f) (t0 t1 : float f), nonempty a -> nonnan t0 -> nonnan t1 ->
  (i_in_range a t0 t1 = true <-> forall r, mem r a -> below t0 r /\ above t1 r).
Proof. intros f m. exact in_range_i_spec. Qed.
Print Assumptions C17_in_range.
Theorem C17_is_exact : forall (f : fmt) (m : libm f) (a : FI f), nonempty a ->
  (i_is_exact a = true <-> exists c, forall r, mem r a <-> r = c).
Proof. intros f m. exact is_exact_spec. Qed.
Print Assumptions C17_is_exact.
Theorem C17_is_same : forall (f : fmt) (m : libm f) (a b : FI f), nonempty a -> nonempty b ->
  (i_is_same a b = true <-> forall r, mem r a <-> mem r b).
Proof. intros f m. exact is_same_spec. Qed.
Print Assumptions C17_is_same.
Theorem C17_sign_queries : forall (f : fmt) (m : libm f) (a : FI f), nonempty a ->
  (i_is_positive a = true <-> forall r, mem r a -> 0 < r) /\
  (i_is_negative a = true <-> forall r, mem r a -> r < 0) /\
  (i_is_nonnegative a = true <-> forall r, mem r a -> 0 <= r) /\
  (i_is_nonpositive a = true <-> forall r, mem r a -> r <= 0).
Proof. intros f m. exact sign_queries. Qed.
Print Assumptions C17_sign_queries.
Example C17_case : forall f (m : libm f), nonempty (ZI f (-3) 2) /\ nonempty (ZI f 1 1) /\
  i_is_exact (ZI f 1 1) = true /\ i_contains (ZI f (-3) 2) (flit 1 2) = true /\ i_is_positive (ZI f 1 1) = true.
Proof.
  intros f m. repeat match goal with |- _ /\ _ => split end; try zi; destruct f; vm_compute; reflexivity.
Qed.

(** ** C18 *)
Definition C18_approx_inside (f : fmt) (m : libm f) : Prop :=
  forall a : FI f, bounded a -> ordered a -> mem (B2R (i_approx a)) a.
(** Fails for large bounds: inf + sup overflows. *)
Theorem C18_approx_inside_refuted : forall (f : fmt) (m : libm f), ~ C18_approx_inside f m.
Proof. exact approx_refuted. Qed.
Print Assumptions C18_approx_inside_refuted.
(** Missing: intervals for which the rounded sum of the bounds is out of range. *)
Theorem C18_approx_inside_partial : forall (f : fmt) (m : libm f) (a : FI f), bounded a -> ordered a ->
  Rabs (rndf f (B2R (inf a) + B2R (sup a))) < bpow radix2 (emax f) ->
  finite (i_approx a) /\ mem (B2R (i_approx a)) a.
Proof. intros f m. exact approx_in. Qed.
Print Assumptions C18_approx_inside_partial.
(** and that is the exact condition *)
Theorem C18_approx_inside_iff : forall (f : fmt) (m : libm f) (a : FI f), bounded a -> ordered a ->
  (finite (i_approx a) /\ mem (B2R (i_approx a)) a <->
   Rabs (rndf f (B2R (inf a) + B2R (sup a))) < bpow radix2 (emax f)).
Proof. intros f m. exact approx_iff. Qed.
Print Assumptions C18_approx_inside_iff.
Example C18_case : forall f, bounded (ZI f (-3) 2) /\ ordered (ZI f (-3) 2) /\
  Rabs (rndf f (B2R (inf (ZI f (-3) 2)) + B2R (sup (ZI f (-3) 2)))) < bpow radix2 (emax f).
Proof. exact approx_case. Qed.

(** ** C19 *)
Theorem C19_lt : forall (f : fmt) (m : libm f) (a b : FI f), nonempty a -> nonempty b ->
  ((a < b)%S = true <-> forall r s, mem r a -> mem s b -> r < s).
Proof. intros f m. exact ilt_spec. Qed.
Print Assumptions C19_lt.
Theorem C19_gt : forall (f : fmt) (m : libm f) (a b : FI f), nonempty a -> nonempty b ->
  ((a > b)%S = true <-> forall r s, mem r a -> mem s b -> s < r).
Proof. intros f m. exact igt_spec. Qed.
Print Assumptions C19_gt.
Theorem C19_eq : forall (f : fmt) (m : libm f) (a b : FI f), nonempty a -> nonempty b ->
  ((a == b)%S = true <-> exists c, forall r, (mem r a <-> r = c) /\ (mem r b <-> r = c)).
Proof. intros f m. exact ieq_spec. Qed.
Print Assumptions C19_eq.
Theorem C19_antisymmetric : forall (f : fmt) (m : libm f) (a b : FI f), ordered a -> ordered b ->
  scmp b a = match scmp a b with Some c => Some (CompOpp c) | None => None end.
Proof. intros f m. exact icmp_antisym. Qed.
Print Assumptions C19_antisymmetric.
Theorem C19_transitive : forall (f : fmt) (m : libm f) (a b d : FI f) c, ordered a -> ordered b -> ordered d ->
  scmp a b = Some c -> scmp b d = Some c -> scmp a d = Some c.
Proof. intros f m. exact icmp_trans. Qed.
Print Assumptions C19_transitive.
Theorem C19_scalar : forall (f : fmt) (m : libm f) (a : FI f) (t : float f),
  i_cmp_s a t = scmp a (i_from t) /\ i_eqb_s a t = (a == i_from t)%S.
Proof. intros f m. exact icmp_scalar. Qed.
Print Assumptions C19_scalar.
Example C19_case : forall f (m : libm f), nonempty (ZI f (-3) 2) /\ nonempty (ZI f 3 4) /\
  (ZI f (-3) 2 < ZI f 3 4)%S = true /\ (ZI f 3 3 == ZI f 3 3)%S = true /\ scmp (ZI f (-3) 2) (ZI f 1 4) = None /\
  ordered (ZI f (-3) 2) /\ ordered (ZI f 3 4).
Proof.
  intros f m. repeat match goal with |- _ /\ _ => split end; try zi; destruct f; vm_compute; reflexivity.
Qed.

(** ** C20 *)
Theorem C20_constructor_assert : forall (f : fmt) (m : libm f) (x y : float f),
  new_asserts x y = true <-> ordered (i_new x y).
Proof. intros f m x y. exact (sge_spec y x). Qed.
Print Assumptions C20_constructor_assert.
Theorem C20_single_step : forall (f : fmt) (m : libm f) (a b : FI f) (t : float f),
  bounded a -> ordered a -> bounded b -> ordered b -> finite t ->
  ordered (- a)%S /\ ordered (sabs a) /\ ordered (ssquare a) /\ ordered (i_extend_by_ulp a) /\
  (fle (fzero false) (inf a) -> ordered (i_sqrt a) /\ ordered (gsqrt a)) /\
  ordered (a + b)%S /\ ordered (a - b)%S /\ ordered (a * b)%S /\ ordered (a / b)%S /\
  ordered (smin a b) /\ ordered (smax a b) /\ ordered (i_union a b) /\
  ordered (i_add_s a t) /\ ordered (i_sub_s a t) /\ ordered (i_mul_s a t) /\ ordered (i_div_s a t).
Proof. intros f m. exact step_ordered. Qed.
Print Assumptions C20_single_step.
(** Any composition: if all intermediate results are finite they are all valid. *)
Theorem C20_sequences : forall (f : fmt) (m : libm f) (e : expr f) (env : nat -> FI f),
  (forall n, ordered (env n)) -> scalars_finite e -> everywhere bounded env e -> everywhere ordered env e.
Proof. intros f m. exact sequences_ordered. Qed.
Print Assumptions C20_sequences.
Example C20_case : forall m : libm F32,
  let env := fun n => match n with O => ZI F32 (-1) 2 | _ => ZI F32 3 4 end in
  let e := ESqrt (EAbs (EMul (EVar 0) (EAddS (EVar 1) (f_of_Z 3)))) : expr F32 in
  (forall n, ordered (env n)) /\ scalars_finite e /\ everywhere bounded env e.
Proof.
  intros m env e. split; [intros []; unfold env; zi|].
  split; [repeat split|]. unfold e. repeat split; vm_compute; reflexivity.
Qed.

(** ** C24 *)
Definition C24_constants (f : fmt) (m : libm f) : Prop :=
  mem PI (pi : FI f) /\ mem (2 * PI) (tau : FI f) /\ mem (PI / 2) (frac_pi_2 : FI f) /\ mem (PI / 4) (frac_pi_4 : FI f).
Theorem C24_constants_f64_partial : forall m : libm F64, C24_constants F64 m.
Proof. exact const_f64. Qed.
Print Assumptions C24_constants_f64_partial.
(** For f32 (the crate's [Float]) none of the four intervals contains its constant. *)
Theorem C24_constants_f32_refuted : forall m : libm F32,
  ~ mem PI (pi : FI F32) /\ ~ mem (2 * PI) (tau : FI F32) /\ ~ mem (PI / 2) (frac_pi_2 : FI F32) /\ ~ mem (PI / 4) (frac_pi_4 : FI F32).
Proof. exact const_f32_not. Qed.
Print Assumptions C24_constants_f32_refuted.
Theorem C24_half : forall (f : fmt) (m : libm f), mem (1 / 2) (half : FI f).
Proof. exact const_half. Qed.
Print Assumptions C24_half.

(** ** C25 *)
Theorem C25_fundamental : forall (f : fmt) (m : libm f) (e : expr f) (env : nat -> FI f) (renv : nat -> R) (r : R),
  (forall n, mem (renv n) (env n)) -> reval renv e r ->
  everywhere proper env e -> no_double_straddle env e ->
  mem r (ieval env e).
Proof. intros f m. exact fundamental. Qed.
Print Assumptions C25_fundamental.
(** (x^2 + 1) / |y| with x in [-1,2], y in [3,4] *)
Example C25_case : forall m : libm F32,
  let env := fun n => match n with O => ZI F32 (-1) 2 | _ => ZI F32 3 4 end in
  let renv := fun n => match n with O => 1 / 3 | _ => 7 / 2 end in
  let e := EDiv (EAddS (ESquare (EVar 0)) (f_of_Z 1)) (EAbs (EVar 1)) : expr F32 in
  (forall n, mem (renv n) (env n)) /\ reval renv e ((1 / 3 * (1 / 3) + B2R (f_of_Z 1 : float F32)) / Rabs (7 / 2)) /\
  everywhere proper env e /\ no_double_straddle env e.
Proof.
  intros m env renv e. split; [intros []; unfold env, renv; zi|]. split.
  - apply RDiv; [|apply RAbs; exact (RVar renv 1)|apply Rabs_no_R0; lra].
    apply RAddS; [apply RSquare; exact (RVar renv 0)|reflexivity].
  - split; [repeat split; vm_compute; reflexivity|repeat split].
Qed.
