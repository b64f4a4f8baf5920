(** * Intervals seen through the generic traits: classification, constants, conversions, default methods. *)
From Coq Require Import ZArith Reals Bool Lra Lia Classical_Prop.
From Flocq Require Import Core BinarySingleNaN Mult_error Plus_error.
From Verif.Model Require Import FloatBase Scalar Float Interval.
From Verif Require Import Spec SpecTrig.
From Verif.Proofs Require Import BitsLemmas FloatLemmas PiBounds ScalarProofs IntervalBase IntervalProofs IntervalProofs2 IntervalRefute IntervalTrig IntervalTrig2.
Open Scope R_scope.

(** ** halving after rounding *)
Section Half.
Context (f : fmt).
Notation fx := (SpecFloat.fexp (prec f) (emax f)).
Notation emin := (SpecFloat.emin (prec f) (emax f)).
Lemma fx_FLT e : fx e = FLT_exp emin (prec f) e.
Proof. reflexivity. Qed.
Lemma rnd_half_big s : bpow radix2 (emin + prec f) <= Rabs s -> rndf f (s / 2) = rndf f s / 2.
Proof.
  intros H. assert (P := prec_gt_0_f f). red in P.
  assert (N : s <> 0). { intros ->. rewrite Rabs_R0 in H. assert (K := bpow_gt_0 radix2 (emin + prec f)). lra. }
  assert (M : (emin + prec f < mag radix2 s)%Z). { apply mag_gt_bpow. exact H. }
  replace (s / 2) with (s * bpow radix2 (-1)) by (change (bpow radix2 (-1)) with (/ 2); reflexivity).
  unfold round, scaled_mantissa, cexp. rewrite mag_mult_bpow by assumption.
  assert (C : fx (mag radix2 s + -1) = (fx (mag radix2 s) + -1)%Z).
  { unfold SpecFloat.fexp in *. lia. }
  rewrite C. unfold F2R. cbn [Fnum Fexp]. rewrite bpow_plus.
  replace (s * bpow radix2 (-1) * bpow radix2 (- (fx (mag radix2 s) + -1))) with (s * bpow radix2 (- fx (mag radix2 s))).
  - change (bpow radix2 (-1)) with (/ 2). unfold Rdiv. ring.
  - rewrite Rmult_assoc, <- bpow_plus. do 2 f_equal. lia.
Qed.
Lemma rnd_half x y : generic_format radix2 fx x -> generic_format radix2 fx y ->
  rndf f (rndf f (x + y) / 2) = rndf f ((x + y) / 2).
Proof.
  intros Gx Gy. destruct (Rle_or_lt (bpow radix2 (emin + prec f)) (Rabs (x + y))) as [H|H].
  - rewrite (rnd_half_big _ H). unfold Rdiv. change (/ 2) with (bpow radix2 (-1)).
    rewrite round_generic; [reflexivity|apply valid_rnd_N|].
    change (bpow radix2 (-1)) with (/ 2). change (rndf f (x + y) * / 2) with (rndf f (x + y) / 2). rewrite <- rnd_half_big by exact H.
    apply generic_format_round; [apply fexp_correct, prec_gt_0_f|apply valid_rnd_N].
  - rewrite (round_generic radix2 fx ZnearestE (x + y)); [reflexivity|].
    apply (FLT_format_plus_small radix2 emin (prec f)); [exact Gx|exact Gy|]. rewrite Z.add_comm. lra.
Qed.
End Half.

Lemma half_gmem f (x y : float f) : finite x -> finite y ->
  Rabs (rndf f (B2R x + B2R y)) < bpow radix2 (emax f) ->
  Rnd (fmul (fadd x y) (f_half f)) ((B2R x + B2R y) / 2).
Proof.
  intros F1 F2 HO. destruct (half_val_f f) as [Fh Vh].
  pose proof (fadd_Rnd _ _ F1 F2) as [Ns Es]. apply Rabs_lt_inv in HO. rewrite clampE_range in Es by lra.
  assert (Fs : finite (fadd x y)) by (apply finite_of_range; auto; rewrite Es; lra).
  rewrite E_B2R in Es by assumption.
  pose proof (fmul_Rnd _ _ Fs Fh) as [Nz Ez]. split; [exact Nz|]. rewrite Ez, Vh, Es. f_equal.
  change (rndf f (B2R x + B2R y) * / 2) with (rndf f (B2R x + B2R y) / 2).
  apply rnd_half; rewrite <- E_B2R by assumption; apply generic_E.
Qed.

(** ** the extreme values of the two formats *)
Lemma fmax_val f : finite (fmax_value : float f) /\ B2R (fmax_value : float f) = bpow radix2 (emax f) - bpow radix2 (emax f - prec f).
Proof.
  split; [destruct f; reflexivity|]. destruct f.
  - assert (K : B2R (fmax_value : float F32) = F2R (Float radix2 (2 ^ 24 - 1) 104)) by reflexivity.
    rewrite K. unfold F2R. cbn [Fnum Fexp]. change (emax F32) with 128%Z. change (128 - prec F32)%Z with 104%Z.
    replace 128%Z with (24 + 104)%Z by reflexivity. rewrite bpow_plus, minus_IZR. change (bpow radix2 24) with (IZR (2 ^ 24)). ring.
  - assert (K : B2R (fmax_value : float F64) = F2R (Float radix2 (2 ^ 53 - 1) 971)) by reflexivity.
    rewrite K. unfold F2R. cbn [Fnum Fexp]. change (emax F64) with 1024%Z. change (1024 - prec F64)%Z with 971%Z.
    replace 1024%Z with (53 + 971)%Z by reflexivity. rewrite bpow_plus, minus_IZR. change (bpow radix2 53) with (IZR (2 ^ 53)). ring.
Qed.
Lemma extremes f (x : float f) : finite x -> B2R (fmin_value : float f) <= B2R x <= B2R (fmax_value : float f).
Proof.
  intros F. destruct (fmax_val f) as [_ V]. assert (K := abs_B2R_le_emax_minus_prec (prec f) (emax f) _ x).
  change (fmin_value : float f) with (fneg (fmax_value : float f)). rewrite fneg_B2R, V.
  apply Rabs_le_inv in K. lra.
Qed.
Lemma min_pos_val f : finite (f_min_positive f) /\ B2R (f_min_positive f) = bpow radix2 (2 - emax f).
Proof.
  split; [destruct f; vm_compute; reflexivity|].
  destruct f; match goal with |- B2R ?x = _ => b2r_eval x end.
  - change (2 - emax F32)%Z with (23 + -149)%Z. rewrite bpow_plus. change (bpow radix2 23) with 8388608. reflexivity.
  - change (2 - emax F64)%Z with (52 + -1074)%Z. rewrite bpow_plus. change (bpow radix2 52) with 4503599627370496. reflexivity.
Qed.

Section Traits.
Context {f : fmt} {m : libm f}.
Notation FT := (float f).
Notation IT := (interval (float f)).
Notation nd := (f_next_down f).
Notation nu := (f_next_up f).
Notation top := (bpow radix2 (emax f)).

(** ** classification *)
Lemma t_is_nan (a : IT) : is_nan a = true <-> ~ proper a.
Proof.
  change (is_nan a) with (BinarySingleNaN.is_nan (inf a) || BinarySingleNaN.is_nan (sup a)). unfold proper, nonnan.
  destruct (BinarySingleNaN.is_nan (inf a)), (BinarySingleNaN.is_nan (sup a)); cbn; intuition discriminate.
Qed.
Lemma t_is_finite (a : IT) : is_finite a = true <-> bounded a.
Proof. change (is_finite a) with (BinarySingleNaN.is_finite (inf a) && BinarySingleNaN.is_finite (sup a)). unfold bounded, finite. apply andb_true_iff. Qed.
Lemma signum_eq (x y : FT) : finite x -> finite y -> (seqb (signum x) (signum y) = true <-> (0 < B2R x <-> 0 < B2R y) /\ (B2R x < 0 <-> B2R y < 0)).
Proof.
  intros Fx Fy. rewrite seqb_spec. destruct (one_B2R (f := f)) as [F1 V1].
  assert (K : forall z : FT, finite z -> finite (signum z) /\ B2R (signum z) = (if Rlt_dec 0 (B2R z) then 1 else if Rlt_dec (B2R z) 0 then -1 else 0)).
  { intros z Fz. unfold signum. change (is_positive z) with (gt_of fcmp z (fzero false)). change (is_negative z) with (lt_of fcmp z (fzero false)).
    assert (Nz := nonnan_of_finite _ Fz). rewrite gt_b, lt_b by (assumption || reflexivity). rewrite zero_E, E_B2R by assumption.
    destruct (Rlt_bool_spec 0 (B2R z)); destruct (Rlt_dec 0 (B2R z)); try lra; [split; assumption|].
    destruct (Rlt_bool_spec (B2R z) 0); destruct (Rlt_dec (B2R z) 0); try lra; [|split; reflexivity].
    split; [apply fneg_finite; exact F1|]. change (sneg (sone : FT)) with (fneg (sone : FT)). rewrite fneg_B2R, V1. lra. }
  destruct (K x Fx) as [A1 A2], (K y Fy) as [B1 B2]. rewrite feq_E, !E_B2R by assumption. rewrite A2, B2.
  assert (N1 := nonnan_of_finite _ A1). assert (N2 := nonnan_of_finite _ B1).
  destruct (Rlt_dec 0 (B2R x)), (Rlt_dec 0 (B2R y)), (Rlt_dec (B2R x) 0), (Rlt_dec (B2R y) 0); try lra;
    (split; intros Q; [destruct Q as (_ & _ & Q); try lra; split; split; intros; lra|destruct Q as [[Q1 Q2] [Q3 Q4]]; split; [exact N1|split; [exact N2|]]; first [lra | tauto]]).
Qed.
Lemma t_is_infinite (a : IT) : is_infinite a = true <-> bounded a /\ (0 < B2R (inf a) <-> 0 < B2R (sup a)) /\ (B2R (inf a) < 0 <-> B2R (sup a) < 0).
Proof.
  change (is_infinite a) with (BinarySingleNaN.is_finite (inf a) && BinarySingleNaN.is_finite (sup a) && seqb (signum (inf a)) (signum (sup a))).
  rewrite !andb_true_iff. unfold bounded, finite. split.
  - intros [[A B] C]. split; [tauto|]. apply signum_eq; assumption.
  - intros [[A B] C]. split; [tauto|]. apply signum_eq; assumption.
Qed.

(** ** single points *)
Lemma point_mem (x : FT) r : finite x -> (mem r (mkI x x) <-> r = B2R x).
Proof.
  intros F. unfold mem. cbn [inf sup]. rewrite below_finite, above_finite by assumption. split; [lra|intros ->; lra].
Qed.

Lemma point_nonempty (x : FT) : finite x -> nonempty (mkI x x).
Proof. intros F. exists (B2R x). now apply point_mem. Qed.
Lemma zero_mem r : mem r (szero : IT) <-> r = 0.
Proof. apply (point_mem (fzero false) r). reflexivity. Qed.
Lemma one_mem r : mem r (sone : IT) <-> r = 1.
Proof. destruct (one_B2R (f := f)) as [F1 V1]. pose proof (point_mem _ r F1) as K. rewrite V1 in K. exact K. Qed.
Lemma mone_mem r : mem r (sneg (sone : IT)) <-> r = -1.
Proof.
  destruct (one_B2R (f := f)) as [F1 V1]. assert (F : finite (fneg (sone : FT))) by (apply fneg_finite; exact F1).
  pose proof (point_mem _ r F) as K. rewrite fneg_B2R, V1 in K. change (mem r (mkI (fneg (sone : FT)) (fneg sone)) <-> r = -1). rewrite K. lra.
Qed.
Lemma zero_ne : nonempty (szero : IT). Proof. exists 0. now apply zero_mem. Qed.
Lemma one_ne : nonempty (sone : IT). Proof. exists 1. now apply one_mem. Qed.

Lemma ige_spec (a b : IT) : nonempty a -> nonempty b ->
  (sge a b = true <-> (forall r s, mem r a -> mem s b -> s < r) \/ exists c, forall r, (mem r a <-> r = c) /\ (mem r b <-> r = c)).
Proof.
  intros Na Nb. rewrite <- igt_spec, <- ieq_spec by assumption.
  change (sge a b) with (ge_of i_cmp a b). change (sgt a b) with (gt_of i_cmp a b). change (seqb a b) with (i_eqb a b).
  rewrite <- icmp_eq. unfold ge_of, gt_of. destruct (i_cmp a b) as [[]|]; intuition discriminate.
Qed.
Lemma ile_spec (a b : IT) : nonempty a -> nonempty b ->
  (sle a b = true <-> (forall r s, mem r a -> mem s b -> r < s) \/ exists c, forall r, (mem r a <-> r = c) /\ (mem r b <-> r = c)).
Proof.
  intros Na Nb. rewrite <- ilt_spec, <- ieq_spec by assumption.
  change (sle a b) with (le_of i_cmp a b). change (slt a b) with (lt_of i_cmp a b). change (seqb a b) with (i_eqb a b).
  rewrite <- icmp_eq. unfold le_of, lt_of. destruct (i_cmp a b) as [[]|]; intuition discriminate.
Qed.
Lemma eq_point (a b : IT) c : (forall r, mem r b <-> r = c) ->
  ((exists d, forall r, (mem r a <-> r = d) /\ (mem r b <-> r = d)) <-> forall r, mem r a <-> r = c).
Proof.
  intros Hb. split.
  - intros [d H]. assert (d = c). { apply Hb. now apply H. } subst d. intros r. apply H.
  - intros H. exists c. intros r. split; [apply H|apply Hb].
Qed.
Lemma t_is_zero (a : IT) : nonempty a -> (is_zero a = true <-> forall r, mem r a <-> r = 0).
Proof. intros NE. unfold is_zero. rewrite (ieq_spec a szero NE zero_ne). apply eq_point, zero_mem. Qed.
Lemma t_is_one (a : IT) : nonempty a -> (is_one a = true <-> forall r, mem r a <-> r = 1).
Proof. intros NE. unfold is_one. rewrite (ieq_spec a sone NE one_ne). apply eq_point, one_mem. Qed.

(** ** the sign predicates of the trait *)
Lemma t_signs (a : IT) : nonempty a ->
  (is_positive a = true <-> forall r, mem r a -> 0 < r) /\
  (is_negative a = true <-> forall r, mem r a -> r < 0) /\
  (is_nonnegative a = true <-> (forall r, mem r a -> 0 < r) \/ (forall r, mem r a <-> r = 0)) /\
  (is_nonpositive a = true <-> (forall r, mem r a -> r < 0) \/ (forall r, mem r a <-> r = 0)).
Proof.
  intros NE. unfold is_positive, is_negative, is_nonnegative, is_nonpositive.
  rewrite (igt_spec a szero NE zero_ne), (ilt_spec a szero NE zero_ne), (ige_spec a szero NE zero_ne), (ile_spec a szero NE zero_ne).
  rewrite !(eq_point a szero 0 zero_mem).
  assert (K1 : (forall r s, mem r a -> mem s (szero : IT) -> s < r) <-> forall r, mem r a -> 0 < r).
  { split; intros H r; [intros M; apply H; [exact M|now apply zero_mem]|intros s M Z; apply zero_mem in Z; subst s; auto]. }
  assert (K2 : (forall r s, mem r a -> mem s (szero : IT) -> r < s) <-> forall r, mem r a -> r < 0).
  { split; intros H r; [intros M; apply H; [exact M|now apply zero_mem]|intros s M Z; apply zero_mem in Z; subst s; auto]. }
  rewrite K1, K2. tauto.
Qed.
Lemma t_signum (a : IT) r : (forall s, mem s a -> 0 < s) \/ (forall s, mem s a -> s < 0) \/ (forall s, mem s a <-> s = 0) ->
  mem r a -> (0 < r -> mem 1 (signum a)) /\ (r < 0 -> mem (-1) (signum a)) /\ (r = 0 -> mem 0 (signum a)).
Proof.
  intros C M. assert (NE : nonempty a) by now exists r. destruct (t_signs a NE) as (P & N & _). unfold signum.
  destruct C as [C|[C|C]].
  - rewrite (proj2 P C). split; [intros _; now apply one_mem|]. apply C in M. split; lra.
  - destruct (is_positive a) eqn:H; [assert (Q := proj1 P eq_refl _ M); apply C in M; lra|].
    rewrite (proj2 N C). split; [apply C in M; lra|]. split; [intros _; now apply mone_mem|]. apply C in M. lra.
  - assert (Z : mem 0 a) by now apply C. destruct (is_positive a) eqn:H; [destruct (Rlt_irrefl 0); now apply P|].
    destruct (is_negative a) eqn:H2; [destruct (Rlt_irrefl 0); now apply N|].
    apply C in M. split; [lra|]. split; [lra|]. intros _. now apply zero_mem.
Qed.

(** ** clamp, min_max, in_range *)
Lemma mem_convex (a : IT) r s t : mem r a -> mem s a -> r <= t <= s -> mem t a.
Proof. intros [A _] [_ B] [H1 H2]. split; [now apply below_trans with r|now apply above_trans with s]. Qed.
Lemma not_lt_witness (a b : IT) : nonempty a -> nonempty b -> slt a b = false -> exists r s, mem r a /\ mem s b /\ s <= r.
Proof.
  intros Na Nb H. apply NNPP. intros K.
  assert (L : slt a b = true). { apply ilt_spec; auto. intros r s M1 M2. apply Rnot_le_lt. intros Q. apply K. now exists r, s. }
  congruence.
Qed.
Lemma not_gt_witness (a b : IT) : nonempty a -> nonempty b -> sgt a b = false -> exists r s, mem r a /\ mem s b /\ r <= s.
Proof.
  intros Na Nb H. apply NNPP. intros K.
  assert (L : sgt a b = true). { apply igt_spec; auto. intros r s M1 M2. apply Rnot_le_lt. intros Q. apply K. now exists r, s. }
  congruence.
Qed.
Lemma t_clamp (a lo hi : IT) l h r : (forall s, mem s lo <-> s = l) -> (forall s, mem s hi <-> s = h) -> l <= h ->
  mem r a -> mem (Rmax l (Rmin r h)) (clamp a lo hi).
Proof.
  intros Hl Hh Hlh M. assert (Na : nonempty a) by now exists r.
  assert (Nl : nonempty lo) by (exists l; now apply Hl). assert (Nh : nonempty hi) by (exists h; now apply Hh).
  unfold clamp. destruct (slt a lo) eqn:H1.
  - assert (r < l) by (apply (proj1 (ilt_spec a lo Na Nl) H1); [exact M|now apply Hl]).
    apply Hl. rewrite Rmin_left, Rmax_left by lra. reflexivity.
  - destruct (sgt a hi) eqn:H2.
    + assert (h < r) by (apply (proj1 (igt_spec a hi Na Nh) H2); [exact M|now apply Hh]).
      apply Hh. rewrite Rmin_right, Rmax_right by lra. reflexivity.
    + destruct (not_lt_witness a lo Na Nl H1) as (r0 & s0 & M0 & S0 & L0). apply Hl in S0. subst s0.
      destruct (not_gt_witness a hi Na Nh H2) as (r1 & s1 & M1 & S1 & L1). apply Hh in S1. subst s1.
      unfold Rmax, Rmin. destruct (Rle_dec r h) as [Q|Q].
      * destruct (Rle_dec l r) as [Q'|Q']; [exact M|]. apply (mem_convex a r r0); auto. lra.
      * destruct (Rle_dec l h) as [Q'|Q']; [|lra]. apply (mem_convex a r1 r); auto. lra.
Qed.
Lemma t_min_max (a b : IT) r s :
  (forall r s, mem r a -> mem s b -> r < s) \/ (forall r s, mem r a -> mem s b -> s < r) ->
  mem r a -> mem s b -> mem (Rmin r s) (fst (min_max a b)) /\ mem (Rmax r s) (snd (min_max a b)).
Proof.
  intros C M1 M2. assert (Na : nonempty a) by now exists r. assert (Nb : nonempty b) by now exists s.
  unfold min_max. destruct (slt a b) eqn:H.
  - assert (L := proj1 (ilt_spec a b Na Nb) H _ _ M1 M2). rewrite Rmin_left, Rmax_right by lra. now split.
  - destruct C as [C|C]; [apply (ilt_spec a b Na Nb) in C; congruence|].
    assert (L := C _ _ M1 M2). rewrite Rmin_right, Rmax_left by lra. now split.
Qed.
Lemma t_in_range (a lo hi : IT) r l h : in_range a lo hi = true -> mem r a -> mem l lo -> mem h hi -> l <= r <= h.
Proof.
  unfold in_range. rewrite andb_true_iff. intros [H1 H2] M L H. assert (Na : nonempty a) by now exists r.
  apply ige_spec in H1; [|assumption|now exists l]. apply ile_spec in H2; [|assumption|now exists h].
  split.
  - destruct H1 as [K|[c K]]; [apply Rlt_le; auto|]. apply (K r) in M. apply (K l) in L. lra.
  - destruct H2 as [K|[c K]]; [apply Rlt_le; auto|]. apply (K r) in M. apply (K h) in H. lra.
Qed.
Lemma t_recip (a : IT) r : mem r a -> r <> 0 -> mem (1 / r) (recip a).
Proof. intros M H. apply (div_incl sone a 1 r); auto. now apply one_mem. Qed.

(** ** fequals on intervals is sound *)
Lemma abs_eps_fin : finite (f_abs_epsilon f). Proof. clear. destruct f; vm_compute; reflexivity. Qed.
Lemma rel_eps_fin : finite (f_rel_epsilon f). Proof. clear. destruct f; vm_compute; reflexivity. Qed.
Lemma rel_eps_pos : 0 < B2R (f_rel_epsilon f).
Proof.
  clear. destruct f; match goal with |- 0 < B2R ?x => b2r_eval x end;
    (apply Rmult_lt_0_compat; [lra|apply bpow_gt_0]).
Qed.
Lemma sabs_fin (x : FT) : finite x -> finite (sabs x).
Proof. intros F. now apply sabs_spec. Qed.
Lemma smax_fin (x y : FT) : finite x -> finite y -> finite (smax x y).
Proof. intros Fx Fy. change (smax x y) with (default_max fcmp x y). unfold default_max. now destruct (gt_of fcmp x y). Qed.
Lemma abs_bounded (a : IT) : bounded a -> bounded (i_abs a).
Proof.
  intros [F1 F2]. unfold i_abs. destruct (is_negative (inf a)).
  - split; [reflexivity|]. cbn [i_new inf sup]. apply smax_fin; now apply sabs_fin.
  - unfold i_from_pair, min_max. destruct (slt (inf a) (sup a)); now split.
Qed.
Lemma t_fequals (a b : IT) r s : bounded a -> bounded b -> fequals a b = true -> mem r a -> mem s b ->
  Rabs (r - s) < B2R (abs_epsilon : FT) \/ Rabs (r - s) < Rmax (Rabs r) (Rabs s) * B2R (rel_epsilon : FT).
Proof.
  intros Ba Bb H M1 M2.
  assert (D : mem (Rabs (r - s)) (i_abs (i_sub a b))) by (apply abs_incl, sub_incl; assumption).
  assert (ND : nonempty (i_abs (i_sub a b))) by (now exists (Rabs (r - s))).
  assert (EA := point_mem _ (B2R (f_abs_epsilon f)) abs_eps_fin).
  assert (ER := point_mem _ (B2R (f_rel_epsilon f)) rel_eps_fin).
  change (fequals a b) with (if slt (i_abs (i_sub a b)) (mkI (f_abs_epsilon f) (f_abs_epsilon f)) then true
    else slt (i_abs (i_sub a b)) (i_mul (i_max (i_abs a) (i_abs b)) (mkI (f_rel_epsilon f) (f_rel_epsilon f)))) in H.
  change (B2R (abs_epsilon : FT)) with (B2R (f_abs_epsilon f)). change (B2R (rel_epsilon : FT)) with (B2R (f_rel_epsilon f)).
  destruct (slt (i_abs (i_sub a b)) (mkI (f_abs_epsilon f) (f_abs_epsilon f))) eqn:H1.
  - left. apply (proj1 (ilt_spec _ _ ND (point_nonempty _ abs_eps_fin)) H1); [exact D|now apply EA].
  - right. assert (P : mem (Rmax (Rabs r) (Rabs s) * B2R (f_rel_epsilon f)) (i_mul (i_max (i_abs a) (i_abs b)) (mkI (f_rel_epsilon f) (f_rel_epsilon f)))).
    { apply mul_incl_bounded.
      - destruct (abs_bounded a Ba), (abs_bounded b Bb). split; cbn [i_max i_new inf sup]; apply smax_fin; assumption.
      - split; apply rel_eps_fin.
      - apply max_incl; apply abs_incl; assumption.
      - now apply ER.
      - intros [_ [L _]]. cbn [inf] in L. apply flt_E in L. destruct L as (_ & _ & L). rewrite E_B2R in L by apply rel_eps_fin.
        rewrite zero_E in L. pose proof rel_eps_pos. lra. }
    refine (proj1 (ilt_spec _ _ ND _) H _ _ D P). now exists (Rmax (Rabs r) (Rabs s) * B2R (f_rel_epsilon f)).
Qed.

(** ** almost_eq *)
Lemma t_almost_eq (a b : IT) : almost_eq a b = true <-> fequals (inf a) (inf b) = true /\ fequals (sup a) (sup b) = true.
Proof. change (almost_eq a b) with (fequals (inf a) (inf b) && fequals (sup a) (sup b)). apply andb_true_iff. Qed.
Lemma t_almost_eq_s (a : IT) (t : FT) : finite t ->
  (i_almost_eq_s a t = true <-> mem (B2R t) a /\ fequals (inf a) t = true /\ fequals (sup a) t = true).
Proof. intros F. unfold i_almost_eq_s. rewrite !andb_true_iff, contains_spec by assumption. tauto. Qed.

(** ** conversions *)
Lemma t_approx (a : IT) : bounded a -> Rabs (rndf f (B2R (inf a) + B2R (sup a))) < top ->
  rounds_to (i_approx a) ((B2R (inf a) + B2R (sup a)) / 2).
Proof. intros [F1 F2] H. apply Rnd_rounds_to. now apply (half_gmem f (inf a) (sup a)). Qed.
Lemma t_approx_fin (a : IT) : bounded a -> ordered a -> Rabs (rndf f (B2R (inf a) + B2R (sup a))) < top ->
  finite (i_approx a) /\ B2R (i_approx a) = rndf f ((B2R (inf a) + B2R (sup a)) / 2).
Proof.
  intros B O H. destruct (approx_in a B O H) as [F _]. split; [exact F|].
  destruct B as [F1 F2]. exact (Rnd_finite _ _ (half_gmem f (inf a) (sup a) F1 F2 H) F).
Qed.
Lemma t_to_i64 (a : IT) : bounded a -> ordered a -> Rabs (rndf f (B2R (inf a) + B2R (sup a))) < top ->
  to_i64 a = Z.max (- 2 ^ 63) (Z.min (2 ^ 63 - 1) (Ztrunc (rndf f ((B2R (inf a) + B2R (sup a)) / 2)))).
Proof.
  intros B O H. destruct (t_approx_fin a B O H) as [F V]. change (to_i64 a) with (f_to_i64 (i_approx a)).
  rewrite (proj1 (to_i64_spec f (i_approx a)) F), V. reflexivity.
Qed.
Lemma t_to_f32 (a : IT) : bounded a -> ordered a -> Rabs (rndf f (B2R (inf a) + B2R (sup a))) < top ->
  rounds_to (to_f32 a) (rndf f ((B2R (inf a) + B2R (sup a)) / 2)).
Proof.
  intros B O H. destruct (t_approx_fin a B O H) as [F V]. rewrite <- V. apply Rnd_rounds_to.
  exact (fconv_Rnd f F32 (i_approx a) F).
Qed.
Lemma t_to_f64 (a : IT) : bounded a -> ordered a -> Rabs (rndf f (B2R (inf a) + B2R (sup a))) < top ->
  rounds_to (to_f64 a) (rndf f ((B2R (inf a) + B2R (sup a)) / 2)).
Proof.
  intros B O H. destruct (t_approx_fin a B O H) as [F V]. rewrite <- V. apply Rnd_rounds_to.
  exact (fconv_Rnd f F64 (i_approx a) F).
Qed.
Lemma t_from_i64 z r : (Z.abs z <= 2 ^ prec f)%Z -> (mem r (from_i64 z : IT) <-> r = IZR z).
Proof.
  intros H. destruct (f_of_Z_exact (f := f) z H) as [F V]. rewrite <- V. exact (point_mem (f_of_Z z) r F).
Qed.
End Traits.

(** ** constants *)
Section Consts.
Context {f : fmt} {m : libm f}.
Notation FT := (float f).
Notation IT := (interval (float f)).
Lemma c_limits : (forall x : FT, finite x -> B2R (slowest : FT) <= B2R x <= B2R (shighest : FT)) /\
  finite (slowest : FT) /\ finite (shighest : FT) /\ B2R (slowest : FT) = - B2R (shighest : FT) /\
  finite (min_positive_value : FT) /\ B2R (min_positive_value : FT) = bpow radix2 (2 - emax f).
Proof.
  split; [exact (extremes f)|]. destruct (fmax_val f) as [F _].
  split; [apply (fneg_finite (fmax_value : FT)); exact F|]. split; [exact F|].
  split; [exact (fneg_B2R (fmax_value : FT))|exact (min_pos_val f)].
Qed.
Lemma c_specials : (gnan : FT) = fnan /\ (infinity : FT) = finf false /\ (neg_infinity : FT) = finf true /\ (neg_zero : FT) = fzero true /\ (szero : FT) = fzero false /\
  finite (sone : FT) /\ B2R (sone : FT) = 1 /\ finite (half : FT) /\ B2R (half : FT) = 1 / 2 /\ finite (stwo : FT) /\ B2R (stwo : FT) = 2.
Proof.
  destruct (one_B2R (f := f)) as [F1 V1]. destruct (half_val_f f) as [Fh Vh].
  assert (K : finite (stwo : FT) /\ B2R (stwo : FT) = 2).
  { clear. destruct f; (split; [vm_compute; reflexivity|match goal with |- B2R ?x = _ => b2r_eval x end; simpl bpow; lra]). }
  repeat split; try assumption; try (destruct K; assumption); try reflexivity. change (B2R (f_half f) = 1 / 2). lra.
Qed.
Lemma ci_points : forall r,
  (mem r (szero : IT) <-> r = 0) /\ (mem r (sone : IT) <-> r = 1) /\ (mem r (half : IT) <-> r = 1 / 2) /\ (mem r (neg_zero : IT) <-> r = 0) /\
  (mem r (min_positive_value : IT) <-> r = B2R (min_positive_value : FT)) /\
  (mem r (shighest : IT) <-> r = B2R (shighest : FT)) /\ (mem r (slowest : IT) <-> r = B2R (slowest : FT)) /\
  (mem r (abs_epsilon : IT) <-> r = B2R (abs_epsilon : FT)) /\ (mem r (rel_epsilon : IT) <-> r = B2R (rel_epsilon : FT)).
Proof.
  intros r. destruct (half_val_f f) as [Fh Vh]. destruct (fmax_val f) as [F _].
  split; [apply zero_mem|]. split; [apply one_mem|].
  split. { pose proof (point_mem _ r Fh) as K. rewrite Vh in K. replace (1 / 2) with (/ 2) by lra. exact K. }
  split. { exact (point_mem (fzero true : FT) r eq_refl). }
  split; [exact (point_mem _ r (proj1 (min_pos_val f)))|].
  split; [exact (point_mem _ r F)|].
  split; [exact (point_mem (fmin_value : FT) r (proj2 (fneg_finite (fmax_value : FT)) F))|].
  split; [exact (point_mem _ r abs_eps_fin)|exact (point_mem _ r rel_eps_fin)].
Qed.
Lemma ci_two : mem 2 (stwo : IT) /\ near_lower (inf (stwo : IT)) (fun t => t = 2) /\ near_upper (sup (stwo : IT)) (fun t => t = 2).
Proof.
  split; [replace 2 with (1 + 1) by lra; apply (add_incl sone sone 1 1); now apply one_mem|].
  destruct (one_B2R (f := f)) as [F1 V1].
  assert (B : bounded (sone : IT)) by (split; exact F1).
  assert (O : ordered (sone : IT)) by (apply nonempty_ordered, one_ne).
  destruct (add_near sone sone B B O O) as [N1 N2].
  assert (K : forall t, image2 Rplus (fun r => mem r (sone : IT)) (fun s => mem s (sone : IT)) t <-> t = 2).
  { intros t. split; [intros (r & s & A & B' & C); apply one_mem in A; apply one_mem in B'; lra|].
    intros ->. exists 1, 1. split; [now apply one_mem|]. split; [now apply one_mem|lra]. }
  split; intros y1 y2 L H.
  - apply (N1 y1 y2 L). intros r Hr. apply H. now apply K.
  - apply (N2 y1 y2 L). intros r Hr. apply H. now apply K.
Qed.
Lemma ci_specials : ~ proper (gnan : IT) /\ is_nan (gnan : IT) = true /\
  (forall r, ~ mem r (infinity : IT)) /\ (forall r, ~ mem r (neg_infinity : IT)) /\ proper (infinity : IT) /\ proper (neg_infinity : IT) /\
  (forall a : IT, bounded a -> ordered a -> sgt (infinity : IT) a = true /\ slt (neg_infinity : IT) a = true).
Proof.
  split; [intros [K _]; discriminate K|]. split; [reflexivity|].
  split; [intros r [K _]; discriminate K|]. split; [intros r [_ K]; discriminate K|].
  split; [now split|]. split; [now split|].
  intros a [F1 F2] O. split.
  - assert (Oi : ordered (infinity : IT)) by (right; reflexivity).
    assert (K : i_cmp (infinity : IT) a = Some Gt) by (apply (icmp_gt (infinity : IT) a Oi O); destruct (sup a); try discriminate F2; reflexivity).
    change (sgt (infinity : IT) a) with (gt_of i_cmp (infinity : IT) a). unfold gt_of. now rewrite K.
  - assert (K : i_cmp (neg_infinity : IT) a = Some Lt) by (apply (icmp_lt (neg_infinity : IT) a); destruct (inf a); try discriminate F1; reflexivity).
    change (slt (neg_infinity : IT) a) with (lt_of i_cmp (neg_infinity : IT) a). unfold lt_of. now rewrite K.
Qed.
Lemma ci_next_up (a : IT) : proper a -> inf a <> finf false -> sup a <> finf false ->
  flt (inf a) (inf (next_up a)) /\ flt (sup a) (sup (next_up a)) /\
  (forall y, flt (inf a) y -> fle (inf (next_up a)) y) /\ (forall y, flt (sup a) y -> fle (sup (next_up a)) y).
Proof.
  intros [N1 N2] D1 D2. destruct (next_up_adjacent (inf a) N1 D1) as [A1 A2]. destruct (next_up_adjacent (sup a) N2 D2) as [B1 B2].
  split; [exact A1|]. split; [exact B1|]. split; [exact A2|exact B2].
Qed.
Lemma ci_next_down (a : IT) : proper a -> inf a <> finf true -> sup a <> finf true ->
  flt (inf (next_down a)) (inf a) /\ flt (sup (next_down a)) (sup a) /\
  (forall y, flt y (inf a) -> fle y (inf (next_down a))) /\ (forall y, flt y (sup a) -> fle y (sup (next_down a))).
Proof.
  intros [N1 N2] D1 D2. destruct (next_down_adjacent (inf a) N1 D1) as [A1 A2]. destruct (next_down_adjacent (sup a) N2 D2) as [B1 B2].
  split; [exact A1|]. split; [exact B1|]. split; [exact A2|exact B2].
Qed.
End Consts.

(** every member of the interval constants' own lower/upper versions is on the right side *)
Lemma pi_lower_iv f (m : libm f) r :
  (mem r (pi_lower : interval (float f)) -> r <= PI) /\ (mem r (tau_lower : interval (float f)) -> r <= 2 * PI) /\
  (mem r (frac_pi_2_lower : interval (float f)) -> r <= PI / 2) /\ (mem r (frac_pi_4_lower : interval (float f)) -> r <= PI / 4).
Proof.
  pose proof (lower_consts f) as (L1 & L2 & L3 & L4).
  destruct (finite_consts f) as (F1 & _ & F3 & _ & F5 & _ & F7 & _).
  assert (Q : forall x y : float f, B2R (f_next_down f x) <= B2R y -> finite y -> finite (f_next_down f x) -> forall z c, B2R y <= c -> mem r (mkI z (f_next_down f x)) -> r <= c).
  { intros x y H Fy Fn z c Hc [_ M]. cbn [sup] in M. apply above_finite in M; [lra|assumption]. }
  split; [refine (Q (f_pi_upper f) (f_pi_lower f) _ F1 _ _ _ L1)|split; [refine (Q (f_tau_upper f) (f_tau_lower f) _ F3 _ _ _ L2)|split; [refine (Q (f_frac_pi_2_upper f) (f_frac_pi_2_lower f) _ F5 _ _ _ L3)|refine (Q (f_frac_pi_4_upper f) (f_frac_pi_4_lower f) _ F7 _ _ _ L4)]]]; clear;
  destruct f; try (vm_compute; reflexivity); match goal with |- B2R ?x <= B2R ?y => b2r_eval x; b2r_eval y end; simpl bpow; lra.
Qed.
Lemma pi_upper_iv f (m : libm f) r :
  (mem r (pi_upper : interval (float f)) -> PI <= r) /\ (mem r (tau_upper : interval (float f)) -> 2 * PI <= r) /\
  (mem r (frac_pi_2_upper : interval (float f)) -> PI / 2 <= r) /\ (mem r (frac_pi_4_upper : interval (float f)) -> PI / 4 <= r).
Proof.
  assert (Q : forall x : float f, finite (f_next_up f x) -> forall z c, c <= B2R (f_next_up f x) -> mem r (mkI (f_next_up f x) z) -> c <= r).
  { intros x Fn z c Hc [M _]. cbn [inf] in M. apply below_finite in M; [lra|assumption]. }
  split; [refine (Q (f_pi_lower f) _ _ _ _)|split; [refine (Q (f_tau_lower f) _ _ _ _)|split; [refine (Q (f_frac_pi_2_lower f) _ _ _ _)|refine (Q (f_frac_pi_4_lower f) _ _ _ _)]]]; clear;
  destruct f; try (vm_compute; reflexivity); match goal with |- _ <= B2R ?x => b2r_eval x end; pose proof PI_upper_bound; simpl bpow; lra.
Qed.

(** ** counterexamples *)
Lemma is_infinite_refuted f (m : libm f) : ~ (forall a : interval (float f),
  is_infinite a = true <-> exists s, inf a = finf s /\ sup a = finf s).
Proof.
  intros H. assert (K : is_infinite (ZI f 1 2) = true).
  { clear. destruct f; vm_compute; reflexivity. }
  apply H in K. destruct K as [s [K _]]. assert (Q : finite (inf (ZI f 1 2))) by (apply ZI_bounded; lia). rewrite K in Q. discriminate Q.
Qed.
Lemma nonneg_refuted f (m : libm f) : ~ (forall a : interval (float f), nonempty a ->
  (is_nonnegative a = true <-> forall r, mem r a -> 0 <= r)) /\ ~ (forall a : interval (float f), nonempty a ->
  (is_nonpositive a = true <-> forall r, mem r a -> r <= 0)).
Proof.
  split; intros H.
  - assert (K : is_nonnegative (ZI f 0 1) = true).
    { apply H; [zi|]. intros r M. apply ZI_mem in M; [lra|lia|lia|lia]. }
    revert K. clear. destruct f; vm_compute; discriminate.
  - assert (K : is_nonpositive (ZI f (-1) 0) = true).
    { apply H; [zi|]. intros r M. apply ZI_mem in M; [lra|lia|lia|lia]. }
    revert K. clear. destruct f; vm_compute; discriminate.
Qed.
Lemma signum_refuted f (m : libm f) : ~ (forall (a : interval (float f)) r, mem r a ->
  (0 < r -> mem 1 (signum a)) /\ (r < 0 -> mem (-1) (signum a)) /\ (r = 0 -> mem 0 (signum a))).
Proof.
  intros H. assert (M : mem 1 (ZI f 0 1)) by zi. destruct (H _ _ M) as [K _].
  assert (S : signum (ZI f 0 1) = szero). { clear. destruct f; vm_compute; reflexivity. }
  rewrite S in K. assert (Q := proj1 (zero_mem 1) (K Rlt_0_1)). lra.
Qed.
Lemma clamp_refuted f (m : libm f) : ~ (forall (a lo hi : interval (float f)) r l h, mem r a -> mem l lo -> mem h hi -> l <= h ->
  mem (Rmax l (Rmin r h)) (clamp a lo hi)).
Proof.
  intros H. assert (K : mem (Rmax 3 (Rmin 0 5)) (clamp (ZI f 0 2) (ZI f 1 3) (ZI f 5 5))) by (apply H; [zi|zi|zi|lra]).
  rewrite Rmin_left, Rmax_left in K by lra.
  assert (S : clamp (ZI f 0 2) (ZI f 1 3) (ZI f 5 5) = ZI f 0 2).
  { unfold clamp. replace (slt (ZI f 0 2) (ZI f 1 3)) with false by (clear; destruct f; vm_compute; reflexivity).
    replace (sgt (ZI f 0 2) (ZI f 5 5)) with false by (clear; destruct f; vm_compute; reflexivity). reflexivity. }
  rewrite S in K. apply ZI_mem in K; [lra|lia|lia|lia].
Qed.
Lemma min_max_refuted f (m : libm f) : ~ (forall (a b : interval (float f)) r s, mem r a -> mem s b ->
  mem (Rmin r s) (fst (min_max a b)) /\ mem (Rmax r s) (snd (min_max a b))).
Proof.
  intros H. assert (M1 : mem 0 (ZI f 0 2)) by zi. assert (M2 : mem 3 (ZI f 1 3)) by zi. destruct (H _ _ _ _ M1 M2) as [K _].
  rewrite Rmin_left in K by lra.
  assert (S : min_max (ZI f 0 2) (ZI f 1 3) = (ZI f 1 3, ZI f 0 2)).
  { unfold min_max. replace (slt (ZI f 0 2) (ZI f 1 3)) with false by (clear; destruct f; vm_compute; reflexivity). reflexivity. }
  rewrite S in K. apply ZI_mem in K; [lra|lia|lia|lia].
Qed.
Lemma in_range_refuted f (m : libm f) : ~ (forall a lo hi : interval (float f), nonempty a -> nonempty lo -> nonempty hi ->
  (in_range a lo hi = true <-> forall r l h, mem r a -> mem l lo -> mem h hi -> l <= r <= h)).
Proof.
  intros H. assert (K : in_range (ZI f 0 1) (ZI f 0 0) (ZI f 1 1) = true).
  { apply H; try zi. intros r l h M1 M2 M3. apply ZI_mem in M1; [|lia..]. apply ZI_mem in M2; [|lia..]. apply ZI_mem in M3; [|lia..]. lra. }
  revert K. clear. destruct f; vm_compute; discriminate.
Qed.
Lemma from_i64_refuted f (m : libm f) : ~ (forall z : Z, (Z.abs z < 2 ^ 63)%Z -> mem (IZR z) (from_i64 z : interval (float f))).
Proof.
  intros H. specialize (H (2 ^ prec f + 1)%Z). assert (L : (Z.abs (2 ^ prec f + 1) < 2 ^ 63)%Z) by (clear; destruct f; reflexivity).
  specialize (H L). destruct H as [_ H]. change (above (f_of_Z (2 ^ prec f + 1) : float f) (IZR (2 ^ prec f + 1))) in H.
  assert (F : finite (f_of_Z (2 ^ prec f + 1) : float f)) by (clear; destruct f; vm_compute; reflexivity).
  apply above_finite in H; [|exact F]. revert H. apply Rlt_not_le. clear.
  destruct f; match goal with |- B2R ?x < _ => b2r_eval x end; simpl; lra.
Qed.
Lemma from_f_exact f (m : libm f) (x : float F32) r : finite x -> (mem r (from_f32 x : interval (float f)) <-> r = B2R x).
Proof.
  intros F. assert (K : finite (fconv F32 f x) /\ B2R (fconv F32 f x) = B2R x).
  { destruct f; [rewrite fconv_same; now split|]. now apply f32_f64_lossless. }
  destruct K as [K V]. rewrite <- V. exact (point_mem _ r K).
Qed.
Lemma from_f64_exact (m : libm F64) (x : float F64) r : finite x -> (mem r (from_f64 x : interval (float F64)) <-> r = B2R x).
Proof. intros F. pose proof (point_mem x r F) as K. rewrite <- (fconv_same F64 x) in K at 1 2. exact K. Qed.
Lemma from_f64_refuted (m : libm F32) : ~ (forall x : float F64, finite x -> Rabs (B2R x) < bpow radix2 100 -> mem (B2R x) (from_f64 x : interval (float F32))).
Proof.
  intros H. destruct (f_of_Z_exact (f := F64) 16777217) as [F V]; [vm_compute; discriminate|].
  specialize (H _ F). rewrite V in H. assert (L : Rabs (IZR 16777217) < bpow radix2 100).
  { rewrite Rabs_pos_eq by (apply IZR_le; lia). change (bpow radix2 100) with (IZR (2 ^ 100)). apply IZR_lt. reflexivity. }
  destruct (H L) as [_ K]. change (above (fconv F64 F32 (f_of_Z 16777217)) (IZR 16777217)) in K.
  apply above_finite in K; [|vm_compute; reflexivity]. revert K. apply Rlt_not_le.
  match goal with |- B2R ?x < _ => b2r_eval x end; simpl; lra.
Qed.

(** ** asin and acos of negative intervals come out inverted *)
Lemma asin_ge x : 0 <= x <= 1 -> x <= asin x.
Proof.
  intros H. assert (B := asin_bound x). rewrite <- (sin_asin x) at 1 by lra.
  destruct (Rle_lt_dec (asin x) 0) as [L|L].
  - destruct L as [L|L]; [|rewrite L, sin_0; lra]. assert (S := sin_asin x ltac:(lra)).
    assert (K := sin_lt_0_var (asin x)). assert (P := PI_RGT_0). assert (sin (asin x) < 0) by (apply K; lra). lra.
  - apply Rlt_le, sin_lt_x, L.
Qed.
Definition fq f (z : Z) : float f := fdiv (f_of_Z z) (f_of_Z 8).
Lemma fq_vals f : (finite (fneg (fq f 2)) /\ B2R (fneg (fq f 2)) = - (1 / 4)) /\ (finite (fneg (fq f 3)) /\ B2R (fneg (fq f 3)) = - (3 / 8)) /\
  (finite (fq f 14) /\ B2R (fq f 14) = 7 / 4) /\ (finite (fq f 16) /\ B2R (fq f 16) = 2).
Proof.
  destruct f; repeat split; try (vm_compute; reflexivity); match goal with |- B2R ?x = _ => b2r_eval x end; simpl bpow; lra.
Qed.
Lemma asin_acos_inverted f (m : libm f) (a : interval (float f)) : good_asin_acos m -> bounded a -> -1 <= B2R (inf a) -> B2R (sup a) <= - (1 / 2) -> B2R (inf a) <= B2R (sup a) ->
  ~ ordered (gasin a) /\ ~ ordered (gacos a).
Proof.
  intros GA [F1 F2] L1 L2 L3. destruct (GA (sup a) F2 ltac:(lra)) as [[Fz [Z1 Z2]] [Fw [W1 W2]]].
  destruct (fq_vals f) as ([Q1 V1] & [Q2 V2] & [Q3 V3] & [Q4 V4]).
  assert (AS : asin (B2R (sup a)) <= - (1 / 2)).
  { replace (B2R (sup a)) with (- - B2R (sup a)) by lra. rewrite asin_opp. assert (K := asin_ge (- B2R (sup a)) ltac:(lra)). lra. }
  assert (AC : 2 < acos (B2R (sup a))) by (rewrite acos_asin by lra; assert (P := PI_lower_bound); lra).
  destruct (finite_consts f) as (_ & _ & _ & _ & _ & FP & _).
  assert (QV : 1 <= B2R (f_frac_pi_2_upper f) <= 13 / 8) by (clear; destruct f; match goal with |- _ <= B2R ?x <= _ => b2r_eval x end; simpl bpow; lra).
  assert (NP := nonnan_of_finite _ FP). assert (Nz := nonnan_of_finite _ Fz). assert (Nw := nonnan_of_finite _ Fw).
  split; intros O.
  - set (z := m_asin m (sup a)) in *.
    assert (Dz : z <> finf false) by (intros K; rewrite K in Fz; discriminate Fz).
    destruct (next_up_adjacent z Nz Dz) as [A1 A2].
    assert (Lz : flt z (fneg (fq f 2))).
    { apply flt_E. split; [exact Nz|]. split; [now apply nonnan_of_finite|]. rewrite !E_B2R by assumption. rewrite V1.
      apply Rnot_le_lt. intros K. assert (B : below (fneg (fq f 3)) (asin (B2R (sup a)))).
      { apply Z1. apply flt_E. split; [now apply nonnan_of_finite|]. split; [exact Nz|]. rewrite !E_B2R by assumption. rewrite V2. lra. }
      apply below_finite in B; [|assumption]. lra. }
    apply A2 in Lz. apply fle_E in Lz. destruct Lz as (Nu & _ & Lz). rewrite (E_B2R (fneg (fq f 2))), V1 in Lz by assumption.
    apply fle_E in O. destruct O as (O1 & O2 & O).
    change (sup (gasin a)) with (smin (f_next_up f z) (f_frac_pi_2_upper f)) in *.
    change (inf (gasin a)) with (smax (f_next_down f (m_asin m (inf a))) (fzero false)) in *.
    destruct (GA (inf a) F1 ltac:(lra)) as [[Fy _] _]. assert (Ny := next_down_nonnan _ (nonnan_of_finite _ Fy)).
    rewrite (proj2 (smin_E _ _ Nu NP)), (proj2 (smax_E _ (fzero false) Ny eq_refl)) in O. rewrite zero_E in O.
    assert (K := Rmax_r (E (f_next_down f (m_asin m (inf a)))) 0). assert (K' := Rmin_l (E (f_next_up f z)) (E (f_frac_pi_2_upper f))). lra.
  - set (w := m_acos m (sup a)) in *.
    assert (Dw : w <> finf true) by (intros K; rewrite K in Fw; discriminate Fw).
    destruct (next_down_adjacent w Nw Dw) as [A1 A2].
    assert (Lw : flt (fq f 14) w).
    { apply flt_E. split; [now apply nonnan_of_finite|]. split; [exact Nw|]. rewrite !E_B2R by assumption. rewrite V3.
      apply Rnot_le_lt. intros K. assert (B : above (fq f 16) (acos (B2R (sup a)))).
      { apply W2. apply flt_E. split; [exact Nw|]. split; [now apply nonnan_of_finite|]. rewrite !E_B2R by assumption. rewrite V4. lra. }
      apply above_finite in B; [|assumption]. lra. }
    apply A2 in Lw. apply fle_E in Lw. destruct Lw as (_ & Nu & Lw). rewrite (E_B2R (fq f 14)), V3 in Lw by assumption.
    apply fle_E in O. destruct O as (O1 & O2 & O).
    change (inf (gacos a)) with (smax (f_next_down f w) (fzero false)) in *.
    change (sup (gacos a)) with (smin (f_next_up f (m_acos m (inf a))) (f_frac_pi_2_upper f)) in *.
    destruct (GA (inf a) F1 ltac:(lra)) as [_ [Fy _]]. assert (Ny := next_up_nonnan _ (nonnan_of_finite _ Fy)).
    rewrite (proj2 (smin_E _ _ Ny NP)), (proj2 (smax_E _ (fzero false) Nu eq_refl)) in O. rewrite (E_B2R (f_frac_pi_2_upper f)) in O by assumption.
    assert (K := Rmax_l (E (f_next_down f w)) (E (fzero false : float f))). assert (K' := Rmin_r (E (f_next_up f (m_acos m (inf a)))) (B2R (f_frac_pi_2_upper f))). lra.
Qed.
Lemma inverted_case f : good_asin_acos (exact_libm f) /\ bounded (ZI f (-1) (-1)) /\
  -1 <= B2R (inf (ZI f (-1) (-1))) /\ B2R (sup (ZI f (-1) (-1))) <= - (1 / 2) /\ B2R (inf (ZI f (-1) (-1))) <= B2R (sup (ZI f (-1) (-1))).
Proof.
  destruct (ZI_ends (f := f) (m := exact_libm f) (-1) (-1) ltac:(lia) ltac:(lia)) as (F1 & V1 & F2 & V2).
  split; [apply exact_libm_good|]. split; [zi|]. rewrite V1, V2. lra.
Qed.

Lemma t_pos_neg f (m : libm f) (a : interval (float f)) : nonempty a ->
  (is_positive a = true <-> forall r, mem r a -> 0 < r) /\ (is_negative a = true <-> forall r, mem r a -> r < 0).
Proof. intros NE. destruct (t_signs a NE) as (A & B & _). now split. Qed.
Lemma t_nonstrict f (m : libm f) (a : interval (float f)) : nonempty a ->
  (is_nonnegative a = true <-> (forall r, mem r a -> 0 < r) \/ (forall r, mem r a <-> r = 0)) /\
  (is_nonpositive a = true <-> (forall r, mem r a -> r < 0) \/ (forall r, mem r a <-> r = 0)).
Proof. intros NE. apply (t_signs a NE). Qed.
Lemma t_zero_one f (m : libm f) (a : interval (float f)) : nonempty a ->
  (is_zero a = true <-> forall r, mem r a <-> r = 0) /\ (is_one a = true <-> forall r, mem r a <-> r = 1).
Proof. intros NE. split; [now apply t_is_zero|now apply t_is_one]. Qed.
Lemma t_in_range_strict f (m : libm f) (a lo hi : interval (float f)) : nonempty a -> nonempty lo -> nonempty hi ->
  (forall r l h, mem r a -> mem l lo -> mem h hi -> l < r < h) -> in_range a lo hi = true.
Proof.
  intros Na [l0 Nl] [h0 Nh] H. unfold in_range. apply andb_true_iff. split.
  - apply ige_spec; [assumption|now exists l0|]. left. intros r s M1 M2. now apply (H r s h0).
  - apply ile_spec; [assumption|now exists h0|]. left. intros r s M1 M2. now apply (H r l0 s).
Qed.
Lemma pi_close f (m : libm f) :
  (exists r, mem r (pi_lower : interval (float f)) /\ PI - / 2 ^ 20 < r) /\ (exists r, mem r (pi_upper : interval (float f)) /\ r < PI + / 2 ^ 20) /\
  (exists r, mem r (tau_lower : interval (float f)) /\ 2 * PI - / 2 ^ 20 < r) /\ (exists r, mem r (tau_upper : interval (float f)) /\ r < 2 * PI + / 2 ^ 20) /\
  (exists r, mem r (frac_pi_2_lower : interval (float f)) /\ PI / 2 - / 2 ^ 20 < r) /\ (exists r, mem r (frac_pi_2_upper : interval (float f)) /\ r < PI / 2 + / 2 ^ 20) /\
  (exists r, mem r (frac_pi_4_lower : interval (float f)) /\ PI / 4 - / 2 ^ 20 < r) /\ (exists r, mem r (frac_pi_4_upper : interval (float f)) /\ r < PI / 4 + / 2 ^ 20).
Proof.
  assert (PL := PI_lower_bound). assert (PU := PI_upper_bound).
  assert (Q : forall (x y : float f) (P : R -> Prop), finite x -> finite y -> B2R x <= B2R y -> P (B2R x) -> exists r, mem r (mkI x y) /\ P r).
  { intros x y P Fx Fy L HP. exists (B2R x). split; [|exact HP]. apply mem_mk; auto. lra. }
  split; [refine (Q (f_next_down f (f_pi_lower f)) (f_next_down f (f_pi_upper f)) (fun r => PI - / 2 ^ 20 < r) _ _ _ _)|].
  5: split; [refine (Q (f_next_up f (f_pi_lower f)) (f_next_up f (f_pi_upper f)) (fun r => r < PI + / 2 ^ 20) _ _ _ _)|].
  9: split; [refine (Q (f_next_down f (f_tau_lower f)) (f_next_down f (f_tau_upper f)) (fun r => 2 * PI - / 2 ^ 20 < r) _ _ _ _)|].
  13: split; [refine (Q (f_next_up f (f_tau_lower f)) (f_next_up f (f_tau_upper f)) (fun r => r < 2 * PI + / 2 ^ 20) _ _ _ _)|].
  17: split; [refine (Q (f_next_down f (f_frac_pi_2_lower f)) (f_next_down f (f_frac_pi_2_upper f)) (fun r => PI / 2 - / 2 ^ 20 < r) _ _ _ _)|].
  21: split; [refine (Q (f_next_up f (f_frac_pi_2_lower f)) (f_next_up f (f_frac_pi_2_upper f)) (fun r => r < PI / 2 + / 2 ^ 20) _ _ _ _)|].
  25: split; [refine (Q (f_next_down f (f_frac_pi_4_lower f)) (f_next_down f (f_frac_pi_4_upper f)) (fun r => PI / 4 - / 2 ^ 20 < r) _ _ _ _)|].
  29: refine (Q (f_next_up f (f_frac_pi_4_lower f)) (f_next_up f (f_frac_pi_4_upper f)) (fun r => r < PI / 4 + / 2 ^ 20) _ _ _ _).
  all: clear Q; clear m; destruct f; try (vm_compute; reflexivity).
  all: match goal with |- B2R ?x <= B2R ?y => b2r_eval x; b2r_eval y | |- _ < B2R ?x => b2r_eval x | |- B2R ?x < _ => b2r_eval x end; simpl bpow; lra.
Qed.
