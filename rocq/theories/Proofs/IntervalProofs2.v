(** * Intervals: queries, order, midpoint, constants, composed expressions. *)
From Coq Require Import ZArith Reals Bool Lra Lia.
From Flocq Require Import Core BinarySingleNaN Mult_error.
From Verif.Model Require Import FloatBase Scalar Float Interval.
From Verif Require Import Spec SpecExpr.
From Verif.Proofs Require Import BitsLemmas FloatLemmas PiBounds ScalarProofs IntervalBase IntervalProofs.
Open Scope R_scope.

Lemma half_val_f f : finite (f_half f) /\ B2R (f_half f) = / 2.
Proof.
  split; [destruct f; reflexivity|].
  destruct f; match goal with |- B2R ?x = _ => b2r_eval x end; simpl bpow; lra.
Qed.

Section I.
Context {f : fmt} {m : libm f}.
Notation FT := (float f).
Notation IT := (interval (float f)).
Notation nd := (f_next_down f).
Notation nu := (f_next_up f).
Notation top := (bpow radix2 (emax f)).

Lemma nonempty_facts (a : IT) : nonempty a ->
  nonnan (inf a) /\ nonnan (sup a) /\ inf a <> finf false /\ sup a <> finf true /\ E (inf a) <= E (sup a).
Proof.
  intros [r H]. pose proof (mem_ordered _ _ H) as O. apply fle_E in O. apply mem_E in H. tauto.
Qed.
Lemma inf_cases (a : IT) : nonempty a ->
  (finite (inf a) /\ mem (B2R (inf a)) a) \/ (inf a = finf true /\ forall c, exists r, mem r a /\ r < c).
Proof.
  intros NE. pose proof (nonempty_facts a NE) as (N1 & N2 & D1 & D2 & O). destruct NE as [r [A1 A2]].
  destruct (below_inv _ _ A1) as (_ & _ & [H|[F L]]).
  - right. split; auto. intros c. exists (Rmin r (c - 1)). split; [split|].
    + rewrite H. reflexivity.
    + apply above_trans with r; auto. apply Rmin_l.
    + eapply Rle_lt_trans; [apply Rmin_r|lra].
  - left. split; auto. split; [apply below_finite; auto; lra|]. apply above_E; auto. rewrite <- E_B2R; auto.
Qed.
Lemma sup_cases (a : IT) : nonempty a ->
  (finite (sup a) /\ mem (B2R (sup a)) a) \/ (sup a = finf false /\ forall c, exists r, mem r a /\ c < r).
Proof.
  intros NE. pose proof (nonempty_facts a NE) as (N1 & N2 & D1 & D2 & O). destruct NE as [r [A1 A2]].
  destruct (above_inv _ _ A2) as (_ & _ & [H|[F L]]).
  - right. split; auto. intros c. exists (Rmax r (c + 1)). split; [split|].
    + apply below_trans with r; auto. apply Rmax_l.
    + rewrite H. reflexivity.
    + eapply Rlt_le_trans; [|apply Rmax_r]. lra.
  - left. split; auto. split; [|apply above_finite; auto; lra]. apply below_E; auto. rewrite <- E_B2R; auto.
Qed.

Lemma lower_iff (a : IT) (t : FT) : nonempty a -> nonnan t ->
  (fle t (inf a) <-> forall r, mem r a -> below t r).
Proof.
  intros NE Nt. pose proof (nonempty_facts a NE) as (N1 & N2 & D1 & D2 & O). rewrite fle_E. split.
  - intros (_ & _ & H) r [A1 _]. now apply (below_le t (inf a)).
  - intros H. split; auto. split; auto. pose proof (E_range t). pose proof (E_range (inf a)).
    destruct (inf_cases a NE) as [[F M]|[Hi Hu]].
    + apply H in M. apply below_inv in M. rewrite <- E_B2R in M by assumption.
      destruct M as (_ & _ & [->|[_ ?]]); [simpl in *; lra|assumption].
    + destruct (Hu (E t)) as [r [M L]]. apply H in M. apply below_inv in M.
      destruct M as (_ & _ & [->|[_ ?]]); [simpl in *; lra|lra].
Qed.
Lemma upper_iff (a : IT) (t : FT) : nonempty a -> nonnan t ->
  (fle (sup a) t <-> forall r, mem r a -> above t r).
Proof.
  intros NE Nt. pose proof (nonempty_facts a NE) as (N1 & N2 & D1 & D2 & O). rewrite fle_E. split.
  - intros (_ & _ & H) r [_ A2]. now apply (above_ge t (sup a)).
  - intros H. split; auto. split; auto. pose proof (E_range t). pose proof (E_range (sup a)).
    destruct (sup_cases a NE) as [[F M]|[Hi Hu]].
    + apply H in M. apply above_inv in M. rewrite <- E_B2R in M by assumption.
      destruct M as (_ & _ & [->|[_ ?]]); [simpl in *; lra|assumption].
    + destruct (Hu (E t)) as [r [M L]]. apply H in M. apply above_inv in M.
      destruct M as (_ & _ & [->|[_ ?]]); [simpl in *; lra|lra].
Qed.
Lemma lower_strict (a : IT) (t : FT) : nonempty a -> finite t ->
  (flt t (inf a) <-> forall r, mem r a -> B2R t < r).
Proof.
  intros NE Ft. pose proof (nonempty_facts a NE) as (N1 & N2 & D1 & D2 & O). rewrite flt_E.
  pose proof (nonnan_of_finite t Ft). rewrite (E_B2R t) by assumption. pose proof (finite_E_range t Ft) as Rt.
  rewrite E_B2R in Rt by assumption. split.
  - intros (_ & _ & H1) r [A1 _]. apply below_inv in A1. destruct A1 as (_ & _ & [K|[_ ?]]); [rewrite K in H1; simpl in H1; lra|lra].
  - intros H1. split; auto. split; auto. destruct (inf_cases a NE) as [[F M]|[Hi Hu]].
    + rewrite E_B2R by assumption. auto.
    + destruct (Hu (B2R t)) as [r [M L]]. apply H1 in M. lra.
Qed.
Lemma upper_strict (a : IT) (t : FT) : nonempty a -> finite t ->
  (flt (sup a) t <-> forall r, mem r a -> r < B2R t).
Proof.
  intros NE Ft. pose proof (nonempty_facts a NE) as (N1 & N2 & D1 & D2 & O). rewrite flt_E.
  pose proof (nonnan_of_finite t Ft). rewrite (E_B2R t) by assumption. pose proof (finite_E_range t Ft) as Rt.
  rewrite E_B2R in Rt by assumption. split.
  - intros (_ & _ & H1) r [_ A1]. apply above_inv in A1. destruct A1 as (_ & _ & [K|[_ ?]]); [rewrite K in H1; simpl in H1; lra|lra].
  - intros H1. split; auto. split; auto. destruct (sup_cases a NE) as [[F M]|[Hi Hu]].
    + rewrite E_B2R by assumption. auto.
    + destruct (Hu (B2R t)) as [r [M L]]. apply H1 in M. lra.
Qed.

(** ** C17 *)
Lemma contains_spec (a : IT) (t : FT) : finite t -> (i_contains a t = true <-> mem (B2R t) a).
Proof.
  intros F. pose proof (nonnan_of_finite t F) as N. unfold i_contains. rewrite andb_true_iff.
  change ((ge_of fcmp (sup a) t = true /\ le_of fcmp (inf a) t = true) <-> mem (B2R t) a).
  rewrite ge_true, le_true. rewrite (E_B2R t) by assumption. pose proof (finite_E_range t F) as Rt. rewrite E_B2R in Rt by assumption. split.
  - intros ((N1 & _ & H1) & (N2 & _ & H2)). split; [apply below_E|apply above_E]; auto; intros K; rewrite K in *; simpl in *; lra.
  - intros M. pose proof (mem_E _ _ M) as (N1 & N2 & _ & _ & M1 & M2). pose proof (top_pos (f := f)).
    split; (split; [auto|split; [auto|]]).
    + destruct M2 as [K|[_ ?]]; [rewrite K; simpl; lra|assumption].
    + destruct M1 as [K|[_ ?]]; [rewrite K; simpl; lra|assumption].
Qed.
Lemma in_range_i_spec (a : IT) (t0 t1 : FT) : nonempty a -> nonnan t0 -> nonnan t1 ->
  (i_in_range a t0 t1 = true <-> forall r, mem r a -> below t0 r /\ above t1 r).
Proof.
  intros NE N0 N1. unfold i_in_range. rewrite andb_true_iff, sge_spec, sle_spec, lower_iff, upper_iff by assumption.
  split; [intros [H1 H2] r M; auto|intros H; split; intros r M; now apply H].
Qed.
Lemma is_exact_spec (a : IT) : nonempty a -> (i_is_exact a = true <-> exists c, forall r, mem r a <-> r = c).
Proof.
  intros NE. pose proof (nonempty_facts a NE) as (N1 & N2 & D1 & D2 & O).
  unfold i_is_exact. rewrite seqb_spec, feq_E. pose proof (top_pos (f := f)). split.
  - intros (_ & _ & H0). destruct (inf_cases a NE) as [[F1 M1]|[Hi _]];
      [|rewrite Hi in H0; simpl in H0; exfalso; apply D2; apply is_inf_neg; auto].
    destruct (sup_cases a NE) as [[F2 M2]|[Hi _]];
      [|rewrite Hi in H0; simpl in H0; exfalso; apply D1; apply is_inf_pos; auto].
    rewrite !E_B2R in H0 by assumption. exists (B2R (inf a)). intros r. split.
    + intros [A1 A2]. apply below_finite in A1; auto. apply above_finite in A2; auto. lra.
    + now intros ->.
  - intros [c H0]. split; auto. split; auto.
    destruct (inf_cases a NE) as [[F1 M1]|[_ Hu]]; [|destruct (Hu c) as [r [M L]]; apply H0 in M; lra].
    destruct (sup_cases a NE) as [[F2 M2]|[_ Hu]]; [|destruct (Hu c) as [r [M L]]; apply H0 in M; lra].
    apply H0 in M1. apply H0 in M2. rewrite !E_B2R by assumption. lra.
Qed.
Lemma subset_iff (a b : IT) : nonempty a -> proper b ->
  ((forall r, mem r a -> mem r b) <-> fle (inf b) (inf a) /\ fle (sup a) (sup b)).
Proof.
  intros NE [P1 P2]. rewrite lower_iff, upper_iff by assumption. split.
  - intros H. split; intros r M; now apply H.
  - intros [H1 H2] r M. split; auto.
Qed.
Lemma is_same_spec (a b : IT) : nonempty a -> nonempty b -> (i_is_same a b = true <-> forall r, mem r a <-> mem r b).
Proof.
  intros Na Nb. pose proof (nonempty_facts a Na) as (N1 & N2 & _). pose proof (nonempty_facts b Nb) as (N3 & N4 & _).
  unfold i_is_same. rewrite andb_true_iff, !seqb_spec, !feq_E. split.
  - intros [(_ & _ & H1) (_ & _ & H2)] r.
    assert (S1 : forall r, mem r a -> mem r b) by (apply subset_iff; try split; auto; apply fle_E; repeat split; auto; lra).
    assert (S2 : forall r, mem r b -> mem r a) by (apply subset_iff; try split; auto; apply fle_E; repeat split; auto; lra).
    split; auto.
  - intros H.
    assert (S1 : forall r, mem r a -> mem r b) by (intros; now apply H).
    assert (S2 : forall r, mem r b -> mem r a) by (intros; now apply H).
    assert (Pa : proper a) by now split. assert (Pb : proper b) by now split.
    apply subset_iff in S1; [|assumption|assumption]. apply subset_iff in S2; [|assumption|assumption].
    rewrite !fle_E in S1, S2. repeat split; auto; lra.
Qed.
Lemma sign_queries (a : IT) : nonempty a ->
  (i_is_positive a = true <-> forall r, mem r a -> 0 < r) /\
  (i_is_negative a = true <-> forall r, mem r a -> r < 0) /\
  (i_is_nonnegative a = true <-> forall r, mem r a -> 0 <= r) /\
  (i_is_nonpositive a = true <-> forall r, mem r a -> r <= 0).
Proof.
  intros NE. unfold i_is_positive, i_is_negative, i_is_nonnegative, i_is_nonpositive.
  rewrite sgt_spec, slt_spec, sge_spec, sle_spec.
  change (szero : FT) with (fzero false : FT).
  rewrite lower_strict, upper_strict by (auto; reflexivity). rewrite lower_iff, upper_iff by (auto; reflexivity).
  repeat split; auto; intros H r M; apply H in M; auto; apply (below_finite (fzero false : FT)) || apply (above_finite (fzero false : FT)) || idtac; auto.
Qed.

(** ** C18 *)

Lemma format_double r : generic_format radix2 (SpecFloat.fexp (prec f) (emax f)) r ->
  generic_format radix2 (SpecFloat.fexp (prec f) (emax f)) (2 * r).
Proof.
  intros H. replace (2 * r) with (r * bpow radix2 1) by (change (bpow radix2 1) with 2; ring).
  apply (mult_bpow_pos_exact_FLT radix2 (SpecFloat.emin (prec f) (emax f)) (prec f) r 1); [exact H|lia].
Qed.
Lemma approx_in (a : IT) : bounded a -> ordered a ->
  Rabs (rndf f (B2R (inf a) + B2R (sup a))) < top ->
  finite (i_approx a) /\ mem (B2R (i_approx a)) a.
Proof.
  intros [F1 F2] O HO. apply fle_E in O. destruct O as (N1 & N2 & O). rewrite !E_B2R in O by assumption.
  destruct (half_val_f f) as [Fh Vh].
  change (i_approx a) with (fmul (fadd (inf a) (sup a)) (f_half f)).
  pose proof (fadd_Rnd _ _ F1 F2) as [Ns Es].
  apply Rabs_lt_inv in HO. rewrite clampE_range in Es by lra.
  assert (Fs : finite (fadd (inf a) (sup a))) by (apply finite_of_range; auto; rewrite Es; lra).
  rewrite E_B2R in Es by assumption.
  pose proof (fmul_Rnd _ _ Fs Fh) as [Nz Ez]. rewrite Vh, Es in Ez.
  set (S := rndf f (B2R (inf a) + B2R (sup a))) in *.
  assert (G1 : generic_format radix2 (SpecFloat.fexp (prec f) (emax f)) (B2R (inf a))) by (rewrite <- E_B2R by assumption; apply generic_E).
  assert (G2 : generic_format radix2 (SpecFloat.fexp (prec f) (emax f)) (B2R (sup a))) by (rewrite <- E_B2R by assumption; apply generic_E).
  assert (L1 : 2 * B2R (inf a) <= S). { apply Rle_trans with (rndf f (2 * B2R (inf a))); [rewrite rnd_id; [lra|now apply format_double]|apply rnd_le; lra]. }
  assert (L2 : S <= 2 * B2R (sup a)). { apply Rle_trans with (rndf f (2 * B2R (sup a))); [apply rnd_le; lra|rewrite rnd_id; [lra|now apply format_double]]. }
  assert (L3 : B2R (inf a) <= rndf f (S * / 2)). { apply Rle_trans with (rndf f (B2R (inf a))); [rewrite rnd_id; [lra|assumption]|apply rnd_le; lra]. }
  assert (L4 : rndf f (S * / 2) <= B2R (sup a)). { apply Rle_trans with (rndf f (B2R (sup a))); [apply rnd_le; lra|rewrite rnd_id; [lra|assumption]]. }
  pose proof (finite_E_range _ F1) as R1. pose proof (finite_E_range _ F2) as R2. rewrite E_B2R in R1, R2 by assumption.
  rewrite clampE_range in Ez by lra.
  assert (Fz : finite (fmul (fadd (inf a) (sup a)) (f_half f))) by (apply finite_of_range; auto; rewrite Ez; lra).
  rewrite E_B2R in Ez by assumption. split; auto. rewrite Ez.
  split; [apply below_finite|apply above_finite]; auto.
Qed.

(** ** C19 *)
Lemma ieqb_E (a b : IT) : i_eqb a b = true <-> feq (inf a) (sup a) /\ feq (inf b) (sup b) /\ feq (inf a) (inf b).
Proof. unfold i_eqb, i_is_exact. rewrite !andb_true_iff, !seqb_spec. tauto. Qed.
Lemma icmp_lt (a b : IT) : i_cmp a b = Some Lt <-> flt (sup a) (inf b).
Proof.
  unfold i_cmp. destruct (i_eqb a b) eqn:He.
  - apply ieqb_E in He. rewrite !feq_E in He. split; [discriminate|]. rewrite flt_E. lra.
  - destruct (sup a < inf b)%S eqn:H1.
    + apply slt_spec in H1. tauto.
    + split; [destruct (sup b < inf a)%S; discriminate|]. intros H. apply slt_spec in H. exfalso. pose proof (eq_trans (eq_sym H) H1). discriminate.
Qed.
Lemma icmp_gt (a b : IT) : ordered a -> ordered b -> (i_cmp a b = Some Gt <-> flt (sup b) (inf a)).
Proof.
  intros Oa Ob. apply fle_E in Oa. apply fle_E in Ob.
  unfold i_cmp. destruct (i_eqb a b) eqn:He.
  - apply ieqb_E in He. rewrite !feq_E in He. split; [discriminate|]. rewrite flt_E. lra.
  - destruct (sup a < inf b)%S eqn:H1.
    + apply slt_spec, flt_E in H1. split; [discriminate|]. rewrite flt_E. lra.
    + destruct (sup b < inf a)%S eqn:H2.
      * apply slt_spec in H2. tauto.
      * split; [discriminate|]. intros H. apply slt_spec in H. exfalso. pose proof (eq_trans (eq_sym H) H2). discriminate.
Qed.
Lemma icmp_eq (a b : IT) : i_cmp a b = Some Eq <-> i_eqb a b = true.
Proof.
  unfold i_cmp. destruct (i_eqb a b) eqn:He; [tauto|].
  split; [|discriminate]. destruct (sup a < inf b)%S; [discriminate|]. destruct (sup b < inf a)%S; discriminate.
Qed.
Lemma flt_sets (a b : IT) : nonempty a -> nonempty b ->
  (flt (sup a) (inf b) <-> forall r s, mem r a -> mem s b -> r < s).
Proof.
  intros Na Nb. pose proof (nonempty_facts a Na) as (N1 & N2 & D1 & D2 & _). pose proof (nonempty_facts b Nb) as (N3 & N4 & D3 & D4 & _).
  rewrite flt_E. pose proof (E_range (sup a)). pose proof (E_range (inf b)). split.
  - intros (_ & _ & H1) r s [_ A2] [B1 _]. apply above_inv in A2. apply below_inv in B1.
    destruct A2 as (_ & _ & [K|[_ ?]]); [rewrite K in *; simpl in *; lra|].
    destruct B1 as (_ & _ & [K|[_ ?]]); [rewrite K in *; simpl in *; lra|]. lra.
  - intros H1. split; auto. split; auto. destruct Nb as [s0 S0]. destruct Na as [r0 R0].
    destruct (sup_cases a) as [[F1 M1]|[_ Hu]]; [now exists r0| |].
    + destruct (inf_cases b) as [[F2 M2]|[_ Hu]]; [now exists s0| |].
      * rewrite !E_B2R by assumption. auto.
      * destruct (Hu (B2R (sup a))) as [s [M L]]. pose proof (H1 _ _ M1 M). lra.
    + destruct (Hu s0) as [r [M L]]. pose proof (H1 _ _ M S0). lra.
Qed.
Lemma ilt_spec (a b : IT) : nonempty a -> nonempty b ->
  (slt a b = true <-> forall r s, mem r a -> mem s b -> r < s).
Proof.
  intros Na Nb. rewrite <- flt_sets by assumption. rewrite <- icmp_lt.
  change (slt a b) with (lt_of i_cmp a b). unfold lt_of. destruct (i_cmp a b) as [[]|]; split; easy.
Qed.
Lemma nonempty_ordered (a : IT) : nonempty a -> ordered a.
Proof. intros [r H]. now apply (mem_ordered r). Qed.
Lemma igt_spec (a b : IT) : nonempty a -> nonempty b ->
  (sgt a b = true <-> forall r s, mem r a -> mem s b -> s < r).
Proof.
  intros Na Nb.
  assert (K : (forall r s, mem r a -> mem s b -> s < r) <-> (forall s r, mem s b -> mem r a -> s < r)) by firstorder.
  rewrite K, <- flt_sets by assumption. rewrite <- icmp_gt by now apply nonempty_ordered.
  change (sgt a b) with (gt_of i_cmp a b). unfold gt_of. destruct (i_cmp a b) as [[]|]; split; easy.
Qed.
Lemma ieq_spec (a b : IT) : nonempty a -> nonempty b ->
  (seqb a b = true <-> exists c, forall r, (mem r a <-> r = c) /\ (mem r b <-> r = c)).
Proof.
  intros Na Nb. change (seqb a b) with (i_eqb a b). unfold i_eqb. rewrite !andb_true_iff.
  rewrite (is_exact_spec a Na), (is_exact_spec b Nb), seqb_spec. split.
  - intros [[[c Hc] [d Hd]] He]. exists c.
    assert (c = d).
    { destruct (inf_cases a Na) as [[F1 M1]|[_ Hu]]; [|destruct (Hu c) as [r [M L]]; apply Hc in M; lra].
      destruct (inf_cases b Nb) as [[F2 M2]|[_ Hu]]; [|destruct (Hu d) as [r [M L]]; apply Hd in M; lra].
      apply Hc in M1. apply Hd in M2. apply feq_E in He. rewrite !E_B2R in He by assumption. lra. }
    subst d. intros r. split; auto.
  - intros [c H]. split; [split; exists c; intros r; apply H|].
    destruct (inf_cases a Na) as [[F1 M1]|[_ Hu]]; [|destruct (Hu c) as [r [M L]]; apply H in M; lra].
    destruct (inf_cases b Nb) as [[F2 M2]|[_ Hu]]; [|destruct (Hu c) as [r [M L]]; apply H in M; lra].
    apply H in M1. apply H in M2. apply feq_E. rewrite !E_B2R by assumption.
    repeat split; try now apply nonnan_of_finite. lra.
Qed.
Lemma icmp_antisym (a b : IT) : ordered a -> ordered b ->
  i_cmp b a = match i_cmp a b with Some c => Some (CompOpp c) | None => None end.
Proof.
  intros Oa Ob.
  assert (S : i_eqb b a = i_eqb a b).
  { apply eq_true_iff_eq. rewrite !ieqb_E, !feq_E. intuition. }
  destruct (i_cmp a b) as [[]|] eqn:H.
  - apply icmp_eq in H. apply icmp_eq. congruence.
  - apply icmp_lt in H. now apply icmp_gt.
  - apply icmp_gt in H; auto. now apply icmp_lt.
  - destruct (i_cmp b a) as [[]|] eqn:H'; auto.
    + apply icmp_eq in H'. rewrite S in H'. apply icmp_eq in H'. congruence.
    + apply icmp_lt in H'. apply icmp_gt in H'; auto. congruence.
    + apply icmp_gt in H'; auto. apply icmp_lt in H'. congruence.
Qed.
Lemma icmp_trans (a b d : IT) c : ordered a -> ordered b -> ordered d ->
  i_cmp a b = Some c -> i_cmp b d = Some c -> i_cmp a d = Some c.
Proof.
  intros Oa Ob Od. destruct c.
  - rewrite !icmp_eq, !ieqb_E, !feq_E. intuition congruence.
  - rewrite !icmp_lt, !flt_E. apply fle_E in Ob. intuition lra.
  - rewrite !icmp_gt, !flt_E by assumption. apply fle_E in Ob. intuition lra.
Qed.
Lemma icmp_scalar (a : IT) (t : FT) : i_cmp_s a t = i_cmp a (i_from t) /\ i_eqb_s a t = i_eqb a (i_from t).
Proof.
  assert (K : i_eqb_s a t = i_eqb a (i_from t)).
  { apply eq_true_iff_eq. rewrite ieqb_E. unfold i_eqb_s, i_is_exact. rewrite andb_true_iff, !seqb_spec.
    cbn [i_from i_new inf sup]. rewrite !feq_E. intuition. }
  split; auto. unfold i_cmp_s, i_cmp. rewrite K. reflexivity.
Qed.

(** ** extend_by_ulp *)
Lemma extend_incl (a : IT) r : mem r a -> mem r (i_extend_by_ulp a).
Proof.
  intros [A1 A2]. pose proof (below_nn _ _ A1). pose proof (above_nn _ _ A2). split.
  - apply (below_le _ (inf a)); auto; [now apply next_down_le|now apply next_down_nonnan].
  - apply (above_ge _ (sup a)); auto; [now apply next_up_ge|now apply next_up_nonnan].
Qed.

(** ** C25 *)
Lemma sqrt_nan_neg (x : FT) : nonnan (fsqrt x) -> 0 <= E x.
Proof.
  intros H. pose proof (top_pos (f := f)). destruct x as [|[]| |s mm e B]; simpl; try lra; try easy.
  destruct s; [easy|]. apply F2R_ge_0. simpl. lia.
Qed.
Lemma gsqrt_proper (a : IT) : proper (i_gsqrt a) -> 0 <= E (inf a) /\ nonnan (inf a).
Proof.
  intros [P1 P2]. unfold i_gsqrt, i_from_pair, i_new, min_max in *.
  assert (K : nonnan (nd (fsqrt (inf a)))).
  { revert P1 P2. cbn [inf sup].
    change (next_down (gsqrt (inf a))) with (nd (fsqrt (inf a))). change (next_up (gsqrt (sup a))) with (nu (fsqrt (sup a))).
    destruct (_ < _)%S; cbn [fst snd]; auto. }
  apply next_nn_inv in K. split; [now apply sqrt_nan_neg|]. destruct (inf a); easy.
Qed.

Lemma everywhere_here (P : IT -> Prop) env (e : expr f) : everywhere P env e -> P (ieval env e).
Proof. destruct e; simpl; tauto. Qed.

Lemma fundamental (e : expr f) env renv r :
  (forall n, mem (renv n) (env n)) -> reval renv e r -> everywhere proper env e -> no_double_straddle env e ->
  mem r (ieval env e).
Proof.
  intros HE HR. induction HR; intros HP HS; cbn [ieval].
  - apply HE.
  - apply neg_mem, IHHR; [apply HP|apply HS].
  - apply abs_incl, IHHR; [apply HP|apply HS].
  - apply square_incl, IHHR; [apply HP|apply HS].
  - destruct HP as [HP HP']. cbn [ieval] in HP. apply gsqrt_proper in HP. apply gsqrt_incl; [now apply IHHR|].
    apply fle_E. repeat split; tauto.
  - apply extend_incl, IHHR; [apply HP|apply HS].
  - destruct HP as (_ & HP1 & HP2), HS as [HS1 HS2]. apply add_incl; auto.
  - destruct HP as (_ & HP1 & HP2), HS as [HS1 HS2]. apply sub_incl; auto.
  - destruct HP as (HP & HP1 & HP2), HS as (HS1 & HS2 & HS3). apply mul_incl; auto.
  - destruct HP as (_ & HP1 & HP2), HS as [HS1 HS2]. apply div_incl; auto.
  - destruct HP as (_ & HP1 & HP2), HS as [HS1 HS2]. apply min_incl; auto.
  - destruct HP as (_ & HP1 & HP2), HS as [HS1 HS2]. apply max_incl; auto.
  - destruct HP as [HP HP']. apply add_s_incl; auto.
  - destruct HP as [HP HP']. apply sub_s_incl; auto.
  - destruct HP as [HP HP']. apply mul_s_incl; auto.
  - destruct HP as [HP HP']. apply div_s_incl; auto.
Qed.

(** ** C20 *)
Lemma bounded_mem (a : IT) : bounded a -> ordered a -> exists r, mem r a.
Proof. intros B O. exists (B2R (inf a)). now apply bounded_nonempty. Qed.
Lemma div_ordered (a b : IT) : nonempty a -> nonempty b -> ordered (i_div a b).
Proof.
  intros [r Ha] [s Hb]. destruct (Req_dec s 0) as [->|H].
  - rewrite div_zero_whole by assumption. apply fle_E. repeat split. simpl. pose proof (top_pos (f := f)). lra.
  - apply (mem_ordered (r / s)). now apply div_incl.
Qed.
Lemma div_s_ordered (a : IT) (t : FT) : nonempty a -> finite t -> ordered (i_div_s a t).
Proof.
  intros [r Ha] Ft. destruct (Req_dec (B2R t) 0) as [H|H].
  - rewrite div_s_zero by assumption. apply fle_E. repeat split. simpl. pose proof (top_pos (f := f)). lra.
  - apply (mem_ordered (r / B2R t)). now apply div_s_incl.
Qed.

Lemma step_ordered (a b : IT) (t : FT) : bounded a -> ordered a -> bounded b -> ordered b -> finite t ->
  ordered (sneg a) /\ ordered (sabs a) /\ ordered (ssquare a) /\ ordered (i_extend_by_ulp a) /\
  (fle (fzero false) (inf a) -> ordered (i_sqrt a) /\ ordered (gsqrt a)) /\
  ordered (sadd a b) /\ ordered (ssub a b) /\ ordered (smul a b) /\ ordered (sdiv a b) /\
  ordered (smin a b) /\ ordered (smax a b) /\ ordered (i_union a b) /\
  ordered (i_add_s a t) /\ ordered (i_sub_s a t) /\ ordered (i_mul_s a t) /\ ordered (i_div_s a t).
Proof.
  intros Ba Oa Bb Ob Ft. destruct (bounded_mem a Ba Oa) as [r Ma]. destruct (bounded_mem b Bb Ob) as [s Mb].
  assert (NEa : nonempty a) by now exists r. assert (NEb : nonempty b) by now exists s.
  split; [eapply mem_ordered, neg_mem; eassumption|].
  split; [eapply mem_ordered, abs_incl; eassumption|].
  split; [eapply mem_ordered, square_incl; eassumption|].
  split; [eapply mem_ordered, extend_incl; eassumption|].
  split; [intros H; split; [eapply mem_ordered, sqrt_incl; eassumption|eapply mem_ordered, gsqrt_incl; eassumption]|].
  split; [eapply mem_ordered, add_incl; eassumption|].
  split; [eapply mem_ordered, sub_incl; eassumption|].
  split; [now apply mul_ordered|].
  split; [now apply div_ordered|].
  split; [eapply mem_ordered, min_incl; eassumption|].
  split; [eapply mem_ordered, max_incl; eassumption|].
  split.
  { apply (mem_ordered r). apply union_mem; try (eapply mem_proper; eassumption). destruct Ma; auto. }
  split; [eapply mem_ordered, add_s_incl; eassumption|].
  split; [eapply mem_ordered, sub_s_incl; eassumption|].
  split; [eapply mem_ordered, mul_s_incl; try eassumption; now apply mul_s_proper|].
  now apply div_s_ordered.
Qed.

Lemma sequences_ordered (e : expr f) env :
  (forall n, ordered (env n)) -> scalars_finite e -> everywhere bounded env e -> everywhere ordered env e.
Proof.
  intros HE. induction e; cbn [scalars_finite everywhere]; intros HS HB.
  1: split; [apply HE|exact I].
  all: match goal with
  | H : scalars_finite ?e1 /\ scalars_finite ?e2 |- _ => destruct HS as [HS1 HS2]; destruct HB as (HB & HB1 & HB2);
      specialize (IHe1 HS1 HB1); specialize (IHe2 HS2 HB2);
      pose proof (everywhere_here _ _ _ IHe1) as O1; pose proof (everywhere_here _ _ _ IHe2) as O2;
      pose proof (everywhere_here _ _ _ HB1) as B1; pose proof (everywhere_here _ _ _ HB2) as B2;
      split; [|split; assumption];
      pose proof (step_ordered (ieval env e1) (ieval env e2) (fzero false) B1 O1 B2 O2 eq_refl); cbn [ieval]; tauto
  | H : scalars_finite ?e /\ finite ?t |- _ => destruct HS as [HS1 HS2]; destruct HB as (HB & HB1);
      specialize (IHe HS1 HB1);
      pose proof (everywhere_here _ _ _ IHe) as O1; pose proof (everywhere_here _ _ _ HB1) as B1;
      split; [|assumption];
      pose proof (step_ordered (ieval env e) (ieval env e) t B1 O1 B1 O1 HS2); cbn [ieval]; tauto
  | _ => destruct HB as (HB & HB1); specialize (IHe HS HB1);
      pose proof (everywhere_here _ _ _ IHe) as O1; pose proof (everywhere_here _ _ _ HB1) as B1;
      split; [|assumption];
      pose proof (step_ordered (ieval env e) (ieval env e) (fzero false) B1 O1 B1 O1 eq_refl) as K; cbn [ieval] in *; try tauto
  end.
  destruct HB as [P1 P2]. assert (P : proper (gsqrt (ieval env e))) by (split; now apply nonnan_of_finite).
  apply gsqrt_proper in P. assert (fle (fzero false) (inf (ieval env e))) by (apply fle_E; repeat split; tauto). tauto.
Qed.
End I.

(** ** C24 *)
Lemma finite_consts : forall f, finite (f_pi_lower f) /\ finite (f_pi_upper f) /\ finite (f_tau_lower f) /\ finite (f_tau_upper f) /\
  finite (f_frac_pi_2_lower f) /\ finite (f_frac_pi_2_upper f) /\ finite (f_frac_pi_4_lower f) /\ finite (f_frac_pi_4_upper f).
Proof. intros []; repeat split; vm_compute; reflexivity. Qed.
Lemma mem_mk f (x y : float f) r : finite x -> finite y -> B2R x <= r -> r <= B2R y -> mem r (mkI x y).
Proof. intros Fx Fy H1 H2. split; cbn [inf sup]; [apply below_finite|apply above_finite]; assumption. Qed.
Lemma not_mem_mk f (x y : float f) r : finite y -> B2R y < r -> ~ mem r (mkI x y).
Proof. intros Fy H [_ K]. cbn [sup] in K. apply above_finite in K; [|assumption]. lra. Qed.
Lemma const_f64 (m : libm F64) :
  mem PI (pi : interval (float F64)) /\ mem (2 * PI) (tau : interval (float F64)) /\
  mem (PI / 2) (frac_pi_2 : interval (float F64)) /\ mem (PI / 4) (frac_pi_4 : interval (float F64)).
Proof.
  pose proof (lower_consts F64) as (L1 & L2 & L3 & L4). pose proof upper_consts_f64 as (U1 & U2 & U3 & U4).
  pose proof (finite_consts F64) as (F1 & F2 & F3 & F4 & F5 & F6 & F7 & F8).
  split; [exact (mem_mk _ _ _ _ F1 F2 L1 U1)|]. split; [exact (mem_mk _ _ _ _ F3 F4 L2 U2)|].
  split; [exact (mem_mk _ _ _ _ F5 F6 L3 U3)|exact (mem_mk _ _ _ _ F7 F8 L4 U4)].
Qed.
Lemma const_f32_not (m : libm F32) :
  ~ mem PI (pi : interval (float F32)) /\ ~ mem (2 * PI) (tau : interval (float F32)) /\
  ~ mem (PI / 2) (frac_pi_2 : interval (float F32)) /\ ~ mem (PI / 4) (frac_pi_4 : interval (float F32)).
Proof.
  pose proof upper_consts_f32 as (U1 & U2 & U3 & U4).
  pose proof (finite_consts F32) as (F1 & F2 & F3 & F4 & F5 & F6 & F7 & F8).
  split; [exact (not_mem_mk _ (f_pi_lower F32) _ _ F2 U1)|]. split; [exact (not_mem_mk _ (f_tau_lower F32) _ _ F4 U2)|].
  split; [exact (not_mem_mk _ (f_frac_pi_2_lower F32) _ _ F6 U3)|exact (not_mem_mk _ (f_frac_pi_4_lower F32) _ _ F8 U4)].
Qed.
Lemma const_half f (m : libm f) : mem (1 / 2) (half : interval (float f)).
Proof.
  destruct (half_val_f f) as [F V]. split; [apply (below_finite (f_half f))|apply (above_finite (f_half f))]; auto; rewrite V; lra.
Qed.
