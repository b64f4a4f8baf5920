(** Exactly which values interval asin and acos contain. *)
From Coq Require Import ZArith Reals Bool Lra Lia.
From Flocq Require Import Core BinarySingleNaN.
From Verif.Model Require Import FloatBase Scalar Float Interval.
From Verif Require Import Spec SpecTrig.
From Verif.Proofs Require Import FloatLemmas ScalarProofs IntervalBase IntervalProofs IntervalProofs2 IntervalTrig IntervalTrig2.
Open Scope R_scope.

Section I.
Context {f : fmt} {m : libm f}.
Notation FT := (float f).
Notation IT := (interval (float f)).

Lemma quarter_iff r : mem r (i_new (szero : FT) (f_frac_pi_2_upper f)) <-> 0 <= r <= B2R (f_frac_pi_2_upper f).
Proof.
  split; [|intros [A B]; apply quarter; assumption]. intros [L U]. split; [exact L|]. exact (proj1 (above_finite _ _ (proj1 fpu_finite)) U).
Qed.
Lemma quarter_proper : proper (i_new (szero : FT) (f_frac_pi_2_upper f)).
Proof. split; [reflexivity|apply nonnan_of_finite, fpu_finite]. Qed.
Lemma asin_exact (a : IT) x : good_asin_acos m -> bounded a -> -1 <= B2R (inf a) -> B2R (sup a) <= 1 -> mem x a ->
  (mem (asin x) (gasin a) <-> 0 <= x /\ asin x <= B2R (frac_pi_2_upper : FT)).
Proof.
  intros GA B L U M. assert (R := proj1 (asin_raw a x GA B L U M)). assert (MX := mem_facts a x B M).
  assert (K := intersect_mem _ _ (asin x) (mem_proper _ _ R) quarter_proper). change (gasin a) with (i_intersect (i_map_monotonic_inc a (m_asin m)) (i_new (szero : FT) (f_frac_pi_2_upper f))).
  rewrite K, quarter_iff. split.
  - intros (_ & A & C). split; [|exact C]. destruct (Rle_or_lt 0 x) as [P|P]; [exact P|]. exfalso.
    assert (asin x < asin 0); [|rewrite asin_0 in H; lra]. assert (B1 := asin_bound x). rewrite asin_0. assert (B0 := PI_RGT_0).
    apply sin_increasing_0; try lra. rewrite sin_asin, sin_0; lra.
  - intros (A & C). split; [exact R|]. split; [|exact C]. rewrite <- asin_0. apply asin_mono; lra.
Qed.
Lemma acos_exact (a : IT) x : good_asin_acos m -> bounded a -> -1 <= B2R (inf a) -> B2R (sup a) <= 1 -> mem x a ->
  (mem (acos x) (gacos a) <-> acos x <= B2R (frac_pi_2_upper : FT)).
Proof.
  intros GA B L U M. assert (R := proj2 (asin_raw a x GA B L U M)). assert (MX := mem_facts a x B M).
  assert (K := intersect_mem _ _ (acos x) (mem_proper _ _ R) quarter_proper). change (gacos a) with (i_intersect (i_map_monotonic_dec a (m_acos m)) (i_new (szero : FT) (f_frac_pi_2_upper f))).
  rewrite K, quarter_iff. split; [tauto|]. intros C. split; [exact R|]. split; [apply acos_bound|exact C].
Qed.
End I.
