(** Facts about float scalars added after testing against wrong programs. *)
From Coq Require Import ZArith Reals Bool List Lra Lia.
From Flocq Require Import Core BinarySingleNaN.
From Verif.Model Require Import FloatBase Scalar Float.
From Verif Require Import Spec.
From Verif.Proofs Require Import BitsLemmas FloatLemmas ScalarProofs.
Open Scope R_scope.

Section S.
Context {f : fmt} {m : libm f}.
Notation FT := (float f).

(** ** scalar defaults *)
Lemma square_rounds (x : FT) : finite x -> rounds_to (ssquare x) (B2R x * B2R x).
Proof. intros K. apply Rnd_rounds_to. exact (fmul_Rnd x x K K). Qed.
Lemma recip_rounds (x : FT) : finite x -> B2R x <> 0 -> rounds_to (recip x) (1 / B2R x).
Proof.
  intros K Z. apply Rnd_rounds_to. destruct (one_B2R (f := f)) as [F1 V1]. rewrite <- V1.
  exact (fdiv_Rnd (sone : FT) x F1 K Z).
Qed.
Lemma small_consts : B2R (szero : FT) = 0 /\ B2R (sone : FT) = 1 /\ B2R (stwo : FT) = 2 /\ B2R (half : FT) = 1 / 2.
Proof.
  split; [reflexivity|split; [|split]]; destruct f; match goal with |- B2R ?x = _ => b2r_eval x end; simpl bpow; lra.
Qed.
Lemma is_zero_one (x : FT) : (is_zero x = true <-> feq x (fzero false)) /\ (is_one x = true <-> feq x (sone : FT)).
Proof. split; [exact (seqb_spec x (fzero false))|exact (seqb_spec x (sone : FT))]. Qed.
End S.


Lemma scalar_consts f (m : libm f) :
  B2R (szero : float f) = 0 /\ B2R (sone : float f) = 1 /\ B2R (stwo : float f) = 2 /\ B2R (half : float f) = 1 / 2 /\
  forall x : float f, (is_zero x = true <-> feq x (szero : float f)) /\ (is_one x = true <-> feq x (sone : float f)).
Proof. destruct (small_consts (f := f) (m := m)) as (A & B & C & D). exact (conj A (conj B (conj C (conj D is_zero_one)))). Qed.
Lemma almost_eq_float f (m : libm f) (a b : float f) :
  (almost_eq a b = true <->
   finite a /\ finite b /\
   (rndf f (Rabs (B2R a - B2R b)) < rndf f (1 / 10 ^ 6) \/
    rndf f (Rabs (B2R a - B2R b)) <
      rndf f (Rmax (Rabs (B2R a)) (Rabs (B2R b)) *
              rndf f (match f with F32 => 1 / 10 ^ 4 | F64 => 1 / 10 ^ 6 end)))).
Proof.
  assert (NN : ~ nonnan (fnan : float f)) by (intros N; discriminate N).
  change (almost_eq a b) with (fequals a b). split.
  - intros H. assert (K : finite a /\ finite b).
    { split.
      - destruct a as [| s | | ]; try reflexivity; [pose proof (proj1 (fequals_inf_any f m b s)) as Q|pose proof (fequals_nan m (fnan : float f) b (or_introl NN)) as Q]; exact (False_ind _ (diff_true_false (eq_trans (eq_sym H) Q))).
      - destruct b as [| s | | ]; try reflexivity; [pose proof (proj2 (fequals_inf_any f m a s)) as Q|pose proof (fequals_nan m a (fnan : float f) (or_intror NN)) as Q]; exact (False_ind _ (diff_true_false (eq_trans (eq_sym H) Q))). }
    destruct K as [Fa Fb]. split; [exact Fa|split; [exact Fb|]]. now apply (fequals_spec_lit f m a b Fa Fb).
  - intros (Fa & Fb & H). now apply (fequals_spec_lit f m a b Fa Fb).
Qed.
