(** The product of two intervals that both contain zero strictly inside. *)
From Coq Require Import ZArith Reals Bool Lra Lia.
From Flocq Require Import Core BinarySingleNaN.
From Verif.Model Require Import FloatBase Scalar Float Interval.
From Verif Require Import Spec.
From Verif.Proofs Require Import BitsLemmas FloatLemmas ScalarProofs IntervalBase IntervalProofs.
Open Scope R_scope.

Section I.
Context {f : fmt} {m : libm f}.
Notation FT := (float f).
Notation IT := (interval (float f)).
Notation nd := (f_next_down f).
Notation nu := (f_next_up f).

Lemma Rnd_min (x y : FT) r s : Rnd x r -> Rnd y s -> Rnd (smin x y) (Rmin r s).
Proof.
  intros H1 H2. assert (N1 := proj1 H1). assert (N2 := proj1 H2). destruct (smin_E x y N1 N2) as [N K]. split; [exact N|]. rewrite K.
  unfold Rmin at 2. destruct (Rle_dec r s) as [L|L].
  - rewrite Rmin_left; [exact (proj2 H1)|exact (Rnd_mono _ _ _ _ H1 H2 L)].
  - rewrite Rmin_right; [exact (proj2 H2)|apply (Rnd_mono _ _ _ _ H2 H1); lra].
Qed.
Lemma Rnd_max (x y : FT) r s : Rnd x r -> Rnd y s -> Rnd (smax x y) (Rmax r s).
Proof.
  intros H1 H2. assert (N1 := proj1 H1). assert (N2 := proj1 H2). destruct (smax_E x y N1 N2) as [N K]. split; [exact N|]. rewrite K.
  unfold Rmax at 2. destruct (Rle_dec r s) as [L|L].
  - rewrite Rmax_right; [exact (proj2 H2)|exact (Rnd_mono _ _ _ _ H1 H2 L)].
  - rewrite Rmax_left; [exact (proj2 H1)|apply (Rnd_mono _ _ _ _ H2 H1); lra].
Qed.

Lemma straddle_real (a : IT) : bounded a -> straddles a -> B2R (inf a) < 0 < B2R (sup a).
Proof. intros [A1 A2] S. apply straddles_E in S. rewrite !E_B2R in S by assumption. tauto. Qed.
Lemma straddle_eq (a b : IT) : bounded a -> bounded b -> straddles a -> straddles b ->
  exists x y, i_mul a b = mkI (nd x) (nu y) /\
    Rnd x (Rmin (B2R (inf a) * B2R (sup b)) (B2R (sup a) * B2R (inf b))) /\ Rnd y (Rmax (B2R (inf a) * B2R (inf a)) (B2R (sup b) * B2R (sup b))).
Proof.
  intros [A1 A2] [B1 B2] SA SB. apply straddles_E in SA, SB.
  exists (smin (smul (inf a) (sup b)) (smul (sup a) (inf b))), (smax (smul (inf a) (inf a)) (smul (sup b) (sup b))). split.
  - unfold i_mul. rewrite (nonneg_b a), (nonpos_b a), (nonneg_b b), (nonpos_b b) by tauto. rewrite !Rle_bool_false by tauto. reflexivity.
  - split; [apply Rnd_min|apply Rnd_max]; apply fmul_Rnd; assumption.
Qed.
Lemma mem_real (a : IT) r : bounded a -> (mem r a <-> B2R (inf a) <= r <= B2R (sup a)).
Proof.
  intros [A1 A2]. split.
  - intros [L U]. apply lo_real in L; [|exact A1]. apply hi_real in U; [|exact A2]. lra.
  - intros [L U]. split; [apply below_E|apply above_E]; try (apply nonnan_of_finite; assumption); try (intros K; rewrite K in *; discriminate); rewrite E_B2R by assumption; assumption.
Qed.

(** real products over two boxes around zero *)
Lemma prod_range p q u v r s : p < 0 -> 0 < q -> u < 0 -> 0 < v -> p <= r <= q -> u <= s <= v ->
  Rmin (p * v) (q * u) <= r * s <= Rmax (p * u) (q * v).
Proof.
  intros. assert (A := Rmin_l (p * v) (q * u)). assert (B := Rmin_r (p * v) (q * u)). assert (C := Rmax_l (p * u) (q * v)). assert (D := Rmax_r (p * u) (q * v)).
  destruct (Rle_or_lt 0 r), (Rle_or_lt 0 s); split; nra.
Qed.

Lemma straddle_lower (a b : IT) r s : bounded a -> bounded b -> straddles a -> straddles b -> mem r a -> mem s b -> below (inf (i_mul a b)) (r * s).
Proof.
  intros Ba Bb SA SB Hr Hs. destruct (straddle_eq a b Ba Bb SA SB) as (x & y & -> & X & _). cbn [inf].
  apply (mem_real a) in Hr; [|exact Ba]. apply (mem_real b) in Hs; [|exact Bb]. apply straddle_real in SA; [|exact Ba]. apply straddle_real in SB; [|exact Bb].
  eapply down_below'; [exact X|]. apply prod_range; tauto.
Qed.
Lemma straddle_upper (a b : IT) : bounded a -> bounded b -> straddles a -> straddles b ->
  near_upper (sup (i_mul a b)) (fun t => t = B2R (inf a) * B2R (inf a) \/ t = B2R (sup b) * B2R (sup b)) /\
  above (sup (i_mul a b)) (B2R (inf a) * B2R (inf a)) /\ above (sup (i_mul a b)) (B2R (sup b) * B2R (sup b)).
Proof.
  intros Ba Bb SA SB. destruct (straddle_eq a b Ba Bb SA SB) as (x & y & -> & _ & Y). cbn [sup].
  split; [eapply near_upper_nu; [exact Y|]; unfold Rmax; destruct (Rle_dec _ _); auto|].
  split; (eapply up_above'; [exact Y|]); [apply Rmax_l|apply Rmax_r].
Qed.
Lemma straddle_iff (a b : IT) : bounded a -> bounded b -> straddles a -> straddles b ->
  ((forall r s, mem r a -> mem s b -> mem (r * s) (i_mul a b)) <->
   above (sup (i_mul a b)) (B2R (inf a) * B2R (inf b)) /\ above (sup (i_mul a b)) (B2R (sup a) * B2R (sup b))).
Proof.
  intros Ba Bb SA SB. assert (RA := straddle_real a Ba SA). assert (RB := straddle_real b Bb SB). split.
  - intros H. split; apply H; apply mem_real; try assumption; lra.
  - intros [U1 U2] r s Hr Hs. split; [apply straddle_lower; assumption|].
    apply (mem_real a) in Hr; [|exact Ba]. apply (mem_real b) in Hs; [|exact Bb].
    assert (K := prod_range _ _ _ _ r s (proj1 RA) (proj2 RA) (proj1 RB) (proj2 RB) Hr Hs).
    unfold Rmax in K. destruct (Rle_dec _ _); [exact (above_trans _ _ _ U2 (proj2 K))|exact (above_trans _ _ _ U1 (proj2 K))].
Qed.
Lemma straddle_incl (a b : IT) r s : bounded a -> bounded b -> straddles a -> straddles b -> mem r a -> mem s b ->
  Rmax (B2R (inf a) * B2R (inf b)) (B2R (sup a) * B2R (sup b)) <= Rmax (B2R (inf a) * B2R (inf a)) (B2R (sup b) * B2R (sup b)) ->
  mem (r * s) (i_mul a b).
Proof.
  intros Ba Bb SA SB Hr Hs L. apply straddle_iff; try assumption. destruct (straddle_eq a b Ba Bb SA SB) as (x & y & -> & _ & Y). cbn [sup].
  split; (eapply up_above'; [exact Y|]); (eapply Rle_trans; [|exact L]); [apply Rmax_l|apply Rmax_r].
Qed.
End I.
