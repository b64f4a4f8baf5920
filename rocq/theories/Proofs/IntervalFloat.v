(** The float value of an expression lies in the interval value of the same expression. *)
From Coq Require Import ZArith Reals Bool Lra Lia.
From Flocq Require Import Core BinarySingleNaN.
From Verif.Model Require Import FloatBase Scalar Float Interval.
From Verif Require Import Spec SpecExpr.
From Verif.Proofs Require Import BitsLemmas FloatLemmas ScalarProofs IntervalBase IntervalProofs IntervalProofs2.
Open Scope R_scope.

Section S.
Context {f : fmt} {m : libm f}.
Notation FT := (float f).
Notation IT := (interval (float f)).

Lemma mem_round (i : IT) (z : FT) r : Rnd z r -> finite z -> mem r i -> mem (B2R z) i.
Proof.
  intros H F [A B]. split.
  - apply below_inv in A as (N & NI & [->|[Fx Hx]]); [reflexivity|]. apply below_finite; [assumption|]. rewrite <- !E_B2R by assumption. exact (Rnd_ge _ _ _ H Hx).
  - apply above_inv in B as (N & NI & [->|[Fx Hx]]); [reflexivity|]. apply above_finite; [assumption|]. rewrite <- !E_B2R by assumption. exact (Rnd_le _ _ _ H Hx).
Qed.
Lemma all_finite_here env (e : expr f) : all_finite env e -> finite (feval env e).
Proof. destruct e; simpl; tauto. Qed.
Lemma fdiv_nz (x y : FT) : finite x -> finite y -> finite (fdiv x y) -> B2R y <> 0.
Proof.
  intros Fx Fy Fd H. destruct y as [s| | |s mm e B]; try discriminate.
  - destruct x; discriminate.
  - simpl in H. apply eq_0_F2R in H. destruct s; discriminate.
Qed.
Lemma fsqrt_nonneg (x : FT) : finite x -> finite (fsqrt x) -> 0 <= B2R x.
Proof. intros Fx Fs. rewrite <- (E_B2R x Fx). apply sqrt_nan_neg, nonnan_of_finite, Fs. Qed.
Lemma smin_B2R (x y : FT) : finite x -> finite y -> B2R (smin x y) = Rmin (B2R x) (B2R y).
Proof.
  intros Fx Fy. destruct (smin_E x y (nonnan_of_finite _ Fx) (nonnan_of_finite _ Fy)) as [_ H].
  destruct (smin_spec x y (nonnan_of_finite _ Fx) (nonnan_of_finite _ Fy)) as ([K|K] & _); rewrite K in *; rewrite !E_B2R in H by assumption; exact H.
Qed.
Lemma smax_B2R (x y : FT) : finite x -> finite y -> B2R (smax x y) = Rmax (B2R x) (B2R y).
Proof.
  intros Fx Fy. destruct (smax_E x y (nonnan_of_finite _ Fx) (nonnan_of_finite _ Fy)) as [_ H].
  destruct (smax_spec x y (nonnan_of_finite _ Fx) (nonnan_of_finite _ Fy)) as ([K|K] & _); rewrite K in *; rewrite !E_B2R in H by assumption; exact H.
Qed.

Lemma float_in_interval (e : expr f) env fenv :
  (forall n, mem (B2R (fenv n)) (env n)) -> all_finite fenv e -> everywhere proper env e -> no_double_straddle env e ->
  mem (B2R (feval fenv e)) (ieval env e).
Proof.
  intros HE. induction e; intros HF HP HS; cbn [ieval feval].
  - apply HE.
  - destruct HF as [_ HF], HP as [_ HP]. change (sneg (feval fenv e)) with (fneg (feval fenv e)). rewrite fneg_B2R. apply neg_mem. auto.
  - destruct HF as [_ HF], HP as [_ HP]. rewrite (proj2 (sabs_spec _ (all_finite_here _ _ HF))). apply abs_incl. auto.
  - destruct HF as [HF0 HF], HP as [_ HP]. assert (F := all_finite_here _ _ HF). apply (mem_round _ _ (B2R (feval fenv e) * B2R (feval fenv e))); [exact (fmul_Rnd _ _ F F)|exact HF0|]. apply square_incl. auto.
  - destruct HF as [HF0 HF], HP as [HP0 HP]. assert (F := all_finite_here _ _ HF). assert (P := fsqrt_nonneg _ F HF0). apply (mem_round _ _ (sqrt (B2R (feval fenv e)))); [exact (proj1 (fsqrt_Rnd _ F P))|exact HF0|].
    cbn [ieval] in HP0. apply gsqrt_proper in HP0. apply gsqrt_incl; [now apply IHe|]. apply fle_E. repeat split; tauto.
  - destruct HF as [_ HF], HP as [_ HP]. apply extend_incl. auto.
  - destruct HF as (HF0 & HF1 & HF2), HP as (_ & HP1 & HP2), HS as [HS1 HS2]. eapply mem_round; [exact (fadd_Rnd _ _ (all_finite_here _ _ HF1) (all_finite_here _ _ HF2))|exact HF0|]. apply add_incl; auto.
  - destruct HF as (HF0 & HF1 & HF2), HP as (_ & HP1 & HP2), HS as [HS1 HS2]. eapply mem_round; [exact (fsub_fadd _ _ (all_finite_here _ _ HF1) (all_finite_here _ _ HF2))|exact HF0|]. apply sub_incl; auto.
  - destruct HF as (HF0 & HF1 & HF2), HP as (HP & HP1 & HP2), HS as (HS1 & HS2 & HS3). eapply mem_round; [exact (fmul_Rnd _ _ (all_finite_here _ _ HF1) (all_finite_here _ _ HF2))|exact HF0|]. apply mul_incl; auto.
  - destruct HF as (HF0 & HF1 & HF2), HP as (_ & HP1 & HP2), HS as [HS1 HS2]. assert (NZ := fdiv_nz _ _ (all_finite_here _ _ HF1) (all_finite_here _ _ HF2) HF0).
    eapply mem_round; [exact (fdiv_Rnd _ _ (all_finite_here _ _ HF1) (all_finite_here _ _ HF2) NZ)|exact HF0|]. apply div_incl; auto.
  - destruct HF as (HF0 & HF1 & HF2), HP as (_ & HP1 & HP2), HS as [HS1 HS2]. rewrite smin_B2R by now apply all_finite_here. apply min_incl; auto.
  - destruct HF as (HF0 & HF1 & HF2), HP as (_ & HP1 & HP2), HS as [HS1 HS2]. rewrite smax_B2R by now apply all_finite_here. apply max_incl; auto.
  - destruct HF as (HF0 & HF1 & HF2), HP as [_ HP]. eapply mem_round; [exact (fadd_Rnd _ _ (all_finite_here _ _ HF1) HF2)|exact HF0|]. apply add_s_incl; auto.
  - destruct HF as (HF0 & HF1 & HF2), HP as [_ HP]. eapply mem_round; [exact (fsub_fadd _ _ (all_finite_here _ _ HF1) HF2)|exact HF0|]. apply sub_s_incl; auto.
  - destruct HF as (HF0 & HF1 & HF2), HP as [HP0 HP]. eapply mem_round; [exact (fmul_Rnd _ _ (all_finite_here _ _ HF1) HF2)|exact HF0|]. apply mul_s_incl; auto.
  - destruct HF as (HF0 & HF1 & HF2), HP as [_ HP]. assert (NZ := fdiv_nz _ _ (all_finite_here _ _ HF1) HF2 HF0). eapply mem_round; [exact (fdiv_Rnd _ _ (all_finite_here _ _ HF1) HF2 NZ)|exact HF0|]. apply div_s_incl; auto.
Qed.
End S.

Lemma float_error f (m : libm f) (e : expr f) env fenv r : (forall n, mem (B2R (fenv n)) (env n)) -> reval (fun n => B2R (fenv n)) e r -> all_finite fenv e ->
  everywhere proper env e -> no_double_straddle env e -> bounded (ieval env e) ->
  Rabs (B2R (feval fenv e) - r) <= B2R (sup (ieval env e)) - B2R (inf (ieval env e)).
Proof.
  intros HE HR HF HP HS [B1 B2]. assert (M1 := float_in_interval e env fenv HE HF HP HS).
  assert (M2 := fundamental e env (fun n => B2R (fenv n)) r HE HR HP HS). destruct M1 as [A1 A2], M2 as [A3 A4].
  assert (L : forall s, below (inf (ieval env e)) s -> B2R (inf (ieval env e)) <= s).
  { intros s K. apply below_inv in K as (_ & _ & [K|[_ K]]); [rewrite K in B1; discriminate|]. now rewrite E_B2R in K. }
  assert (U : forall s, above (sup (ieval env e)) s -> s <= B2R (sup (ieval env e))).
  { intros s K. apply above_inv in K as (_ & _ & [K|[_ K]]); [rewrite K in B2; discriminate|]. now rewrite E_B2R in K. }
  apply L in A1. apply L in A3. apply U in A2. apply U in A4. apply Rabs_le. lra.
Qed.
