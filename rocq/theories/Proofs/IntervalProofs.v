(** * Interval arithmetic over f32/f64: inclusion, tightness, validity. *)
From Coq Require Import ZArith Reals Bool Lra Lia.
From Flocq Require Import Core BinarySingleNaN.
From Verif.Model Require Import FloatBase Scalar Float Interval.
From Verif Require Import Spec.
From Verif.Proofs Require Import BitsLemmas FloatLemmas ScalarProofs IntervalBase.
Open Scope R_scope.

Section I.
Context {f : fmt} {m : libm f}.
Notation FT := (float f).
Notation IT := (interval (float f)).
Notation nd := (f_next_down f).
Notation nu := (f_next_up f).
Notation top := (bpow radix2 (emax f)).

(** The sign tests as comparisons of reals. *)
Lemma nonneg_b (a : IT) : nonnan (inf a) -> i_is_nonnegative a = Rle_bool 0 (E (inf a)).
Proof. intros N. exact (ge_b (inf a) (fzero false) N eq_refl). Qed.
Lemma nonpos_b (a : IT) : nonnan (sup a) -> i_is_nonpositive a = Rle_bool (E (sup a)) 0.
Proof. intros N. exact (le_b (sup a) (fzero false) N eq_refl). Qed.
Lemma pos_b (a : IT) : nonnan (inf a) -> i_is_positive a = Rlt_bool 0 (E (inf a)).
Proof. intros N. exact (gt_b (inf a) (fzero false) N eq_refl). Qed.
Lemma neg_b (a : IT) : nonnan (sup a) -> i_is_negative a = Rlt_bool (E (sup a)) 0.
Proof. intros N. exact (lt_b (sup a) (fzero false) N eq_refl). Qed.

(** ** Addition and subtraction *)
Lemma add_incl (a b : IT) r s : mem r a -> mem s b -> mem (r + s) (i_add a b).
Proof. intros [A1 A2] [B1 B2]. split; [exact (add_below _ _ _ _ A1 B1)|exact (add_above _ _ _ _ A2 B2)]. Qed.
Lemma sub_incl (a b : IT) r s : mem r a -> mem s b -> mem (r - s) (i_sub a b).
Proof. intros [A1 A2] [B1 B2]. split; [exact (sub_below _ _ _ _ A1 B2)|exact (sub_above _ _ _ _ A2 B1)]. Qed.
Lemma mem_from (t : FT) : finite t -> mem (B2R t) (i_from t).
Proof. intros F. split; [apply below_finite|apply above_finite]; auto; simpl; lra. Qed.
Lemma add_s_incl (a : IT) (t : FT) r : mem r a -> finite t -> mem (r + B2R t) (i_add_s a t).
Proof. intros H F. exact (add_incl a (i_from t) r (B2R t) H (mem_from t F)). Qed.
Lemma sub_s_incl (a : IT) (t : FT) r : mem r a -> finite t -> mem (r - B2R t) (i_sub_s a t).
Proof. intros H F. exact (sub_incl a (i_from t) r (B2R t) H (mem_from t F)). Qed.

Section Tight.
Variables a b : IT.
Hypothesis Ba : bounded a.
Hypothesis Bb : bounded b.
Hypothesis Oa : ordered a.
Hypothesis Ob : ordered b.
Let Ma := bounded_nonempty a Ba Oa.
Let Mb := bounded_nonempty b Bb Ob.

Lemma add_near : near_lower (inf (i_add a b)) (image2 Rplus (fun r => mem r a) (fun s => mem s b)) /\
  near_upper (sup (i_add a b)) (image2 Rplus (fun r => mem r a) (fun s => mem s b)).
Proof.
  destruct Ba, Bb, Ma, Mb. split.
  - apply near_lower_nd with (r := B2R (inf a) + B2R (inf b)); [now apply fadd_Rnd|].
    exists (B2R (inf a)), (B2R (inf b)). auto.
  - apply near_upper_nu with (r := B2R (sup a) + B2R (sup b)); [now apply fadd_Rnd|].
    exists (B2R (sup a)), (B2R (sup b)). auto.
Qed.
Lemma sub_near : near_lower (inf (i_sub a b)) (image2 Rminus (fun r => mem r a) (fun s => mem s b)) /\
  near_upper (sup (i_sub a b)) (image2 Rminus (fun r => mem r a) (fun s => mem s b)).
Proof.
  destruct Ba, Bb, Ma, Mb. split.
  - apply near_lower_nd with (r := B2R (inf a) - B2R (sup b)); [now apply fsub_Rnd|].
    exists (B2R (inf a)), (B2R (sup b)). auto.
  - apply near_upper_nu with (r := B2R (sup a) - B2R (inf b)); [now apply fsub_Rnd|].
    exists (B2R (sup a)), (B2R (inf b)). auto.
Qed.
End Tight.

(** ** Multiplication *)
Lemma straddles_E (a : IT) : straddles a <-> nonnan (inf a) /\ nonnan (sup a) /\ E (inf a) < 0 < E (sup a).
Proof.
  unfold straddles. rewrite !flt_E. split; [intros ((? & _ & ?) & (_ & ? & ?))|intros (? & ? & ? & ?)]; simpl in *; auto.
  repeat split; auto.
Qed.

Ltac bcase x y := destruct (Rle_bool_spec x y).
Ltac memE H := let H' := fresh in pose proof H as H'; apply mem_ordered in H'; apply fle_E in H'; destruct H' as (?N & ?N & ?O).

(** proper result: no bound is NaN (always the case when the operands are finite) *)
Lemma mul_incl (a b : IT) r s : mem r a -> mem s b -> ~ (straddles a /\ straddles b) ->
  proper (i_mul a b) -> mem (r * s) (i_mul a b).
Proof.
  intros Ha Hb NS [P1 P2]. memE Ha. memE Hb. destruct Ha as [A1 A2], Hb as [B1 B2].
  rewrite !straddles_E in NS.
  unfold i_mul in *.
  rewrite (nonneg_b a), (nonpos_b a), (nonneg_b b), (nonpos_b b) in * by assumption.
  pose proof (below_sign _ _ A1). pose proof (below_sign _ _ B1).
  pose proof (above_sign _ _ A2). pose proof (above_sign _ _ B2).
  assert (NDn : forall z : FT, nonnan (nd z) -> nonnan z). { intros z. destruct z; try easy. }
  assert (NUn : forall z : FT, nonnan (nu z) -> nonnan z). { intros z. destruct z; try easy. }
  bcase 0 (E (inf a)); [|bcase (E (sup a)) 0]; (bcase 0 (E (inf b)); [|bcase (E (sup b)) 0]);
    cbn [i_new inf sup] in P1, P2; apply NDn in P1; apply NUn in P2; split; cbn [i_new inf sup];
    try bcase (E (sup b)) 0; try bcase 0 (E (inf b));
    first [ apply mul_below_ll; (assumption || lra)
          | apply mul_below_uu; (assumption || lra)
          | apply mul_above_lu; (assumption || lra)
          | apply mul_above_ul; (assumption || lra)
          | apply mul_below_ul; (assumption || lra)
          | apply mul_below_lu; (assumption || lra)
          | apply mul_above_uu; (assumption || lra)
          | apply mul_above_ll; (assumption || lra)
          | idtac ].
  all: try (exfalso; apply NS; intuition; lra).
Qed.

Lemma next_nn_inv (z : FT) : (nonnan (nd z) -> nonnan z) /\ (nonnan (nu z) -> nonnan z).
Proof. destruct z; easy. Qed.

Lemma mul_proper (a b : IT) : bounded a -> bounded b -> proper (i_mul a b).
Proof.
  intros [A1 A2] [B1 B2].
  assert (K : forall x y : FT, finite x -> finite y -> nonnan (nd (fmul x y)) /\ nonnan (nu (fmul x y))).
  { intros x y Fx Fy. pose proof (fmul_fin_nn x y Fx Fy). split; [now apply next_down_nonnan|now apply next_up_nonnan]. }
  assert (K1 : forall x y x' y' : FT, finite x -> finite y -> finite x' -> finite y' ->
     nonnan (nd (smin (fmul x y) (fmul x' y'))) /\ nonnan (nu (smax (fmul x y) (fmul x' y')))).
  { intros x y x' y' Fx Fy Fx' Fy'. pose proof (fmul_fin_nn x y Fx Fy). pose proof (fmul_fin_nn x' y' Fx' Fy').
    split; [apply next_down_nonnan, smin_E|apply next_up_nonnan, smax_E]; assumption. }
  unfold i_mul.
  destruct (i_is_nonnegative a), (i_is_nonpositive a), (i_is_nonnegative b), (i_is_nonpositive b); split; cbn [i_new inf sup];
    (apply K || apply K1); assumption.
Qed.

Lemma mul_incl_bounded (a b : IT) r s : bounded a -> bounded b -> mem r a -> mem s b -> ~ (straddles a /\ straddles b) ->
  mem (r * s) (i_mul a b).
Proof. intros. apply mul_incl; auto. now apply mul_proper. Qed.

Lemma mul_near (a b : IT) : bounded a -> bounded b -> ordered a -> ordered b -> ~ (straddles a /\ straddles b) ->
  near_lower (inf (i_mul a b)) (image2 Rmult (fun r => mem r a) (fun s => mem s b)) /\
  near_upper (sup (i_mul a b)) (image2 Rmult (fun r => mem r a) (fun s => mem s b)).
Proof.
  intros Ba Bb Oa Ob NS.
  pose proof (bounded_nonempty a Ba Oa) as [Ma1 Ma2]. pose proof (bounded_nonempty b Bb Ob) as [Mb1 Mb2].
  destruct Ba as [A1 A2], Bb as [B1 B2].
  pose proof (nonnan_of_finite _ A1). pose proof (nonnan_of_finite _ A2).
  pose proof (nonnan_of_finite _ B1). pose proof (nonnan_of_finite _ B2).
  assert (L : forall x y : FT, finite x -> finite y -> mem (B2R x) a -> mem (B2R y) b ->
    near_lower (nd (fmul x y)) (image2 Rmult (fun r => mem r a) (fun s => mem s b)) /\
    near_upper (nu (fmul x y)) (image2 Rmult (fun r => mem r a) (fun s => mem s b))).
  { intros x y Fx Fy Mx My. pose proof (fmul_Rnd x y Fx Fy). split;
    [apply near_lower_nd with (r := B2R x * B2R y)|apply near_upper_nu with (r := B2R x * B2R y)]; auto;
    exists (B2R x), (B2R y); auto. }
  unfold i_mul. rewrite (nonneg_b a), (nonpos_b a), (nonneg_b b), (nonpos_b b) by assumption.
  rewrite !straddles_E in NS.
  destruct (Rle_bool_spec 0 (E (inf a))), (Rle_bool_spec (E (sup a)) 0),
    (Rle_bool_spec 0 (E (inf b))), (Rle_bool_spec (E (sup b)) 0); cbn [i_new inf sup];
    try (split; apply L; assumption).
  exfalso; apply NS; intuition.
Qed.

(** The branch for two intervals both straddling zero is still a valid interval. *)
Lemma mul_ordered (a b : IT) : bounded a -> bounded b -> ordered a -> ordered b -> ordered (i_mul a b).
Proof.
  intros Ba Bb Oa Ob.
  destruct (Rlt_dec (E (inf a)) 0) as [H1|H1]; [destruct (Rlt_dec 0 (E (sup a))) as [H2|H2];
    [destruct (Rlt_dec (E (inf b)) 0) as [H3|H3]; [destruct (Rlt_dec 0 (E (sup b))) as [H4|H4]|]|]|].
  2-5: apply (mem_ordered (B2R (inf a) * B2R (inf b))), mul_incl_bounded; auto;
    try (now apply bounded_nonempty); rewrite !straddles_E; lra.
  destruct Ba as [A1 A2], Bb as [B1 B2].
  pose proof (nonnan_of_finite _ A1). pose proof (nonnan_of_finite _ A2).
  pose proof (nonnan_of_finite _ B1). pose proof (nonnan_of_finite _ B2).
  unfold i_mul. rewrite (nonneg_b a), (nonpos_b a), (nonneg_b b), (nonpos_b b) by assumption.
  destruct (Rle_bool_spec 0 (E (inf a))); [lra|]. destruct (Rle_bool_spec (E (sup a)) 0); [lra|].
  destruct (Rle_bool_spec 0 (E (inf b))); [lra|]. destruct (Rle_bool_spec (E (sup b)) 0); [lra|].
  pose proof (fmul_Rnd _ _ A1 B2) as R1. pose proof (fmul_Rnd _ _ A2 B1) as R2.
  pose proof (fmul_Rnd _ _ A1 A1) as R3. pose proof (fmul_Rnd _ _ B2 B2) as R4.
  destruct (smin_E _ _ (proj1 R1) (proj1 R2)) as [N1 E1]. destruct (smax_E _ _ (proj1 R3) (proj1 R4)) as [N2 E2].
  apply fle_E. cbn [i_new inf sup].
  change (nonnan (nd (smin (fmul (inf a) (sup b)) (fmul (sup a) (inf b)))) /\
    nonnan (nu (smax (fmul (inf a) (inf a)) (fmul (sup b) (sup b)))) /\
    E (nd (smin (fmul (inf a) (sup b)) (fmul (sup a) (inf b)))) <= E (nu (smax (fmul (inf a) (inf a)) (fmul (sup b) (sup b))))).
  split; [now apply next_down_nonnan|]. split; [now apply next_up_nonnan|].
  eapply Rle_trans; [now apply next_down_le|]. eapply Rle_trans; [|now apply next_up_ge].
  rewrite E1, E2. eapply Rle_trans; [apply Rmin_l|]. eapply Rle_trans; [|apply Rmax_l].
  rewrite !E_B2R in * by assumption. eapply Rnd_mono; eauto. nra.
Qed.

(** ** Division *)
Lemma div_incl (a b : IT) r s : mem r a -> mem s b -> s <> 0 -> mem (r / s) (i_div a b).
Proof.
  intros Ha Hb Hs. memE Ha. memE Hb. destruct Ha as [A1 A2], Hb as [B1 B2].
  unfold i_div. rewrite (pos_b b), (neg_b b), (nonneg_b a), (nonpos_b a) by assumption.
  pose proof (below_sign _ _ A1) as SA1. pose proof (below_sign _ _ B1).
  pose proof (above_sign _ _ A2) as SA2. pose proof (above_sign _ _ B2).
  destruct (Rlt_bool_spec 0 (E (inf b))) as [Hb|Hb]; [|destruct (Rlt_bool_spec (E (sup b)) 0) as [Hb'|Hb']; [|split; reflexivity]].
  - destruct (fin_of_below_nn _ _ B1) as [Fb Lb]; [lra|].
    assert (0 < B2R (inf b)) by (rewrite <- E_B2R; assumption). assert (0 < s) by lra.
    assert (K : E (sup b) <> 0) by lra.
    split; cbn [i_new inf sup].
    + destruct (Rle_bool_spec 0 (E (inf a))) as [Ha|Ha].
      * destruct (fin_of_below_nn _ _ A1 Ha) as [Fa La]. rewrite E_B2R in Ha by assumption.
        apply div_below; auto.
        -- intros Fs. pose proof (hi_real _ _ B2 Fs). apply cross_le; [nra|]. apply Rmult_le_compat; lra.
        -- intros _. apply Rmult_le_pos; [lra|]. apply Rlt_le, Rinv_0_lt_compat; lra.
      * apply div_below_xinf with (r := r); auto. intros Fa. pose proof (lo_real _ _ A1 Fa).
        rewrite E_B2R in Ha by assumption. apply cross_le; nra.
    + destruct (Rle_bool_spec (E (sup a)) 0) as [Ha|Ha].
      * destruct (fin_of_above_np _ _ A2 Ha) as [Fa La]. rewrite E_B2R in Ha by assumption.
        apply div_above; auto.
        -- intros Fs. pose proof (hi_real _ _ B2 Fs). apply cross_le; nra.
        -- intros _. assert (0 < / s) by (apply Rinv_0_lt_compat; lra). unfold Rdiv. nra.
      * apply div_above_xinf with (r := r); auto. intros Fa. pose proof (hi_real _ _ A2 Fa).
        rewrite E_B2R in Ha by assumption. apply cross_le; nra.
  - destruct (fin_of_above_np _ _ B2) as [Fb Lb]; [lra|].
    assert (B2R (sup b) < 0) by (rewrite <- E_B2R; assumption). assert (s < 0) by lra.
    assert (K : E (inf b) <> 0) by lra.
    assert (Ks : / s < 0) by (apply Rinv_lt_0_compat; lra).
    split; cbn [i_new inf sup].
    + destruct (Rle_bool_spec (E (sup a)) 0) as [Ha|Ha].
      * destruct (fin_of_above_np _ _ A2 Ha) as [Fa La]. rewrite E_B2R in Ha by assumption.
        apply div_below; auto.
        -- intros Fs. pose proof (lo_real _ _ B1 Fs). apply cross_le; nra.
        -- intros _. unfold Rdiv. nra.
      * apply div_below_xinf' with (r := r); auto. intros Fa. pose proof (hi_real _ _ A2 Fa).
        rewrite E_B2R in Ha by assumption. apply cross_le; nra.
    + destruct (Rle_bool_spec 0 (E (inf a))) as [Ha|Ha].
      * destruct (fin_of_below_nn _ _ A1 Ha) as [Fa La]. rewrite E_B2R in Ha by assumption.
        apply div_above; auto.
        -- intros Fs. pose proof (lo_real _ _ B1 Fs). apply cross_le; nra.
        -- intros _. unfold Rdiv. nra.
      * apply div_above_xinf' with (r := r); auto. intros Fa. pose proof (lo_real _ _ A1 Fa).
        rewrite E_B2R in Ha by assumption. apply cross_le; nra.
Qed.

Lemma div_zero_whole (a b : IT) : mem 0 b -> i_div a b = mkI (finf true) (finf false).
Proof.
  intros Hb. memE Hb. destruct Hb as [B1 B2].
  unfold i_div. rewrite (pos_b b), (neg_b b) by assumption.
  destruct (Rlt_bool_spec 0 (E (inf b))) as [Hb|Hb].
  { destruct (fin_of_below_nn _ _ B1) as [F L]; [lra|]. rewrite E_B2R in Hb by assumption. lra. }
  destruct (Rlt_bool_spec (E (sup b)) 0) as [Hb'|Hb']; [|reflexivity].
  destruct (fin_of_above_np _ _ B2) as [F L]; [lra|]. rewrite E_B2R in Hb' by assumption. lra.
Qed.

Lemma div_near (a b : IT) : bounded a -> bounded b -> ordered a -> ordered b -> ~ mem 0 b ->
  near_lower (inf (i_div a b)) (image2 Rdiv (fun r => mem r a) (fun s => mem s b)) /\
  near_upper (sup (i_div a b)) (image2 Rdiv (fun r => mem r a) (fun s => mem s b)).
Proof.
  intros Ba Bb Oa Ob NZ.
  pose proof (bounded_nonempty a Ba Oa) as [Ma1 Ma2]. pose proof (bounded_nonempty b Bb Ob) as [Mb1 Mb2].
  destruct Ba as [A1 A2], Bb as [B1 B2].
  pose proof (nonnan_of_finite _ A1). pose proof (nonnan_of_finite _ A2).
  pose proof (nonnan_of_finite _ B1). pose proof (nonnan_of_finite _ B2).
  assert (L : forall x y : FT, finite x -> finite y -> mem (B2R x) a -> mem (B2R y) b ->
    near_lower (nd (fdiv x y)) (image2 Rdiv (fun r => mem r a) (fun s => mem s b)) /\
    near_upper (nu (fdiv x y)) (image2 Rdiv (fun r => mem r a) (fun s => mem s b))).
  { intros x y Fx Fy Mx My. assert (HZ : B2R y <> 0) by (intros HZ; rewrite HZ in My; auto).
    pose proof (fdiv_Rnd x y Fx Fy HZ). split;
    [apply near_lower_nd with (r := B2R x / B2R y)|apply near_upper_nu with (r := B2R x / B2R y)]; auto;
    exists (B2R x), (B2R y); auto. }
  unfold i_div. rewrite (pos_b b), (neg_b b), (nonneg_b a), (nonpos_b a) by assumption.
  destruct (Rlt_bool_spec 0 (E (inf b))) as [Hb|Hb]; [|destruct (Rlt_bool_spec (E (sup b)) 0) as [Hb'|Hb']].
  3: { exfalso. apply NZ. rewrite E_B2R in * by assumption. split; [apply below_finite|apply above_finite]; auto. }
  all: destruct (Rle_bool_spec 0 (E (inf a))), (Rle_bool_spec (E (sup a)) 0); cbn [i_new inf sup]; split; apply L; assumption.
Qed.

(** ** Mixed multiplication and division *)
Lemma mul_s_incl (a : IT) (t : FT) r : mem r a -> finite t -> proper (i_mul_s a t) -> mem (r * B2R t) (i_mul_s a t).
Proof.
  intros Ha Ft [P1 P2]. memE Ha. destruct Ha as [A1 A2]. pose proof (nonnan_of_finite t Ft).
  unfold i_mul_s in *. replace (is_nonnegative t) with (Rle_bool 0 (E t)) in *
    by (symmetry; exact (ge_b t (fzero false) H eq_refl)).
  destruct (mem_from t Ft) as [T1 T2]. cbn [i_from i_new inf sup] in T1, T2.
  destruct (Rle_bool_spec 0 (E t)) as [Ht|Ht]; cbn [i_new inf sup] in P1, P2; apply next_nn_inv in P1; apply next_nn_inv in P2; split; cbn [i_new inf sup].
  - destruct (Rle_dec 0 (E (inf a))); [apply mul_below_ll; auto|].
    apply mul_below_lu; auto; try lra. left. now rewrite <- E_B2R.
  - destruct (Rle_dec 0 (E (sup a))); [apply mul_above_uu; auto; right; now rewrite <- E_B2R|].
    apply mul_above_ul; auto; lra.
  - destruct (Rle_dec 0 (E (sup a))); [apply mul_below_ul; auto; try lra|apply mul_below_uu; auto; lra].
    right. rewrite E_B2R in Ht by assumption. lra.
  - destruct (Rle_dec 0 (E (inf a))); [apply mul_above_lu; auto; lra|].
    apply mul_above_ll; auto; try lra. right. rewrite E_B2R in Ht by assumption. lra.
Qed.
Lemma mul_s_proper (a : IT) (t : FT) : bounded a -> finite t -> proper (i_mul_s a t).
Proof.
  intros [A1 A2] Ft.
  unfold i_mul_s; destruct (is_nonnegative t); split; cbn [i_new inf sup];
    (apply next_down_nonnan || apply next_up_nonnan); now apply fmul_fin_nn.
Qed.
Lemma div_s_incl (a : IT) (t : FT) r : mem r a -> finite t -> B2R t <> 0 -> mem (r / B2R t) (i_div_s a t).
Proof.
  intros Ha Ft Ht.
  pose proof (div_incl a (i_from t) r (B2R t) Ha (mem_from t Ft) Ht) as H.
  pose proof (nonnan_of_finite t Ft) as N.
  unfold i_div in H. rewrite (pos_b (i_from t)), (neg_b (i_from t)) in H by assumption.
  unfold i_div_s. replace (t > szero)%S with (Rlt_bool 0 (E t)) by (symmetry; exact (gt_b t (fzero false) N eq_refl)).
  replace (t < szero)%S with (Rlt_bool (E t) 0) by (symmetry; exact (lt_b t (fzero false) N eq_refl)).
  cbn [i_from i_new inf sup] in H.
  destruct (Rlt_bool 0 (E t)); [|destruct (Rlt_bool (E t) 0); [|split; reflexivity]];
    destruct (i_is_nonnegative a), (i_is_nonpositive a); exact H.
Qed.
Lemma div_s_zero (a : IT) (t : FT) : B2R t = 0 -> finite t -> i_div_s a t = mkI (finf true) (finf false).
Proof.
  intros H Ft. pose proof (nonnan_of_finite t Ft) as N. unfold i_div_s.
  replace (t > szero)%S with (Rlt_bool 0 (E t)) by (symmetry; exact (gt_b t (fzero false) N eq_refl)).
  replace (t < szero)%S with (Rlt_bool (E t) 0) by (symmetry; exact (lt_b t (fzero false) N eq_refl)).
  rewrite E_B2R, H by assumption. now rewrite Rlt_bool_false by lra.
Qed.

Lemma add_s_near (a : IT) (t : FT) : bounded a -> ordered a -> finite t ->
  near_lower (inf (i_add_s a t)) (image1 (fun r => r + B2R t) (fun r => mem r a)) /\
  near_upper (sup (i_add_s a t)) (image1 (fun r => r + B2R t) (fun r => mem r a)).
Proof.
  intros Ba Oa Ft. destruct (bounded_nonempty a Ba Oa). destruct Ba. split.
  - apply near_lower_nd with (r := B2R (inf a) + B2R t); [now apply fadd_Rnd|]. eexists; eauto.
  - apply near_upper_nu with (r := B2R (sup a) + B2R t); [now apply fadd_Rnd|]. eexists; eauto.
Qed.
Lemma sub_s_near (a : IT) (t : FT) : bounded a -> ordered a -> finite t ->
  near_lower (inf (i_sub_s a t)) (image1 (fun r => r - B2R t) (fun r => mem r a)) /\
  near_upper (sup (i_sub_s a t)) (image1 (fun r => r - B2R t) (fun r => mem r a)).
Proof.
  intros Ba Oa Ft. destruct (bounded_nonempty a Ba Oa). destruct Ba. split.
  - apply near_lower_nd with (r := B2R (inf a) - B2R t); [now apply fsub_Rnd|]. eexists; eauto.
  - apply near_upper_nu with (r := B2R (sup a) - B2R t); [now apply fsub_Rnd|]. eexists; eauto.
Qed.
Lemma mul_s_near (a : IT) (t : FT) : bounded a -> ordered a -> finite t ->
  near_lower (inf (i_mul_s a t)) (image1 (fun r => r * B2R t) (fun r => mem r a)) /\
  near_upper (sup (i_mul_s a t)) (image1 (fun r => r * B2R t) (fun r => mem r a)).
Proof.
  intros Ba Oa Ft. destruct (bounded_nonempty a Ba Oa). destruct Ba. unfold i_mul_s.
  destruct (is_nonnegative t); cbn [i_new inf sup]; split.
  - apply near_lower_nd with (r := B2R (inf a) * B2R t); [now apply fmul_Rnd|]. eexists; eauto.
  - apply near_upper_nu with (r := B2R (sup a) * B2R t); [now apply fmul_Rnd|]. eexists; eauto.
  - apply near_lower_nd with (r := B2R (sup a) * B2R t); [now apply fmul_Rnd|]. eexists; eauto.
  - apply near_upper_nu with (r := B2R (inf a) * B2R t); [now apply fmul_Rnd|]. eexists; eauto.
Qed.
Lemma div_s_near (a : IT) (t : FT) : bounded a -> ordered a -> finite t -> B2R t <> 0 ->
  near_lower (inf (i_div_s a t)) (image1 (fun r => r / B2R t) (fun r => mem r a)) /\
  near_upper (sup (i_div_s a t)) (image1 (fun r => r / B2R t) (fun r => mem r a)).
Proof.
  intros Ba Oa Ft H0. destruct (bounded_nonempty a Ba Oa). destruct Ba. unfold i_div_s.
  pose proof (nonnan_of_finite t Ft) as N.
  replace (t > szero)%S with (Rlt_bool 0 (E t)) by (symmetry; exact (gt_b t (fzero false) N eq_refl)).
  replace (t < szero)%S with (Rlt_bool (E t) 0) by (symmetry; exact (lt_b t (fzero false) N eq_refl)).
  rewrite E_B2R by assumption.
  destruct (Rlt_bool_spec 0 (B2R t)); [|destruct (Rlt_bool_spec (B2R t) 0); [|lra]]; cbn [i_new inf sup]; split.
  - apply near_lower_nd with (r := B2R (inf a) / B2R t); [now apply fdiv_Rnd|]. eexists; eauto.
  - apply near_upper_nu with (r := B2R (sup a) / B2R t); [now apply fdiv_Rnd|]. eexists; eauto.
  - apply near_lower_nd with (r := B2R (sup a) / B2R t); [now apply fdiv_Rnd|]. eexists; eauto.
  - apply near_upper_nu with (r := B2R (inf a) / B2R t); [now apply fdiv_Rnd|]. eexists; eauto.
Qed.

(** ** Square and square root *)
Lemma square_incl (a : IT) r : mem r a -> mem (r * r) (i_square a).
Proof.
  intros Ha. memE Ha. destruct Ha as [A1 A2].
  pose proof (below_sign _ _ A1). pose proof (above_sign _ _ A2).
  unfold i_square. rewrite (nonneg_b a), (nonpos_b a) by assumption.
  destruct (Rle_bool_spec 0 (E (inf a))); [|destruct (Rle_bool_spec (E (sup a)) 0)]; split; cbn [i_new inf sup].
  - now apply mul_below_ll.
  - apply mul_above_uu; auto; try lra. now apply fmul_self_nn.
  - now apply mul_below_uu.
  - apply mul_above_ll; auto; try lra. now apply fmul_self_nn.
  - apply (below_finite (fzero false : FT) (r * r)); [reflexivity|]. simpl. nra.
  - replace (r * r) with (Rabs r * Rabs r) by (rewrite <- Rabs_mult; apply Rabs_pos_eq; nra).
    change (above (nu (fmul (smax (fneg (inf a)) (sup a)) (smax (fneg (inf a)) (sup a)))) (Rabs r * Rabs r)).
    assert (N' : nonnan (fneg (inf a))) by now apply fneg_nonnan.
    destruct (smax_E _ _ N' N0) as [Nm Em].
    assert (K : above (smax (fneg (inf a)) (sup a)) (Rabs r)).
    { apply above_max; auto. unfold Rabs. destruct (Rcase_abs r); [left; now apply above_neg|now right]. }
    apply mul_above_uu; auto.
    + rewrite Em. eapply Rle_trans; [|apply Rmax_r]. lra.
    + rewrite Em. eapply Rle_trans; [|apply Rmax_r]. lra.
    + now apply fmul_self_nn.
    + left. apply Rabs_pos.
Qed.
Lemma square_straddle (a : IT) : straddles a -> inf (i_square a) = fzero false.
Proof.
  intros H. apply straddles_E in H. destruct H as (N1 & N2 & H1 & H2).
  unfold i_square. rewrite (nonneg_b a), (nonpos_b a) by assumption.
  rewrite Rle_bool_false by lra. now rewrite Rle_bool_false by lra.
Qed.
Lemma square_near (a : IT) : bounded a -> ordered a ->
  near_lower (inf (i_square a)) (image1 (fun r => r * r) (fun r => mem r a)) /\
  near_upper (sup (i_square a)) (image1 (fun r => r * r) (fun r => mem r a)).
Proof.
  intros Ba Oa. destruct (bounded_nonempty a Ba Oa) as [M1 M2]. destruct Ba as [F1 F2].
  pose proof (nonnan_of_finite _ F1). pose proof (nonnan_of_finite _ F2).
  unfold i_square. rewrite (nonneg_b a), (nonpos_b a) by assumption.
  destruct (Rle_bool_spec 0 (E (inf a))) as [Ha|Ha]; [|destruct (Rle_bool_spec (E (sup a)) 0) as [Ha'|Ha']]; split; cbn [i_new inf sup].
  - eapply near_lower_nd; [now apply fmul_Rnd|]. eexists; eauto.
  - eapply near_upper_nu; [now apply fmul_Rnd|]. eexists; eauto.
  - eapply near_lower_nd; [now apply fmul_Rnd|]. eexists; eauto.
  - eapply near_upper_nu; [now apply fmul_Rnd|]. eexists; eauto.
  - rewrite E_B2R in * by assumption.
    apply (near_lower_exact (fzero false : FT)); [reflexivity|]. exists 0. simpl. split; [|lra].
    split; [apply below_finite|apply above_finite]; auto; lra.
  - change (near_upper (nu (fmul (smax (fneg (inf a)) (sup a)) (smax (fneg (inf a)) (sup a)))) (image1 (fun r => r * r) (fun r => mem r a))).
    assert (N' : nonnan (fneg (inf a))) by now apply fneg_nonnan.
    destruct (smax_spec _ _ N' H0) as [[K|K] _]; rewrite K.
    + eapply near_upper_nu; [apply fmul_Rnd; now apply fneg_finite|]. rewrite !fneg_B2R. exists (B2R (inf a)). split; auto. ring.
    + eapply near_upper_nu; [now apply fmul_Rnd|]. eexists; eauto.
Qed.

Lemma sqrt_incl (a : IT) r : mem r a -> fle (fzero false) (inf a) -> mem (sqrt r) (i_sqrt a).
Proof.
  intros Ha H. memE Ha. apply fle_E in H. destruct H as (_ & _ & H). simpl in H. destruct Ha as [A1 A2]. split.
  - exact (sqrt_below _ _ A1 H).
  - apply (sqrt_above _ _ A2). lra.
Qed.
Lemma min_max_mem (x y : FT) r : below x r -> above y r -> mem r (i_from_pair (min_max x y)).
Proof.
  intros Hx Hy. assert (O : ordered (mkI x y)) by (apply (mem_ordered r); now split).
  apply fle_E in O. destruct O as (N1 & N2 & O). cbn [inf sup] in *.
  unfold min_max. replace (x < y)%S with (Rlt_bool (E x) (E y)) by (symmetry; exact (lt_b x y N1 N2)).
  destruct (Rlt_bool_spec (E x) (E y)); split; cbn [fst snd i_from_pair i_new inf sup]; auto.
  - apply (below_le y x r); auto; lra.
  - apply (above_ge x y r); auto; lra.
Qed.
Lemma gsqrt_incl (a : IT) r : mem r a -> fle (fzero false) (inf a) -> mem (sqrt r) (i_gsqrt a).
Proof.
  intros Ha H. destruct (sqrt_incl a r Ha H) as [H1 H2]. exact (min_max_mem _ _ _ H1 H2).
Qed.
Lemma sqrt_near (a : IT) : bounded a -> ordered a -> fle (fzero false) (inf a) ->
  near_lower (inf (i_sqrt a)) (image1 sqrt (fun r => mem r a)) /\
  near_upper (sup (i_sqrt a)) (image1 sqrt (fun r => mem r a)).
Proof.
  intros Ba Oa H. destruct (bounded_nonempty a Ba Oa). destruct Ba as [F1 F2].
  apply fle_E in H. destruct H as (_ & _ & H). simpl in H. apply fle_E in Oa. destruct Oa as (_ & _ & Oa).
  rewrite !E_B2R in * by assumption. split.
  - eapply near_lower_nd; [apply fsqrt_Rnd; auto|]. eexists; eauto.
  - eapply near_upper_nu; [apply fsqrt_Rnd; auto; lra|]. eexists; eauto.
Qed.

(** ** Negation, absolute value, min, max *)
Lemma neg_mem (a : IT) r : mem (- r) (i_neg a) <-> mem r a.
Proof. unfold mem. cbn [i_neg i_new inf sup]. change (sneg (sup a)) with (fneg (sup a)). change (sneg (inf a)) with (fneg (inf a)).
  rewrite below_neg, above_neg. tauto. Qed.
Lemma neg_invol (a : IT) : i_neg (i_neg a) = a.
Proof. destruct a as [x y]. unfold i_neg, i_new. cbn [inf sup].
  change (mkI (fneg (fneg x)) (fneg (fneg y)) = mkI x y). unfold fneg. now rewrite !Bopp_involutive. Qed.
Lemma min_incl (a b : IT) r s : mem r a -> mem s b -> mem (Rmin r s) (i_min a b).
Proof.
  intros Ha Hb. memE Ha. memE Hb. destruct Ha as [A1 A2], Hb as [B1 B2]. split; cbn [i_min i_new inf sup].
  - apply below_min; auto. unfold Rmin. destruct (Rle_dec r s); auto.
  - apply above_min; auto. split; [apply above_trans with r|apply above_trans with s]; auto; [apply Rmin_l|apply Rmin_r].
Qed.
Lemma max_incl (a b : IT) r s : mem r a -> mem s b -> mem (Rmax r s) (i_max a b).
Proof.
  intros Ha Hb. memE Ha. memE Hb. destruct Ha as [A1 A2], Hb as [B1 B2]. split; cbn [i_max i_new inf sup].
  - apply below_max; auto. split; [apply below_trans with r|apply below_trans with s]; auto; [apply Rmax_l|apply Rmax_r].
  - apply above_max; auto. unfold Rmax. destruct (Rle_dec r s); auto.
Qed.
(** every member of min/max arises *)
Lemma min_exact (a b : IT) t : nonempty a -> nonempty b -> mem t (i_min a b) -> exists r s, mem r a /\ mem s b /\ t = Rmin r s.
Proof.
  intros [r0 Ha] [s0 Hb] [T1 T2]. memE Ha. memE Hb. cbn [i_min i_new inf sup] in *.
  apply below_min in T1; auto. apply above_min in T2; auto. destruct T2 as [T2 T3].
  destruct Ha as [A1 A2], Hb as [B1 B2].
  destruct T1 as [T1|T1].
  - exists t. exists (Rmax t s0). split; [now split|]. split.
    + split; [apply below_trans with s0; auto; apply Rmax_r|]. unfold Rmax. destruct (Rle_dec t s0); auto.
    + rewrite Rmin_left; auto. apply Rmax_l.
  - exists (Rmax t r0), t. split.
    + split; [apply below_trans with r0; auto; apply Rmax_r|]. unfold Rmax. destruct (Rle_dec t r0); auto.
    + split; [now split|]. rewrite Rmin_right; auto. apply Rmax_l.
Qed.
Lemma max_exact (a b : IT) t : nonempty a -> nonempty b -> mem t (i_max a b) -> exists r s, mem r a /\ mem s b /\ t = Rmax r s.
Proof.
  intros [r0 Ha] [s0 Hb] [T1 T2]. memE Ha. memE Hb. cbn [i_max i_new inf sup] in *.
  apply below_max in T1; auto. apply above_max in T2; auto. destruct T1 as [T1 T3].
  destruct Ha as [A1 A2], Hb as [B1 B2].
  destruct T2 as [T2|T2].
  - exists t. exists (Rmin t s0). split; [now split|]. split.
    + split; [unfold Rmin; destruct (Rle_dec t s0); auto|]. apply above_trans with s0; auto; apply Rmin_r.
    + rewrite Rmax_left; auto. apply Rmin_l.
  - exists (Rmin t r0), t. split.
    + split; [unfold Rmin; destruct (Rle_dec t r0); auto|]. apply above_trans with r0; auto; apply Rmin_r.
    + split; [now split|]. rewrite Rmax_right; auto. apply Rmin_l.
Qed.

Lemma sabs_above (x : FT) r : above x r -> 0 <= E x -> above (sabs x) r.
Proof.
  intros H H0. pose proof (above_nn _ _ H). destruct (sabs_E x H1) as [N Ea]. apply (above_ge _ x); auto.
  rewrite Ea. apply RRle_abs.
Qed.
Lemma sabs_above_r (x : FT) r : above x r -> above (sabs x) r.
Proof.
  intros H. pose proof (above_nn _ _ H). destruct (sabs_E x H0) as [N Ea]. apply (above_ge _ x); auto.
  rewrite Ea. apply RRle_abs.
Qed.
Lemma sabs_above_l (x : FT) r : below x r -> above (sabs x) (- r).
Proof.
  intros H. pose proof (below_nn _ _ H). destruct (sabs_E x H0) as [N Ea]. apply (above_ge _ (fneg x)); auto.
  - rewrite Ea, fneg_E. rewrite <- Rabs_Ropp. apply RRle_abs.
  - now apply above_neg.
Qed.
Lemma abs_incl (a : IT) r : mem r a -> mem (Rabs r) (i_abs a).
Proof.
  intros Ha. memE Ha. unfold i_abs.
  replace (is_negative (inf a)) with (Rlt_bool (E (inf a)) 0) by (symmetry; exact (lt_b (inf a) (fzero false) N eq_refl)).
  destruct Ha as [A1 A2]. destruct (sabs_E (inf a) N) as [Ni _]. destruct (sabs_E (sup a) N0) as [Ns _].
  destruct (Rlt_bool_spec (E (inf a)) 0).
  - split; cbn [i_new inf sup].
    + apply (below_finite (fzero false : FT)); [reflexivity|]. simpl. apply Rabs_pos.
    + apply above_max; auto. unfold Rabs. destruct (Rcase_abs r).
      * left. now apply sabs_above_l.
      * right. now apply sabs_above_r.
  - rewrite Rabs_pos_eq by (now apply (below_sign (inf a))). now apply min_max_mem.
Qed.
(** [abs] is exact unless the whole interval is negative. *)
Lemma abs_exact (a : IT) t : nonempty a -> ~ flt (sup a) (fzero false) -> mem t (i_abs a) -> exists r, mem r a /\ t = Rabs r.
Proof.
  intros [r0 Ha] NN [T1 T2]. memE Ha. rewrite flt_E in NN. simpl in NN.
  unfold i_abs in *.
  replace (is_negative (inf a)) with (Rlt_bool (E (inf a)) 0) in * by (symmetry; exact (lt_b (inf a) (fzero false) N eq_refl)).
  destruct (Rlt_bool_spec (E (inf a)) 0) as [H|H]; cbn [i_new inf sup] in *.
  - apply (below_finite (fzero false : FT)) in T1; [|reflexivity]. simpl in T1.
    assert (S0 : 0 <= E (sup a)). { destruct (Rlt_dec (E (sup a)) 0); [|lra]. exfalso. apply NN. repeat split; auto. }
    destruct (sabs_E (inf a) N) as [Ni Ei]. destruct (sabs_E (sup a) N0) as [Ns Es].
    apply above_max in T2; auto. destruct T2 as [T2|T2].
    + exists (- t). split; [|rewrite Rabs_Ropp; now rewrite Rabs_pos_eq].
      split.
      * apply below_neg with (x := fneg (inf a)) (r := t) in T2 || idtac.
        rewrite <- (Bopp_involutive _ _ (inf a)). apply below_neg.
        apply (above_ge _ (sabs (inf a))); auto; [|now apply fneg_nonnan].
        rewrite Ei. change (Bopp (inf a)) with (fneg (inf a)). rewrite fneg_E, Rabs_left; lra.
      * apply above_trans with 0; [|lra]. destruct Ha as [_ A2]. apply above_inv in A2.
        destruct A2 as (_ & D & _). now apply above_E.
    + exists t. split; [|now rewrite Rabs_pos_eq]. split.
      * apply below_trans with 0; auto. destruct Ha as [A1 _]. apply below_inv in A1. destruct A1 as (_ & D & _).
        apply below_E; auto. lra.
      * apply (above_ge _ (sabs (sup a))); auto. rewrite Es, Rabs_pos_eq; lra.
  - assert (M : mem t a).
    { unfold min_max in *. revert T1 T2.
      replace (inf a < sup a)%S with (Rlt_bool (E (inf a)) (E (sup a))) by (symmetry; exact (lt_b _ _ N N0)).
      destruct (Rlt_bool_spec (E (inf a)) (E (sup a))); cbn [i_from_pair i_new fst snd inf sup]; intros T1 T2; [now split|].
      split; [apply (below_le _ (sup a))|apply (above_ge _ (inf a))]; auto; lra. }
    exists t. split; auto. rewrite Rabs_pos_eq; auto. destruct M as [M _]. now apply (below_sign (inf a)).
Qed.

(** ** Union, intersection *)
Lemma union_mem (a b : IT) t : proper a -> proper b ->
  (mem t (i_union a b) <-> (below (inf a) t \/ below (inf b) t) /\ (above (sup a) t \/ above (sup b) t)).
Proof. intros [? ?] [? ?]. unfold mem. cbn [i_union i_new inf sup]. rewrite below_min, above_max by assumption. tauto. Qed.
Lemma intersect_mem (a b : IT) t : proper a -> proper b -> (mem t (i_intersect a b) <-> mem t a /\ mem t b).
Proof. intros [? ?] [? ?]. unfold mem. cbn [i_intersect i_new inf sup]. rewrite below_max, above_min by assumption. tauto. Qed.
Lemma union_least (a b c : IT) : proper a -> proper b ->
  (forall t, mem t a -> mem t c) -> (forall t, mem t b -> mem t c) -> nonempty a -> nonempty b ->
  forall t, mem t (i_union a b) -> mem t c.
Proof.
  intros Pa Pb Ha Hb [r Ra] [s Sb] t Ht. apply union_mem in Ht; auto. destruct Ht as [H1 H2].
  pose proof (Ha r Ra) as [C1 C2]. pose proof (Hb s Sb) as [C3 C4]. destruct Ra as [R1 R2], Sb as [S1 S2].
  split.
  - destruct H1 as [H1|H1].
    + destruct (Rle_dec t r); [|apply below_trans with r; auto; lra]. apply (Ha t). split; auto. now apply above_trans with r.
    + destruct (Rle_dec t s); [|apply below_trans with s; auto; lra]. apply (Hb t). split; auto. now apply above_trans with s.
  - destruct H2 as [H1'|H1'].
    + destruct (Rle_dec r t); [|apply above_trans with r; auto; lra]. apply (Ha t). split; auto. now apply below_trans with r.
    + destruct (Rle_dec s t); [|apply above_trans with s; auto; lra]. apply (Hb t). split; auto. now apply below_trans with s.
Qed.
End I.
