(** * Inclusion isotonicity and symmetry laws of interval arithmetic.
    [corner]: the result is the exact range of the operation, both ends rounded outwards once. *)
From Coq Require Import ZArith Reals Bool Lra Lia.
From Flocq Require Import Core BinarySingleNaN.
From Verif.Model Require Import FloatBase Scalar Float Interval.
From Verif Require Import Spec.
From Verif.Proofs Require Import BitsLemmas FloatLemmas ScalarProofs IntervalBase IntervalProofs IntervalProofs2 IntervalRefute.
Open Scope R_scope.

Section I.
Context {f : fmt} {m : libm f}.
Notation FT := (float f).
Notation IT := (interval (float f)).
Notation nd := (f_next_down f).
Notation nu := (f_next_up f).

Definition corner (i : IT) (P : R -> Prop) : Prop := exists z v w u,
  inf i = nd z /\ sup i = nu w /\ Rnd z v /\ Rnd w u /\ P v /\ P u /\ forall x, P x -> v <= x <= u.
Lemma corner_iso (i j : IT) P Q : corner i P -> corner j Q -> (forall x, P x -> Q x) -> forall r, mem r i -> mem r j.
Proof.
  intros (z & v & w & u & Ei & Es & R1 & R2 & PV & PU & _) (z' & v' & w' & u' & Ei' & Es' & R1' & R2' & _ & _ & B) PQ r [L U].
  assert (B1 := B _ (PQ _ PV)). assert (B2 := B _ (PQ _ PU)). assert (M1 := Rnd_mono _ _ _ _ R1' R1 ltac:(lra)). assert (M2 := Rnd_mono _ _ _ _ R2 R2' ltac:(lra)).
  destruct R1 as [N1 _], R2 as [N2 _], R1' as [N1' _], R2' as [N2' _]. rewrite Ei in L. rewrite Es in U. split.
  - rewrite Ei'. eapply below_le; [|apply next_down_nonnan; exact N1'|exact L]. apply next_down_mono; assumption.
  - rewrite Es'. eapply above_ge; [|apply next_up_nonnan; exact N2'|exact U]. apply next_up_mono; assumption.
Qed.
Lemma corner_same (i j : IT) P Q : corner i P -> corner j Q -> (forall x, P x <-> Q x) -> feq (inf i) (inf j) /\ feq (sup i) (sup j).
Proof.
  intros (z & v & w & u & Ei & Es & R1 & R2 & PV & PU & B) (z' & v' & w' & u' & Ei' & Es' & R1' & R2' & PV' & PU' & B') PQ.
  assert (v = v' /\ u = u') as [<- <-].
  { assert (A1 := B _ (proj2 (PQ _) PV')). assert (A2 := B _ (proj2 (PQ _) PU')). assert (A3 := B' _ (proj1 (PQ _) PV)). assert (A4 := B' _ (proj1 (PQ _) PU)). lra. }
  assert (M1 := Rnd_mono _ _ _ _ R1' R1 (Rle_refl _)). assert (M2 := Rnd_mono _ _ _ _ R2 R2' (Rle_refl _)). assert (M3 := Rnd_mono _ _ _ _ R1 R1' (Rle_refl _)). assert (M4 := Rnd_mono _ _ _ _ R2' R2 (Rle_refl _)).
  destruct R1 as [N1 _], R2 as [N2 _], R1' as [N1' _], R2' as [N2' _]. rewrite Ei, Es, Ei', Es'.
  split; apply feq_E; (split; [first [apply next_down_nonnan; assumption|apply next_up_nonnan; assumption]|]); (split; [first [apply next_down_nonnan; assumption|apply next_up_nonnan; assumption]|]);
    apply Rle_antisym; first [apply next_down_mono; assumption|apply next_up_mono; assumption].
Qed.

Definition rng (a : IT) (r : R) : Prop := mem r a.
Lemma mem_B (a : IT) r : bounded a -> (mem r a <-> B2R (inf a) <= r <= B2R (sup a)).
Proof. intros [A B]. unfold mem. rewrite (below_finite _ _ A), (above_finite _ _ B). tauto. Qed.
Lemma ord_B (a : IT) : bounded a -> ordered a -> B2R (inf a) <= B2R (sup a).
Proof. intros [A B] O. apply fle_E in O as (_ & _ & O). rewrite (E_B2R _ A), (E_B2R _ B) in O. exact O. Qed.

Section Two.
Context (a b : IT) (Ba : bounded a) (Oa : ordered a) (Bb : bounded b) (Ob : ordered b).
Lemma pt2 (g : R -> R -> R) r s : (r = B2R (inf a) \/ r = B2R (sup a)) -> (s = B2R (inf b) \/ s = B2R (sup b)) -> image2 g (fun r => mem r a) (fun s => mem s b) (g r s).
Proof.
  intros A B. exists r, s. rewrite (mem_B a r Ba), (mem_B b s Bb). assert (K1 := ord_B a Ba Oa). assert (K2 := ord_B b Bb Ob). destruct A, B; subst; split; try split; lra.
Qed.
Lemma add_corner : corner (i_add a b) (image2 Rplus (fun r => mem r a) (fun s => mem s b)).
Proof.
  destruct Ba as [A1 A2], Bb as [B1 B2]. exists (fadd (inf a) (inf b)), (B2R (inf a) + B2R (inf b)), (fadd (sup a) (sup b)), (B2R (sup a) + B2R (sup b)).
  split; [reflexivity|]. split; [reflexivity|]. split; [apply fadd_Rnd; assumption|]. split; [apply fadd_Rnd; assumption|].
  split; [apply pt2; auto|]. split; [apply pt2; auto|]. intros x (r & s & R & S & ->). apply (mem_B a r Ba) in R. apply (mem_B b s Bb) in S. lra.
Qed.
Lemma sub_corner : corner (i_sub a b) (image2 Rminus (fun r => mem r a) (fun s => mem s b)).
Proof.
  destruct Ba as [A1 A2], Bb as [B1 B2]. exists (fsub (inf a) (sup b)), (B2R (inf a) - B2R (sup b)), (fsub (sup a) (inf b)), (B2R (sup a) - B2R (inf b)).
  split; [reflexivity|]. split; [reflexivity|]. split; [apply fsub_Rnd; assumption|]. split; [apply fsub_Rnd; assumption|].
  split; [apply pt2; auto|]. split; [apply pt2; auto|]. intros x (r & s & R & S & ->). apply (mem_B a r Ba) in R. apply (mem_B b s Bb) in S. lra.
Qed.
Lemma mk_corner (x y z w : FT) (P : R -> Prop) : finite x -> finite y -> finite z -> finite w -> P (B2R x * B2R y) -> P (B2R z * B2R w) ->
  (forall t, P t -> B2R x * B2R y <= t <= B2R z * B2R w) -> corner (i_new (nd (fmul x y)) (nu (fmul z w))) P.
Proof.
  intros X Y Z W P1 P2 H. exists (fmul x y), (B2R x * B2R y), (fmul z w), (B2R z * B2R w). split; [reflexivity|]. split; [reflexivity|]. split; [apply fmul_Rnd; assumption|]. split; [apply fmul_Rnd; assumption|]. auto.
Qed.
Lemma mk_cornerd (x y z w : FT) (P : R -> Prop) : finite x -> finite y -> finite z -> finite w -> B2R y <> 0 -> B2R w <> 0 -> P (B2R x / B2R y) -> P (B2R z / B2R w) ->
  (forall t, P t -> B2R x / B2R y <= t <= B2R z / B2R w) -> corner (i_new (nd (fdiv x y)) (nu (fdiv z w))) P.
Proof.
  intros X Y Z W YN WN P1 P2 H. exists (fdiv x y), (B2R x / B2R y), (fdiv z w), (B2R z / B2R w). split; [reflexivity|]. split; [reflexivity|]. split; [apply fdiv_Rnd; assumption|]. split; [apply fdiv_Rnd; assumption|]. auto.
Qed.
Ltac ends Ba Bb := apply mk_corner; [assumption..|apply pt2; auto|apply pt2; auto|];
  intros x (r & s & HR & HS & ->); apply (mem_B a _ Ba) in HR; apply (mem_B b _ Bb) in HS; split; nra.
Lemma mul_corner : ~ (straddles a /\ straddles b) -> corner (i_mul a b) (image2 Rmult (fun r => mem r a) (fun s => mem s b)).
Proof.
  intros NS. assert (KA := ord_B a Ba Oa). assert (KB := ord_B b Bb Ob). assert (Ba' := Ba). assert (Bb' := Bb). destruct Ba as [A1 A2], Bb as [B1 B2].
  assert (NA1 := nonnan_of_finite _ A1). assert (NA2 := nonnan_of_finite _ A2). assert (NB1 := nonnan_of_finite _ B1). assert (NB2 := nonnan_of_finite _ B2).
  rewrite !straddles_E in NS. unfold i_mul. rewrite (nonneg_b a NA1), (nonpos_b a NA2), (nonneg_b b NB1), (nonpos_b b NB2). rewrite (E_B2R _ A1), (E_B2R _ A2), (E_B2R _ B1), (E_B2R _ B2) in *.
  change (@smul FT _) with (@fmul f). 
  destruct (Rle_bool_spec 0 (B2R (inf a))); [|destruct (Rle_bool_spec (B2R (sup a)) 0)];
  (destruct (Rle_bool_spec 0 (B2R (inf b))); [|destruct (Rle_bool_spec (B2R (sup b)) 0)]); cbv zeta.
  all: try (destruct (Rle_bool_spec (B2R (sup b)) 0)).
  all: try (exfalso; lra).
  all: first [solve [ends Ba' Bb']|exfalso; apply NS; auto].
Qed.
Lemma inv_pos x y : 0 < x -> x <= y -> 0 < / y <= / x.
Proof. intros. split; [apply Rinv_0_lt_compat; lra|apply Rinv_le_contravar; assumption]. Qed.
Lemma inv_neg x y : x <= y -> y < 0 -> / y <= / x < 0.
Proof.
  intros A B. assert (K := inv_pos (- y) (- x) ltac:(lra) ltac:(lra)). rewrite <- !Ropp_inv_permute in K by lra. lra.
Qed.
Lemma div_corner : ~ mem 0 b -> corner (i_div a b) (image2 Rdiv (fun r => mem r a) (fun s => mem s b)).
Proof.
  intros NS. assert (KA := ord_B a Ba Oa). assert (KB := ord_B b Bb Ob). rewrite (mem_B b 0 Bb) in NS. assert (Ba' := Ba). assert (Bb' := Bb). destruct Ba as [A1 A2], Bb as [B1 B2].
  assert (NA1 := nonnan_of_finite _ A1). assert (NA2 := nonnan_of_finite _ A2). assert (NB1 := nonnan_of_finite _ B1). assert (NB2 := nonnan_of_finite _ B2).
  unfold i_div. rewrite (nonneg_b a NA1), (nonpos_b a NA2), (pos_b b NB1), (neg_b b NB2). rewrite (E_B2R _ A1), (E_B2R _ A2), (E_B2R _ B1), (E_B2R _ B2) in *.
  change (@sdiv FT _) with (@fdiv f).
  destruct (Rlt_bool_spec 0 (B2R (inf b))); [|destruct (Rlt_bool_spec (B2R (sup b)) 0); [|exfalso; lra]]; cbv zeta.
  - destruct (Rle_bool_spec 0 (B2R (inf a))), (Rle_bool_spec (B2R (sup a)) 0); (apply mk_cornerd; [assumption..|lra|lra|apply pt2; auto|apply pt2; auto|]);
    intros x (r & s & HR & HS & ->); apply (mem_B a _ Ba') in HR; apply (mem_B b _ Bb') in HS;
    assert (I1 := inv_pos (B2R (inf b)) s ltac:(lra) ltac:(lra)); assert (I2 := inv_pos s (B2R (sup b)) ltac:(lra) ltac:(lra)); unfold Rdiv; split; nra.
  - destruct (Rle_bool_spec 0 (B2R (inf a))), (Rle_bool_spec (B2R (sup a)) 0); (apply mk_cornerd; [assumption..|lra|lra|apply pt2; auto|apply pt2; auto|]);
    intros x (r & s & HR & HS & ->); apply (mem_B a _ Ba') in HR; apply (mem_B b _ Bb') in HS;
    assert (I1 := inv_neg (B2R (inf b)) s ltac:(lra) ltac:(lra)); assert (I2 := inv_neg s (B2R (sup b)) ltac:(lra) ltac:(lra)); unfold Rdiv; split; nra.
Qed.
End Two.

(** ** one operand *)
Section One.
Context (a : IT) (Ba : bounded a) (Oa : ordered a).
Lemma pt1 (g : R -> R) r : (r = B2R (inf a) \/ r = B2R (sup a)) -> image1 g (fun r => mem r a) (g r).
Proof. intros A. exists r. rewrite (mem_B a r Ba). assert (K1 := ord_B a Ba Oa). destruct A; subst; split; try lra; reflexivity. Qed.
Lemma square_corner : ~ straddles a -> corner (i_square a) (image1 (fun r => r * r) (fun r => mem r a)).
Proof.
  intros NS. assert (KA := ord_B a Ba Oa). rewrite straddles_E in NS. assert (Ba' := Ba). destruct Ba as [A1 A2].
  assert (NA1 := nonnan_of_finite _ A1). assert (NA2 := nonnan_of_finite _ A2). unfold i_square. rewrite (nonneg_b a NA1), (nonpos_b a NA2). rewrite (E_B2R _ A1), (E_B2R _ A2) in *.
  change (@smul FT _) with (@fmul f).
  destruct (Rle_bool_spec 0 (B2R (inf a))); [|destruct (Rle_bool_spec (B2R (sup a)) 0); [|exfalso; apply NS; auto]];
  (apply mk_corner; [assumption..|apply (pt1 (fun r => r * r)); auto|apply (pt1 (fun r => r * r)); auto|]); intros x (r & HR & ->); apply (mem_B a _ Ba') in HR; split; nra.
Qed.
Lemma sqrt_corner : 0 <= B2R (inf a) -> corner (i_sqrt a) (image1 sqrt (fun r => mem r a)).
Proof.
  intros H. assert (KA := ord_B a Ba Oa). assert (Ba' := Ba). destruct Ba as [A1 A2].
  exists (fsqrt (inf a)), (sqrt (B2R (inf a))), (fsqrt (sup a)), (sqrt (B2R (sup a))).
  split; [reflexivity|]. split; [reflexivity|]. split; [apply fsqrt_Rnd; assumption|]. split; [apply fsqrt_Rnd; [assumption|lra]|].
  split; [apply pt1; auto|]. split; [apply pt1; auto|]. intros x (r & R & ->). apply (mem_B a r Ba') in R. split; apply sqrt_le_1; lra.
Qed.
End One.
Lemma from_mem (t : FT) s : finite t -> (mem s (i_from t) <-> s = B2R t).
Proof. intros F. unfold mem, i_from. cbn [i_new inf sup]. rewrite (below_finite _ _ F), (above_finite _ _ F). lra. Qed.
Lemma from_ok (t : FT) : finite t -> bounded (i_from t) /\ ordered (i_from t).
Proof. intros F. split; [split; exact F|]. apply fle_E. assert (N := nonnan_of_finite _ F). split; [exact N|split; [exact N|apply Rle_refl]]. Qed.

(** ** isotonicity *)
Section Iso.
Context (a b c d : IT) (Ba : bounded a) (Oa : ordered a) (Bb : bounded b) (Ob : ordered b) (Bc : bounded c) (Oc : ordered c) (Bd : bounded d) (Od : ordered d)
  (AC : within a c) (BD : within b d).
Lemma sub_ends : B2R (inf c) <= B2R (inf a) /\ B2R (sup a) <= B2R (sup c).
Proof. destruct (bounded_nonempty a Ba Oa) as [M1 M2]. apply AC in M1. apply AC in M2. apply (mem_B c _ Bc) in M1. apply (mem_B c _ Bc) in M2. lra. Qed.
Lemma im2 g x : image2 g (fun r => mem r a) (fun s => mem s b) x -> image2 g (fun r => mem r c) (fun s => mem s d) x.
Proof. intros (r & s & R & S & ->). exists r, s. auto. Qed.
Lemma im1 g x : image1 g (fun r => mem r a) x -> image1 g (fun r => mem r c) x.
Proof. intros (r & R & ->). exists r. auto. Qed.
Lemma strad_mono : straddles a -> straddles c.
Proof.
  intros S. apply straddles_E in S as (_ & _ & S). apply straddles_E. assert (K := sub_ends). destruct Ba as [A1 A2], Bc as [C1 C2]. rewrite (E_B2R _ A1), (E_B2R _ A2) in S. rewrite (E_B2R _ C1), (E_B2R _ C2).
  split; [apply nonnan_of_finite; assumption|split; [apply nonnan_of_finite; assumption|lra]].
Qed.
Lemma add_iso : within (i_add a b) (i_add c d).
Proof. exact (corner_iso _ _ _ _ (add_corner a b Ba Oa Bb Ob) (add_corner c d Bc Oc Bd Od) (im2 Rplus)). Qed.
Lemma sub_iso : within (i_sub a b) (i_sub c d).
Proof. exact (corner_iso _ _ _ _ (sub_corner a b Ba Oa Bb Ob) (sub_corner c d Bc Oc Bd Od) (im2 Rminus)). Qed.
Lemma whole_any (i j : IT) : j = mkI (finf true) (finf false) -> within i j.
Proof. intros -> r _. split; reflexivity. Qed.
Lemma div_iso : within (i_div a b) (i_div c d).
Proof.
  destruct (Rle_dec (B2R (inf d)) 0) as [Z1|Z1]; [destruct (Rle_dec 0 (B2R (sup d))) as [Z2|Z2]|].
  1: apply whole_any; apply div_zero_whole; apply (mem_B d 0 Bd); lra.
  all: assert (ND : ~ mem 0 d) by (rewrite (mem_B d 0 Bd); lra); assert (NB : ~ mem 0 b) by (intros K; apply ND, BD, K);
    exact (corner_iso _ _ _ _ (div_corner a b Ba Oa Bb Ob NB) (div_corner c d Bc Oc Bd Od ND) (im2 Rdiv)).
Qed.
Lemma square_iso : ~ straddles c -> within (i_square a) (i_square c).
Proof.
  intros NC. assert (NA : ~ straddles a) by (intros K; apply NC, strad_mono, K). exact (corner_iso _ _ _ _ (square_corner a Ba Oa NA) (square_corner c Bc Oc NC) (im1 (fun r => r * r))).
Qed.
Lemma sqrt_iso : 0 <= B2R (inf c) -> within (i_sqrt a) (i_sqrt c).
Proof.
  intros H. assert (K := sub_ends). exact (corner_iso _ _ _ _ (sqrt_corner a Ba Oa ltac:(lra)) (sqrt_corner c Bc Oc H) (im1 sqrt)).
Qed.
Lemma neg_iso : within (i_neg a) (i_neg c).
Proof. intros r M. replace r with (- - r) in * by ring. apply neg_mem. apply AC. apply (neg_mem a (- r)). exact M. Qed.
End Iso.
Lemma mul_iso (a b c d : IT) : bounded a -> ordered a -> bounded b -> ordered b -> bounded c -> ordered c -> bounded d -> ordered d -> within a c -> within b d ->
  ~ (straddles c /\ straddles d) -> within (i_mul a b) (i_mul c d).
Proof.
  intros Ba Oa Bb Ob Bc Oc Bd Od AC BD NS. assert (NA : ~ (straddles a /\ straddles b)) by (intros [K1 K2]; apply NS; split; [apply (strad_mono a c)|apply (strad_mono b d)]; assumption).
  exact (corner_iso _ _ _ _ (mul_corner a b Ba Oa Bb Ob NA) (mul_corner c d Bc Oc Bd Od NS) (im2 a b c d AC BD Rmult)).
Qed.
(** ** the exact operations: any nonempty intervals *)
Lemma min_iso (a b c d : IT) : nonempty a -> nonempty b -> within a c -> within b d -> within (i_min a b) (i_min c d).
Proof. intros A B AC BD t M. destruct (min_exact a b t A B M) as (r & s & R & S & ->). apply min_incl; auto. Qed.
Lemma max_iso (a b c d : IT) : nonempty a -> nonempty b -> within a c -> within b d -> within (i_max a b) (i_max c d).
Proof. intros A B AC BD t M. destruct (max_exact a b t A B M) as (r & s & R & S & ->). apply max_incl; auto. Qed.
Lemma ne_within (a c : IT) : nonempty a -> within a c -> nonempty c.
Proof. intros [r R] H. exists r. auto. Qed.
Lemma ne_proper (a : IT) : nonempty a -> proper a.
Proof. intros [r R]. exact (mem_proper _ _ R). Qed.
Lemma union_iso (a b c d : IT) : nonempty a -> nonempty b -> within a c -> within b d -> within (i_union a b) (i_union c d).
Proof.
  intros A B AC BD t M. assert (C := ne_within _ _ A AC). assert (D := ne_within _ _ B BD).
  apply (union_mem a b t (ne_proper _ A) (ne_proper _ B)) in M. apply (union_mem c d t (ne_proper _ C) (ne_proper _ D)).
  apply (subset_iff a c A (ne_proper _ C)) in AC as [L1 U1]. apply (subset_iff b d B (ne_proper _ D)) in BD as [L2 U2].
  apply fle_E in L1 as (? & ? & L1), L2 as (? & ? & L2), U1 as (? & ? & U1), U2 as (? & ? & U2).
  destruct M as [[M1|M1] [M2|M2]]; (split; [first [left; eapply below_le; [|eassumption|exact M1]; exact L1|right; eapply below_le; [|eassumption|exact M1]; exact L2]|first [left; eapply above_ge; [|eassumption|exact M2]; exact U1|right; eapply above_ge; [|eassumption|exact M2]; exact U2]]).
Qed.
Lemma intersect_iso (a b c d : IT) : proper a -> proper b -> proper c -> proper d -> within a c -> within b d -> within (i_intersect a b) (i_intersect c d).
Proof. intros A B C D AC BD t M. apply (intersect_mem a b t A B) in M as [M1 M2]. apply (intersect_mem c d t C D). auto. Qed.
Lemma abs_iso (a c : IT) : nonempty a -> within a c -> within (i_abs a) (i_abs c).
Proof.
  intros A AC t M. assert (C := ne_within _ _ A AC). destruct (ne_proper _ A) as [N1 N2]. destruct (ne_proper _ C) as [N3 N4].
  destruct (Rlt_dec (E (sup a)) 0) as [S|S].
  - assert (AC' := AC). apply (subset_iff a c A (ne_proper _ C)) in AC' as [L U]. apply fle_E in L as (_ & _ & L). destruct (nonempty_facts a A) as (_ & _ & _ & _ & O).
    revert M. unfold i_abs. replace (is_negative (inf a)) with (Rlt_bool (E (inf a)) 0) by (symmetry; exact (lt_b (inf a) (fzero false) N1 eq_refl)).
    replace (is_negative (inf c)) with (Rlt_bool (E (inf c)) 0) by (symmetry; exact (lt_b (inf c) (fzero false) N3 eq_refl)).
    rewrite !Rlt_bool_true by lra. destruct (sabs_E (inf a) N1) as [Q1 V1], (sabs_E (sup a) N2) as [Q2 V2], (sabs_E (inf c) N3) as [Q3 V3], (sabs_E (sup c) N4) as [Q4 V4].
    intros [M1 M2]. split; [exact M1|]. cbn [i_new inf sup] in *. apply above_max; [exact Q3|exact Q4|]. left. apply above_max in M2; [|exact Q1|exact Q2].
    rewrite Rabs_left in V1 by lra. rewrite Rabs_left in V2 by lra. rewrite Rabs_left in V3 by lra.
    destruct M2 as [M2|M2]; (eapply above_ge; [|exact Q3|exact M2]).
    + apply Rle_trans with (- E (inf a)); [exact (Req_le _ _ V1)|apply Rle_trans with (- E (inf c)); [lra|exact (Req_le _ _ (eq_sym V3))]].
    + apply Rle_trans with (- E (sup a)); [exact (Req_le _ _ V2)|apply Rle_trans with (- E (inf c)); [lra|exact (Req_le _ _ (eq_sym V3))]].
  - destruct (abs_exact a t A) as (r & R & ->); [rewrite flt_E; intros (_ & _ & K); apply S; exact K|exact M|]. apply abs_incl. auto.
Qed.

(** ** symmetry laws *)
Lemma image2_swap g h (P Q : R -> Prop) x : (forall r s, g r s = h s r) -> image2 g P Q x <-> image2 h Q P x.
Proof. intros H. split; intros (r & s & R & S & ->); exists s, r; rewrite H || rewrite <- H; auto. Qed.
Lemma add_comm (a b : IT) : bounded a -> ordered a -> bounded b -> ordered b -> same_bounds (i_add a b) (i_add b a).
Proof. intros Ba Oa Bb Ob. apply (corner_same _ _ _ _ (add_corner a b Ba Oa Bb Ob) (add_corner b a Bb Ob Ba Oa)). intros x. apply image2_swap. intros. ring. Qed.
Lemma mul_comm (a b : IT) : bounded a -> ordered a -> bounded b -> ordered b -> ~ (straddles a /\ straddles b) -> same_bounds (i_mul a b) (i_mul b a).
Proof. intros Ba Oa Bb Ob NS. apply (corner_same _ _ _ _ (mul_corner a b Ba Oa Bb Ob NS) (mul_corner b a Bb Ob Ba Oa ltac:(tauto))). intros x. apply image2_swap. intros. ring. Qed.
Lemma neg_ok (b : IT) : bounded b -> ordered b -> bounded (i_neg b) /\ ordered (i_neg b).
Proof.
  intros [B1 B2] O. assert (F1 := proj2 (fneg_finite _) B1). assert (F2 := proj2 (fneg_finite _) B2). split; [split; assumption|]. apply fle_E in O as (N1 & N2 & O). apply fle_E.
  cbn [i_neg i_new inf sup]. split; [apply fneg_nonnan; exact N2|split; [apply fneg_nonnan; exact N1|]]. change (E (fneg (sup b)) <= E (fneg (inf b))). rewrite !fneg_E. lra.
Qed.
Lemma sub_add_neg (a b : IT) : bounded a -> ordered a -> bounded b -> ordered b -> same_bounds (i_sub a b) (i_add a (i_neg b)).
Proof.
  intros Ba Oa Bb Ob. destruct (neg_ok b Bb Ob) as [Bn On]. apply (corner_same _ _ _ _ (sub_corner a b Ba Oa Bb Ob) (add_corner a (i_neg b) Ba Oa Bn On)).
  intros x. split; intros (r & s & R & S & ->); exists r, (- s).
  - split; [exact R|]. split; [apply neg_mem; exact S|ring].
  - split; [exact R|]. split; [apply neg_mem; rewrite Ropp_involutive; exact S|ring].
Qed.
Lemma feq_of (x y : FT) : nonnan x -> nonnan y -> E x = E y -> feq x y.
Proof. intros. apply feq_E. auto. Qed.
Lemma minmax_comm (a b : IT) : proper a -> proper b ->
  same_bounds (i_min a b) (i_min b a) /\ same_bounds (i_max a b) (i_max b a) /\ same_bounds (i_union a b) (i_union b a) /\ same_bounds (i_intersect a b) (i_intersect b a).
Proof.
  intros [A1 A2] [B1 B2].
  assert (MN : forall x y : FT, nonnan x -> nonnan y -> feq (smin x y) (smin y x)).
  { intros x y X Y. destruct (smin_E x y X Y) as [P1 P2], (smin_E y x Y X) as [Q1 Q2]. apply feq_of; [exact P1|exact Q1|]. rewrite P2, Q2. apply Rmin_comm. }
  assert (MX : forall x y : FT, nonnan x -> nonnan y -> feq (smax x y) (smax y x)).
  { intros x y X Y. destruct (smax_E x y X Y) as [P1 P2], (smax_E y x Y X) as [Q1 Q2]. apply feq_of; [exact P1|exact Q1|]. rewrite P2, Q2. apply Rmax_comm. }
  repeat split; first [apply MN; assumption|apply MX; assumption].
Qed.
(** ** scalar operands are point intervals *)
Lemma mul_s_point (a : IT) (t : FT) : bounded a -> ordered a -> finite t -> same_bounds (i_mul_s a t) (i_mul a (i_from t)).
Proof.
  intros Ba Oa Ft. destruct (from_ok t Ft) as [Bt Ot]. assert (NS : ~ (straddles a /\ straddles (i_from t))).
  { intros [_ K]. apply straddles_E in K as (_ & _ & K). cbn [i_from i_new inf sup] in K. lra. }
  refine (corner_same _ _ _ _ _ (mul_corner a (i_from t) Ba Oa Bt Ot NS) (fun x => iff_refl _)).
  assert (KA := ord_B a Ba Oa). assert (NT := nonnan_of_finite _ Ft).
  assert (P1 := pt2 a (i_from t) Ba Oa Bt Ot Rmult (B2R (inf a)) (B2R t) (or_introl eq_refl) (or_introl eq_refl)). assert (P2 := pt2 a (i_from t) Ba Oa Bt Ot Rmult (B2R (sup a)) (B2R t) (or_intror eq_refl) (or_introl eq_refl)).
  assert (Ba' := Ba). destruct Ba as [A1 A2]. unfold i_mul_s. replace (is_nonnegative t) with (Rle_bool 0 (E t)) by (symmetry; exact (ge_b t (fzero false) NT eq_refl)).
  rewrite (E_B2R _ Ft). change (@smul FT _) with (@fmul f).
  destruct (Rle_bool_spec 0 (B2R t)); (apply mk_corner; [assumption..|]); intros x (r & s & R & S & ->); apply (mem_B a r Ba') in R; apply (from_mem t s Ft) in S; subst s; split; nra.
Qed.
Lemma div_s_point (a : IT) (t : FT) : bounded a -> ordered a -> finite t -> same_bounds (i_div_s a t) (i_div a (i_from t)).
Proof.
  intros Ba Oa Ft. destruct (from_ok t Ft) as [Bt Ot]. destruct (Req_dec (B2R t) 0) as [Z|Z].
  { rewrite (div_s_zero a t Z Ft). rewrite (div_zero_whole a (i_from t)) by (apply (from_mem t 0 Ft); auto). split; apply feq_of; reflexivity. }
  assert (NS : ~ mem 0 (i_from t)) by (intros K; apply (from_mem t 0 Ft) in K; auto).
  refine (corner_same _ _ _ _ _ (div_corner a (i_from t) Ba Oa Bt Ot NS) (fun x => iff_refl _)).
  assert (KA := ord_B a Ba Oa). assert (NT := nonnan_of_finite _ Ft).
  assert (P1 := pt2 a (i_from t) Ba Oa Bt Ot Rdiv (B2R (inf a)) (B2R t) (or_introl eq_refl) (or_introl eq_refl)). assert (P2 := pt2 a (i_from t) Ba Oa Bt Ot Rdiv (B2R (sup a)) (B2R t) (or_intror eq_refl) (or_introl eq_refl)).
  assert (Ba' := Ba). destruct Ba as [A1 A2]. unfold i_div_s. replace (t > szero)%S with (Rlt_bool 0 (E t)) by (symmetry; exact (gt_b t (fzero false) NT eq_refl)).
  replace (t < szero)%S with (Rlt_bool (E t) 0) by (symmetry; exact (lt_b t (fzero false) NT eq_refl)).
  rewrite (E_B2R _ Ft). change (@sdiv FT _) with (@fdiv f).
  destruct (Rlt_bool_spec 0 (B2R t)) as [T|T]; [|destruct (Rlt_bool_spec (B2R t) 0) as [T2|T2]; [|exfalso; lra]]; (apply mk_cornerd; [assumption..|]); intros x (r & s & R & S & ->); apply (mem_B a r Ba') in R; apply (from_mem t s Ft) in S; subst s;
  [assert (0 < / B2R t) by (apply Rinv_0_lt_compat; exact T)|assert (/ B2R t < 0) by (apply Rinv_lt_0_compat; exact T2)]; unfold Rdiv; split; nra.
Qed.
Lemma add_s_point (a : IT) (t : FT) : i_add_s a t = i_add a (i_from t) /\ i_sub_s a t = i_sub a (i_from t).
Proof. split; reflexivity. Qed.
Lemma same_refl (a : IT) : proper a -> same_bounds a a.
Proof. intros [A B]. split; apply feq_of; auto. Qed.
Lemma scalar_point (a : IT) (t : FT) : bounded a -> ordered a -> finite t ->
  same_bounds (i_add_s a t) (i_add a (i_from t)) /\ same_bounds (i_sub_s a t) (i_sub a (i_from t)) /\
  same_bounds (i_mul_s a t) (i_mul a (i_from t)) /\ same_bounds (i_div_s a t) (i_div a (i_from t)).
Proof.
  intros Ba Oa Ft. destruct (bounded_nonempty a Ba Oa) as [M _]. split; [|split; [|split; [apply mul_s_point; assumption|apply div_s_point; assumption]]].
  - apply same_refl. exact (mem_proper _ _ (add_s_incl a t _ M Ft)).
  - apply same_refl. exact (mem_proper _ _ (sub_s_incl a t _ M Ft)).
Qed.
Lemma exact_ops_iso (a b c d : IT) : nonempty a -> nonempty b -> within a c -> within b d ->
  within (i_neg a) (i_neg c) /\ within (i_abs a) (i_abs c) /\ within (i_min a b) (i_min c d) /\ within (i_max a b) (i_max c d) /\
  within (i_union a b) (i_union c d) /\ within (i_intersect a b) (i_intersect c d).
Proof.
  intros A B AC BD. assert (C := ne_within _ _ A AC). assert (D := ne_within _ _ B BD).
  split; [exact (neg_iso a c AC)|]. split; [exact (abs_iso a c A AC)|]. split; [exact (min_iso a b c d A B AC BD)|]. split; [exact (max_iso a b c d A B AC BD)|].
  split; [exact (union_iso a b c d A B AC BD)|]. exact (intersect_iso a b c d (ne_proper _ A) (ne_proper _ B) (ne_proper _ C) (ne_proper _ D) AC BD).
Qed.
End I.

(** ** counterexamples *)
Lemma mul_iso_refuted f (m : libm f) : ~ (forall a b c d : interval (float f), bounded a -> ordered a -> bounded b -> ordered b -> bounded c -> ordered c -> bounded d -> ordered d ->
  within a c -> within b d -> within (smul a b) (smul c d)).
Proof.
  intros H. assert (W := H (ZI f (-1) (-1)) (ZI f (-3) (-3)) (ZI f (-1) 2) (ZI f (-3) 1)).
  assert (K : within (smul (ZI f (-1) (-1)) (ZI f (-3) (-3))) (smul (ZI f (-1) 2) (ZI f (-3) 1))).
  { apply W; try zi; intros r M; apply ZI_mem in M; try lia; apply ZI_mem; try lia; lra. }
  assert (M : mem (-1 * -3) (smul (ZI f (-1) (-1)) (ZI f (-3) (-3)))).
  { apply mul_incl_bounded; try zi. intros [S _]. apply straddles_E in S as (_ & _ & S). cbn [ZI inf sup] in S. lra. }
  apply K in M. destruct (mul_bad_sup f m) as [L F]. destruct M as [_ M]. apply above_finite in M; [|exact F]. lra.
Qed.
Lemma square_iso_refuted f (m : libm f) : ~ (forall a c : interval (float f), bounded a -> ordered a -> bounded c -> ordered c -> within a c -> within (ssquare a) (ssquare c)).
Proof.
  intros H. assert (K := H (ZI f 0 1) (ZI f (-1) 1) ltac:(zi) ltac:(zi) ltac:(zi) ltac:(zi) ltac:(intros r M; apply ZI_mem in M; try lia; apply ZI_mem; try lia; lra)).
  assert (Q := square_negative_lower f m). apply flt_E in Q as (N & _ & Q). change (E (fzero false : float f)) with 0 in Q.
  assert (M0 : mem (0 * 0) (ssquare (ZI f 0 1))) by (apply (square_incl (ZI f 0 1) 0); zi). replace (0 * 0) with 0 in M0 by ring.
  assert (F : finite (inf (ssquare (ZI f 0 1)))) by (destruct f; vm_compute; reflexivity).
  assert (M : mem (B2R (inf (ssquare (ZI f 0 1)))) (ssquare (ZI f 0 1))).
  { split; [apply below_finite; [exact F|lra]|]. rewrite <- (E_B2R _ F). destruct M0 as [_ M0]. eapply above_trans; [exact M0|lra]. }
  apply K in M. destruct M as [M _]. assert (S : straddles (ZI f (-1) 1)).
  { assert (1000 <= 2 ^ prec f)%Z by (destruct f; vm_compute; discriminate). destruct (f_of_Z_exact (f := f) (-1)) as [F1 V1]; [lia|]. destruct (f_of_Z_exact (f := f) 1) as [F2 V2]; [lia|].
    apply straddles_E. cbn [ZI inf sup]. rewrite (E_B2R _ F1), (E_B2R _ F2), V1, V2. split; [apply nonnan_of_finite; exact F1|split; [apply nonnan_of_finite; exact F2|lra]]. }
  change (ssquare (ZI f (-1) 1)) with (i_square (ZI f (-1) 1)) in M. rewrite (square_straddle _ S) in M. apply (below_finite (fzero false : float f)) in M; [|reflexivity].
  change (B2R (fzero false : float f)) with 0 in M. assert (EE := E_B2R _ F). exact (Rlt_not_le _ _ Q (Rle_trans _ _ _ M (Req_le _ _ (eq_sym EE)))).
Qed.
Lemma mul_comm_refuted f (m : libm f) : ~ (forall a b : interval (float f), bounded a -> ordered a -> bounded b -> ordered b -> same_bounds (smul a b) (smul b a)).
Proof.
  intros H. destruct (H (ZI f (-1) 2) (ZI f (-3) 1) ltac:(zi) ltac:(zi) ltac:(zi) ltac:(zi)) as [_ K].
  apply feq_E in K as (_ & _ & K). destruct (mul_bad_sup f m) as [L F]. rewrite (E_B2R _ F) in K.
  assert (F2 : finite (sup (smul (ZI f (-3) 1) (ZI f (-1) 2)))) by (destruct f; vm_compute; reflexivity). rewrite (E_B2R _ F2) in K.
  assert (Q : 8 < B2R (sup (smul (ZI f (-3) 1) (ZI f (-1) 2)))); [|lra].
  clear. destruct f; match goal with |- _ < B2R ?x => b2r_eval x end; simpl bpow; lra.
Qed.
