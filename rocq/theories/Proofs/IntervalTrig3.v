(** Interval atan2. *)
From Coq Require Import ZArith Reals Bool Lra Lia.
From Flocq Require Import Core BinarySingleNaN.
From Verif.Model Require Import FloatBase Scalar Float Interval.
From Verif Require Import Spec SpecTrig.
From Verif.Proofs Require Import BitsLemmas FloatLemmas PiBounds ScalarProofs IntervalBase IntervalProofs IntervalProofs2 IntervalRefute TrigReal IntervalTrig IntervalTrig2 PiShift.
Open Scope R_scope.

(** ** the angle of a point *)
Lemma angle_half y x t : angle2 y x t -> 0 < x -> t = atan (y / x) /\ - (PI / 2) < t < PI / 2.
Proof.
  intros (B & r & R & X & Y) P. assert (C : 0 < cos t) by (apply (Rmult_lt_reg_l r); [exact R|lra]).
  assert (T : - (PI / 2) < t < PI / 2).
  { split.
    - apply Rnot_le_lt. intros K. assert (cos t <= 0); [|lra]. rewrite <- cos_neg. apply cos_le_0; lra.
    - apply Rnot_le_lt. intros K. assert (cos t <= 0); [|lra]. apply cos_le_0; lra. }
  split; [|exact T]. rewrite <- (atan_tan t T) at 1. f_equal. unfold tan. subst x y. field. lra.
Qed.
Lemma angle_zero y x t : angle2 y x t -> x = 0 -> (0 < y -> t = PI / 2) /\ (y < 0 -> t = - (PI / 2)) /\ y <> 0.
Proof.
  intros (B & r & R & X & Y) Z. assert (P := PI_RGT_0). assert (C : cos t = 0) by (apply (Rmult_eq_reg_l r); lra).
  assert (T : t = PI / 2 \/ t = - (PI / 2)).
  { destruct (Rtotal_order t (PI / 2)) as [K|[K|K]]; [|left; exact K|].
    - destruct (Rtotal_order t (- (PI / 2))) as [K2|[K2|K2]]; [|right; exact K2|].
      + exfalso. assert (cos t < 0); [|lra]. rewrite <- cos_neg. apply cos_lt_0; lra.
      + exfalso. assert (0 < cos t); [|lra]. apply cos_gt_0; lra.
    - exfalso. assert (cos t < 0); [|lra]. apply cos_lt_0; lra. }
  destruct T as [T|T]; rewrite T in *; rewrite ?sin_neg, sin_PI2 in Y; repeat split; intros; lra.
Qed.
Lemma angle_left y x t : angle2 y x t -> x < 0 -> (0 <= y -> t = atan (y / x) + PI /\ PI / 2 < t <= PI) /\ (y < 0 -> t = atan (y / x) - PI /\ - PI < t < - (PI / 2)).
Proof.
  intros (B & r & R & X & Y) P. assert (PP := PI_RGT_0). assert (C : cos t < 0) by (apply (Rmult_lt_reg_l r); [exact R|lra]).
  assert (T : ~ (- (PI / 2) <= t <= PI / 2)) by (intros K; assert (0 <= cos t) by (apply cos_ge_0; lra); lra).
  split; intros HY.
  - assert (S : 0 <= sin t) by (apply (Rmult_le_reg_l r); [exact R|lra]).
    assert (TR : PI / 2 < t <= PI).
    { split; [|lra]. apply Rnot_le_lt. intros K. assert (t < 0) by lra. assert (sin t < 0); [|lra]. replace t with (- - t) by ring. rewrite sin_neg. assert (0 < sin (- t)) by (apply sin_gt_0; lra). lra. }
    split; [|exact TR]. assert (K : atan (tan (t - PI)) = t - PI) by (apply atan_tan; lra). enough (atan (y / x) = t - PI) by lra.
    rewrite <- K at 1. f_equal. unfold tan. assert (S1 : sin (t - PI) = - sin t) by (rewrite sin_minus, cos_PI, sin_PI; ring). assert (C1 : cos (t - PI) = - cos t) by (rewrite cos_minus, cos_PI, sin_PI; ring).
    rewrite S1, C1. subst x y. field. split; lra.
  - assert (S : sin t < 0) by (apply (Rmult_lt_reg_l r); [exact R|lra]).
    assert (TR : - PI < t < - (PI / 2)).
    { split; [lra|]. apply Rnot_le_lt. intros K. assert (PI / 2 < t) by lra. assert (0 <= sin t); [|lra]. apply sin_ge_0; lra. }
    split; [|exact TR]. assert (K : atan (tan (t + PI)) = t + PI) by (apply atan_tan; lra). enough (atan (y / x) = t + PI) by lra.
    rewrite <- K at 1. f_equal. unfold tan. rewrite neg_sin, neg_cos. subst x y. field. split; lra.
Qed.

Section A.
Context {f : fmt} {m : libm f}.
Notation FT := (float f).
Notation IT := (interval (float f)).
Notation nd := (f_next_down f).
Notation nu := (f_next_up f).
Notation at_ := (fun a : IT => i_map_monotonic_inc a (m_atan m)).
Notation fpu := (f_frac_pi_2_upper f).
Notation fpl := (f_frac_pi_2_lower f).
Notation piu := (f_pi_upper f).

(** atan over any interval of quotients *)
Lemma atan_any (z : FT) : good_atan m -> nonnan z -> exists r, within_ulp (m_atan m z) r /\ - (PI / 2) <= r <= PI / 2 /\
  (forall x, below z x -> r <= atan x) /\ (forall x, above z x -> atan x <= r).
Proof.
  intros (GA & GP & GN) N. assert (P := PI_RGT_0). destruct z as [s|[]| |s mm e H]; [|exists (- (PI / 2))|exists (PI / 2)|discriminate|].
  - exists (atan (B2R (B754_zero s : FT))). assert (B := atan_bound (B2R (B754_zero s : FT))). split; [apply GA; reflexivity|]. split; [lra|]. split; intros x K; apply atan_mono.
    + apply (below_finite (B754_zero s : FT)) in K; [exact K|reflexivity].
    + apply (above_finite (B754_zero s : FT)) in K; [exact K|reflexivity].
  - split; [exact GN|]. split; [lra|]. split; intros x K; [assert (B := atan_bound x); lra|discriminate K].
  - split; [exact GP|]. split; [lra|]. split; intros x K; [discriminate K|assert (B := atan_bound x); lra].
  - set (z := B754_finite s mm e H : FT). exists (atan (B2R z)). assert (B := atan_bound (B2R z)). split; [apply GA; reflexivity|]. split; [lra|]. split; intros x K; apply atan_mono.
    + apply (below_finite z) in K; [exact K|reflexivity].
    + apply (above_finite z) in K; [exact K|reflexivity].
Qed.
Lemma at_bounds (a : IT) : good_atan m -> proper a ->
  (finite (inf (at_ a)) /\ -17 / 10 <= B2R (inf (at_ a)) <= 17 / 10) /\ (finite (sup (at_ a)) /\ -17 / 10 <= B2R (sup (at_ a)) <= 17 / 10).
Proof.
  intros G [N1 N2]. destruct (atan_any _ G N1) as (r & W & R & _). destruct (atan_any _ G N2) as (r' & W' & R' & _).
  destruct (atan_down _ _ _ W R) as (A & B & C). destruct (atan_up _ _ _ W' R') as (A' & B' & C'). cbn. split; (split; [assumption|lra]).
Qed.
Lemma at_incl (a : IT) x : good_atan m -> mem x a -> mem (atan x) (at_ a).
Proof.
  intros G M. destruct (mem_proper _ _ M) as [N1 N2]. destruct M as [L U]. destruct (atan_any _ G N1) as (r & W & R & K & _). destruct (atan_any _ G N2) as (r' & W' & R' & _ & K').
  split; cbn; [eapply below_trans; [apply ulp_down; exact W|apply K; exact L]|eapply above_trans; [apply ulp_up; exact W'|apply K'; exact U]].
Qed.
Lemma at_whole c : good_atan m -> - (PI / 2) <= c <= PI / 2 -> mem c (at_ (mkI (finf true) (finf false))).
Proof.
  intros (_ & GP & GN) C. split; cbn; [eapply below_trans; [apply ulp_down; exact GN|lra]|eapply above_trans; [apply ulp_up; exact GP|lra]].
Qed.
Lemma quot_cover (y x : IT) r s c : good_atan m -> mem r y -> mem s x -> (s <> 0 -> c = atan (r / s)) -> - (PI / 2) <= c <= PI / 2 -> mem c (at_ (i_div y x)).
Proof.
  intros G Y X K B. destruct (Req_dec s 0) as [Z|Z].
  - subst s. rewrite (div_zero_whole y x X). apply at_whole; assumption.
  - rewrite (K Z). apply at_incl; [exact G|]. apply div_incl; assumption.
Qed.
Lemma add_pi_incl (a : IT) r : good_atan m -> proper a -> mem r (at_ a) -> mem (r + PI) (i_add_s (at_ a) (f_pi f)).
Proof.
  intros G P [L U]. destruct (at_bounds a G P) as [[F1 B1] [F2 B2]]. apply (below_finite _ _ F1) in L. apply (above_finite _ _ F2) in U.
  split; [eapply below_trans; [apply (add_pi_bracket _ F1 B1)|lra]|eapply above_trans; [apply (add_pi_bracket _ F2 B2)|lra]].
Qed.
Lemma sub_pi_incl (a : IT) r : good_atan m -> proper a -> mem r (at_ a) -> mem (r - PI) (i_sub_s (at_ a) (f_pi f)).
Proof.
  intros G P [L U]. destruct (at_bounds a G P) as [[F1 B1] [F2 B2]]. apply (below_finite _ _ F1) in L. apply (above_finite _ _ F2) in U.
  split; [eapply below_trans; [apply (sub_pi_bracket _ F1 B1)|lra]|eapply above_trans; [apply (sub_pi_bracket _ F2 B2)|lra]].
Qed.
Lemma div_proper (y x : IT) : nonempty y -> nonempty x -> proper (i_div y x).
Proof. intros Y X. assert (O := div_ordered y x Y X). apply fle_E in O as (A & B & _). split; assumption. Qed.

(** ** the three one-sided cases *)
Definition right_case (y x : IT) : IT := i_intersect (at_ (i_div y x)) (i_new (fneg fpu) fpu).
Definition left_case (y x : IT) : IT :=
  if i_is_nonnegative y then i_intersect (i_add_s (at_ (i_div y x)) (f_pi f)) (i_new fpl piu)
  else if i_is_negative y then i_intersect (i_sub_s (at_ (i_div y x)) (f_pi f)) (i_new (fneg piu) (fneg fpl))
  else i_new (fneg piu) piu.
Lemma consts_fin : finite fpu /\ finite piu /\ finite fpl. Proof. apply fpu_finite. Qed.
Lemma mem_span (l u : FT) r : finite l -> finite u -> B2R l <= r <= B2R u -> mem r (i_new l u).
Proof. intros A B C. apply mem_mk; try assumption; lra. Qed.
Lemma proper_intersect (a b : IT) : proper a -> proper b -> proper (i_intersect a b).
Proof. intros [A1 A2] [B1 B2]. split; cbn; [apply (smax_E (f := f))|apply (smin_E (f := f))]; assumption. Qed.
Lemma proper_new (l u : FT) : finite l -> finite u -> proper (i_new l u).
Proof. intros. split; apply nonnan_of_finite; assumption. Qed.
Lemma at_proper (a : IT) : good_atan m -> proper a -> proper (at_ a).
Proof. intros G P. destruct (at_bounds a G P) as [[F1 _] [F2 _]]. split; apply nonnan_of_finite; assumption. Qed.
Lemma shift_proper (a : IT) : good_atan m -> proper a -> proper (i_add_s (at_ a) (f_pi f)) /\ proper (i_sub_s (at_ a) (f_pi f)).
Proof.
  intros G P. destruct (at_bounds a G P) as [[F1 B1] [F2 B2]].
  split; split; [eapply below_nn; apply (add_pi_bracket _ F1 B1)|eapply above_nn; apply (add_pi_bracket _ F2 B2)|eapply below_nn; apply (sub_pi_bracket _ F1 B1)|eapply above_nn; apply (sub_pi_bracket _ F2 B2)].
Qed.
Lemma right_proper (y x : IT) : good_atan m -> nonempty y -> nonempty x -> proper (right_case y x).
Proof. intros G Y X. destruct consts_fin as (C1 & C2 & C3). apply proper_intersect; [apply at_proper; [exact G|apply div_proper; assumption]|apply proper_new; [apply fneg_finite|]; assumption]. Qed.
Lemma left_proper (y x : IT) : good_atan m -> nonempty y -> nonempty x -> proper (left_case y x).
Proof.
  intros G Y X. destruct consts_fin as (C1 & C2 & C3). assert (D := shift_proper _ G (div_proper y x Y X)). unfold left_case.
  destruct (i_is_nonnegative y); [|destruct (i_is_negative y)]; [apply proper_intersect; [apply D|apply proper_new; assumption]| |apply proper_new; [apply fneg_finite|]; assumption].
  apply proper_intersect; [apply D|apply proper_new; apply fneg_finite; assumption].
Qed.
Lemma right_incl (y x : IT) r s t : good_atan m -> mem r y -> mem s x -> 0 <= s -> angle2 r s t -> Rabs t <= B2R fpu -> mem t (right_case y x).
Proof.
  intros G Y X S A B. destruct consts_fin as (C1 & C2 & C3). apply Rabs_le_inv in B.
  assert (PY : nonempty y) by (exists r; exact Y). assert (PX : nonempty x) by (exists s; exact X).
  apply intersect_mem; [apply at_proper; [exact G|apply div_proper; assumption]|apply proper_new; [apply fneg_finite|]; assumption|].
  split; [|apply mem_span; [apply fneg_finite; exact C1|exact C1|rewrite fneg_B2R; lra]].
  apply (quot_cover y x r s); try assumption.
  - intros NZ. apply (angle_half r s t A). lra.
  - destruct (Req_dec s 0) as [Z|Z]; [|assert (K := angle_half r s t A ltac:(lra)); lra].
    destruct (angle_zero r s t A Z) as (P1 & P2 & P3). assert (P := PI_RGT_0). destruct (Rtotal_order r 0) as [K|[K|K]]; [rewrite (P2 K)|contradiction|rewrite (P1 K)]; lra.
Qed.
Lemma left_incl (y x : IT) r s t : good_atan m -> mem r y -> mem s x -> s <= 0 -> angle2 r s t -> Rabs t <= B2R piu -> mem t (left_case y x).
Proof.
  intros G Y X S A B. destruct consts_fin as (C1 & C2 & C3). apply Rabs_le_inv in B. assert (P := PI_RGT_0).
  assert (PY : nonempty y) by (exists r; exact Y). assert (PX : nonempty x) by (exists s; exact X).
  assert (D := shift_proper _ G (div_proper y x PY PX)). assert (DP := div_proper y x PY PX). destruct (lower_consts f) as (_ & _ & FL & _).
  destruct (mem_proper _ _ Y) as [NY1 NY2]. assert (YY := Y). destruct Y as [YL YU]. unfold left_case. rewrite (nonneg_b y NY1), (neg_b y NY2).
  destruct (Rle_bool_spec 0 (E (inf y))) as [Q|Q]; [|destruct (Rlt_bool_spec (E (sup y)) 0) as [Q2|Q2]].
  - assert (R0 : 0 <= r) by (eapply below_sign; eassumption).
    assert (T : PI / 2 <= t /\ (s <> 0 -> t - PI = atan (r / s)) /\ - (PI / 2) <= t - PI <= PI / 2).
    { destruct (Req_dec s 0) as [Z|Z].
      - destruct (angle_zero r s t A Z) as (P1 & P2 & P3). rewrite (P1 ltac:(lra)). split; [lra|split; [contradiction|lra]].
      - destruct (angle_left r s t A ltac:(lra)) as [P1 _]. destruct (P1 R0) as [E1 E2]. split; [lra|split; [intros _; lra|lra]]. }
    destruct T as (T1 & T2 & T3). apply intersect_mem; [apply D|apply proper_new; assumption|]. split; [|apply mem_span; [assumption..|lra]].
    replace t with ((t - PI) + PI) by ring. apply add_pi_incl; [exact G|exact DP|]. apply (quot_cover y x r s); assumption.
  - assert (R0 : r < 0) by (apply above_inv in YU as (_ & _ & [W|[_ K]]); [rewrite W in Q2; cbn in Q2; assert (T := bpow_gt_0 radix2 (emax f)); lra|lra]).
    assert (T : t <= - (PI / 2) /\ (s <> 0 -> t + PI = atan (r / s)) /\ - (PI / 2) <= t + PI <= PI / 2).
    { destruct (Req_dec s 0) as [Z|Z].
      - destruct (angle_zero r s t A Z) as (P1 & P2 & P3). rewrite (P2 ltac:(lra)). split; [lra|split; [contradiction|lra]].
      - destruct (angle_left r s t A ltac:(lra)) as [_ P1]. destruct (P1 R0) as [E1 E2]. split; [lra|split; [intros _; lra|lra]]. }
    destruct T as (T1 & T2 & T3). apply intersect_mem; [apply D|apply proper_new; apply fneg_finite; assumption|]. split; [|apply mem_span; [apply fneg_finite; assumption..|rewrite !fneg_B2R; lra]].
    replace t with ((t + PI) - PI) by ring. apply sub_pi_incl; [exact G|exact DP|]. apply (quot_cover y x r s); assumption.
  - apply mem_span; [apply fneg_finite; assumption|assumption|rewrite fneg_B2R; lra].
Qed.

(** ** the whole function *)
Lemma atan2_step n (y x : IT) : i_atan2_fuel (S n) y x =
  if is_zero x || is_zero y then Some szero
  else if i_is_nonnegative x then Some (right_case y x)
  else if i_is_nonpositive x then Some (left_case y x)
  else match i_atan2_fuel n y (i_new (inf x) szero), i_atan2_fuel n y (i_new szero (sup x)) with Some l, Some r => Some (i_union l r) | _, _ => None end.
Proof.
  unfold left_case. cbn [i_atan2_fuel]. destruct (is_zero x || is_zero y); [reflexivity|]. destruct (i_is_nonnegative x); [reflexivity|]. destruct (i_is_nonpositive x); [|reflexivity].
  destruct (i_is_nonnegative y); [reflexivity|]. destruct (i_is_negative y); reflexivity.
Qed.
Lemma atan2_side (y x : IT) : i_is_nonnegative x = true \/ i_is_nonpositive x = true -> exists r, forall n, i_atan2_fuel (S n) y x = Some r.
Proof.
  intros H. destruct (is_zero x || is_zero y) eqn:Z; [exists szero; intros k; rewrite atan2_step, Z; reflexivity|].
  destruct (i_is_nonnegative x) eqn:X; [exists (right_case y x); intros k; rewrite atan2_step, Z, X; reflexivity|].
  destruct H as [H|H]; [discriminate|]. exists (left_case y x). intros k. rewrite atan2_step, Z, X, H. reflexivity.
Qed.
Lemma halves (x : IT) : i_is_nonpositive (i_new (inf x) szero) = true /\ i_is_nonnegative (i_new szero (sup x)) = true.
Proof. split; reflexivity. Qed.
(** the recursion always stops at depth two, and more fuel does not change the result *)
Lemma i_atan2_terminates (y x : IT) : forall n, i_atan2_fuel (2 + n) y x = Some (i_atan2 y x).
Proof.
  intros n. unfold i_atan2. change (2 + n)%nat with (S (S n)). rewrite (atan2_step (S n)), (atan2_step 1).
  destruct (is_zero x || is_zero y); [reflexivity|]. destruct (i_is_nonnegative x); [reflexivity|]. destruct (i_is_nonpositive x); [reflexivity|].
  destruct (halves x) as [H1 H2]. destruct (atan2_side y _ (or_intror H1)) as [l L]. destruct (atan2_side y _ (or_introl H2)) as [r R].
  rewrite (L n), (R n), (L O), (R O). reflexivity.
Qed.
Lemma is_zero_just (x : IT) : nonempty x -> (is_zero x = true <-> just_zero x).
Proof.
  intros X. assert (Z : is_zero x = i_eqb x szero) by reflexivity. rewrite Z, ieqb_E. destruct (nonempty_facts x X) as [N _].
  destruct X as [r M]. assert (MM := M). destruct (mem_proper _ _ M) as [N1 N2]. destruct M as [L U].
  split.
  - intros (E1 & _ & E2). apply feq_E in E1 as (_ & _ & E1). apply feq_E in E2 as (_ & _ & E2). change (E (inf (szero : IT))) with 0 in E2.
    assert (T := top16 (f := f)). assert (F1 : finite (inf x)) by (apply finite_of_range; [exact N1|lra]). assert (F2 : finite (sup x)) by (apply finite_of_range; [exact N2|lra]).
    intros q. unfold mem. rewrite (below_finite _ _ F1), (above_finite _ _ F2), <- (E_B2R _ F1), <- (E_B2R _ F2). lra.
  - intros J. assert (R0 : r = 0) by (apply J; exact MM). subst r.
    assert (A : E (inf x) = 0 /\ E (sup x) = 0).
    { destruct (inf_cases x (ex_intro _ 0 MM)) as [[F I]|[I I2]]; [assert (B2R (inf x) = 0) by (apply J; exact I)|destruct (I2 0) as (q & Q & Q2); apply J in Q; lra].
      destruct (sup_cases x (ex_intro _ 0 MM)) as [[F2 K]|[K K2]]; [assert (B2R (sup x) = 0) by (apply J; exact K); rewrite (E_B2R _ F), (E_B2R _ F2); auto|destruct (K2 0) as (q & Q & Q2); apply J in Q; lra]. }
    destruct A as [A1 A2]. rewrite !feq_E. change (E (inf (szero : IT))) with 0. change (E (sup (szero : IT))) with 0. repeat split; try assumption; try reflexivity; congruence.
Qed.
Lemma atan2_incl (y x : IT) r s t : good_atan m -> mem r y -> mem s x -> ~ just_zero x -> ~ just_zero y -> angle2 r s t ->
  Rabs t <= B2R piu -> (s < 0 \/ Rabs t <= B2R fpu) -> mem t (gatan2 y x).
Proof.
  intros G Y X JX JY A B1 B2. change (gatan2 y x) with (i_atan2 y x).
  assert (PY : nonempty y) by (exists r; exact Y). assert (PX : nonempty x) by (exists s; exact X).
  assert (ZX : is_zero x = false) by (apply not_true_is_false; intros K; apply JX; apply (is_zero_just x PX); exact K).
  assert (ZY : is_zero y = false) by (apply not_true_is_false; intros K; apply JY; apply (is_zero_just y PY); exact K).
  destruct (mem_proper _ _ X) as [N1 N2]. assert (XX := X). destruct X as [XL XU].
  unfold i_atan2. rewrite atan2_step, ZX, ZY. cbn [orb].
  destruct (i_is_nonnegative x) eqn:NN.
  - rewrite (nonneg_b x N1) in NN. destruct (Rle_bool_spec 0 (E (inf x))); [|discriminate]. assert (0 <= s) by (eapply below_sign; eassumption). apply (right_incl y x r s); try assumption. destruct B2; [lra|assumption].
  - destruct (i_is_nonpositive x) eqn:NP.
    + rewrite (nonpos_b x N2) in NP. destruct (Rle_bool_spec (E (sup x)) 0); [|discriminate]. apply (left_incl y x r s); try assumption. eapply above_sign; eassumption.
    + rewrite (nonneg_b x N1) in NN. destruct (Rle_bool_spec 0 (E (inf x))) as [|Q1]; [discriminate|]. rewrite (nonpos_b x N2) in NP. destruct (Rle_bool_spec (E (sup x)) 0) as [|Q2]; [discriminate|].
      destruct (halves x) as [H1 H2]. set (xl := i_new (inf x) szero) in *. set (xr := i_new szero (sup x)) in *.
      assert (M0l : mem 0 xl). { split; cbn; [|lra]. apply below_E; [exact N1|intros W; rewrite W in Q1; cbn in Q1; assert (T := bpow_gt_0 radix2 (emax f)); lra|lra]. }
      assert (M0r : mem 0 xr). { split; cbn; [lra|]. apply above_E; [exact N2|intros W; rewrite W in Q2; cbn in Q2; assert (T := bpow_gt_0 radix2 (emax f)); lra|lra]. }
      assert (Pl : nonempty xl) by (exists 0; exact M0l). assert (Pr : nonempty xr) by (exists 0; exact M0r).
      assert (Zl : is_zero xl = false).
      { apply not_true_is_false. intros K. change (is_zero xl) with (i_eqb xl szero) in K. apply ieqb_E in K as (K & _). apply feq_E in K as (_ & _ & K). change (E (sup xl)) with 0 in K. change (E (inf xl)) with (E (inf x)) in K. lra. }
      assert (Zr : is_zero xr = false).
      { apply not_true_is_false. intros K. change (is_zero xr) with (i_eqb xr szero) in K. apply ieqb_E in K as (K & _). apply feq_E in K as (_ & _ & K). change (E (inf xr)) with 0 in K. change (E (sup xr)) with (E (sup x)) in K. lra. }
      assert (NNl : i_is_nonnegative xl = false). { rewrite (nonneg_b xl N1). apply Rle_bool_false. exact Q1. }
      rewrite !atan2_step, Zl, Zr, ZY, NNl, H1, H2. cbn [orb].
      apply union_mem; [apply left_proper; assumption|apply right_proper; assumption|].
      destruct (Rle_or_lt s 0) as [S0|S0].
      * assert (K : mem t (left_case y xl)); [|destruct K; split; left; assumption]. apply (left_incl y xl r s); try assumption. split; [exact XL|cbn; lra].
      * assert (K : mem t (right_case y xr)); [|destruct K; split; right; assumption]. apply (right_incl y xr r s); try assumption; [split; [cbn; lra|exact XU]|lra|destruct B2; [lra|assumption]].
Qed.
End A.
(** ** final forms *)
Lemma atan2_final f (m : libm f) (y x : interval (float f)) r s t : good_atan m -> mem r y -> mem s x -> ~ just_zero x -> ~ just_zero y -> angle2 r s t ->
  (f = F64 \/ (Rabs t <= B2R (f_pi_upper f) /\ (s < 0 \/ Rabs t <= B2R (f_frac_pi_2_upper f)))) -> mem t (gatan2 y x).
Proof.
  intros G Y X JX JY A [H|[H1 H2]]; [|apply (atan2_incl y x r s); assumption]. destruct upper_consts_f64 as (U1 & _ & U2 & _). rewrite <- H in U1, U2. assert (P := PI_RGT_0).
  apply (atan2_incl y x r s); try assumption.
  - apply Rle_trans with PI; [|exact U1]. destruct A as (B & _). apply Rabs_le. lra.
  - destruct (Rlt_or_le s 0) as [S|S]; [left; exact S|right]. apply Rle_trans with (PI / 2); [|exact U2]. apply Rabs_le.
    destruct S as [S|S]; [assert (K := angle_half r s t A S); lra|]. destruct (angle_zero r s t A (eq_sym S)) as (P1 & P2 & P3).
    destruct (Rtotal_order r 0) as [K|[K|K]]; [rewrite (P2 K)|contradiction|rewrite (P1 K)]; lra.
Qed.
Lemma angle_up : angle2 1 0 (PI / 2).
Proof. assert (P := PI_RGT_0). split; [lra|]. exists 1. rewrite cos_PI2, sin_PI2. lra. Qed.
Lemma angle_back : angle2 0 (-1) PI.
Proof. assert (P := PI_RGT_0). split; [lra|]. exists 1. rewrite cos_PI, sin_PI. lra. Qed.
Lemma zero_point f (m : libm f) (y x : interval (float f)) t : is_zero x || is_zero y = true -> mem t (gatan2 y x) -> t = 0.
Proof.
  intros Z K. change (gatan2 y x) with (i_atan2 y x) in K. unfold i_atan2 in K. rewrite atan2_step, Z in K. destruct K as [K1 K2]. cbn in K1, K2. lra.
Qed.
Lemma atan2_refuted f (m : libm f) :
  ~ mem (PI / 2) (gatan2 (ZI f 1 1) (ZI f 0 0)) /\ ~ mem PI (gatan2 (ZI f 0 0) (ZI f (-1) (-1))).
Proof.
  assert (P := PI_RGT_0). split; intros K; apply zero_point in K; try lra; destruct f; vm_compute; reflexivity.
Qed.
Lemma atan2_claim_refuted f (m : libm f) : ~ (forall (y x : interval (float f)) r s t, bounded y -> bounded x -> mem r y -> mem s x -> angle2 r s t -> mem t (gatan2 y x)).
Proof.
  intros C. apply (proj1 (atan2_refuted f m)). apply (C _ _ 1 0); [zi|zi|zi|zi|exact angle_up].
Qed.
Lemma below_top_r f (m : libm f) (a b : interval (float f)) c : above (sup (i_intersect a b)) c -> proper a -> proper b -> above (sup b) c.
Proof. intros H [_ A] [_ B]. cbn in H. apply above_min in H; [apply H|assumption..]. Qed.
Lemma atan2_f32_refuted (m : libm F32) : good_atan m ->
  ~ mem (PI / 2) (gatan2 (ZI F32 1 1) (ZI F32 0 1)) /\ ~ mem PI (gatan2 (ZI F32 0 1) (ZI F32 (-1) (-1))).
Proof.
  intros G. destruct upper_consts_f32 as (U1 & _ & U2 & _). destruct (fpu_finite (f := F32)) as (F1 & F2 & F3).
  split; intros [_ K].
  - change (gatan2 (ZI F32 1 1) (ZI F32 0 1)) with (i_atan2 (ZI F32 1 1) (ZI F32 0 1)) in K. unfold i_atan2 in K. rewrite atan2_step in K.
    replace (is_zero (ZI F32 0 1) || is_zero (ZI F32 1 1)) with false in K by (vm_compute; reflexivity). replace (i_is_nonnegative (ZI F32 0 1)) with true in K by (vm_compute; reflexivity).
    apply (below_top_r F32 m) in K; [|apply at_proper; [exact G|apply div_proper; zi]|apply proper_new; [apply fneg_finite; exact F1|exact F1]].
    apply (above_finite (f_frac_pi_2_upper F32) _ F1) in K. exact (Rlt_not_le _ _ U2 K).
  - change (gatan2 (ZI F32 0 1) (ZI F32 (-1) (-1))) with (i_atan2 (ZI F32 0 1) (ZI F32 (-1) (-1))) in K. unfold i_atan2 in K. rewrite atan2_step in K.
    replace (is_zero (ZI F32 (-1) (-1)) || is_zero (ZI F32 0 1)) with false in K by (vm_compute; reflexivity). replace (i_is_nonnegative (ZI F32 (-1) (-1))) with false in K by (vm_compute; reflexivity).
    replace (i_is_nonpositive (ZI F32 (-1) (-1))) with true in K by (vm_compute; reflexivity).
    unfold left_case in K. replace (i_is_nonnegative (ZI F32 0 1)) with true in K by (vm_compute; reflexivity).
    apply (below_top_r F32 m) in K; [|refine (proj1 (shift_proper (f:=F32) (m:=m) (i_div (ZI F32 0 1) (ZI F32 (-1) (-1))) G _)); apply div_proper; zi|apply proper_new; [exact F3|exact F2]].
    apply (above_finite (f_pi_upper F32) _ F2) in K. exact (Rlt_not_le _ _ U1 K).
Qed.

(** ** tan over [1, 7] *)
Lemma nd_zero f : B2R (f_next_down f (fzero false)) > -1 /\ finite (f_next_down f (fzero false)).
Proof.
  destruct (tiny_facts f) as (F & _). assert (M := next_mirror (fzero false : float f)). 
  destruct f; (split; [match goal with |- B2R ?x > _ => b2r_eval x end|vm_compute; reflexivity]); match goal with |- ?k * bpow _ ?e > _ => assert (bpow radix2 e <= bpow radix2 (-1)) by (apply bpow_le; lia); assert (0 < bpow radix2 e) by apply bpow_gt_0; change (bpow radix2 (-1)) with (/2) in *; lra end.
Qed.
Lemma nd_half f : 0 < B2R (f_next_down f (f_half f)) /\ finite (f_next_down f (f_half f)).
Proof. destruct f; (split; [match goal with |- _ < B2R ?x => b2r_eval x end; simpl bpow; lra|vm_compute; reflexivity]). Qed.
Lemma half_pos f (z : float f) r : within_ulp z r -> / 2 < r -> 0 < E (f_next_down f z).
Proof.
  intros W R. assert (N := ulp_nn _ _ W). destruct (half_val_f f) as [FH VH]. destruct (nd_half f) as [P FP].
  assert (L : / 2 <= E z).
  { apply Rnot_lt_le. intros K. destruct W as (_ & _ & U). assert (A : above (f_half f) r).
    { apply U. apply flt_E. split; [exact N|split; [apply nonnan_of_finite; exact FH|rewrite (E_B2R _ FH), VH; exact K]]. }
    apply (above_finite _ _ FH) in A. lra. }
  apply Rlt_le_trans with (E (f_next_down f (f_half f))); [rewrite (E_B2R _ FP); exact P|]. apply next_down_mono; [apply nonnan_of_finite; exact FH|exact N|rewrite (E_B2R _ FH), VH; exact L].
Qed.
Lemma quot_low f (m : libm f) (a b : interval (float f)) r : finite (inf a) -> 0 <= E (inf a) -> nonnan (inf b) -> finite (sup b) -> 0 < E (inf b) -> 0 < E (sup b) -> r <= -1 -> ~ below (inf (i_div a b)) r.
Proof.
  intros FA A NB FB B SB R K. unfold i_div in K. rewrite (pos_b b NB), Rlt_bool_true in K by exact B. rewrite (nonneg_b a (nonnan_of_finite _ FA)), Rle_bool_true in K by exact A.
  change (below (f_next_down f (fdiv (inf a) (sup b))) r) in K. rewrite (E_B2R _ FA) in A. rewrite (E_B2R _ FB) in SB.
  assert (Q := fdiv_Rnd (inf a) (sup b) FA FB ltac:(lra)). assert (0 <= B2R (inf a) / B2R (sup b)) by (apply Rmult_le_pos; [exact A|apply Rlt_le, Rinv_0_lt_compat; exact SB]).
  assert (G := Rnd_ge (fzero false) _ _ Q H). assert (N := proj1 Q). destruct (nd_zero f) as [Z FZ].
  assert (L : E (f_next_down f (fzero false)) <= E (f_next_down f (fdiv (inf a) (sup b)))) by (apply next_down_mono; [reflexivity|exact N|exact G]).
  rewrite (E_B2R _ FZ) in L. apply below_inv in K as (_ & _ & [K|[_ K]]); [|lra]. rewrite K in L. cbn in L. assert (T := top16 (f := f)). lra.
Qed.
Lemma wave_pos f (m : libm f) (a : interval (float f)) vi vs si ss down u v r s : sge (ssub (sup a) (inf a)) (tau : float f) = false -> within_ulp vi u -> within_ulp vs v ->
  finite si -> finite ss -> same_sign si r -> same_sign ss s -> 0 < r -> 0 < s -> / 2 < u <= 1 -> / 2 < v <= 1 ->
  finite (inf (wave a vi vs si ss down)) /\ 0 < E (inf (wave a vi vs si ss down)) /\ finite (sup (wave a vi vs si ss down)) /\ 0 < E (sup (wave a vi vs si ss down)).
Proof.
  intros T A B FI FS S1 S2 PR PS U V. unfold wave. rewrite T. assert (SE : seqb (signum si) (signum ss) = true) by (apply (signum_eq _ _ _ _ FI FS S1 S2); left; split; assumption). rewrite SE.
  assert (O := proj1 (min_max_spec vi vs (ulp_nn _ _ A) (ulp_nn _ _ B))). assert (PL := PI_lower_bound).
  destruct (atan_down f vi u A ltac:(lra)) as (DA & _). destruct (atan_down f vs v B ltac:(lra)) as (DB & _). destruct (atan_up f vi u A ltac:(lra)) as (UA & _). destruct (atan_up f vs v B ltac:(lra)) as (UB & _).
  assert (PA := half_pos f vi u A ltac:(lra)). assert (PB := half_pos f vs v B ltac:(lra)).
  assert (KA : 0 < E (f_next_up f vi)) by (assert (Q1 := next_down_le vi (ulp_nn _ _ A)); assert (Q2 := next_up_ge vi (ulp_nn _ _ A)); lra).
  assert (KB : 0 < E (f_next_up f vs)) by (assert (Q1 := next_down_le vs (ulp_nn _ _ B)); assert (Q2 := next_up_ge vs (ulp_nn _ _ B)); lra).
  destruct (min_max vi vs) as [t0 t1]. destruct O as [O|O]; injection O as -> ->; cbn; auto.
Qed.
Lemma tan_refuted f (m : libm f) : good_sin_cos m -> ~ (forall (a : interval (float f)) x, bounded a -> ordered a -> mem x a -> cos x <> 0 -> mem (tan x) (gtan a)).
Proof.
  intros GM C. destruct (ZI_ends (m := m) 1 7 ltac:(lia) ltac:(lia)) as (F1 & V1 & F2 & V2). destruct signs_1_7_4 as (S1 & C1 & S7 & C7 & _).
  assert (L := PI_lower_bound). assert (U := PI_upper_bound).
  assert (HS : / 2 < sin 1 <= 1 /\ / 2 < sin 7 <= 1 /\ / 2 < cos 1 <= 1 /\ / 2 < cos 7 <= 1).
  { assert (B1 := SIN_bound 1). assert (B2 := SIN_bound 7). assert (B3 := COS_bound 1). assert (B4 := COS_bound 7).
    assert (S7' : sin 7 = sin (7 + 2 * IZR (-1) * PI)) by (symmetry; apply sin_2kpi). assert (C7' : cos 7 = cos (7 + 2 * IZR (-1) * PI)) by (symmetry; apply cos_2kpi).
    assert (H1 : sin (PI / 6) < sin 1) by (apply sin_increasing_1; lra). rewrite sin_PI6 in H1.
    assert (H2 : sin (PI / 6) < sin (7 + 2 * IZR (-1) * PI)) by (apply sin_increasing_1; lra). rewrite sin_PI6 in H2.
    assert (H3 : cos (PI / 3) < cos 1) by (apply cos_decreasing_1; lra). rewrite cos_PI3 in H3.
    assert (H4 : cos (PI / 3) < cos (7 + 2 * IZR (-1) * PI)) by (apply cos_decreasing_1; lra). rewrite cos_PI3 in H4. lra. }
  destruct HS as (H1 & H2 & H3 & H4).
  destruct (GM _ F1) as (A1 & A2 & A3 & A4), (GM _ F2) as (B1 & B2 & B3 & B4). rewrite V1 in *. rewrite V2 in *.
  assert (NR := narrow_1_7 (f := f)).
  destruct (wave_pos f m (ZI f 1 7) (m_sin m (inf (ZI f 1 7))) (m_sin m (sup (ZI f 1 7))) (m_cos m (inf (ZI f 1 7))) (m_cos m (sup (ZI f 1 7))) (is_negative (m_cos m (inf (ZI f 1 7)))) _ _ _ _ NR A1 B1 (proj1 A3) (proj1 B3) A4 B4 C1 C7 H1 H2) as (X1 & X2 & _ & _).
  destruct (wave_pos f m (ZI f 1 7) (m_cos m (inf (ZI f 1 7))) (m_cos m (sup (ZI f 1 7))) (m_sin m (inf (ZI f 1 7))) (m_sin m (sup (ZI f 1 7))) (is_positive (m_sin m (inf (ZI f 1 7)))) _ _ _ _ NR A3 B3 (proj1 A1) (proj1 B1) A2 B2 S1 S7 H3 H4) as (Y1 & Y2 & Y3 & Y4).
  rewrite <- sin_wave in X1, X2. rewrite <- cos_wave in Y1, Y2, Y3, Y4.
  assert (T2 : tan 2 <= -1 /\ cos 2 <> 0).
  { assert (SS : sin 2 = sin (PI - 2)) by (rewrite sin_PI_x; reflexivity). assert (CC : cos 2 = - cos (PI - 2)) by (rewrite cos_minus, cos_PI, sin_PI; ring).
    assert (K1 : sin (PI / 4) < sin (PI - 2)) by (apply sin_increasing_1; lra). assert (K2 : cos (PI - 2) < cos (PI / 4)) by (apply cos_decreasing_1; lra). assert (K3 : 0 < cos (PI - 2)) by (apply cos_gt_0; lra).
    rewrite sin_PI4 in K1. rewrite cos_PI4 in K2. split; [|lra]. unfold tan. rewrite SS, CC. assert (Q : 1 <= sin (PI - 2) / cos (PI - 2)).
    { apply (Rmult_le_reg_r (cos (PI - 2))); [exact K3|]. unfold Rdiv. rewrite Rmult_assoc, Rinv_l by lra. lra. }
    replace (sin (PI - 2) / - cos (PI - 2)) with (- (sin (PI - 2) / cos (PI - 2))) by (field; lra). lra. }
  destruct T2 as [T2 N2]. destruct (C (ZI f 1 7) 2 ltac:(zi) ltac:(zi) ltac:(zi) N2) as [K _]. revert K.
  apply (quot_low f m); try assumption; [left; exact X2|apply nonnan_of_finite; exact Y1].
Qed.
