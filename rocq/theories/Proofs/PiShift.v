(** Shifting a float by the rounded value of PI and widening by one ulp covers the shift by PI itself. *)
From Coq Require Import ZArith Reals Bool Lra Lia.
From Flocq Require Import Core BinarySingleNaN.
From Verif.Model Require Import FloatBase Scalar Float Interval.
From Verif Require Import Spec SpecTrig.
From Verif.Proofs Require Import BitsLemmas FloatLemmas PiBounds ScalarProofs IntervalBase IntervalProofs IntervalProofs2 IntervalRefute TrigReal IntervalTrig IntervalTrig2.
Open Scope R_scope.

Section P.
Context {f : fmt}.
Notation FT := (float f).
Notation fx := (SpecFloat.fexp (prec f) (emax f)).
Notation rnd := (rndf f).
Notation top := (bpow radix2 (emax f)).
Notation h := (bpow radix2 (1 - prec f)).
Notation nd := (f_next_down f).
Notation nu := (f_next_up f).

Lemma fx_ge e : (1 <= e)%Z -> fx e = (e - prec f)%Z.
Proof. intros H. unfold SpecFloat.fexp, SpecFloat.emin. assert (3 <= emax f)%Z by (destruct f; vm_compute; discriminate). lia. Qed.
Lemma h_pos : 0 < h. Proof. apply bpow_gt_0. Qed.
Lemma h_small : h <= / 8.
Proof. change (/ 8) with (bpow radix2 (-3)). apply bpow_le. destruct f; vm_compute; discriminate. Qed.
Lemma bp1 : bpow radix2 1 = 2. Proof. reflexivity. Qed.
Lemma bp2 : bpow radix2 2 = 4. Proof. reflexivity. Qed.
Lemma bp0 : bpow radix2 0 = 1. Proof. reflexivity. Qed.
Lemma u_2h e : (2 <= e)%Z -> 2 * h <= bpow radix2 (fx e).
Proof.
  intros H. rewrite fx_ge by lia. replace (2 * h) with (bpow radix2 (2 - prec f)); [apply bpow_le; lia|].
  replace (2 - prec f)%Z with (1 + (1 - prec f))%Z by lia. rewrite bpow_plus, bp1. reflexivity.
Qed.
Lemma mag_pi : mag radix2 PI = 2%Z :> Z.
Proof. assert (L := PI_lower_bound). assert (U := PI_upper_bound). apply mag_unique_pos. change (bpow radix2 (2 - 1)) with 2. rewrite bp2. lra. Qed.
Lemma cexp_pi : cexp radix2 fx PI = (2 - prec f)%Z.
Proof. unfold cexp. rewrite mag_pi. apply fx_ge. lia. Qed.
Lemma pi_err : Rabs (rnd PI - PI) <= h.
Proof.
  eapply Rle_trans; [apply error_le_half_ulp; apply valid_fx|]. rewrite ulp_neq_0 by (assert (L := PI_lower_bound); lra). rewrite cexp_pi.
  replace (2 - prec f)%Z with (1 + (1 - prec f))%Z by lia. rewrite bpow_plus, bp1. lra.
Qed.
Lemma pi_mult : exists k, rnd PI = IZR k * h.
Proof.
  exists (2 * ZnearestE (scaled_mantissa radix2 fx PI))%Z. unfold round, F2R. cbn [Fnum Fexp]. rewrite cexp_pi.
  replace (2 - prec f)%Z with (1 + (1 - prec f))%Z by lia. rewrite bpow_plus, bp1, mult_IZR. lra.
Qed.
Lemma big_mult v : generic_format radix2 fx v -> 1 <= Rabs v -> exists j, v = IZR j * h.
Proof.
  intros G V. assert (M : (1 <= mag radix2 v)%Z) by (apply mag_ge_bpow; exact V).
  red in G. unfold F2R in G. cbn [Fnum Fexp] in G. assert (CE : cexp radix2 fx v = (mag radix2 v - prec f)%Z) by (apply fx_ge; exact M). rewrite CE in G.
  exists (Ztrunc (scaled_mantissa radix2 fx v) * 2 ^ (mag radix2 v - 1))%Z. rewrite G at 1. rewrite mult_IZR.
  replace (mag radix2 v - prec f)%Z with ((mag radix2 v - 1) + (1 - prec f))%Z by lia. rewrite bpow_plus.
  rewrite (IZR_Zpower radix2) by lia. ring.
Qed.

Section Shift.
Context (v : R) (G : generic_format radix2 fx v) (V : -17 / 10 <= v <= 17 / 10).
Let s := v + rnd PI.
Let t := rnd s.
Lemma pi_near : PI - h <= rnd PI <= PI + h.
Proof. assert (H := pi_err). apply Rabs_le_inv in H. lra. Qed.
Lemma s_range : 1 < s < 5.
Proof. assert (H := pi_near). assert (L := PI_lower_bound). assert (U := PI_upper_bound). assert (K := h_small). unfold s. lra. Qed.
Lemma shift_both : pred radix2 fx t <= s - h /\ s + h <= succ radix2 fx t.
Proof.
  assert (S := s_range). assert (HP := h_pos).
  destruct (Rlt_or_le s 2) as [C|C].
  - assert (A : 1 <= Rabs v).
    { assert (H := pi_near). assert (L := PI_lower_bound). assert (K := h_small). unfold s in C. rewrite Rabs_left; lra. }
    assert (M : mag radix2 s = 1%Z :> Z) by (apply mag_unique_pos; change (bpow radix2 (1 - 1)) with 1; rewrite bp1; lra).
    assert (F : generic_format radix2 fx s).
    { destruct (big_mult v G A) as [j J]. destruct pi_mult as [k K]. assert (Q : s = F2R (Float radix2 (j + k) (1 - prec f))).
      { unfold F2R. cbn [Fnum Fexp]. rewrite plus_IZR. unfold s. rewrite J at 1. rewrite K. ring. }
      rewrite Q. apply generic_format_F2R. intros _. rewrite <- Q. unfold cexp. rewrite M. rewrite fx_ge; lia. }
    assert (T : t = s) by (apply (rnd_id (f := f)); exact F). rewrite T.
    assert (UL : ulp radix2 fx s = h) by (rewrite ulp_neq_0 by lra; unfold cexp; rewrite M; f_equal; rewrite fx_ge; lia).
    rewrite succ_eq_pos, pred_eq_pos by lra. unfold pred_pos. rewrite UL, M. change (bpow radix2 (1 - 1)) with 1. rewrite Req_bool_false by lra. lra.
  - assert (FT2 : generic_format radix2 fx 2) by (rewrite <- bp1; apply generic_format_bpow; rewrite fx_ge by lia; destruct f; vm_compute; discriminate).
    assert (T2 : 2 <= t) by (rewrite <- ((rnd_id (f := f)) 2 FT2); apply (rnd_le (f := f)); exact C).
    assert (GT : generic_format radix2 fx t) by apply (rnd_format (f := f)).
    assert (M : (2 <= mag radix2 t)%Z) by (apply mag_ge_bpow; change (bpow radix2 (2 - 1)) with 2; rewrite Rabs_pos_eq; lra).
    assert (UL : 2 * h <= ulp radix2 fx t) by (rewrite ulp_neq_0 by lra; apply u_2h; exact M).
    assert (N := round_N_pt radix2 fx (fun x => negb (Z.even x)) s). change (round radix2 fx (Znearest (fun x => negb (Z.even x))) s) with t in N. destruct N as [_ N].
    assert (NP := N _ (generic_format_pred radix2 fx t GT)). assert (NS := N _ (generic_format_succ radix2 fx t GT)).
    rewrite succ_eq_pos in NS |- * by lra. split.
    + destruct (Req_dec t 2) as [E2|E2].
      * rewrite E2, pred_eq_pos by lra. unfold pred_pos. assert (M2 : mag radix2 2 = 2%Z :> Z) by (apply mag_unique_pos; change (bpow radix2 (2 - 1)) with 2; rewrite bp2; lra).
        rewrite M2. change (bpow radix2 (2 - 1)) with 2. rewrite Req_bool_true by reflexivity. change (2 - 1)%Z with 1%Z. rewrite fx_ge by lia. lra.
      * assert (PT : pred radix2 fx t <= t - 2 * h).
        { rewrite pred_eq_pos by lra. unfold pred_pos. destruct (Req_bool_spec t (bpow radix2 (mag radix2 t - 1))) as [Q|Q]; [|lra].
          assert (3 <= mag radix2 t)%Z.
          { destruct (Z.eq_dec (mag radix2 t) 2) as [W|W]; [|lia]. rewrite W in Q. change (bpow radix2 (2 - 1)) with 2 in Q. contradiction. }
          assert (W := u_2h (mag radix2 t - 1) ltac:(lia)). lra. }
        unfold Rabs in NP; destruct (Rcase_abs (t - s)), (Rcase_abs (pred radix2 fx t - s)); lra.
    + unfold Rabs in NS; destruct (Rcase_abs (t - s)), (Rcase_abs (t + ulp radix2 fx t - s)); lra.
Qed.
Lemma t_range : 0 <= t <= 8.
Proof.
  assert (S := s_range). split.
  - rewrite <- (rnd_0 (f := f)). apply (rnd_le (f := f)). lra.
  - assert (F8 : generic_format radix2 fx 8) by (change 8 with (bpow radix2 3); apply generic_format_bpow; rewrite fx_ge by lia; destruct f; vm_compute; discriminate).
    rewrite <- (rnd_id (f := f) 8 F8). apply (rnd_le (f := f)). lra.
Qed.
Lemma shift_pi : pred radix2 fx t <= v + PI <= succ radix2 fx t.
Proof. assert (H := shift_both). assert (N := pi_near). unfold s in H. lra. Qed.
End Shift.

Lemma pi_fin : finite (f_pi f). Proof. destruct f; reflexivity. Qed.
Lemma top16 : 16 <= top.
Proof. change 16 with (bpow radix2 4). apply bpow_le. destruct f; vm_compute; discriminate. Qed.
Lemma add_pi_bracket (v : FT) : finite v -> -17 / 10 <= B2R v <= 17 / 10 -> below (nd (fadd v (f_pi f))) (B2R v + PI) /\ above (nu (fadd v (f_pi f))) (B2R v + PI).
Proof.
  intros F V. destruct (fadd_Rnd v (f_pi f) F pi_fin) as [N K]. destruct (std_constants_rounded f) as (P & _). rewrite P in K.
  assert (G : generic_format radix2 fx (B2R v)) by apply generic_format_B2R. assert (R := t_range (B2R v) G V). assert (T := top16).
  rewrite clampE_range in K by lra. assert (S := shift_pi (B2R v) G V).
  assert (FI : finite (fadd v (f_pi f))) by (apply finite_of_range; [exact N|rewrite K; lra]).
  split.
  - apply below_E; [apply next_down_nonnan; exact N|apply next_down_not_pinf; exact N|]. rewrite next_down_E; [rewrite K; apply S|exact N|intros W; rewrite W in FI; discriminate].
  - apply above_E; [apply next_up_nonnan; exact N|apply next_up_not_ninf; exact N|]. rewrite next_up_E; [rewrite K; apply S|exact N|intros W; rewrite W in FI; discriminate].
Qed.
Lemma sub_pi_bracket (v : FT) : finite v -> -17 / 10 <= B2R v <= 17 / 10 -> below (nd (fsub v (f_pi f))) (B2R v - PI) /\ above (nu (fsub v (f_pi f))) (B2R v - PI).
Proof.
  intros F V. destruct (fsub_fadd v (f_pi f) F pi_fin) as [N K]. destruct (std_constants_rounded f) as (P & _). rewrite P in K.
  assert (G : generic_format radix2 fx (- B2R v)) by (apply generic_format_opp; apply generic_format_B2R). assert (V' : -17/10 <= - B2R v <= 17/10) by lra.
  assert (R := t_range (- B2R v) G V'). assert (T := top16). assert (S := shift_pi (- B2R v) G V').
  replace (B2R v - rnd PI) with (- (- B2R v + rnd PI)) in K by ring. rewrite round_NE_opp in K. rewrite clampE_range in K by lra.
  assert (FI : finite (fsub v (f_pi f))) by (apply finite_of_range; [exact N|rewrite K; lra]).
  split.
  - apply below_E; [apply next_down_nonnan; exact N|apply next_down_not_pinf; exact N|]. rewrite next_down_E; [rewrite K, pred_opp; lra|exact N|intros W; rewrite W in FI; discriminate].
  - apply above_E; [apply next_up_nonnan; exact N|apply next_up_not_ninf; exact N|]. rewrite next_up_E; [rewrite K, succ_opp; lra|exact N|intros W; rewrite W in FI; discriminate].
Qed.

(** results of atan, widened by an ulp, stay within 17/10 *)
Definition c13 : FT := fdiv (f_of_Z 13) (f_of_Z 8).
End P.
Lemma c13_facts f : finite (c13 (f := f)) /\ B2R (c13 (f := f)) = 13 / 8 /\ finite (f_next_up f c13) /\ B2R (f_next_up f c13) <= 17 / 10.
Proof.
  destruct f; (split; [vm_compute; reflexivity|]); (split; [match goal with |- B2R ?x = _ => b2r_eval x end; simpl bpow; lra|]); (split; [vm_compute; reflexivity|]);
    match goal with |- B2R ?x <= _ => b2r_eval x end; simpl bpow; lra.
Qed.
Lemma atan_up f (z : float f) r : within_ulp z r -> - (PI / 2) <= r <= PI / 2 -> finite (f_next_up f z) /\ B2R (f_next_up f z) <= 17 / 10 /\ -13 / 8 <= B2R (f_next_up f z).
Proof.
  intros W R. assert (U := PI_upper_bound). assert (N := ulp_nn _ _ W). destruct (c13_facts f) as (F1 & V1 & F2 & V2).
  assert (NC := nonnan_of_finite _ F1). assert (NU := next_up_nonnan z N).
  assert (L : E z <= 13 / 8).
  { destruct (Rle_or_lt (E z) (13 / 8)) as [L|L]; [exact L|]. exfalso. destruct W as (_ & D & _). assert (K : below (c13 (f := f)) r).
    { apply D. apply flt_E. split; [exact NC|split; [exact N|]]. rewrite (E_B2R _ F1), V1. exact L. }
    apply (below_finite _ _ F1) in K. lra. }
  assert (M : E (f_next_up f z) <= E (f_next_up f c13)) by (apply next_up_mono; [exact N|exact NC|]; rewrite (E_B2R _ F1), V1; exact L).
  rewrite (E_B2R _ F2) in M. assert (A := ulp_up _ _ W).
  assert (T := top16 (f := f)). assert (FI : finite (f_next_up f z)).
  { apply finite_of_range; [exact NU|]. split; [|lra]. destruct W as (FZ & _). assert (K := next_up_ge z N). assert (K2 := finite_E_range z FZ). lra. }
  split; [exact FI|]. rewrite (E_B2R _ FI) in M. split; [lra|]. apply (above_finite _ _ FI) in A. lra.
Qed.
Lemma atan_down f (z : float f) r : within_ulp z r -> - (PI / 2) <= r <= PI / 2 -> finite (f_next_down f z) /\ -17 / 10 <= B2R (f_next_down f z) /\ B2R (f_next_down f z) <= 13 / 8.
Proof.
  intros W R. destruct (atan_up f (fneg z) (- r) (ulp_neg _ _ _ W) ltac:(lra)) as (A & B & C).
  assert (M := next_mirror (fneg z)). replace (fneg (fneg z)) with z in M by (unfold fneg; rewrite Bopp_involutive; reflexivity). rewrite M, fneg_finite, fneg_B2R. split; [exact A|lra].
Qed.
