(** Interval tan, asin, acos, atan; refutations; a math library that meets the contract. *)
From Coq Require Import ZArith Reals Bool Lra Lia.
From Flocq Require Import Core BinarySingleNaN.
From Verif.Model Require Import FloatBase Scalar Float Interval.
From Verif Require Import Spec SpecTrig.
From Verif.Proofs Require Import BitsLemmas FloatLemmas PiBounds ScalarProofs IntervalBase IntervalProofs IntervalProofs2 IntervalRefute TrigReal IntervalTrig.
Open Scope R_scope.

Section I.
Context {f : fmt} {m : libm f}.
Notation FT := (float f).
Notation IT := (interval (float f)).
Notation nd := (f_next_down f).
Notation nu := (f_next_up f).
Notation top := (bpow radix2 (emax f)).

(** ** refutations of sin and cos *)
Lemma signs_1_7_4 : 0 < sin 1 /\ 0 < cos 1 /\ 0 < sin 7 /\ 0 < cos 7 /\ sin 4 < 0 /\ cos 4 < 0.
Proof.
  assert (L := PI_lower_bound). assert (U := PI_upper_bound).
  assert (S7 : sin 7 = sin (7 + 2 * IZR (-1) * PI)) by (symmetry; apply sin_2kpi). assert (C7 : cos 7 = cos (7 + 2 * IZR (-1) * PI)) by (symmetry; apply cos_2kpi).
  split; [apply sin_gt_0; lra|]. split; [apply cos_gt_0; lra|]. split; [rewrite S7; apply sin_gt_0; lra|]. split; [rewrite C7; apply cos_gt_0; lra|].
  split; [apply sin_lt_0; lra|apply cos_lt_0; lra].
Qed.
Lemma ZI_ends a b : (Z.abs a <= 1000)%Z -> (Z.abs b <= 1000)%Z -> finite (inf (ZI f a b)) /\ B2R (inf (ZI f a b)) = IZR a /\ finite (sup (ZI f a b)) /\ B2R (sup (ZI f a b)) = IZR b.
Proof.
  intros A B. assert (1000 <= 2 ^ prec f)%Z by (destruct f; vm_compute; discriminate).
  destruct (f_of_Z_exact (f := f) a ltac:(lia)), (f_of_Z_exact (f := f) b ltac:(lia)). cbn. auto.
Qed.
Lemma pos_nd (z : FT) r : within_ulp z r -> 0 < B2R z -> ~ (exists s, s < 0 /\ below (nd z) s).
Proof.
  intros (F & _) P (s & S & K). assert (N := nonnan_of_finite _ F). assert (L : fle (fzero false) (nd z)).
  { apply next_down_adjacent; [exact N|destruct z; discriminate|]. apply flt_E. split; [reflexivity|split; [exact N|]]. rewrite (E_B2R _ F). exact P. }
  apply fle_E in L as (_ & _ & L). change (E (fzero false : FT)) with 0 in L. assert (0 <= s) by (eapply below_sign; eassumption). lra.
Qed.
Lemma wave_bad (a : IT) vi vs si ss down u v r s x : sge (ssub (sup a) (inf a)) (tau : FT) = false -> within_ulp vi u -> within_ulp vs v ->
  0 < B2R vi -> 0 < B2R vs -> finite si -> finite ss -> same_sign si r -> same_sign ss s -> 0 < r -> 0 < s -> x < 0 -> ~ mem x (wave a vi vs si ss down).
Proof.
  intros T A B PA PB FI FS S1 S2 PR PS X [K _]. unfold wave in K. rewrite T in K.
  assert (SE : seqb (signum si) (signum ss) = true) by (apply (signum_eq _ _ _ _ FI FS S1 S2); left; split; assumption). rewrite SE in K.
  assert (O := proj1 (min_max_spec vi vs (ulp_nn _ _ A) (ulp_nn _ _ B))). destruct (min_max vi vs) as [t0 t1]. cbn in K.
  destruct O as [O|O]; injection O as -> ->; [apply (pos_nd vi u A PA)|apply (pos_nd vs v B PB)]; exists x; auto.
Qed.
Lemma narrow_1_7 : sge (ssub (sup (ZI f 1 7)) (inf (ZI f 1 7))) (tau : FT) = false.
Proof. destruct f; vm_compute; reflexivity. Qed.
Lemma sin_cos_refuted : good_sin_cos m -> ~ (forall (a : IT) x, bounded a -> ordered a -> mem x a -> mem (sin x) (gsin a)) /\ ~ (forall (a : IT) x, bounded a -> ordered a -> mem x a -> mem (cos x) (gcos a)).
Proof.
  intros GM. destruct (ZI_ends 1 7 ltac:(lia) ltac:(lia)) as (F1 & V1 & F2 & V2). destruct signs_1_7_4 as (S1 & C1 & S7 & C7 & S4 & C4).
  destruct (GM _ F1) as (A1 & A2 & A3 & A4), (GM _ F2) as (B1 & B2 & B3 & B4). rewrite V1 in *. rewrite V2 in *.
  assert (M : mem 4 (ZI f 1 7)) by (apply ZI_mem; [lia..|lra]).
  split; intros C; (assert (K := C (ZI f 1 7) 4 ltac:(zi) ltac:(zi) M)).
  - rewrite sin_wave in K. revert K. apply (wave_bad _ _ _ _ _ _ (sin 1) (sin 7) (cos 1) (cos 7)); try assumption; try apply A2; try apply B2; try exact narrow_1_7; try assumption; try apply A3; try apply B3.
  - rewrite cos_wave in K. revert K. apply (wave_bad _ _ _ _ _ _ (cos 1) (cos 7) (sin 1) (sin 7)); try assumption; try apply A4; try apply B4; try exact narrow_1_7; try assumption; try apply A1; try apply B1.
Qed.

(** ** tan *)
Lemma tan_incl (a : IT) x : good_sin_cos m -> bounded a -> mem x a -> cos x <> 0 ->
  B2R (sup a) - B2R (inf a) <= PI \/ 2 * PI <= B2R (sup a) - B2R (inf a) -> mem (tan x) (gtan a).
Proof.
  intros GM B M C W. change (gtan a) with (i_div (gsin a) (gcos a)). apply div_incl; [|exact (cos_incl a x GM B M ltac:(tauto))|exact C]. apply (sin_incl a x GM B M). tauto.
Qed.

(** ** monotone maps *)
Lemma inc_incl (a : IT) (g : FT -> FT) u v y : within_ulp (g (inf a)) u -> within_ulp (g (sup a)) v -> u <= y <= v -> mem y (i_map_monotonic_inc a g).
Proof. intros A B Y. split; cbn; [eapply below_trans; [apply ulp_down; exact A|lra]|eapply above_trans; [apply ulp_up; exact B|lra]]. Qed.
Lemma dec_incl (a : IT) (g : FT -> FT) u v y : within_ulp (g (inf a)) u -> within_ulp (g (sup a)) v -> v <= y <= u -> mem y (i_map_monotonic_dec a g).
Proof. intros A B Y. split; cbn; [eapply below_trans; [apply ulp_down; exact B|lra]|eapply above_trans; [apply ulp_up; exact A|lra]]. Qed.
Lemma asin_mono a b : -1 <= a -> a <= b -> b <= 1 -> asin a <= asin b.
Proof.
  intros A B C. destruct (Req_dec a b) as [->|N]; [lra|]. left. assert (BA := asin_bound a). assert (BB := asin_bound b). 
  apply sin_increasing_0; try lra. rewrite !sin_asin by lra. lra.
Qed.
Lemma acos_mono a b : -1 <= a -> a <= b -> b <= 1 -> acos b <= acos a.
Proof. intros A B C. rewrite !acos_asin by lra. assert (asin a <= asin b) by (apply asin_mono; lra). lra. Qed.
Lemma atan_mono a b : a <= b -> atan a <= atan b.
Proof. intros [H|H]; [left; apply atan_increasing; exact H|subst; lra]. Qed.
Lemma fpu_finite : finite (f_frac_pi_2_upper f) /\ finite (f_pi_upper f) /\ finite (f_frac_pi_2_lower f).
Proof. destruct f; vm_compute; auto. Qed.
Lemma mem_facts (a : IT) x : bounded a -> mem x a -> B2R (inf a) <= x <= B2R (sup a).
Proof. intros [F1 F2] [L U]. split; [apply lo_real|apply hi_real]; assumption. Qed.

Lemma atan_incl_fin (a : IT) x : good_atan m -> bounded a -> mem x a -> mem (atan x) (gatan a).
Proof.
  intros (GA & _) B M. assert (X := mem_facts a x B M). destruct B as [F1 F2]. apply (inc_incl a (m_atan m) _ _ _ (GA _ F1) (GA _ F2)). split; apply atan_mono; lra.
Qed.
Lemma asin_raw (a : IT) x : good_asin_acos m -> bounded a -> -1 <= B2R (inf a) -> B2R (sup a) <= 1 -> mem x a ->
  mem (asin x) (i_map_monotonic_inc a (m_asin m)) /\ mem (acos x) (i_map_monotonic_dec a (m_acos m)).
Proof.
  intros GA B L U M. assert (X := mem_facts a x B M). destruct B as [F1 F2].
  destruct (GA _ F1 ltac:(lra)) as [A1 A2], (GA _ F2 ltac:(lra)) as [B1 B2].
  split; [apply (inc_incl a _ _ _ _ A1 B1); split; apply asin_mono; lra|apply (dec_incl a _ _ _ _ A2 B2); split; apply acos_mono; lra].
Qed.
Lemma quarter (r : R) : 0 <= r -> r <= B2R (f_frac_pi_2_upper f) -> mem r (i_new (szero : FT) (f_frac_pi_2_upper f)).
Proof. intros A B. apply mem_mk; [reflexivity|apply fpu_finite|exact A|exact B]. Qed.
Lemma quarter_top r : 0 <= r -> r <= PI / 2 -> (f = F64 \/ r <= B2R (f_frac_pi_2_upper f)) -> mem r (i_new (szero : FT) (f_frac_pi_2_upper f)).
Proof. intros A B [Q|Q]; apply quarter; try assumption. clear m. subst f. destruct upper_consts_f64 as (_ & _ & K & _). lra. Qed.

Lemma asin_incl (a : IT) x : good_asin_acos m -> bounded a -> -1 <= B2R (inf a) -> B2R (sup a) <= 1 -> mem x a -> 0 <= x ->
  (f = F64 \/ asin x <= B2R (f_frac_pi_2_upper f)) -> mem (asin x) (gasin a).
Proof.
  intros GA B L U M X H. assert (R := proj1 (asin_raw a x GA B L U M)). assert (MX := mem_facts a x B M). assert (BB := asin_bound x).
  assert (0 <= asin x) by (rewrite <- asin_0; apply asin_mono; lra). assert (Q := quarter_top (asin x) ltac:(lra) ltac:(lra) H).
  apply intersect_mem; [eapply mem_proper; exact R|eapply mem_proper; exact Q|split; assumption].
Qed.
Lemma acos_incl (a : IT) x : good_asin_acos m -> bounded a -> -1 <= B2R (inf a) -> B2R (sup a) <= 1 -> mem x a -> 0 <= x ->
  (f = F64 \/ acos x <= B2R (f_frac_pi_2_upper f)) -> mem (acos x) (gacos a).
Proof.
  intros GA B L U M X H. assert (R := proj2 (asin_raw a x GA B L U M)). assert (MX := mem_facts a x B M). assert (BB := acos_bound x).
  assert (acos x <= PI / 2) by (rewrite <- acos_0; apply acos_mono; lra). assert (Q := quarter_top (acos x) ltac:(lra) ltac:(lra) H).
  apply intersect_mem; [eapply mem_proper; exact R|eapply mem_proper; exact Q|split; assumption].
Qed.
Lemma asin_acos_refuted : good_asin_acos m ->
  ~ (forall (a : IT) x, bounded a -> -1 <= B2R (inf a) -> B2R (sup a) <= 1 -> mem x a -> mem (asin x) (gasin a)) /\
  ~ (forall (a : IT) x, bounded a -> -1 <= B2R (inf a) -> B2R (sup a) <= 1 -> mem x a -> mem (acos x) (gacos a)).
Proof.
  intros GA. destruct (ZI_ends (-1) (-1) ltac:(lia) ltac:(lia)) as (F1 & V1 & F2 & V2). assert (P := PI_RGT_0). assert (PL := PI_lower_bound). assert (PU := PI_upper_bound).
  assert (M : mem (-1) (ZI f (-1) (-1))) by (apply ZI_mem; [lia..|lra]). assert (B : bounded (ZI f (-1) (-1))) by zi.
  destruct (asin_raw _ _ GA B ltac:(lra) ltac:(lra) M) as [R1 R2]. assert (Q := quarter 0 ltac:(lra)). destruct fpu_finite as (FP & _).
  assert (QV : 1 <= B2R (f_frac_pi_2_upper f) <= 2) by (clear; destruct f; match goal with |- _ <= B2R ?x <= _ => b2r_eval x end; simpl bpow; lra).
  specialize (Q ltac:(lra)).
  split; intros C; specialize (C _ _ B ltac:(lra) ltac:(lra) M).
  - apply (intersect_mem _ _ _ (mem_proper _ _ R1) (mem_proper _ _ Q)) in C as [_ [C _]]. cbn in C. replace (-1) with (Ropp 1) in C by lra. rewrite asin_opp, asin_1 in C. lra.
  - apply (intersect_mem _ _ _ (mem_proper _ _ R2) (mem_proper _ _ Q)) in C as [_ [_ C]]. cbn in C. apply (above_finite _ _ FP) in C. replace (-1) with (Ropp 1) in C by lra. rewrite acos_opp, acos_1 in C. lra.
Qed.
End I.
(** f32: even 1 itself is out of range for asin, 0 for acos *)
Lemma f32_quarter_refuted (m : libm F32) : good_asin_acos m ->
  ~ mem (asin 1) (gasin (ZI F32 1 1)) /\ ~ mem (acos 0) (gacos (ZI F32 0 0)).
Proof.
  intros GA. destruct upper_consts_f32 as (_ & _ & K & _). destruct (fpu_finite (f := F32)) as (FP & _).
  assert (Q := quarter (f := F32) 0 ltac:(lra)). assert (QV : 1 <= B2R (f_frac_pi_2_upper F32) <= 2) by (match goal with |- _ <= B2R ?x <= _ => b2r_eval x end; simpl bpow; lra). specialize (Q ltac:(lra)).
  split; intros C.
  - destruct (ZI_ends (f := F32) 1 1 ltac:(lia) ltac:(lia)) as (F1 & V1 & F2 & V2).
    destruct (asin_raw (ZI F32 1 1) 1 GA ltac:(zi) ltac:(lra) ltac:(lra)) as [R1 _]; [apply ZI_mem; [lia..|lra]|].
    apply (intersect_mem _ _ _ (mem_proper _ _ R1) (mem_proper _ _ Q)) in C as [_ [_ C]]. change (above (f_frac_pi_2_upper F32) (asin 1)) in C. apply (above_finite _ _ FP) in C. rewrite asin_1 in C. exact (Rlt_not_le _ _ K C).
  - destruct (ZI_ends (f := F32) 0 0 ltac:(lia) ltac:(lia)) as (F1 & V1 & F2 & V2).
    destruct (asin_raw (ZI F32 0 0) 0 GA ltac:(zi) ltac:(lra) ltac:(lra)) as [_ R1]; [apply ZI_mem; [lia..|lra]|].
    apply (intersect_mem _ _ _ (mem_proper _ _ R1) (mem_proper _ _ Q)) in C as [_ [_ C]]. change (above (f_frac_pi_2_upper F32) (acos 0)) in C. apply (above_finite _ _ FP) in C. rewrite acos_0 in C. exact (Rlt_not_le _ _ K C).
Qed.

(** ** a correctly rounded math library *)
Section Lib.
Context (f : fmt).
Notation FT := (float f).
Definition nearest (r : R) : FT :=
  binary_normalize (prec f) (emax f) _ _ mode_NE (ZnearestE (scaled_mantissa radix2 (SpecFloat.fexp (prec f) (emax f)) r)) (cexp radix2 (SpecFloat.fexp (prec f) (emax f)) r) false.
Lemma nearest_Rnd r : Rnd (nearest r) r.
Proof.
  assert (H := binary_normalize_Rnd (f := f) (ZnearestE (scaled_mantissa radix2 (SpecFloat.fexp (prec f) (emax f)) r)) (cexp radix2 (SpecFloat.fexp (prec f) (emax f)) r) false).
  fold (nearest r) in H. destruct H as [N H]. split; [exact N|]. rewrite H. f_equal. apply (rnd_id (f := f)). apply (rnd_format (f := f) r).
Qed.
Lemma eight_top : 8 <= bpow radix2 (emax f).
Proof. change 8 with (bpow radix2 3). apply bpow_le. destruct f; vm_compute; discriminate. Qed.
Lemma four_rnd z : (z = 4 \/ z = -4)%Z -> rndf f (IZR z) = IZR z.
Proof. intros Z. apply (rnd_id (f := f)). apply generic_IZR. destruct f; destruct Z; subst; vm_compute; discriminate. Qed.
Lemma nearest_ulp r : Rabs r <= 4 -> within_ulp (nearest r) r.
Proof.
  intros H. assert (N := nearest_Rnd r). apply ulp_intro; [|apply down_below; exact N|apply up_above; exact N].
  destruct N as [NN E0]. apply finite_of_range; [exact NN|]. rewrite E0.
  assert (T := eight_top). assert (G := four_rnd).
  assert (U : rndf f r <= 4) by (rewrite <- (G 4%Z ltac:(lia)); apply (rnd_le (f := f)); revert H; unfold Rabs; destruct (Rcase_abs r); intros; lra).
  assert (L : -4 <= rndf f r) by (rewrite <- (G (-4)%Z ltac:(lia)); apply (rnd_le (f := f)); revert H; unfold Rabs; destruct (Rcase_abs r); intros; lra).
  rewrite clampE_range; lra.
Qed.
(** rounded, but never to zero unless the value is zero *)
Definition tiny : FT := f_next_up f (fzero false).
Definition nearest_pos (r : R) : FT := if Rle_dec (B2R (nearest r)) 0 then tiny else nearest r.
Definition nearest0 (r : R) : FT :=
  if Rlt_dec 0 r then nearest_pos r else if Rlt_dec r 0 then fneg (nearest_pos (- r)) else fzero false.
End Lib.
Lemma tiny_facts f : finite (tiny f) /\ B2R (f_next_down f (tiny f)) = 0 /\ finite (f_next_down f (tiny f)) /\ 0 < B2R (tiny f).
Proof.
  destruct f; split; [vm_compute; reflexivity| |vm_compute; reflexivity|]; (split; [match goal with |- B2R ?x = _ => b2r_eval x end; lra|split; [vm_compute; reflexivity|]]);
    match goal with |- _ < B2R ?x => b2r_eval x end; apply Rmult_lt_0_compat; [lra|apply bpow_gt_0|lra|apply bpow_gt_0].
Qed.
Lemma nearest_pos_ok f r : 0 < r <= 4 -> within_ulp (nearest_pos f r) r /\ 0 < B2R (nearest_pos f r).
Proof.
  intros R. assert (W := nearest_ulp f r ltac:(rewrite Rabs_pos_eq; lra)). unfold nearest_pos. destruct (Rle_dec _ _) as [L|L]; [|split; [exact W|lra]].
  destruct (tiny_facts f) as (F & Z & FZ & P). split; [|exact P].
  assert (A := ulp_up _ _ W). assert (N := ulp_nn _ _ W). destruct W as (FW & _).
  assert (NT := nonnan_of_finite _ F).
  apply ulp_intro; [exact F|apply (below_finite _ _ FZ); rewrite Z; lra|].
  apply (above_ge _ (f_next_up f (nearest f r))); [|apply next_up_nonnan; exact NT|exact A].
  apply next_up_mono; [exact N|exact NT|]. rewrite (E_B2R _ FW), (E_B2R _ F). lra.
Qed.
Lemma ulp_neg f (z : float f) r : within_ulp z r -> within_ulp (fneg z) (- r).
Proof.
  intros W. assert (A := ulp_up _ _ W). assert (B := ulp_down _ _ W). destruct W as (F & _).
  apply ulp_intro; [apply fneg_finite; exact F|rewrite next_mirror; apply below_neg; exact A|].
  replace (f_next_up f (fneg z)) with (fneg (f_next_down f z)); [apply above_neg; exact B|].
  assert (M := next_mirror (fneg z)). unfold fneg in M |- *. rewrite Bopp_involutive in M. rewrite M. apply Bopp_involutive.
Qed.
Lemma nearest0_ok f r : Rabs r <= 4 -> within_ulp (nearest0 f r) r /\ same_sign (nearest0 f r) r.
Proof.
  intros H. unfold nearest0. destruct (Rlt_dec 0 r) as [P|P].
  - rewrite Rabs_pos_eq in H by lra. destruct (nearest_pos_ok f r ltac:(lra)) as [W S]. split; [exact W|split; split; intros; lra].
  - destruct (Rlt_dec r 0) as [Q|Q].
    + rewrite Rabs_left in H by lra. destruct (nearest_pos_ok f (- r) ltac:(lra)) as [W S]. split; [rewrite <- (Ropp_involutive r) at 2; apply ulp_neg; exact W|].
      split; rewrite fneg_B2R; split; intros; lra.
    + assert (r = 0) by lra. subst r. split; [|split; cbn; split; intros; lra].
      split; [reflexivity|split]; intros y Y.
      * apply flt_E in Y as (N & _ & Y). change (E (fzero false : float f)) with 0 in Y. apply below_E; [exact N|intros ->; cbn in Y; assert (T := bpow_gt_0 radix2 (emax f)); lra|lra].
      * apply flt_E in Y as (_ & N & Y). change (E (fzero false : float f)) with 0 in Y. apply above_E; [exact N|intros ->; cbn in Y; assert (T := bpow_gt_0 radix2 (emax f)); lra|lra].
Qed.
Definition atan_sample f (x : float f) : float f := nearest f (match x with B754_infinity false => PI / 2 | B754_infinity true => - (PI / 2) | _ => atan (B2R x) end).
Definition exact_libm (f : fmt) : libm f := {|
  m_sin := fun x => nearest0 f (sin (B2R x)); m_cos := fun x => nearest0 f (cos (B2R x)); m_tan := fun x => nearest f (tan (B2R x));
  m_asin := fun x => nearest f (asin (B2R x)); m_acos := fun x => nearest f (acos (B2R x)); m_atan := atan_sample f; m_atan2 := fun _ _ => fzero false |}.
Lemma exact_libm_good f : good_sin_cos (exact_libm f) /\ good_asin_acos (exact_libm f) /\ good_atan (exact_libm f).
Proof.
  assert (U := PI_upper_bound). assert (L := PI_lower_bound).
  split; [|split].
  - intros x F. cbn. assert (S := SIN_bound (B2R x)). assert (C := COS_bound (B2R x)).
    destruct (nearest0_ok f (sin (B2R x))) as [A1 A2]; [apply Rabs_le; lra|]. destruct (nearest0_ok f (cos (B2R x))) as [B1 B2]; [apply Rabs_le; lra|]. auto.
  - intros x F X. cbn. assert (S := asin_bound (B2R x)). assert (C := acos_bound (B2R x)). split; apply nearest_ulp; apply Rabs_le; lra.
  - split; [|split; apply nearest_ulp; apply Rabs_le; lra]. intros x F. cbn. unfold atan_sample. assert (S := atan_bound (B2R x)).
    destruct x as [s|[]| |s mm e H]; try discriminate F; apply nearest_ulp; apply Rabs_le; lra.
Qed.
