(** * The elementary functions of intervals build valid intervals, contain the values at both
    ends of their argument, and stay near [-1, 1] for sin and cos. *)
From Coq Require Import ZArith Reals Bool Lra Lia.
From Flocq Require Import Core BinarySingleNaN.
From Verif.Model Require Import FloatBase Scalar Float Interval.
From Verif Require Import Spec SpecTrig.
From Verif.Proofs Require Import BitsLemmas FloatLemmas PiBounds ScalarProofs IntervalBase IntervalProofs IntervalProofs2 IntervalRefute TrigReal IntervalTrig IntervalTrig2 PiShift IntervalTrig3 IntervalTraits.
Open Scope R_scope.

(** the upper constants are never below the last float that is at most PI/2 (PI) *)
Lemma largest_half f (x : float f) : finite x -> B2R x <= PI / 2 -> B2R x <= B2R (f_frac_pi_2_upper f).
Proof.
  intros F H. destruct f.
  - destruct (Rle_or_lt (B2R x) (B2R (f_frac_pi_2_upper F32))) as [K|K]; [exact K|exfalso].
    destruct (fpu_finite (m := exact_libm F32)) as (C1 & _). assert (N := nonnan_of_finite _ C1).
    assert (A : fle (f_next_up F32 (f_frac_pi_2_upper F32)) x).
    { apply next_up_adjacent; [exact N|destruct (f_frac_pi_2_upper F32); discriminate|]. apply flt_E. split; [exact N|split; [apply nonnan_of_finite; exact F|]]. rewrite (E_B2R _ C1), (E_B2R _ F). exact K. }
    apply fle_E in A as (_ & _ & A). rewrite (E_B2R _ F) in A. rewrite E_B2R in A by (vm_compute; reflexivity).
    assert (Q : PI / 2 < B2R (f_next_up F32 (f_frac_pi_2_upper F32))); [|lra].
    match goal with |- _ < B2R ?y => b2r_eval y end. pose proof PI_upper_bound. simpl bpow. lra.
  - destruct upper_consts_f64 as (_ & _ & K & _). lra.
Qed.
Lemma largest_pi f (x : float f) : finite x -> B2R x <= PI -> B2R x <= B2R (f_pi_upper f).
Proof.
  intros F H. destruct f.
  - destruct (Rle_or_lt (B2R x) (B2R (f_pi_upper F32))) as [K|K]; [exact K|exfalso].
    destruct (fpu_finite (m := exact_libm F32)) as (_ & C1 & _). assert (N := nonnan_of_finite _ C1).
    assert (A : fle (f_next_up F32 (f_pi_upper F32)) x).
    { apply next_up_adjacent; [exact N|destruct (f_pi_upper F32); discriminate|]. apply flt_E. split; [exact N|split; [apply nonnan_of_finite; exact F|]]. rewrite (E_B2R _ C1), (E_B2R _ F). exact K. }
    apply fle_E in A as (_ & _ & A). rewrite (E_B2R _ F) in A. rewrite E_B2R in A by (vm_compute; reflexivity).
    assert (Q : PI < B2R (f_next_up F32 (f_pi_upper F32))); [|lra].
    match goal with |- _ < B2R ?y => b2r_eval y end. pose proof PI_upper_bound. simpl bpow. lra.
  - destruct upper_consts_f64 as (K & _). lra.
Qed.
Lemma consts_sizes f : 1 <= B2R (f_frac_pi_2_upper f) <= 2 /\ 3 <= B2R (f_pi_upper f) <= 4 /\ 1 <= B2R (f_frac_pi_2_lower f) <= PI / 2.
Proof.
  destruct (lower_consts f) as (_ & _ & L & _). repeat split; try exact L; destruct f; match goal with |- _ <= B2R ?x => b2r_eval x | |- B2R ?x <= _ => b2r_eval x end; simpl bpow; lra.
Qed.

Section O.
Context {f : fmt} {m : libm f}.
Notation FT := (float f).
Notation IT := (interval (float f)).
Notation nd := (f_next_down f).
Notation nu := (f_next_up f).
Notation at_ := (fun a : IT => i_map_monotonic_inc a (m_atan m)).
Notation fpu := (f_frac_pi_2_upper f).
Notation fpl := (f_frac_pi_2_lower f).
Notation piu := (f_pi_upper f).

(** ** values at the ends *)
Lemma wave_ends (a : IT) vi vs si ss down u v : within_ulp vi u -> within_ulp vs v -> -1 <= u <= 1 -> -1 <= v <= 1 ->
  mem u (wave a vi vs si ss down) /\ mem v (wave a vi vs si ss down).
Proof.
  intros WU WV U V. unfold wave. assert (L1 := Rmin_l u v). assert (L2 := Rmin_r u v). assert (L3 := Rmax_l u v). assert (L4 := Rmax_r u v).
  destruct (sge _ _). { split; (split; [apply below_m1|apply above_1]); lra. }
  destruct (seqb _ _). { split; (eapply wboth; [eassumption..|lra]). }
  destruct down.
  - split; (split; [apply below_m1; lra|eapply whigh; [eassumption..|lra]]).
  - split; (split; [eapply wlow; [eassumption..|lra]|apply above_1; lra]).
Qed.
Lemma sin_ends (a : IT) : good_sin_cos m -> bounded a -> mem (sin (B2R (inf a))) (gsin a) /\ mem (sin (B2R (sup a))) (gsin a).
Proof.
  intros G [F1 F2]. rewrite sin_wave. destruct (G _ F1) as (A & _), (G _ F2) as (B & _). apply wave_ends; try assumption; apply SIN_bound.
Qed.
Lemma cos_ends (a : IT) : good_sin_cos m -> bounded a -> mem (cos (B2R (inf a))) (gcos a) /\ mem (cos (B2R (sup a))) (gcos a).
Proof.
  intros G [F1 F2]. rewrite cos_wave. destruct (G _ F1) as (_ & _ & A & _), (G _ F2) as (_ & _ & B & _). apply wave_ends; try assumption; apply COS_bound.
Qed.
Lemma tan_ends (a : IT) : good_sin_cos m -> bounded a ->
  (cos (B2R (inf a)) <> 0 -> mem (tan (B2R (inf a))) (gtan a)) /\ (cos (B2R (sup a)) <> 0 -> mem (tan (B2R (sup a))) (gtan a)).
Proof.
  intros G B. destruct (sin_ends a G B) as [S1 S2], (cos_ends a G B) as [C1 C2].
  change (gtan a) with (i_div (gsin a) (gcos a)). split; intros K; apply div_incl; assumption.
Qed.
Lemma sin_cos_tan_ordered (a : IT) : good_sin_cos m -> bounded a -> ordered (gsin a) /\ ordered (gcos a) /\ ordered (gtan a).
Proof.
  intros G B. destruct (sin_ends a G B) as [S1 S2], (cos_ends a G B) as [C1 C2].
  split; [exact (mem_ordered _ _ S1)|]. split; [exact (mem_ordered _ _ C1)|].
  change (gtan a) with (i_div (gsin a) (gcos a)). apply div_ordered; eexists; eassumption.
Qed.

(** ** sin and cos stay near [-1, 1] *)
Lemma one_E : E (f_of_Z 1 : FT) = 1 /\ nonnan (f_of_Z 1 : FT).
Proof. destruct (one_B2R (f := f)) as [F V]. split; [rewrite E_B2R; [exact V|exact F]|apply nonnan_of_finite; exact F]. Qed.
Lemma ulp_low (z : FT) r : within_ulp z r -> -1 <= r -> E (nd (fneg (f_of_Z 1))) <= E z.
Proof.
  intros (F & D & U) H. destruct (mone (f := f)) as [F1 V1]. assert (N1 := nonnan_of_finite _ F1). assert (N := nonnan_of_finite _ F).
  destruct (Rle_or_lt (E (nd (fneg (f_of_Z 1)))) (E z)) as [K|K]; [exact K|exfalso].
  assert (ND : nonnan (nd (fneg (f_of_Z 1)))) by (apply next_down_nonnan; exact N1).
  assert (A : above (nd (fneg (f_of_Z 1))) r) by (apply U; apply flt_E; auto).
  destruct (next_down_adjacent (fneg (f_of_Z 1) : FT) N1 ltac:(destruct (fneg (f_of_Z 1) : FT); discriminate)) as [B _].
  apply flt_E in B as (_ & _ & B). apply above_inv in A as (_ & _ & [A|[_ A]]).
  - rewrite A in B. assert (R := E_range (fneg (f_of_Z 1) : FT)). change (E (finf false : FT)) with (bpow radix2 (emax f)) in B. lra.
  - rewrite (E_B2R _ F1), V1 in B. lra.
Qed.
Lemma ulp_high (z : FT) r : within_ulp z r -> r <= 1 -> E z <= E (nu (f_of_Z 1)).
Proof.
  intros (F & D & U) H. destruct (one_B2R (f := f)) as [F1 V1]. change (finite (f_of_Z 1 : FT)) in F1. change (B2R (f_of_Z 1 : FT) = 1) in V1. assert (N1 := nonnan_of_finite _ F1). assert (N := nonnan_of_finite _ F).
  destruct (Rle_or_lt (E z) (E (nu (f_of_Z 1)))) as [K|K]; [exact K|exfalso].
  assert (ND : nonnan (nu (f_of_Z 1))) by (apply next_up_nonnan; exact N1).
  assert (A : below (nu (f_of_Z 1)) r) by (apply D; apply flt_E; auto).
  destruct (next_up_adjacent (f_of_Z 1 : FT) N1 ltac:(destruct (f_of_Z 1 : FT); discriminate)) as [B _].
  apply flt_E in B as (_ & _ & B). apply below_inv in A as (_ & _ & [A|[_ A]]).
  - rewrite A in B. assert (R := E_range (f_of_Z 1 : FT)). change (E (finf true : FT)) with (- bpow radix2 (emax f)) in B. lra.
  - rewrite (E_B2R _ F1), V1 in B. lra.
Qed.
Lemma wave_range (a : IT) vi vs si ss down u v : within_ulp vi u -> within_ulp vs v -> -1 <= u <= 1 -> -1 <= v <= 1 ->
  fle (nd (nd (fneg (f_of_Z 1)))) (inf (wave a vi vs si ss down)) /\ fle (sup (wave a vi vs si ss down)) (nu (nu (f_of_Z 1))).
Proof.
  intros WU WV U V. assert (NI := ulp_nn _ _ WU). assert (NS := ulp_nn _ _ WV).
  assert (A1 := ulp_low _ _ WU ltac:(lra)). assert (A2 := ulp_low _ _ WV ltac:(lra)). assert (B1 := ulp_high _ _ WU ltac:(lra)). assert (B2 := ulp_high _ _ WV ltac:(lra)).
  destruct (mone (f := f)) as [FM VM]. assert (NM := nonnan_of_finite _ FM). destruct (one_E) as [VP NP].
  assert (ND1 := next_down_nonnan _ NM). assert (ND2 := next_down_nonnan _ ND1). assert (NU1 := next_up_nonnan _ NP). assert (NU2 := next_up_nonnan _ NU1).
  assert (D1 := next_down_le _ NM). assert (D2 := next_down_le _ ND1). assert (U1 := next_up_ge _ NP). assert (U2 := next_up_ge _ NU1).
  assert (LO : fle (nd (nd (fneg (f_of_Z 1)))) (fneg (f_of_Z 1))) by (apply fle_E; repeat split; try assumption; lra).
  assert (HI : fle (f_of_Z 1) (nu (nu (f_of_Z 1)))) by (apply fle_E; repeat split; try assumption; lra).
  assert (LO' : forall z, nonnan z -> E (nd (fneg (f_of_Z 1))) <= E z -> fle (nd (nd (fneg (f_of_Z 1)))) (nd z)).
  { intros z Z K. apply fle_E. split; [exact ND2|split; [apply next_down_nonnan; exact Z|]]. apply next_down_mono; assumption. }
  assert (HI' : forall z, nonnan z -> E z <= E (nu (f_of_Z 1)) -> fle (nu z) (nu (nu (f_of_Z 1)))).
  { intros z Z K. apply fle_E. split; [apply next_up_nonnan; exact Z|split; [exact NU2|]]. apply next_up_mono; assumption. }
  unfold wave. destruct (sge _ _). { split; [exact LO|exact HI]. }
  destruct (seqb _ _).
  { destruct (min_max_spec vi vs NI NS) as [O _]. destruct (min_max vi vs) as [t0 t1]. cbn [fst snd] in *.
    destruct O as [O|O]; injection O as -> ->; (split; [apply LO'; assumption|apply HI'; assumption]). }
  destruct (smin_E vi vs NI NS) as [M1 M2]. destruct (smax_E vi vs NI NS) as [M3 M4].
  destruct down.
  - split; [exact LO|]. apply HI'; [exact M3|]. rewrite M4. apply Rmax_lub; assumption.
  - split; [|exact HI]. apply LO'; [exact M1|]. rewrite M2. apply Rmin_glb; assumption.
Qed.
Lemma sin_cos_range (a : IT) : good_sin_cos m -> bounded a ->
  (fle (nd (nd (fneg (f_of_Z 1)))) (inf (gsin a)) /\ fle (sup (gsin a)) (nu (nu (f_of_Z 1)))) /\
  (fle (nd (nd (fneg (f_of_Z 1)))) (inf (gcos a)) /\ fle (sup (gcos a)) (nu (nu (f_of_Z 1)))).
Proof.
  intros G [F1 F2]. destruct (G _ F1) as (A & _ & C & _), (G _ F2) as (B & _ & D & _).
  split; [rewrite sin_wave; apply (wave_range _ _ _ _ _ _ _ _ A B); apply SIN_bound|rewrite cos_wave; apply (wave_range _ _ _ _ _ _ _ _ C D); apply COS_bound].
Qed.

(** ** cutting an interval down to a range *)
Lemma cut_ordered (a : IT) (l u : FT) t : mem t a -> finite l -> finite u -> B2R l <= B2R u ->
  (forall x : FT, finite x -> B2R x <= t -> B2R x <= B2R u) -> (forall x : FT, finite x -> t <= B2R x -> B2R l <= B2R x) ->
  ordered (i_intersect a (i_new l u)).
Proof.
  intros M FL FU LU HU HL. destruct (mem_proper _ _ M) as [N1 N2]. assert (O := mem_ordered _ _ M). apply fle_E in O as (_ & _ & O).
  assert (NL := nonnan_of_finite _ FL). assert (NU := nonnan_of_finite _ FU). destruct M as [ML MU].
  destruct (smax_E (inf a) l N1 NL) as [A1 A2]. destruct (smin_E (sup a) u N2 NU) as [B1 B2].
  apply fle_E. cbn [i_intersect i_new inf sup]. split; [exact A1|split; [exact B1|]].
  apply Rle_trans with (Rmax (E (inf a)) (E l)); [exact (Req_le _ _ A2)|]. apply Rle_trans with (Rmin (E (sup a)) (E u)); [|exact (Req_le _ _ (eq_sym B2))].
  assert (RU := finite_E_range _ FU). assert (RL := finite_E_range _ FL). rewrite (E_B2R _ FL) in *. rewrite (E_B2R _ FU) in *.
  assert (K1 : E (inf a) <= B2R u).
  { apply below_inv in ML as (_ & _ & [ML|[F ML]]); [rewrite ML; simpl; lra|]. rewrite (E_B2R _ F) in *. apply HU; assumption. }
  assert (K2 : B2R l <= E (sup a)).
  { apply above_inv in MU as (_ & _ & [MU|[F MU]]); [rewrite MU; simpl; lra|]. rewrite (E_B2R _ F) in *. apply HL; assumption. }
  apply Rmax_lub; apply Rmin_glb; assumption.
Qed.
Lemma asin_ordered (a : IT) : good_asin_acos m -> bounded a -> ordered a -> -1 <= B2R (inf a) -> 0 <= B2R (sup a) <= 1 -> ordered (gasin a) /\ ordered (gacos a).
Proof.
  intros G B O L U. destruct (bounded_nonempty a B O) as [_ M]. destruct (asin_raw a _ G B L ltac:(lra) M) as [R1 R2].
  destruct (consts_sizes f) as (S1 & S2 & S3). destruct (fpu_finite (m := m)) as (C1 & C2 & C3).
  assert (BA := asin_bound (B2R (sup a))). assert (BC := acos_bound (B2R (sup a))). assert (Z : B2R (fzero false : FT) = 0) by reflexivity. assert (P := PI_RGT_0).
  assert (0 <= asin (B2R (sup a))) by (rewrite <- asin_0; apply asin_mono; lra). assert (acos (B2R (sup a)) <= PI / 2) by (rewrite <- acos_0; apply acos_mono; lra).
  split.
  - apply (cut_ordered _ (fzero false) fpu _ R1); [reflexivity|exact C1|rewrite Z; lra|intros x F K; apply (largest_half f x F); lra|intros x F K; rewrite Z; lra].
  - apply (cut_ordered _ (fzero false) fpu _ R2); [reflexivity|exact C1|rewrite Z; lra|intros x F K; apply (largest_half f x F); lra|intros x F K; rewrite Z; lra].
Qed.
Lemma atan_ordered (a : IT) : good_atan m -> nonempty a -> ordered (gatan a).
Proof. intros G [x X]. exact (mem_ordered _ _ (at_incl a x G X)). Qed.

(** ** atan2 *)
Lemma some_angle (y x : IT) r s : good_atan m -> mem r y -> mem s x -> exists c, mem c (at_ (i_div y x)) /\ - (PI / 2) <= c <= PI / 2 /\
  (s <> 0 -> c = atan (r / s)) /\ (s = 0 -> c = 0).
Proof.
  intros G Y X. assert (P := PI_RGT_0). destruct (Req_dec s 0) as [Z|Z].
  - exists 0. split; [apply (quot_cover y x r s 0 G Y X); [contradiction|lra]|]. split; [lra|]. split; [contradiction|reflexivity].
  - exists (atan (r / s)). assert (B := atan_bound (r / s)). split; [apply (quot_cover y x r s); try assumption; [reflexivity|lra]|]. split; [lra|]. split; [reflexivity|contradiction].
Qed.
Lemma right_ordered (y x : IT) : good_atan m -> nonempty y -> nonempty x -> ordered (right_case y x).
Proof.
  intros G [r Y] [s X]. destruct (consts_sizes f) as (S1 & S2 & S3). destruct (fpu_finite (m := m)) as (C1 & C2 & C3).
  destruct (some_angle y x r s G Y X) as (c & M & B & _). apply (cut_ordered _ (fneg fpu) fpu c M); [apply fneg_finite; exact C1|exact C1|rewrite fneg_B2R; lra| |].
  - intros z F K. apply (largest_half f z F). lra.
  - intros z F K. rewrite fneg_B2R. assert (Q := largest_half f (fneg z) ltac:(apply fneg_finite; exact F)). rewrite fneg_B2R in Q. lra.
Qed.
Lemma atan_sign q : (q <= 0 -> atan q <= 0) /\ (0 <= q -> 0 <= atan q).
Proof. split; intros H; [rewrite <- atan_0|rewrite <- atan_0 at 1]; apply atan_mono; exact H. Qed.
Lemma left_ordered (y x : IT) : good_atan m -> nonempty y -> nonempty x -> i_is_nonpositive x = true -> ordered (left_case y x).
Proof.
  intros G PY PX NP. assert (PUB := PI_4). assert (DP := div_proper y x PY PX). destruct PY as [r Y]. destruct PX as [s X]. destruct (consts_sizes f) as (S1 & S2 & S3). destruct (fpu_finite (m := m)) as (C1 & C2 & C3). assert (P := PI_RGT_0).
  destruct (mem_proper _ _ Y) as [NY1 NY2]. destruct (mem_proper _ _ X) as [NX1 NX2]. assert (YY := Y). destruct YY as [YL YU]. assert (XX := X). destruct XX as [XL XU].
  rewrite (nonpos_b x NX2) in NP. destruct (Rle_bool_spec (E (sup x)) 0) as [NP'|]; [|discriminate]. assert (S0 : s <= 0) by (eapply above_sign; eassumption).
  destruct (some_angle y x r s G Y X) as (c & M & B & K1 & K2).
  assert (Q : forall w, w < 0 -> (0 <= r -> r / w <= 0) /\ (r <= 0 -> 0 <= r / w)).
  { intros w W. assert (/ w < 0) by (apply Rinv_lt_0_compat; exact W). unfold Rdiv. split; intros; nra. }
  assert (SN : s <> 0 -> s < 0) by (intros W; destruct S0; [assumption|contradiction]).
  unfold left_case. rewrite (nonneg_b y NY1), (neg_b y NY2).
  destruct (Rle_bool_spec 0 (E (inf y))) as [Q1|Q1]; [|destruct (Rlt_bool_spec (E (sup y)) 0) as [Q2|Q2]].
  - assert (R0 : 0 <= r) by (eapply below_sign; eassumption).
    assert (C0 : c <= 0). { destruct (Req_dec s 0) as [Z|Z]; [rewrite (K2 Z); lra|]. rewrite (K1 Z). apply atan_sign. apply (Q s (SN Z)); lra. }
    apply (cut_ordered _ fpl piu (c + PI) (add_pi_incl _ _ G DP M)); try assumption; [lra| |].
    + intros z F K. apply (largest_pi f z F). lra.
    + intros z F K. lra.
  - assert (R0 : r <= 0) by (eapply above_sign; [exact YU|lra]).
    assert (C0 : 0 <= c). { destruct (Req_dec s 0) as [Z|Z]; [rewrite (K2 Z); lra|]. rewrite (K1 Z). apply atan_sign. apply (Q s (SN Z)); lra. }
    apply (cut_ordered _ (fneg piu) (fneg fpl) (c - PI) (sub_pi_incl _ _ G DP M)); try (apply fneg_finite; assumption); [rewrite !fneg_B2R; lra| |].
    + intros z F K. rewrite fneg_B2R. lra.
    + intros z F K. rewrite fneg_B2R. assert (W := largest_pi f (fneg z) ltac:(apply fneg_finite; exact F)). rewrite fneg_B2R in W. lra.
  - apply fle_E. cbn [i_new inf sup]. split; [apply fneg_nonnan; apply nonnan_of_finite; exact C2|split; [apply nonnan_of_finite; exact C2|]].
    rewrite fneg_E, (E_B2R _ C2). lra.
Qed.
Lemma union_ord (a b : IT) : ordered a -> ordered b -> ordered (i_union a b).
Proof.
  intros A B. apply fle_E in A as (A1 & A2 & A). apply fle_E in B as (B1 & B2 & B). destruct (smin_E (inf a) (inf b) A1 B1) as [C1 C2]. destruct (smax_E (sup a) (sup b) A2 B2) as [D1 D2].
  apply fle_E. cbn [i_union i_new inf sup]. split; [exact C1|split; [exact D1|]].
  apply Rle_trans with (Rmin (E (inf a)) (E (inf b))); [exact (Req_le _ _ C2)|]. apply Rle_trans with (Rmax (E (sup a)) (E (sup b))); [|exact (Req_le _ _ (eq_sym D2))].
  assert (L1 := Rmin_l (E (inf a)) (E (inf b))). assert (L3 := Rmax_l (E (sup a)) (E (sup b))). lra.
Qed.
Lemma zero_ord : ordered (szero : IT).
Proof. apply fle_E. split; [reflexivity|split; [reflexivity|]]. apply Rle_refl. Qed.
Lemma side_ordered (y x : IT) n z : good_atan m -> nonempty y -> nonempty x -> i_is_nonnegative x = true \/ i_is_nonpositive x = true -> i_atan2_fuel (S n) y x = Some z -> ordered z.
Proof.
  intros G PY PX H K. rewrite atan2_step in K. destruct (is_zero x || is_zero y); [injection K as <-; apply zero_ord|].
  destruct (i_is_nonnegative x); [injection K as <-; apply right_ordered; assumption|]. destruct H as [H|H]; [discriminate|]. rewrite H in K. injection K as <-. apply left_ordered; assumption.
Qed.
Lemma atan2_ordered (y x : IT) : good_atan m -> nonempty y -> nonempty x -> ordered (gatan2 y x).
Proof.
  intros G PY PX. change (gatan2 y x) with (i_atan2 y x). assert (T := i_atan2_terminates y x O). change (2 + 0)%nat with 2%nat in T.
  destruct (i_is_nonnegative x) eqn:NN; [apply (side_ordered y x 1); auto|]. destruct (i_is_nonpositive x) eqn:NP; [apply (side_ordered y x 1); auto|].
  assert (PX' := PX). destruct PX as [s X]. destruct (mem_proper _ _ X) as [N1 N2].
  rewrite (nonneg_b x N1) in NN. destruct (Rle_bool_spec 0 (E (inf x))) as [|Q1]; [discriminate|]. rewrite (nonpos_b x N2) in NP. destruct (Rle_bool_spec (E (sup x)) 0) as [|Q2]; [discriminate|].
  assert (M0l : nonempty (i_new (inf x) szero)). { exists 0. split; cbn; [|lra]. apply below_E; [exact N1|intros W; rewrite W in Q1; cbn in Q1; assert (TT := bpow_gt_0 radix2 (emax f)); lra|lra]. }
  assert (M0r : nonempty (i_new szero (sup x))). { exists 0. split; cbn; [lra|]. apply above_E; [exact N2|intros W; rewrite W in Q2; cbn in Q2; assert (TT := bpow_gt_0 radix2 (emax f)); lra|lra]. }
  destruct (halves x) as [H1 H2]. rewrite atan2_step in T.
  destruct (is_zero x || is_zero y); [injection T as <-; apply zero_ord|].
  rewrite (nonneg_b x N1), (nonpos_b x N2), (Rle_bool_false _ _ Q1), (Rle_bool_false _ _ Q2) in T.
  destruct (i_atan2_fuel 1 y (i_new (inf x) szero)) as [l|] eqn:L; [|discriminate]. destruct (i_atan2_fuel 1 y (i_new szero (sup x))) as [q|] eqn:R; [|discriminate].
  injection T as <-. apply union_ord; [apply (side_ordered y _ 0 l G PY M0l (or_intror H1) L)|apply (side_ordered y _ 0 q G PY M0r (or_introl H2) R)].
Qed.
End O.

Lemma asin_acos_order_refuted f (m : libm f) : good_asin_acos m ->
  ~ (forall a : interval (float f), bounded a -> ordered a -> -1 <= B2R (inf a) -> B2R (sup a) <= 1 -> ordered (gasin a) /\ ordered (gacos a)).
Proof.
  intros G H. destruct (ZI_ends (m := exact_libm f) (-1) (-1) ltac:(lia) ltac:(lia)) as (_ & V1 & _ & V2).
  destruct (H (ZI f (-1) (-1)) ltac:(zi) ltac:(zi) ltac:(rewrite V1; lra) ltac:(rewrite V2; lra)) as [K _].
  destruct (asin_acos_inverted f m (ZI f (-1) (-1)) G ltac:(zi) ltac:(rewrite V1; lra) ltac:(rewrite V2; lra) ltac:(rewrite V1, V2; lra)) as [N _]. contradiction.
Qed.
