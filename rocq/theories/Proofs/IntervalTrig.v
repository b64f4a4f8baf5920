(** Interval sin, cos, tan, asin, acos, atan over f32/f64. *)
From Coq Require Import ZArith Reals Bool Lra Lia.
From Flocq Require Import Core BinarySingleNaN.
From Verif.Model Require Import FloatBase Scalar Float Interval.
From Verif Require Import Spec SpecTrig.
From Verif.Proofs Require Import BitsLemmas FloatLemmas ScalarProofs IntervalBase IntervalProofs IntervalProofs2 IntervalRefute TrigReal.
Open Scope R_scope.

Section I.
Context {f : fmt} {m : libm f}.
Notation FT := (float f).
Notation IT := (interval (float f)).
Notation nd := (f_next_down f).
Notation nu := (f_next_up f).
Notation top := (bpow radix2 (emax f)).

Lemma ulp_down (z : FT) r : within_ulp z r -> below (nd z) r.
Proof. intros (F & D & _). apply D. apply next_down_adjacent; [apply nonnan_of_finite; exact F|destruct z; discriminate]. Qed.
Lemma ulp_up (z : FT) r : within_ulp z r -> above (nu z) r.
Proof. intros (F & _ & U). apply U. apply next_up_adjacent; [apply nonnan_of_finite; exact F|destruct z; discriminate]. Qed.
Lemma ulp_nn (z : FT) r : within_ulp z r -> nonnan z.
Proof. intros (F & _). apply nonnan_of_finite; exact F. Qed.
Lemma ulp_intro (z : FT) r : finite z -> below (nd z) r -> above (nu z) r -> within_ulp z r.
Proof.
  intros F D U. assert (N := nonnan_of_finite _ F). split; [exact F|split]; intros y Y.
  - assert (K : fle y (nd z)) by (apply next_down_adjacent; [exact N|destruct z; discriminate|exact Y]). apply fle_E in K as (N1 & N2 & K). eapply below_le; eassumption.
  - assert (K : fle (nu z) y) by (apply next_up_adjacent; [exact N|destruct z; discriminate|exact Y]). apply fle_E in K as (N1 & N2 & K). eapply above_ge; eassumption.
Qed.
Lemma nd_min (a b : FT) r : nonnan a -> nonnan b -> below (nd a) r \/ below (nd b) r -> below (nd (smin a b)) r.
Proof.
  intros A B H. destruct (smin_E a b A B) as [N K]. assert (L1 := Rmin_l (E a) (E b)). assert (L2 := Rmin_r (E a) (E b)).
  destruct H as [H|H]; [apply (below_le _ (nd a))|apply (below_le _ (nd b))]; try exact H; try (apply next_down_nonnan; exact N); (apply next_down_mono; [exact N|assumption|rewrite K; assumption]).
Qed.
Lemma nu_max (a b : FT) r : nonnan a -> nonnan b -> above (nu a) r \/ above (nu b) r -> above (nu (smax a b)) r.
Proof.
  intros A B H. destruct (smax_E a b A B) as [N K]. assert (L1 := Rmax_l (E a) (E b)). assert (L2 := Rmax_r (E a) (E b)).
  destruct H as [H|H]; [apply (above_ge _ (nu a))|apply (above_ge _ (nu b))]; try exact H; try (apply next_up_nonnan; exact N); (apply next_up_mono; [assumption|exact N|rewrite K; assumption]).
Qed.
Lemma Rmin_or a b x : Rmin a b <= x -> a <= x \/ b <= x.
Proof. unfold Rmin. destruct (Rle_dec a b); tauto. Qed.
Lemma Rmax_or a b x : x <= Rmax a b -> x <= a \/ x <= b.
Proof. unfold Rmax. destruct (Rle_dec a b); tauto. Qed.
Lemma wlow (a b : FT) u v x : within_ulp a u -> within_ulp b v -> Rmin u v <= x -> below (nd (smin a b)) x.
Proof.
  intros A B H. apply nd_min; [eapply ulp_nn; eassumption..|].
  apply Rmin_or in H as [H|H]; [left|right]; (eapply below_trans; [apply ulp_down; eassumption|exact H]).
Qed.
Lemma whigh (a b : FT) u v x : within_ulp a u -> within_ulp b v -> x <= Rmax u v -> above (nu (smax a b)) x.
Proof.
  intros A B H. apply nu_max; [eapply ulp_nn; eassumption..|].
  apply Rmax_or in H as [H|H]; [left|right]; (eapply above_trans; [apply ulp_up; eassumption|exact H]).
Qed.
Lemma wboth (a b : FT) u v x : within_ulp a u -> within_ulp b v -> Rmin u v <= x <= Rmax u v ->
  mem x (let (t0, t1) := min_max a b in i_new (nd t0) (nu t1)).
Proof.
  intros A B [L H]. assert (NA := ulp_nn _ _ A). assert (NB := ulp_nn _ _ B).
  destruct (min_max_spec a b NA NB) as [O K]. apply fle_E in K as (K1 & K2 & K).
  assert (D := wlow _ _ _ _ _ A B L). assert (U := whigh _ _ _ _ _ A B H).
  destruct (smin_E a b NA NB) as [N1 E1]. destruct (smax_E a b NA NB) as [N2 E2].
  destruct (min_max a b) as [t0 t1]. cbn [fst snd] in *. split; cbn.
  - eapply below_le; [|apply next_down_nonnan; exact K1|exact D]. apply next_down_mono; try assumption. rewrite E1. destruct O as [O|O]; injection O as -> ->; unfold Rmin; destruct (Rle_dec _ _); lra.
  - eapply above_ge; [|apply next_up_nonnan; exact K2|exact U]. apply next_up_mono; try assumption. rewrite E2. destruct O as [O|O]; injection O as -> ->; unfold Rmax; destruct (Rle_dec _ _); lra.
Qed.
Lemma mone : finite (fneg (f_of_Z 1) : FT) /\ B2R (fneg (f_of_Z 1) : FT) = -1.
Proof. destruct (one_B2R (f := f)) as [F V]. change (B2R (f_of_Z 1 : FT) = 1) in V. split; [apply fneg_finite; exact F|]. rewrite fneg_B2R. rewrite V. lra. Qed.
Lemma below_m1 x : -1 <= x -> below (fneg (f_of_Z 1) : FT) x.
Proof. intros H. destruct mone as [F V]. apply below_finite; [exact F|]. rewrite V. exact H. Qed.
Lemma above_1 x : x <= 1 -> above (f_of_Z 1 : FT) x.
Proof. intros H. destruct (one_B2R (f := f)) as [F V]. change (B2R (f_of_Z 1 : FT) = 1) in V. apply above_finite; [exact F|]. rewrite V. exact H. Qed.

(** the shape shared by [sin] and [cos]: values and slopes at both ends *)
Definition wave (a : IT) (vi vs si ss : FT) (down : bool) : IT :=
  if sge (ssub (sup a) (inf a)) (tau : FT) then i_new (sneg sone) sone
  else if seqb (signum si) (signum ss) then let (t0, t1) := min_max vi vs in i_new (nd t0) (nu t1)
  else if down then i_new (sneg sone) (nu (smax vi vs)) else i_new (nd (smin vi vs)) sone.
Lemma sin_wave (a : IT) : gsin a = wave a (m_sin m (inf a)) (m_sin m (sup a)) (m_cos m (inf a)) (m_cos m (sup a)) (is_negative (m_cos m (inf a))).
Proof. reflexivity. Qed.
Lemma cos_wave (a : IT) : gcos a = wave a (m_cos m (inf a)) (m_cos m (sup a)) (m_sin m (inf a)) (m_sin m (sup a)) (is_positive (m_sin m (inf a))).
Proof. reflexivity. Qed.

Lemma tau_narrow (a : IT) : bounded a -> sge (ssub (sup a) (inf a)) (tau : FT) = false -> B2R (sup a) - B2R (inf a) < 2 * PI.
Proof.
  intros [F1 F2] H. destruct (Rlt_dec (B2R (sup a) - B2R (inf a)) (2 * PI)) as [|N]; [assumption|exfalso].
  assert (R := fsub_fadd _ _ F2 F1). destruct R as [NN EE].
  assert (FT' : finite (f_tau f)) by (destruct f; vm_compute; reflexivity).
  assert (T : B2R (f_tau f) = rndf f (2 * PI)) by apply std_constants_rounded.
  assert (sge (ssub (sup a) (inf a)) (tau : FT) = true); [|congruence].
  apply ge_true. split; [exact NN|]. split; [apply nonnan_of_finite; exact FT'|].
  change (E (f_tau f) <= E (fsub (sup a) (inf a))). rewrite EE, <- (clampE_E (f_tau f)). apply clampE_le.
  rewrite (E_B2R _ FT'), T. apply rnd_le. lra.
Qed.
Lemma tau_wide (a : IT) : bounded a -> 2 * PI <= B2R (sup a) - B2R (inf a) -> sge (ssub (sup a) (inf a)) (tau : FT) = true.
Proof. intros B H. destruct (sge _ _) eqn:E; [reflexivity|]. apply tau_narrow in E; [lra|exact B]. Qed.

Lemma signum_R (z : FT) r : finite z -> same_sign z r -> 
  (0 < r -> signum z = f_of_Z 1) /\ (r < 0 -> signum z = fneg (f_of_Z 1)) /\ (r = 0 -> signum z = fzero false).
Proof.
  intros F [P N]. destruct (signum_spec z) as (S1 & S2 & S3). assert (NN := nonnan_of_finite _ F). assert (EZ : E (fzero false : FT) = 0) by reflexivity. assert (EE := E_B2R _ F).
  split; [|split]; intros H.
  - apply S1, flt_E. split; [reflexivity|split; [exact NN|]]. rewrite EZ, EE. tauto.
  - apply S2, flt_E. split; [exact NN|split; [reflexivity|]]. rewrite EZ, EE. tauto.
  - apply S3. left. apply feq_E. split; [exact NN|split; [reflexivity|]]. rewrite EZ, EE. lra.
Qed.
Lemma signum_eq (y z : FT) r s : finite y -> finite z -> same_sign y r -> same_sign z s ->
  (seqb (signum y) (signum z) = true <-> (0 < r /\ 0 < s \/ r < 0 /\ s < 0 \/ r = 0 /\ s = 0)).
Proof.
  intros F1 F2 S1 S2. destruct (signum_R _ _ F1 S1) as (A1 & A2 & A3), (signum_R _ _ F2 S2) as (B1 & B2 & B3).
  destruct (Rtotal_order r 0) as [R0|[R0|R0]], (Rtotal_order s 0) as [R1|[R1|R1]];
  repeat match goal with H : ?P -> signum _ = _, K : ?P |- _ => specialize (H K); rewrite H end;
  try rewrite (A1 R0); try rewrite (A2 R0); try rewrite (A3 R0); try rewrite (B1 R1); try rewrite (B2 R1); try rewrite (B3 R1);
  (split; [intros K; try (exfalso; destruct f; vm_compute in K; discriminate K); lra|intros K; try (exfalso; lra); destruct f; vm_compute; reflexivity]).
Qed.

(** [g] is the curve (sin or cos up to a shift), [g'] its slope *)
Lemma wave_sound (a : IT) vi vs si ss down (sh x : R) : bounded a -> mem x a ->
  within_ulp vi (sin (B2R (inf a) + sh)) -> within_ulp vs (sin (B2R (sup a) + sh)) ->
  finite si -> finite ss -> (exists k, k <> 0 /\ same_sign si (k * cos (B2R (inf a) + sh)) /\ same_sign ss (k * cos (B2R (sup a) + sh))) ->
  (down = true <-> cos (B2R (inf a) + sh) < 0) ->
  B2R (sup a) - B2R (inf a) <= PI \/ 2 * PI <= B2R (sup a) - B2R (inf a) \/ cos (B2R (inf a) + sh) * cos (B2R (sup a) + sh) < 0 ->
  mem (sin (x + sh)) (wave a vi vs si ss down).
Proof.
  intros BD M WI WS FI FS (k & K0 & SI & SS) DN HW. destruct BD as [F1 F2].
  assert (XL : B2R (inf a) <= x) by (apply lo_real; [apply M|exact F1]). assert (XH : x <= B2R (sup a)) by (apply hi_real; [apply M|exact F2]).
  set (p := B2R (inf a)) in *. set (q := B2R (sup a)) in *. assert (PP := PI_RGT_0).
  assert (SB := SIN_bound (x + sh)). unfold wave.
  destruct (sge _ _) eqn:TA. { split; [apply below_m1; lra|apply above_1; lra]. }
  apply tau_narrow in TA; [|split; assumption]. fold p q in TA.
  assert (KS : forall c, (0 < k * c -> 0 < k -> 0 < c) /\ (0 < k * c -> k < 0 -> c < 0) /\ (k * c < 0 -> 0 < k -> c < 0) /\ (k * c < 0 -> k < 0 -> 0 < c) /\ (k * c = 0 -> c = 0)) by (intros c; repeat split; intros; nra).
  destruct (seqb _ _) eqn:SE.
  - apply (signum_eq _ _ _ _ FI FS SI SS) in SE. apply wboth with (u := sin (p + sh)) (v := sin (q + sh)); try assumption.
    assert (SE' : 0 < cos (p + sh) /\ 0 < cos (q + sh) \/ cos (p + sh) < 0 /\ cos (q + sh) < 0 \/ cos (p + sh) = 0 /\ cos (q + sh) = 0).
    { set (cp := cos (p + sh)) in *. set (cq := cos (q + sh)) in *. assert (k > 0 \/ k < 0) by lra. destruct SE as [[? ?]|[[? ?]|[? ?]]]; [destruct H; [left|right; left]|destruct H; [right; left|left]|right; right]; split; nra. }
    destruct HW as [HW|[HW|HW]]; [|lra|exfalso; nra]. apply mono_same; [lra|lra|exact SE'].
  - assert (SE' : ~ (0 < cos (p + sh) /\ 0 < cos (q + sh) \/ cos (p + sh) < 0 /\ cos (q + sh) < 0 \/ cos (p + sh) = 0 /\ cos (q + sh) = 0)).
    { intros K. assert (seqb (signum si) (signum ss) = true); [|congruence]. apply (signum_eq _ _ _ _ FI FS SI SS).
      set (cp := cos (p + sh)) in *. set (cq := cos (q + sh)) in *. assert (k > 0 \/ k < 0) by lra. destruct K as [[? ?]|[[? ?]|[? ?]]]; [destruct H; [left|right; left]|destruct H; [right; left|left]|right; right]; split; nra. }
    destruct down.
    + assert (CP : cos (p + sh) < 0) by (apply DN; reflexivity). assert (CQ : 0 <= cos (q + sh)) by (destruct (Rlt_dec (cos (q + sh)) 0); [exfalso; apply SE'; right; left; split; assumption|lra]).
      split; [apply below_m1; lra|]. eapply whigh; try eassumption. apply wave_up; lra.
    + assert (CP : 0 <= cos (p + sh)) by (destruct (Rlt_dec (cos (p + sh)) 0) as [L|L]; [apply DN in L; discriminate|lra]).
      split; [|apply above_1; lra]. eapply wlow; try eassumption.
      destruct (Rle_dec (cos (q + sh)) 0) as [CQ|CQ]; [apply wave_down; lra|].
      assert (Z : cos (p + sh) = 0) by (destruct (Req_dec (cos (p + sh)) 0); [assumption|exfalso; apply SE'; left; lra]).
      apply wave_down0; try lra. destruct HW as [HW|[HW|HW]]; [lra|lra|rewrite Z in HW; lra].
Qed.

Lemma sign_neg (z : FT) r : finite z -> same_sign z r -> (is_negative z = true <-> r < 0) /\ (is_positive z = true <-> 0 < r).
Proof.
  intros F [P N]. destruct (sign_predicates z) as (A & B & _). rewrite A, B, !flt_E. assert (EZ : E (fzero false : FT) = 0) by reflexivity. rewrite EZ, (E_B2R _ F).
  assert (NN := nonnan_of_finite _ F). assert (NZ : nonnan (fzero false : FT)) by reflexivity. tauto.
Qed.
Lemma sin_incl (a : IT) x : good_sin_cos m -> bounded a -> mem x a ->
  B2R (sup a) - B2R (inf a) <= PI \/ 2 * PI <= B2R (sup a) - B2R (inf a) \/ cos (B2R (inf a)) * cos (B2R (sup a)) < 0 ->
  mem (sin x) (gsin a).
Proof.
  intros GM BD M HW. destruct (GM _ (proj1 BD)) as (A1 & A2 & A3 & A4), (GM _ (proj2 BD)) as (B1 & B2 & B3 & B4).
  rewrite sin_wave. rewrite <- (Rplus_0_r x). apply wave_sound; rewrite ?Rplus_0_r; try assumption.
  - apply A3. - apply B3.
  - exists 1. rewrite !Rmult_1_l. repeat split; try lra; try apply A4; try apply B4.
  - apply sign_neg; [apply A3|exact A4].
Qed.
Lemma cos_incl (a : IT) x : good_sin_cos m -> bounded a -> mem x a ->
  B2R (sup a) - B2R (inf a) <= PI \/ 2 * PI <= B2R (sup a) - B2R (inf a) \/ sin (B2R (inf a)) * sin (B2R (sup a)) < 0 ->
  mem (cos x) (gcos a).
Proof.
  intros GM BD M HW. destruct (GM _ (proj1 BD)) as (A1 & A2 & A3 & A4), (GM _ (proj2 BD)) as (B1 & B2 & B3 & B4).
  rewrite cos_wave. rewrite (proj1 (cos_as_sin x)). apply wave_sound; rewrite <- ?(proj1 (cos_as_sin _)), <- ?(proj2 (cos_as_sin _)); try assumption.
  - apply A1. - apply B1.
  - exists (-1). replace (-1 * - sin (B2R (inf a))) with (sin (B2R (inf a))) by ring. replace (-1 * - sin (B2R (sup a))) with (sin (B2R (sup a))) by ring. repeat split; try lra; try apply A2; try apply B2.
  - rewrite (proj2 (sign_neg _ _ (proj1 A1) A2)). lra.
  - destruct HW as [HW|[HW|HW]]; [left; exact HW|right; left; exact HW|right; right; lra].
Qed.
End I.
