(** Proofs about the scalar layer (C01-C08). *)
From Coq Require Import ZArith Reals Bool Lia Lra Psatz.
From Flocq Require Import Core BinarySingleNaN.
From Verif.Model Require Import FloatBase Scalar Float Interval.
From Verif Require Import Spec.
From Verif.Proofs Require Import BitsLemmas FloatLemmas PiBounds.
Open Scope R_scope.

(** Evaluate a closed float term to its real value. *)
Ltac b2r_eval x :=
  let v := eval vm_compute in (B2SF x) in
  let H := fresh "Hv" in
  assert (H : B2R x = SF2R radix2 v) by
    (rewrite <- (SF2R_B2SF _ _ x); apply (f_equal (SF2R radix2)); vm_compute; reflexivity);
  rewrite H; clear H; unfold SF2R, F2R, Fnum, Fexp; simpl cond_Zopp.

(** Normalise the class-instance paths of the float instances. *)
Ltac fnorm := repeat match goal with
  | |- context [@gfloat_signed _ (float_gfloat ?f ?m)] => change (@gfloat_signed _ (float_gfloat f m)) with (float_signed f)
  | |- context [@signed_scalar _ (float_signed ?f)] => change (@signed_scalar _ (float_signed f)) with (float_scalar f)
  end.

Section S.
Context {f : fmt}.
Notation FT := (float f).
Notation fx := (SpecFloat.fexp (prec f) (emax f)).
Notation rnd := (round radix2 fx ZnearestE).

(** ** C01, C02 *)
Lemma next_up_adjacent (x : FT) : nonnan x -> x <> finf false ->
  flt x (f_next_up f x) /\ (forall y, flt x y -> fle (f_next_up f x) y).
Proof.
  intros N H. split.
  - apply flt_E. split; [auto|]. split; [now apply next_up_nonnan|].
    rewrite next_up_E by assumption.
    destruct (Req_dec (E x) 0) as [Hz|Hz].
    + rewrite Hz, succ_0. rewrite (ulp_FLT_0 radix2 (SpecFloat.emin (prec f) (emax f)) (prec f) : ulp radix2 fx 0 = _). apply bpow_gt_0.
    + apply succ_gt_id. assumption.
  - intros y Hy. apply flt_E in Hy. destruct Hy as (_ & Ny & Hy). apply fle_E.
    split; [now apply next_up_nonnan|]. split; [auto|]. rewrite next_up_E by assumption.
    apply succ_le_lt; auto; try apply generic_E. apply valid_fx.
Qed.
Lemma next_down_adjacent (x : FT) : nonnan x -> x <> finf true ->
  flt (f_next_down f x) x /\ (forall y, flt y x -> fle y (f_next_down f x)).
Proof.
  intros N H.
  assert (N' : nonnan (Bopp x)) by (now apply fneg_nonnan).
  assert (H' : Bopp x <> finf false).
  { intros Hx. apply H. rewrite <- (Bopp_involutive _ _ x), Hx. reflexivity. }
  destruct (next_up_adjacent _ N' H') as [H1 H2]. split.
  - apply flt_E in H1. apply flt_E. split; [now apply next_down_nonnan|]. split; [auto|].
    rewrite f_next_down_opp, E_opp. rewrite E_opp in H1. lra.
  - intros y Hy. apply flt_E in Hy. destruct Hy as (Ny & _ & Hy).
    assert (Hf : flt (Bopp x) (Bopp y)).
    { apply flt_E. split; auto. split; [now apply fneg_nonnan|]. rewrite !E_opp. lra. }
    apply H2, fle_E in Hf. apply fle_E. split; auto. split; [now apply next_down_nonnan|].
    rewrite f_next_down_opp. rewrite !E_opp in *. lra.
Qed.

Lemma next_specials :
  f_next_up f fnan = fnan /\ f_next_down f fnan = fnan /\
  f_next_up f (finf false) = finf false /\ f_next_down f (finf true) = finf true /\
  f_next_up f (finf true) = fmin_value /\ f_next_down f (finf false) = fmax_value.
Proof.
  repeat split; try (rewrite f_next_up_Bsucc); try (rewrite f_next_down_Bpred); try reflexivity.
Qed.

Lemma next_down_next_up (x : FT) : nonnan x -> x <> finf false -> feq (f_next_down f (f_next_up f x)) x.
Proof.
  intros N H. pose proof (next_up_nonnan x N). apply feq_E. split; [now apply next_down_nonnan|]. split; auto.
  rewrite next_down_E; auto; [|now apply next_up_not_ninf].
  rewrite next_up_E by assumption. apply pred_succ; [apply valid_fx|apply generic_E].
Qed.
Lemma next_up_next_down (x : FT) : nonnan x -> x <> finf true -> feq (f_next_up f (f_next_down f x)) x.
Proof.
  intros N H. pose proof (next_down_nonnan x N). apply feq_E. split; [now apply next_up_nonnan|]. split; auto.
  rewrite next_up_E; auto; [|now apply next_down_not_pinf].
  rewrite next_down_E by assumption. apply succ_pred; [apply valid_fx|apply generic_E].
Qed.
Lemma next_mirror (x : FT) : f_next_down f (fneg x) = fneg (f_next_up f x).
Proof.
  rewrite f_next_down_opp. unfold fneg. now rewrite Bopp_involutive.
Qed.

(** The crate's comparison operators decide the specification order. *)
Lemma slt_spec (x y : FT) : slt x y = true <-> flt x y.
Proof. rewrite flt_E. exact (lt_true x y). Qed.
Lemma sgt_spec (x y : FT) : sgt x y = true <-> flt y x.
Proof. rewrite flt_E. pose proof (gt_true x y). change (sgt x y) with (gt_of fcmp x y). tauto. Qed.
Lemma sle_spec (x y : FT) : sle x y = true <-> fle x y.
Proof. rewrite fle_E. exact (le_true x y). Qed.
Lemma sge_spec (x y : FT) : sge x y = true <-> fle y x.
Proof. rewrite fle_E. pose proof (ge_true x y). change (sge x y) with (ge_of fcmp x y). tauto. Qed.
Lemma seqb_spec (x y : FT) : seqb x y = true <-> feq x y.
Proof. rewrite feq_E. exact (eqb_true x y). Qed.

(** ** C03 *)
Lemma smin_spec (x y : FT) : nonnan x -> nonnan y ->
  (smin x y = x \/ smin x y = y) /\ fle (smin x y) x /\ fle (smin x y) y.
Proof.
  intros Nx Ny. simpl. unfold default_min. rewrite lt_b by assumption.
  destruct (Rlt_bool_spec (E x) (E y)); (split; [auto|]); split; apply fle_E; repeat split; auto; lra.
Qed.
Lemma smax_spec (x y : FT) : nonnan x -> nonnan y ->
  (smax x y = x \/ smax x y = y) /\ fle x (smax x y) /\ fle y (smax x y).
Proof.
  intros Nx Ny. simpl. unfold default_max. rewrite gt_b by assumption.
  destruct (Rlt_bool_spec (E y) (E x)); (split; [auto|]); split; apply fle_E; repeat split; auto; lra.
Qed.
Lemma smin_E (x y : FT) : nonnan x -> nonnan y -> nonnan (smin x y) /\ E (smin x y) = Rmin (E x) (E y).
Proof.
  intros Nx Ny. simpl. unfold default_min. rewrite lt_b by assumption.
  destruct (Rlt_bool_spec (E x) (E y)); split; auto; [rewrite Rmin_left|rewrite Rmin_right]; lra.
Qed.
Lemma smax_E (x y : FT) : nonnan x -> nonnan y -> nonnan (smax x y) /\ E (smax x y) = Rmax (E x) (E y).
Proof.
  intros Nx Ny. simpl. unfold default_max. rewrite gt_b by assumption.
  destruct (Rlt_bool_spec (E y) (E x)); split; auto; [rewrite Rmax_left|rewrite Rmax_right]; lra.
Qed.
Lemma min_max_spec (x y : FT) : nonnan x -> nonnan y ->
  (min_max x y = (x, y) \/ min_max x y = (y, x)) /\ fle (fst (min_max x y)) (snd (min_max x y)).
Proof.
  intros Nx Ny. unfold min_max, slt. simpl. rewrite lt_b by assumption.
  destruct (Rlt_bool_spec (E x) (E y)); (split; [auto|]); apply fle_E; simpl; repeat split; auto; lra.
Qed.
Lemma clamp_spec (x lo hi : FT) : nonnan x -> fle lo hi ->
  fle lo (clamp x lo hi) /\ fle (clamp x lo hi) hi /\
  (fle lo x -> fle x hi -> clamp x lo hi = x) /\
  (flt x lo -> clamp x lo hi = lo) /\ (flt hi x -> clamp x lo hi = hi).
Proof.
  intros Nx H. apply fle_E in H. destruct H as (Nl & Nh & H).
  unfold clamp, slt, sgt. simpl. rewrite lt_b, gt_b by assumption.
  destruct (Rlt_bool_spec (E x) (E lo)); [|destruct (Rlt_bool_spec (E hi) (E x))];
    rewrite ?fle_E, ?flt_E; repeat split; auto; try lra; intros; exfalso; intuition lra.
Qed.
Lemma in_range_spec (x lo hi : FT) : in_range x lo hi = true <-> (fle lo x /\ fle x hi).
Proof.
  unfold in_range. now rewrite andb_true_iff, sge_spec, sle_spec.
Qed.
Lemma min_max_nan (x y : FT) : ~ nonnan x \/ ~ nonnan y ->
  smin x y = y /\ smax x y = y /\ min_max x y = (y, x).
Proof.
  intros H. assert (lt_of fcmp x y = false /\ gt_of fcmp x y = false) as [H1 H2].
  { split; apply not_true_false; intros Hc; [apply lt_true in Hc|apply gt_true in Hc]; intuition. }
  unfold min_max, slt. simpl. unfold default_min, default_max. now rewrite H1, H2.
Qed.
Lemma clamp_nan (lo hi : FT) : clamp (fnan : FT) lo hi = fnan.
Proof.
  destruct lo as [[]|[]| |[]], hi as [[]|[]| |[]]; reflexivity.
Qed.

(** ** C08 *)
Lemma zero_E s : E (fzero s : FT) = 0. Proof. reflexivity. Qed.
Lemma sign_predicates (x : FT) :
  (is_positive x = true <-> flt (fzero false) x) /\ (is_negative x = true <-> flt x (fzero false)) /\
  (is_nonpositive x = true <-> fle x (fzero false)) /\ (is_nonnegative x = true <-> fle (fzero false) x).
Proof.
  unfold is_positive, is_negative, is_nonpositive, is_nonnegative.
  rewrite sgt_spec, slt_spec, sle_spec, sge_spec. easy.
Qed.
Lemma signum_spec (x : FT) :
  (flt (fzero false) x -> signum x = f_of_Z 1) /\ (flt x (fzero false) -> signum x = fneg (f_of_Z 1)) /\
  (feq x (fzero false) \/ ~ nonnan x -> signum x = fzero false).
Proof.
  unfold signum. destruct (sign_predicates x) as (H1 & H2 & _ & _).
  split; [|split].
  - intros H. apply H1 in H. now rewrite H.
  - intros H. assert (is_positive x = false).
    { apply not_true_false. intros Hc. apply H1 in Hc. apply flt_E in Hc, H. lra. }
    apply H2 in H. now rewrite H, H0.
  - intros H. assert (is_positive x = false /\ is_negative x = false) as [-> ->]; [|reflexivity].
    split; apply not_true_false; intros Hc; [apply H1 in Hc|apply H2 in Hc]; apply flt_E in Hc;
      destruct H as [H|H]; try (apply feq_E in H; lra); tauto.
Qed.
Lemma sabs_spec (x : FT) : finite x -> finite (sabs x) /\ B2R (sabs x) = Rabs (B2R x).
Proof.
  intros F. pose proof (nonnan_of_finite x F). simpl. unfold default_abs. rewrite lt_b by easy. rewrite (E_B2R x F). simpl.
  destruct (Rlt_bool_spec (B2R x) 0).
  - split; [now apply fneg_finite|]. rewrite fneg_B2R, Rabs_left; lra.
  - split; [assumption|]. rewrite Rabs_pos_eq; lra.
Qed.
Lemma sabs_E (x : FT) : nonnan x -> nonnan (sabs x) /\ E (sabs x) = Rabs (E x).
Proof.
  intros N. simpl. unfold default_abs. rewrite lt_b by easy. simpl.
  destruct (Rlt_bool_spec (E x) 0).
  - split; [now apply fneg_nonnan|]. rewrite fneg_E, Rabs_left; lra.
  - split; [assumption|]. rewrite Rabs_pos_eq; lra.
Qed.
Lemma sabs_nan : sabs (fnan : FT) = fnan.
Proof. reflexivity. Qed.
Lemma sabs_inf s : sabs (finf s : FT) = finf false.
Proof. destruct s; reflexivity. Qed.

(** Rounded literals and integers *)
Lemma flit_Rnd num den : Rnd (flit num den : FT) (IZR (Zpos num) / IZR (Zpos den)).
Proof.
  unfold flit. 
  pose proof (proj2 (Bdiv_correct_aux (prec f) (emax f) (prec_gt_0_f f) (prec_lt_emax_f f) mode_NE false num 0 false den 0)) as H2.
  generalize (proj1 (Bdiv_correct_aux (prec f) (emax f) (prec_gt_0_f f) (prec_lt_emax_f f) mode_NE false num 0 false den 0)). intros H1.
  replace (F2R (Float radix2 (SpecFloat.cond_Zopp false (Z.pos num)) 0)) with (IZR (Zpos num)) in H2 by (unfold F2R; simpl; ring).
  replace (F2R (Float radix2 (SpecFloat.cond_Zopp false (Z.pos den)) 0)) with (IZR (Zpos den)) in H2 by (unfold F2R; simpl; ring).
  simpl round_mode in H2.
  match type of H2 with if Rlt_bool ?a ?b then _ else _ => destruct (Rlt_bool_spec a b) as [Hlt|Hge] end.
  - destruct H2 as (H2 & H3 & _). apply Rnd_of_finite.
    + unfold finite. now rewrite is_finite_SF2B.
    + now rewrite B2R_SF2B.
  - apply (Rnd_overflow _ _ false); auto.
    + intros _. symmetry. apply Rlt_bool_false. apply Rlt_le, Rdiv_lt_0_compat; apply IZR_lt; reflexivity.
    + apply overflow_inf. rewrite B2SF_SF2B. exact H2.
Qed.

Lemma binary_normalize_Rnd m e s : Rnd (binary_normalize (prec f) (emax f) _ _ mode_NE m e s : FT) (F2R (Float radix2 m e)).
Proof.
  pose proof (binary_normalize_correct (prec f) (emax f) _ _ mode_NE m e s) as H. cbv zeta in H. simpl round_mode in H.
  match type of H with if Rlt_bool ?a ?b then _ else _ => destruct (Rlt_bool_spec a b) as [Hlt|Hge] end.
  - destruct H as (H1 & H2 & _). apply Rnd_of_finite; [exact H2|exact H1].
  - eapply Rnd_overflow; [exact Hge| |apply overflow_inf; exact H]. intros _. reflexivity.
Qed.

Lemma f_of_Z_Rnd z : Rnd (f_of_Z z : FT) (IZR z).
Proof.
  replace (IZR z) with (F2R (Float radix2 z 0)) by (unfold F2R; simpl; ring). apply binary_normalize_Rnd.
Qed.

Lemma generic_IZR z : (Z.abs z <= 2 ^ prec f)%Z -> generic_format radix2 fx (IZR z).
Proof.
  intros H.
  assert (Hf : generic_format radix2 (FLT_exp (SpecFloat.emin (prec f) (emax f)) (prec f)) (IZR z)).
  { destruct (Z.eq_dec (Z.abs z) (2 ^ prec f)) as [He|He].
    - assert (HH : generic_format radix2 (FLT_exp (SpecFloat.emin (prec f) (emax f)) (prec f)) (bpow radix2 (prec f))).
      { apply generic_format_bpow. unfold FLT_exp, SpecFloat.emin. pose proof (prec_emax f). pose proof (prec_gt_0_f f). unfold Prec_gt_0 in *. lia. }
      assert (bpow radix2 (prec f) = IZR (2 ^ prec f)) as Hb.
      { symmetry. apply (IZR_Zpower radix2). destruct f; easy. }
      rewrite Hb, <- He in HH. destruct (Z.abs_eq_or_opp z) as [Ha|Ha]; rewrite Ha in HH; auto.
      rewrite opp_IZR in HH. rewrite <- (Ropp_involutive (IZR z)). now apply generic_format_opp.
    - apply generic_format_FLT. exists (Float radix2 z 0).
      + unfold F2R; simpl; ring.
      + simpl. lia.
      + simpl. destruct f; easy. }
  exact Hf.
Qed.

Lemma f_of_Z_exact z : (Z.abs z <= 2 ^ prec f)%Z -> finite (f_of_Z z : FT) /\ B2R (f_of_Z z : FT) = IZR z.
Proof.
  intros H. destruct (f_of_Z_Rnd z) as [N He].
  pose proof (generic_IZR z H) as G. rewrite rnd_id in He by exact G.
  assert (Hr : (- bpow radix2 (emax f) < IZR z < bpow radix2 (emax f))%R).
  { apply Rabs_lt_inv. rewrite <- abs_IZR. apply Rle_lt_trans with (IZR (2 ^ prec f)).
    now apply IZR_le. change (2 ^ prec f)%Z with (Zpower radix2 (prec f)).
    rewrite IZR_Zpower by (destruct f; easy). apply bpow_lt. apply prec_emax. }
  rewrite clampE_range in He by lra.
  assert (Fz : finite (f_of_Z z : FT)) by (apply finite_of_range; auto; lra).
  split; auto. now rewrite <- E_B2R.
Qed.

Lemma one_B2R : finite (sone : FT) /\ B2R (sone : FT) = 1.
Proof. apply (f_of_Z_exact 1). destruct f; easy. Qed.

End S.

(** ** C04 *)
Section Feq.
Context {f : fmt} (m : libm f).
Notation FT := (float f).
Notation fx := (SpecFloat.fexp (prec f) (emax f)).
Notation rnd := (round radix2 fx ZnearestE).
Notation top := (bpow radix2 (emax f)).
Notation G := (float_gfloat f m).

Lemma abs_eps_val : finite (f_abs_epsilon f) /\ B2R (f_abs_epsilon f) = rnd (1 / 10 ^ 6).
Proof.
  pose proof (flit_Rnd (f := f) 1 1000000) as H.
  assert (finite (f_abs_epsilon f)) by (destruct f; reflexivity).
  split; auto. unfold f_abs_epsilon in *. rewrite (Rnd_finite _ _ H) by assumption. f_equal. lra.
Qed.
Lemma rel_eps_val : finite (f_rel_epsilon f) /\
  B2R (f_rel_epsilon f) = rnd (match f with F32 => 1 / 10 ^ 4 | F64 => 1 / 10 ^ 6 end).
Proof.
  assert (finite (f_rel_epsilon f)) by (destruct f; reflexivity).
  split; auto. unfold f_rel_epsilon in *. destruct f.
  - rewrite (Rnd_finite _ _ (flit_Rnd 1 10000)) by assumption. f_equal. lra.
  - rewrite (Rnd_finite _ _ (flit_Rnd 1 1000000)) by assumption. f_equal. lra.
Qed.
Lemma rel_eps_range : 0 < B2R (f_rel_epsilon f) < 1.
Proof.
  destruct f; match goal with |- 0 < B2R ?x < 1 => b2r_eval x end; simpl bpow; lra.
Qed.

Lemma clampE_lt x c : - top < c <= top -> (clampE (f := f) x < c <-> x < c).
Proof.
  intros. unfold clampE, Rmax, Rmin. destruct (Rle_dec top x), (Rle_dec _ _); lra.
Qed.

Lemma rnd_abs r : rnd (Rabs r) = Rabs (rnd r).
Proof. apply round_NE_abs. apply valid_fx. Qed.

Lemma diff_E (a b : FT) : finite a -> finite b ->
  nonnan (sabs (ssub a b)) /\ E (sabs (ssub a b)) = clampE (f := f) (rnd (Rabs (B2R a - B2R b))).
Proof.
  intros Fa Fb. destruct (fsub_Rnd a b Fa Fb) as [N HE].
  change (ssub a b) with (fsub a b). destruct (sabs_E (fsub a b) N) as [N' HE']. split; auto. rewrite HE'. rewrite HE, rnd_abs.
  pose proof (top_pos (f := f)). unfold clampE, Rmax, Rmin.
  destruct (Rle_dec top (rnd (B2R a - B2R b))), (Rle_dec top (Rabs (rnd (B2R a - B2R b))));
    repeat (destruct (Rle_dec _ _)); unfold Rabs in *; repeat (destruct (Rcase_abs _)); lra.
Qed.

Lemma fequals_spec (a b : FT) : finite a -> finite b ->
  (@fequals _ G a b = true <->
   (rnd (Rabs (B2R a - B2R b)) < B2R (f_abs_epsilon f) \/
    rnd (Rabs (B2R a - B2R b)) < rnd (Rmax (Rabs (B2R a)) (Rabs (B2R b)) * B2R (f_rel_epsilon f)))).
Proof.
  intros Fa Fb. destruct (diff_E a b Fa Fb) as [Nd Ed].
  destruct abs_eps_val as [Fe He]. destruct rel_eps_val as [Fr _]. pose proof rel_eps_range as Hr.
  unfold fequals. cbv zeta. fnorm.
  change (@abs_epsilon _ G) with (f_abs_epsilon f). change (@rel_epsilon _ G) with (f_rel_epsilon f).
  set (d := sabs (ssub a b)) in *.
  set (big := smax (sabs a) (sabs b)).
  destruct (sabs_spec a Fa) as [Faa Haa]. destruct (sabs_spec b Fb) as [Fab Hab].
  assert (Nb : nonnan big /\ E big = Rmax (Rabs (B2R a)) (Rabs (B2R b))).
  { destruct (smax_E (sabs a) (sabs b)) as [H1 H2]; try now apply nonnan_of_finite.
    split; auto. unfold big. rewrite H2, !E_B2R by assumption. now rewrite Haa, Hab. }
  destruct Nb as [Nb Eb].
  assert (Fbig : finite big).
  { apply finite_of_range; auto. rewrite Eb. pose proof (finite_E_range _ Faa). pose proof (finite_E_range _ Fab).
    rewrite E_B2R in * by assumption. rewrite Haa, Hab in *. unfold Rmax. destruct (Rle_dec _ _); lra. }
  rewrite E_B2R in Eb by assumption.
  destruct (fmul_Rnd big (f_rel_epsilon f) Fbig Fr) as [Np Ep]. rewrite Eb in Ep.
  pose proof (finite_E_range _ Fe) as Re. rewrite E_B2R in Re by assumption.
  pose proof (finite_E_range _ Fbig) as Rb. rewrite E_B2R, Eb in Rb by assumption.
  set (M := Rmax (Rabs (B2R a)) (Rabs (B2R b))) in *.
  assert (HM : 0 <= M) by (unfold M; eapply Rle_trans; [apply Rabs_pos|apply Rmax_l]).
  assert (HP : - top < rnd (M * B2R (f_rel_epsilon f)) <= top).
  { pose proof (top_pos (f := f)). split.
    - apply Rlt_le_trans with 0; [lra|]. rewrite <- (rnd_0 (f := f)). apply rnd_le. nra.
    - apply Rle_trans with (rnd M). apply rnd_le. nra.
      rewrite rnd_id. lra. rewrite <- Eb. rewrite <- E_B2R by assumption. apply generic_E. }
  assert (H1 : slt d (f_abs_epsilon f) = true <-> rnd (Rabs (B2R a - B2R b)) < B2R (f_abs_epsilon f)).
  { rewrite slt_spec, flt_E, Ed, E_B2R by assumption. rewrite clampE_lt by lra.
    pose proof (nonnan_of_finite _ Fe). tauto. }
  assert (H2 : slt d (smul big (f_rel_epsilon f)) = true <-> rnd (Rabs (B2R a - B2R b)) < rnd (M * B2R (f_rel_epsilon f))).
  { rewrite slt_spec, flt_E, Ed. change (smul big (f_rel_epsilon f)) with (fmul big (f_rel_epsilon f)).
    rewrite Ep. rewrite (clampE_range (rnd (M * _))) by lra. rewrite clampE_lt by lra. tauto. }
  destruct (slt d (f_abs_epsilon f)).
  - tauto.
  - rewrite <- H1, H2. intuition discriminate.
Qed.

Lemma fequals_nan (a b : FT) : ~ nonnan a \/ ~ nonnan b -> @fequals _ G a b = false.
Proof.
  intros H. assert (Hd : sabs (ssub a b) = fnan).
  { destruct H as [H|H]; [destruct a|destruct b]; try (now elim H); [destruct b|destruct a]; reflexivity. }
  unfold fequals. cbv zeta. fnorm.
  rewrite Hd.
  assert (Hs : forall z : FT, slt (fnan : FT) z = false) by (intros z; destruct z as [|[]| |[]]; reflexivity).
  now rewrite !Hs.
Qed.

Lemma fequals_refl (x : FT) : finite x -> @fequals _ G x x = true.
Proof.
  intros F. apply fequals_spec; auto. left. rewrite Rminus_eq_0, Rabs_R0, rnd_0.
  clear. destruct f; match goal with |- 0 < B2R ?x => b2r_eval x end; simpl bpow; lra.
Qed.

Lemma fequals_inf s t : @fequals _ G (finf s) (finf t) = false.
Proof.
  destruct f, s, t; vm_compute; reflexivity.
Qed.
Lemma fequals_inf_fin (x : FT) s : finite x -> @fequals _ G (finf s) x = false /\ @fequals _ G x (finf s) = false.
Proof.
  intros F. 
  unfold fequals. cbv zeta. fnorm.
  assert (Hi : forall z : FT, slt (finf false : FT) z = false) by (intros z; destruct z as [|[]| |[]]; reflexivity).
  assert (sabs (ssub (finf s) x) = (finf false : FT)) as ->. { destruct x, s; try easy; reflexivity. }
  assert (sabs (ssub x (finf s)) = (finf false : FT)) as ->. { destruct x, s; try easy; reflexivity. }
  now rewrite !Hi.
Qed.

Lemma fequals_sym (a b : FT) : @fequals _ G a b = @fequals _ G b a.
Proof.
  destruct (BinarySingleNaN.is_nan a) eqn:Na; [transitivity false; [|symmetry]; apply fequals_nan; unfold nonnan; rewrite Na; intuition discriminate|].
  destruct (BinarySingleNaN.is_nan b) eqn:Nb; [transitivity false; [|symmetry]; apply fequals_nan; unfold nonnan; rewrite Nb; intuition discriminate|].
  destruct (BinarySingleNaN.is_finite a) eqn:Fa, (BinarySingleNaN.is_finite b) eqn:Fb.
  - apply eq_true_iff_eq. rewrite !fequals_spec by assumption. rewrite (Rabs_minus_sym (B2R b)), (Rmax_comm (Rabs (B2R b))). tauto.
  - destruct b as [|s| |]; try easy. destruct (fequals_inf_fin a s Fa). now transitivity false.
  - destruct a as [|s| |]; try easy. destruct (fequals_inf_fin b s Fb). now transitivity false.
  - destruct a as [|s| |]; try easy. destruct b as [|t| |]; try easy.
    now rewrite (fequals_inf s t : @fequals _ G (B754_infinity s) (B754_infinity t) = _), (fequals_inf t s : @fequals _ G (B754_infinity t) (B754_infinity s) = _).
Qed.
End Feq.

(** ** C06 *)
Lemma f64_pi_lower : B2R (f_pi_lower F64) <= PI.
Proof. match goal with |- B2R ?x <= _ => b2r_eval x end. pose proof PI_lower_bound. simpl bpow. lra. Qed.
Lemma f64_pi_upper : PI <= B2R (f_pi_upper F64).
Proof. match goal with |- _ <= B2R ?x => b2r_eval x end. pose proof PI_upper_bound. simpl bpow. lra. Qed.
Lemma f32_pi_lower : B2R (f_pi_lower F32) <= PI.
Proof. match goal with |- B2R ?x <= _ => b2r_eval x end. pose proof PI_lower_bound. simpl bpow. lra. Qed.
Lemma f32_pi_upper : B2R (f_pi_upper F32) < PI.
Proof. match goal with |- B2R ?x < _ => b2r_eval x end. pose proof PI_lower_bound. simpl bpow. lra. Qed.

(** All brackets, for both formats. *)
Definition two := 2%R.
Ltac bracket :=
  match goal with
  | |- B2R ?x <= _ => b2r_eval x
  | |- _ <= B2R ?x => b2r_eval x
  end; pose proof PI_lower_bound; pose proof PI_upper_bound; simpl bpow; lra.

Lemma lower_consts f :
  B2R (f_pi_lower f) <= PI /\ B2R (f_tau_lower f) <= 2 * PI /\
  B2R (f_frac_pi_2_lower f) <= PI / 2 /\ B2R (f_frac_pi_4_lower f) <= PI / 4.
Proof. destruct f; repeat split; bracket. Qed.
Lemma upper_consts_f64 :
  PI <= B2R (f_pi_upper F64) /\ 2 * PI <= B2R (f_tau_upper F64) /\
  PI / 2 <= B2R (f_frac_pi_2_upper F64) /\ PI / 4 <= B2R (f_frac_pi_4_upper F64).
Proof. repeat split; bracket. Qed.
Lemma upper_consts_f32 :
  B2R (f_pi_upper F32) < PI /\ B2R (f_tau_upper F32) < 2 * PI /\
  B2R (f_frac_pi_2_upper F32) < PI / 2 /\ B2R (f_frac_pi_4_upper F32) < PI / 4.
Proof. repeat split; match goal with |- B2R ?x < _ => b2r_eval x end; pose proof PI_lower_bound; simpl bpow; lra. Qed.
Lemma bracket_width_f64 :
  f_next_up F64 (f_pi_lower F64) = f_pi_upper F64 /\ f_next_up F64 (f_tau_lower F64) = f_tau_upper F64 /\
  f_next_up F64 (f_frac_pi_2_lower F64) = f_frac_pi_2_upper F64 /\
  f_next_up F64 (f_frac_pi_4_lower F64) = f_frac_pi_4_upper F64.
Proof. repeat split; apply B2SF_inj; vm_compute; reflexivity. Qed.

Lemma flit_finite f num den : finite (flit (f := f) num den) -> B2R (flit (f := f) num den) = rndf f (IZR (Zpos num) / IZR (Zpos den)).
Proof. intros. apply Rnd_finite; auto. apply flit_Rnd. Qed.

(** std's PI, TAU, FRAC_PI_2, FRAC_PI_4 are the correctly rounded constants. *)
Lemma squeeze_round f (x : float f) r n1 d1 n2 d2 :
  x = flit n1 d1 -> x = flit n2 d2 -> finite x ->
  IZR (Zpos n1) / IZR (Zpos d1) <= r -> r <= IZR (Zpos n2) / IZR (Zpos d2) -> B2R x = rndf f r.
Proof.
  intros H1 H2 F L U.
  assert (B2R x = rndf f (IZR (Zpos n1) / IZR (Zpos d1))) by (rewrite H1; apply flit_finite; now rewrite <- H1).
  assert (B2R x = rndf f (IZR (Zpos n2) / IZR (Zpos d2))) by (rewrite H2; apply flit_finite; now rewrite <- H2).
  apply Rle_antisym.
  - rewrite H. now apply rnd_le.
  - rewrite H0. now apply rnd_le.
Qed.

Lemma std_constants_rounded f :
  B2R (f_pi f) = rndf f PI /\ B2R (f_tau f) = rndf f (2 * PI) /\
  B2R (f_frac_pi_2 f) = rndf f (PI / 2) /\ B2R (f_frac_pi_4 f) = rndf f (PI / 4).
Proof.
  pose proof PI_lower_bound as L. pose proof PI_upper_bound as U.
  repeat split.
  - apply (squeeze_round f _ PI 31415926535897932384 10000000000000000000 31415926535897932385 10000000000000000000);
      try (destruct f; apply B2SF_inj; vm_compute; reflexivity); try (destruct f; vm_compute; reflexivity); lra.
  - apply (squeeze_round f _ (2 * PI) 62831853071795864768 10000000000000000000 62831853071795864770 10000000000000000000);
      try (destruct f; apply B2SF_inj; vm_compute; reflexivity); try (destruct f; vm_compute; reflexivity); lra.
  - apply (squeeze_round f _ (PI / 2) 31415926535897932384 20000000000000000000 31415926535897932385 20000000000000000000);
      try (destruct f; apply B2SF_inj; vm_compute; reflexivity); try (destruct f; vm_compute; reflexivity); lra.
  - apply (squeeze_round f _ (PI / 4) 31415926535897932384 40000000000000000000 31415926535897932385 40000000000000000000);
      try (destruct f; apply B2SF_inj; vm_compute; reflexivity); try (destruct f; vm_compute; reflexivity); lra.
Qed.

(** ** C07 *)
Lemma Rnd_rounds_to f (z : float f) r : Rnd z r <-> rounds_to z r.
Proof.
  unfold rounds_to. pose proof (top_pos (f := f)) as T. split.
  - intros [N HE]. destruct (Rlt_bool_spec (Rabs (rndf f r)) (bpow radix2 (emax f))) as [H|H].
    + apply Rabs_lt_inv in H. rewrite clampE_range in HE by lra.
      assert (finite z) by (apply finite_of_range; auto; lra). split; auto. now rewrite <- E_B2R.
    + destruct (Rlt_bool_spec r 0).
      * assert (rndf f r <= 0) by (rewrite <- (rnd_0 (f := f)); apply rnd_le; lra).
        rewrite Rabs_left1 in H by assumption. apply is_inf_neg; auto. rewrite HE.
        unfold clampE. rewrite Rmin_right, Rmax_left; lra.
      * assert (0 <= rndf f r) by (rewrite <- (rnd_0 (f := f)); apply rnd_le; lra).
        rewrite Rabs_pos_eq in H by assumption. apply is_inf_pos; auto. rewrite HE.
        unfold clampE. rewrite Rmin_left, Rmax_right; lra.
  - destruct (Rlt_bool_spec (Rabs (rndf f r)) (bpow radix2 (emax f))) as [H|H].
    + intros [F HB]. now apply Rnd_of_finite.
    + intros ->. eapply Rnd_overflow; [exact H| |reflexivity]. auto.
Qed.

Lemma fconv_Rnd f g (x : float f) : finite x -> Rnd (fconv f g x) (B2R x).
Proof.
  destruct x as [s|s| |s m e H]; try easy; intros _; simpl fconv.
  - apply Rnd_of_finite; [reflexivity|]. simpl. now rewrite rnd_0.
  - simpl B2R. apply binary_normalize_Rnd.
Qed.

Lemma f32_in_f64 r : generic_format radix2 (SpecFloat.fexp (prec F32) (emax F32)) r ->
  generic_format radix2 (SpecFloat.fexp (prec F64) (emax F64)) r.
Proof.
  intros H. destruct (Req_dec r 0) as [->|Hr]; [apply generic_format_0|].
  eapply generic_inclusion_mag; [|exact H]. intros _.
  generalize (mag radix2 r : Z). intros z. change (Z.max (z - 53) (3 - 1024 - 53) <= Z.max (z - 24) (3 - 128 - 24))%Z. lia.
Qed.

Lemma f32_f64_lossless (x : float F32) : finite x -> finite (fconv F32 F64 x) /\ B2R (fconv F32 F64 x) = B2R x.
Proof.
  intros F. pose proof (fconv_Rnd F32 F64 x F) as [N HE].
  rewrite rnd_id in HE by (apply f32_in_f64; rewrite <- E_B2R by assumption; apply generic_E).
  pose proof (finite_E_range x F) as R0. rewrite E_B2R in R0 by assumption.
  assert (bpow radix2 (emax F32) < bpow radix2 (emax F64)) by (apply bpow_lt; reflexivity).
  rewrite clampE_range in HE by lra.
  assert (Fz : finite (fconv F32 F64 x)) by (apply finite_of_range; auto; lra).
  split; auto. now rewrite <- E_B2R.
Qed.

Lemma fconv_sign f g (x : float f) : finite x -> Bsign (fconv f g x) = Bsign x.
Proof.
  destruct x as [s|s| |s m e H]; try easy. intros _. simpl fconv.
  pose proof (binary_normalize_correct (prec g) (emax g) _ _ mode_NE (cond_Zopp s (Z.pos m)) e s) as HH. cbv zeta in HH.
  assert (Hs : (match Rcompare (F2R (Float radix2 (cond_Zopp s (Z.pos m)) e)) 0 with Eq => s | Lt => true | Gt => false end) = s).
  { destruct s; simpl cond_Zopp.
    - rewrite Rcompare_Lt; auto. apply F2R_lt_0. reflexivity.
    - rewrite Rcompare_Gt; auto. apply F2R_gt_0. reflexivity. }
  match type of HH with if Rlt_bool ?a ?b then _ else _ => destruct (Rlt_bool_spec a b) as [Hlt|Hge] end.
  - destruct HH as (_ & _ & HH). rewrite HH. exact Hs.
  - apply overflow_inf in HH. rewrite HH. simpl.
    destruct s; simpl cond_Zopp.
    + apply Rlt_bool_true. apply F2R_lt_0. reflexivity.
    + apply Rlt_bool_false. apply F2R_ge_0. simpl. lia.
Qed.

Lemma f32_f64_roundtrip (x : float F32) : fconv F64 F32 (fconv F32 F64 x) = x.
Proof.
  destruct (BinarySingleNaN.is_finite x) eqn:F.
  - destruct (f32_f64_lossless x F) as [F1 H1].
    destruct (fconv_Rnd F64 F32 _ F1) as [N HE]. rewrite H1 in HE.
    rewrite <- (E_B2R x F), rnd_E, clampE_E in HE.
    apply E_inj; auto.
    + now apply nonnan_of_finite.
    + rewrite !fconv_sign; auto.
  - destruct x as [|[]| |]; easy.
Qed.

Lemma to_i64_spec f (x : float f) :
  (finite x -> f_to_i64 x = Z.max i64_min (Z.min i64_max (Ztrunc (B2R x)))) /\
  f_to_i64 (fnan : float f) = 0%Z /\ f_to_i64 (finf false : float f) = i64_max /\ f_to_i64 (finf true : float f) = i64_min.
Proof.
  repeat split. intros F.
  assert (Ht : Btrunc x = Ztrunc (B2R x)).
  { apply eq_IZR. rewrite (Btrunc_correct (prec f) (emax f) _ x).
    unfold round, F2R, scaled_mantissa, cexp, FIX_exp. simpl. rewrite !Rmult_1_r. reflexivity. }
  destruct x as [|s| |]; try easy; unfold f_to_i64; rewrite Ht; reflexivity.
Qed.

Lemma i64_roundtrip f n : (Z.abs n <= 2 ^ prec f)%Z -> f_to_i64 (f_of_Z n : float f) = n.
Proof.
  intros H. destruct (f_of_Z_exact (f := f) n H) as [F HB].
  destruct (to_i64_spec f (f_of_Z n)) as [H1 _]. rewrite H1 by assumption. rewrite HB, Ztrunc_IZR.
  assert (2 ^ prec f <= 2 ^ 53)%Z by (destruct f; easy). unfold i64_max, i64_min. lia.
Qed.

(** Final forms used by Props/P_Scalar.v *)
Lemma fequals_spec_lit f (m : libm f) (a b : float f) : finite a -> finite b ->
  (fequals a b = true <->
   (rndf f (Rabs (B2R a - B2R b)) < rndf f (1 / 10 ^ 6) \/
    rndf f (Rabs (B2R a - B2R b)) <
      rndf f (Rmax (Rabs (B2R a)) (Rabs (B2R b)) *
              rndf f (match f with F32 => 1 / 10 ^ 4 | F64 => 1 / 10 ^ 6 end)))).
Proof.
  intros Fa Fb. rewrite fequals_spec by assumption.
  rewrite (proj2 (abs_eps_val m)), (proj2 (rel_eps_val m)). reflexivity.
Qed.
Lemma fequals_refl_refuted f (m : libm f) : ~ (forall x : float f, nonnan x -> fequals x x = true).
Proof. intros H. specialize (H (finf false) eq_refl). rewrite fequals_inf in H. discriminate. Qed.
Lemma fequals_inf_any f (m : libm f) (x : float f) s : fequals (finf s) x = false /\ fequals x (finf s) = false.
Proof.
  destruct (BinarySingleNaN.is_finite x) eqn:F; [now apply fequals_inf_fin|].
  destruct x as [|t| |]; try easy.
  - split; apply fequals_inf.
Qed.
Lemma finite_class f (x : float f) : BinarySingleNaN.is_finite x = true <-> x <> fnan /\ x <> finf false /\ x <> finf true.
Proof.
  destruct x as [|[]| |]; simpl; split; try easy; try (intros (H & H1 & H2));
    try (now elim H1); try (now elim H2); try (now elim H).
Qed.
Lemma classification_partial f (m : libm f) (x : float f) :
  (is_nan x = true <-> x = fnan) /\
  (is_finite x = true <-> x <> fnan /\ x <> finf false /\ x <> finf true) /\
  (is_infinite x = true <-> x <> fnan /\ x <> finf false /\ x <> finf true).
Proof.
  split; [|split; apply finite_class]. destruct x; simpl; easy.
Qed.
Lemma classification_refuted f (m : libm f) : ~ (forall x : float f,
  (is_nan x = true <-> x = fnan) /\
  (is_finite x = true <-> x <> fnan /\ x <> finf false /\ x <> finf true) /\
  (is_infinite x = true <-> x = finf false \/ x = finf true)).
Proof.
  intros H. destruct (H (finf false)) as (_ & _ & [_ H1]). simpl in H1. now assert (false = true) by (apply H1; now left).
Qed.
Lemma upper_f32_refuted : ~ (
  PI <= B2R (f_pi_upper F32) /\ 2 * PI <= B2R (f_tau_upper F32) /\
  PI / 2 <= B2R (f_frac_pi_2_upper F32) /\ PI / 4 <= B2R (f_frac_pi_4_upper F32)).
Proof. pose proof upper_consts_f32. lra. Qed.
Lemma widening (m : libm F32) (m' : libm F64) (x : float F32) :
  (finite x -> finite (to_f64 x) /\ B2R (to_f64 x) = B2R x) /\
  from_f64 (to_f64 x) = x /\ to_f32 (from_f32 x : float F64) = x.
Proof. split; [apply f32_f64_lossless|]. split; apply f32_f64_roundtrip. Qed.
Lemma narrowing (m : libm F32) (m' : libm F64) (x : float F64) :
  (finite x -> rounds_to (to_f32 x) (B2R x) /\ rounds_to (from_f64 x : float F32) (B2R x)) /\
  to_f32 (fnan : float F64) = fnan /\ (forall s, to_f32 (finf s : float F64) = finf s).
Proof.
  split; [|easy]. intros F. split; apply Rnd_rounds_to; now apply fconv_Rnd.
Qed.
Lemma fconv_same f (x : float f) : fconv f f x = x.
Proof.
  destruct (BinarySingleNaN.is_finite x) eqn:F.
  - destruct (fconv_Rnd f f x F) as [N HE].
    rewrite <- (E_B2R x F), rnd_E, clampE_E in HE.
    apply E_inj; auto.
    + now apply nonnan_of_finite.
    + now rewrite !fconv_sign.
  - destruct x as [|[]| |]; easy.
Qed.
Lemma from_i64_rounds f (m : libm f) n : rounds_to (from_i64 n : float f) (IZR n).
Proof. apply Rnd_rounds_to, f_of_Z_Rnd. Qed.
Lemma signum_values f (x : float f) :
  (flt (fzero false) x -> B2R (signum x) = 1) /\ (flt x (fzero false) -> B2R (signum x) = -1) /\
  (feq x (fzero false) \/ ~ nonnan x -> signum x = fzero false).
Proof.
  destruct (signum_spec x) as (H1 & H2 & H3). destruct (one_B2R (f := f)) as [_ H]. change (B2R (f_of_Z 1 : float f) = 1) in H.
  split; [|split; auto]; intros HH.
  - now rewrite H1.
  - rewrite H2 by assumption. rewrite fneg_B2R. rewrite H. lra.
Qed.
Lemma abs_all f (x : float f) :
  (finite x -> finite (sabs x) /\ B2R (sabs x) = Rabs (B2R x)) /\
  (forall s, sabs (finf s : float f) = finf false) /\ sabs (fnan : float f) = fnan.
Proof. split; [apply sabs_spec|]. split; [apply sabs_inf|apply sabs_nan]. Qed.
Lemma same_format (m : libm F32) (m' : libm F64) :
  (forall x : float F32, to_f32 x = x /\ from_f32 x = x) /\
  (forall x : float F64, to_f64 x = x /\ from_f64 x = x).
Proof. split; intros x; split; apply fconv_same. Qed.
