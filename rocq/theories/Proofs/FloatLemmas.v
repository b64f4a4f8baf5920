(** Order, rounding and one-ulp facts about floats, phrased with the embedding [E]. *)
From Coq Require Import ZArith Reals Bool Lia Lra Psatz.
From Flocq Require Import Core BinarySingleNaN.
From Verif.Model Require Import FloatBase Scalar Float Interval.
From Verif Require Import Spec.
From Verif.Proofs Require Import BitsLemmas.

Open Scope R_scope.

Section F.
Context {f : fmt}.
Notation FT := (float f).
Notation fx := (SpecFloat.fexp (prec f) (emax f)).
Notation rnd := (round radix2 fx ZnearestE).
Notation top := (bpow radix2 (emax f)).

Global Instance valid_fx : Valid_exp fx.
Proof. apply fexp_correct, prec_gt_0_f. Qed.

Global Instance fexp_mono_f : Monotone_exp (SpecFloat.fexp (prec f) (emax f)).
Proof. exact (FLT_exp_monotone (SpecFloat.emin (prec f) (emax f)) (prec f)). Qed.

Lemma top_pos : 0 < top. Proof. apply bpow_gt_0. Qed.

Lemma nonnan_of_finite (x : FT) : finite x -> nonnan x.
Proof. destruct x; easy. Qed.

Lemma E_B2R (x : FT) : finite x -> E x = B2R x.
Proof. destruct x; easy. Qed.

Lemma finite_E_range (x : FT) : finite x -> - top < E x < top.
Proof. intros H. apply Rabs_lt_inv. now apply E_fin_lt. Qed.

Lemma E_range (x : FT) : - top <= E x <= top.
Proof. apply Rabs_le_inv. apply abs_E_le. Qed.

Lemma finite_of_range (x : FT) : nonnan x -> - top < E x < top -> finite x.
Proof. pose proof top_pos. destruct x as [|s| |]; try easy. simpl. destruct s; intros; lra. Qed.

Lemma is_inf_pos (x : FT) : nonnan x -> E x = top -> x = finf false.
Proof.
  intros N H. destruct (BinarySingleNaN.is_finite x) eqn:Fx.
  - pose proof (finite_E_range x Fx). lra.
  - pose proof top_pos. destruct x as [|s| |]; try easy. destruct s; [simpl in H; lra|reflexivity].
Qed.
Lemma is_inf_neg (x : FT) : nonnan x -> E x = - top -> x = finf true.
Proof.
  intros N H. destruct (BinarySingleNaN.is_finite x) eqn:Fx.
  - pose proof (finite_E_range x Fx). lra.
  - pose proof top_pos. destruct x as [|s| |]; try easy. destruct s; [reflexivity|simpl in H; lra].
Qed.

(** ** Comparison *)
Lemma fcmp_nan_l (y : FT) : fcmp (B754_nan : FT) y = None.
Proof. destruct y; reflexivity. Qed.
Lemma fcmp_nan_r (x : FT) : fcmp x (B754_nan : FT) = None.
Proof. destruct x as [|[]| |[]]; reflexivity. Qed.

Lemma fcmp_E (x y : FT) : nonnan x -> nonnan y -> fcmp x y = Some (Rcompare (E x) (E y)).
Proof.
  intros Nx Ny. pose proof top_pos as HT.
  destruct (BinarySingleNaN.is_finite x) eqn:Fx, (BinarySingleNaN.is_finite y) eqn:Fy.
  - unfold fcmp. rewrite Bcompare_correct by assumption. now rewrite !E_B2R.
  - pose proof (finite_E_range x Fx). destruct y as [|t| |]; try easy.
    destruct t; simpl E at 2.
    + rewrite Rcompare_Gt by lra. destruct x as [[]|[]| |[]]; easy.
    + rewrite Rcompare_Lt by lra. destruct x as [[]|[]| |[]]; easy.
  - pose proof (finite_E_range y Fy). destruct x as [|t| |]; try easy.
    destruct t; simpl E at 1.
    + rewrite Rcompare_Lt by lra. destruct y as [[]|[]| |[]]; easy.
    + rewrite Rcompare_Gt by lra. destruct y as [[]|[]| |[]]; easy.
  - destruct x as [|s| |]; try easy. destruct y as [|t| |]; try easy.
    simpl. destruct s, t; simpl.
    + rewrite Rcompare_Eq; easy.
    + rewrite Rcompare_Lt; [easy|lra].
    + rewrite Rcompare_Gt; [easy|lra].
    + rewrite Rcompare_Eq; easy.
Qed.

Lemma fcmp_some (x y : FT) c : fcmp x y = Some c -> nonnan x /\ nonnan y /\ Rcompare (E x) (E y) = c.
Proof.
  intros H. assert (Nx : nonnan x). { destruct x; try easy; rewrite fcmp_nan_l in H; easy. }
  assert (Ny : nonnan y). { destruct y; try easy; rewrite fcmp_nan_r in H; easy. }
  rewrite fcmp_E in H by assumption. now injection H.
Qed.

Lemma lt_true (x y : FT) : lt_of fcmp x y = true <-> nonnan x /\ nonnan y /\ E x < E y.
Proof.
  unfold lt_of. split.
  - destruct (fcmp x y) as [[]|] eqn:H; try easy. intros _. apply fcmp_some in H. destruct H as (? & ? & H).
    apply Rcompare_Lt_inv in H. auto.
  - intros (? & ? & H). rewrite fcmp_E by assumption. now rewrite Rcompare_Lt.
Qed.
Lemma gt_true (x y : FT) : gt_of fcmp x y = true <-> nonnan x /\ nonnan y /\ E y < E x.
Proof.
  unfold gt_of. split.
  - destruct (fcmp x y) as [[]|] eqn:H; try easy. intros _. apply fcmp_some in H. destruct H as (? & ? & H).
    apply Rcompare_Gt_inv in H. auto.
  - intros (? & ? & H). rewrite fcmp_E by assumption. now rewrite Rcompare_Gt.
Qed.
Lemma le_true (x y : FT) : le_of fcmp x y = true <-> nonnan x /\ nonnan y /\ E x <= E y.
Proof.
  unfold le_of. split.
  - destruct (fcmp x y) as [[]|] eqn:H; try easy; intros _; apply fcmp_some in H; destruct H as (? & ? & H).
    + apply Rcompare_Eq_inv in H. repeat split; auto. lra.
    + apply Rcompare_Lt_inv in H. repeat split; auto. lra.
  - intros (? & ? & H). rewrite fcmp_E by assumption. destruct (Rcompare_spec (E x) (E y)); try easy. lra.
Qed.
Lemma ge_true (x y : FT) : ge_of fcmp x y = true <-> nonnan x /\ nonnan y /\ E y <= E x.
Proof.
  unfold ge_of. split.
  - destruct (fcmp x y) as [[]|] eqn:H; try easy; intros _; apply fcmp_some in H; destruct H as (? & ? & H).
    + apply Rcompare_Eq_inv in H. repeat split; auto. lra.
    + apply Rcompare_Gt_inv in H. repeat split; auto. lra.
  - intros (? & ? & H). rewrite fcmp_E by assumption. destruct (Rcompare_spec (E x) (E y)); try easy. lra.
Qed.
Lemma eqb_true (x y : FT) : feqb x y = true <-> nonnan x /\ nonnan y /\ E x = E y.
Proof.
  unfold feqb, Beqb, SpecFloat.SFeqb.
  change (SpecFloat.SFcompare (B2SF x) (B2SF y)) with (fcmp x y).
  split.
  - destruct (fcmp x y) as [[]|] eqn:H; try easy; intros _; apply fcmp_some in H; destruct H as (? & ? & H).
    apply Rcompare_Eq_inv in H. auto.
  - intros (? & ? & H). rewrite fcmp_E by assumption. now rewrite Rcompare_Eq.
Qed.

Lemma not_true_false b : b <> true -> b = false. Proof. destruct b; easy. Qed.

(** Boolean comparisons of non-NaN floats as comparisons of reals. *)
Lemma lt_b (x y : FT) : nonnan x -> nonnan y -> lt_of fcmp x y = Rlt_bool (E x) (E y).
Proof. intros. apply eq_true_iff_eq. rewrite lt_true. case Rlt_bool_spec; intros; intuition (lra || easy). Qed.
Lemma gt_b (x y : FT) : nonnan x -> nonnan y -> gt_of fcmp x y = Rlt_bool (E y) (E x).
Proof. intros. apply eq_true_iff_eq. rewrite gt_true. case Rlt_bool_spec; intros; intuition (lra || easy). Qed.
Lemma le_b (x y : FT) : nonnan x -> nonnan y -> le_of fcmp x y = Rle_bool (E x) (E y).
Proof. intros. apply eq_true_iff_eq. rewrite le_true. case Rle_bool_spec; intros; intuition (lra || easy). Qed.
Lemma ge_b (x y : FT) : nonnan x -> nonnan y -> ge_of fcmp x y = Rle_bool (E y) (E x).
Proof. intros. apply eq_true_iff_eq. rewrite ge_true. case Rle_bool_spec; intros; intuition (lra || easy). Qed.
Lemma eq_b (x y : FT) : nonnan x -> nonnan y -> feqb x y = Req_bool (E x) (E y).
Proof. intros. apply eq_true_iff_eq. rewrite eqb_true. case Req_bool_spec; intros; intuition (lra || easy). Qed.

(** ** The specification orders in terms of [E] *)
Lemma flt_E (x y : FT) : flt x y <-> nonnan x /\ nonnan y /\ E x < E y.
Proof.
  pose proof top_pos as HT.
  destruct (BinarySingleNaN.is_nan x) eqn:Nx; [destruct x; easy|].
  destruct (BinarySingleNaN.is_nan y) eqn:Ny; [destruct x as [|[]| |], y as [|[]| |]; easy|].
  unfold nonnan. rewrite Nx, Ny.
  destruct (BinarySingleNaN.is_finite x) eqn:Fx, (BinarySingleNaN.is_finite y) eqn:Fy.
  - rewrite !E_B2R by assumption. destruct x, y; try easy; simpl; tauto.
  - pose proof (finite_E_range x Fx). destruct y as [|t| |]; try easy.
    destruct t; simpl E; (split; [intros|intros (_ & _ & ?)]); destruct x as [|[]| |]; simpl in *; try easy; repeat split; try lra.
  - pose proof (finite_E_range y Fy). destruct x as [|t| |]; try easy.
    destruct t; simpl E; (split; [intros|intros (_ & _ & ?)]); destruct y as [|[]| |]; simpl in *; try easy; repeat split; try lra.
  - destruct x as [|s| |]; try easy. destruct y as [|t| |]; try easy.
    destruct s, t; simpl; intuition (lra || easy).
Qed.
Lemma feq_E (x y : FT) : feq x y <-> nonnan x /\ nonnan y /\ E x = E y.
Proof.
  pose proof top_pos as HT.
  destruct (BinarySingleNaN.is_nan x) eqn:Nx; [destruct x; easy|].
  destruct (BinarySingleNaN.is_nan y) eqn:Ny; [destruct x as [|[]| |], y as [|[]| |]; easy|].
  unfold nonnan. rewrite Nx, Ny.
  destruct (BinarySingleNaN.is_finite x) eqn:Fx, (BinarySingleNaN.is_finite y) eqn:Fy.
  - rewrite !E_B2R by assumption. destruct x, y; try easy; simpl; tauto.
  - pose proof (finite_E_range x Fx). destruct y as [|t| |]; try easy.
    destruct t; simpl E; (split; [intros|intros (_ & _ & ?)]); destruct x as [|[]| |]; simpl in *; try easy; repeat split; try lra.
  - pose proof (finite_E_range y Fy). destruct x as [|t| |]; try easy.
    destruct t; simpl E; (split; [intros|intros (_ & _ & ?)]); destruct y as [|[]| |]; simpl in *; try easy; repeat split; try lra.
  - destruct x as [|s| |]; try easy. destruct y as [|t| |]; try easy.
    destruct s, t; simpl; intuition (lra || easy).
Qed.
Lemma fle_E (x y : FT) : fle x y <-> nonnan x /\ nonnan y /\ E x <= E y.
Proof.
  unfold fle. rewrite flt_E, feq_E. split.
  - intros [(?&?&?)|(?&?&?)]; repeat split; auto; lra.
  - intros (?&?&[|]); [left|right]; auto.
Qed.

(** [below]/[above] in terms of [E]. *)
Lemma below_E (x : FT) r : nonnan x -> x <> finf false -> E x <= r -> below x r.
Proof. destruct x as [|s| |]; try easy. destruct s; easy. Qed.
Lemma above_E (x : FT) r : nonnan x -> x <> finf true -> r <= E x -> above x r.
Proof. destruct x as [|s| |]; try easy. destruct s; easy. Qed.
Lemma below_inv (x : FT) r : below x r -> nonnan x /\ x <> finf false /\ (x = finf true \/ (finite x /\ E x <= r)).
Proof. destruct x as [|s| |]; simpl; intros H; try contradiction; try subst s;
  (split; [reflexivity|split; [discriminate|]]); try (left; reflexivity); (right; split; [reflexivity|exact H]). Qed.
Lemma above_inv (x : FT) r : above x r -> nonnan x /\ x <> finf true /\ (x = finf false \/ (finite x /\ r <= E x)).
Proof. destruct x as [|s| |]; simpl; intros H; try contradiction; try subst s;
  (split; [reflexivity|split; [discriminate|]]); try (left; reflexivity); (right; split; [reflexivity|exact H]). Qed.
Lemma below_trans (x : FT) r r' : below x r -> r <= r' -> below x r'.
Proof. destruct x; simpl; auto; lra. Qed.
Lemma above_trans (x : FT) r r' : above x r -> r' <= r -> above x r'.
Proof. destruct x; simpl; auto; lra. Qed.
Lemma below_finite (x : FT) r : finite x -> (below x r <-> B2R x <= r).
Proof. destruct x; easy. Qed.
Lemma above_finite (x : FT) r : finite x -> (above x r <-> r <= B2R x).
Proof. destruct x; easy. Qed.
Lemma below_le (x y : FT) r : E x <= E y -> nonnan x -> below y r -> below x r.
Proof.
  intros H Nx Hy. apply below_inv in Hy. pose proof top_pos. pose proof (E_range x). destruct Hy as (Ny & Hy & [->|[Fy Hy']]).
  - simpl in H. rewrite (is_inf_neg x Nx) by lra. reflexivity.
  - apply below_E; auto; [|lra]. intros ->. simpl in H. pose proof (finite_E_range y Fy). lra.
Qed.
Lemma above_ge (x y : FT) r : E y <= E x -> nonnan x -> above y r -> above x r.
Proof.
  intros H Nx Hy. apply above_inv in Hy. pose proof top_pos. pose proof (E_range x). destruct Hy as (Ny & Hy & [->|[Fy Hy']]).
  - simpl in H. rewrite (is_inf_pos x Nx) by lra. reflexivity.
  - apply above_E; auto; [|lra]. intros ->. simpl in H. pose proof (finite_E_range y Fy). lra.
Qed.

(** ** Rounding: [Rnd z r] says the float [z] is the IEEE result for the exact real [r]. *)
Definition clampE (r : R) : R := Rmax (- top) (Rmin top r).
Definition Rnd (z : FT) (r : R) : Prop := nonnan z /\ E z = clampE (rnd r).

Lemma rnd_le r s : r <= s -> rnd r <= rnd s.
Proof. apply round_le; [apply valid_fx|apply valid_rnd_N]. Qed.
Lemma rnd_id r : generic_format radix2 fx r -> rnd r = r.
Proof. apply round_generic, valid_rnd_N. Qed.
Lemma rnd_E (x : FT) : rnd (E x) = E x.
Proof. apply rnd_id, generic_E. Qed.
Lemma rnd_0 : rnd 0 = 0. Proof. apply round_0, valid_rnd_N. Qed.
Lemma rnd_format r : generic_format radix2 fx (rnd r).
Proof. apply generic_format_round; [apply valid_fx|apply valid_rnd_N]. Qed.

Lemma clampE_le r s : r <= s -> clampE r <= clampE s.
Proof. intros. unfold clampE. apply Rle_max_compat_l. apply Rle_min_compat_l. assumption. Qed.
Lemma clampE_range r : - top <= r <= top -> clampE r = r.
Proof. intros. unfold clampE. rewrite Rmin_right, Rmax_right; lra. Qed.
Lemma clampE_bound r : - top <= clampE r <= top.
Proof. pose proof top_pos. unfold clampE. split. apply Rmax_l. apply Rmax_lub; [lra|apply Rmin_l]. Qed.
Lemma clampE_E (x : FT) : clampE (E x) = E x.
Proof. apply clampE_range, E_range. Qed.

Lemma Rnd_mono (z w : FT) r s : Rnd z r -> Rnd w s -> r <= s -> E z <= E w.
Proof. intros [_ ->] [_ ->] H. apply clampE_le, rnd_le, H. Qed.

Lemma Rnd_E (x : FT) : nonnan x -> Rnd x (E x).
Proof. intros. split; auto. now rewrite rnd_E, clampE_E. Qed.

Lemma Rnd_ge (y z : FT) r : Rnd z r -> E y <= r -> E y <= E z.
Proof. intros [_ ->] H. rewrite <- (clampE_E y), <- (rnd_E y). apply clampE_le, rnd_le, H. Qed.
Lemma Rnd_le (y z : FT) r : Rnd z r -> r <= E y -> E z <= E y.
Proof. intros [_ ->] H. rewrite <- (clampE_E y), <- (rnd_E y). apply clampE_le, rnd_le, H. Qed.

Lemma Rnd_finite (z : FT) r : Rnd z r -> finite z -> B2R z = rnd r.
Proof.
  intros [N H] F. pose proof (finite_E_range z F). rewrite <- E_B2R by assumption.
  rewrite H in *. unfold clampE in *. pose proof top_pos.
  unfold Rmax, Rmin in *. destruct (Rle_dec top (rnd r)), (Rle_dec _ _); lra.
Qed.

Lemma Rnd_of_finite (z : FT) r : finite z -> B2R z = rnd r -> Rnd z r.
Proof.
  intros F H. split; [now apply nonnan_of_finite|]. rewrite E_B2R by assumption. rewrite <- H.
  rewrite clampE_range; auto. pose proof (finite_E_range z F). rewrite <- E_B2R by assumption. lra.
Qed.

Lemma Rnd_overflow (z : FT) r s : top <= Rabs (rnd r) -> (r <> 0 -> s = Rlt_bool r 0) -> z = finf s -> Rnd z r.
Proof.
  intros Hb Hs ->. pose proof top_pos. split; [reflexivity|].
  assert (Hr0 : r <> 0). { intros ->. rewrite rnd_0, Rabs_R0 in Hb. lra. }
  rewrite Hs by assumption. simpl.
  unfold clampE. destruct (Rlt_bool_spec r 0).
  - assert (rnd r <= 0) by (rewrite <- rnd_0; apply rnd_le; lra).
    rewrite Rabs_left1 in Hb by assumption. rewrite Rmin_right, Rmax_left; lra.
  - assert (0 <= rnd r) by (rewrite <- rnd_0; apply rnd_le; lra).
    rewrite Rabs_pos_eq in Hb by assumption. rewrite Rmin_left, Rmax_right; lra.
Qed.

Lemma finite_sign (x : FT) : finite x -> (0 < B2R x -> Bsign x = false) /\ (B2R x < 0 -> Bsign x = true).
Proof.
  destruct x as [|s| |s m e H]; try easy; intros _; simpl; [split; lra|].
  split; intros Hp; destruct s; try reflexivity; exfalso.
  - assert (F2R (Float radix2 (Z.neg m) e) < 0) by (apply F2R_lt_0; simpl; lia). simpl in Hp. lra.
  - assert (0 < F2R (Float radix2 (Z.pos m) e)) by (apply F2R_gt_0; simpl; lia). simpl in Hp. lra.
Qed.

Lemma sign_le (x : FT) : finite x -> (Bsign x = false -> 0 <= B2R x) /\ (Bsign x = true -> B2R x <= 0).
Proof.
  intros F. destruct (finite_sign x F) as [H1 H2]. split; intros H.
  - apply Rnot_lt_le. intros H3. rewrite H2 in H by assumption. easy.
  - apply Rnot_lt_le. intros H3. rewrite H1 in H by assumption. easy.
Qed.

Lemma overflow_inf (z : FT) s : B2SF z = binary_overflow (prec f) (emax f) mode_NE s -> z = finf s.
Proof. intros H. apply B2SF_inj. exact H. Qed.

Lemma fadd_Rnd (x y : FT) : finite x -> finite y -> Rnd (fadd x y) (B2R x + B2R y).
Proof.
  intros Fx Fy. pose proof (Bplus_correct (prec f) (emax f) _ _ mode_NE x y Fx Fy) as H.
  simpl round_mode in H.
  destruct (Rlt_bool_spec (Rabs (rnd (B2R x + B2R y))) top) as [Hlt|Hge].
  - destruct H as (H1 & H2 & _). now apply Rnd_of_finite.
  - destruct H as [H1 H2]. apply (Rnd_overflow _ _ (Bsign x)); auto; [|now apply overflow_inf].
    intros Hnz. destruct (sign_le x Fx) as [Sx Sx'], (sign_le y Fy) as [Sy Sy']. rewrite <- H2 in *.
    destruct (Bsign x); destruct (Rlt_bool_spec (B2R x + B2R y) 0); try reflexivity; exfalso.
    + specialize (Sx' eq_refl). specialize (Sy' eq_refl). lra.
    + specialize (Sx eq_refl). specialize (Sy eq_refl). lra.
Qed.

Lemma fneg_E (x : FT) : E (fneg x) = - E x.
Proof. apply E_opp. Qed.
Lemma fneg_finite (x : FT) : finite (fneg x) <-> finite x.
Proof. unfold finite, fneg. now rewrite is_finite_Bopp. Qed.
Lemma fneg_nonnan (x : FT) : nonnan (fneg x) <-> nonnan x.
Proof. destruct x; easy. Qed.
Lemma fneg_B2R (x : FT) : B2R (fneg x) = - B2R x.
Proof. apply B2R_Bopp. Qed.

Lemma fsub_fadd (x y : FT) : finite x -> finite y -> Rnd (fsub x y) (B2R x - B2R y).
Proof.
  intros Fx Fy. pose proof (Bminus_correct (prec f) (emax f) _ _ mode_NE x y Fx Fy) as H.
  simpl round_mode in H.
  destruct (Rlt_bool_spec (Rabs (rnd (B2R x - B2R y))) top) as [Hlt|Hge].
  - destruct H as (H1 & H2 & _). now apply Rnd_of_finite.
  - destruct H as [H1 H2]. apply (Rnd_overflow _ _ (Bsign x)); auto; [|now apply overflow_inf].
    intros Hnz. destruct (sign_le x Fx) as [Sx Sx'], (sign_le y Fy) as [Sy Sy'].
    destruct (Bsign x), (Bsign y); try discriminate; destruct (Rlt_bool_spec (B2R x - B2R y) 0); try reflexivity; exfalso.
    + specialize (Sx' eq_refl). specialize (Sy eq_refl). lra.
    + specialize (Sx eq_refl). specialize (Sy' eq_refl). lra.
Qed.
Notation fsub_Rnd := fsub_fadd.

Lemma fmul_Rnd (x y : FT) : finite x -> finite y -> Rnd (fmul x y) (B2R x * B2R y).
Proof.
  intros Fx Fy. pose proof (Bmult_correct (prec f) (emax f) _ _ mode_NE x y) as H.
  simpl round_mode in H.
  destruct (Rlt_bool_spec (Rabs (rnd (B2R x * B2R y))) top) as [Hlt|Hge].
  - destruct H as (H1 & H2 & _). rewrite Fx, Fy in H2. now apply Rnd_of_finite.
  - apply (Rnd_overflow _ _ (xorb (Bsign x) (Bsign y))); auto; [|now apply overflow_inf].
    intros Hnz. destruct (sign_le x Fx) as [Sx Sx'], (sign_le y Fy) as [Sy Sy'].
    destruct (Bsign x), (Bsign y); simpl; destruct (Rlt_bool_spec (B2R x * B2R y) 0); try reflexivity; exfalso;
      repeat match goal with H : ?a = ?a -> _ |- _ => specialize (H eq_refl) | H : true = false -> _ |- _ => clear H | H : false = true -> _ |- _ => clear H end; nra.
Qed.

Lemma fdiv_Rnd (x y : FT) : finite x -> finite y -> B2R y <> 0 -> Rnd (fdiv x y) (B2R x / B2R y).
Proof.
  intros Fx Fy Hy. pose proof (Bdiv_correct (prec f) (emax f) _ _ mode_NE x y Hy) as H.
  simpl round_mode in H.
  destruct (Rlt_bool_spec (Rabs (rnd (B2R x / B2R y))) top) as [Hlt|Hge].
  - destruct H as (H1 & H2 & _). rewrite Fx in H2. now apply Rnd_of_finite.
  - apply (Rnd_overflow _ _ (xorb (Bsign x) (Bsign y))); auto; [|now apply overflow_inf].
    intros Hnz. destruct (sign_le x Fx) as [Sx Sx'], (sign_le y Fy) as [Sy Sy'].
    assert (Hinv : 0 < B2R y -> 0 < / B2R y) by apply Rinv_0_lt_compat.
    assert (Hinv' : B2R y < 0 -> / B2R y < 0) by apply Rinv_lt_0_compat.
    unfold Rdiv in *.
    destruct (Bsign x), (Bsign y); simpl; destruct (Rlt_bool_spec (B2R x * / B2R y) 0); try reflexivity; exfalso;
      repeat match goal with H : ?a = ?a -> _ |- _ => specialize (H eq_refl) | H : true = false -> _ |- _ => clear H | H : false = true -> _ |- _ => clear H end;
      (destruct (Rdichotomy _ _ Hy) as [Hn|Hp]; [try (specialize (Hinv' Hn)); try lra | try (specialize (Hinv Hp)); try lra]); nra.
Qed.

Lemma fsqrt_Rnd (x : FT) : finite x -> 0 <= B2R x -> Rnd (fsqrt x) (sqrt (B2R x)) /\ finite (fsqrt x).
Proof.
  intros Fx Hx. pose proof (Bsqrt_correct (prec f) (emax f) _ _ mode_NE x) as (H1 & H2 & _).
  simpl round_mode in H1.
  assert (finite (fsqrt x)).
  { unfold finite, fsqrt. rewrite H2. destruct x as [| | |s m e HH]; try easy. destruct s; [|reflexivity].
    exfalso. assert (F2R (Float radix2 (Z.neg m) e) < 0) by (apply F2R_lt_0; simpl; lia). simpl in Hx. lra. }
  split; [|assumption]. apply Rnd_of_finite; [assumption|exact H1].
Qed.

(** ** Predecessor and successor *)
Lemma next_down_nonnan (x : FT) : nonnan x -> nonnan (f_next_down f x).
Proof.
  intros N. rewrite f_next_down_Bpred. unfold Bpred. apply fneg_nonnan.
  destruct (Bopp x) as [|s| |] eqn:Hx.
  - reflexivity.
  - destruct s; reflexivity.
  - destruct x; easy.
  - rewrite <- Hx. apply E_Bsucc; [now rewrite is_nan_Bopp|]. rewrite Hx. easy.
Qed.
Lemma next_up_nonnan (x : FT) : nonnan x -> nonnan (f_next_up f x).
Proof.
  intros N. rewrite f_next_up_Bsucc. destruct x as [|s| |] eqn:Hx.
  - reflexivity.
  - destruct s; reflexivity.
  - easy.
  - rewrite <- Hx. apply E_Bsucc; [now rewrite Hx|]. rewrite Hx. easy.
Qed.
Lemma next_up_E (x : FT) : nonnan x -> x <> finf false -> E (f_next_up f x) = succ radix2 fx (E x).
Proof. intros. rewrite f_next_up_Bsucc. now apply E_Bsucc. Qed.
Lemma next_down_E (x : FT) : nonnan x -> x <> finf true -> E (f_next_down f x) = pred radix2 fx (E x).
Proof.
  intros. rewrite f_next_down_Bpred. unfold Bpred. rewrite E_opp.
  destruct (E_Bsucc (Bopp x)) as (_ & -> & _).
  - now rewrite is_nan_Bopp.
  - intros Hx. apply H0. rewrite <- (Bopp_involutive _ _ x), Hx. reflexivity.
  - rewrite E_opp. unfold pred. reflexivity.
Qed.
Lemma next_up_inf : f_next_up f (finf false) = finf false.
Proof. now rewrite f_next_up_Bsucc. Qed.
Lemma next_down_inf : f_next_down f (finf true) = finf true.
Proof. now rewrite f_next_down_Bpred. Qed.

Lemma next_down_not_pinf (x : FT) : nonnan x -> f_next_down f x <> finf false.
Proof.
  intros N H. destruct (BinarySingleNaN.is_finite x) eqn:Fx.
  - assert (E (f_next_down f x) < top).
    { rewrite next_down_E; auto. 2: destruct x; easy.
      apply Rle_lt_trans with (E x). apply pred_le_id. apply finite_E_range; assumption. }
    rewrite H in H0. simpl in H0. lra.
  - destruct x as [|s| |]; try easy. destruct s.
    + change (B754_infinity true) with (finf (f := f) true) in H. rewrite next_down_inf in H. easy.
    + assert (E (f_next_down f (finf false)) < top).
      { rewrite next_down_E; auto; [|easy]. simpl. apply pred_lt_id. pose proof top_pos. lra. }
      change (B754_infinity false) with (finf (f := f) false) in H. rewrite H in H0. simpl in H0. lra.
Qed.
Lemma next_up_not_ninf (x : FT) : nonnan x -> f_next_up f x <> finf true.
Proof.
  intros N H. destruct (BinarySingleNaN.is_finite x) eqn:Fx.
  - assert (- top < E (f_next_up f x)).
    { rewrite next_up_E; auto. 2: destruct x; easy.
      apply Rlt_le_trans with (E x). apply finite_E_range; assumption. apply succ_ge_id. }
    rewrite H in H0. simpl in H0. lra.
  - destruct x as [|s| |]; try easy. destruct s.
    + assert (- top < E (f_next_up f (finf true))).
      { rewrite next_up_E; auto; [|easy]. simpl. apply succ_gt_id. pose proof top_pos. lra. }
      change (B754_infinity true) with (finf (f := f) true) in H. rewrite H in H0. simpl in H0. lra.
    + change (B754_infinity false) with (finf (f := f) false) in H. rewrite next_up_inf in H. easy.
Qed.

Lemma next_down_mono (x y : FT) : nonnan x -> nonnan y -> E x <= E y -> E (f_next_down f x) <= E (f_next_down f y).
Proof.
  intros Nx Ny H. pose proof (E_range (f_next_down f y)). pose proof top_pos.
  destruct (Req_dec (E x) (- top)) as [Hx|Hx].
  - rewrite (is_inf_neg x Nx Hx), next_down_inf. simpl. lra.
  - pose proof (E_range x).
    assert (x <> finf true) by (intros ->; simpl in Hx; lra).
    assert (y <> finf true) by (intros ->; simpl in H; lra).
    rewrite !next_down_E by assumption. apply pred_le; try apply generic_E; try assumption; try apply valid_fx.
Qed.
Lemma next_up_mono (x y : FT) : nonnan x -> nonnan y -> E x <= E y -> E (f_next_up f x) <= E (f_next_up f y).
Proof.
  intros Nx Ny H. pose proof (E_range (f_next_up f x)). pose proof top_pos.
  destruct (Req_dec (E y) top) as [Hx|Hx].
  - rewrite (is_inf_pos y Ny Hx), next_up_inf. simpl. lra.
  - pose proof (E_range y).
    assert (y <> finf false) by (intros ->; simpl in Hx; lra).
    assert (x <> finf false) by (intros ->; simpl in H; lra).
    rewrite !next_up_E by assumption. apply succ_le; try apply generic_E; try assumption; try apply valid_fx.
Qed.
Lemma next_down_le (x : FT) : nonnan x -> E (f_next_down f x) <= E x.
Proof.
  intros N. destruct (Req_dec (E x) (- top)) as [Hx|Hx].
  - rewrite (is_inf_neg x N Hx), next_down_inf. lra.
  - rewrite next_down_E; auto. apply pred_le_id. intros ->. now apply Hx.
Qed.
Lemma next_up_ge (x : FT) : nonnan x -> E x <= E (f_next_up f x).
Proof.
  intros N. destruct (Req_dec (E x) top) as [Hx|Hx].
  - rewrite (is_inf_pos x N Hx), next_up_inf. lra.
  - rewrite next_up_E; auto. apply succ_ge_id. intros ->. now apply Hx.
Qed.

Lemma pred_rnd_le r : pred radix2 fx (rnd r) <= r.
Proof.
  destruct (round_DN_or_UP radix2 fx ZnearestE r) as [H|H]; rewrite H.
  - apply Rle_trans with (round radix2 fx Zfloor r); [apply pred_le_id|]. apply round_DN_pt. apply valid_fx.
  - apply Rle_trans with (round radix2 fx Zfloor r); [apply pred_UP_le_DN, valid_fx|]. apply round_DN_pt. apply valid_fx.
Qed.
Lemma succ_rnd_ge r : r <= succ radix2 fx (rnd r).
Proof.
  destruct (round_DN_or_UP radix2 fx ZnearestE r) as [H|H]; rewrite H.
  - apply Rle_trans with (round radix2 fx Zceil r); [apply round_UP_pt, valid_fx|]. apply UP_le_succ_DN, valid_fx.
  - apply Rle_trans with (round radix2 fx Zceil r); [apply round_UP_pt, valid_fx|]. apply succ_ge_id.
Qed.

(** The one-ulp widening of a rounded result brackets the exact value. *)
Lemma down_below (z : FT) r : Rnd z r -> below (f_next_down f z) r.
Proof.
  intros [N H]. pose proof top_pos.
  destruct (Req_dec (E z) (- top)) as [Hz|Hz].
  - rewrite (is_inf_neg z N Hz), next_down_inf. reflexivity.
  - apply below_E.
    + now apply next_down_nonnan.
    + now apply next_down_not_pinf.
    + rewrite next_down_E; auto; [|intros ->; now apply Hz].
      apply Rle_trans with (pred radix2 fx (rnd r)); [|apply pred_rnd_le].
      apply pred_le; [apply valid_fx|apply generic_E|apply rnd_format|].
      rewrite H in *. unfold clampE in *. unfold Rmax, Rmin in *.
      destruct (Rle_dec top (rnd r)), (Rle_dec _ _); lra.
Qed.
Lemma up_above (z : FT) r : Rnd z r -> above (f_next_up f z) r.
Proof.
  intros [N H]. pose proof top_pos.
  destruct (Req_dec (E z) top) as [Hz|Hz].
  - rewrite (is_inf_pos z N Hz), next_up_inf. reflexivity.
  - apply above_E.
    + now apply next_up_nonnan.
    + now apply next_up_not_ninf.
    + rewrite next_up_E; auto; [|intros ->; now apply Hz].
      apply Rle_trans with (succ radix2 fx (rnd r)); [apply succ_rnd_ge|].
      apply succ_le; [apply valid_fx|apply rnd_format|apply generic_E|].
      rewrite H in *. unfold clampE in *. unfold Rmax, Rmin in *.
      destruct (Rle_dec top (rnd r)), (Rle_dec _ _); lra.
Qed.

(** Tightness: it is at most one step below any float that is a lower bound. *)
Lemma down_tight (z y : FT) r : Rnd z r -> below y r -> fle (f_next_down f y) (f_next_down f z).
Proof.
  intros HR Hy. destruct (below_inv _ _ Hy) as (Ny & Hy1 & Hy2). destruct HR as [N H].
  apply fle_E. split; [now apply next_down_nonnan|]. split; [now apply next_down_nonnan|].
  apply next_down_mono; auto.
  destruct Hy2 as [->|[Fy Hle]].
  - simpl. apply E_range.
  - apply Rnd_ge with r; auto. split; auto.
Qed.
Lemma up_tight (z y : FT) r : Rnd z r -> above y r -> fle (f_next_up f z) (f_next_up f y).
Proof.
  intros HR Hy. destruct (above_inv _ _ Hy) as (Ny & Hy1 & Hy2). destruct HR as [N H].
  apply fle_E. split; [now apply next_up_nonnan|]. split; [now apply next_up_nonnan|].
  apply next_up_mono; auto.
  destruct Hy2 as [->|[Fy Hle]].
  - simpl. apply E_range.
  - apply Rnd_le with r; auto. split; auto.
Qed.

End F.
Notation fsub_Rnd := fsub_fadd.
