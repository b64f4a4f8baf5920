(** Bit patterns: [to_bits], [of_bits] and the code's [next_up]/[next_down] computed on
    bit integers agree with Flocq's [Bsucc]/[Bpred]. *)
From Coq Require Import ZArith Reals Bool Lia Lra Psatz.
From Flocq Require Import Core BinarySingleNaN.
From Flocq Require Binary Bits.
From Verif.Model Require Import FloatBase Scalar Float.

Open Scope Z_scope.

Section B.
Context {f : fmt}.
Notation FT := (float f).
Notation emin := (SpecFloat.emin (prec f) (emax f)).
Notation fx := (SpecFloat.fexp (prec f) (emax f)).

(** Order embedding of the non-NaN floats in R: the infinities sit at +-2^emax. *)
Definition E (x : FT) : R :=
  match x with
  | B754_infinity s => if s then Ropp (bpow radix2 (emax f)) else bpow radix2 (emax f)
  | _ => B2R x
  end.

Definition decode (s : bool) (m e : Z) : SpecFloat.spec_float :=
  if e =? 0 then
    match m with 0 => SpecFloat.S754_zero s | Zpos p => SpecFloat.S754_finite s p emin | _ => SpecFloat.S754_nan end
  else if e =? 2 ^ ew f - 1 then
    match m with 0 => SpecFloat.S754_infinity s | _ => SpecFloat.S754_nan end
  else match m + 2 ^ mw f with Zpos p => SpecFloat.S754_finite s p (e + emin - 1) | _ => SpecFloat.S754_nan end.

Notation join := (Bits.join_bits (mw f) (ew f)).
Definition inrange (m e : Z) := 0 <= m < 2 ^ mw f /\ 0 <= e < 2 ^ ew f.

Lemma two_mw_pos : 0 < 2 ^ mw f. Proof. destruct f; reflexivity. Qed.
Lemma two_mw_gt1 : 1 < 2 ^ mw f. Proof. destruct f; reflexivity. Qed.
Lemma two_ew_gt : 2 < 2 ^ ew f. Proof. destruct f; reflexivity. Qed.

Lemma of_bits_join s m e : inrange m e -> B2SF (of_bits (f := f) (join s m e)) = decode s m e.
Proof.
  intros [Hm He]. unfold of_bits.
  rewrite Binary.B2SF_B2BSN. unfold Bits.binary_float_of_bits. rewrite Binary.B2SF_FF2B.
  unfold Bits.binary_float_of_bits_aux.
  rewrite Bits.split_join_bits by assumption. cbv zeta. unfold decode.
  rewrite <- !Zeq_is_eq_bool || idtac.
  change (Zbool.Zeq_bool e 0) with (Zeq_bool e 0).
  fold (prec f) (emax f).
  replace (Zeq_bool e 0) with (e =? 0) by (apply eq_true_iff_eq; rewrite Z.eqb_eq, <- Zeq_is_eq_bool; tauto).
  replace (Zeq_bool e (2 ^ ew f - 1)) with (e =? 2 ^ ew f - 1) by (apply eq_true_iff_eq; rewrite Z.eqb_eq, <- Zeq_is_eq_bool; tauto).
  destruct (e =? 0).
  - destruct m; reflexivity.
  - destruct (e =? _); [destruct m; reflexivity|].
    destruct (m + 2 ^ mw f); reflexivity.
Qed.

Lemma bits_repr (x : FT) : exists s m e, inrange m e /\ to_bits x = join s m e /\ B2SF x = decode s m e.
Proof.
  destruct (BinarySingleNaN.is_nan x) eqn:Nx.
  - destruct x; try discriminate. exists false, (2 ^ (mw f - 1)), (2 ^ ew f - 1).
    split; [unfold inrange; destruct f; (split; split); vm_compute; easy|]. split; [reflexivity|].
    unfold decode. destruct f; reflexivity.
  - pose (y := Binary.BSN2B' _ _ x Nx).
    assert (Hb : Bits.bits_of_binary_float (mw f) (ew f) y = to_bits x).
    { unfold y. destruct x; try discriminate; reflexivity. }
    pose proof (Bits.bits_of_binary_float_range (mw f) (ew f) (mw_pos f) (ew_pos f) y) as Hr.
    pose proof (Bits.join_split_bits (mw f) (ew f) (mw_pos f) (ew_pos f) _ Hr) as Hj.
    rewrite Hb in *.
    destruct (Bits.split_bits (mw f) (ew f) (to_bits x)) as [[s m] e] eqn:Hs.
    assert (Hin : inrange m e).
    { unfold Bits.split_bits in Hs. injection Hs as <- <- <-.
      split; apply Z.mod_pos_bound; [apply two_mw_pos | pose proof two_ew_gt; lia]. }
    exists s, m, e. split; [exact Hin|]. split; [symmetry; exact Hj|].
    rewrite <- of_bits_join by exact Hin. rewrite Hj.
    f_equal. rewrite <- Hb. unfold of_bits.
    rewrite Bits.binary_float_of_bits_of_binary_float.
    unfold y. symmetry. apply Binary.B2BSN_BSN2B'.
Qed.

(** Mantissa and exponent encoded by the fields. *)
Definition Mf (m e : Z) := if e =? 0 then m else m + 2 ^ mw f.
Definition Xf (e : Z) := if e =? 0 then emin else e + emin - 1.
Definition val (m e : Z) : R := F2R (Float radix2 (Mf m e) (Xf e)).

Lemma emin_eq : emin = 3 - emax f - prec f. Proof. reflexivity. Qed.
Lemma ew_emax : 2 ^ ew f = 2 * emax f. Proof. destruct f; reflexivity. Qed.

Lemma val_inf : val 0 (2 ^ ew f - 1) = bpow radix2 (emax f).
Proof.
  unfold val, Mf, Xf. replace (2 ^ ew f - 1 =? 0) with false by (symmetry; apply Z.eqb_neq; pose proof two_ew_gt; lia).
  rewrite Z.add_0_l. change (2 ^ mw f) with (Zpower radix2 (mw f)).
  unfold F2R, Fnum, Fexp. rewrite IZR_Zpower by (pose proof (mw_pos f); pose proof (ew_pos f); lia).
  rewrite <- bpow_plus. f_equal. rewrite ew_emax, emin_eq. unfold prec. ring.
Qed.

Lemma decode_notnan m e s : decode s m e <> SpecFloat.S754_nan -> e = 2 ^ ew f - 1 -> m = 0.
Proof.
  unfold decode. intros H ->. replace (2 ^ ew f - 1 =? 0) with false in H by (symmetry; apply Z.eqb_neq; pose proof two_ew_gt; lia).
  rewrite Z.eqb_refl in H. destruct m; try easy.
Qed.

Lemma E_decode (x : FT) s m e : inrange m e -> B2SF x = decode s m e -> BinarySingleNaN.is_nan x = false ->
  E x = (if s then - val m e else val m e)%R /\ Bsign x = s.
Proof.
  intros [Hm He] Hx Nx.
  assert (Hd : decode s m e <> SpecFloat.S754_nan) by (rewrite <- Hx; destruct x; easy).
  pose proof (decode_notnan _ _ _ Hd) as Hz.
  unfold decode in Hx.
  unfold val, Mf, Xf.
  destruct (Z.eqb_spec e 0).
  - destruct m as [|p|p]; [| |lia].
    + destruct x; try discriminate. injection Hx as ->. simpl. unfold F2R; simpl. destruct s; split; auto; lra.
    + destruct x; try discriminate. injection Hx as -> -> ->. simpl. split; auto.
      rewrite F2R_cond_Zopp. destruct s; reflexivity.
  - destruct (Z.eqb_spec e (2 ^ ew f - 1)) as [->|].
    + rewrite Hz in * by reflexivity. destruct x; try discriminate. injection Hx as ->. split; [|reflexivity].
      pose proof val_inf as Hv. unfold val, Mf, Xf in Hv.
      destruct (Z.eqb_spec (2 ^ ew f - 1) 0); [lia|]. rewrite Hv. reflexivity.
    + pose proof two_mw_pos.
      destruct (m + 2 ^ mw f) as [|p|p] eqn:Hp; [lia| |lia].
      destruct x; try discriminate. injection Hx as -> -> ->. simpl. split; auto.
      rewrite F2R_cond_Zopp. destruct s; reflexivity.
Qed.

Definition notnan (m e : Z) := e = 2 ^ ew f - 1 -> m = 0.

Lemma of_bits_E s m e : inrange m e -> notnan m e ->
  BinarySingleNaN.is_nan (of_bits (f := f) (join s m e)) = false /\
  E (of_bits (f := f) (join s m e)) = (if s then - val m e else val m e)%R /\
  Bsign (of_bits (f := f) (join s m e)) = s.
Proof.
  intros Hr Hn. pose proof (of_bits_join s m e Hr) as Hx.
  assert (Nx : BinarySingleNaN.is_nan (of_bits (f := f) (join s m e)) = false).
  { assert (decode s m e <> SpecFloat.S754_nan).
    { destruct Hr as [Hm He]. unfold decode. destruct (e =? 0); [destruct m; try easy; lia|].
      destruct (Z.eqb_spec e (2 ^ ew f - 1)); [rewrite Hn by assumption; easy|].
      pose proof two_mw_pos. destruct (m + 2 ^ mw f) eqn:?; try lia; easy. }
    rewrite <- Hx in H. destruct (of_bits _); try reflexivity. now elim H. }
  split; [exact Nx|]. now apply E_decode.
Qed.

Lemma abs_E_le (x : FT) : (Rabs (E x) <= bpow radix2 (emax f))%R.
Proof.
  destruct x as [s|s| |s m e H]; simpl.
  - rewrite Rabs_R0. apply bpow_ge_0.
  - destruct s; [rewrite Rabs_Ropp|]; rewrite Rabs_pos_eq by apply bpow_ge_0; apply Rle_refl.
  - rewrite Rabs_R0. apply bpow_ge_0.
  - left. exact (abs_B2R_lt_emax _ _ (B754_finite s m e H)).
Qed.

Lemma E_fin_lt (x : FT) : BinarySingleNaN.is_finite x = true -> (Rabs (E x) < bpow radix2 (emax f))%R.
Proof.
  intros H. replace (E x) with (B2R x) by (destruct x; easy). apply abs_B2R_lt_emax.
Qed.

Lemma generic_bpow_emax : generic_format radix2 fx (bpow radix2 (emax f)).
Proof.
  apply generic_format_bpow. unfold SpecFloat.fexp, SpecFloat.emin.
  pose proof (prec_gt_0_f f). unfold Prec_gt_0 in *. pose proof (prec_emax f). lia.
Qed.

Lemma generic_E (x : FT) : generic_format radix2 fx (E x).
Proof.
  destruct x as [s|s| |s m e H].
  - apply generic_format_0.
  - destruct s; [apply generic_format_opp|]; apply generic_bpow_emax.
  - apply generic_format_0.
  - exact (generic_format_B2R _ _ (B754_finite s m e H)).
Qed.

Lemma generic_val m e : inrange m e -> notnan m e -> generic_format radix2 fx (val m e).
Proof.
  intros Hr Hn. destruct (of_bits_E false m e Hr Hn) as (_ & <- & _). apply generic_E.
Qed.

Lemma val_nonneg m e : 0 <= m -> (0 <= val m e)%R.
Proof.
  intros Hm. unfold val. apply F2R_ge_0. simpl. unfold Mf. pose proof two_mw_pos. destruct (e =? 0); lia.
Qed.

Lemma ulp_val m e : inrange m e -> e < 2 ^ ew f - 1 -> ulp radix2 fx (val m e) = bpow radix2 (Xf e).
Proof.
  intros Hr He. pose proof (of_bits_join false m e Hr) as Hx.
  assert (Hn : notnan m e) by (intro; lia).
  destruct (of_bits_E false m e Hr Hn) as (_ & HE & _).
  rewrite <- HE. clear HE.
  destruct (of_bits (join false m e)) as [s|s| |s p e' H]; unfold decode in Hx; simpl in Hx.
  - (* zero *)
    destruct Hr. pose proof two_mw_pos. unfold Xf. destruct (Z.eqb_spec e 0).
    + simpl. exact (ulp_FLT_0 radix2 emin (prec f)).
    + destruct (Z.eqb_spec e (2 ^ ew f - 1)); [lia|].
      destruct (m + 2 ^ mw f) eqn:?; try lia; discriminate.
  - destruct Hr. pose proof two_mw_pos. destruct (e =? 0); [destruct m; try lia; discriminate|].
    destruct (Z.eqb_spec e (2 ^ ew f - 1)); [lia|]. destruct (m + 2 ^ mw f) eqn:?; try lia; discriminate.
  - destruct Hr. pose proof two_mw_pos. destruct (e =? 0); [destruct m; try lia; discriminate|].
    destruct (Z.eqb_spec e (2 ^ ew f - 1)); [lia|]. destruct (m + 2 ^ mw f) eqn:?; try lia; discriminate.
  - assert (He' : e' = Xf e).
    { unfold Xf. destruct (e =? 0); [destruct m; try discriminate; now injection Hx|].
      destruct (Z.eqb_spec e (2 ^ ew f - 1)); [lia|]. destruct (m + 2 ^ mw f); try discriminate; now injection Hx. }
    rewrite <- He'. simpl. rewrite ulp_neq_0.
    + f_equal. symmetry. exact (canonical_bounded (prec f) (emax f) s p e' H).
    + apply F2R_neq_0. simpl. destruct s; easy.
Qed.

Lemma val_succ m e : inrange m e -> e < 2 ^ ew f - 1 ->
  succ radix2 fx (val m e) = if m + 1 =? 2 ^ mw f then val 0 (e + 1) else val (m + 1) e.
Proof.
  intros Hr He. rewrite succ_eq_pos by (apply val_nonneg; apply Hr).
  rewrite ulp_val by assumption.
  assert (H : (val m e + bpow radix2 (Xf e) = F2R (Float radix2 (Mf m e + 1) (Xf e)))%R).
  { unfold val, F2R. simpl. rewrite plus_IZR. ring. }
  rewrite H. destruct Hr as [Hm He'].
  destruct (Z.eqb_spec (m + 1) (2 ^ mw f)).
  - unfold val. unfold Mf at 2, Xf at 2. replace (e + 1 =? 0) with false by (symmetry; apply Z.eqb_neq; lia).
    unfold Mf, Xf. destruct (Z.eqb_spec e 0).
    + subst e. apply (f_equal2 (fun a b => F2R (Float radix2 a b))); lia.
    + unfold F2R; simpl. replace (m + 2 ^ mw f + 1) with (2 ^ mw f * 2) by lia.
      replace (e + 1 + emin - 1) with (1 + (e + emin - 1)) by ring.
      rewrite bpow_plus, mult_IZR. change (bpow radix2 1) with 2%R. ring.
  - unfold val. unfold Mf. destruct (e =? 0); apply (f_equal2 (fun a b => F2R (Float radix2 a b))); lia.
Qed.

Lemma join_eq s m e : join s m e = ((if s then 2 ^ ew f else 0) + e) * 2 ^ mw f + m.
Proof. unfold Bits.join_bits. rewrite Z.shiftl_mul_pow2 by (pose proof (mw_pos f); pose proof (ew_pos f); lia). reflexivity. Qed.

Lemma clear_mask_eq : clear_sign_mask f = Z.ones (mw f + ew f).
Proof. destruct f; reflexivity. Qed.

Lemma land_mask s m e : inrange m e -> Z.land (join s m e) (clear_sign_mask f) = join false m e.
Proof.
  intros [Hm He]. rewrite clear_mask_eq, Z.land_ones by (pose proof (mw_pos f); pose proof (ew_pos f); lia).
  rewrite !join_eq. symmetry. rewrite Z.add_0_l.
  apply Zmod_unique with (q := if s then 1 else 0).
  - rewrite Z.pow_add_r by (pose proof (mw_pos f); pose proof (ew_pos f); lia). nia.
  - rewrite Z.pow_add_r by (pose proof (mw_pos f); pose proof (ew_pos f); lia). destruct s; ring.
Qed.

Lemma join_inj s m e s' m' e' : inrange m e -> inrange m' e' -> join s m e = join s' m' e' -> s = s' /\ m = m' /\ e = e'.
Proof.
  intros [? ?] [? ?] Hj. apply (f_equal (Bits.split_bits (mw f) (ew f))) in Hj.
  rewrite !Bits.split_join_bits in Hj by assumption. now injection Hj.
Qed.

Lemma inrange_inf : inrange 0 (2 ^ ew f - 1).
Proof. pose proof two_mw_pos. pose proof two_ew_gt. split; lia. Qed.

Lemma E_opp (x : FT) : E (Bopp x) = (- E x)%R.
Proof.
  destruct x as [s|s| |s m e H]; simpl; try lra.
  - destruct s; simpl; lra.
  - rewrite !F2R_cond_Zopp. destruct s; simpl; lra.
Qed.

Lemma E_Bmax : E (Bmax_float : FT) = pred radix2 fx (bpow radix2 (emax f)).
Proof.
  rewrite <- val_inf.
  assert (Hr : inrange (2 ^ mw f - 1) (2 ^ ew f - 2)).
  { pose proof two_mw_pos. pose proof two_ew_gt. split; lia. }
  pose proof (val_succ _ _ Hr ltac:(lia)) as H.
  replace (2 ^ mw f - 1 + 1 =? 2 ^ mw f) with true in H by (symmetry; apply Z.eqb_eq; ring).
  replace (2 ^ ew f - 2 + 1) with (2 ^ ew f - 1) in H by ring.
  rewrite <- H. rewrite pred_succ.
  - clear. unfold val, Mf, Xf.
    replace (2 ^ ew f - 2 =? 0) with false by (destruct f; reflexivity).
    unfold E, Bmax_float. simpl.
    apply (f_equal2 (fun a b => F2R (Float radix2 a b))); destruct f; reflexivity.
  - apply fexp_correct, prec_gt_0_f.
  - apply generic_val; [exact Hr|]. intro; lia.
Qed.

Lemma E_Bsucc (x : FT) : BinarySingleNaN.is_nan x = false -> x <> finf false ->
  BinarySingleNaN.is_nan (Bsucc x) = false /\ E (Bsucc x) = succ radix2 fx (E x) /\
  Bsign (Bsucc x) = (Bsign x && negb (match x with B754_zero _ => true | _ => false end)).
Proof.
  intros Nx Ix. destruct (BinarySingleNaN.is_finite x) eqn:Fx.
  - pose proof (Bsucc_correct (prec f) (emax f) _ _ x Fx) as H.
    destruct (Rlt_bool_spec (succ radix2 fx (B2R x)) (bpow radix2 (emax f))) as [Hlt|Hge].
    + destruct H as (H1 & H2 & H3). split; [destruct (Bsucc x); easy|]. split.
      * replace (E (Bsucc x)) with (B2R (Bsucc x)) by (destruct (Bsucc x); easy).
        rewrite H1. f_equal. destruct x; easy.
      * rewrite H3. destruct x; easy.
    + assert (Bsucc x = finf false) as -> by (apply B2SF_inj; exact H).
      split; [reflexivity|]. split.
      * simpl. apply Rle_antisym.
        -- replace (E x) with (B2R x) by (destruct x; easy). exact Hge.
        -- apply succ_le_lt; [apply fexp_correct; apply prec_gt_0_f|apply generic_E | apply generic_bpow_emax |].
           pose proof (E_fin_lt x Fx). apply Rabs_lt_inv in H0. lra.
      * destruct x as [s|s| |s m e HH]; try discriminate.
        destruct s; [exfalso|reflexivity].
        assert (B2R (B754_finite true m e HH) < 0)%R by (simpl; apply F2R_lt_0; simpl; lia).
        pose proof (bpow_gt_0 radix2 (emax f)).
        assert (succ radix2 fx (B2R (B754_finite true m e HH)) <= 0)%R.
        { apply succ_le_lt; [apply fexp_correct; apply prec_gt_0_f| | apply generic_format_0|assumption]. exact (generic_E (B754_finite true m e HH)). }
        lra.
  - destruct x as [|s| |]; try discriminate. destruct s; [|now elim Ix].
    change (Bsucc (B754_infinity true)) with (Bopp (Bmax_float : FT)). split; [reflexivity|]. split; [|reflexivity].
    rewrite E_opp, E_Bmax. simpl E. rewrite succ_opp. reflexivity.
Qed.

Lemma E_inj (x y : FT) : BinarySingleNaN.is_nan x = false -> BinarySingleNaN.is_nan y = false ->
  E x = E y -> Bsign x = Bsign y -> x = y.
Proof.
  intros Nx Ny HE HS.
  destruct (BinarySingleNaN.is_finite x) eqn:Fx, (BinarySingleNaN.is_finite y) eqn:Fy.
  - apply B2R_Bsign_inj; try assumption. destruct x, y; easy.
  - pose proof (E_fin_lt x Fx) as Hl. rewrite HE in Hl. destruct y as [|s| |]; try easy. simpl in Hl.
    destruct s; [rewrite Rabs_Ropp in Hl|]; rewrite Rabs_pos_eq in Hl by apply bpow_ge_0; lra.
  - pose proof (E_fin_lt y Fy) as Hl. rewrite <- HE in Hl. destruct x as [|s| |]; try easy. simpl in Hl.
    destruct s; [rewrite Rabs_Ropp in Hl|]; rewrite Rabs_pos_eq in Hl by apply bpow_ge_0; lra.
  - destruct x as [|s| |]; try easy. destruct y as [|s'| |]; try easy. simpl in HS. now subst.
Qed.

Lemma decode_zero (x : FT) s m e : inrange m e -> B2SF x = decode s m e ->
  (match x with B754_zero _ => true | _ => false end) = (m =? 0) && (e =? 0).
Proof.
  intros [Hm He] Hx. unfold decode in Hx. pose proof two_mw_pos.
  destruct (e =? 0).
  - destruct m; [| |lia]; destruct x; try discriminate; reflexivity.
  - rewrite andb_false_r. destruct (e =? _); [destruct m; [| |lia]; destruct x; try discriminate; reflexivity|].
    destruct (m + 2 ^ mw f) eqn:?; try lia; destruct x; try discriminate; reflexivity.
Qed.

Lemma tiny_join : tiny_bits = join false 1 0.
Proof. destruct f; reflexivity. Qed.
Lemma neg_tiny_join : neg_tiny_bits f = join true 1 0.
Proof. destruct f; reflexivity. Qed.

Lemma join_succ s m e : inrange m e -> e < 2 ^ ew f - 1 ->
  join s m e + 1 = if m + 1 =? 2 ^ mw f then join s 0 (e + 1) else join s (m + 1) e.
Proof.
  intros _ _. destruct (Z.eqb_spec (m + 1) (2 ^ mw f)) as [H|H]; rewrite !join_eq; [nia|ring].
Qed.

Lemma Bsucc_nan : Bsucc (fnan (f := f)) = fnan. Proof. reflexivity. Qed.

Theorem f_next_up_Bsucc (x : FT) : f_next_up f x = Bsucc x.
Proof.
  destruct (BinarySingleNaN.is_nan x) eqn:Nx.
  { destruct x; try discriminate. reflexivity. }
  destruct (bits_repr x) as (s & m & e & Hr & Hb & Hd).
  unfold f_next_up. rewrite Nx, Hb. simpl orb.
  change (to_bits (finf (f := f) false)) with (join false 0 (2 ^ ew f - 1)).
  pose proof (decode_notnan m e s ltac:(rewrite <- Hd; destruct x; easy)) as Hnn.
  destruct (E_decode x s m e Hr Hd Nx) as [HE HS].
  destruct (Z.eqb_spec (join s m e) (join false 0 (2 ^ ew f - 1))) as [Hi|Hi].
  { destruct (join_inj _ _ _ _ _ _ Hr inrange_inf Hi) as (-> & -> & ->).
    rewrite val_inf in HE.
    assert (x = finf false) as -> by (apply E_inj; [assumption|reflexivity|exact HE|assumption]). reflexivity. }
  assert (Hx : x <> finf false).
  { intros ->. apply Hi. rewrite <- Hb. reflexivity. }
  destruct (E_Bsucc x Nx Hx) as (N' & E' & S').
  rewrite land_mask by exact Hr.
  rewrite (decode_zero x s m e Hr Hd) in S'.
  destruct (Z.eqb_spec (join false m e) 0) as [Hz|Hz].
  { rewrite join_eq in Hz. destruct Hr as [Hm He]. pose proof two_mw_pos.
    assert (m = 0 /\ e = 0) as [-> ->] by nia.
    rewrite tiny_join.
    assert (Hr' : inrange 1 0) by (split; [pose proof two_mw_gt1; lia | pose proof two_ew_gt; lia]).
    assert (Hn' : notnan 1 0) by (intro; pose proof two_ew_gt; lia).
    destruct (of_bits_E false 1 0 Hr' Hn') as (N1 & E1 & S1).
    apply E_inj; try assumption.
    - rewrite E1, E', HE.
      assert (Hv : val 0 0 = 0%R) by (exact (F2R_0 radix2 emin)).
      replace (if s then (- val 0 0)%R else val 0 0) with (val 0 0) by (rewrite Hv; destruct s; lra).
      rewrite val_succ; [|split; lia|pose proof two_ew_gt; lia].
      replace (0 + 1 =? 2 ^ mw f) with false by (symmetry; apply Z.eqb_neq; pose proof two_mw_gt1; lia). reflexivity.
    - rewrite S1, S'. simpl. now rewrite andb_false_r. }
  assert (Hnz : (m =? 0) && (e =? 0) = false).
  { destruct (Z.eqb_spec m 0), (Z.eqb_spec e 0); try reflexivity. subst. elim Hz. rewrite join_eq. ring. }
  rewrite Hnz, andb_true_r in S'.
  destruct s.
  - (* negative *)
    replace (join true m e =? join false m e) with false by
      (symmetry; apply Z.eqb_neq; intros Hc; destruct (join_inj _ _ _ _ _ _ Hr Hr Hc); easy).
    assert (exists m' e', inrange m' e' /\ e' < 2 ^ ew f - 1 /\ notnan m' e' /\
              (if m' + 1 =? 2 ^ mw f then (0, e' + 1) else (m' + 1, e')) = (m, e)) as (m' & e' & Hr' & He' & Hn' & Hp).
    { destruct Hr as [Hm He]. pose proof two_mw_pos. destruct (Z.eqb_spec m 0) as [->|].
      - exists (2 ^ mw f - 1), (e - 1). apply andb_false_iff in Hnz. rewrite Z.eqb_eq || idtac.
        destruct Hnz as [|Hnz]; [discriminate|]. apply Z.eqb_neq in Hnz.
        split; [split; lia|]. split; [lia|]. split; [intro; lia|].
        replace (2 ^ mw f - 1 + 1 =? 2 ^ mw f) with true by (symmetry; apply Z.eqb_eq; ring). f_equal; ring.
      - exists (m - 1), e. split; [split; lia|]. split; [|split].
        + assert (e <> 2 ^ ew f - 1) by (intros Hc; specialize (Hnn Hc); lia). lia.
        + intro Hc; specialize (Hnn Hc); lia.
        + replace (m - 1 + 1) with m by ring. destruct (Z.eqb_spec m (2 ^ mw f)); [lia|]. reflexivity. }
    assert (Hj : join true m e - 1 = join true m' e').
    { pose proof (join_succ true m' e' Hr' He') as Hj.
      destruct (m' + 1 =? 2 ^ mw f); injection Hp as <- <-; rewrite <- Hj; ring. }
    rewrite Hj. destruct (of_bits_E true m' e' Hr' Hn') as (N1 & E1 & S1).
    apply E_inj; try assumption.
    + rewrite E1, E', HE. rewrite succ_opp. f_equal.
      pose proof (val_succ m' e' Hr' He') as Hv.
      assert (val m e = succ radix2 fx (val m' e')) as ->.
      { rewrite Hv. destruct (m' + 1 =? 2 ^ mw f); injection Hp as <- <-; reflexivity. }
      symmetry. apply pred_succ; [apply fexp_correct, prec_gt_0_f | now apply generic_val].
    + rewrite S1, S'. now rewrite HS.
  - rewrite Z.eqb_refl.
    assert (He : e < 2 ^ ew f - 1).
    { destruct Hr as [Hm He]. destruct (Z.eq_dec e (2 ^ ew f - 1)) as [->|]; [|lia].
      elim Hi. rewrite Hnn by reflexivity. reflexivity. }
    rewrite join_succ by assumption.
    assert (HR : forall m' e', (if m + 1 =? 2 ^ mw f then (0, e + 1) else (m + 1, e)) = (m', e') -> of_bits (f := f) (join false m' e') = Bsucc x).
    { intros m' e' Hp.
      assert (inrange m' e' /\ notnan m' e') as [Hr' Hn'].
      { destruct Hr as [Hm He0]. destruct (Z.eqb_spec (m + 1) (2 ^ mw f)); injection Hp as <- <-; (split; [split; lia|intro; lia]). }
      destruct (of_bits_E false m' e' Hr' Hn') as (N1 & E1 & S1).
      apply E_inj; try assumption.
      - rewrite E1, E', HE, val_succ by assumption. destruct (m + 1 =? 2 ^ mw f); injection Hp as <- <-; reflexivity.
      - now rewrite S1, S', HS. }
    destruct (m + 1 =? 2 ^ mw f); apply HR; reflexivity.
Qed.

Lemma to_bits_opp (x : FT) s m e : BinarySingleNaN.is_nan x = false -> inrange m e -> to_bits x = join s m e -> to_bits (Bopp x) = join (negb s) m e.
Proof.
  intros Nx Hr Hb.
  assert (H : forall a b c a' b' c', inrange b c -> join a b c = join a' b' c' -> inrange b' c' -> join (negb a) b c = join (negb a') b' c').
  { intros * H1 H2 H3. destruct (join_inj _ _ _ _ _ _ H1 H3 H2) as (-> & -> & ->). reflexivity. }
  destruct x as [t|t| |t p q Hpq]; unfold to_bits, Bopp in *; try discriminate.
  - apply H; try assumption. split; [pose proof two_mw_pos|pose proof two_ew_gt]; lia.
  - apply H; try assumption. apply inrange_inf.
  - destruct (bits_repr (B754_finite t p q Hpq)) as (s' & m' & e' & Hr' & Hb' & Hd').
    destruct (0 <=? Z.pos p - 2 ^ mw f) eqn:Hc.
    + apply H; try assumption.
      pose proof (proj1 (andb_prop _ _ Hpq)) as HH. apply Z.leb_le in Hc.
      unfold SpecFloat.canonical_mantissa in HH. apply Zeq_bool_eq in HH. unfold SpecFloat.fexp in HH.
      pose proof (proj2 (andb_prop _ _ Hpq)) as HH2. apply Z.leb_le in HH2.
      rewrite Digits.Zpos_digits2_pos in HH.
      set (d := Digits.Zdigits radix2 (Zpos p)) in *.
      assert (Hp1 : Z.pos p < 2 ^ (mw f + 1)).
      { destruct (Z_lt_le_dec (mw f + 1) d); [unfold prec in *; lia|].
        apply Z.lt_le_trans with (2 ^ d). apply (Digits.Zdigits_correct radix2 (Zpos p)).
        apply Z.pow_le_mono_r; lia. }
      rewrite Z.pow_add_r in Hp1 by (pose proof (mw_pos f); pose proof (ew_pos f); lia).
      pose proof (ew_emax). pose proof (emin_eq). unfold prec in *.
      split; lia.
    + apply H; try assumption. apply Z.leb_gt in Hc. split; [lia|]. pose proof two_ew_gt; lia.
Qed.

Theorem f_next_down_opp (x : FT) : f_next_down f x = Bopp (f_next_up f (Bopp x)).
Proof.
  destruct (BinarySingleNaN.is_nan x) eqn:Nx.
  { destruct x; try discriminate. reflexivity. }
  assert (Nx' : BinarySingleNaN.is_nan (Bopp x) = false) by (destruct x; easy).
  destruct (bits_repr x) as (s & m & e & Hr & Hb & Hd).
  pose proof (to_bits_opp x s m e Nx Hr Hb) as Hb'.
  pose proof (decode_notnan m e s ltac:(rewrite <- Hd; destruct x; easy)) as Hnn.
  unfold f_next_down, f_next_up. rewrite Nx, Nx', Hb, Hb'. simpl orb.
  change (to_bits (finf (f := f) false)) with (join false 0 (2 ^ ew f - 1)).
  change (to_bits (finf (f := f) true)) with (join true 0 (2 ^ ew f - 1)).
  assert (Heqb : forall a b c a' b' c', inrange b c -> inrange b' c' -> (join a b c =? join a' b' c') = eqb a a' && (b =? b') && (c =? c')).
  { intros * H1 H2. apply eq_true_iff_eq. rewrite !andb_true_iff, !Z.eqb_eq, eqb_true_iff. split.
    - intros H3. destruct (join_inj _ _ _ _ _ _ H1 H2 H3); tauto.
    - now intros [[-> ->] ->]. }
  rewrite !Heqb by (assumption || apply inrange_inf).
  replace (eqb (negb s) false) with (eqb s true) by (destruct s; reflexivity).
  destruct (eqb s true && (m =? 0) && (e =? 2 ^ ew f - 1)) eqn:Hinf.
  { now rewrite Bopp_involutive. }
  rewrite !land_mask by exact Hr.
  assert (Hob : forall a b c, inrange b c -> notnan b c -> of_bits (f := f) (join a b c) = Bopp (of_bits (join (negb a) b c))).
  { intros a b c H1 H2. destruct (of_bits_E a b c H1 H2) as (N1 & E1 & S1).
    destruct (of_bits_E (negb a) b c H1 H2) as (N2 & E2 & S2).
    apply E_inj; try assumption.
    - destruct (of_bits (join (negb a) b c)); easy.
    - rewrite E_opp, E1, E2. destruct a; simpl; lra.
    - rewrite S1. rewrite Bsign_Bopp by assumption. rewrite S2. now destruct a. }
  destruct (Z.eqb_spec (join false m e) 0) as [Hz|Hz].
  { rewrite neg_tiny_join, tiny_join. apply Hob.
    - split; [pose proof two_mw_gt1; lia | pose proof two_ew_gt; lia].
    - intro; pose proof two_ew_gt; lia. }
  rewrite !Heqb by assumption. rewrite !Z.eqb_refl, !andb_true_r.
  assert (Hnz : (m =? 0) && (e =? 0) = false).
  { destruct (Z.eqb_spec m 0), (Z.eqb_spec e 0); try reflexivity. subst. elim Hz. rewrite join_eq. ring. }
  destruct s; simpl eqb; cbv iota.
  - (* negative: bits + 1 against bits + 1 of the opposite *)
    assert (He : e < 2 ^ ew f - 1).
    { destruct Hr as [Hm He]. destruct (Z.eq_dec e (2 ^ ew f - 1)) as [->|]; [|lia].
      rewrite Hnn, !Z.eqb_refl in Hinf by reflexivity. discriminate. }
    simpl negb. rewrite !join_succ by assumption. destruct Hr as [Hm He0].
    destruct (Z.eqb_spec (m + 1) (2 ^ mw f)); apply Hob; try (split; lia); intro; lia.
  - simpl negb.
    assert (exists m' e', inrange m' e' /\ e' < 2 ^ ew f - 1 /\ notnan m' e' /\
              (if m' + 1 =? 2 ^ mw f then (0, e' + 1) else (m' + 1, e')) = (m, e)) as (m' & e' & Hr' & He' & Hn' & Hp).
    { destruct Hr as [Hm He]. pose proof two_mw_pos. destruct (Z.eqb_spec m 0) as [->|].
      - exists (2 ^ mw f - 1), (e - 1).
        apply Z.eqb_neq in Hnz.
        split; [split; lia|]. split; [lia|]. split; [intro; lia|].
        replace (2 ^ mw f - 1 + 1 =? 2 ^ mw f) with true by (symmetry; apply Z.eqb_eq; ring). f_equal; ring.
      - exists (m - 1), e. split; [split; lia|]. split; [|split].
        + assert (e <> 2 ^ ew f - 1) by (intros Hc; specialize (Hnn Hc); lia). lia.
        + intro Hc; specialize (Hnn Hc); lia.
        + replace (m - 1 + 1) with m by ring. destruct (Z.eqb_spec m (2 ^ mw f)); [lia|]. reflexivity. }
    assert (Hj : forall t, join t m e - 1 = join t m' e').
    { intros t. pose proof (join_succ t m' e' Hr' He') as Hj.
      destruct (m' + 1 =? 2 ^ mw f); injection Hp as <- <-; rewrite <- Hj; ring. }
    rewrite !Hj. now apply Hob.
Qed.

Theorem f_next_down_Bpred (x : FT) : f_next_down f x = Bpred x.
Proof. rewrite f_next_down_opp, f_next_up_Bsucc. reflexivity. Qed.

End B.
