(** PI / 2 is irrational (Cartwright's argument, with explicit antiderivatives instead of integrals),
    so no float is a zero of cos, and only 0 is a zero of sin. *)
From Coq Require Import ZArith Reals Lra Lia.
From Flocq Require Import Core BinarySingleNaN.
From Verif.Model Require Import FloatBase.
From Verif Require Import Spec.
Open Scope R_scope.

Section Irr.
Let al := PI / 2.
Let c (n : nat) (z : R) := (1 - z * z) ^ n * cos (al * z).
Let G (n : nat) (z : R) := al * (1 - z * z) ^ S n * sin (al * z) - 2 * INR (S n) * z * (1 - z * z) ^ n * cos (al * z).
(** antiderivatives of [c n] and [c (S n)] *)
Fixpoint FF (n : nat) : (R -> R) * (R -> R) :=
  match n with
  | O => (fun z => sin (al * z) / al, fun z => (G 0 z + 2 * (sin (al * z) / al)) / (al * al))
  | S k => let (f0, f1) := FF k in
           (f1, fun z => (G (S k) z + 2 * INR (S (S k)) * (2 * INR (S (S k)) - 1) * f1 z - 4 * INR (S (S k)) * INR (S k) * f0 z) / (al * al))
  end.
Lemma al_pos : 0 < al. Proof. unfold al. assert (P := PI_RGT_0). lra. Qed.

Lemma lim_eq (g : R -> R) z a b : derivable_pt_lim g z a -> a = b -> derivable_pt_lim g z b. Proof. now intros H <-. Qed.
Lemma dw z : derivable_pt_lim (fun z => 1 - z * z) z (- (2 * z)).
Proof.
  replace (- (2 * z)) with (0 - (1 * z + z * 1)) by ring. apply derivable_pt_lim_minus; [apply derivable_pt_lim_const|].
  apply (derivable_pt_lim_mult id id); apply derivable_pt_lim_id.
Qed.
Lemma dwn n z : derivable_pt_lim (fun z => (1 - z * z) ^ n) z (INR n * (1 - z * z) ^ Nat.pred n * - (2 * z)).
Proof. apply (derivable_pt_lim_comp (fun z => 1 - z * z) (fun y => y ^ n)); [apply dw|apply derivable_pt_lim_pow]. Qed.
Lemma daz z : derivable_pt_lim (fun z => al * z) z al.
Proof. eapply lim_eq; [apply (derivable_pt_lim_scal id al), derivable_pt_lim_id|ring]. Qed.
Lemma dsin z : derivable_pt_lim (fun z => sin (al * z)) z (cos (al * z) * al).
Proof. apply (derivable_pt_lim_comp (fun z => al * z) sin); [apply daz|apply derivable_pt_lim_sin]. Qed.
Lemma dcos z : derivable_pt_lim (fun z => cos (al * z)) z (- sin (al * z) * al).
Proof. apply (derivable_pt_lim_comp (fun z => al * z) cos); [apply daz|apply derivable_pt_lim_cos]. Qed.
Lemma dG n z : derivable_pt_lim (G n) z
  (al * (INR (S n) * (1 - z * z) ^ n * - (2 * z)) * sin (al * z) + al * (1 - z * z) ^ S n * (cos (al * z) * al)
   - ((2 * INR (S n) * 1 * (1 - z * z) ^ n + 2 * INR (S n) * z * (INR n * (1 - z * z) ^ Nat.pred n * - (2 * z))) * cos (al * z)
      + 2 * INR (S n) * z * (1 - z * z) ^ n * (- sin (al * z) * al))).
Proof.
  unfold G. apply derivable_pt_lim_minus.
  - apply (derivable_pt_lim_mult (fun z => al * (1 - z * z) ^ S n) (fun z => sin (al * z))); [|apply dsin].
    apply derivable_pt_lim_scal. exact (dwn (S n) z).
  - apply (derivable_pt_lim_mult (fun z => 2 * INR (S n) * z * (1 - z * z) ^ n) (fun z => cos (al * z))); [|apply dcos].
    apply (derivable_pt_lim_mult (fun z => 2 * INR (S n) * z) (fun z => (1 - z * z) ^ n)); [|apply dwn].
    apply derivable_pt_lim_scal, derivable_pt_lim_id.
Qed.
Lemma dFF n z : derivable_pt_lim (fst (FF n)) z (c n z) /\ derivable_pt_lim (snd (FF n)) z (c (S n) z).
Proof.
  assert (A := al_pos). assert (D : forall (g : R -> R) z l k, derivable_pt_lim g z l -> derivable_pt_lim (fun x => g x / k) z (l / k)).
  { intros g x l k H. unfold Rdiv. eapply lim_eq; [apply (derivable_pt_lim_mult g (fun _ => / k)); [exact H|apply derivable_pt_lim_const]|ring]. }
  induction n as [|n [IH0 IH1]].
  - cbn [FF fst snd]. assert (S0 : derivable_pt_lim (fun z => sin (al * z) / al) z (c 0 z)).
    { eapply lim_eq; [apply D, dsin|]. unfold c. cbn [pow]. field. lra. }
    split; [exact S0|]. eapply lim_eq.
    + apply D. apply derivable_pt_lim_plus; [apply dG|]. apply derivable_pt_lim_scal. exact S0.
    + unfold c. cbn [pow INR Nat.pred]. field. lra.
  - cbn [FF]. destruct (FF n) as [f0 f1]. cbn [fst snd] in *. split; [exact IH1|]. eapply lim_eq.
    + apply D. apply derivable_pt_lim_minus; [apply derivable_pt_lim_plus; [apply dG|]|]; apply derivable_pt_lim_scal; eassumption.
    + unfold c. cbn [Nat.pred]. set (w := 1 - z * z). replace (z * z) with (1 - w) by (unfold w; ring).
      rewrite !(S_INR (S n)). set (N := INR (S n)). cbn [pow]. assert (Z : z * - (2 * z) = - (2 * (1 - w))) by (unfold w; ring).
      transitivity ((al * al * (w * (w * w ^ n)) * cos (al * z) - 2 * (N + 1) * w * w ^ n * cos (al * z) - 2 * (N + 1) * (N * w ^ n * (z * - (2 * z))) * cos (al * z)
        + 2 * (N + 1) * (2 * (N + 1) - 1) * (w * w ^ n * cos (al * z)) - 4 * (N + 1) * N * (w ^ n * cos (al * z))) / (al * al)).
      * field. lra.
      * rewrite Z. field. lra.
Qed.
(** the integrals over [-1, 1] *)
Let I (n : nat) := fst (FF n) 1 - fst (FF n) (-1).
Lemma snd_FF n : snd (FF n) = fst (FF (S n)).
Proof. cbn [FF]. destruct (FF n). reflexivity. Qed.
Lemma I_pos n : 0 < I n <= 2.
Proof.
  destruct (MVT_cor2 (fst (FF n)) (c n) (-1) 1 ltac:(lra)) as (x & E & X); [intros y _; apply dFF|].
  unfold I. rewrite E. assert (A := al_pos). assert (P := PI_RGT_0). unfold c.
  assert (W : 0 < 1 - x * x <= 1) by nra.
  assert (W1 : 0 < (1 - x * x) ^ n) by (apply pow_lt; lra).
  assert (W2 : (1 - x * x) ^ n <= 1 ^ n) by (apply pow_incr; lra). rewrite pow1 in W2.
  assert (C1 : 0 < cos (al * x)) by (apply cos_gt_0; unfold al; nra).
  assert (C2 := COS_bound (al * x)). split; nra.
Qed.
Lemma cos_al : cos al = 0. Proof. apply cos_PI2. Qed.
Lemma sin_al : sin al = 1. Proof. apply sin_PI2. Qed.
Lemma G_ends n : G n 1 - G n (-1) = 0.
Proof.
  unfold G. replace (al * 1) with al by ring. replace (al * -1) with (- al) by ring. rewrite sin_neg, cos_neg, cos_al. replace (1 - 1 * 1) with 0 by ring. replace (1 - -1 * -1) with 0 by ring.
  cbn [pow]. ring.
Qed.
Lemma I_0 : I 0 = 2 / al.
Proof.
  unfold I. cbn [FF fst]. replace (al * 1) with al by ring. replace (al * -1) with (- al) by ring. rewrite sin_neg, sin_al. assert (A := al_pos). field. lra.
Qed.
Lemma I_1 : I 1 = 2 * I 0 / (al * al).
Proof.
  unfold I. cbn [FF fst]. assert (A := al_pos). assert (E := G_ends 0).
  replace (G 0 1) with (G 0 (-1)) by lra. field. lra.
Qed.
Lemma I_rec n : al * al * I (S (S n)) = 2 * INR (S (S n)) * (2 * INR (S (S n)) - 1) * I (S n) - 4 * INR (S (S n)) * INR (S n) * I n.
Proof.
  unfold I. rewrite <- !snd_FF. assert (E := G_ends (S n)). assert (A := al_pos). cbn [FF]. destruct (FF n) as [f0 f1]. cbn [fst snd].
  replace (G (S n) 1) with (G (S n) (-1)) by lra. field. lra.
Qed.
(** scaled by powers of the supposed numerator and denominator, they are integers *)
Let K (n : nat) := al ^ (2 * n + 1) * I n / INR (fact n).
Lemma fact_nz n : INR (fact n) <> 0. Proof. apply INR_fact_neq_0. Qed.
Lemma K_0 : K 0 = 2.
Proof. unfold K. rewrite I_0. assert (A := al_pos). cbn [pow fact INR Nat.mul Nat.add]. field. lra. Qed.
Lemma K_1 : K 1 = 4.
Proof. unfold K. rewrite I_1, I_0. assert (A := al_pos). cbn [pow fact INR Nat.mul Nat.add]. field. lra. Qed.
Lemma K_rec n : K (S (S n)) = 2 * (2 * INR (S (S n)) - 1) * K (S n) - 4 * (al * al) * K n.
Proof.
  unfold K. assert (R := I_rec n). assert (A := al_pos).
  replace (2 * S (S n) + 1)%nat with (2 + (2 * n + 3))%nat by lia. replace (2 * S n + 1)%nat with (2 * n + 3)%nat by lia.
  rewrite pow_add. replace (al ^ 2) with (al * al) by ring.
  replace (al * al * al ^ (2 * n + 3) * I (S (S n))) with (al ^ (2 * n + 3) * (al * al * I (S (S n)))) by ring. rewrite R.
  replace (2 * n + 3)%nat with (2 + (2 * n + 1))%nat by lia. rewrite pow_add. replace (al ^ 2) with (al * al) by ring.
  rewrite !fact_simpl, !mult_INR. assert (F := fact_nz n). assert (N1 := not_0_INR (S n) ltac:(lia)). assert (N2 := not_0_INR (S (S n)) ltac:(lia)).
  field. auto.
Qed.
Lemma K_small n : 0 < K n <= 2 * al * ((al * al) ^ n / INR (fact n)).
Proof.
  unfold K. assert (A := al_pos). destruct (I_pos n) as [P Q]. assert (F := INR_fact_lt_0 n).
  assert (E : al ^ (2 * n + 1) = al * (al * al) ^ n) by (rewrite pow_add, pow_mult; replace (al ^ 2) with (al * al) by ring; ring).
  rewrite E. assert (W : 0 < (al * al) ^ n) by (apply pow_lt; nra). assert (V : 0 < / INR (fact n)) by (apply Rinv_0_lt_compat; exact F).
  unfold Rdiv. split; [apply Rmult_lt_0_compat; [apply Rmult_lt_0_compat; [apply Rmult_lt_0_compat|]|]; assumption|].
  replace (2 * al * ((al * al) ^ n * / INR (fact n))) with (al * (al * al) ^ n * 2 * / INR (fact n)) by ring.
  apply Rmult_le_compat_r; [lra|]. apply Rmult_le_compat_l; [nra|exact Q].
Qed.
Lemma irrational (p q : Z) : (q <> 0)%Z -> al * al * IZR q <> IZR p.
Proof.
  intros Q0 H. assert (A := al_pos).
  assert (B : exists b d : Z, (0 < b)%Z /\ al * al * IZR b = IZR d).
  { destruct (Z_lt_le_dec 0 q) as [L|L]; [exists q, p; auto|]. exists (- q)%Z, (- p)%Z. split; [lia|]. rewrite !opp_IZR. lra. }
  destruct B as (b & d & BP & HB). apply IZR_lt in BP.
  assert (INT : forall n, (exists z, IZR b ^ n * K n = IZR z) /\ (exists z, IZR b ^ S n * K (S n) = IZR z)).
  { induction n as [|n [(y & Y) (z & Z)]].
    - split; [exists 2%Z; rewrite K_0; cbn [pow]; lra|]. exists (b * 4)%Z. rewrite K_1, mult_IZR. cbn [pow]. ring.
    - split; [exists z; exact Z|]. exists (2 * (2 * Z.of_nat (S (S n)) - 1) * b * z - 4 * d * b * y)%Z.
      rewrite K_rec, minus_IZR, !mult_IZR, minus_IZR, mult_IZR, <- INR_IZR_INZ, <- HB, <- Y, <- Z. cbn [pow]. ring. }
  destruct (cv_speed_pow_fact (IZR b * (al * al)) (/ (2 * al) * / 2)) as [N HN].
  { assert (0 < / (2 * al)) by (apply Rinv_0_lt_compat; lra). lra. }
  specialize (HN N (le_n N)). unfold R_dist in HN. rewrite Rminus_0_r in HN. apply Rabs_def2 in HN as [HN _].
  destruct (INT N) as [(z & Z) _]. destruct (K_small N) as [P U]. assert (BN : 0 < IZR b ^ N) by (apply pow_lt; exact BP).
  assert (L1 : 0 < IZR z) by (rewrite <- Z; apply Rmult_lt_0_compat; assumption).
  assert (L2 : IZR z < 1).
  { rewrite <- Z. apply Rle_lt_trans with (IZR b ^ N * (2 * al * ((al * al) ^ N / INR (fact N)))); [apply Rmult_le_compat_l; lra|].
    replace (IZR b ^ N * (2 * al * ((al * al) ^ N / INR (fact N)))) with (2 * al * ((IZR b * (al * al)) ^ N / INR (fact N))) by (rewrite (Rpow_mult_distr (IZR b) (al * al)); unfold Rdiv; ring).
    apply Rlt_le_trans with (2 * al * (/ (2 * al) * / 2)); [apply Rmult_lt_compat_l; [lra|exact HN]|]. rewrite <- Rmult_assoc, Rinv_r by lra. lra. }
  apply lt_IZR in L1. apply (lt_IZR z 1) in L2. lia.
Qed.
End Irr.

Lemma half_pi_irrational (p q : Z) : (q <> 0)%Z -> PI / 2 * IZR q <> IZR p.
Proof.
  intros Q H. apply (irrational (p * p) (q * q)); [nia|]. rewrite !mult_IZR, <- H. ring.
Qed.
Lemma no_dyadic_half_pi f (x : float f) (k : Z) : (k <> 0)%Z -> B2R x <> PI / 2 * IZR k.
Proof.
  intros K H. assert (D : exists e p : Z, (0 < e)%Z /\ B2R x * IZR e = IZR p).
  { destruct x as [s|s| |s mm ex Hb]; try (exists 1%Z, 0%Z; cbn [B2R]; split; [lia|lra]). cbn [B2R]. unfold F2R. cbn [Fnum Fexp].
    destruct (Z_le_gt_dec 0 ex) as [L|L].
    - exists 1%Z, (cond_Zopp s (Z.pos mm) * 2 ^ ex)%Z. split; [lia|]. rewrite mult_IZR, (IZR_Zpower radix2) by exact L. ring.
    - exists (2 ^ (- ex))%Z, (cond_Zopp s (Z.pos mm)). split; [apply Z.pow_pos_nonneg; lia|]. rewrite (IZR_Zpower radix2) by lia.
      rewrite Rmult_assoc, <- bpow_plus. replace (ex + - ex)%Z with 0%Z by lia. cbn [bpow]. ring. }
  destruct D as (e & p & E & D). apply (half_pi_irrational p (k * e)); [nia|]. rewrite mult_IZR, <- D, H. ring.
Qed.
Lemma float_cos_nz f (x : float f) : cos (B2R x) <> 0.
Proof.
  intros H. apply cos_eq_0_0 in H as [k H]. apply (no_dyadic_half_pi f x (2 * k + 1)); [lia|]. rewrite H, plus_IZR, mult_IZR. field.
Qed.
Lemma float_sin_nz f (x : float f) : B2R x <> 0 -> sin (B2R x) <> 0.
Proof.
  intros N H. apply sin_eq_0_0 in H as [k H]. destruct (Z.eq_dec k 0) as [->|K]; [apply N; rewrite H; ring|].
  apply (no_dyadic_half_pi f x (2 * k)); [lia|]. rewrite H, mult_IZR. field.
Qed.
Lemma float_sin_m1 f (x : float f) : sin (B2R x) <> -1.
Proof. intros H. apply (float_cos_nz f x). assert (Q := sin2_cos2 (B2R x)). rewrite H in Q. unfold Rsqr in Q. nra. Qed.
Lemma float_cos_m1 f (x : float f) : cos (B2R x) <> -1.
Proof.
  intros H. destruct (Req_dec (B2R x) 0) as [Z|Z]; [rewrite Z, cos_0 in H; lra|]. apply (float_sin_nz f x Z). assert (Q := sin2_cos2 (B2R x)). rewrite H in Q. unfold Rsqr in Q. nra.
Qed.
