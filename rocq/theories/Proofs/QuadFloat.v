(** The quadratic solver in floats. *)
From Coq Require Import ZArith Reals Bool Lra Lia.
From Flocq Require Import Core BinarySingleNaN Relative Mult_error.
From Verif.Model Require Import FloatBase Scalar Float Interval Outcome Vec Transform XReal Geometry.
From Verif Require Import Spec SpecGeom SpecShape SpecError SpecLens SpecQuad.
From Verif.Proofs Require Import BitsLemmas FloatLemmas ScalarProofs SlabFloat VectorFloat VectorErr CameraFloat.
Open Scope R_scope.

(** ** Real arithmetic *)
Lemma rel_form u z r : 0 <= u -> Rabs (z - r) <= u * Rabs r -> exists e, Rabs e <= u /\ z = r * (1 + e).
Proof.
  intros U H. destruct (Req_dec r 0) as [->|N].
  - exists 0. rewrite Rabs_R0 in *. rewrite Rmult_0_r in H. apply Rabs_le_inv in H. split; lra.
  - exists ((z - r) / r). split; [|field; exact N]. unfold Rdiv. rewrite Rabs_mult, Rabs_inv. apply (Rmult_le_reg_r (Rabs r)); [apply Rabs_pos_lt; exact N|]. rewrite Rmult_assoc, Rinv_l, Rmult_1_r by (apply Rabs_no_R0; exact N). exact H.
Qed.
Lemma form_rel u z r e : Rabs e <= u -> z = r * (1 + e) -> within_rel u z r.
Proof. intros H ->. unfold within_rel. replace (r * (1 + e) - r) with (e * r) by ring. rewrite Rabs_mult. apply Rmult_le_compat_r; [apply Rabs_pos|exact H]. Qed.
Lemma sqrt1 u d : 0 <= u <= / 1000000 -> Rabs d <= u -> exists e, Rabs e <= 51 / 100 * u /\ sqrt (1 + d) = 1 + e.
Proof.
  intros U H. apply Rabs_le_inv in H. exists (sqrt (1 + d) - 1). split; [|ring].
  assert (K := sqrt_sqrt (1 + d) ltac:(lra)). assert (P := sqrt_pos (1 + d)). set (q := sqrt (1 + d)) in *. clearbody q.
  assert (Q : 999 / 1000 <= q) by nra. apply Rabs_le. split; nra.
Qed.
Lemma prod1 u d e p q : 0 <= u <= / 1000000 -> 0 <= p <= 10 -> 0 <= q <= 10 -> Rabs d <= p * u -> Rabs e <= q * u -> exists g, Rabs g <= (p + q + / 1000) * u /\ (1 + d) * (1 + e) = 1 + g.
Proof.
  intros U P Q H1 H2. exists (d + e + d * e). split; [|ring]. assert (Rabs (d * e) <= / 1000 * u).
  { rewrite Rabs_mult. assert (0 <= Rabs d) by apply Rabs_pos. assert (0 <= Rabs e) by apply Rabs_pos. assert (Rabs d * Rabs e <= (p * u) * (q * u)) by (apply Rmult_le_compat; lra). assert (p * q <= 10 * 10) by (apply Rmult_le_compat; lra). assert (u * u <= / 1000000 * u) by nra. assert (0 <= u * u) by nra. nra. }
  assert (T := Rabs_triang (d + e) (d * e)). assert (T2 := Rabs_triang d e). lra.
Qed.
Lemma inv1 u d p : 0 <= u <= / 1000000 -> 0 <= p <= 10 -> Rabs d <= p * u -> exists g, Rabs g <= (p + / 1000) * u /\ / (1 + d) = 1 + g.
Proof.
  intros U P H. assert (B := Rabs_le_inv _ _ H). assert (PU0 : p * u <= / 100000) by nra. assert (N : 1 + d <> 0) by lra. exists (- d / (1 + d)). split; [|field; exact N].
  unfold Rdiv. rewrite Rabs_mult, Rabs_Ropp, Rabs_inv. rewrite (Rabs_pos_eq (1 + d)) by lra.
  apply (Rmult_le_reg_r (1 + d)); [lra|]. rewrite Rmult_assoc, Rinv_l, Rmult_1_r by exact N. assert (0 <= Rabs d) by apply Rabs_pos.
  assert (W : 0 <= (p + / 1000) * u) by nra. assert ((p + / 1000) * u * (1 - / 100000) <= (p + / 1000) * u * (1 + d)) by (apply Rmult_le_compat_l; lra). nra.
Qed.
Lemma sum1 u x y d e p : 0 <= x -> 0 <= y -> 0 <= p * u -> Rabs d <= p * u -> Rabs e <= p * u -> exists g, Rabs g <= p * u /\ x * (1 + d) + y * (1 + e) = (x + y) * (1 + g).
Proof.
  intros X Y U H1 H2. destruct (rel_form (p * u) (x * (1 + d) + y * (1 + e)) (x + y) U) as (g & G & E0).
  - replace (_ - _) with (x * d + y * e) by ring. eapply Rle_trans; [apply Rabs_triang|]. rewrite !Rabs_mult, (Rabs_pos_eq x), (Rabs_pos_eq y), (Rabs_pos_eq (x + y)) by lra. nra.
  - exists g. split; assumption.
Qed.
Lemma within_min k z0 z1 r0 r1 : 0 <= k < 1 -> within_rel k z0 r0 -> within_rel k z1 r1 -> within_rel k (Rmin z0 z1) (Rmin r0 r1) /\ within_rel k (Rmax z0 z1) (Rmax r0 r1).
Proof.
  unfold within_rel. intros K H0 H1. apply Rabs_le_inv in H0, H1.
  assert (M : forall x y, x <= y -> x - k * Rabs x <= y - k * Rabs y /\ x + k * Rabs x <= y + k * Rabs y).
  { intros x y L. unfold Rabs. destruct (Rcase_abs x), (Rcase_abs y); nra. }
  split; apply Rabs_le; unfold Rmin, Rmax.
  - destruct (Rle_dec z0 z1), (Rle_dec r0 r1); try lra.
    + assert (X := M r1 r0 ltac:(lra)). lra.
    + assert (X := M r0 r1 ltac:(lra)). lra.
  - destruct (Rle_dec z0 z1), (Rle_dec r0 r1); try lra.
    + assert (X := M r1 r0 ltac:(lra)). lra.
    + assert (X := M r0 r1 ltac:(lra)). lra.
Qed.

(** the two formulas for the roots of a x^2 - sg bt x + ct, and their accuracy *)
Lemma quad_core u a be c d1 d2 d3 e1 e2 sg : 0 <= u <= / 1000000 -> a <> 0 -> 0 <= be -> ~ (be = 0 /\ c = 0) -> sg = 1 \/ sg = -1 ->
  Rabs d1 <= u -> Rabs d2 <= u -> Rabs d3 <= u -> Rabs e1 <= u -> Rabs e2 <= u ->
  0 <= be * be * (1 + d1) - 4 * (a * c * (1 + d2)) ->
  let D := (be * be * (1 + d1) - 4 * (a * c * (1 + d2))) * (1 + d3) in
  let w := (be + sqrt D * (1 + e1)) * (1 + e2) in
  let bt := be * sqrt (1 + d1) in let ct := c * (1 + d2) in
  exists wt, 0 < wt /\ 0 < w /\ wt = bt + sqrt (bt * bt - 4 * a * ct) /\ 0 <= bt * bt - 4 * a * ct /\
    (exists g, Rabs g <= 254 / 100 * u /\ w = wt * (1 + g)) /\
    forall x, a * (x * x) + (- sg * bt) * x + ct = a * ((x - sg * wt / (2 * a)) * (x - sg * (2 * ct) / wt)).
Proof.
  intros U A0 BE NZ SG H1 H2 H3 HE1 HE2 D0 D w bt ct.
  destruct (sqrt1 u d1 U H1) as (k1 & K1 & E1). destruct (sqrt1 u d3 U H3) as (k3 & K3 & E3).
  assert (B1 := Rabs_le_inv _ _ H1). assert (B2 := Rabs_le_inv _ _ H2). assert (B3 := Rabs_le_inv _ _ H3). assert (BK := Rabs_le_inv _ _ K1).
  assert (BB : bt * bt = be * be * (1 + d1)). { unfold bt. transitivity (be * be * (sqrt (1 + d1) * sqrt (1 + d1))); [ring|]. rewrite sqrt_sqrt by lra. reflexivity. }
  set (Dt := bt * bt - 4 * a * ct).
  assert (DD : Dt = be * be * (1 + d1) - 4 * (a * c * (1 + d2))) by (unfold Dt, ct; rewrite BB; ring).
  assert (DP : 0 <= Dt) by (rewrite DD; exact D0).
  assert (SD : sqrt D = sqrt Dt * (1 + k3)). { unfold D. rewrite <- DD, sqrt_mult by lra. rewrite E3. reflexivity. }
  assert (BT : 0 <= bt) by (apply Rmult_le_pos; [exact BE|apply sqrt_pos]).
  assert (SP := sqrt_pos Dt).
  set (wt := bt + sqrt Dt).
  assert (WP : 0 < wt).
  { destruct (Req_dec be 0) as [Z|Z].
    - assert (C0 : c <> 0) by tauto. assert (Dt <> 0). { rewrite DD, Z. intros Q. apply C0. apply (Rmult_eq_reg_l a); [|exact A0]. apply (Rmult_eq_reg_r (1 + d2)); [|lra]. lra. }
      assert (0 < sqrt Dt) by (apply sqrt_lt_R0; lra). unfold wt. lra.
    - assert (0 < bt). { unfold bt. rewrite E1. apply Rmult_lt_0_compat; lra. } unfold wt. lra. }
  assert (SQ := sqrt_sqrt Dt DP).
  assert (G : exists g, Rabs g <= 254 / 100 * u /\ w = wt * (1 + g)).
  { destruct (inv1 u k1 (51 / 100) U ltac:(lra) K1) as (j & J & EJ).
    destruct (prod1 u k3 e1 (51 / 100) 1 U ltac:(lra) ltac:(lra) K3 ltac:(lra)) as (k & K & EK).
    assert (EB : be = bt * (1 + j)). { rewrite <- EJ. unfold bt. rewrite E1. field. lra. }
    destruct (sum1 u bt (sqrt Dt) j k (152 / 100) BT SP ltac:(lra) ltac:(lra) ltac:(lra)) as (g & Gg & EG).
    destruct (prod1 u g e2 (152 / 100) 1 U ltac:(lra) ltac:(lra) Gg ltac:(lra)) as (h & Hh & EH).
    exists h. split; [lra|]. unfold w. rewrite SD. rewrite EB at 1. replace (sqrt Dt * (1 + k3) * (1 + e1)) with (sqrt Dt * (1 + k)) by (rewrite <- EK; ring). rewrite EG. fold wt. rewrite <- EH. ring. }
  exists wt. split; [exact WP|]. split.
  { destruct G as (g & Gg & ->). apply Rabs_le_inv in Gg. apply Rmult_lt_0_compat; lra. }
  split; [reflexivity|]. split; [exact DP|]. split; [exact G|].
  intros x. assert (WQ : wt * wt = 2 * bt * wt - 4 * a * ct). { replace (wt * wt) with (2 * bt * wt + (sqrt Dt * sqrt Dt - bt * bt)) by (unfold wt; ring). rewrite SQ. unfold Dt. ring. }
  clearbody wt bt ct. clear - A0 WP WQ SG.
  assert (S1 : sg * sg = 1) by (destruct SG; subst; ring).
  assert (P : sg * wt / (2 * a) + sg * (2 * ct) / wt = sg * bt / a). { replace (sg * wt / (2 * a) + sg * (2 * ct) / wt) with (sg * (wt * wt + 4 * a * ct) / (2 * a * wt)) by (field; lra). rewrite WQ. field. lra. }
  assert (Q : (sg * wt / (2 * a)) * (sg * (2 * ct) / wt) = ct / a). { replace ((sg * wt / (2 * a)) * (sg * (2 * ct) / wt)) with ((sg * sg) * ct / a) by (field; lra). rewrite S1. field. exact A0. }
  set (p := sg * wt / (2 * a)) in *. set (q := sg * (2 * ct) / wt) in *.
  replace ((x - p) * (x - q)) with (x * x - (p + q) * x + p * q) by ring. rewrite P, Q. field. exact A0.
Qed.

Section Q.
Context {f : fmt} {m : libm f}.
Notation FT := (float f).
Notation u := (unit_roundoff f).
Notation eta := (smallest_float f / 2).

Lemma u_q : 0 <= u <= / 1000000. Proof. assert (U := u_small (f := f)). lra. Qed.
Lemma normal_err r : bpow radix2 (2 - emax f) <= Rabs r -> Rabs (rndf f r - r) <= u * Rabs r.
Proof.
  intros H. assert (K := relative_error_N_FLT radix2 (3 - emax f - prec f) (prec f) ltac:(destruct f; reflexivity) (fun z => negb (Z.even z)) r).
  replace (3 - emax f - prec f + prec f - 1)%Z with (2 - emax f)%Z in K by ring. rewrite <- (half_u (f := f)). exact (K H).
Qed.
Lemma rel_fin (z : FT) r : Rnd z r -> r = 0 \/ bpow radix2 (-120) <= Rabs r -> Rabs r <= bpow radix2 120 -> finite z /\ exists e, Rabs e <= u /\ B2R z = r * (1 + e).
Proof.
  intros R0 L H. destruct (big_fin z r R0 H) as [F _]. split; [exact F|]. apply rel_form; [apply u_q|]. rewrite (Rnd_finite _ _ R0 F).
  destruct L as [->|L]; [rewrite rnd_0, Rminus_0_r, Rabs_R0; lra|]. apply normal_err. eapply Rle_trans; [|exact L]. apply bpow_le. destruct f; vm_compute; discriminate.
Qed.
Lemma sqrt_rel (x : FT) : finite x -> 0 <= B2R x -> finite (fsqrt x) /\ exists e, Rabs e <= u /\ B2R (fsqrt x) = sqrt (B2R x) * (1 + e).
Proof.
  intros F P. destruct (fsqrt_Rnd x F P) as [R0 F2]. split; [exact F2|]. apply rel_form; [apply u_q|]. rewrite (Rnd_finite _ _ R0 F2).
  destruct (Req_dec (B2R x) 0) as [Z|Z]; [rewrite Z, sqrt_0, rnd_0, Rminus_0_r, Rabs_R0; lra|]. apply normal_err.
  rewrite Rabs_pos_eq by apply sqrt_pos.
  assert (S : bpow radix2 (3 - emax f - prec f) <= B2R x). { rewrite <- (Rabs_pos_eq (B2R x)) by lra. apply abs_B2R_ge_emin. destruct x; cbn in *; try reflexivity; try discriminate; exfalso; apply Z; reflexivity. }
  assert (T : bpow radix2 (2 - emax f) * bpow radix2 (2 - emax f) <= B2R x). { eapply Rle_trans; [|exact S]. rewrite <- bpow_plus. apply bpow_le. destruct f; vm_compute; discriminate. }
  rewrite <- (sqrt_square (bpow radix2 (2 - emax f))) by apply bpow_ge_0. apply sqrt_le_1; [|exact P|exact T]. apply Rmult_le_pos; apply bpow_ge_0.
Qed.
Lemma add_rel (x y : FT) : finite x -> finite y -> Rabs (B2R x + B2R y) <= bpow radix2 120 -> finite (fadd x y) /\ exists e, Rabs e <= u /\ B2R (fadd x y) = (B2R x + B2R y) * (1 + e).
Proof.
  intros Fx Fy B. assert (R0 := fadd_Rnd x y Fx Fy). destruct (big_fin _ _ R0 B) as [F _]. split; [exact F|]. apply rel_form; [apply u_q|].
  rewrite (Rnd_finite _ _ R0 F). assert (Fn := proj2 (fneg_finite y) Fy). assert (R1 := fsub_fadd x (fneg y) Fx Fn). rewrite fneg_B2R in R1.
  replace (B2R x - - B2R y) with (B2R x + B2R y) in R1 by ring. destruct (big_fin _ _ R1 B) as [F1 _].
  assert (K := sub_rel x (fneg y) Fx Fn F1). rewrite fneg_B2R, (Rnd_finite _ _ R1 F1) in K. replace (B2R x - - B2R y) with (B2R x + B2R y) in K by ring. exact K.
Qed.
Lemma dbl_exact (x : FT) : finite x -> Rabs (B2R x) <= bpow radix2 110 -> finite (fadd x x) /\ B2R (fadd x x) = 2 * B2R x.
Proof.
  intros F B. assert (R0 := fadd_Rnd x x F F). assert (Bb : Rabs (B2R x + B2R x) <= bpow radix2 120).
  { replace (B2R x + B2R x) with (2 * B2R x) by ring. rewrite Rabs_mult, (Rabs_pos_eq 2) by lra. eapply Rle_trans; [apply Rmult_le_compat_l; [lra|exact B]|]. change 2 with (bpow radix2 1). rewrite <- bpow_plus. apply bpow_le. lia. }
  destruct (big_fin _ _ R0 Bb) as [F2 _]. split; [exact F2|]. rewrite (Rnd_finite _ _ R0 F2). replace (B2R x + B2R x) with (B2R x * bpow radix2 1) by (change (bpow radix2 1) with 2; ring).
  rewrite rnd_id; [change (bpow radix2 1) with 2; ring|]. apply (mult_bpow_pos_exact_FLT radix2 (3 - emax f - prec f) (prec f)); [apply (generic_format_B2R (prec f) (emax f))|lia].
Qed.
Lemma four_exact (x : FT) : finite x -> Rabs (B2R x) <= bpow radix2 110 -> finite (fmul x (f_of_Z 4)) /\ B2R (fmul x (f_of_Z 4)) = 4 * B2R x.
Proof.
  intros F B. destruct (f_of_Z_exact (f := f) 4 ltac:(destruct f; vm_compute; discriminate)) as [F4 V4]. assert (R0 := fmul_Rnd x (f_of_Z 4) F F4). rewrite V4 in R0.
  assert (Bb : Rabs (B2R x * 4) <= bpow radix2 120).
  { rewrite Rabs_mult, (Rabs_pos_eq 4) by lra. eapply Rle_trans; [apply Rmult_le_compat_r; [lra|exact B]|]. change 4 with (bpow radix2 2). rewrite <- bpow_plus. apply bpow_le. lia. }
  destruct (big_fin _ _ R0 Bb) as [F2 _]. split; [exact F2|]. rewrite (Rnd_finite _ _ R0 F2). replace (B2R x * 4) with (B2R x * bpow radix2 2) by (change (bpow radix2 2) with 4; ring).
  rewrite rnd_id; [change (bpow radix2 2) with 4; ring|]. apply (mult_bpow_pos_exact_FLT radix2 (3 - emax f - prec f) (prec f)); [apply (generic_format_B2R (prec f) (emax f))|lia].
Qed.

Notation L50 := (bpow radix2 (-50)).
Notation H50 := (bpow radix2 50).
Lemma LH : 0 < L50 /\ 1 <= H50 /\ L50 * H50 = 1.
Proof. split; [apply bpow_gt_0|]. split; [change 1 with (bpow radix2 0); apply bpow_le; lia|]. rewrite <- bpow_plus. reflexivity. Qed.
Lemma L120 : bpow radix2 (-120) <= / 1048576 * (L50 * L50).
Proof. rewrite <- bpow_plus. change (/ 1048576) with (bpow radix2 (-20)). rewrite <- bpow_plus. apply bpow_le. lia. Qed.
Lemma H120 : bpow radix2 120 = 1048576 * (H50 * H50).
Proof. rewrite <- bpow_plus. change 1048576 with (bpow radix2 20). rewrite <- bpow_plus. reflexivity. Qed.
Lemma H110 : bpow radix2 110 = 1024 * (H50 * H50).
Proof. rewrite <- bpow_plus. change 1024 with (bpow radix2 10). rewrite <- bpow_plus. reflexivity. Qed.
Lemma inv_LH x k : 0 < k -> k * L50 <= x -> / x <= H50 / k.
Proof.
  intros K H. destruct LH as (P & P1 & E0). assert (0 < k * L50) by (apply Rmult_lt_0_compat; lra).
  apply Rle_trans with (/ (k * L50)); [apply Rinv_le; lra|]. rewrite Rinv_mult. replace (/ L50) with H50 by (apply (Rmult_eq_reg_l L50); [rewrite Rinv_r; lra|lra]). lra.
Qed.
Lemma inv_HL x k : 0 < k -> 0 < x <= k * H50 -> L50 / k <= / x.
Proof.
  intros K H. destruct LH as (P & P1 & E0).
  apply Rle_trans with (/ (k * H50)); [|apply Rinv_le; lra]. rewrite Rinv_mult. assert (N : H50 <> 0) by lra. assert (E1 : / H50 = L50). { apply (Rmult_eq_reg_l H50); [|exact N]. rewrite Rinv_r by exact N. lra. } rewrite E1. lra.
Qed.
Lemma mprod (x y l1 h1 l2 h2 : R) : 0 <= l1 -> 0 <= l2 -> l1 <= Rabs x <= h1 -> l2 <= Rabs y <= h2 -> l1 * l2 <= Rabs (x * y) <= h1 * h2.
Proof. intros P1 P2 X Y. rewrite Rabs_mult. split; apply Rmult_le_compat; try lra; apply Rabs_pos. Qed.
Lemma zm_bounds (x : FT) : zero_or_moderate x -> finite x /\ (B2R x = 0 \/ L50 <= Rabs (B2R x) <= H50).
Proof. intros [[F M]|[F Z]]; auto. Qed.
Lemma zm_prod (x y : FT) : zero_or_moderate x -> zero_or_moderate y ->
  finite (fmul x y) /\ (exists e, Rabs e <= u /\ B2R (fmul x y) = B2R x * B2R y * (1 + e)) /\ Rabs (B2R x * B2R y) <= H50 * H50.
Proof.
  intros Hx Hy. apply zm_bounds in Hx, Hy. destruct Hx as [Fx Bx], Hy as [Fy By]. destruct LH as (LP & HP & _).
  assert (H : B2R x * B2R y = 0 \/ L50 * L50 <= Rabs (B2R x * B2R y) <= H50 * H50).
  { destruct Bx as [->|Bx]; [left; ring|]. destruct By as [->|By]; [left; ring|]. right. apply mprod; lra. }
  assert (HH : 1 <= H50 * H50) by nra. assert (L := L120). assert (H12 := H120).
  assert (B : Rabs (B2R x * B2R y) <= H50 * H50). { destruct H as [->|H]; [rewrite Rabs_R0; lra|apply H]. }
  destruct (rel_fin _ _ (fmul_Rnd x y Fx Fy)) as [F E0]; [|lra|auto].
  destruct H as [H|H]; [auto|]. right. assert (0 < L50 * L50) by nra. lra.
Qed.
Lemma is_nn (x : FT) : finite x -> is_nonnegative x = Rle_bool 0 (B2R x).
Proof. intros F. unfold is_nonnegative. change (sge x szero) with (ge_of fcmp x (fzero false)). rewrite ge_b; [|apply nonnan_of_finite; exact F|reflexivity]. rewrite (E_B2R x F). reflexivity. Qed.

Lemma sc x e : 0 <= x -> - / 1000 <= e <= / 1000 -> 99 / 100 * x <= x * (1 + e) <= 101 / 100 * x.
Proof. intros. nra. Qed.
Lemma sc_u x e k : 0 <= x -> 0 <= k <= 10 -> - (k * u) <= e <= k * u -> 99 / 100 * x <= x * (1 + e) <= 101 / 100 * x.
Proof. intros P K H. assert (U := u_q). apply sc; [exact P|]. assert (k * u <= 10 * / 1000000) by (apply Rmult_le_compat; lra). lra. Qed.
Lemma disc_le bt act : 0 <= bt <= 101 / 100 * H50 -> Rabs act <= 101 / 100 * (H50 * H50) -> 0 <= bt * bt - 4 * act -> sqrt (bt * bt - 4 * act) <= 3 * H50.
Proof.
  intros B C D. destruct LH as (_ & P & _). rewrite <- (sqrt_square (3 * H50)) by lra. apply sqrt_le_1; [exact D|apply Rmult_le_pos; lra|].
  apply Rabs_le_inv in C. assert (bt * bt <= (101 / 100 * H50) * (101 / 100 * H50)) by (apply Rmult_le_compat; lra). lra.
Qed.

(** both branches of the code, with [sg] the sign of the larger root *)
Lemma quad_roots (a b c : FT) (be x y s w : FT) sg d1 d2 d3 (D : FT) :
  moderate a -> zero_or_moderate b -> zero_or_moderate c -> ~ (B2R b = 0 /\ B2R c = 0) -> sg = 1 \/ sg = -1 ->
  finite be -> B2R be = Rabs (B2R b) -> finite D -> 0 <= B2R D ->
  Rabs d1 <= u -> Rabs d2 <= u -> Rabs d3 <= u ->
  B2R D = (B2R b * B2R b * (1 + d1) - 4 * (B2R a * B2R c * (1 + d2))) * (1 + d3) ->
  s = fsqrt D -> w = fadd be s -> (finite w -> finite x) -> B2R x = sg * B2R w -> finite y -> B2R y = sg * (2 * B2R c) ->
  let ta := fdiv (fmul x half) a in let tb := fdiv y w in
  let bt := Rabs (B2R b) * sqrt (1 + d1) in let ct := B2R c * (1 + d2) in
  finite ta /\ finite tb /\ exists ra rb, (forall x, B2R a * (x * x) + (- sg * bt) * x + ct = B2R a * ((x - ra) * (x - rb))) /\
    within_rel (5 * u) (B2R ta) ra /\ within_rel (5 * u) (B2R tb) rb.
Proof.
  intros [Fa Ma] Hb Hc NZ SG Fbe Ebe FD PD H1 H2 H3 ED Es Ew Fx Ex Fy Ey ta tb bt ct.
  assert (U := u_q). destruct LH as (LP & HP & ELH). assert (HH1 : 1 <= H50 * H50) by nra. assert (A0 : B2R a <> 0). { intros Z. rewrite Z, Rabs_R0 in Ma. lra. }
  apply zm_bounds in Hb, Hc. destruct Hb as [Fb Bb], Hc as [Fc Bc].
  destruct (sqrt_rel D FD PD) as (Fs & e1 & E1 & Es2). rewrite <- Es in Fs, Es2.
  assert (BQ : B2R b * B2R b = B2R be * B2R be). { rewrite Ebe. rewrite <- Rabs_mult. symmetry. apply Rabs_pos_eq. apply Rle_0_sqr. } rewrite BQ in ED.
  assert (BE0 : 0 <= B2R be) by (rewrite Ebe; apply Rabs_pos).
  assert (NZ2 : ~ (B2R be = 0 /\ B2R c = 0)). { rewrite Ebe. intros [Q1 Q2]. apply NZ. split; [|exact Q2]. destruct (Req_dec (B2R b) 0) as [Z|Z]; [exact Z|]. apply Rabs_no_R0 in Z. contradiction. }
  assert (B1 := Rabs_le_inv _ _ H1). assert (B2 := Rabs_le_inv _ _ H2). assert (B3 := Rabs_le_inv _ _ H3).
  assert (D0 : 0 <= B2R be * B2R be * (1 + d1) - 4 * (B2R a * B2R c * (1 + d2))). { rewrite ED in PD. apply (Rmult_le_reg_r (1 + d3)); [lra|]. rewrite Rmult_0_l. exact PD. }
  (* size of the sum *)
  destruct (sqrt1 u d1 U H1) as (k1 & K1 & EK1). assert (BK := Rabs_le_inv _ _ K1).
  assert (BEH : B2R be <= H50). { rewrite Ebe. destruct Bb as [->|Bb]; [rewrite Rabs_R0; lra|lra]. }
  assert (BTH : 0 <= bt <= 101 / 100 * H50). { unfold bt. rewrite EK1, <- Ebe. assert (X := sc_u (B2R be) k1 (51 / 100) BE0 ltac:(lra) ltac:(lra)). lra. }
  assert (CTH : Rabs (B2R a * ct) <= 101 / 100 * (H50 * H50)).
  { unfold ct. destruct Bc as [->|Bc]; [rewrite Rmult_0_l, Rmult_0_r, Rabs_R0; lra|]. destruct (mprod (B2R a) (B2R c) L50 H50 L50 H50 ltac:(lra) ltac:(lra) Ma Bc) as [_ M2].
    replace (B2R a * (B2R c * (1 + d2))) with ((B2R a * B2R c) * (1 + d2)) by ring. rewrite Rabs_mult, (Rabs_pos_eq (1 + d2)) by lra. assert (X := sc_u (Rabs (B2R a * B2R c)) d2 1 ltac:(apply Rabs_pos) ltac:(lra) ltac:(lra)). lra. }
  assert (SUM : Rabs (B2R be + B2R s) <= bpow radix2 120 /\ True).
  { split; [|exact I]. destruct (quad_core u (B2R a) (B2R be) (B2R c) d1 d2 d3 e1 0 sg U A0 BE0 NZ2 SG H1 H2 H3 E1 ltac:(rewrite Rabs_R0; lra) D0) as (wt & WP & WP2 & EW & DP & (g & G & EG) & _).
    rewrite <- ED, <- Es2 in EG, WP2. rewrite Rplus_0_r, Rmult_1_r in EG, WP2. rewrite Rabs_pos_eq by lra. rewrite EG. apply Rabs_le_inv in G.
    rewrite Ebe in EW, DP. fold bt ct in EW, DP.
    assert (SH : sqrt (bt * bt - 4 * B2R a * ct) <= 3 * H50). { rewrite Rmult_assoc in *. apply disc_le; assumption. }
    rewrite H120. assert (H50 <= H50 * H50) by (clear - HP; nra). assert (wt <= 5 * H50) by lra. assert (X := sc_u wt g (254 / 100) ltac:(lra) ltac:(lra) ltac:(lra)). lra. }
  destruct SUM as [SUM _].
  destruct (add_rel be s Fbe Fs SUM) as (Fw & e2 & E2 & Ew2). rewrite <- Ew in Fw, Ew2. specialize (Fx Fw).
  destruct (quad_core u (B2R a) (B2R be) (B2R c) d1 d2 d3 e1 e2 sg U A0 BE0 NZ2 SG H1 H2 H3 E1 E2 D0) as (wt & WP & WP2 & EW & DP & (g & G & EG) & FAC).
  rewrite <- ED, <- Es2, <- Ew2 in EG, WP2. rewrite Ebe in EW, DP, FAC. fold bt ct in EW, DP, FAC. assert (Gb := Rabs_le_inv _ _ G).
  assert (WH : L50 * (9 / 10) <= wt <= 5 * H50).
  { split.
    - rewrite EW. assert (SP := sqrt_pos (bt * bt - 4 * B2R a * ct)). destruct Bb as [Z|Bb].
      + assert (BT0 : bt = 0) by (unfold bt; rewrite Z, Rabs_R0; ring). rewrite BT0 in *. destruct Bc as [Z2|Bc]; [exfalso; apply NZ; auto|].
        rewrite Rplus_0_l. rewrite <- (sqrt_square (L50 * (9 / 10))) by lra. apply sqrt_le_1; [apply Rmult_le_pos; lra|exact DP|].
        destruct (mprod (B2R a) (B2R c) L50 H50 L50 H50 ltac:(lra) ltac:(lra) Ma Bc) as [M1 _].
        assert (M3 : L50 * L50 * (9 / 10) <= Rabs (B2R a * ct)). { unfold ct. replace (B2R a * (B2R c * (1 + d2))) with ((B2R a * B2R c) * (1 + d2)) by ring. rewrite Rabs_mult, (Rabs_pos_eq (1 + d2)) by lra. assert (X := sc_u (Rabs (B2R a * B2R c)) d2 1 ltac:(apply Rabs_pos) ltac:(lra) ltac:(lra)). assert (0 <= L50 * L50) by (apply Rmult_le_pos; lra). lra. }
        assert (M4 : Rabs (B2R a * ct) = - (B2R a * ct)) by (apply Rabs_left1; lra). assert (0 <= L50 * L50) by (apply Rmult_le_pos; lra). lra.
      + assert (9 / 10 * L50 <= bt) by (unfold bt; rewrite EK1; assert (X := sc_u (Rabs (B2R b)) k1 (51 / 100) ltac:(apply Rabs_pos) ltac:(lra) ltac:(lra)); lra). lra.
    - rewrite EW. assert (SH : sqrt (bt * bt - 4 * B2R a * ct) <= 3 * H50). { rewrite Rmult_assoc in *. apply disc_le; assumption. } lra. }
  assert (WB : / 2 * L50 <= B2R w <= 6 * H50) by (rewrite EG; assert (X := sc_u wt g (254 / 100) ltac:(lra) ltac:(lra) ltac:(lra)); lra).
  assert (W0 : B2R w <> 0) by lra.
  assert (L12 := L120). assert (H12 := H120). assert (LL : 0 < L50 * L50) by (apply Rmult_lt_0_compat; lra). assert (LL1 : L50 <= 1) by (clear - LP HP ELH; nra). assert (HH : H50 <= H50 * H50) by (clear - HP; nra). assert (LL2 : L50 * L50 <= L50) by (clear - LP LL1; nra).
  assert (ASG : Rabs sg = 1) by (clear - SG; unfold Rabs; destruct (Rcase_abs sg); lra).
  (* first root *)
  destruct (half_val (f := f)) as [Fh Vh].
  assert (RX := fmul_Rnd x half Fx Fh). rewrite Ex, Vh in RX.
  assert (AX : Rabs (sg * B2R w * (1 / 2)) = B2R w / 2). { rewrite !Rabs_mult, ASG, (Rabs_pos_eq (B2R w)), (Rabs_pos_eq (1 / 2)) by lra. field. }
  destruct (rel_fin _ _ RX) as (Fq & e4 & E4 & Eq4); [right; rewrite AX; lra|rewrite AX, H12; lra|]. assert (B4 := Rabs_le_inv _ _ E4).
  assert (RT := fdiv_Rnd (fmul x half) a Fq Fa A0). rewrite Eq4 in RT. fold ta in RT.
  assert (AT : Rabs (sg * B2R w * (1 / 2) * (1 + e4) / B2R a) = B2R w / 2 * (1 + e4) * / Rabs (B2R a)). { unfold Rdiv at 1. rewrite Rabs_mult, Rabs_inv. f_equal. rewrite Rabs_mult, AX, (Rabs_pos_eq (1 + e4)) by lra. reflexivity. }
  assert (IA1 := inv_LH (Rabs (B2R a)) 1 ltac:(lra) ltac:(lra)). assert (IA2 := inv_HL (Rabs (B2R a)) 1 ltac:(lra) ltac:(lra)). unfold Rdiv in IA1, IA2. rewrite Rinv_1, Rmult_1_r in IA1, IA2.
  assert (QB : / 5 * L50 <= B2R w / 2 * (1 + e4) <= 4 * H50) by (assert (X := sc_u (B2R w / 2) e4 1 ltac:(lra) ltac:(lra) ltac:(lra)); lra).
  assert (TB : / 5 * L50 * L50 <= B2R w / 2 * (1 + e4) * / Rabs (B2R a) <= 4 * H50 * H50) by (split; apply Rmult_le_compat; lra).
  destruct (rel_fin _ _ RT) as (Fta & e5 & E5 & Eta); [right; rewrite AT; lra|rewrite AT, H12; lra|].
  (* second root *)
  assert (RU := fdiv_Rnd y w Fy Fw W0). rewrite Ey in RU. fold tb in RU.
  assert (AU : Rabs (sg * (2 * B2R c) / B2R w) = 2 * Rabs (B2R c) * / B2R w). { unfold Rdiv. rewrite !Rabs_mult, ASG, Rabs_inv, (Rabs_pos_eq (B2R w)), (Rabs_pos_eq 2) by lra. ring. }
  assert (IW1 := inv_LH (B2R w) (/ 2) ltac:(lra) ltac:(lra)). assert (IW2 := inv_HL (B2R w) 6 ltac:(lra) ltac:(lra)).
  assert (UB : B2R c = 0 \/ (2 * L50) * (L50 / 6) <= 2 * Rabs (B2R c) * / B2R w <= (2 * H50) * (H50 / / 2)).
  { destruct Bc as [Z|Bc]; [left; exact Z|]. right. assert (0 < / B2R w) by (apply Rinv_0_lt_compat; lra). split; apply Rmult_le_compat; lra. }
  destruct (rel_fin _ _ RU) as (Ftb & e6 & E6 & Etb).
  { destruct UB as [Z|UB]; [left; rewrite Z; unfold Rdiv; ring|right; rewrite AU]. lra. }
  { rewrite AU, H12. destruct UB as [Z|UB]; [rewrite Z, Rabs_R0; lra|]. replace (2 * H50 * (H50 / / 2)) with (4 * (H50 * H50)) in UB by field. lra. }
  split; [exact Fta|]. split; [exact Ftb|].
  exists (sg * wt / (2 * B2R a)), (sg * (2 * ct) / wt). split; [exact FAC|]. split.
  - destruct (prod1 u g e4 (254 / 100) 1 U ltac:(lra) ltac:(lra) G ltac:(lra)) as (p & P & EP). destruct (prod1 u p e5 (3541 / 1000) 1 U ltac:(lra) ltac:(lra) ltac:(lra) ltac:(lra)) as (q & Q & EQ).
    apply (form_rel _ _ _ q); [lra|]. rewrite Eta, EG, <- EQ, <- EP. field. exact A0.
  - destruct (inv1 u g (254 / 100) U ltac:(lra) G) as (i & I & EI). destruct (inv1 u d2 1 U ltac:(lra) ltac:(lra)) as (j & J & EJ).
    destruct (prod1 u i j (2541 / 1000) (1001 / 1000) U ltac:(lra) ltac:(lra) ltac:(lra) ltac:(lra)) as (p & P & EP). destruct (prod1 u p e6 (3543 / 1000) 1 U ltac:(lra) ltac:(lra) ltac:(lra) ltac:(lra)) as (q & Q & EQ).
    apply (form_rel _ _ _ q); [lra|]. rewrite Etb, EG, <- EQ, <- EP, <- EI, <- EJ. unfold ct. field. repeat split; lra.
Qed.

Lemma min_max_val (x y : FT) : finite x -> finite y -> exists t0 t1, min_max x y = (t0, t1) /\ finite t0 /\ finite t1 /\ B2R t0 = Rmin (B2R x) (B2R y) /\ B2R t1 = Rmax (B2R x) (B2R y).
Proof.
  intros Fx Fy. unfold min_max. change (slt x y) with (lt_of fcmp x y). rewrite lt_b by (apply nonnan_of_finite; assumption). rewrite !E_B2R by assumption.
  destruct (Rlt_bool_spec (B2R x) (B2R y)); do 2 eexists; split; try reflexivity; (split; [assumption|]); (split; [assumption|]).
  - rewrite Rmin_left, Rmax_right by lra. auto.
  - rewrite Rmin_right, Rmax_left by lra. auto.
Qed.
Lemma quad_stable (a b c : FT) : moderate a -> zero_or_moderate b -> zero_or_moderate c -> ~ (B2R b = 0 /\ B2R c = 0) ->
  exists b' c', within_rel u b' (B2R b) /\ within_rel u c' (B2R c) /\
    match solve_quadratic a b c with
    | None => b' * b' < 4 * B2R a * c'
    | Some (t0, t1) => finite t0 /\ finite t1 /\ exists r0 r1, sorted_roots (B2R a) b' c' r0 r1 /\ within_rel (5 * u) (B2R t0) r0 /\ within_rel (5 * u) (B2R t1) r1
    end.
Proof.
  intros Ha Hb Hc NZ. assert (U := u_q). destruct LH as (LP & HP & ELH). assert (HH : 1 <= H50 * H50) by (clear - HP; nra).
  destruct (zm_prod b b Hb Hb) as (F1 & (d1 & H1 & V1) & S1). destruct (zm_prod a c (or_introl Ha) Hc) as (F2 & (d2 & H2 & V2) & S2).
  assert (B1 := Rabs_le_inv _ _ H1). assert (B2 := Rabs_le_inv _ _ H2).
  assert (S3 : Rabs (B2R (fmul a c)) <= bpow radix2 110).
  { rewrite V2, Rabs_mult, (Rabs_pos_eq (1 + d2)) by lra. assert (X := sc_u (Rabs (B2R a * B2R c)) d2 1 ltac:(apply Rabs_pos) ltac:(lra) ltac:(lra)). rewrite H110. lra. }
  destruct (four_exact (fmul a c) F2 S3) as [F3 V3].
  assert (S4 : Rabs (B2R (fmul b b) - B2R (fmul (fmul a c) (f_of_Z 4))) <= bpow radix2 120).
  { rewrite V3, V1, H120. rewrite H110 in S3. assert (X := sc_u (Rabs (B2R b * B2R b)) d1 1 ltac:(apply Rabs_pos) ltac:(lra) ltac:(lra)). unfold Rminus. eapply Rle_trans; [apply Rabs_triang|]. rewrite Rabs_Ropp, !Rabs_mult, (Rabs_pos_eq (1 + d1)), (Rabs_pos_eq 4) by lra. rewrite Rabs_mult in X, S1. lra. }
  set (d := fsub (fmul b b) (fmul (fmul a c) (f_of_Z 4))) in *.
  destruct (big_fin d _ (fsub_fadd _ _ F1 F3) S4) as [Fd _].
  destruct (rel_form u (B2R d) _ ltac:(lra) (sub_rel _ _ F1 F3 Fd)) as (d3 & H3 & V4). rewrite V1, V3, V2 in V4. assert (B3 := Rabs_le_inv _ _ H3).
  destruct (sqrt1 u d1 U H1) as (k1 & K1 & EK1). assert (BK := Rabs_le_inv _ _ K1).
  destruct (zm_bounds b Hb) as [Fb Bb]. destruct (zm_bounds c Hc) as [Fc Bc].
  assert (Cs : Rabs (B2R c) <= bpow radix2 110). { assert (H50 <= bpow radix2 110) by (apply bpow_le; lia). destruct Bc as [->|Bc]; [rewrite Rabs_R0|]; lra. }
  destruct (dbl_exact c Fc Cs) as [F2c V2c].
  exists (B2R b * (1 + k1)), (B2R c * (1 + d2)). split; [apply (form_rel _ _ _ k1); [lra|reflexivity]|]. split; [apply (form_rel _ _ _ d2); [lra|reflexivity]|].
  assert (BB : (B2R b * (1 + k1)) * (B2R b * (1 + k1)) = B2R b * B2R b * (1 + d1)). { rewrite <- EK1. transitivity (B2R b * B2R b * (sqrt (1 + d1) * sqrt (1 + d1))); [ring|]. rewrite sqrt_sqrt by lra. reflexivity. }
  assert (QS : solve_quadratic a b c = if is_nonnegative d then if is_nonnegative b then Some (min_max (fdiv (fmul (fneg (fadd b (fsqrt d))) half) a) (fdiv (fneg (fadd c c)) (fadd b (fsqrt d))))
     else Some (min_max (fdiv (fmul (fadd (fneg b) (fsqrt d)) half) a) (fdiv (fadd c c) (fadd (fneg b) (fsqrt d)))) else None) by reflexivity.
  rewrite QS. rewrite (is_nn d Fd), (is_nn b Fb). clear QS. 
  destruct (Rle_bool_spec 0 (B2R d)) as [D0|D0].
  2: { rewrite BB. rewrite V4 in D0. assert (X : B2R b * B2R b * (1 + d1) - 4 * (B2R a * B2R c * (1 + d2)) < 0). { apply (Rmult_lt_reg_r (1 + d3)); [lra|]. rewrite Rmult_0_l. exact D0. } lra. }
  assert (FIN : forall ta tb : FT, finite ta -> finite tb -> (exists ra rb, (forall x, B2R a * (x * x) + (B2R b * (1 + k1)) * x + B2R c * (1 + d2) = B2R a * ((x - ra) * (x - rb))) /\
      within_rel (5 * u) (B2R ta) ra /\ within_rel (5 * u) (B2R tb) rb) ->
    match Some (min_max ta tb) with None => (B2R b * (1 + k1)) * (B2R b * (1 + k1)) < 4 * B2R a * (B2R c * (1 + d2))
    | Some (t0, t1) => finite t0 /\ finite t1 /\ exists r0 r1, sorted_roots (B2R a) (B2R b * (1 + k1)) (B2R c * (1 + d2)) r0 r1 /\ within_rel (5 * u) (B2R t0) r0 /\ within_rel (5 * u) (B2R t1) r1 end).
  { intros ta tb Fta Ftb (ra & rb & FAC & WA & WB). destruct (min_max_val ta tb Fta Ftb) as (t0 & t1 & -> & G0 & G1 & E0 & E1). split; [exact G0|]. split; [exact G1|].
    exists (Rmin ra rb), (Rmax ra rb). rewrite E0, E1. destruct (within_min (5 * u) _ _ _ _ ltac:(lra) WA WB) as [W1 W2]. split; [|auto]. split.
    - eapply Rle_trans; [apply Rmin_l|apply Rmax_l].
    - intros x. rewrite FAC. f_equal. unfold Rmin, Rmax. destruct (Rle_dec ra rb); ring. }
  destruct (Rle_bool_spec 0 (B2R b)) as [S|S].
  - destruct (quad_roots a b c b (fneg (fadd b (fsqrt d))) (fneg (fadd c c)) (fsqrt d) (fadd b (fsqrt d)) (-1) d1 d2 d3 d Ha Hb Hc NZ ltac:(auto) Fb ltac:(rewrite Rabs_pos_eq; auto) Fd D0 H1 H2 H3 V4 eq_refl eq_refl
      (fun F => proj2 (fneg_finite _) F) ltac:(rewrite fneg_B2R; ring) (proj2 (fneg_finite _) F2c) ltac:(rewrite fneg_B2R, V2c; ring)) as (Fta & Ftb & ra & rb & FAC & WA & WB).
    apply FIN; [exact Fta|exact Ftb|]. exists ra, rb. split; [|auto]. intros x. rewrite <- FAC, Rabs_pos_eq, EK1 by exact S. ring.
  - destruct (quad_roots a b c (fneg b) (fadd (fneg b) (fsqrt d)) (fadd c c) (fsqrt d) (fadd (fneg b) (fsqrt d)) 1 d1 d2 d3 d Ha Hb Hc NZ ltac:(auto) (proj2 (fneg_finite _) Fb) ltac:(rewrite fneg_B2R, Rabs_left; auto) Fd D0 H1 H2 H3 V4 eq_refl eq_refl
      (fun F => F) ltac:(ring) F2c ltac:(rewrite V2c; ring)) as (Fta & Ftb & ra & rb & FAC & WA & WB).
    apply FIN; [exact Fta|exact Ftb|]. exists ra, rb. split; [|auto]. intros x. rewrite <- FAC, Rabs_left, EK1 by exact S. ring.
Qed.
End Q.
Lemma C84_sample f : moderate (f_of_Z 1 : float f) /\ zero_or_moderate (f_of_Z (-3) : float f) /\
  zero_or_moderate (f_of_Z 2 : float f) /\ ~ (B2R (f_of_Z (-3) : float f) = 0 /\ B2R (f_of_Z 2 : float f) = 0) /\
  (forall m : libm f, solve_quadratic (f_of_Z 1 : float f) (f_of_Z (-3)) (f_of_Z 2) = Some (f_of_Z 1, f_of_Z 2)).
Proof.
  assert (1000 <= 2 ^ prec f)%Z by (destruct f; vm_compute; discriminate).
  assert (L : bpow radix2 (-50) <= 1) by (change 1 with (bpow radix2 0); apply bpow_le; lia).
  assert (U : 4 <= bpow radix2 50) by (change 4 with (bpow radix2 2); apply bpow_le; lia).
  destruct (f_of_Z_exact (f := f) 1) as [F1 V1]; [lia|]. destruct (f_of_Z_exact (f := f) 2) as [F2 V2]; [lia|]. destruct (f_of_Z_exact (f := f) (-3)) as [F3 V3]; [lia|].
  assert (R3 : Rabs (-3) = 3) by (unfold Rabs; destruct Rcase_abs; lra).
  split; [split; [exact F1|]; rewrite V1, Rabs_pos_eq by lra; lra|]. split; [left; split; [exact F3|]; rewrite V3, R3; lra|].
  split; [left; split; [exact F2|]; rewrite V2, Rabs_pos_eq by lra; lra|]. split; [rewrite V3; lra|]. intros m.
  set (a := f_of_Z 1 : float f). set (b := f_of_Z (-3) : float f). set (c := f_of_Z 2 : float f).
  set (d := fsub (fmul b b) (fmul (fmul a c) (f_of_Z 4))).
  assert (QS : solve_quadratic a b c = if is_nonnegative d then if is_nonnegative b then Some (min_max (fdiv (fmul (fneg (fadd b (fsqrt d))) half) a) (fdiv (fneg (fadd c c)) (fadd b (fsqrt d))))
     else Some (min_max (fdiv (fmul (fadd (fneg b) (fsqrt d)) half) a) (fdiv (fadd c c) (fadd (fneg b) (fsqrt d)))) else None) by reflexivity.
  rewrite QS. assert (N1 : is_nonnegative d = true) by (destruct f; vm_compute; reflexivity). assert (N2 : is_nonnegative b = false) by (destruct f; vm_compute; reflexivity). rewrite N1, N2.
  assert (E1 : fdiv (fmul (fadd (fneg b) (fsqrt d)) half) a = f_of_Z 2) by (apply B2SF_inj; destruct f; vm_compute; reflexivity).
  assert (E2 : fdiv (fadd c c) (fadd (fneg b) (fsqrt d)) = f_of_Z 1) by (apply B2SF_inj; destruct f; vm_compute; reflexivity).
  rewrite E1, E2. assert (E3 : slt (f_of_Z 2 : float f) (f_of_Z 1) = false) by (destruct f; vm_compute; reflexivity). unfold min_max. rewrite E3. reflexivity.
Qed.
