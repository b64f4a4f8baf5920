(** Disk sampling in f32/f64: distance to the exact map. *)
From Coq Require Import ZArith Reals Bool List Lra Lia.
From Coq Require Vector Fin.
From Flocq Require Import Core BinarySingleNaN.
From Verif.Model Require Import FloatBase Scalar Float Interval Outcome Vec Transform XReal Geometry Camera.
From Verif Require Import Spec SpecGeom SpecShape SpecCamera SpecTrig.
From Verif.Proofs Require Import BitsLemmas FloatLemmas ScalarProofs IntervalProofs2 XRealLemmas VectorFloat SlabFloat VectorErr PiBounds IntervalTrig2 CameraProofs.
Open Scope R_scope.
Notation "v @ i" := (Vector.nth v i) (at level 20, only parsing).
Local Arguments finite {f} x : simpl never.

(** ** reals *)
Lemma sin_le_abs x : Rabs (sin x) <= Rabs x.
Proof.
  assert (P : forall y, 0 < y -> Rabs (sin y) <= y).
  { intros y Y. destruct (Rle_or_lt 1 y) as [K|K].
    - assert (B := SIN_bound y). apply Rle_trans with 1; [apply Rabs_le; lra|exact K].
    - assert (0 <= sin y) by (apply sin_ge_0; assert (L := PI_lower_bound); lra). rewrite Rabs_pos_eq by assumption. apply Rlt_le, sin_lt_x, Y. }
  destruct (Rtotal_order x 0) as [K|[->|K]].
  - rewrite <- (Rabs_Ropp x), <- (Rabs_Ropp (sin x)), <- sin_neg. rewrite (Rabs_pos_eq (- x)) by lra. apply P. lra.
  - rewrite sin_0. lra.
  - rewrite (Rabs_pos_eq x) by lra. apply P, K.
Qed.
Lemma cos_lip a b : Rabs (cos a - cos b) <= Rabs (a - b).
Proof.
  rewrite form2. rewrite !Rabs_mult. rewrite (Rabs_left (-2)) by lra. assert (S := sin_le_abs ((a - b) / 2)).
  replace (Rabs (a - b)) with (2 * Rabs ((a - b) / 2)). 2: { unfold Rdiv. rewrite Rabs_mult, (Rabs_pos_eq (/ 2)) by lra. lra. }
  assert (B : Rabs (sin ((a + b) / 2)) <= 1) by (apply Rabs_le, SIN_bound). assert (P := Rabs_pos (sin ((a - b) / 2))). assert (Q := Rabs_pos (sin ((a + b) / 2))). nra.
Qed.
Lemma sin_lip a b : Rabs (sin a - sin b) <= Rabs (a - b).
Proof.
  rewrite form4. rewrite !Rabs_mult. rewrite (Rabs_pos_eq 2) by lra. assert (S := sin_le_abs ((a - b) / 2)).
  replace (Rabs (a - b)) with (2 * Rabs ((a - b) / 2)). 2: { unfold Rdiv. rewrite Rabs_mult, (Rabs_pos_eq (/ 2)) by lra. lra. }
  assert (B : Rabs (cos ((a + b) / 2)) <= 1) by (apply Rabs_le, COS_bound). assert (P := Rabs_pos (sin ((a - b) / 2))). assert (Q := Rabs_pos (cos ((a + b) / 2))). nra.
Qed.
Lemma ratio_err u a b A B : 0 < u <= / 1000 -> Rabs (a - A) <= u * Rabs A -> Rabs (b - B) <= u * Rabs B -> B <> 0 -> b <> 0 -> Rabs a <= Rabs b ->
  Rabs (a / b - A / B) <= 201 / 100 * u.
Proof.
  intros U HA HB NB Nb L. replace (a / b - A / B) with (a / b * ((B - b) / B) + (a - A) / B) by (field; auto).
  assert (PB : 0 < Rabs B) by (apply Rabs_pos_lt, NB). assert (Pb : 0 < Rabs b) by (apply Rabs_pos_lt, Nb).
  assert (K : Rabs A <= 101 / 100 * Rabs B).
  { assert (T1 := Rabs_triang (A - a) a). replace (A - a + a) with A in T1 by ring. rewrite Rabs_minus_sym in T1.
    assert (T2 := Rabs_triang (b - B) B). replace (b - B + B) with b in T2 by ring.
    assert (u * Rabs A <= / 1000 * Rabs A) by (apply Rmult_le_compat_r; [apply Rabs_pos|lra]). assert (u * Rabs B <= / 1000 * Rabs B) by (apply Rmult_le_compat_r; lra). lra. }
  eapply Rle_trans; [apply Rabs_triang|]. rewrite Rabs_mult.
  assert (E1 : Rabs (a / b) <= 1). { unfold Rdiv. rewrite Rabs_mult, Rabs_inv. apply Rmult_le_reg_r with (Rabs b); [exact Pb|]. rewrite Rmult_assoc, Rinv_l by lra. lra. }
  assert (E2 : Rabs ((B - b) / B) <= u). { unfold Rdiv. rewrite Rabs_mult, Rabs_inv, Rabs_minus_sym. apply Rmult_le_reg_r with (Rabs B); [exact PB|]. rewrite Rmult_assoc, Rinv_l by lra. lra. }
  assert (E3 : Rabs ((a - A) / B) <= 101 / 100 * u).
  { unfold Rdiv. rewrite Rabs_mult, Rabs_inv. apply Rmult_le_reg_r with (Rabs B); [exact PB|]. rewrite Rmult_assoc, Rinv_l by lra.
    assert (u * Rabs A <= u * (101 / 100 * Rabs B)) by (apply Rmult_le_compat_l; lra). lra. }
  assert (Rabs (a / b) * Rabs ((B - b) / B) <= 1 * u) by (apply Rmult_le_compat; try apply Rabs_pos; assumption). lra.
Qed.
(** near the diagonal the two branches agree *)
Lemma turn_diff X Y a b : Rabs (X * cos a - Y * cos b) <= Rabs (X - Y) + Rabs Y * Rabs (a - b) /\ Rabs (X * sin a - Y * sin b) <= Rabs (X - Y) + Rabs Y * Rabs (a - b).
Proof.
  split.
  - replace (X * cos a - Y * cos b) with ((X - Y) * cos a + Y * (cos a - cos b)) by ring. eapply Rle_trans; [apply Rabs_triang|]. rewrite !Rabs_mult.
    assert (C : Rabs (cos a) <= 1) by (apply Rabs_le, COS_bound). assert (L := cos_lip a b). assert (P1 := Rabs_pos (X - Y)). assert (P2 := Rabs_pos Y).
    assert (Rabs (X - Y) * Rabs (cos a) <= Rabs (X - Y) * 1) by (apply Rmult_le_compat_l; lra). assert (Rabs Y * Rabs (cos a - cos b) <= Rabs Y * Rabs (a - b)) by (apply Rmult_le_compat_l; lra). lra.
  - replace (X * sin a - Y * sin b) with ((X - Y) * sin a + Y * (sin a - sin b)) by ring. eapply Rle_trans; [apply Rabs_triang|]. rewrite !Rabs_mult.
    assert (C : Rabs (sin a) <= 1) by (apply Rabs_le, SIN_bound). assert (L := sin_lip a b). assert (P1 := Rabs_pos (X - Y)). assert (P2 := Rabs_pos Y).
    assert (Rabs (X - Y) * Rabs (sin a) <= Rabs (X - Y) * 1) by (apply Rmult_le_compat_l; lra). assert (Rabs Y * Rabs (sin a - sin b) <= Rabs Y * Rabs (a - b)) by (apply Rmult_le_compat_l; lra). lra.
Qed.
Lemma diag_err e s X : 0 < e <= / 300 -> Rabs X <= 1 -> 1 - e <= Rabs s <= 1 ->
  Rabs (X * cos (PI / 4 * (s * X) / X) - s * X * cos (PI / 2 - X / (s * X) * (PI / 4))) <= 102 / 100 * e /\
  Rabs (X * sin (PI / 4 * (s * X) / X) - s * X * sin (PI / 2 - X / (s * X) * (PI / 4))) <= 102 / 100 * e.
Proof.
  intros HE HX HS. assert (L := PI_lower_bound). assert (U := PI_upper_bound).
  destruct (Req_dec X 0) as [->|NX]. { rewrite !Rmult_0_r, !Rmult_0_l, Rminus_0_r, Rabs_R0. lra. }
  assert (NS : s <> 0) by (intros ->; rewrite Rabs_R0 in HS; lra).
  replace (PI / 4 * (s * X) / X) with (PI / 4 * s) by (field; assumption). replace (X / (s * X)) with (/ s) by (field; auto).
  assert (K : forall t Y b, 1 - e <= t <= 1 -> X - Y = (1 - t) * X -> Rabs (PI / 4 * s - b) = PI / 4 * ((1 - t) * (1 - t) / t) -> Rabs (X - Y) + Rabs Y * Rabs (PI / 4 * s - b) <= 102 / 100 * e).
  { intros t Y b T HY HB. rewrite HY, HB. rewrite Rabs_mult, (Rabs_pos_eq (1 - t)) by lra.
    assert (Q : PI / 4 * ((1 - t) * (1 - t) / t) <= / 100 * e).
    { assert ((1 - t) * (1 - t) <= e * e) by nra. assert (/ t <= 2). { apply Rmult_le_reg_r with t; [lra|]. rewrite Rinv_l by lra. lra. }
      assert (0 <= (1 - t) * (1 - t)) by nra. assert (0 < / t) by (apply Rinv_0_lt_compat; lra). unfold Rdiv at 2.
      assert ((1 - t) * (1 - t) * / t <= e * e * 2) by (apply Rmult_le_compat; lra). nra. }
    assert (YB : Rabs Y <= 1). { replace Y with (t * X) by lra. rewrite Rabs_mult, (Rabs_pos_eq t) by lra. assert (P := Rabs_pos X). nra. }
    assert ((1 - t) * Rabs X <= e * 1) by (apply Rmult_le_compat; try apply Rabs_pos; lra).
    assert (0 <= PI / 4 * ((1 - t) * (1 - t) / t)). { rewrite <- HB. apply Rabs_pos. }
    assert (Rabs Y * (PI / 4 * ((1 - t) * (1 - t) / t)) <= 1 * (/ 100 * e)) by (apply Rmult_le_compat; try assumption; apply Rabs_pos). lra. }
  destruct (Rle_or_lt 0 s) as [P|P].
  - rewrite Rabs_pos_eq in HS by exact P. assert (Q := turn_diff X (s * X) (PI / 4 * s) (PI / 2 - / s * (PI / 4))).
    assert (M : Rabs (X - s * X) + Rabs (s * X) * Rabs (PI / 4 * s - (PI / 2 - / s * (PI / 4))) <= 102 / 100 * e).
    { apply (K s); [exact HS|ring|]. replace (PI / 4 * s - (PI / 2 - / s * (PI / 4))) with (PI / 4 * ((1 - s) * (1 - s) / s)) by (field; assumption).
      apply Rabs_pos_eq. apply Rmult_le_pos; [lra|]. apply Rmult_le_pos; [nra|apply Rlt_le, Rinv_0_lt_compat; lra]. }
    destruct Q; split; lra.
  - rewrite Rabs_left in HS by exact P. set (b := PI / 2 - / s * (PI / 4)).
    assert (Q := turn_diff X (- s * X) (PI / 4 * s) (b - PI)).
    assert (M : Rabs (X - - s * X) + Rabs (- s * X) * Rabs (PI / 4 * s - (b - PI)) <= 102 / 100 * e).
    { apply (K (- s)); [exact HS|ring|]. unfold b. replace (PI / 4 * s - (PI / 2 - / s * (PI / 4) - PI)) with (- (PI / 4 * ((1 - - s) * (1 - - s) / - s))) by (field; assumption).
      rewrite Rabs_Ropp. apply Rabs_pos_eq. apply Rmult_le_pos; [lra|]. apply Rmult_le_pos; [nra|apply Rlt_le, Rinv_0_lt_compat; lra]. }
    assert (C : cos b = - cos (b - PI)). { rewrite <- (cos_neg (b - PI)). replace (- (b - PI)) with (PI - b) by ring. rewrite Rtrigo_facts.cos_pi_minus. ring. }
    assert (S : sin b = - sin (b - PI)). { rewrite <- sin_neg. replace (- (b - PI)) with (PI - b) by ring. rewrite sin_PI_x. reflexivity. }
    rewrite C, S. replace (s * X * - cos (b - PI)) with (- s * X * cos (b - PI)) by ring. replace (s * X * - sin (b - PI)) with (- s * X * sin (b - PI)) by ring.
    destruct Q; split; lra.
Qed.

Section DF.
Context {f : fmt} {m : libm f}.
Notation FT := (float f).
Notation u := (unit_roundoff f).
Notation eta := (smallest_float f / 2).

Lemma eta_tiny : 0 < eta <= / 10000 * u.
Proof.
  split; [apply eta_pos|]. unfold smallest_float, unit_roundoff.
  assert (bpow radix2 (3 - emax f - prec f) <= bpow radix2 (-14) * bpow radix2 (- prec f)). { rewrite <- bpow_plus. apply bpow_le. destruct f; vm_compute; discriminate. }
  change (bpow radix2 (-14)) with (/ 16384) in H. assert (P := bpow_gt_0 radix2 (- prec f)). lra.
Qed.
Lemma uu : 0 < u <= / 1000000. Proof. assert (U := u_small (f := f)). lra. Qed.
Lemma small_fin (z : FT) r : Rnd z r -> Rabs r <= 8 -> finite z /\ B2R z = rndf f r.
Proof.
  intros R K. assert (F : finite z).
  { destruct R as [NN E0]. apply finite_of_range; [exact NN|]. rewrite E0.
    assert (T : 16 <= bpow radix2 (emax f)) by (change 16 with (bpow radix2 4); apply bpow_le; destruct f; vm_compute; discriminate).
    assert (G : forall z, (Z.abs z = 8)%Z -> rndf f (IZR z) = IZR z) by (intros w W; apply (rnd_id (f := f)), generic_IZR; destruct f; rewrite W; vm_compute; discriminate).
    apply Rabs_le_inv in K.
    assert (A : rndf f r <= 8) by (rewrite <- (G 8%Z eq_refl); apply (rnd_le (f := f)); lra).
    assert (B : -8 <= rndf f r) by (rewrite <- (G (-8)%Z eq_refl); apply (rnd_le (f := f)); lra).
    rewrite clampE_range; lra. }
  split; [exact F|exact (Rnd_finite _ _ R F)].
Qed.
Lemma small_err (z : FT) r : Rnd z r -> Rabs r <= 8 -> finite z /\ Rabs (B2R z - r) <= u * Rabs r + eta.
Proof. intros R K. destruct (small_fin z r R K) as [F ->]. split; [exact F|apply round_err]. Qed.
Lemma small_abs (z : FT) r (y : FT) : Rnd z r -> Rabs r <= 8 -> Rabs r <= Rabs (B2R y) -> Rabs (B2R z) <= Rabs (B2R y).
Proof.
  intros R K L. destruct (small_fin z r R K) as [F ->]. apply abs_round_le_generic; [apply valid_fx|apply valid_rnd_N|apply generic_format_abs, generic_format_B2R|exact L].
Qed.
Lemma wulp_err (z : FT) r : within_ulp z r -> -1 <= r <= 1 -> finite z /\ Rabs (B2R z - r) <= 3 * u.
Proof.
  intros (F & D & V) R. split; [exact F|]. assert (U := uu). assert (ET := eta_tiny).
  assert (Near : forall s, Rabs s <= 2 -> finite (nearest f s) /\ Rabs (B2R (nearest f s) - s) <= u * Rabs s + eta) by (intros s S; apply small_err; [apply nearest_Rnd|lra]).
  apply Rabs_le. split.
  - destruct (Rle_or_lt (- (3 * u)) (B2R z - r)) as [K|K]; [exact K|exfalso].
    destruct (Near (r - 3 / 2 * u)) as [FY Y]; [apply Rabs_le; lra|]. assert (S : Rabs (r - 3 / 2 * u) <= 101 / 100) by (apply Rabs_le; lra).
    assert (u * Rabs (r - 3 / 2 * u) <= u * (101 / 100)) by (apply Rmult_le_compat_l; lra). apply Rabs_le_inv in Y.
    assert (A : above (nearest f (r - 3 / 2 * u)) r). { apply V. apply flt_E. repeat split; try (apply nonnan_of_finite; assumption). rewrite !E_B2R by assumption. lra. }
    apply (above_finite _ _ FY) in A. lra.
  - destruct (Rle_or_lt (B2R z - r) (3 * u)) as [K|K]; [exact K|exfalso].
    destruct (Near (r + 3 / 2 * u)) as [FY Y]; [apply Rabs_le; lra|]. assert (S : Rabs (r + 3 / 2 * u) <= 101 / 100) by (apply Rabs_le; lra).
    assert (u * Rabs (r + 3 / 2 * u) <= u * (101 / 100)) by (apply Rmult_le_compat_l; lra). apply Rabs_le_inv in Y.
    assert (A : below (nearest f (r + 3 / 2 * u)) r). { apply D. apply flt_E. repeat split; try (apply nonnan_of_finite; assumption). rewrite !E_B2R by assumption. lra. }
    apply (below_finite _ _ FY) in A. lra.
Qed.
(** one coordinate r * cos theta *)
Lemma coord_err (r c : FT) R0 C K : finite r -> Rabs (B2R r) <= 1 -> Rabs (B2R r - R0) <= 101 / 100 * u -> finite c -> Rabs (B2R c) <= 2 -> Rabs C <= 1 -> Rabs (B2R r) * Rabs (B2R c - C) <= K * u ->
  finite (fmul r c) /\ Rabs (B2R (fmul r c) - R0 * C) <= (K + 101 / 100) * u + u * Rabs (B2R r * B2R c) + eta.
Proof.
  intros Fr R1 RE Fc C2 C1 HK. assert (U := uu). assert (ET := eta_tiny).
  assert (B : Rabs (B2R r * B2R c) <= 2). { rewrite Rabs_mult. assert (Rabs (B2R r) * Rabs (B2R c) <= 1 * 2) by (apply Rmult_le_compat; try apply Rabs_pos; assumption). lra. }
  destruct (small_err _ _ (fmul_Rnd r c Fr Fc) ltac:(lra)) as [F M]. split; [exact F|].
  replace (B2R (fmul r c) - R0 * C) with ((B2R (fmul r c) - B2R r * B2R c) + (B2R r * (B2R c - C) + (B2R r - R0) * C)) by ring.
  eapply Rle_trans; [apply Rabs_triang|]. assert (T := Rabs_triang (B2R r * (B2R c - C)) ((B2R r - R0) * C)). rewrite (Rabs_mult (B2R r) (B2R c - C)), (Rabs_mult (B2R r - R0) C) in T.
  assert (Rabs (B2R r - R0) * Rabs C <= 101 / 100 * u * 1) by (apply Rmult_le_compat; try apply Rabs_pos; assumption). lra.
Qed.
Lemma polar_err (r th : FT) R0 TH K : good_sin_cos m -> 0 <= K <= 100 -> finite r -> finite th -> Rabs (B2R r) <= 1 -> Rabs (B2R r - R0) <= 101 / 100 * u -> Rabs (B2R r) * Rabs (B2R th - TH) <= K * u ->
  (finite (fmul r (m_cos m th)) /\ Rabs (B2R (fmul r (m_cos m th)) - R0 * cos TH) <= (K + 51 / 10) * u) /\
  (finite (fmul r (m_sin m th)) /\ Rabs (B2R (fmul r (m_sin m th)) - R0 * sin TH) <= (K + 51 / 10) * u) /\
  B2R (fmul r (m_cos m th)) * B2R (fmul r (m_cos m th)) + B2R (fmul r (m_sin m th)) * B2R (fmul r (m_sin m th)) <= (1 + 9 * u) * (1 + 9 * u).
Proof.
  intros GS HK Fr Ft R1 RE TE. destruct (GS th Ft) as (WS & _ & WC & _). assert (U := uu). assert (ET := eta_tiny).
  destruct (wulp_err _ _ WS (SIN_bound _)) as [FS ES]. destruct (wulp_err _ _ WC (COS_bound _)) as [FC EC].
  assert (Bnd : forall c v, Rabs (B2R (c : FT) - v) <= 3 * u -> -1 <= v <= 1 -> Rabs (B2R c) <= 1 + 3 * u).
  { intros c v H1 H2. apply Rabs_le_inv in H1. apply Rabs_le. lra. }
  assert (BC := Bnd _ _ EC (COS_bound _)). assert (BS := Bnd _ _ ES (SIN_bound _)).
  assert (P := Rabs_pos (B2R r)).
  assert (Tot : forall (c : FT) v w, Rabs (B2R c - v) <= 3 * u -> Rabs (v - w) <= Rabs (B2R th - TH) -> Rabs (B2R r) * Rabs (B2R c - w) <= (K + 3) * u).
  { intros c v w H1 H2. assert (T := Rabs_triang (B2R c - v) (v - w)). replace (B2R c - v + (v - w)) with (B2R c - w) in T by ring.
    assert (Rabs (B2R r) * Rabs (B2R c - w) <= Rabs (B2R r) * (3 * u + Rabs (B2R th - TH))) by (apply Rmult_le_compat_l; lra).
    assert (Rabs (B2R r) * (3 * u) <= 1 * (3 * u)) by (apply Rmult_le_compat_r; lra). lra. }
  assert (Pr : forall c : FT, Rabs (B2R c) <= 1 + 3 * u -> Rabs (B2R r * B2R c) <= 1 + 3 * u).
  { intros c H. rewrite Rabs_mult. assert (Q := Rabs_pos (B2R c)). assert (Rabs (B2R r) * Rabs (B2R c) <= 1 * (1 + 3 * u)) by (apply Rmult_le_compat; assumption). lra. }
  assert (PU : u * (1 + 3 * u) <= 101 / 100 * u) by nra.
  destruct (coord_err r (m_cos m th) R0 (cos TH) (K + 3)) as [F1 E1]; auto; [lra|apply Rabs_le, COS_bound|apply (Tot _ _ _ EC), cos_lip|].
  destruct (coord_err r (m_sin m th) R0 (sin TH) (K + 3)) as [F2 E2]; auto; [lra|apply Rabs_le, SIN_bound|apply (Tot _ _ _ ES), sin_lip|].
  assert (H1 := Pr _ BC). assert (H2 := Pr _ BS).
  assert (u * Rabs (B2R r * B2R (m_cos m th)) <= u * (1 + 3 * u)) by (apply Rmult_le_compat_l; lra).
  assert (u * Rabs (B2R r * B2R (m_sin m th)) <= u * (1 + 3 * u)) by (apply Rmult_le_compat_l; lra).
  split; [split; [exact F1|lra]|]. split; [split; [exact F2|lra]|].
  assert (Len : forall (c : FT) v, finite c -> finite (fmul r c) -> Rabs (B2R c - v) <= 3 * u -> Rabs (B2R c) <= 1 + 3 * u -> Rabs (B2R (fmul r c)) <= Rabs v + 41 / 10 * u).
  { intros c v Fc Frc Ec Bc. assert (M := mul_err r c Frc). assert (Q := Pr c Bc). assert (Rabs (B2R r * B2R c) <= Rabs (B2R c)). { rewrite Rabs_mult. assert (Rabs (B2R r) * Rabs (B2R c) <= 1 * Rabs (B2R c)) by (apply Rmult_le_compat_r; [apply Rabs_pos|exact R1]). lra. }
    assert (T := Rabs_triang (B2R (fmul r c) - B2R r * B2R c) (B2R r * B2R c)). replace (B2R (fmul r c) - B2R r * B2R c + B2R r * B2R c) with (B2R (fmul r c)) in T by ring.
    assert (T2 := Rabs_triang (B2R c - v) v). replace (B2R c - v + v) with (B2R c) in T2 by ring.
    assert (u * Rabs (B2R r * B2R c) <= u * (1 + 3 * u)) by (apply Rmult_le_compat_l; lra). lra. }
  assert (L1 := Len _ _ FC F1 EC BC). assert (L2 := Len _ _ FS F2 ES BS).
  set (x := B2R (fmul r (m_cos m th))) in *. set (y := B2R (fmul r (m_sin m th))) in *. set (a := Rabs (cos (B2R th))) in *. set (b := Rabs (sin (B2R th))) in *.
  assert (S2 : a * a + b * b = 1). { unfold a, b. rewrite <- !Rabs_mult, !Rabs_pos_eq by nra. assert (Q := sin2_cos2 (B2R th)). unfold Rsqr in Q. lra. }
  assert (X2 : x * x <= (a + 41 / 10 * u) * (a + 41 / 10 * u)). { rewrite <- (Rabs_pos_eq (x * x)) by nra. rewrite Rabs_mult. apply Rmult_le_compat; try apply Rabs_pos; exact L1. }
  assert (Y2 : y * y <= (b + 41 / 10 * u) * (b + 41 / 10 * u)). { rewrite <- (Rabs_pos_eq (y * y)) by nra. rewrite Rabs_mult. apply Rmult_le_compat; try apply Rabs_pos; exact L2. }
  assert (0 <= a <= 1) by (split; [apply Rabs_pos|apply Rabs_le, COS_bound]). assert (0 <= b <= 1) by (split; [apply Rabs_pos|apply Rabs_le, SIN_bound]).
  assert (u * a <= u * 1) by (apply Rmult_le_compat_l; lra). assert (u * b <= u * 1) by (apply Rmult_le_compat_l; lra). assert (0 <= u * u) by (apply Rmult_le_pos; lra). lra.
Qed.

(** ** constants *)
Lemma two32 : finite (from_f32 lit2_f32 : FT) /\ B2R (from_f32 lit2_f32 : FT) = 2.
Proof. split; [destruct f; vm_compute; reflexivity|]. destruct f; match goal with |- B2R ?x = _ => b2r_eval x end; simpl bpow; lra. Qed.
Lemma two64 : finite (from_f64 lit2_f64 : FT) /\ B2R (from_f64 lit2_f64 : FT) = 2.
Proof. split; [destruct f; vm_compute; reflexivity|]. destruct f; match goal with |- B2R ?x = _ => b2r_eval x end; simpl bpow; lra. Qed.
Lemma u_val : u = match f with F32 => / 16777216 | F64 => / 9007199254740992 end.
Proof. unfold unit_roundoff. destruct f; vm_compute prec; simpl bpow; reflexivity. Qed.
Lemma pi4_val : finite (f_frac_pi_4 f) /\ Rabs (B2R (f_frac_pi_4 f) - PI / 4) <= u / 2.
Proof.
  split; [destruct f; vm_compute; reflexivity|]. rewrite u_val. assert (L := PI_lower_bound). assert (H := PI_upper_bound).
  destruct f; match goal with |- Rabs (B2R ?x - _) <= _ => b2r_eval x end; simpl bpow; apply Rabs_le; lra.
Qed.
Lemma pi2_val : finite (f_frac_pi_2 f) /\ Rabs (B2R (f_frac_pi_2 f) - PI / 2) <= u.
Proof.
  split; [destruct f; vm_compute; reflexivity|]. rewrite u_val. assert (L := PI_lower_bound). assert (H := PI_upper_bound).
  destruct f; match goal with |- Rabs (B2R ?x - _) <= _ => b2r_eval x end; simpl bpow; apply Rabs_le; lra.
Qed.
Lemma pi_val : finite (f_pi f) /\ Rabs (B2R (f_pi f) - PI) <= 3 / 2 * u.
Proof.
  split; [destruct f; vm_compute; reflexivity|]. rewrite u_val. assert (L := PI_lower_bound). assert (H := PI_upper_bound).
  destruct f; match goal with |- Rabs (B2R ?x - _) <= _ => b2r_eval x end; simpl bpow; apply Rabs_le; lra.
Qed.

(** ** concentric_sample_disk *)
Lemma cx_err (p : FT) : finite p -> 0 <= B2R p <= 1 ->
  finite (cx p) /\ Rnd (cx p) (1 - 2 * B2R p) /\ Rabs (B2R (cx p) - (1 - 2 * B2R p)) <= u * Rabs (1 - 2 * B2R p) /\ Rabs (B2R (cx p)) <= 1.
Proof.
  intros Fp Hp. destruct two32 as [F2 V2]. set (two := from_f32 lit2_f32 : FT) in *. destruct (one_B2R (f := f)) as [F1 V1].
  assert (M := fmul_Rnd two p F2 Fp). rewrite V2 in M. destruct (small_fin _ _ M ltac:(apply Rabs_le; lra)) as [FM VM].
  rewrite (rnd_id (f := f)) in VM by (apply format_double, generic_format_B2R).
  change (cx p) with (fsub (f_of_Z 1) (fmul two p)). assert (S := fsub_fadd (f_of_Z 1) (fmul two p) F1 FM).
  change (B2R (f_of_Z 1 : FT) = 1) in V1. rewrite V1, VM in S. assert (B : Rabs (1 - 2 * B2R p) <= 1) by (apply Rabs_le; lra).
  destruct (small_fin _ _ S ltac:(lra)) as [F VS]. split; [exact F|]. split; [exact S|]. split.
  - assert (Q := sub_rel (f_of_Z 1) (fmul two p) F1 FM F). rewrite V1, VM in Q. exact Q.
  - rewrite <- (Rabs_pos_eq 1), <- V1 by lra. apply (small_abs _ _ (f_of_Z 1) S); [lra|]. change (B2R (f_of_Z 1 : FT)) with (B2R (f_of_Z 1 : FT)). rewrite V1, (Rabs_pos_eq 1) by lra. exact B.
Qed.
Lemma zero_iff (z : FT) X : Rabs (B2R z - X) <= u * Rabs X -> (B2R z = 0 <-> X = 0).
Proof.
  intros H. assert (U := uu). split; intros K; rewrite K in H.
  - replace (0 - X) with (- X) in H by ring. rewrite Rabs_Ropp in H. assert (P := Rabs_pos X).
    destruct (Req_dec X 0) as [|N]; [assumption|]. assert (0 < Rabs X) by (apply Rabs_pos_lt, N). nra.
  - rewrite Rabs_R0, Rmult_0_r in H. rewrite Rminus_0_r in H. destruct (Req_dec (B2R z) 0) as [|N]; [assumption|]. assert (0 < Rabs (B2R z)) by (apply Rabs_pos_lt, N). lra.
Qed.
Lemma zz_b (x y : FT) : finite x -> finite y -> (zz x y = true <-> B2R x = 0 /\ B2R y = 0).
Proof.
  intros Fx Fy. change (zz x y) with (feqb x (fzero false) && feqb y (fzero false)). rewrite !eq_b by (try (apply nonnan_of_finite; assumption); reflexivity).
  rewrite (E_B2R x Fx), (E_B2R y Fy). change (E (fzero false : FT)) with 0. rewrite andb_true_iff. do 2 (case Req_bool_spec; intros); split; intros []; split; try assumption; try reflexivity; try discriminate; contradiction.
Qed.
Lemma cgt_b (x y : FT) : finite x -> finite y -> (cgt x y = true <-> Rabs (B2R y) < Rabs (B2R x)).
Proof.
  intros Fx Fy. change (cgt x y) with (sgt (fabs x) (fabs y)). rewrite sgt_spec, flt_E.
  assert (F1 : finite (fabs x)) by (unfold finite, fabs in *; now rewrite is_finite_Babs). assert (F2 : finite (fabs y)) by (unfold finite, fabs in *; now rewrite is_finite_Babs).
  rewrite (E_B2R _ F1), (E_B2R _ F2). unfold fabs. rewrite !B2R_Babs. split; [tauto|]. intros K. repeat split; try exact K; now apply nonnan_of_finite.
Qed.
Lemma div_le1 a b : b <> 0 -> Rabs a <= Rabs b -> Rabs (a / b) <= 1.
Proof.
  intros N L. assert (P : 0 < Rabs b) by (apply Rabs_pos_lt, N). unfold Rdiv. rewrite Rabs_mult, Rabs_inv. apply Rmult_le_reg_r with (Rabs b); [exact P|]. rewrite Rmult_assoc, Rinv_l by lra. lra.
Qed.
Lemma pi4_range : 3 / 4 <= B2R (f_frac_pi_4 f) <= 4 / 5.
Proof. destruct pi4_val as [_ K]. apply Rabs_le_inv in K. assert (U := uu). assert (L := PI_lower_bound). assert (H := PI_upper_bound). lra. Qed.
(** the angle in the first and third quadrants, scaled by the radius *)
Lemma angle1 (x y : FT) X Y : finite x -> finite y -> Rabs (B2R x) <= 1 -> Rabs (B2R x - X) <= u * Rabs X -> Rabs (B2R y - Y) <= u * Rabs Y -> Rabs (B2R y) < Rabs (B2R x) ->
  let th := fdiv (fmul (f_frac_pi_4 f) y) x in finite th /\ Rabs (B2R x) * Rabs (B2R th - PI / 4 * Y / X) <= 5 * u.
Proof.
  intros Fx Fy B1 EX EY L th. assert (U := uu). assert (ET := eta_tiny). destruct pi4_val as [F4 V4]. assert (R4 := pi4_range). set (p4 := f_frac_pi_4 f) in *.
  assert (PX : 0 < Rabs (B2R x)) by (assert (P := Rabs_pos (B2R y)); lra). assert (NX : B2R x <> 0) by (intros K; rewrite K, Rabs_R0 in PX; lra).
  assert (NX' : X <> 0) by (intros K; apply NX; apply (zero_iff x X EX), K).
  assert (PY := Rabs_pos (B2R y)).
  assert (M0 : Rabs (B2R p4 * B2R y) <= Rabs (B2R y)). { rewrite Rabs_mult, (Rabs_pos_eq (B2R p4)) by lra. assert (B2R p4 * Rabs (B2R y) <= 1 * Rabs (B2R y)) by (apply Rmult_le_compat_r; lra). lra. }
  assert (R1 := fmul_Rnd p4 y F4 Fy). destruct (small_err _ _ R1 ltac:(lra)) as [FM EM]. assert (AM := small_abs _ _ y R1 ltac:(lra) M0).
  assert (Q1 : Rabs (B2R (fmul p4 y) / B2R x) <= 1) by (apply div_le1; [exact NX|lra]).
  assert (R2 := fdiv_Rnd (fmul p4 y) x FM Fx NX). destruct (small_err _ _ R2 ltac:(lra)) as [FT' ED]. fold th in FT', ED. split; [exact FT'|].
  assert (RT := ratio_err u (B2R y) (B2R x) Y X ltac:(lra) EY EX NX' NX ltac:(lra)).
  assert (Q2 : Rabs (B2R y / B2R x) <= 1) by (apply div_le1; [exact NX|lra]).
  replace (B2R th - PI / 4 * Y / X) with ((B2R th - B2R (fmul p4 y) / B2R x) + ((B2R (fmul p4 y) - B2R p4 * B2R y) / B2R x + ((B2R p4 - PI / 4) * (B2R y / B2R x) + PI / 4 * (B2R y / B2R x - Y / X)))) by (field; auto).
  assert (L1 := PI_lower_bound). assert (L2 := PI_upper_bound).
  assert (A1 : Rabs ((B2R (fmul p4 y) - B2R p4 * B2R y) / B2R x) = Rabs (B2R (fmul p4 y) - B2R p4 * B2R y) / Rabs (B2R x)) by (unfold Rdiv; rewrite Rabs_mult, Rabs_inv; reflexivity).
  assert (A2 : Rabs ((B2R p4 - PI / 4) * (B2R y / B2R x)) <= u / 2). { rewrite Rabs_mult. assert (Rabs (B2R p4 - PI / 4) * Rabs (B2R y / B2R x) <= u / 2 * 1) by (apply Rmult_le_compat; try apply Rabs_pos; assumption). lra. }
  assert (A3 : Rabs (PI / 4 * (B2R y / B2R x - Y / X)) <= 161 / 100 * u). { rewrite Rabs_mult, (Rabs_pos_eq (PI / 4)) by lra. assert (PI / 4 * Rabs (B2R y / B2R x - Y / X) <= 4 / 5 * (201 / 100 * u)) by (apply Rmult_le_compat; try apply Rabs_pos; lra). lra. }
  set (r := Rabs (B2R x)) in *. set (t1 := B2R th - _) in *. set (t2 := (_ - B2R p4 * B2R y) / B2R x) in *. set (t3 := (B2R p4 - PI / 4) * _) in *. set (t4 := PI / 4 * (B2R y / B2R x - Y / X)) in *.
  assert (S := Rabs_triang t1 (t2 + (t3 + t4))). assert (S2 := Rabs_triang t2 (t3 + t4)). assert (S3 := Rabs_triang t3 t4).
  apply Rle_trans with (r * (Rabs t1 + (Rabs t2 + (Rabs t3 + Rabs t4)))); [apply Rmult_le_compat_l; lra|].
  assert (H2 : r * Rabs t2 <= 81 / 100 * u).
  { rewrite A1. replace (r * (Rabs (B2R (fmul p4 y) - B2R p4 * B2R y) / r)) with (Rabs (B2R (fmul p4 y) - B2R p4 * B2R y)) by (field; lra).
    assert (u * Rabs (B2R p4 * B2R y) <= u * (4 / 5)). { apply Rmult_le_compat_l; [lra|]. rewrite Rabs_mult, (Rabs_pos_eq (B2R p4)) by lra. assert (B2R p4 * Rabs (B2R y) <= 4 / 5 * 1) by (apply Rmult_le_compat; lra). lra. } lra. }
  assert (H1 : Rabs t1 <= 101 / 100 * u). { assert (u * Rabs (B2R (fmul p4 y) / B2R x) <= u * 1) by (apply Rmult_le_compat_l; lra). lra. }
  assert (r * (Rabs t1 + (Rabs t3 + Rabs t4)) <= 1 * (101 / 100 * u + (u / 2 + 161 / 100 * u))) by (apply Rmult_le_compat; try lra; assert (P1 := Rabs_pos t1); assert (P3 := Rabs_pos t3); assert (P4 := Rabs_pos t4); lra). lra.
Qed.
(** the angle in the second and fourth quadrants *)
Lemma angle2_err (x y : FT) X Y : finite x -> finite y -> B2R y <> 0 -> Rabs (B2R x - X) <= u * Rabs X -> Rabs (B2R y - Y) <= u * Rabs Y -> Rabs (B2R x) <= Rabs (B2R y) ->
  let th := fsub (f_frac_pi_2 f) (fmul (fdiv x y) (f_frac_pi_4 f)) in finite th /\ Rabs (B2R th - (PI / 2 - X / Y * (PI / 4))) <= 15 / 2 * u.
Proof.
  intros Fx Fy NY EX EY L th. assert (U := uu). assert (ET := eta_tiny). destruct pi4_val as [F4 V4]. destruct pi2_val as [F2 V2]. assert (R4 := pi4_range). set (p4 := f_frac_pi_4 f) in *. set (p2 := f_frac_pi_2 f) in *.
  assert (NY' : Y <> 0) by (intros K; apply NY; apply (zero_iff y Y EY), K). assert (L1 := PI_lower_bound). assert (L2 := PI_upper_bound).
  assert (Q1 := div_le1 _ _ NY L). assert (R1 := fdiv_Rnd x y Fx Fy NY). destruct (small_err _ _ R1 ltac:(lra)) as [FQ EQ].
  destruct (one_B2R (f := f)) as [F1 V1]. change (B2R (f_of_Z 1 : FT) = 1) in V1.
  assert (AQ : Rabs (B2R (fdiv x y)) <= 1). { rewrite <- (Rabs_pos_eq 1), <- V1 by lra. apply (small_abs _ _ (f_of_Z 1) R1); [lra|]. rewrite V1, (Rabs_pos_eq 1) by lra. exact Q1. }
  set (q := fdiv x y) in *.
  assert (MB : Rabs (B2R q * B2R p4) <= 4 / 5). { rewrite Rabs_mult, (Rabs_pos_eq (B2R p4)) by lra. assert (Rabs (B2R q) * B2R p4 <= 1 * (4 / 5)) by (apply Rmult_le_compat; try apply Rabs_pos; lra). lra. }
  assert (R2 := fmul_Rnd q p4 FQ F4). destruct (small_err _ _ R2 ltac:(lra)) as [FM EM].
  assert (u * Rabs (B2R q * B2R p4) <= u * (4 / 5)) by (apply Rmult_le_compat_l; lra).
  assert (AM : Rabs (B2R (fmul q p4)) <= 81 / 100). { apply Rabs_le_inv in MB. apply Rabs_le_inv in EM. apply Rabs_le. lra. }
  assert (SB : Rabs (B2R p2 - B2R (fmul q p4)) <= 12 / 5). { apply Rabs_le_inv in V2. apply Rabs_le_inv in AM. apply Rabs_le. lra. }
  assert (R3 := fsub_fadd p2 (fmul q p4) F2 FM). destruct (small_fin _ _ R3 ltac:(lra)) as [FT' _]. fold th in FT'. split; [exact FT'|].
  assert (ES := sub_rel p2 (fmul q p4) F2 FM FT'). fold th in ES.
  assert (u * Rabs (B2R p2 - B2R (fmul q p4)) <= u * (12 / 5)) by (apply Rmult_le_compat_l; lra).
  assert (RT := ratio_err u (B2R x) (B2R y) X Y ltac:(lra) EX EY NY' NY L).
  assert (u * Rabs (B2R x / B2R y) <= u * 1) by (apply Rmult_le_compat_l; lra).
  assert (HQ : Rabs (B2R q - X / Y) <= 302 / 100 * u). { assert (T := Rabs_triang (B2R q - B2R x / B2R y) (B2R x / B2R y - X / Y)). replace (B2R q - B2R x / B2R y + (B2R x / B2R y - X / Y)) with (B2R q - X / Y) in T by ring. lra. }
  assert (HM : Rabs (B2R q * B2R p4 - X / Y * (PI / 4)) <= 29 / 10 * u).
  { replace (B2R q * B2R p4 - X / Y * (PI / 4)) with (B2R q * (B2R p4 - PI / 4) + (B2R q - X / Y) * (PI / 4)) by ring. eapply Rle_trans; [apply Rabs_triang|]. rewrite !Rabs_mult, (Rabs_pos_eq (PI / 4)) by lra.
    assert (Rabs (B2R q) * Rabs (B2R p4 - PI / 4) <= 1 * (u / 2)) by (apply Rmult_le_compat; try apply Rabs_pos; assumption).
    assert (Rabs (B2R q - X / Y) * (PI / 4) <= 302 / 100 * u * (786 / 1000)) by (apply Rmult_le_compat; try apply Rabs_pos; lra). lra. }
  apply Rabs_le_inv in V2. apply Rabs_le_inv in ES. apply Rabs_le_inv in EM. apply Rabs_le_inv in HM. apply Rabs_le. lra.
Qed.
Lemma rel_abs u' X : 0 <= u' -> Rabs X <= 1 -> u' * Rabs X <= u'.
Proof. intros A B. assert (u' * Rabs X <= u' * 1) by (apply Rmult_le_compat_l; assumption). lra. Qed.
Lemma concentric_err (p : vec FT 2) : good_sin_cos m -> fall finite p -> 0 <= B2R (vx p) <= 1 -> 0 <= B2R (vy p) <= 1 ->
  let q := concentric_sample_disk p in
  (finite (vx q) /\ Rabs (B2R (vx q) - cX2 (B2R (vx p)) (B2R (vy p))) <= 16 * u) /\
  (finite (vy q) /\ Rabs (B2R (vy q) - cY2 (B2R (vx p)) (B2R (vy p))) <= 16 * u) /\
  B2R (vx q) * B2R (vx q) + B2R (vy q) * B2R (vy q) <= (1 + 9 * u) * (1 + 9 * u).
Proof.
  intros G FP HX HY q. assert (U := uu). destruct (cx_err (vx p) (FP _) HX) as (FX & RX & EX & BX). destruct (cx_err (vy p) (FP _) HY) as (FY & RY & EY & BY).
  assert (AX : Rabs (1 - 2 * B2R (vx p)) <= 1) by (apply Rabs_le; lra). assert (AY : Rabs (1 - 2 * B2R (vy p)) <= 1) by (apply Rabs_le; lra).
  unfold q. rewrite conc_eq. unfold cX2, cY2, cpair. cbv zeta. clear q.
  set (X := 1 - 2 * B2R (vx p)) in *. set (Y := 1 - 2 * B2R (vy p)) in *. set (x := cx (vx p)) in *. set (y := cx (vy p)) in *.
  assert (MonoXY : Rabs X <= Rabs Y -> Rabs (B2R x) <= Rabs (B2R y)).
  { intros K. destruct (small_fin _ _ RX ltac:(lra)) as [_ ->]. destruct (small_fin _ _ RY ltac:(lra)) as [_ ->]. rewrite <- !round_NE_abs by apply valid_fx. apply (rnd_le (f := f)), K. }
  destruct (zz x y) eqn:Z.
  { apply (zz_b x y FX FY) in Z. destruct Z as [Z1 Z2]. apply (zero_iff x X EX) in Z1. apply (zero_iff y Y EY) in Z2. rewrite Z1, Z2.
    destruct (Rlt_dec (Rabs 0) (Rabs 0)) as [K|_]; [lra|]. cbn [fst snd]. change (vx (vec2 szero szero)) with (fzero false : FT). change (vy (vec2 szero szero)) with (fzero false : FT).
    change (B2R (fzero false : FT)) with 0. rewrite !Rmult_0_l, !Rminus_0_r, Rabs_R0. repeat split; try reflexivity; nra. }
  assert (NZ : ~ (B2R x = 0 /\ B2R y = 0)) by (intros K; apply (zz_b x y FX FY) in K; congruence).
  destruct (cgt x y) eqn:C.
  - apply (cgt_b x y FX FY) in C. destruct (Rlt_dec (Rabs Y) (Rabs X)) as [K|K]; [|assert (K' := MonoXY ltac:(lra)); lra].
    destruct (angle1 x y X Y FX FY BX EX EY C) as [FT1 ET1]. cbn [fst snd].
    assert (ER : Rabs (B2R x - X) <= 101 / 100 * u) by (assert (Q := rel_abs u X ltac:(lra) AX); lra).
    destruct (polar_err x _ X (PI / 4 * Y / X) 5 G ltac:(lra) FX FT1 BX ER ET1) as ((A1 & A2) & (B1 & B2) & LL).
    split; [split; [exact A1|eapply Rle_trans; [exact A2|lra]]|]. split; [split; [exact B1|eapply Rle_trans; [exact B2|lra]]|exact LL].
  - assert (C' : Rabs (B2R x) <= Rabs (B2R y)). { destruct (Rle_or_lt (Rabs (B2R x)) (Rabs (B2R y))) as [K|K]; [exact K|]. apply (cgt_b x y FX FY) in K. congruence. }
    assert (NY : B2R y <> 0). { intros K. apply NZ. split; [|exact K]. rewrite K, Rabs_R0 in C'. destruct (Req_dec (B2R x) 0) as [|N]; [assumption|]. assert (0 < Rabs (B2R x)) by (apply Rabs_pos_lt, N). lra. }
    destruct (angle2_err x y X Y FX FY NY EX EY C') as [FT1 ET1].
    assert (ER : Rabs (B2R y - Y) <= 101 / 100 * u) by (assert (Q := rel_abs u Y ltac:(lra) AY); lra).
    assert (ET2 : Rabs (B2R y) * Rabs (B2R (fsub (f_frac_pi_2 f) (fmul (fdiv x y) (f_frac_pi_4 f))) - (PI / 2 - X / Y * (PI / 4))) <= 15 / 2 * u).
    { match type of ET1 with ?t <= _ => assert (Rabs (B2R y) * t <= 1 * (15 / 2 * u)) by (apply Rmult_le_compat; try apply Rabs_pos; assumption) end. lra. }
    destruct (polar_err y _ Y (PI / 2 - X / Y * (PI / 4)) (15 / 2) G ltac:(lra) FY FT1 BY ER ET2) as ((A1 & A2) & (B1 & B2) & LL).
    assert (D : Rabs (fst (if Rlt_dec (Rabs Y) (Rabs X) then (X * cos (PI / 4 * Y / X), X * sin (PI / 4 * Y / X)) else (Y * cos (PI / 2 - X / Y * (PI / 4)), Y * sin (PI / 2 - X / Y * (PI / 4)))) - Y * cos (PI / 2 - X / Y * (PI / 4))) <= 5 / 2 * u /\
                Rabs (snd (if Rlt_dec (Rabs Y) (Rabs X) then (X * cos (PI / 4 * Y / X), X * sin (PI / 4 * Y / X)) else (Y * cos (PI / 2 - X / Y * (PI / 4)), Y * sin (PI / 2 - X / Y * (PI / 4)))) - Y * sin (PI / 2 - X / Y * (PI / 4))) <= 5 / 2 * u).
    { destruct (Rlt_dec (Rabs Y) (Rabs X)) as [K|K]; cbn [fst snd]; [|replace (Y * cos _ - _) with 0 by ring; replace (Y * sin _ - _) with 0 by ring; rewrite Rabs_R0; lra].
      assert (PX : 0 < Rabs X) by (assert (P := Rabs_pos Y); lra). assert (NX : X <> 0) by (intros E; rewrite E, Rabs_R0 in PX; lra).
      assert (YS : Y = Y / X * X) by (field; exact NX). assert (SA : Rabs (Y / X) = Rabs Y / Rabs X) by (unfold Rdiv; rewrite Rabs_mult, Rabs_inv; reflexivity).
      assert (SR : 1 - 21 / 10 * u <= Rabs (Y / X) <= 1).
      { rewrite SA. split; apply Rmult_le_reg_r with (Rabs X); try exact PX; replace (Rabs Y / Rabs X * Rabs X) with (Rabs Y) by (field; lra); [|lra].
        assert (T1 := Rabs_triang (X - B2R x) (B2R x)). replace (X - B2R x + B2R x) with X in T1 by ring. rewrite Rabs_minus_sym in T1.
        assert (T2 := Rabs_triang (B2R y - Y) Y). replace (B2R y - Y + Y) with (B2R y) in T2 by ring.
        assert (u * Rabs Y <= u * Rabs X) by (apply Rmult_le_compat_l; lra). assert (0 <= u * Rabs X) by (apply Rmult_le_pos; lra). lra. }
      rewrite YS. destruct (diag_err (21 / 10 * u) (Y / X) X ltac:(lra) AX SR) as [D1 D2]. split; lra. }
    destruct D as [D1 D2]. match type of D1 with Rabs (fst ?p - _) <= _ => set (pr := p) in * end.
    split; [split; [exact A1|]|]. 2: split; [split; [exact B1|]|exact LL].
    + match goal with |- Rabs (?a - fst pr) <= _ => replace (a - fst pr) with ((a - Y * cos (PI / 2 - X / Y * (PI / 4))) + - (fst pr - Y * cos (PI / 2 - X / Y * (PI / 4)))) by ring end.
      eapply Rle_trans; [apply Rabs_triang|]. rewrite Rabs_Ropp. eapply Rle_trans; [apply Rplus_le_compat; [exact A2|exact D1]|]. lra.
    + match goal with |- Rabs (?a - snd pr) <= _ => replace (a - snd pr) with ((a - Y * sin (PI / 2 - X / Y * (PI / 4))) + - (snd pr - Y * sin (PI / 2 - X / Y * (PI / 4)))) by ring end.
      eapply Rle_trans; [apply Rabs_triang|]. rewrite Rabs_Ropp. eapply Rle_trans; [apply Rplus_le_compat; [exact B2|exact D2]|]. lra.
Qed.

(** ** uniform_sample_disk *)
Lemma uniform_err (p : vec FT 2) : good_sin_cos m -> fall finite p -> 0 <= B2R (vx p) <= 1 -> 0 <= B2R (vy p) <= 1 ->
  let q := uniform_sample_disk p in
  (finite (vx q) /\ Rabs (B2R (vx q) - uX (B2R (vx p)) (B2R (vy p))) <= 16 * u) /\
  (finite (vy q) /\ Rabs (B2R (vy q) - uY (B2R (vx p)) (B2R (vy p))) <= 16 * u) /\
  B2R (vx q) * B2R (vx q) + B2R (vy q) * B2R (vy q) <= (1 + 9 * u) * (1 + 9 * u).
Proof.
  intros G FP HX HY q. assert (U := uu). assert (ET := eta_tiny). assert (L1 := PI_lower_bound). assert (L2 := PI_upper_bound).
  destruct two64 as [F2 V2]. destruct pi_val as [FPi VP]. set (two := from_f64 lit2_f64 : FT) in *.
  assert (VP' := VP). apply Rabs_le_inv in VP'.
  assert (R1 := fmul_Rnd two (f_pi f) F2 FPi). rewrite V2 in R1.
  destruct (small_fin _ _ R1 ltac:(apply Rabs_le; lra)) as [FM VM]. rewrite (rnd_id (f := f)) in VM by (apply format_double, generic_format_B2R).
  assert (R2 := fmul_Rnd (fmul two (f_pi f)) (vx p) FM (FP _)). rewrite VM in R2.
  assert (TB : Rabs (2 * B2R (f_pi f) * B2R (vx p)) <= 63 / 10).
  { rewrite Rabs_mult, (Rabs_pos_eq (B2R (vx p))), Rabs_pos_eq by lra. assert (2 * B2R (f_pi f) * B2R (vx p) <= 63 / 10 * 1) by (apply Rmult_le_compat; lra). lra. }
  destruct (small_err _ _ R2 ltac:(lra)) as [FT1 ET1]. set (th := fmul (fmul two (f_pi f)) (vx p)) in *.
  assert (u * Rabs (2 * B2R (f_pi f) * B2R (vx p)) <= u * (63 / 10)) by (apply Rmult_le_compat_l; lra).
  assert (ET2 : Rabs (B2R th - 2 * PI * B2R (vx p)) <= 94 / 10 * u).
  { replace (B2R th - 2 * PI * B2R (vx p)) with ((B2R th - 2 * B2R (f_pi f) * B2R (vx p)) + 2 * ((B2R (f_pi f) - PI) * B2R (vx p))) by ring.
    eapply Rle_trans; [apply Rabs_triang|]. rewrite (Rabs_mult 2), (Rabs_pos_eq 2), Rabs_mult, (Rabs_pos_eq (B2R (vx p))) by lra.
    assert (Rabs (B2R (f_pi f) - PI) * B2R (vx p) <= 3 / 2 * u * 1) by (apply Rmult_le_compat; try apply Rabs_pos; lra). lra. }
  destruct (fsqrt_Rnd (vy p) (FP _) (proj1 HY)) as [RS FS]. assert (SB : 0 <= sqrt (B2R (vy p)) <= 1). { split; [apply sqrt_pos|]. rewrite <- sqrt_1. apply sqrt_le_1_alt, HY. }
  destruct (one_B2R (f := f)) as [F1 V1]. change (B2R (f_of_Z 1 : FT) = 1) in V1.
  assert (SA : Rabs (sqrt (B2R (vy p))) <= 1) by (rewrite Rabs_pos_eq; lra).
  assert (AS : Rabs (B2R (fsqrt (vy p))) <= 1). { rewrite <- (Rabs_pos_eq 1), <- V1 by lra. apply (small_abs _ _ (f_of_Z 1) RS); [lra|]. rewrite V1, (Rabs_pos_eq 1) by lra. exact SA. }
  destruct (small_err _ _ RS ltac:(lra)) as [_ ES]. assert (u * Rabs (sqrt (B2R (vy p))) <= u * 1) by (apply Rmult_le_compat_l; lra).
  assert (HK : Rabs (B2R (fsqrt (vy p))) * Rabs (B2R th - 2 * PI * B2R (vx p)) <= 94 / 10 * u).
  { assert (Rabs (B2R (fsqrt (vy p))) * Rabs (B2R th - 2 * PI * B2R (vx p)) <= 1 * (94 / 10 * u)) by (apply Rmult_le_compat; try apply Rabs_pos; assumption). lra. }
  destruct (polar_err (fsqrt (vy p)) th (sqrt (B2R (vy p))) (2 * PI * B2R (vx p)) (94 / 10) G ltac:(lra) FS FT1 AS ltac:(lra) HK) as ((A1 & A2) & (B1 & B2) & LL).
  unfold q, uX, uY. rewrite uni_eq.
  split; [split; [exact A1|eapply Rle_trans; [exact A2|lra]]|]. split; [split; [exact B1|eapply Rle_trans; [exact B2|lra]]|exact LL].
Qed.
End DF.
