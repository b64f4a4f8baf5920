(** Rounding errors of the ray-sphere test. *)
From Coq Require Import ZArith Reals Bool Lra Lia.
From Coq Require Vector Fin.
From Flocq Require Import Core BinarySingleNaN.
From Verif.Model Require Import FloatBase Scalar Float Interval Outcome Vec Transform XReal Geometry.
From Verif Require Import Spec SpecGeom SpecShape SpecError SpecLens SpecQuad.
From Verif.Proofs Require Import BitsLemmas FloatLemmas ScalarProofs SlabFloat VectorFloat VectorErr CameraFloat QuadFloat.
Open Scope R_scope.

(** ** Residuals of the two root formulas *)
Section R.
Variables u h a be c D e1 e2 : R.
Hypothesis U : 0 <= u <= / 1000000.
Hypothesis H0 : 0 <= h.
Hypothesis A0 : 0 < a.
Hypothesis BE : 0 <= be.
Hypothesis D0 : 0 <= D.
Hypothesis HD : Rabs (D - (be * be - 4 * a * c)) <= 31 / 10 * u * (be * be + 4 * a * Rabs c) + 10 * h.
Hypothesis E1 : Rabs e1 <= u.
Hypothesis E2 : Rabs e2 <= u.
Let s := sqrt D * (1 + e1).
Let W := be + s.
Let w := W * (1 + e2).

Lemma r_s : 0 <= s /\ Rabs (s * s - D) <= 201 / 100 * u * D /\ D <= 101 / 100 * (s * s).
Proof.
  assert (B1 := Rabs_le_inv _ _ E1). assert (SP := sqrt_pos D). assert (SQ := sqrt_sqrt D D0).
  assert (S0 : 0 <= s) by (unfold s; apply Rmult_le_pos; lra).
  assert (EQ : s * s = D * ((1 + e1) * (1 + e1))) by (unfold s; rewrite <- SQ at 3; ring).
  assert (B : Rabs ((1 + e1) * (1 + e1) - 1) <= 201 / 100 * u) by (apply Rabs_le; clear - B1 U; nra).
  assert (X : Rabs (s * s - D) <= 201 / 100 * u * D).
  { rewrite EQ. replace (D * ((1 + e1) * (1 + e1)) - D) with (((1 + e1) * (1 + e1) - 1) * D) by ring. rewrite Rabs_mult, (Rabs_pos_eq D) by exact D0. apply Rmult_le_compat_r; assumption. }
  split; [exact S0|]. split; [exact X|]. apply Rabs_le_inv in X. assert (201 / 100 * u * D <= 201 / 100 * / 1000000 * D) by (apply Rmult_le_compat_r; lra). lra.
Qed.
Lemma r_W : 0 <= W /\ be * be + s * s <= W * W /\ Rabs (w - W) <= u * W /\ 999 / 1000 * W <= w <= 101 / 100 * W.
Proof.
  destruct r_s as (S0 & _). assert (W0 : 0 <= W) by (unfold W; lra). split; [exact W0|]. split.
  { unfold W. assert (0 <= be * s) by (apply Rmult_le_pos; assumption). lra. }
  assert (X : Rabs (w - W) <= u * W). { unfold w. replace (W * (1 + e2) - W) with (e2 * W) by ring. rewrite Rabs_mult, (Rabs_pos_eq W) by exact W0. apply Rmult_le_compat_r; assumption. }
  split; [exact X|]. apply Rabs_le_inv in X. assert (u * W <= / 1000000 * W) by (apply Rmult_le_compat_r; lra). lra.
Qed.
Lemma r_c : 4 * a * Rabs c <= 103 / 100 * (W * W) + 11 * h /\ be * be + 4 * a * Rabs c <= 203 / 100 * (W * W) + 11 * h.
Proof.
  destruct r_s as (S0 & S1 & S2). destruct r_W as (W0 & W1 & _).
  assert (AC : 4 * a * Rabs c = Rabs (4 * a * c)) by (rewrite Rabs_mult, (Rabs_pos_eq (4 * a)) by lra; reflexivity).
  assert (C0 : 0 <= 4 * a * Rabs c) by (rewrite AC; apply Rabs_pos). assert (B0 : 0 <= be * be) by apply Rle_0_sqr.
  assert (UU : 31 / 10 * u * (be * be + 4 * a * Rabs c) <= / 100000 * (be * be + 4 * a * Rabs c)) by (apply Rmult_le_compat_r; lra).
  assert (T : 4 * a * Rabs c <= be * be + D + (/ 100000 * (be * be + 4 * a * Rabs c) + 10 * h)).
  { rewrite AC at 1. replace (4 * a * c) with ((D - (be * be - 4 * a * c)) + (be * be - D)) by ring. eapply Rle_trans; [apply Rabs_triang|].
    assert (Rabs (be * be - D) <= be * be + D) by (apply Rabs_le; lra). lra. }
  assert (SS : 0 <= s * s) by apply Rle_0_sqr. split; lra.
Qed.
(** the formula that divides by a *)
Lemma res_a t k : 0 <= k -> Rabs (2 * a * t - w) <= 21 / 10 * u * w + k ->
  Rabs (4 * a * (a * (t * t) - be * t + c)) <= 15 * u * ((2 * a * t) * (2 * a * t)) + 3 * Rabs (2 * a * t) * k + 10 * (k * k) + 11 * h.
Proof.
  intros K HT. destruct r_s as (S0 & S1 & S2). destruct r_W as (W0 & W1 & W2 & W3). destruct r_c as (_ & C2).
  set (v := 2 * a * t) in *.
  replace (4 * a * (a * (t * t) - be * t + c)) with ((v - be) * (v - be) - (be * be - 4 * a * c)) by (unfold v; ring).
  assert (UW : 0 <= u * W) by (apply Rmult_le_pos; lra).
  assert (V : Rabs (v - W) <= 314 / 100 * (u * W) + k).
  { replace (v - W) with ((v - w) + (w - W)) by ring. eapply Rle_trans; [apply Rabs_triang|]. assert (u * w <= u * (101 / 100 * W)) by (apply Rmult_le_compat_l; lra). lra. }
  set (ep := v - W) in *. assert (P : v - be = s + ep) by (unfold ep, W; ring). rewrite P.
  assert (AV : W <= 1001 / 1000 * (Rabs v + k)).
  { assert (X := Rabs_triang v (- ep)). replace (v + - ep) with W in X by (unfold ep; ring). rewrite Rabs_Ropp, (Rabs_pos_eq W) in X by exact W0. assert (u * W <= / 1000000 * W) by (apply Rmult_le_compat_r; lra). lra. }
  assert (V0 := Rabs_pos v). assert (VV : v * v = Rabs v * Rabs v) by (rewrite <- Rabs_mult; symmetry; apply Rabs_pos_eq, Rle_0_sqr). rewrite VV. clearbody ep v s W w.
  set (x := Rabs v) in *. clearbody x. 
  replace ((s + ep) * (s + ep) - (be * be - 4 * a * c)) with ((s * s - D) + (D - (be * be - 4 * a * c)) + (2 * s * ep + ep * ep)) by ring.
  assert (T1 : Rabs (2 * s * ep + ep * ep) <= 2 * W * (314 / 100 * (u * W) + k) + (314 / 100 * (u * W) + k) * (314 / 100 * (u * W) + k)).
  { eapply Rle_trans; [apply Rabs_triang|]. rewrite !Rabs_mult, (Rabs_pos_eq 2), (Rabs_pos_eq s) by lra. assert (SW : s <= W). { clear - W1 S0 W0 BE. assert (0 <= be * be) by apply Rle_0_sqr. nra. }
    apply Rplus_le_compat; apply Rmult_le_compat; try apply Rabs_pos; try assumption; try lra. }
  assert (T2 : Rabs (s * s - D) <= 204 / 100 * (u * (W * W))).
  { eapply Rle_trans; [exact S1|]. assert (0 <= be * be) by apply Rle_0_sqr. assert (D <= 101 / 100 * (W * W)) by lra. assert (u * D <= u * (101 / 100 * (W * W))) by (apply Rmult_le_compat_l; lra). assert (0 <= u * (W * W)) by (apply Rmult_le_pos; [lra|apply Rle_0_sqr]). lra. }
  assert (T3 : Rabs (D - (be * be - 4 * a * c)) <= 63 / 10 * (u * (W * W)) + 101 / 10 * h).
  { eapply Rle_trans; [exact HD|]. assert (u * (be * be + 4 * a * Rabs c) <= u * (203 / 100 * (W * W) + 11 * h)) by (apply Rmult_le_compat_l; lra). assert (u * h <= / 1000000 * h) by (apply Rmult_le_compat_r; lra). assert (0 <= u * (W * W)) by (apply Rmult_le_pos; [lra|apply Rle_0_sqr]). lra. }
  eapply Rle_trans; [apply Rabs_triang|]. eapply Rle_trans; [apply Rplus_le_compat_r, Rabs_triang|].
  clear - T1 T2 T3 AV V0 K U UW W0 H0.
  assert (Q1 : W * W <= 102 / 100 * (x * x) + 110 * (k * k)). { assert (W * W <= (1001 / 1000 * (x + k)) * (1001 / 1000 * (x + k))) by (apply Rmult_le_compat; lra). assert (0 <= (x - 100 * k) * (x - 100 * k)) by apply Rle_0_sqr. assert (0 <= k * k) by apply Rle_0_sqr. assert (0 <= x * x) by apply Rle_0_sqr. lra. }
  assert (Q2 : u * (W * W) <= 102 / 100 * (u * (x * x)) + / 1000 * (k * k)). { assert (u * (W * W) <= u * (102 / 100 * (x * x) + 110 * (k * k))) by (apply Rmult_le_compat_l; lra). assert (u * (k * k) <= / 1000000 * (k * k)) by (apply Rmult_le_compat_r; [apply Rle_0_sqr|lra]). assert (0 <= k * k) by apply Rle_0_sqr. lra. }
  assert (Q3 : (u * W) * (u * W) <= / 1000000 * (u * (W * W))). { replace ((u * W) * (u * W)) with (u * (u * (W * W))) by ring. apply Rmult_le_compat_r; [apply Rmult_le_pos; [lra|apply Rle_0_sqr]|lra]. }
  assert (Q4 : W * k <= 1001 / 1000 * (x * k + k * k)). { assert (W * k <= 1001 / 1000 * (x + k) * k) by (apply Rmult_le_compat_r; lra). lra. }
  assert (Q5 : u * W * k <= / 1000000 * (W * k)). { rewrite Rmult_assoc. apply Rmult_le_compat_r; [apply Rmult_le_pos; lra|lra]. }
  assert (0 <= x * k) by (apply Rmult_le_pos; lra). assert (0 <= k * k) by apply Rle_0_sqr. assert (0 <= u * (x * x)) by (apply Rmult_le_pos; [lra|apply Rle_0_sqr]). lra.
Qed.
(** the formula that divides by the sum *)
Lemma res_c t : 0 < w -> Rabs (t * w - 2 * c) <= 2 * u * Rabs c + h * w -> 100 * h <= u * (a * Rabs c) ->
  Rabs (a * (t * t) - be * t + c) <= 16 * u * Rabs c + 3 * h * w + 3 * a * h * h.
Proof.
  intros WP HT HC. destruct r_s as (S0 & S1 & S2). destruct r_W as (W0 & W1 & W2 & W3). destruct r_c as (C1 & C2).
  assert (C0 := Rabs_pos c). assert (AC : 0 <= a * Rabs c) by (apply Rmult_le_pos; lra). assert (B0 : 0 <= be * be) by apply Rle_0_sqr.
  assert (WW : 0 <= W * W) by apply Rle_0_sqr.
  assert (UA : u * (a * Rabs c) <= / 1000000 * (a * Rabs c)) by (apply Rmult_le_compat_r; lra).
  assert (C3 : 4 * (a * Rabs c) <= 104 / 100 * (W * W)) by lra.
  assert (HW : h <= / 300 * (u * (W * W))). { assert (u * (a * Rabs c) <= u * (26 / 100 * (W * W))) by (apply Rmult_le_compat_l; lra). lra. }
  assert (UWW : 0 <= u * (W * W)) by (apply Rmult_le_pos; lra).
  assert (BW : be <= W) by (unfold W; lra). assert (SW : s <= W) by (unfold W; lra).
  assert (T2 : Rabs (s * s - D) <= 204 / 100 * (u * (W * W))).
  { eapply Rle_trans; [exact S1|]. assert (D <= 101 / 100 * (W * W)) by lra. assert (u * D <= u * (101 / 100 * (W * W))) by (apply Rmult_le_compat_l; lra). lra. }
  assert (T3 : Rabs (D - (be * be - 4 * a * c)) <= 64 / 10 * (u * (W * W))).
  { eapply Rle_trans; [exact HD|]. assert (u * (be * be + 4 * a * Rabs c) <= u * (203 / 100 * (W * W) + 11 * h)) by (apply Rmult_le_compat_l; lra). assert (u * h <= / 1000000 * h) by (apply Rmult_le_compat_r; lra). lra. }
  assert (T4 : Rabs (4 * a * c - 2 * be * w + w * w) <= 105 / 10 * (u * (W * W))).
  { replace (4 * a * c - 2 * be * w + w * w) with ((s * s - D) + (D - (be * be - 4 * a * c)) + (w - W) * (2 * s + (w - W))) by (unfold W; ring).
    eapply Rle_trans; [apply Rabs_triang|]. eapply Rle_trans; [apply Rplus_le_compat_r, Rabs_triang|].
    assert (T5 : Rabs ((w - W) * (2 * s + (w - W))) <= (u * W) * (201 / 100 * W)).
    { rewrite Rabs_mult. apply Rmult_le_compat; try apply Rabs_pos; [exact W2|]. assert (u * W <= / 1000000 * W) by (apply Rmult_le_compat_r; lra). assert (X := Rabs_le_inv _ _ W2). apply Rabs_le. lra. }
    lra. }
  set (ep := t * w - 2 * c) in *.
  assert (EQ : (a * (t * t) - be * t + c) * (w * w) = c * (4 * a * c - 2 * be * w + w * w) + (4 * a * c * ep + a * ep * ep - be * w * ep)) by (unfold ep; ring).
  assert (UC : 0 <= u * Rabs c) by (apply Rmult_le_pos; lra). assert (hw0 : 0 <= h * w) by (apply Rmult_le_pos; lra).
  assert (P1 : Rabs (c * (4 * a * c - 2 * be * w + w * w)) <= Rabs c * (105 / 10 * (u * (W * W)))) by (rewrite Rabs_mult; apply Rmult_le_compat_l; assumption).
  assert (P2 : Rabs (4 * a * c * ep) <= 104 / 100 * (W * W) * (2 * u * Rabs c + h * w)).
  { rewrite Rabs_mult. apply Rmult_le_compat; try apply Rabs_pos; [|exact HT]. rewrite Rabs_mult, (Rabs_pos_eq (4 * a)) by lra. lra. }
  assert (P3 : Rabs (be * w * ep) <= 101 / 100 * (W * W) * (2 * u * Rabs c + h * w)).
  { rewrite Rabs_mult. apply Rmult_le_compat; try apply Rabs_pos; [|exact HT]. rewrite Rabs_pos_eq by (apply Rmult_le_pos; lra). assert (be * w <= W * (101 / 100 * W)) by (apply Rmult_le_compat; lra). lra. }
  assert (P4 : Rabs (a * ep * ep) <= a * ((2 * u * Rabs c + h * w) * (2 * u * Rabs c + h * w))).
  { rewrite Rmult_assoc, Rabs_mult, (Rabs_pos_eq a) by lra. apply Rmult_le_compat_l; [lra|]. rewrite Rabs_mult. apply Rmult_le_compat; try apply Rabs_pos; exact HT. }
  assert (P5 : a * ((2 * u * Rabs c + h * w) * (2 * u * Rabs c + h * w)) <= / 10 * (u * Rabs c) * (W * W) + 2 * a * ((h * w) * (h * w))).
  { assert (X : (2 * u * Rabs c + h * w) * (2 * u * Rabs c + h * w) <= 8 * ((u * Rabs c) * (u * Rabs c)) + 2 * ((h * w) * (h * w))). { assert (0 <= (2 * (u * Rabs c) - h * w) * (2 * (u * Rabs c) - h * w)) by apply Rle_0_sqr. lra. }
    assert (Y : a * ((2 * u * Rabs c + h * w) * (2 * u * Rabs c + h * w)) <= a * (8 * ((u * Rabs c) * (u * Rabs c)) + 2 * ((h * w) * (h * w)))) by (apply Rmult_le_compat_l; lra).
    assert (Z : a * ((u * Rabs c) * (u * Rabs c)) <= / 1000000 * (u * Rabs c) * (26 / 100 * (W * W))). { replace (a * ((u * Rabs c) * (u * Rabs c))) with (u * (u * Rabs c) * (a * Rabs c)) by ring. apply Rmult_le_compat; try lra; [apply Rmult_le_pos; lra|]. apply Rmult_le_compat_r; lra. }
    assert (0 <= (u * Rabs c) * (W * W)) by (apply Rmult_le_pos; lra). lra. }
  assert (M : Rabs (a * (t * t) - be * t + c) * (w * w) <= (16 * u * Rabs c + 3 * h * w + 3 * a * h * h) * (w * w)).
  { assert (M1 : Rabs (a * (t * t) - be * t + c) * (w * w) = Rabs ((a * (t * t) - be * t + c) * (w * w))) by (rewrite (Rabs_mult _ (w * w)), (Rabs_pos_eq (w * w)) by apply Rle_0_sqr; reflexivity). rewrite M1, EQ.
    eapply Rle_trans; [apply Rabs_triang|]. eapply Rle_trans; [apply Rplus_le_compat_l; unfold Rminus; apply Rabs_triang|]. rewrite Rabs_Ropp.
    eapply Rle_trans; [apply Rplus_le_compat_l, Rplus_le_compat_r, Rabs_triang|].
    assert (N : W * W <= 103 / 100 * (w * w)). { assert (W <= 101 / 100 * w) by lra. assert (W * W <= (101 / 100 * w) * (101 / 100 * w)) by (apply Rmult_le_compat; lra). assert (0 <= w * w) by apply Rle_0_sqr. lra. }
    set (q := u * Rabs c) in *. assert (R1 : q * (W * W) <= q * (103 / 100 * (w * w))) by (apply Rmult_le_compat_l; lra). assert (R2 : (h * w) * (W * W) <= (h * w) * (103 / 100 * (w * w))) by (apply Rmult_le_compat_l; lra).
    assert (R3 : Rabs c * (105 / 10 * (u * (W * W))) = 105 / 10 * (q * (W * W))) by (unfold q; ring). rewrite R3 in P1.
    assert (R4 : (2 * u * Rabs c + h * w) = 2 * q + h * w) by (unfold q; ring). rewrite R4 in *.
    assert (R5 : 0 <= a * ((h * w) * (h * w))) by (apply Rmult_le_pos; [lra|apply Rle_0_sqr]).
    replace ((16 * u * Rabs c + 3 * h * w + 3 * a * h * h) * (w * w)) with (16 * (q * (w * w)) + 3 * ((h * w) * (w * w)) + 3 * (a * ((h * w) * (h * w)))) by (unfold q; ring).
    assert (0 <= q * (w * w)) by (apply Rmult_le_pos; [lra|apply Rle_0_sqr]). assert (0 <= (h * w) * (w * w)) by (apply Rmult_le_pos; [lra|apply Rle_0_sqr]).
    clear - P1 P2 P3 P4 P5 R1 R2 R5 H H1. lra. }
  apply Rmult_le_reg_r in M; [exact M|]. apply Rmult_lt_0_compat; exact WP.
Qed.
(** the two formulas give roots on different sides of the vertex *)
Lemma side_a t k : 0 <= k -> Rabs (2 * a * t - w) <= 21 / 10 * u * w + k -> 99 / 100 * s - 12 * (u * W) - k <= 2 * a * t - be.
Proof.
  intros K HT. destruct r_s as (S0 & _). destruct r_W as (W0 & W1 & W2 & W3). apply Rabs_le_inv in HT. apply Rabs_le_inv in W2.
  assert (0 <= u * W) by (apply Rmult_le_pos; lra). assert (u * w <= u * (101 / 100 * W)) by (apply Rmult_le_compat_l; lra). unfold W in *. lra.
Qed.
Lemma side_c t : 0 < w -> Rabs (t * w - 2 * c) <= 2 * u * Rabs c + h * w -> 11 * h <= u * (W * W) ->
  99 / 100 * s - 12 * (u * W) - 2 * a * h <= be - 2 * a * t.
Proof.
  intros WP HT HW. destruct r_s as (S0 & S1 & S2). destruct r_W as (W0 & W1 & W2 & W3). destruct r_c as (C1 & C2).
  assert (C0 := Rabs_pos c). assert (B0 : 0 <= be * be) by apply Rle_0_sqr. assert (WW : 0 <= W * W) by apply Rle_0_sqr.
  assert (UW : 0 <= u * W) by (apply Rmult_le_pos; lra).
  assert (UWW : 0 <= u * (W * W) <= / 1000000 * (W * W)) by (split; [apply Rmult_le_pos; lra|apply Rmult_le_compat_r; lra]).
  assert (BW : be <= W) by (unfold W; lra).
  assert (T2 : Rabs (s * s - D) <= 204 / 100 * (u * (W * W))).
  { eapply Rle_trans; [exact S1|]. assert (D <= 101 / 100 * (W * W)) by lra. assert (u * D <= u * (101 / 100 * (W * W))) by (apply Rmult_le_compat_l; lra). lra. }
  assert (T3 : Rabs (D - (be * be - 4 * a * c)) <= 63 / 10 * (u * (W * W)) + 101 / 10 * h).
  { eapply Rle_trans; [exact HD|]. assert (u * (be * be + 4 * a * Rabs c) <= u * (203 / 100 * (W * W) + 11 * h)) by (apply Rmult_le_compat_l; lra). assert (u * h <= / 1000000 * h) by (apply Rmult_le_compat_r; lra). lra. }
  assert (T4 : Rabs (be * (w - W)) <= u * (W * W)). { rewrite Rabs_mult, (Rabs_pos_eq be) by exact BE. apply Rle_trans with (W * (u * W)); [apply Rmult_le_compat; try apply Rabs_pos; lra|lra]. }
  assert (T5 : Rabs (2 * a * (t * w - 2 * c)) <= 105 / 100 * (u * (W * W)) + 2 * a * h * w).
  { rewrite Rabs_mult, (Rabs_pos_eq (2 * a)) by lra. assert (X : 2 * a * Rabs (t * w - 2 * c) <= 2 * a * (2 * u * Rabs c + h * w)) by (apply Rmult_le_compat_l; lra).
    assert (Y : u * (4 * a * Rabs c) <= u * (104 / 100 * (W * W))) by (apply Rmult_le_compat_l; lra). lra. }
  assert (M : (99 / 100 * s - 12 * (u * W) - 2 * a * h) * w <= (be - 2 * a * t) * w).
  { replace ((be - 2 * a * t) * w) with (s * W + be * (w - W) - (s * s - D) - (D - (be * be - 4 * a * c)) - 2 * a * (t * w - 2 * c)) by (unfold W; ring).
    assert (X1 : 99 / 100 * s * w <= 99 / 100 * s * (101 / 100 * W)) by (apply Rmult_le_compat_l; lra). assert (X2 : 0 <= s * W) by (apply Rmult_le_pos; lra).
    assert (X3 : (u * W) * (999 / 1000 * W) <= (u * W) * w) by (apply Rmult_le_compat_l; lra).
    apply Rabs_le_inv in T2. apply Rabs_le_inv in T3. apply Rabs_le_inv in T4. apply Rabs_le_inv in T5. lra. }
  apply Rmult_le_reg_r in M; [exact M|exact WP].
Qed.
End R.
