(** A float ray that clearly crosses the sphere is reported to hit it. *)
From Coq Require Import ZArith Reals Bool Lra Lia.
From Coq Require Vector Fin.
From Flocq Require Import Core BinarySingleNaN.
From Verif.Model Require Import FloatBase Scalar Float Interval Outcome Vec Transform XReal Geometry.
From Verif Require Import Spec SpecGeom SpecShape SpecError SpecLens SpecQuad.
From Verif.Proofs Require Import BitsLemmas FloatLemmas ScalarProofs XRealLemmas TransformCases SlabFloat SphereFloat MapErr VectorFloat VectorErr CameraFloat QuadFloat SphereErr SphereNear SpherePole.
Open Scope R_scope.

Lemma between A B C s1 s2 tl tr M : 0 < A -> 0 < M -> let g t := A * (t * t) + B * t + C in
  g s1 <= - M -> M <= g s2 -> Rabs (g tl) < M -> Rabs (g tr) < M -> 2 * A * tl + B < 0 -> 0 < 2 * A * tr + B ->
  (s1 <= tr <= s2) \/ (s2 <= tl <= s1).
Proof.
  intros HA HM g G1 G2 GL GR VL VR. apply Rabs_def2 in GL. apply Rabs_def2 in GR.
  assert (DF : forall x y, g y - g x = (y - x) * (A * (x + y) + B)) by (intros x y; unfold g; ring).
  destruct (Rle_lt_dec s1 s2) as [L|L].
  - left. assert (L' : s1 < s2). { destruct L as [L|L]; [exact L|]. rewrite L in G1. lra. }
    assert (P : 0 < A * (s1 + s2) + B). { assert (X := DF s1 s2). destruct (Rlt_le_dec 0 (A * (s1 + s2) + B)) as [Y|Y]; [exact Y|]. assert (0 <= (s2 - s1) * - (A * (s1 + s2) + B)) by (apply Rmult_le_pos; lra). lra. }
    split.
    + destruct (Rle_lt_dec s1 tr) as [Y|Y]; [exact Y|]. exfalso. assert (X := DF tr s1). assert (A * tr < A * s1) by (apply Rmult_lt_compat_l; assumption). assert (0 <= (s1 - tr) * (A * (tr + s1) + B)) by (apply Rmult_le_pos; lra). lra.
    + destruct (Rle_lt_dec tr s2) as [Y|Y]; [exact Y|]. exfalso. assert (X := DF s2 tr). assert (A * s1 < A * tr) by (apply Rmult_lt_compat_l; lra). assert (0 <= (tr - s2) * (A * (s2 + tr) + B)) by (apply Rmult_le_pos; lra). lra.
  - right. assert (P : A * (s2 + s1) + B < 0). { assert (X := DF s2 s1). destruct (Rlt_le_dec (A * (s2 + s1) + B) 0) as [Y|Y]; [exact Y|]. assert (0 <= (s1 - s2) * (A * (s2 + s1) + B)) by (apply Rmult_le_pos; lra). lra. }
    split.
    + destruct (Rle_lt_dec s2 tl) as [Y|Y]; [exact Y|]. exfalso. assert (X := DF tl s2). assert (A * tl < A * s1) by (apply Rmult_lt_compat_l; lra). assert (0 <= (s2 - tl) * - (A * (tl + s2) + B)) by (apply Rmult_le_pos; lra). lra.
    + destruct (Rle_lt_dec tl s1) as [Y|Y]; [exact Y|]. exfalso. assert (X := DF s1 tl). assert (A * s1 < A * tl) by (apply Rmult_lt_compat_l; assumption). assert (0 <= (tl - s1) * - (A * (s1 + tl) + B)) by (apply Rmult_le_pos; lra). lra.
Qed.

Section R.
Variables u h A O Q B S a b c D N : R.
Hypothesis U : 0 < u <= / 1000000.
Hypothesis H : 0 <= h <= / 10 ^ 30 * (u * u).
Hypothesis HA : / 1048576 <= A <= 4000000.
Hypothesis HO : 0 <= O.
Hypothesis HQ : / 1048576 <= Q.
Hypothesis S0 : 0 <= S.
Hypothesis HS : S * S <= A * O.
Hypothesis HB : Rabs B <= 2 * S.
Hypothesis EA : Rabs (a - A) <= 302 / 100 * u * A.
Hypothesis EB : Rabs (b - B) <= 603 / 100 * u * S + 8 * h.
Hypothesis EC : Rabs (c - (O - Q)) <= 403 / 100 * u * O + 203 / 100 * u * Q + 8 * h.
Hypothesis HD : Rabs (D - (b * b - 4 * a * c)) <= 31 / 10 * u * (b * b + 4 * a * Rabs c) + 10 * h.
Hypothesis DISC : 400 * (u * (A * (O + Q))) <= B * B - 4 * A * (O - Q).
Hypothesis N0 : 0 <= N.
Hypothesis HN : N * N = A * (O + Q).

Lemma s_h : h <= / 10 ^ 36 * u. Proof. cbn [pow] in *. assert (u * u <= / 1000000 * u) by (apply Rmult_le_compat_r; lra). lra. Qed.
Lemma s_N : / 1048576 <= N /\ S <= N /\ / 1048576 * / 1048576 <= A * (O + Q).
Proof.
  assert (P : / 1048576 * / 1048576 <= A * (O + Q)) by (apply Rmult_le_compat; lra).
  assert (SQ : forall x y, 0 <= x -> 0 <= y -> x * x <= y * y -> x <= y). { intros x y X Y L. apply Rsqr_incr_0; assumption. }
  split; [|split; [|exact P]]; apply SQ; try lra. rewrite HN. assert (0 <= A * Q) by (apply Rmult_le_pos; lra). lra.
Qed.
Lemma s_coarse : Rabs (b - B) <= 604 / 100 * (u * N) /\ Rabs b <= 201 / 100 * N /\ Rabs c <= 1001 / 1000 * (O + Q) /\ 0 < a <= 1001 / 1000 * A /\ b * b + 4 * a * Rabs c <= 81 / 10 * (A * (O + Q)).
Proof.
  destruct s_N as (N1 & N2 & N3). assert (SH := s_h). cbn [pow] in *.
  assert (UN : u * / 1048576 <= u * N) by (apply Rmult_le_compat_l; lra). assert (US : u * S <= u * N) by (apply Rmult_le_compat_l; lra). assert (UN2 : u * N <= / 1000000 * N) by (apply Rmult_le_compat_r; lra).
  assert (UA : u * A <= / 1000000 * A) by (apply Rmult_le_compat_r; lra). assert (UO : 0 <= u * O <= / 1000000 * O) by (split; [apply Rmult_le_pos|apply Rmult_le_compat_r]; lra). assert (UQ : 0 <= u * Q <= / 1000000 * Q) by (split; [apply Rmult_le_pos|apply Rmult_le_compat_r]; lra).
  assert (X1 : Rabs (b - B) <= 604 / 100 * (u * N)) by lra.
  assert (X2 : Rabs b <= 2001 / 1000 * N). { replace b with ((b - B) + B) by ring. eapply Rle_trans; [apply Rabs_triang|]. lra. }
  assert (X3 : Rabs c <= 1001 / 1000 * (O + Q)). { replace c with ((c - (O - Q)) + (O - Q)) by ring. eapply Rle_trans; [apply Rabs_triang|]. assert (Rabs (O - Q) <= O + Q) by (apply Rabs_le; lra). lra. }
  assert (X4 : 0 < a <= 1001 / 1000 * A) by (apply Rabs_le_inv in EA; lra).
  split; [exact X1|]. split; [lra|]. split; [exact X3|]. split; [exact X4|].
  assert (Y1 : b * b <= 2001 / 1000 * N * (2001 / 1000 * N)). { replace (b * b) with (Rabs b * Rabs b) by (rewrite <- Rabs_mult; apply Rabs_pos_eq, Rle_0_sqr). apply Rmult_le_compat; try apply Rabs_pos; assumption. }
  assert (Y2 : a * Rabs c <= 1001 / 1000 * A * (1001 / 1000 * (O + Q))) by (apply Rmult_le_compat; try apply Rabs_pos; lra).
  assert (0 <= / 1048576 * / 1048576) by lra. lra.
Qed.
Lemma s_D : 300 * (u * (A * (O + Q))) <= D <= 82 / 10 * (A * (O + Q)).
Proof.
  destruct s_N as (N1 & N2 & N3). destruct s_coarse as (X1 & X2 & X3 & X4 & X5). assert (SH := s_h). cbn [pow] in *. set (P := A * (O + Q)) in *.
  assert (UP : u * (/ 1048576 * / 1048576) <= u * P) by (apply Rmult_le_compat_l; lra). assert (UP2 : u * P <= / 1000000 * P) by (apply Rmult_le_compat_r; lra).
  assert (UN2 : u * N <= / 1000000 * N) by (apply Rmult_le_compat_r; lra).
  assert (BB : Rabs (b * b - B * B) <= 243 / 10 * (u * P)).
  { replace (b * b - B * B) with ((b - B) * (b + B)) by ring. rewrite Rabs_mult.
    assert (Rabs (b + B) <= 402 / 100 * N) by (eapply Rle_trans; [apply Rabs_triang|]; lra).
    apply Rle_trans with (604 / 100 * (u * N) * (402 / 100 * N)); [apply Rmult_le_compat; try apply Rabs_pos; assumption|].
    replace (604 / 100 * (u * N) * (402 / 100 * N)) with (604 * 402 / 10000 * (u * (N * N))) by field. rewrite HN. fold P. lra. }
  assert (AC : Rabs (a * c - A * (O - Q)) <= 708 / 100 * (u * P)).
  { replace (a * c - A * (O - Q)) with ((a - A) * c + A * (c - (O - Q))) by ring. eapply Rle_trans; [apply Rabs_triang|]. rewrite !Rabs_mult, (Rabs_pos_eq A) by lra.
    assert (Y1 : Rabs (a - A) * Rabs c <= 302 / 100 * u * A * (1001 / 1000 * (O + Q))) by (apply Rmult_le_compat; try apply Rabs_pos; assumption).
    assert (Y2 : A * Rabs (c - (O - Q)) <= A * (403 / 100 * u * O + 203 / 100 * u * Q + 8 * h)) by (apply Rmult_le_compat_l; lra).
    assert (Y3 : A * h <= 4000000 * h) by (apply Rmult_le_compat_r; lra).
    assert (Y4 : 0 <= u * (A * Q)) by (apply Rmult_le_pos; [lra|]; apply Rmult_le_pos; lra).
    unfold P in *. lra. }
  assert (Y : u * (b * b + 4 * a * Rabs c) <= u * (81 / 10 * P)) by (apply Rmult_le_compat_l; lra).
  assert (BP : B * B <= 4 * P).  { replace (B * B) with (Rabs B * Rabs B) by (rewrite <- Rabs_mult; apply Rabs_pos_eq, Rle_0_sqr). rewrite <- HN. apply Rle_trans with ((2 * N) * (2 * N)); [apply Rmult_le_compat; try apply Rabs_pos; lra|lra]. }
  assert (AOQ : A * (O - Q) <= P /\ - P <= A * (O - Q)). { unfold P. assert (0 <= A * O) by (apply Rmult_le_pos; lra). assert (0 <= A * Q) by (apply Rmult_le_pos; lra). lra. }
  apply Rabs_le_inv in HD. apply Rabs_le_inv in BB. apply Rabs_le_inv in AC. fold P in DISC. split; lra.
Qed.
Lemma s_side q : Rabs (q - sqrt D) <= u * sqrt D ->
  0 < q /\ 11 * h <= u * ((Rabs b + q) * (Rabs b + q)) /\ 15 * (u * N) < 99 / 100 * q - 12 * (u * (Rabs b + q)) - (3 + 2 * a) * h.
Proof.
  intros Eq. destruct s_N as (N1 & N2 & N3). destruct s_coarse as (X1 & X2 & X3 & X4 & X5). destruct s_D as [D1 D2]. assert (SH := s_h). set (P := A * (O + Q)) in *.
  assert (P0 : 0 < P) by lra. assert (UP : u * (/ 1048576 * / 1048576) <= u * P) by (apply Rmult_le_compat_l; lra).
  assert (UN : u * / 1048576 <= u * N) by (apply Rmult_le_compat_l; lra).
  assert (DP : 0 <= D) by lra. assert (SP := sqrt_pos D). assert (SS := sqrt_sqrt D DP). assert (SQ : forall x y, 0 <= x -> 0 <= y -> x * x <= y * y -> x <= y) by (intros x y X Y L; apply Rsqr_incr_0; assumption).
  assert (L1 : 17000 * (u * N) <= sqrt D).
  { apply SQ; [lra|exact SP|]. rewrite SS. replace (17000 * (u * N) * (17000 * (u * N))) with (289000000 * (u * (u * (N * N)))) by ring. rewrite HN. fold P. assert (u * (u * P) <= / 1000000 * (u * P)) by (apply Rmult_le_compat_r; lra). lra. }
  assert (L2 : sqrt D <= 29 / 10 * N) by (apply SQ; [exact SP|lra|]; rewrite SS; replace (29 / 10 * N * (29 / 10 * N)) with (841 / 100 * (N * N)) by field; rewrite HN; fold P; lra).
  assert (US : u * sqrt D <= / 1000000 * sqrt D) by (apply Rmult_le_compat_r; lra). apply Rabs_le_inv in Eq.
  assert (Q1 : 999 / 1000 * sqrt D <= q <= 3 * N) by lra.
  assert (B0 := Rabs_pos b).
  split; [lra|]. split.
  - assert (Y1 : (999 / 1000 * sqrt D) * (999 / 1000 * sqrt D) <= (Rabs b + q) * (Rabs b + q)) by (apply Rmult_le_compat; lra).
    assert (Y2 : u * ((999 / 1000 * sqrt D) * (999 / 1000 * sqrt D)) <= u * ((Rabs b + q) * (Rabs b + q))) by (apply Rmult_le_compat_l; lra).
    replace (999 / 1000 * sqrt D * (999 / 1000 * sqrt D)) with (998001 / 1000000 * (sqrt D * sqrt D)) in Y2 by field. rewrite SS in Y2.
    assert (Y3 : u * (300 * (u * P)) <= u * D) by (apply Rmult_le_compat_l; lra). assert (Y4 : (u * u) * (/ 1048576 * / 1048576) <= (u * u) * P) by (apply Rmult_le_compat_l; [apply Rle_0_sqr|lra]).
    assert (0 <= u * u) by apply Rle_0_sqr. cbn [pow] in *. lra.
  - assert (Y1 : u * (Rabs b + q) <= u * (6 * N)) by (apply Rmult_le_compat_l; lra).
    assert (Y2 : a * h <= 5000000 * h) by (apply Rmult_le_compat_r; lra). cbn [pow] in *. lra.
Qed.
Lemma s_close t : A * (t * t) <= 202 / 100 * (O + Q) -> Rabs ((2 * A * t + B) - (2 * a * t + b)) <= 15 * (u * N).
Proof.
  intros HT. destruct s_N as (N1 & N2 & N3). destruct s_coarse as (X1 & X2 & X3 & X4 & X5).
  assert (UN : 0 <= u * N) by (apply Rmult_le_pos; lra).
  assert (AT : A * Rabs t <= 143 / 100 * N).
  { apply Rsqr_incr_0; unfold Rsqr; [|apply Rmult_le_pos; [lra|apply Rabs_pos]|lra].
    replace (A * Rabs t * (A * Rabs t)) with (A * (A * (Rabs t * Rabs t))) by ring. rewrite <- Rabs_mult, (Rabs_pos_eq (t * t)) by apply Rle_0_sqr.
    apply Rle_trans with (A * (202 / 100 * (O + Q))); [apply Rmult_le_compat_l; lra|]. replace (143 / 100 * N * (143 / 100 * N)) with (20449 / 10000 * (N * N)) by field. rewrite HN. lra. }
  replace (2 * A * t + B - (2 * a * t + b)) with (- (2 * (a - A) * t) + - (b - B)) by ring. eapply Rle_trans; [apply Rabs_triang|]. rewrite !Rabs_Ropp, !Rabs_mult, (Rabs_pos_eq 2) by lra.
  assert (Y : Rabs (a - A) * Rabs t <= 302 / 100 * u * A * Rabs t) by (apply Rmult_le_compat_r; [apply Rabs_pos|exact EA]).
  assert (Z : u * (A * Rabs t) <= u * (143 / 100 * N)) by (apply Rmult_le_compat_l; lra). lra.
Qed.
End R.

Lemma z_real u h M A O oz dz t P z : 0 < u <= / 1000000 -> 0 <= h <= / 10 ^ 36 * u -> / 1048576 <= M -> oz * oz <= O -> dz * dz <= A -> O <= M -> A * (t * t) <= 202 / 100 * M ->
  Rabs (P - z) <= 201 / 100 * u * (Rabs oz + Rabs (t * dz)) + 101 / 100 * h -> Rabs (P - z) <= 5 * u * sqrt M.
Proof.
  intros U H HM Ho Hd OM AM E. assert (M0 : 0 <= M) by lra. assert (SS := sqrt_sqrt M M0). assert (SP := sqrt_pos M). set (q := sqrt M) in *.
  assert (SQ : forall x y, 0 <= y -> x * x <= y * y -> Rabs x <= y). { intros x y Y L. apply Rsqr_incr_0; [|apply Rabs_pos|exact Y]. unfold Rsqr. rewrite <- Rabs_mult, Rabs_pos_eq by apply Rle_0_sqr. exact L. }
  assert (X1 : Rabs oz <= q) by (apply SQ; lra).
  assert (X2 : Rabs (t * dz) <= 143 / 100 * q).
  { apply SQ; [lra|]. replace (143 / 100 * q * (143 / 100 * q)) with (20449 / 10000 * (q * q)) by field. rewrite SS. apply Rle_trans with (A * (t * t)); [|lra].
    replace (t * dz * (t * dz)) with (dz * dz * (t * t)) by ring. apply Rmult_le_compat_r; [apply Rle_0_sqr|exact Hd]. }
  assert (X3 : / 1024 <= q). { apply Rsqr_incr_0; unfold Rsqr; lra. }
  assert (X4 : u * (Rabs oz + Rabs (t * dz)) <= u * (243 / 100 * q)) by (apply Rmult_le_compat_l; lra).
  assert (X5 : u * / 1024 <= u * q) by (apply Rmult_le_compat_l; lra). cbn [pow] in H. lra.
Qed.

Section N.
Context {f : fmt} {m : libm f}.
Notation FT := (float f).
Notation u := (unit_roundoff f).
Notation eta := (smallest_float f / 2).

Lemma u_pos : 0 < u.
Proof. unfold unit_roundoff. apply bpow_gt_0. Qed.
Lemma cauchy_abs (o d : R3) : let S := Rabs (cX o * cX d) + Rabs (cY o * cY d) + Rabs (cZ o * cZ d) in S * S <= dot3 d d * dot3 o o.
Proof.
  intros S. unfold S, dot3. rewrite !Rabs_mult.
  assert (SA : forall x, x * x = Rabs x * Rabs x) by (intros x; rewrite <- Rabs_mult; symmetry; apply Rabs_pos_eq, Rle_0_sqr).
  rewrite (SA (cX o)), (SA (cY o)), (SA (cZ o)), (SA (cX d)), (SA (cY d)), (SA (cZ d)).
  set (a := Rabs (cX o)). set (b := Rabs (cY o)). set (c := Rabs (cZ o)). set (x := Rabs (cX d)). set (y := Rabs (cY d)). set (z := Rabs (cZ d)).
  assert (K1 := Rle_0_sqr (a * y - b * x)). assert (K2 := Rle_0_sqr (a * z - c * x)). assert (K3 := Rle_0_sqr (b * z - c * y)). unfold Rsqr in *. lra.
Qed.
Lemma gi_some (s : sphere FT) r t : finite t -> on_extent (tmax r) (B2R t) -> fall finite (ray_eval r t) -> finite (z_min s) -> finite (z_max s) ->
  B2R (z_min s) <= cZ (f3 (ray_eval r t)) <= B2R (z_max s) -> (forall y x : FT, ~ flt (phi_max s) (gatan2 y x)) -> exists ip, s_get_intersection s r t = Some ip.
Proof.
  intros Ft (T0 & TM) FP F0 F1 [Z0 Z1] PH.
  assert (R1 : in_range t szero (tmax r) = true).
  { apply in_range_spec. split.
    - apply fle_E. split; [reflexivity|]. split; [destruct t; try reflexivity; discriminate Ft|]. rewrite (E_B2R t Ft). cbn. exact T0.
    - apply fle_E. split; [destruct t; try reflexivity; discriminate Ft|]. destruct TM as [TM|[FM TM]]; [rewrite TM; split; [reflexivity|]; rewrite (E_B2R t Ft); cbn; apply Rlt_le, (Rle_lt_trans _ (Rabs (B2R t))); [apply Rle_abs|apply abs_B2R_lt_emax]|].
      split; [destruct (tmax r); try reflexivity; discriminate FM|]. rewrite (E_B2R t Ft), (E_B2R _ FM). exact TM. }
  assert (Fz : finite (vz (ray_eval r t))) by apply (FP (Fin.FS (Fin.FS Fin.F1))).
  assert (NF : forall x : FT, finite x -> nonnan x) by (intros x Fx; destruct x; try reflexivity; discriminate Fx).
  assert (R2 : in_range (vz (ray_eval r t)) (z_min s) (z_max s) = true).
  { apply in_range_spec. split; apply fle_E; (split; [apply NF; assumption|]; split; [apply NF; assumption|]); rewrite !E_B2R by assumption; assumption. }
  unfold s_get_intersection.
  match goal with |- context [negb ?b] => replace b with true by (symmetry; exact R1) end. cbn [negb].
  match goal with |- context [negb ?b] => replace b with true by (symmetry; exact R2) end. cbn [negb].
  match goal with |- context [if ?b then None else _] => destruct b eqn:E end; [|eexists; reflexivity].
  exfalso. apply (PH (vy (ray_eval r t)) (vx (ray_eval r t))). apply sgt_spec. exact E.
Qed.

Lemma ray_fin (r : ray FT) (t : FT) : (forall i, finite (Vector.nth (origin r) i) /\ Rabs (B2R (Vector.nth (origin r) i)) <= 1048576) ->
  (forall i, finite (Vector.nth (direction r) i) /\ Rabs (B2R (Vector.nth (direction r) i)) <= 1024) -> finite t -> Rabs (B2R t) <= 10 ^ 21 -> fall finite (ray_eval r t).
Proof.
  intros Ho Hd Ft Bt. assert (U := u_q (f := f)). assert (EU := eta_u (f := f)). assert (T30 := big_1e30). cbn [pow] in EU, T30.
  assert (G : forall i, ray_eval r t @ i = fadd (origin r @ i) (fmul (direction r @ i) t)).
  { intros i. unfold ray_eval. etransitivity; [exact (Vector.nth_map2 _ _ _ i i i eq_refl eq_refl)|]. exact (f_equal (fadd _) (Vector.nth_map _ _ i i eq_refl)). }
  intros i. rewrite G. destruct (Ho i) as [F1 B1]. destruct (Hd i) as [F2 B2]. cbn [pow] in Bt.
  assert (X : Rabs (B2R (direction r @ i) * B2R t) <= 1024 * 10 ^ 21) by (rewrite Rabs_mult; apply Rmult_le_compat; try apply Rabs_pos; [exact B2|cbn [pow]; exact Bt]). cbn [pow] in X.
  destruct (big_fin _ _ (fmul_Rnd _ t F2 Ft)) as [F3 E3]; [lra|].
  destruct (big_fin _ _ (fadd_Rnd (origin r @ i) _ F1 F3)) as [F4 _]; [|exact F4].
  replace (B2R (fmul (direction r @ i) t)) with ((B2R (fmul (direction r @ i) t) - B2R (direction r @ i) * B2R t) + B2R (direction r @ i) * B2R t) by ring.
  eapply Rle_trans; [apply Rabs_triang|]. eapply Rle_trans; [apply Rplus_le_compat_l, Rabs_triang|].
  assert (u * Rabs (B2R (direction r @ i) * B2R t) <= / 1000000 * Rabs (B2R (direction r @ i) * B2R t)) by (apply Rmult_le_compat_r; [apply Rabs_pos|lra]). lra.
Qed.
Lemma sphere_seen (s : sphere FT) (r : ray FT) : usual_ray (origin r) (direction r) -> usual_radius (radius s) -> (forall y x : FT, ~ flt (phi_max s) (gatan2 y x)) ->
  finite (z_min s) -> finite (z_max s) ->
  let o := f3 (origin r) in let d := f3 (direction r) in let R2 := B2R (radius s) * B2R (radius s) in let M := dot3 o o + R2 in
  let p := at_ray o d in
  (exists s1 s2, on_extent (tmax r) s1 /\ on_extent (tmax r) s2 /\ dot3 (p s1) (p s1) + 100 * u * M <= R2 /\ R2 + 100 * u * M <= dot3 (p s2) (p s2)) ->
  (forall t, on_extent (tmax r) t -> Rabs (dot3 (p t) (p t) - R2) <= 100 * u * M -> B2R (z_min s) + 5 * u * sqrt M <= cZ (p t) <= B2R (z_max s) - 5 * u * sqrt M) ->
  s_do_intersect s r = true.
Proof.
  intros UR UP PH FZ0 FZ1 o d R2 M p (s1 & s2 & X1 & X2 & G1 & G2) HZ.
  destruct (coefs s r UR UP) as (a & b & c & Fa & Fb & Fc & Ba & Bb & Bc & HC & EA & EB & EC & BR & UNF). fold o d R2 in EA, EB, EC, BR.
  destruct UR as (Ho & Hd & HA). fold d in HA. assert (U := u_q (f := f)). assert (U0 := u_pos). assert (EU := eta_u (f := f)). assert (ES := eta_sq (f := f)).
  set (B := 2 * (cX o * cX d + cY o * cY d + cZ o * cZ d)) in *. set (S := Rabs (cX o * cX d) + Rabs (cY o * cY d) + Rabs (cZ o * cZ d)) in *.
  assert (O0 : 0 <= dot3 o o). { unfold dot3. assert (Y1 := Rle_0_sqr (cX o)). assert (Y2 := Rle_0_sqr (cY o)). assert (Y3 := Rle_0_sqr (cZ o)). unfold Rsqr in *. lra. }
  assert (A4 : dot3 d d <= 4000000).
  { unfold dot3. assert (SQ : forall x K, Rabs x <= K -> 0 <= x * x <= K * K). { intros x K BK. split; [apply Rle_0_sqr|]. rewrite <- abs_sq, Rabs_mult. apply Rmult_le_compat; try apply Rabs_pos; assumption. }
    assert (Y1 := SQ _ _ (proj2 (Hd Fin.F1))). assert (Y2 := SQ _ _ (proj2 (Hd (Fin.FS Fin.F1)))). assert (Y3 := SQ _ _ (proj2 (Hd (Fin.FS (Fin.FS Fin.F1))))). unfold d, f3. cbn [cX cY cZ]. lra. }
  assert (S0 : 0 <= S) by (unfold S; assert (Y1 := Rabs_pos (cX o * cX d)); assert (Y2 := Rabs_pos (cY o * cY d)); assert (Y3 := Rabs_pos (cZ o * cZ d)); lra).
  assert (SS : S * S <= dot3 d d * dot3 o o) by apply cauchy_abs.
  assert (BS : Rabs B <= 2 * S). { unfold B, S. rewrite Rabs_mult, (Rabs_pos_eq 2) by lra. apply Rmult_le_compat_l; [lra|]. eapply Rle_trans; [apply Rabs_triang|]. apply Rplus_le_compat_r, Rabs_triang. }
  assert (PG : forall t, dot3 (p t) (p t) - R2 = dot3 d d * (t * t) + B * t + (dot3 o o - R2)) by (intros t; unfold p, at_ray, dot3, add3, scl3, B; cbn [cX cY cZ]; ring).
  destruct (quad_res a b c Fa Fb Fc Ba Bb Bc HC) as (D & HD & QR).
  set (A := dot3 d d) in *. set (O := dot3 o o) in *. set (e := 100 * u * M) in *.
  assert (M0 : / 1048576 <= M) by (unfold M; lra). assert (E0 : 0 < e) by (unfold e; apply Rmult_lt_0_compat; lra).
  assert (H1 : A * (s1 * s1) + B * s1 + (O - R2) <= - e) by (rewrite <- PG; lra). assert (H2 : e <= A * (s2 * s2) + B * s2 + (O - R2)) by (rewrite <- PG; lra).
  assert (DISC : 400 * (u * (A * (O + R2))) <= B * B - 4 * A * (O - R2)).
  { assert (Y := Rle_0_sqr (2 * A * s1 + B)). unfold Rsqr in Y. assert (Z : 4 * A * (A * (s1 * s1) + B * s1 + (O - R2)) <= 4 * A * - e) by (apply Rmult_le_compat_l; lra). unfold e, M in Z. lra. }
  assert (N0 : 0 <= A * (O + R2)) by (apply Rmult_le_pos; lra). assert (NN := sqrt_sqrt _ N0). assert (NP := sqrt_pos (A * (O + R2))). set (N := sqrt (A * (O + R2))) in *.
  assert (U' : 0 < u <= / 1000000) by lra. assert (HA' : / 1048576 <= A <= 4000000) by lra.
  destruct (s_D u eta A O R2 B S (B2R a) (B2R b) (B2R c) D N U' ES HA' O0 BR S0 SS BS EA EB EC HD DISC NP NN) as [D1 D2].
  assert (D0 : 0 < D) by (eapply Rlt_le_trans; [|exact D1]; apply Rmult_lt_0_compat; [lra|]; apply Rmult_lt_0_compat; [lra|]; apply Rmult_lt_0_compat; lra).
  destruct (solve_quadratic a b c) as [[t0 t1]|]; [|lra].
  destruct QR as (_ & _ & q & Eq & QR). cbn zeta in QR.
  destruct (s_side u eta A O R2 B S (B2R a) (B2R b) (B2R c) D N U' ES HA' O0 BR S0 SS BS EA EB EC HD DISC NP NN q Eq) as (q0 & qw & qs).
  destruct (QR qw q0) as (tl & tr & Hl & Hr & (Fl & Bl & Rl) & (Fr & Br & Rr) & Sl & Sr). clear QR.
  assert (BQ : / 2000000 <= R2) by lra.
  destruct (near_real u eta (cX o) (cY o) (cZ o) (cX d) (cY d) (cZ d) R2 (B2R tl) (B2R a) (B2R b) (B2R c) U eta_u BQ EA EB EC Bl Rl) as [NL AL].
  destruct (near_real u eta (cX o) (cY o) (cZ o) (cX d) (cY d) (cZ d) R2 (B2R tr) (B2R a) (B2R b) (B2R c) U eta_u BQ EA EB EC Br Rr) as [NR AR].
  assert (CL := s_close u eta A O R2 B S (B2R a) (B2R b) (B2R c) N U' ES HA' O0 BR S0 SS BS EA EB EC NP NN (B2R tl) AL).
  assert (CR := s_close u eta A O R2 B S (B2R a) (B2R b) (B2R c) N U' ES HA' O0 BR S0 SS BS EA EB EC NP NN (B2R tr) AR).
  apply Rabs_le_inv in CL. apply Rabs_le_inv in CR.
  assert (E72 : 72 * u * (O + R2) < e). { unfold e, M. assert (0 < u * (O + R2)) by (apply Rmult_lt_0_compat; lra). lra. }
  assert (GO : forall t, t = t0 \/ t = t1 -> finite t -> Rabs (B2R t) <= 10 ^ 21 -> Rabs (A * (B2R t * B2R t) + B * B2R t + (O - R2)) <= 72 * u * (O + R2) -> A * (B2R t * B2R t) <= 202 / 100 * (O + R2) ->
     on_extent (tmax r) (B2R t) -> s_do_intersect s r = true).
  { intros t T01 Ft Bt Gt At Xt. assert (FP : fall finite (ray_eval r t)) by (apply ray_fin; assumption).
    assert (ZP := HZ (B2R t) Xt ltac:(rewrite PG; lra)).
    destruct (gi_some s r t Ft Xt FP FZ0 FZ1) as (ip & GI); [|exact PH|].
    - destruct (ray_err r t FP) as (_ & _ & PZ). fold o d in PZ. fold p in PZ. unfold add3, abs3, scl3 in PZ. cbn [cZ] in PZ.
      assert (GG : rel_err f 2 <= 201 / 100 * u). { unfold rel_err. cbn [pow]. assert (u * u <= / 1000000 * u) by (apply Rmult_le_compat_r; lra). lra. }
      assert (PZ' : Rabs (cZ (f3 (ray_eval r t)) - cZ (p (B2R t))) <= 5 * u * sqrt M).
      { apply (z_real u eta M A O (cZ o) (cZ d) (B2R t)); try assumption; try (unfold M; lra).
        - unfold O, dot3. assert (Y1 := Rle_0_sqr (cX o)). assert (Y2 := Rle_0_sqr (cY o)). unfold Rsqr in *. lra.
        - unfold A, dot3. assert (Y1 := Rle_0_sqr (cX d)). assert (Y2 := Rle_0_sqr (cY d)). unfold Rsqr in *. lra.
        - eapply Rle_trans; [exact PZ|]. assert (Q0 : 0 <= Rabs (cZ o) + Rabs (B2R t * cZ d)) by (assert (Y1 := Rabs_pos (cZ o)); assert (Y2 := Rabs_pos (B2R t * cZ d)); lra).
          assert (rel_err f 2 * (Rabs (cZ o) + Rabs (B2R t * cZ d)) <= 201 / 100 * u * (Rabs (cZ o) + Rabs (B2R t * cZ d))) by (apply Rmult_le_compat_r; assumption). assert (u * eta <= / 1000000 * eta) by (apply Rmult_le_compat_r; lra). lra. }
      apply Rabs_le_inv in PZ'. lra.
    - unfold s_do_intersect. rewrite UNF. destruct T01 as [->| ->]; rewrite GI; [reflexivity|]. destruct (s_get_intersection s r t0); reflexivity. }
  assert (CV : forall t x y, on_extent (tmax r) x -> on_extent (tmax r) y -> x <= t <= y -> on_extent (tmax r) t).
  { intros t x y [Y1 Y2] [Y3 Y4] Y5. split; [lra|]. destruct Y4 as [Y4|[F4 Y4]]; [left; exact Y4|right; split; [exact F4|lra]]. }
  assert (NL' : Rabs (A * (B2R tl * B2R tl) + B * B2R tl + (O - R2)) <= 72 * u * (O + R2)) by (replace (A * (B2R tl * B2R tl) + B * B2R tl + (O - R2)) with (A * (B2R tl * B2R tl) + B * B2R tl + O - R2) by ring; exact NL).
  assert (NR' : Rabs (A * (B2R tr * B2R tr) + B * B2R tr + (O - R2)) <= 72 * u * (O + R2)) by (replace (A * (B2R tr * B2R tr) + B * B2R tr + (O - R2)) with (A * (B2R tr * B2R tr) + B * B2R tr + O - R2) by ring; exact NR).
  destruct (between A B (O - R2) s1 s2 (B2R tl) (B2R tr) e) as [K|K]; try assumption; try lra.
  - apply (GO tr); try assumption. apply (CV _ s1 s2); assumption.
  - apply (GO tl); try assumption. apply (CV _ s2 s1); assumption.
Qed.
End N.

Lemma hit_near f (m : libm f) (s : sphere (float f)) (r : ray (float f)) h : usual_ray (origin r) (direction r) -> usual_radius (radius s) -> s_hit s r = Some h ->
  let o := f3 (origin r) in let d := f3 (direction r) in let p := at_ray o d (B2R (t_ray h)) in let q := f3 (si_p (h_si h)) in
  let R1 := B2R (radius s) in let u := unit_roundoff f in
  finite (t_ray h) /\ fall finite (si_p (h_si h)) /\
  Rabs (dot3 p p - R1 * R1) <= 72 * u * (dot3 o o + R1 * R1) /\ Rabs (dot3 q q - R1 * R1) <= 100 * u * (dot3 o o + R1 * R1) /\
  Rabs (len3 q - R1) * R1 <= 100 * u * (dot3 o o + R1 * R1).
Proof.
  intros UR UP HI o d p q R1 u. destruct (s_hit_ip s r h HI) as (ip & II & ET & EP). destruct (sphere_near s r ip UR UP II) as (X1 & X2 & X3 & X4).
  unfold p, q. rewrite ET, EP. split; [exact X1|]. split; [exact X2|]. split; [exact X3|]. split; [exact X4|].
  fold R1 o u in X4. set (k := f3 (sp_p ip)) in *. destruct UP as (_ & BR). fold R1 in BR. eapply Rle_trans; [|exact X4].
  assert (K0 : 0 <= dot3 k k). { unfold dot3. assert (Y1 := Rle_0_sqr (cX k)). assert (Y2 := Rle_0_sqr (cY k)). assert (Y3 := Rle_0_sqr (cZ k)). unfold Rsqr in *. lra. }
  unfold len3. assert (SS := sqrt_sqrt _ K0). assert (SP := sqrt_pos (dot3 k k)). set (l := sqrt (dot3 k k)) in *. rewrite <- SS.
  replace (l * l - R1 * R1) with ((l - R1) * (l + R1)) by ring. rewrite Rabs_mult. apply Rmult_le_compat_l; [apply Rabs_pos|]. rewrite Rabs_pos_eq; lra.
Qed.

Lemma seen_sample f (m : libm f) : exists s, ball43 f = Ret s /\ let r := side_ray f in
  usual_ray (origin r) (direction r) /\ usual_radius (radius s) /\ (forall y x : float f, ~ flt (phi_max s) (gatan2 y x)) /\ finite (z_min s) /\ finite (z_max s) /\
  let o := f3 (origin r) in let d := f3 (direction r) in let R2 := B2R (radius s) * B2R (radius s) in let M := dot3 o o + R2 in let p := at_ray o d in let u := unit_roundoff f in
  (exists s1 s2, on_extent (tmax r) s1 /\ on_extent (tmax r) s2 /\ dot3 (p s1) (p s1) + 100 * u * M <= R2 /\ R2 + 100 * u * M <= dot3 (p s2) (p s2)) /\
  (forall t, on_extent (tmax r) t -> Rabs (dot3 (p t) (p t) - R2) <= 100 * u * M -> B2R (z_min s) + 5 * u * sqrt M <= cZ (p t) <= B2R (z_max s) - 5 * u * sqrt M).
Proof.
  destruct (ball43_new f m) as (s & S0 & S1 & S2 & S3 & S4). exists s. split; [exact S0|].
  destruct (fv_usual f (-5) 0 0 1 0 0) as (UR & VO & VD); try (cbn; lia). destruct (rd43_size f) as [UR43 B43].
  destruct (f_of_Z_exact (f := f) 10 ltac:(destruct f; vm_compute; discriminate)) as [F10 V10]. destruct (f_of_Z_exact (f := f) 1 ltac:(destruct f; vm_compute; discriminate)) as [F1 V1].
  assert (L1 : 1 <= B2R (rd43 f)). { assert (L : fle (f_of_Z 1) (rd43 f)) by (apply sle_spec; destruct f; vm_compute; reflexivity). apply fle_E in L. destruct L as (_ & _ & L). rewrite (E_B2R _ (proj1 UR43)), E_B2R in L by exact F1. rewrite V1 in L. exact L. }
  assert (U := u_q (f := f)).
  intros r. rewrite S1, S2, S3, S4. split; [exact UR|]. split; [exact UR43|]. split; [intros y x; apply no_flt_inf|].
  split; [rewrite fneg_finite; exact (proj1 UR43)|]. split; [exact (proj1 UR43)|].
  unfold r, side_ray. cbn [origin direction tmax]. rewrite VO, VD. cbn zeta. rewrite fneg_B2R. set (R1 := B2R (rd43 f)) in *.
  assert (EM : dot3 {| cX := -5; cY := 0; cZ := 0 |} {| cX := -5; cY := 0; cZ := 0 |} + R1 * R1 = 25 + R1 * R1) by (unfold dot3; cbn [cX cY cZ]; ring). rewrite EM.
  assert (RR : 1 <= R1 * R1 <= 4) by (split; [replace 1 with (1 * 1) at 1 by ring|replace 4 with (2 * 2) by ring]; apply Rmult_le_compat; lra).
  assert (UM : 0 <= unit_roundoff f * (25 + R1 * R1) <= / 1000000 * 29) by (split; [apply Rmult_le_pos; lra|apply Rmult_le_compat; lra]).
  split.
  - exists 5, 0. unfold on_extent. rewrite V10. split; [split; [lra|right; split; [exact F10|lra]]|]. split; [split; [lra|right; split; [exact F10|lra]]|].
    unfold at_ray, dot3, add3, scl3. cbn [cX cY cZ]. lra.
  - intros t _ _. unfold at_ray, add3, scl3. cbn [cX cY cZ].
    assert (SQ : sqrt (25 + R1 * R1) <= 6) by (rewrite <- (sqrt_square 6) by lra; apply sqrt_le_1_alt; lra). assert (SP := sqrt_pos (25 + R1 * R1)).
    assert (unit_roundoff f * sqrt (25 + R1 * R1) <= / 1000000 * 6) by (apply Rmult_le_compat; lra). lra.
Qed.
