(** Rounding-error bounds for chains of maps: composed transforms and mapped rays. *)
From Coq Require Import ZArith Reals Bool List Lra Lia.
From Coq Require Vector Fin.
From Flocq Require Import Core BinarySingleNaN.
From Verif.Model Require Import FloatBase Scalar Float Interval Outcome Vec Transform XReal Geometry.
From Verif Require Import Spec SpecGeom SpecShape SpecError SpecRot SpecMaps.
From Verif.Proofs Require Import BitsLemmas FloatLemmas ScalarProofs XRealLemmas VectorFloat TransformFloat SlabFloat VectorErr MapErr.
Open Scope R_scope.

Lemma term a x y Y k c : 0 <= k -> 0 <= c -> Rabs (x - y) <= k * Y + c -> Rabs y <= Y -> Rabs (a * x - a * y) <= Rabs a * (k * Y + c) /\ Rabs (a * x) <= Rabs a * (Y + k * Y + c).
Proof.
  intros K C H L. assert (P := Rabs_pos a). split.
  - replace (a * x - a * y) with (a * (x - y)) by ring. rewrite Rabs_mult. now apply Rmult_le_compat_l.
  - rewrite Rabs_mult. apply Rmult_le_compat_l; [exact P|]. replace x with (y + (x - y)) by ring. eapply Rle_trans; [apply Rabs_triang|]. lra.
Qed.
Lemma comp4 a0 a1 a2 a3 x0 x1 x2 x3 y0 y1 y2 y3 Y0 Y1 Y2 Y3 q h k c d : 0 <= h -> 0 <= k -> 0 <= c ->
  Rabs (x0 - y0) <= k * Y0 + c -> Rabs (x1 - y1) <= k * Y1 + c -> Rabs (x2 - y2) <= k * Y2 + c -> Rabs (x3 - y3) <= k * Y3 + c ->
  Rabs y0 <= Y0 -> Rabs y1 <= Y1 -> Rabs y2 <= Y2 -> Rabs y3 <= Y3 ->
  Rabs (q - (a0 * x0 + a1 * x1 + a2 * x2 + a3 * x3)) <= h * (Rabs (a0 * x0) + Rabs (a1 * x1) + Rabs (a2 * x2) + Rabs (a3 * x3)) + d ->
  Rabs (q - (a0 * y0 + a1 * y1 + a2 * y2 + a3 * y3)) <= (h + k + h * k) * (Rabs a0 * Y0 + Rabs a1 * Y1 + Rabs a2 * Y2 + Rabs a3 * Y3) + (1 + h) * c * (Rabs a0 + Rabs a1 + Rabs a2 + Rabs a3) + d.
Proof.
  intros H K C E0 E1 E2 E3 L0 L1 L2 L3 Q.
  destruct (term a0 _ _ _ _ _ K C E0 L0) as [S0 T0]. destruct (term a1 _ _ _ _ _ K C E1 L1) as [S1 T1]. destruct (term a2 _ _ _ _ _ K C E2 L2) as [S2 T2]. destruct (term a3 _ _ _ _ _ K C E3 L3) as [S3 T3].
  replace (q - (a0 * y0 + a1 * y1 + a2 * y2 + a3 * y3)) with ((q - (a0 * x0 + a1 * x1 + a2 * x2 + a3 * x3)) + ((a0 * x0 - a0 * y0) + (a1 * x1 - a1 * y1) + (a2 * x2 - a2 * y2) + (a3 * x3 - a3 * y3))) by ring.
  eapply Rle_trans; [apply Rabs_triang|]. 
  assert (W : Rabs ((a0 * x0 - a0 * y0) + (a1 * x1 - a1 * y1) + (a2 * x2 - a2 * y2) + (a3 * x3 - a3 * y3)) <= Rabs (a0 * x0 - a0 * y0) + Rabs (a1 * x1 - a1 * y1) + Rabs (a2 * x2 - a2 * y2) + Rabs (a3 * x3 - a3 * y3)).
  { eapply Rle_trans; [apply Rabs_triang|]. apply Rplus_le_compat_r. eapply Rle_trans; [apply Rabs_triang|]. apply Rplus_le_compat_r. apply Rabs_triang. }
  assert (V := Rmult_le_compat_l h _ _ H (Rplus_le_compat _ _ _ _ (Rplus_le_compat _ _ _ _ (Rplus_le_compat _ _ _ _ T0 T1) T2) T3)).
  lra.
Qed.
Lemma app_abs A p : let a := app_vec A p in let B := app_vec (absM A) (abs3 p) in Rabs (cX a) <= cX B /\ Rabs (cY a) <= cY B /\ Rabs (cZ a) <= cZ B.
Proof.
  cbv zeta. unfold app_vec, absM, abs3. cbn [cX cY cZ].
  assert (G : forall a b c x y z, Rabs (a * x + b * y + c * z) <= Rabs a * Rabs x + Rabs b * Rabs y + Rabs c * Rabs z).
  { intros. rewrite <- !Rabs_mult. eapply Rle_trans; [apply Rabs_triang|]. apply Rplus_le_compat_r, Rabs_triang. }
  split; [|split]; apply G.
Qed.
Lemma aff_abs A p : let a := aff A p in let B := aff (absM A) (abs3 p) in Rabs (cX a) <= cX B /\ Rabs (cY a) <= cY B /\ Rabs (cZ a) <= cZ B.
Proof.
  cbv zeta. destruct (app_abs A p) as (X & Y & Z). unfold aff, add3. cbn [cX cY cZ]. unfold absM at 2 4 6.
  split; [|split]; (eapply Rle_trans; [apply Rabs_triang|]); now apply Rplus_le_compat_r.
Qed.
Lemma mass_rows A : affine A -> 1 <= mass A /\ forall i, i <> i3 -> Rabs (A i i0) + Rabs (A i i1) + Rabs (A i i2) + Rabs (A i i3) <= mass A.
Proof.
  intros (_ & _ & _ & A3). assert (MM : mass A = (Rabs (A i0 i0) + Rabs (A i0 i1) + Rabs (A i0 i2) + Rabs (A i0 i3)) + (Rabs (A i1 i0) + Rabs (A i1 i1) + Rabs (A i1 i2) + Rabs (A i1 i3)) + (Rabs (A i2 i0) + Rabs (A i2 i1) + Rabs (A i2 i2) + Rabs (A i2 i3)) + (Rabs (A i3 i0) + Rabs (A i3 i1) + Rabs (A i3 i2) + Rabs (A i3 i3))) by (unfold mass, rsum, i0, i1, i2, i3; ring). rewrite MM. clear MM.
  assert (P : forall i j, 0 <= Rabs (A i j)) by (intros; apply Rabs_pos).
  split.
  - assert (O : Rabs (A i3 i3) = 1) by (rewrite A3; apply Rabs_R1). assert (Q := P). clear P.
    pose proof (Q i0 i0); pose proof (Q i0 i1); pose proof (Q i0 i2); pose proof (Q i0 i3); pose proof (Q i1 i0); pose proof (Q i1 i1); pose proof (Q i1 i2); pose proof (Q i1 i3);
    pose proof (Q i2 i0); pose proof (Q i2 i1); pose proof (Q i2 i2); pose proof (Q i2 i3); pose proof (Q i3 i0); pose proof (Q i3 i1); pose proof (Q i3 i2). rewrite O. lra.
  - assert (Q := P). clear P.
    pose proof (Q i0 i0); pose proof (Q i0 i1); pose proof (Q i0 i2); pose proof (Q i0 i3); pose proof (Q i1 i0); pose proof (Q i1 i1); pose proof (Q i1 i2); pose proof (Q i1 i3);
    pose proof (Q i2 i0); pose proof (Q i2 i1); pose proof (Q i2 i2); pose proof (Q i2 i3); pose proof (Q i3 i0); pose proof (Q i3 i1); pose proof (Q i3 i2); pose proof (Q i3 i3).
    refine (fin4_case _ _ _ _ _); intros; lra.
Qed.

Section S.
Context {f : fmt} {m : libm f}.
Notation FT := (float f).
Notation u := (unit_roundoff f).
Notation eta := (smallest_float f / 2).
Notation g k := (rel_err f k).
Lemma gg j k : g j + g k + g j * g k = g (j + k).
Proof. unfold rel_err. rewrite pow_add. ring. Qed.
Lemma pow_small n : (n <= 8)%nat -> 1 <= (1 + u) ^ n <= 1001 / 1000.
Proof.
  intros H. destruct (u_small (f := f)) as [U V]. split; [apply pow_R1_Rle; lra|].
  apply Rle_trans with ((1 + u) ^ 8); [apply Rle_pow; [lra|exact H]|]. apply Rle_trans with ((1 + / 16777216) ^ 8); [apply pow_incr; lra|]. lra.
Qed.
Lemma mul_affine (a b : matrix FT) A C : fM a A -> affine A -> fM b C -> affine C -> (forall i j, finite (m_mul a b @ i @ j)) ->
  exists M, fM (m_mul a b) M /\ affine M /\ forall i j, Rabs (M i j - rmul A C i j) <= g 4 * rmul (absM A) (absM C) i j + 4 * (1 + u) ^ 3 * eta.
Proof.
  intros HA (A0 & A1 & A2 & A3) HC (C0 & C1 & C2 & C3) F. exists (fun i j => B2R (m_mul a b @ i @ j)).
  split; [intros i j; split; [apply F|reflexivity]|]. split; [|intros i j; now apply matrix_err].
  assert (VA : forall i j, val (mget a i j) (A i j)) by (intros; now apply fM_get). assert (VC : forall i j, val (mget b i j) (C i j)) by (intros; now apply fM_get).
  assert (N : forall j, m_mul a b @ i3 @ j = fadd (fadd (fadd (fadd (fzero false) (fmul (mget a i3 i0) (mget b i0 j))) (fmul (mget a i3 i1) (mget b i1 j))) (fmul (mget a i3 i2) (mget b i2 j))) (fmul (mget a i3 i3) (mget b i3 j))).
  { clear. refine (fin4_case _ _ _ _ _); reflexivity. }
  assert (Z : forall x y : FT, val x 0 -> finite y -> val (fmul x y) 0).
  { intros x y [Fx Hx] Fy. apply (val_Rnd (fzero false)); [reflexivity|reflexivity|]. pose proof (fmul_Rnd x y Fx Fy) as H. rewrite Hx, Rmult_0_l in H. exact H. }
  assert (O : forall j, val (fmul (mget a i3 i3) (mget b i3 j)) (C i3 j)).
  { intros j. destruct (VA i3 i3) as [F3 V3]. destruct (VC i3 j) as [F4 V4]. apply (val_Rnd (mget b i3 j)); [exact F4|exact V4|]. pose proof (fmul_Rnd _ _ F3 F4) as H. rewrite V3, V4, A3, Rmult_1_l in H. exact H. }
  assert (G : forall j, val (m_mul a b @ i3 @ j) (C i3 j)).
  { intros j. rewrite N. apply val_zero_add; [|apply O]. pose proof (VA i3 i0) as W0. pose proof (VA i3 i1) as W1. pose proof (VA i3 i2) as W2. rewrite A0 in W0. rewrite A1 in W1. rewrite A2 in W2.
    apply val_add_zero; [apply val_add_zero; [apply val_add_zero; [apply val_zero|]|]|]; apply Z; try assumption; apply VC. }
  unfold affine. repeat split; rewrite (proj2 (G _)); assumption.
Qed.
(** the map of an approximate point *)
Lemma point_step (t : transform FT) A (x q : vec FT 3) (y Y : R3) k c : fM (t_matrix t) A -> affine A -> fall finite x -> t_map_point t x = Ret q -> fall finite q ->
  0 <= k -> 0 <= c -> close3 x y Y k c -> Rabs (cX y) <= cX Y -> Rabs (cY y) <= cY Y -> Rabs (cZ y) <= cZ Y ->
  close3 q (aff A y) (aff (absM A) Y) (g 4 + k + g 4 * k) ((1 + g 4) * c * mass A + c4 (f := f)).
Proof.
  intros HM HA Fx E F K C (X1 & X2 & X3) B1 B2 B3. destruct (point_err t A x q HM HA Fx E F) as (P1 & P2 & P3).
  assert (G4 := g_pos (f := f) 4). destruct (mass_rows A HA) as [_ R].
  assert (D : forall i qq, i <> i3 -> Rabs (qq - (A i i0 * cX (f3 x) + A i i1 * cY (f3 x) + A i i2 * cZ (f3 x) + A i i3)) <= g 4 * (Rabs (A i i0) * Rabs (cX (f3 x)) + Rabs (A i i1) * Rabs (cY (f3 x)) + Rabs (A i i2) * Rabs (cZ (f3 x)) + Rabs (A i i3)) + c4 (f := f) ->
    Rabs (qq - (A i i0 * cX y + A i i1 * cY y + A i i2 * cZ y + A i i3)) <= (g 4 + k + g 4 * k) * (Rabs (A i i0) * cX Y + Rabs (A i i1) * cY Y + Rabs (A i i2) * cZ Y + Rabs (A i i3)) + ((1 + g 4) * c * mass A + c4 (f := f))).
  { intros i qq NI Q. assert (H := comp4 (A i i0) (A i i1) (A i i2) (A i i3) (cX (f3 x)) (cY (f3 x)) (cZ (f3 x)) 1 (cX y) (cY y) (cZ y) 1 (cX Y) (cY Y) (cZ Y) 1 qq (g 4) k c (c4 (f := f)) G4 K C X1 X2 X3).
    rewrite !Rmult_1_r, !Rabs_mult in H. replace (1 - 1) with 0 in H by ring. rewrite Rabs_R0, Rabs_R1 in H.
    eapply Rle_trans; [apply H; try assumption; lra|]. rewrite Rplus_assoc. apply Rplus_le_compat_l, Rplus_le_compat_r, Rmult_le_compat_l; [apply Rmult_le_pos; lra|]. now apply R. }
  unfold aff, add3, app_vec, absM in *. cbn [cX cY cZ] in *. split; [|split]; apply D; try discriminate; assumption.
Qed.
Lemma vec_step (t : transform FT) A (x q : vec FT 3) (y Y : R3) k c : fM (t_matrix t) A -> affine A -> t_map_vector t x = Ret q -> fall finite q ->
  0 <= k -> 0 <= c -> close3 x y Y k c -> Rabs (cX y) <= cX Y -> Rabs (cY y) <= cY Y -> Rabs (cZ y) <= cZ Y ->
  close3 q (app_vec A y) (app_vec (absM A) Y) (g 3 + k + g 3 * k) ((1 + g 3) * c * mass A + c3 (f := f)).
Proof.
  intros HM HA E F K C (X1 & X2 & X3) B1 B2 B3. destruct (vector_err t A x q HM HA E F) as (P1 & P2 & P3).
  assert (G4 := g_pos (f := f) 3). destruct (mass_rows A HA) as [_ R].
  assert (D : forall i qq, i <> i3 -> Rabs (qq - (A i i0 * cX (f3 x) + A i i1 * cY (f3 x) + A i i2 * cZ (f3 x))) <= g 3 * (Rabs (A i i0) * Rabs (cX (f3 x)) + Rabs (A i i1) * Rabs (cY (f3 x)) + Rabs (A i i2) * Rabs (cZ (f3 x))) + c3 (f := f) ->
    Rabs (qq - (A i i0 * cX y + A i i1 * cY y + A i i2 * cZ y)) <= (g 3 + k + g 3 * k) * (Rabs (A i i0) * cX Y + Rabs (A i i1) * cY Y + Rabs (A i i2) * cZ Y) + ((1 + g 3) * c * mass A + c3 (f := f))).
  { intros i qq NI Q. assert (H := comp4 (A i i0) (A i i1) (A i i2) 0 (cX (f3 x)) (cY (f3 x)) (cZ (f3 x)) 0 (cX y) (cY y) (cZ y) 0 (cX Y) (cY Y) (cZ Y) 0 qq (g 3) k c (c3 (f := f)) G4 K C X1 X2 X3).
    rewrite !Rmult_0_l, !Rabs_R0, !Rabs_mult in H. replace (0 - 0) with 0 in H by ring. rewrite Rabs_R0, !Rmult_0_l, !Rplus_0_r in H.
    eapply Rle_trans; [apply H; try assumption; try lra|]. rewrite Rplus_assoc. apply Rplus_le_compat_l, Rplus_le_compat_r, Rmult_le_compat_l; [apply Rmult_le_pos; lra|]. assert (W := R i NI). assert (V := Rabs_pos (A i i3)). lra. }
  unfold app_vec, absM in *. cbn [cX cY cZ] in *. split; [|split]; apply D; try discriminate; assumption.
Qed.
Lemma close_self (p : vec FT 3) : close3 p (f3 p) (abs3 (f3 p)) 0 0.
Proof. unfold close3. rewrite !Rminus_diag_eq by reflexivity. rewrite Rabs_R0. lra. Qed.
Lemma eta_ok : 0 < eta. Proof. apply (eta_pos (f := f)). Qed.
Lemma close_weaken (p : vec FT 3) a B k c k' c' : 0 <= cX B -> 0 <= cY B -> 0 <= cZ B -> k <= k' -> c <= c' -> close3 p a B k c -> close3 p a B k' c'.
Proof.
  intros P1 P2 P3 K C (H1 & H2 & H3). split; [|split]; (eapply Rle_trans; [eassumption|]); apply Rplus_le_compat; try assumption; now apply Rmult_le_compat_r.
Qed.
Lemma abs_nonneg A p : 0 <= cX (aff (absM A) (abs3 p)) /\ 0 <= cY (aff (absM A) (abs3 p)) /\ 0 <= cZ (aff (absM A) (abs3 p)).
Proof. destruct (aff_abs A p) as (X & Y & Z). repeat split; (eapply Rle_trans; [apply Rabs_pos|eassumption]). Qed.
Lemma c4_bound : 0 <= c4 (f := f) <= 33 / 10 * eta.
Proof. unfold c4. assert (E := eta_ok). destruct (pow_small 3) as [L H]; [lia|]. split; [apply Rmult_le_pos; lra|]. apply Rmult_le_compat_r; lra. Qed.
Lemma c3_bound : 0 <= c3 (f := f) <= 33 / 10 * eta.
Proof. unfold c3. assert (E := eta_ok). destruct (pow_small 2) as [L H]; [lia|]. split; [apply Rmult_le_pos; lra|]. apply Rmult_le_compat_r; lra. Qed.
Lemma two_points (t v : transform FT) A C (p q r : vec FT 3) : fM (t_matrix t) A -> affine A -> fM (t_matrix v) C -> affine C -> fall finite p ->
  t_map_point v p = Ret q -> fall finite q -> t_map_point t q = Ret r -> fall finite r ->
  close3 r (aff A (aff C (f3 p))) (aff (absM A) (aff (absM C) (abs3 (f3 p)))) (g 8) (4 * smallest_float f * mass A).
Proof.
  intros HA AA HC AC Fp E1 F1 E2 F2. assert (P := point_err v C p q HC AC Fp E1 F1). destruct (aff_abs C (f3 p)) as (B1 & B2 & B3).
  assert (G := point_step t A q r _ _ (g 4) (c4 (f := f)) HA AA F1 E2 F2 (g_pos 4) (proj1 c4_bound) P B1 B2 B3).
  rewrite gg in G. destruct G as (G1 & G2 & G3). destruct (mass_rows A AA) as [M1 _].
  assert (K : (1 + g 4) * c4 (f := f) * mass A + c4 (f := f) <= 4 * smallest_float f * mass A).
  { assert (E := eta_ok). destruct c4_bound as [L H]. unfold rel_err. destruct (pow_small 4) as [L4 H4]; [lia|]. set (x := (1 + u) ^ 4) in *. clearbody x.
    assert ((1 + (x - 1)) * c4 (f := f) <= 11 / 10 * (33 / 10 * eta)) by (apply Rmult_le_compat; lra). assert ((1 + (x - 1)) * c4 (f := f) * mass A <= 11 / 10 * (33 / 10 * eta) * mass A) by (apply Rmult_le_compat_r; lra). assert (eta <= eta * mass A) by (rewrite <- (Rmult_1_r eta) at 1; apply Rmult_le_compat_l; lra). lra. }
  split; [|split]; (eapply Rle_trans; [eassumption|]); now apply Rplus_le_compat_l.
Qed.
Lemma two_vectors (t v : transform FT) A C (p q r : vec FT 3) : fM (t_matrix t) A -> affine A -> fM (t_matrix v) C -> affine C ->
  t_map_vector v p = Ret q -> fall finite q -> t_map_vector t q = Ret r -> fall finite r ->
  close3 r (app_vec A (app_vec C (f3 p))) (app_vec (absM A) (app_vec (absM C) (abs3 (f3 p)))) (g 6) (4 * smallest_float f * mass A).
Proof.
  intros HA AA HC AC E1 F1 E2 F2. assert (P := vector_err v C p q HC AC E1 F1). destruct (app_abs C (f3 p)) as (B1 & B2 & B3).
  assert (G := vec_step t A q r _ _ (g 3) (c3 (f := f)) HA AA E2 F2 (g_pos 3) (proj1 c3_bound) P B1 B2 B3).
  rewrite gg in G. destruct G as (G1 & G2 & G3). destruct (mass_rows A AA) as [M1 _].
  assert (K : (1 + g 3) * c3 (f := f) * mass A + c3 (f := f) <= 4 * smallest_float f * mass A).
  { assert (E := eta_ok). destruct c3_bound as [L H]. unfold rel_err. destruct (pow_small 3) as [L4 H4]; [lia|]. set (x := (1 + u) ^ 3) in *. clearbody x.
    assert ((1 + (x - 1)) * c3 (f := f) <= 11 / 10 * (33 / 10 * eta)) by (apply Rmult_le_compat; lra). assert ((1 + (x - 1)) * c3 (f := f) * mass A <= 11 / 10 * (33 / 10 * eta) * mass A) by (apply Rmult_le_compat_r; lra). assert (eta <= eta * mass A) by (rewrite <- (Rmult_1_r eta) at 1; apply Rmult_le_compat_l; lra). lra. }
  split; [|split]; (eapply Rle_trans; [eassumption|]); now apply Rplus_le_compat_l.
Qed.
Lemma rmul_abs A C i j : Rabs (rmul A C i j) <= rmul (absM A) (absM C) i j.
Proof.
  unfold rmul, absM, rsum. rewrite <- !Rabs_mult. rewrite !Rplus_0_r.
  eapply Rle_trans; [apply Rabs_triang|]. apply Rplus_le_compat_l. eapply Rle_trans; [apply Rabs_triang|]. apply Rplus_le_compat_l. apply Rabs_triang.
Qed.
Lemma rmul4 A C i j : rmul A C i j = A i i0 * C i0 j + A i i1 * C i1 j + A i i2 * C i2 j + A i i3 * C i3 j.
Proof. unfold rmul, rsum, i0, i1, i2, i3. ring. Qed.
Lemma size_pos p : 0 <= size3 p.
Proof. unfold size3. assert (a := Rabs_pos (cX p)). assert (b := Rabs_pos (cY p)). assert (c := Rabs_pos (cZ p)). lra. Qed.
(** one row of a rounded matrix product applied to a vector, with weight [w] (0 or 1) for the last column *)
Lemma prod_row M A C i (x y z w q h d e : R) : affine C -> (forall j, Rabs (M i j - rmul A C i j) <= g 4 * rmul (absM A) (absM C) i j + e) -> 0 <= e -> 0 <= h -> 0 <= w ->
  Rabs (q - (M i i0 * x + M i i1 * y + M i i2 * z + M i i3 * w)) <= h * (Rabs (M i i0) * Rabs x + Rabs (M i i1) * Rabs y + Rabs (M i i2) * Rabs z + Rabs (M i i3) * w) + d ->
  Rabs (q - (A i i0 * (C i0 i0 * x + C i0 i1 * y + C i0 i2 * z + C i0 i3 * w) + A i i1 * (C i1 i0 * x + C i1 i1 * y + C i1 i2 * z + C i1 i3 * w) + A i i2 * (C i2 i0 * x + C i2 i1 * y + C i2 i2 * z + C i2 i3 * w) + A i i3 * w)) <=
  (h + g 4 + h * g 4) * (Rabs (A i i0) * (Rabs (C i0 i0) * Rabs x + Rabs (C i0 i1) * Rabs y + Rabs (C i0 i2) * Rabs z + Rabs (C i0 i3) * w) + Rabs (A i i1) * (Rabs (C i1 i0) * Rabs x + Rabs (C i1 i1) * Rabs y + Rabs (C i1 i2) * Rabs z + Rabs (C i1 i3) * w) + Rabs (A i i2) * (Rabs (C i2 i0) * Rabs x + Rabs (C i2 i1) * Rabs y + Rabs (C i2 i2) * Rabs z + Rabs (C i2 i3) * w) + Rabs (A i i3) * w)
  + (1 + h) * e * (Rabs x + Rabs y + Rabs z + w) + d.
Proof.
  intros (C0 & C1 & C2 & C3) D E0 H W Q.
  assert (G := comp4 x y z w (M i i0) (M i i1) (M i i2) (M i i3) (rmul A C i i0) (rmul A C i i1) (rmul A C i i2) (rmul A C i i3) (rmul (absM A) (absM C) i i0) (rmul (absM A) (absM C) i i1) (rmul (absM A) (absM C) i i2) (rmul (absM A) (absM C) i i3)
    q h (g 4) e d H (g_pos 4) E0 (D i0) (D i1) (D i2) (D i3) (rmul_abs A C i i0) (rmul_abs A C i i1) (rmul_abs A C i i2) (rmul_abs A C i i3)).
  rewrite !Rabs_mult in G. rewrite (Rabs_pos_eq w W) in G.
  assert (Q' : Rabs (q - (x * M i i0 + y * M i i1 + z * M i i2 + w * M i i3)) <= h * (Rabs x * Rabs (M i i0) + Rabs y * Rabs (M i i1) + Rabs z * Rabs (M i i2) + w * Rabs (M i i3)) + d).
  { replace (x * M i i0 + y * M i i1 + z * M i i2 + w * M i i3) with (M i i0 * x + M i i1 * y + M i i2 * z + M i i3 * w) by ring. eapply Rle_trans; [exact Q|]. right. ring. }
  specialize (G Q'). rewrite !rmul4 in G. unfold absM in G. rewrite C0, C1, C2, C3, Rabs_R0, Rabs_R1 in G.
  match type of G with Rabs (q - ?a) <= _ => match goal with |- Rabs (q - ?b) <= _ => replace b with a by ring end end. eapply Rle_trans; [exact G|]. right. ring.
Qed.
Lemma prod_const (h w s d e : R) : 0 <= h <= 1001 / 1000 - 1 -> 0 <= e <= 401 / 100 * eta -> 0 <= w <= 1 -> 0 <= s -> d <= 33 / 10 * eta -> (1 + h) * e * (s + w) + d <= 4 * smallest_float f * (1 + s).
Proof.
  intros [H1 H2] [E1 E2] [W1 W2] S D. assert (EE := eta_ok). assert ((1 + h) * e <= 1001 / 1000 * (401 / 100 * eta)) by (apply Rmult_le_compat; lra).
  assert ((1 + h) * e * (s + w) <= 1001 / 1000 * (401 / 100 * eta) * (1 + s)). { apply Rmult_le_compat; try lra. apply Rmult_le_pos; lra. }
  assert (0 <= eta * s) by (apply Rmult_le_pos; lra). lra.
Qed.
Lemma prod_point (t v : transform FT) A C (p q : vec FT 3) : fM (t_matrix t) A -> affine A -> fM (t_matrix v) C -> affine C -> (forall i j, finite (t_matrix (t_mul t v) @ i @ j)) -> fall finite p ->
  t_map_point (t_mul t v) p = Ret q -> fall finite q ->
  close3 q (aff A (aff C (f3 p))) (aff (absM A) (aff (absM C) (abs3 (f3 p)))) (g 8) (4 * smallest_float f * (1 + size3 (f3 p))).
Proof.
  intros HA AA HC AC FM Fp E F. destruct (mul_affine _ _ A C HA AA HC AC FM) as (M & HM & AM & D). change (fM (t_matrix (t_mul t v)) M) in HM.
  destruct (point_err (t_mul t v) M p q HM AM Fp E F) as (P1 & P2 & P3).
  assert (G4 := g_pos (f := f) 4). set (e := 4 * (1 + u) ^ 3 * eta) in *. assert (EE := eta_ok).
  assert (E0 : 0 <= e <= 401 / 100 * eta). { unfold e. destruct (pow_small 3) as [L H]; [lia|]. split; [apply Rmult_le_pos; lra|]. apply Rmult_le_compat_r; lra. }
  assert (K : (1 + g 4) * e * (size3 (f3 p) + 1) + c4 (f := f) <= 4 * smallest_float f * (1 + size3 (f3 p))).
  { apply prod_const; [|exact E0|lra|apply size_pos|apply c4_bound]. split; [exact G4|]. unfold rel_err. destruct (pow_small 4) as [L H]; [lia|]. lra. }
  assert (R : forall i qq, Rabs (qq - (M i i0 * cX (f3 p) + M i i1 * cY (f3 p) + M i i2 * cZ (f3 p) + M i i3)) <= g 4 * (Rabs (M i i0) * Rabs (cX (f3 p)) + Rabs (M i i1) * Rabs (cY (f3 p)) + Rabs (M i i2) * Rabs (cZ (f3 p)) + Rabs (M i i3)) + c4 (f := f) ->
    Rabs (qq - (A i i0 * (C i0 i0 * cX (f3 p) + C i0 i1 * cY (f3 p) + C i0 i2 * cZ (f3 p) + C i0 i3) + A i i1 * (C i1 i0 * cX (f3 p) + C i1 i1 * cY (f3 p) + C i1 i2 * cZ (f3 p) + C i1 i3) + A i i2 * (C i2 i0 * cX (f3 p) + C i2 i1 * cY (f3 p) + C i2 i2 * cZ (f3 p) + C i2 i3) + A i i3)) <=
    g 8 * (Rabs (A i i0) * (Rabs (C i0 i0) * Rabs (cX (f3 p)) + Rabs (C i0 i1) * Rabs (cY (f3 p)) + Rabs (C i0 i2) * Rabs (cZ (f3 p)) + Rabs (C i0 i3)) + Rabs (A i i1) * (Rabs (C i1 i0) * Rabs (cX (f3 p)) + Rabs (C i1 i1) * Rabs (cY (f3 p)) + Rabs (C i1 i2) * Rabs (cZ (f3 p)) + Rabs (C i1 i3)) + Rabs (A i i2) * (Rabs (C i2 i0) * Rabs (cX (f3 p)) + Rabs (C i2 i1) * Rabs (cY (f3 p)) + Rabs (C i2 i2) * Rabs (cZ (f3 p)) + Rabs (C i2 i3)) + Rabs (A i i3))
    + 4 * smallest_float f * (1 + size3 (f3 p))).
  { intros i qq Q. assert (W := prod_row M A C i (cX (f3 p)) (cY (f3 p)) (cZ (f3 p)) 1 qq (g 4) (c4 (f := f)) e AC (D i) (proj1 E0) G4 Rle_0_1). rewrite !Rmult_1_r, gg in W. specialize (W Q).
    eapply Rle_trans; [exact W|]. rewrite Rplus_assoc. apply Rplus_le_compat_l. exact K. }
  unfold aff, add3, app_vec, absM, abs3 in *. cbn [cX cY cZ] in *. split; [|split]; apply R; assumption.
Qed.
Lemma prod_vector (t v : transform FT) A C (p q : vec FT 3) : fM (t_matrix t) A -> affine A -> fM (t_matrix v) C -> affine C -> (forall i j, finite (t_matrix (t_mul t v) @ i @ j)) ->
  t_map_vector (t_mul t v) p = Ret q -> fall finite q ->
  close3 q (app_vec A (app_vec C (f3 p))) (app_vec (absM A) (app_vec (absM C) (abs3 (f3 p)))) (g 7) (4 * smallest_float f * (1 + size3 (f3 p))).
Proof.
  intros HA AA HC AC FM E F. destruct (mul_affine _ _ A C HA AA HC AC FM) as (M & HM & AM & D). change (fM (t_matrix (t_mul t v)) M) in HM.
  destruct (vector_err (t_mul t v) M p q HM AM E F) as (P1 & P2 & P3).
  assert (G4 := g_pos (f := f) 3). set (e := 4 * (1 + u) ^ 3 * eta) in *. assert (EE := eta_ok).
  assert (E0 : 0 <= e <= 401 / 100 * eta). { unfold e. destruct (pow_small 3) as [L H]; [lia|]. split; [apply Rmult_le_pos; lra|]. apply Rmult_le_compat_r; lra. }
  assert (K : (1 + g 3) * e * (size3 (f3 p) + 0) + c3 (f := f) <= 4 * smallest_float f * (1 + size3 (f3 p))).
  { apply prod_const; [|exact E0|lra|apply size_pos|apply c3_bound]. split; [exact G4|]. unfold rel_err. destruct (pow_small 3) as [L H]; [lia|]. lra. }
  assert (R : forall i qq, Rabs (qq - (M i i0 * cX (f3 p) + M i i1 * cY (f3 p) + M i i2 * cZ (f3 p))) <= g 3 * (Rabs (M i i0) * Rabs (cX (f3 p)) + Rabs (M i i1) * Rabs (cY (f3 p)) + Rabs (M i i2) * Rabs (cZ (f3 p))) + c3 (f := f) ->
    Rabs (qq - (A i i0 * (C i0 i0 * cX (f3 p) + C i0 i1 * cY (f3 p) + C i0 i2 * cZ (f3 p)) + A i i1 * (C i1 i0 * cX (f3 p) + C i1 i1 * cY (f3 p) + C i1 i2 * cZ (f3 p)) + A i i2 * (C i2 i0 * cX (f3 p) + C i2 i1 * cY (f3 p) + C i2 i2 * cZ (f3 p)))) <=
    g 7 * (Rabs (A i i0) * (Rabs (C i0 i0) * Rabs (cX (f3 p)) + Rabs (C i0 i1) * Rabs (cY (f3 p)) + Rabs (C i0 i2) * Rabs (cZ (f3 p))) + Rabs (A i i1) * (Rabs (C i1 i0) * Rabs (cX (f3 p)) + Rabs (C i1 i1) * Rabs (cY (f3 p)) + Rabs (C i1 i2) * Rabs (cZ (f3 p))) + Rabs (A i i2) * (Rabs (C i2 i0) * Rabs (cX (f3 p)) + Rabs (C i2 i1) * Rabs (cY (f3 p)) + Rabs (C i2 i2) * Rabs (cZ (f3 p))))
    + 4 * smallest_float f * (1 + size3 (f3 p))).
  { intros i qq Q. assert (W := prod_row M A C i (cX (f3 p)) (cY (f3 p)) (cZ (f3 p)) 0 qq (g 3) (c3 (f := f)) e AC (D i) (proj1 E0) G4 (Rle_refl 0)). rewrite gg in W. rewrite !Rmult_0_r, !Rplus_0_r in W. specialize (W Q).
    eapply Rle_trans; [exact W|]. rewrite Rplus_assoc. apply Rplus_le_compat_l. rewrite Rplus_0_r in K. exact K. }
  unfold app_vec, absM, abs3 in *. cbn [cX cY cZ] in *. split; [|split]; apply R; assumption.
Qed.
(** ** rays *)
Lemma ray_point (t : transform FT) A (r r' : ray FT) (s : FT) : fM (t_matrix t) A -> affine A -> fall finite (origin r) -> t_map_ray t r = Ret r' -> fall finite (origin r') -> fall finite (direction r') ->
  fall finite (ray_eval r' s) ->
  close3 (ray_eval r' s) (aff A (at_ray (f3 (origin r)) (f3 (direction r)) (B2R s))) (aff (absM A) (add3 (abs3 (f3 (origin r))) (scl3 (Rabs (B2R s)) (abs3 (f3 (direction r)))))) (g 6) (4 * smallest_float f * (1 + Rabs (B2R s))).
Proof.
  intros HA AA Fo E Fo' Fd' F. unfold t_map_ray in E. destruct (t_map_point t (origin r)) as [o|] eqn:EO; [|discriminate E]. cbn [obind] in E. destruct (t_map_vector t (direction r)) as [d|] eqn:ED; [|discriminate E]. cbn [obind] in E. injection E as <-.
  cbn [origin direction] in Fo', Fd'. assert (PO := point_err t A _ o HA AA Fo EO Fo'). assert (PD := vector_err t A _ d HA AA ED Fd'). assert (PR := ray_err _ s F). cbn [origin direction] in PR.
  assert (EE := eta_ok). destruct (u_small (f := f)) as [U1 U2].
  assert (G34 : g 3 <= g 4) by (rewrite (g_S 3); assert (G := g_pos (f := f) 3); assert (0 <= u * g 3) by (apply Rmult_le_pos; lra); lra).
  assert (C34 : c3 (f := f) <= c4 (f := f)). { unfold c3, c4. apply Rmult_le_compat_r; [lra|]. apply Rmult_le_compat_l; [lra|]. apply Rle_pow; [lra|lia]. }
  assert (NN := app_abs A (f3 (direction r))). cbv zeta in NN. destruct NN as (N1 & N2 & N3).
  assert (PD' := close_weaken _ _ _ _ _ (g 4) (c4 (f := f)) (Rle_trans _ _ _ (Rabs_pos _) N1) (Rle_trans _ _ _ (Rabs_pos _) N2) (Rle_trans _ _ _ (Rabs_pos _) N3) G34 C34 PD).
  assert (O := aff_abs A (f3 (origin r))). cbv zeta in O. destruct O as (O1 & O2 & O3).
  set (q := ray_eval _ s) in *. clearbody q. fold (aff A (f3 (origin r))) in PO. fold (aff (absM A) (abs3 (f3 (origin r)))) in PO.
  assert (K : (1 + g 2) * c4 (f := f) * (1 + Rabs (B2R s)) + (1 + u) * eta <= 4 * smallest_float f * (1 + Rabs (B2R s))).
  { unfold rel_err. destruct (pow_small 2) as [L4 H4]; [lia|]. destruct c4_bound as [L H]. set (x := (1 + u) ^ 2) in *. clearbody x. assert (S := Rabs_pos (B2R s)).
    assert ((1 + (x - 1)) * c4 (f := f) <= 11 / 10 * (33 / 10 * eta)) by (apply Rmult_le_compat; lra). assert ((1 + (x - 1)) * c4 (f := f) * (1 + Rabs (B2R s)) <= 11 / 10 * (33 / 10 * eta) * (1 + Rabs (B2R s))) by (apply Rmult_le_compat_r; lra).
    assert (0 <= eta * Rabs (B2R s)) by (apply Rmult_le_pos; lra). assert ((1 + u) * eta <= 2 * eta) by (apply Rmult_le_compat_r; lra). lra. }
  assert (R : forall qq o' d' yo yd Yo Yd, Rabs (o' - yo) <= g 4 * Yo + c4 (f := f) -> Rabs (d' - yd) <= g 4 * Yd + c4 (f := f) -> Rabs yo <= Yo -> Rabs yd <= Yd -> Rabs (qq - (o' + B2R s * d')) <= g 2 * (Rabs o' + Rabs (B2R s * d')) + (1 + u) * eta ->
    Rabs (qq - (yo + B2R s * yd)) <= g 6 * (Yo + Rabs (B2R s) * Yd) + 4 * smallest_float f * (1 + Rabs (B2R s))).
  { intros qq o' d' yo yd Yo Yd H1 H2 H3 H4 Q. assert (Z : Rabs (0 - 0) <= g 4 * 0 + c4 (f := f)) by (rewrite Rminus_0_r, Rabs_R0; destruct c4_bound; lra). assert (Z0 : Rabs 0 <= 0) by (rewrite Rabs_R0; lra).
    assert (W := comp4 1 (B2R s) 0 0 o' d' 0 0 yo yd 0 0 Yo Yd 0 0 qq (g 2) (g 4) (c4 (f := f)) ((1 + u) * eta) (g_pos 2) (g_pos 4) (proj1 c4_bound) H1 H2 Z Z H3 H4 Z0 Z0).
    rewrite gg, !Rmult_1_l, !Rmult_0_l, !Rabs_R0, Rabs_R1, !Rplus_0_r, !Rmult_0_l, !Rplus_0_r, Rmult_1_l in W. specialize (W Q). eapply Rle_trans; [exact W|]. rewrite Rplus_assoc. apply Rplus_le_compat_l, K. }
  destruct PO as (A1 & A2 & A3). destruct PD' as (D1 & D2 & D3). destruct PR as (R1 & R2 & R3).
  assert (T1 := R _ _ _ _ _ _ _ A1 D1 O1 N1 R1). assert (T2 := R _ _ _ _ _ _ _ A2 D2 O2 N2 R2). assert (T3 := R _ _ _ _ _ _ _ A3 D3 O3 N3 R3). clear - T1 T2 T3.
  unfold close3, aff, at_ray, add3, scl3, app_vec, abs3 in *. cbn [cX cY cZ] in *.
  split; [|split]; [clear T2 T3|clear T1 T3|clear T1 T2]; match goal with T : Rabs (?q - ?a) <= _ * ?b + _ |- Rabs (?q - ?a') <= _ * ?b' + _ => replace a' with a by ring; replace b' with b by ring; exact T end.
Qed.
Lemma point_ray (t : transform FT) A (r : ray FT) (s : FT) q : fM (t_matrix t) A -> affine A -> fall finite (ray_eval r s) -> t_map_point t (ray_eval r s) = Ret q -> fall finite q ->
  close3 q (aff A (at_ray (f3 (origin r)) (f3 (direction r)) (B2R s))) (aff (absM A) (add3 (abs3 (f3 (origin r))) (scl3 (Rabs (B2R s)) (abs3 (f3 (direction r)))))) (g 6) (4 * smallest_float f * mass A).
Proof.
  intros HA AA F0 E F. assert (PR := ray_err _ s F0). assert (EE := eta_ok). destruct (u_small (f := f)) as [U1 U2].
  set (o := f3 (origin r)) in *. set (d := f3 (direction r)) in *.
  assert (AB : forall x y, Rabs (x + B2R s * y) <= Rabs x + Rabs (B2R s) * Rabs y). { intros. eapply Rle_trans; [apply Rabs_triang|]. rewrite Rabs_mult. lra. }
  assert (CE : close3 (ray_eval r s) (at_ray o d (B2R s)) (add3 (abs3 o) (scl3 (Rabs (B2R s)) (abs3 d))) (g 2) ((1 + u) * eta)).
  { destruct PR as (R1 & R2 & R3). unfold close3, add3, abs3, scl3 in *. cbn [cX cY cZ] in *. rewrite Rabs_mult in R1, R2, R3. auto. }
  assert (P0 : 0 <= (1 + u) * eta) by (apply Rmult_le_pos; lra).
  assert (G := point_step t A _ q _ _ (g 2) ((1 + u) * eta) HA AA F0 E F (g_pos 2) P0 CE (AB _ _) (AB _ _) (AB _ _)). rewrite gg in G. destruct G as (G1 & G2 & G3). destruct (mass_rows A AA) as [M1 _].
  assert (K : (1 + g 4) * ((1 + u) * eta) * mass A + c4 (f := f) <= 4 * smallest_float f * mass A).
  { destruct c4_bound as [L H]. unfold rel_err. destruct (pow_small 4) as [L4 H4]; [lia|]. set (x := (1 + u) ^ 4) in *. clearbody x. assert ((1 + u) * eta <= 2 * eta) by (apply Rmult_le_compat_r; lra).
    assert ((1 + (x - 1)) * ((1 + u) * eta) <= 11 / 10 * (2 * eta)) by (apply Rmult_le_compat; lra). assert ((1 + (x - 1)) * ((1 + u) * eta) * mass A <= 11 / 10 * (2 * eta) * mass A) by (apply Rmult_le_compat_r; lra). assert (eta <= eta * mass A) by (rewrite <- (Rmult_1_r eta) at 1; apply Rmult_le_compat_l; lra). lra. }
  split; [|split]; (eapply Rle_trans; [eassumption|]); now apply Rplus_le_compat_l.
Qed.
Lemma product_affine (t v : transform FT) A C : fM (t_matrix t) A -> affine A -> fM (t_matrix v) C -> affine C ->
  (forall i j, finite (Vector.nth (Vector.nth (t_matrix (t_mul t v)) i) j)) ->
  (exists M, fM (t_matrix (t_mul t v)) M /\ affine M) /\
  forall p, fall finite p -> (exists q, t_map_point (t_mul t v) p = Ret q) /\ (exists q, t_map_vector (t_mul t v) p = Ret q).
Proof.
  intros HA AA HC AC FM. destruct (mul_affine _ _ A C HA AA HC AC FM) as (M & HM & AM & _). change (fM (t_matrix (t_mul t v)) M) in HM. split; [exists M; split; assumption|].
  intros p Fp. split; [destruct (map_point_no_panic _ M p HM AM Fp) as (q & E & _)|destruct (map_vector_no_panic _ M p HM AM Fp) as (q & E & _)]; exists q; exact E.
Qed.
End S.
