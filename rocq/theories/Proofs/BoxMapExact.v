(** Exactly when the transformed box encloses the transformed points. *)
From Coq Require Import ZArith Reals Bool Lra Lia.
From Coq Require Vector Fin.
From Verif.Model Require Import FloatBase Scalar Interval Outcome Vec Transform XReal Geometry.
From Verif Require Import Spec SpecGeom SpecShape.
From Verif.Proofs Require Import XRealLemmas MatrixProofs TransformProofs TransformThms TransformCases BoxExact.
Open Scope R_scope.

Lemma mm a l h x : l <= x <= h -> Rmin (a * l) (a * h) <= a * x <= Rmax (a * l) (a * h).
Proof.
  intros Hx. destruct (Rle_lt_dec 0 a).
  - rewrite Rmin_left, Rmax_right by nra. nra.
  - rewrite Rmin_right, Rmax_left by nra. nra.
Qed.
Lemma pick_min a l h : l <= h -> exists x, l <= x <= h /\ a * x = Rmin (a * l) (a * h).
Proof. intros H. unfold Rmin. destruct (Rle_dec _ _); [exists l|exists h]; lra. Qed.
Lemma pick_max a l h : l <= h -> exists x, l <= x <= h /\ a * x = Rmax (a * l) (a * h).
Proof. intros H. unfold Rmax. destruct (Rle_dec _ _); [exists h|exists l]; lra. Qed.

Section M.
Variables (A : rmat) (lo hi : R3).
Hypothesis AA : affine A.
Hypothesis HL : le3 lo hi.
Definition rmin i := Rmin (A i i0 * cX lo) (A i i0 * cX hi) + Rmin (A i i1 * cY lo) (A i i1 * cY hi) + Rmin (A i i2 * cZ lo) (A i i2 * cZ hi).
Definition rmax i := Rmax (A i i0 * cX lo) (A i i0 * cX hi) + Rmax (A i i1 * cY lo) (A i i1 * cY hi) + Rmax (A i i2 * cZ lo) (A i i2 * cZ hi).
Definition row i p := A i i0 * cX p + A i i1 * cY p + A i i2 * cZ p.
Lemma row_in i p : in_box lo hi p -> rmin i <= row i p <= rmax i.
Proof.
  intros [(P1 & P2 & P3) (Q1 & Q2 & Q3)]. assert (M1 := mm (A i i0) _ _ _ (conj P1 Q1)). assert (M2 := mm (A i i1) _ _ _ (conj P2 Q2)). assert (M3 := mm (A i i2) _ _ _ (conj P3 Q3)).
  unfold rmin, rmax, row. lra.
Qed.
Lemma row_min i : exists p, in_box lo hi p /\ row i p = rmin i.
Proof.
  destruct HL as (H0 & H1 & H2). destruct (pick_min (A i i0) _ _ H0) as (x & X & EX). destruct (pick_min (A i i1) _ _ H1) as (y & Y & EY). destruct (pick_min (A i i2) _ _ H2) as (z & Z & EZ).
  exists (mk3 x y z). unfold in_box, le3, row, rmin. cbn [cX cY cZ]. lra.
Qed.
Lemma row_max i : exists p, in_box lo hi p /\ row i p = rmax i.
Proof.
  destruct HL as (H0 & H1 & H2). destruct (pick_max (A i i0) _ _ H0) as (x & X & EX). destruct (pick_max (A i i1) _ _ H1) as (y & Y & EY). destruct (pick_max (A i i2) _ _ H2) as (z & Z & EZ).
  exists (mk3 x y z). unfold in_box, le3, row, rmax. cbn [cX cY cZ]. lra.
Qed.
Lemma app_row p : app_pt A p = mk3 (row i0 p + A i0 i3) (row i1 p + A i1 i3) (row i2 p + A i2 i3).
Proof. destruct AA as (W0 & W1 & W2 & W3). unfold app_pt, wcoord, app_vec, scl3, add3, row. rewrite W0, W1, W2, W3. apply R3_eq; cbn; field. Qed.
Lemma enclose_iff l h : (forall p, in_box lo hi p -> in_box l h (app_pt A p)) <->
  le3 l (mk3 (A i0 i3 + rmin i0) (A i1 i3 + rmin i1) (A i2 i3 + rmin i2)) /\ le3 (mk3 (A i0 i3 + rmax i0) (A i1 i3 + rmax i1) (A i2 i3 + rmax i2)) h.
Proof.
  split.
  - intros H.
    assert (K : forall p, in_box lo hi p -> (cX l <= row i0 p + A i0 i3 <= cX h) /\ (cY l <= row i1 p + A i1 i3 <= cY h) /\ (cZ l <= row i2 p + A i2 i3 <= cZ h)).
    { intros p P. assert (Q := H p P). rewrite app_row in Q. unfold in_box, le3 in Q. cbn [cX cY cZ] in Q. lra. }
    destruct (row_min i0) as (a & Ha & Ea), (row_min i1) as (b & Hb & Eb), (row_min i2) as (c & Hc & Ec), (row_max i0) as (a' & Ha' & Ea'), (row_max i1) as (b' & Hb' & Eb'), (row_max i2) as (c' & Hc' & Ec').
    apply K in Ha, Hb, Hc, Ha', Hb', Hc'. unfold le3. cbn [cX cY cZ]. lra.
  - intros [(L0 & L1 & L2) (H0 & H1 & H2)] p P. cbn [cX cY cZ] in *. rewrite app_row. assert (R0 := row_in i0 p P). assert (R1 := row_in i1 p P). assert (R2 := row_in i2 p P). unfold in_box, le3. cbn [cX cY cZ]. lra.
Qed.
End M.

Lemma cube_min a r : 0 <= r -> Rmin (a * - r) (a * r) = - (r * Rabs a).
Proof. intros H. unfold Rmin, Rabs. destruct (Rle_dec _ _), (Rcase_abs _); nra. Qed.
Lemma cube_max a r : 0 <= r -> Rmax (a * - r) (a * r) = r * Rabs a.
Proof. intros H. unfold Rmax, Rabs. destruct (Rle_dec _ _), (Rcase_abs _); nra. Qed.

Lemma map_bbox_iff t A B b lo hi : isT t A B -> affine A -> isB b lo hi -> le3 lo hi ->
  let low j l h := Rmin (A i0 j * l) (A i0 j * h) + Rmin (A i1 j * l) (A i1 j * h) + Rmin (A i2 j * l) (A i2 j * h) in
  let high j l h := Rmax (A i0 j * l) (A i0 j * h) + Rmax (A i1 j * l) (A i1 j * h) + Rmax (A i2 j * l) (A i2 j * h) in
  let low' i := Rmin (A i i0 * cX lo) (A i i0 * cX hi) + Rmin (A i i1 * cY lo) (A i i1 * cY hi) + Rmin (A i i2 * cZ lo) (A i i2 * cZ hi) in
  let high' i := Rmax (A i i0 * cX lo) (A i i0 * cX hi) + Rmax (A i i1 * cY lo) (A i i1 * cY hi) + Rmax (A i i2 * cZ lo) (A i i2 * cZ hi) in
  exists lo' hi', isB (t_map_bbox t b) lo' hi' /\
    ((forall p, in_box lo hi p -> in_box lo' hi' (app_pt A p)) <->
     (low i0 (cX lo) (cX hi) <= low' i0 /\ low i1 (cY lo) (cY hi) <= low' i1 /\ low i2 (cZ lo) (cZ hi) <= low' i2) /\
     (high' i0 <= high i0 (cX lo) (cX hi) /\ high' i1 <= high i1 (cY lo) (cY hi) /\ high' i2 <= high i2 (cZ lo) (cZ hi))).
Proof.
  intros HT AA HB HL low high low' high'. do 2 eexists. split; [exact (map_bbox_value (tm t) A b lo hi (proj1 HT) HB)|].
  rewrite (enclose_iff A lo hi AA HL). unfold le3. cbn [cX cY cZ]. unfold colmin, colmax.
  change (rmin A lo hi) with low'. change (rmax A lo hi) with high'. fold (low i0) (low i1) (low i2). unfold low, high. clearbody low' high'. clear. split; intros; lra.
Qed.
Lemma map_cube_iff t A B b r : isT t A B -> affine A -> 0 < r -> isB b (mk3 (- r) (- r) (- r)) (mk3 r r r) ->
  let rowsum i := Rabs (A i i0) + Rabs (A i i1) + Rabs (A i i2) in
  let colsum j := Rabs (A i0 j) + Rabs (A i1 j) + Rabs (A i2 j) in
  exists lo' hi', isB (t_map_bbox t b) lo' hi' /\
    ((forall p, in_box (mk3 (- r) (- r) (- r)) (mk3 r r r) p -> in_box lo' hi' (app_pt A p)) <-> rowsum i0 = colsum i0 /\ rowsum i1 = colsum i1 /\ rowsum i2 = colsum i2).
Proof.
  intros HT AA Hr HB rowsum colsum.
  destruct (map_bbox_iff t A B b _ _ HT AA HB ltac:(unfold le3; cbn; lra)) as (lo' & hi' & HB' & I). exists lo', hi'. split; [exact HB'|]. rewrite I. cbn [cX cY cZ].
  rewrite !cube_min, !cube_max by lra.
  assert (S : rowsum i0 + rowsum i1 + rowsum i2 = colsum i0 + colsum i1 + colsum i2) by (unfold rowsum, colsum; ring).
  assert (K : forall i, - (r * Rabs (A i i0)) + - (r * Rabs (A i i1)) + - (r * Rabs (A i i2)) = - (r * rowsum i)) by (intros; unfold rowsum; ring).
  assert (K' : forall i, r * Rabs (A i i0) + r * Rabs (A i i1) + r * Rabs (A i i2) = r * rowsum i) by (intros; unfold rowsum; ring).
  assert (L : forall i, - (r * Rabs (A i0 i)) + - (r * Rabs (A i1 i)) + - (r * Rabs (A i2 i)) = - (r * colsum i)) by (intros; unfold colsum; ring).
  assert (L' : forall i, r * Rabs (A i0 i) + r * Rabs (A i1 i) + r * Rabs (A i2 i) = r * colsum i) by (intros; unfold colsum; ring).
  rewrite !K, !K', !L, !L'. clearbody rowsum colsum. clear - S Hr. split.
  - intros (_ & P0 & P1 & P2). apply Rmult_le_reg_l in P0, P1, P2; try exact Hr. lra.
  - intros (E0 & E1 & E2). rewrite E0, E1, E2. lra.
Qed.
Lemma cube_rotations x a b r : isR x a -> 0 < r -> isB b (mk3 (- r) (- r) (- r)) (mk3 r r r) ->
  forall t, t = rotate_x x \/ t = rotate_y x \/ t = rotate_z x ->
  exists A B lo' hi', isT t A B /\ isB (t_map_bbox t b) lo' hi' /\ forall p, in_box (mk3 (- r) (- r) (- r)) (mk3 r r r) p -> in_box lo' hi' (app_pt A p).
Proof.
  intros Hx Hr HB t [-> | [-> | ->]]; [assert (X := isT_rotate_x x a Hx) | assert (X := isT_rotate_y x a Hx) | assert (X := isT_rotate_z x a Hx)];
    match type of X with isT _ ?A ?B => exists A, B; destruct (map_cube_iff _ A B b r X ltac:(repeat split) Hr HB) as (lo' & hi' & H1 & H2) end;
    exists lo', hi'; (split; [exact X|split; [exact H1|]]); apply H2; cbn; rewrite ?Rabs_Ropp; lra.
Qed.
