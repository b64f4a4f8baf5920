(** look_at in f32/f64. *)
From Coq Require Import ZArith Reals Bool Lra Lia.
From Coq Require Vector Fin.
From Flocq Require Import Core BinarySingleNaN.
From Verif.Model Require Import FloatBase Scalar Float Interval Outcome Vec Transform XReal.
From Verif Require Import Spec SpecGeom SpecShape SpecTrig SpecError SpecRot.
From Verif.Proofs Require Import BitsLemmas FloatLemmas ScalarProofs XRealLemmas VectorFloat MatrixProofs TransformProofs RotationProofs VectorExact MatrixThms TransformFloat SlabFloat VectorErr MapErr DiskFloat CameraFloat QuadFloat SphereNear RotFloat.
Open Scope R_scope.
Notation "v @ i" := (Vector.nth v i) (at level 20, only parsing).

(** ** real vectors *)
Lemma len_sub_sym x y : len3 (sub3 x y) = len3 (sub3 y x).
Proof. unfold len3. f_equal. unfold dot3, sub3; cbn; ring. Qed.
Lemma len_diff x y : Rabs (len3 x - len3 y) <= len3 (sub3 x y).
Proof.
  assert (A := len_tri y (sub3 x y)). rewrite <- sub_add in A. assert (B := len_tri x (sub3 y x)). rewrite <- sub_add, (len_sub_sym y x) in B. apply Rabs_le. lra.
Qed.
Lemma near_len74 e p q : 0 <= e -> near3 e p q -> len3 (sub3 p q) <= 7 / 4 * e.
Proof. intros E H. apply near_len3 in H; [|exact E]. apply len_le; [lra|]. assert (0 <= e * e) by (apply Rmult_le_pos; exact E). lra. Qed.
Lemma dir_comp a a' l l' d : 0 < l -> 0 < l' -> Rabs a <= l -> Rabs (l' - l) <= d -> Rabs (a - a') <= d -> Rabs (/ l * a - / l' * a') <= 2 * d / l'.
Proof.
  intros L L' A D D'. replace (/ l * a - / l' * a') with ((/ l * a) * ((l' - l) * / l') + (a - a') * / l') by (field; lra).
  eapply Rle_trans; [apply Rabs_triang|]. assert (I : 0 < / l') by (apply Rinv_0_lt_compat, L'). assert (I2 : 0 < / l) by (apply Rinv_0_lt_compat, L).
  rewrite !Rabs_mult, (Rabs_pos_eq (/ l')), (Rabs_pos_eq (/ l)) by lra.
  assert (U : / l * Rabs a <= 1) by (apply Rmult_le_reg_l with l; [exact L|]; rewrite <- Rmult_assoc, Rinv_r by lra; lra).
  assert (P1 : Rabs (l' - l) * / l' <= d * / l') by (apply Rmult_le_compat_r; lra). assert (P2 : Rabs (a - a') * / l' <= d * / l') by (apply Rmult_le_compat_r; lra).
  assert (P3 : / l * Rabs a * (Rabs (l' - l) * / l') <= 1 * (d * / l')). { apply Rmult_le_compat; try assumption. - apply Rmult_le_pos; [lra|apply Rabs_pos]. - apply Rmult_le_pos; [apply Rabs_pos|lra]. }
  unfold Rdiv. lra.
Qed.
Lemma dir_close c C : 0 < len3 c -> 0 < len3 C -> near3 (2 * len3 (sub3 c C) / len3 C) (dir3 c) (dir3 C).
Proof.
  intros L L'. destruct (comp_len c) as (A0 & A1 & A2). destruct (comp_len (sub3 c C)) as (B0 & B1 & B2). assert (D := len_diff c C). rewrite Rabs_minus_sym in D.
  split; [|split]; unfold dir3; cbn [cX cY cZ scl3]; apply dir_comp; assumption.
Qed.
Lemma cross_near z x Z X e d : (Rabs (cX Z) <= 1 /\ Rabs (cY Z) <= 1 /\ Rabs (cZ Z) <= 1) -> (Rabs (cX x) <= 101 / 100 /\ Rabs (cY x) <= 101 / 100 /\ Rabs (cZ x) <= 101 / 100) ->
  0 <= e -> 0 <= d -> near3 e z Z -> near3 d x X -> near3 (2 * (101 / 100 * e + d)) (cross3 z x) (cross3 Z X).
Proof.
  intros (Z0 & Z1 & Z2) (X0 & X1 & X2) E D (A0 & A1 & A2) (B0 & B1 & B2).
  assert (P : forall a a' b b', Rabs (a - a') <= e -> Rabs (b - b') <= d -> Rabs a' <= 1 -> Rabs b <= 101 / 100 -> Rabs (a * b - a' * b') <= 101 / 100 * e + d).
  { intros a a' b b' Ha Hb Ha' Hb'. replace (a * b - a' * b') with ((a - a') * b + a' * (b - b')) by ring. eapply Rle_trans; [apply Rabs_triang|]. rewrite !Rabs_mult.
    assert (Rabs (a - a') * Rabs b <= e * (101 / 100)) by (apply Rmult_le_compat; try apply Rabs_pos; assumption).
    assert (Rabs a' * Rabs (b - b') <= 1 * d) by (apply Rmult_le_compat; try apply Rabs_pos; assumption). lra. }
  assert (S : forall a a' b b', Rabs (a - a') <= 101 / 100 * e + d -> Rabs (b - b') <= 101 / 100 * e + d -> Rabs (a - b - (a' - b')) <= 2 * (101 / 100 * e + d)).
  { intros a a' b b' Ha Hb. replace (a - b - (a' - b')) with ((a - a') - (b - b')) by ring. eapply Rle_trans; [apply Rabs_triang|]. rewrite Rabs_Ropp. lra. }
  unfold near3, cross3; cbn [cX cY cZ]. split; [|split]; apply S; apply P; assumption.
Qed.
Lemma near_tri e d p q r : near3 e p q -> near3 d q r -> near3 (e + d) p r.
Proof.
  intros (A0 & A1 & A2) (B0 & B1 & B2). split; [|split].
  - replace (cX p - cX r) with ((cX p - cX q) + (cX q - cX r)) by ring. eapply Rle_trans; [apply Rabs_triang|]. lra.
  - replace (cY p - cY r) with ((cY p - cY q) + (cY q - cY r)) by ring. eapply Rle_trans; [apply Rabs_triang|]. lra.
  - replace (cZ p - cZ r) with ((cZ p - cZ q) + (cZ q - cZ r)) by ring. eapply Rle_trans; [apply Rabs_triang|]. lra.
Qed.
Lemma near_le e d p q : near3 e p q -> e <= d -> near3 d p q.
Proof. intros (A & B & C) D. repeat split; lra. Qed.
Lemma len_pos_nz v : 0 < len3 v -> v <> zero3.
Proof. intros L E. rewrite E in L. unfold len3, dot3, zero3 in L; cbn in L. replace (0 * 0 + 0 * 0 + 0 * 0) with 0 in L by ring. rewrite sqrt_0 in L. lra. Qed.
Lemma axes_frame p t up : 0 < len3 (sub3 p t) -> 0 < up_sine p t up -> right_frame (right_axis p t up) (up_axis p t up) (back_axis p t).
Proof.
  intros L S. unfold up_axis. set (Z := back_axis p t). set (X := right_axis p t up).
  assert (ZZ : dot3 Z Z = 1) by (apply dir3_unit, L). assert (XX : dot3 X X = 1) by (apply dir3_unit, S).
  assert (XZ : dot3 X Z = 0). { unfold X, right_axis. fold Z. unfold dir3, dot3, cross3, scl3; cbn [cX cY cZ]. ring. }
  clearbody X Z. clear L S.
  assert (CR : cross3 X (cross3 Z X) = Z).
  { replace (cross3 X (cross3 Z X)) with (sub3 (scl3 (dot3 X X) Z) (scl3 (dot3 X Z) X)) by (apply R3_eq; cbn; unfold dot3; ring). rewrite XX, XZ. apply R3_eq; cbn; ring. }
  assert (YY : dot3 (cross3 Z X) (cross3 Z X) = 1).
  { transitivity (dot3 Z Z * dot3 X X - dot3 X Z * dot3 X Z); [unfold dot3, cross3; cbn [cX cY cZ]; ring|]. rewrite ZZ, XX, XZ. ring. }
  unfold right_frame. split; [exact XX|]. split; [exact YY|]. split; [exact ZZ|]. split; [unfold dot3, cross3; cbn [cX cY cZ]; ring|]. split; [unfold dot3, cross3; cbn [cX cY cZ]; ring|]. split; [exact XZ|exact CR].
Qed.

Section L.
Context {f : fmt} {m : libm f}.
Notation FT := (float f).
Notation u := (unit_roundoff f).
Notation eta := (smallest_float f / 2).

Lemma f3_nr k (v : vec FT 3) (V : R3) : fall finite v -> near3 (k * u) (f3 v) V -> nr k (vx v) (cX V) /\ nr k (vy v) (cY V) /\ nr k (vz v) (cZ V).
Proof. intros F (A & B & C). split; [|split]; (split; [apply F|assumption]). Qed.
Lemma nr_f3 k (v : vec FT 3) (V : R3) : nr k (vx v) (cX V) -> nr k (vy v) (cY V) -> nr k (vz v) (cZ V) -> fall finite v /\ near3 (k * u) (f3 v) V.
Proof. intros [F0 A] [F1 B] [F2 C]. split; [|split; [|split]; assumption]. intros i. revert i. apply (fin3_case (fun i => finite (Vector.nth _ i))); assumption. Qed.
Lemma norm_fin3 (v : vec FT 3) : fall finite v -> len3 (f3 v) <= bpow radix2 55 -> finite (norm v).
Proof.
  intros F L. destruct (comp_len (f3 v)) as (A & B & C). rewrite (vec3_eta v). apply norm_fin; try apply F; eapply Rle_trans; try exact L; assumption.
Qed.
Lemma normalize_near (v : vec FT 3) : fall finite v -> bpow radix2 (-40) <= len3 (f3 v) <= bpow radix2 55 -> fall finite (normalize v) /\ near3 (6 * u) (f3 (normalize v)) (dir3 (f3 v)).
Proof.
  intros F [L H]. destruct (normalize_err v (norm_fin3 v F H)) as (FN & _ & N); [rewrite rlen_f3; exact L|]. split; [exact FN|].
  rewrite rlen_f3 in N. assert (E : forall i, / len3 (f3 v) * fvals v i = fvals v i / len3 (f3 v)) by (intros; unfold Rdiv; ring).
  split; [|split]; unfold dir3; cbn [cX cY cZ scl3 f3].
  - assert (K := N Fin.F1). rewrite <- (E Fin.F1) in K. exact K.
  - assert (K := N (Fin.FS Fin.F1)). rewrite <- (E (Fin.FS Fin.F1)) in K. exact K.
  - assert (K := N (Fin.FS (Fin.FS Fin.F1))). rewrite <- (E (Fin.FS (Fin.FS Fin.F1))) in K. exact K.
Qed.
(** the difference of two points: relative rounding per component *)
Lemma sub_near (p t : vec FT 3) : fall finite p -> fall finite t -> len3 (sub3 (f3 p) (f3 t)) <= bpow radix2 50 ->
  fall finite (p_sub_p p t) /\ len3 (sub3 (f3 (p_sub_p p t)) (sub3 (f3 p) (f3 t))) <= u * len3 (sub3 (f3 p) (f3 t)).
Proof.
  intros Fp Ft L. assert (U := u_q (f := f)).
  assert (B50 : bpow radix2 50 <= bpow radix2 120) by (apply bpow_le; lia).
  destruct (comp_len (sub3 (f3 p) (f3 t))) as (C0 & C1 & C2).
  assert (S : forall x y : FT, finite x -> finite y -> Rabs (B2R x - B2R y) <= bpow radix2 120 -> finite (fsub x y) /\ Rabs (B2R (fsub x y) - (B2R x - B2R y)) <= u * Rabs (B2R x - B2R y)).
  { intros x y Fx Fy B. assert (R := fsub_Rnd x y Fx Fy). destruct (big_fin _ _ R B) as [F _]. split; [exact F|]. apply sub_rel; assumption. }
  destruct (S (vx p) (vx t) (Fp _) (Ft _)) as [F0 E0]. { eapply Rle_trans; [exact C0|lra]. }
  destruct (S (vy p) (vy t) (Fp _) (Ft _)) as [F1 E1]. { eapply Rle_trans; [exact C1|lra]. }
  destruct (S (vz p) (vz t) (Fp _) (Ft _)) as [F2 E2]. { eapply Rle_trans; [exact C2|lra]. }
  assert (EQ : p_sub_p p t = vec3 (fsub (vx p) (vx t)) (fsub (vy p) (vy t)) (fsub (vz p) (vz t))) by (rewrite (vec3_eta p), (vec3_eta t); reflexivity).
  rewrite EQ. split. { intros i. revert i. apply (fin3_case (fun i => finite (Vector.nth _ i))); assumption. }
  assert (L0 := len3_nonneg (sub3 (f3 p) (f3 t))). apply len_le; [apply Rmult_le_pos; lra|].
  replace (u * len3 (sub3 (f3 p) (f3 t)) * (u * len3 (sub3 (f3 p) (f3 t)))) with (u * u * (len3 (sub3 (f3 p) (f3 t)) * len3 (sub3 (f3 p) (f3 t)))) by ring. rewrite len3_sq.
  assert (Q : forall d w, Rabs d <= u * Rabs w -> d * d <= u * u * (w * w)).
  { intros d w H. apply sq_abs_le in H. replace (u * Rabs w * (u * Rabs w)) with (u * u * (Rabs w * Rabs w)) in H by ring. rewrite <- Rabs_mult, (Rabs_pos_eq (w * w)) in H by apply Rle_0_sqr. exact H. }
  apply Q in E0, E1, E2. 
  change (f3 (vec3 (fsub (vx p) (vx t)) (fsub (vy p) (vy t)) (fsub (vz p) (vz t)))) with (mk3 (B2R (fsub (vx p) (vx t))) (B2R (fsub (vy p) (vy t))) (B2R (fsub (vz p) (vz t)))).
  change (sub3 (f3 p) (f3 t)) with (mk3 (B2R (vx p) - B2R (vx t)) (B2R (vy p) - B2R (vy t)) (B2R (vz p) - B2R (vz t))). unfold dot3, sub3; cbn [cX cY cZ]. lra.
Qed.

Lemma cross_eq (a b : vec FT 3) : cross a b = vec3 (fsub (fmul (vy a) (vz b)) (fmul (vz a) (vy b))) (fsub (fmul (vz a) (vx b)) (fmul (vx a) (vz b))) (fsub (fmul (vx a) (vy b)) (fmul (vy a) (vx b))).
Proof. reflexivity. Qed.
Lemma unit_cross_comp a b : dot3 a a = 1 -> dot3 b b = 1 -> Rabs (cX (cross3 a b)) <= 1 /\ Rabs (cY (cross3 a b)) <= 1 /\ Rabs (cZ (cross3 a b)) <= 1.
Proof.
  intros A B. assert (L : len3 (cross3 a b) <= 1).
  { apply len_le; [lra|]. replace (dot3 (cross3 a b) (cross3 a b)) with (dot3 a a * dot3 b b - dot3 a b * dot3 a b) by (unfold dot3, cross3; cbn [cX cY cZ]; ring). rewrite A, B. assert (H := Rle_0_sqr (dot3 a b)). unfold Rsqr in H. lra. }
  destruct (comp_len (cross3 a b)) as (X & Y & Z). repeat split; eapply Rle_trans; eassumption.
Qed.
(** cross product of two almost exact unit vectors *)
Lemma cross_unit (a b : vec FT 3) A B : fall finite a -> fall finite b -> dot3 A A = 1 -> dot3 B B = 1 -> near3 (6 * u) (f3 a) A -> near3 (8 * u) (f3 b) B ->
  fall finite (cross a b) /\ near3 (32 * u) (f3 (cross a b)) (cross3 A B).
Proof.
  intros Fa Fb HA HB NA NB. destruct (f3_nr 6 a A Fa NA) as (A0 & A1 & A2). destruct (f3_nr 8 b B Fb NB) as (B0 & B1 & B2).
  destruct (unit_comp A HA) as (C0 & C1 & C2). destruct (unit_comp B HB) as (D0 & D1 & D2). destruct (unit_cross_comp A B HA HB) as (E0 & E1 & E2).
  assert (M : forall (x y : FT) r s, nr 6 x r -> nr 8 y s -> Rabs r <= 1 -> Rabs s <= 1 -> nr (6 * 1 + 8 * 1 + 1 * 1 + / 16) (fmul x y) (r * s)) by (intros; apply nr_mul; try assumption; lra).
  assert (S : forall (x y : FT) r s, nr (6 * 1 + 8 * 1 + 1 * 1 + / 16) x r -> nr (6 * 1 + 8 * 1 + 1 * 1 + / 16) y s -> Rabs (r - s) <= 1 -> nr 32 (fsub x y) (r - s)).
  { intros x y r s X Y K. eapply nr_le; [apply (nr_sub _ _ x y r s 1 X Y); try exact K; lra|lra]. }
  rewrite cross_eq. apply nr_f3; cbn [vx vy vz vget Vector.nth vec3 Vector.caseS]; apply S; try (apply M; assumption); assumption.
Qed.
(** cross product of two float vectors of length about one *)
Lemma cross_round (a b : vec FT 3) : fall finite a -> fall finite b -> (Rabs (cX (f3 a)) <= 101 / 100 /\ Rabs (cY (f3 a)) <= 101 / 100 /\ Rabs (cZ (f3 a)) <= 101 / 100) ->
  (Rabs (cX (f3 b)) <= 101 / 100 /\ Rabs (cY (f3 b)) <= 101 / 100 /\ Rabs (cZ (f3 b)) <= 101 / 100) -> fall finite (cross a b) /\ near3 (5 * u) (f3 (cross a b)) (cross3 (f3 a) (f3 b)).
Proof.
  intros Fa Fb (A0 & A1 & A2) (B0 & B1 & B2).
  assert (V : forall x : FT, finite x -> nr 0 x (B2R x)) by (intros; apply nr_val, val_self; assumption).
  assert (P : forall r s, Rabs r <= 101 / 100 -> Rabs s <= 101 / 100 -> Rabs (r * s) <= 103 / 100).
  { intros r s R S. rewrite Rabs_mult. apply Rle_trans with (101 / 100 * (101 / 100)); [apply Rmult_le_compat; try apply Rabs_pos; assumption|lra]. }
  assert (M : forall x y : FT, finite x -> finite y -> Rabs (B2R x) <= 101 / 100 -> Rabs (B2R y) <= 101 / 100 -> nr (11 / 10) (fmul x y) (B2R x * B2R y)).
  { intros x y Fx Fy Hx Hy. eapply nr_le; [apply (nr_mul 0 0 x y _ _ (101 / 100) (101 / 100)); try (apply V; assumption); try assumption; lra|lra]. }
  assert (S : forall (x y : FT) r s, nr (11 / 10) x r -> nr (11 / 10) y s -> Rabs r <= 103 / 100 -> Rabs s <= 103 / 100 -> nr 5 (fsub x y) (r - s)).
  { intros x y r s X Y R1 R2. eapply nr_le; [apply (nr_sub _ _ x y r s (206 / 100) X Y); try lra|lra]. eapply Rle_trans; [apply Rabs_triang|]. rewrite Rabs_Ropp. lra. }
  rewrite cross_eq. apply nr_f3; cbn [vx vy vz vget Vector.nth vec3 Vector.caseS]; apply S; first [apply M; try apply Fa; try apply Fb; assumption | apply P; assumption].
Qed.
Lemma near_101 k (a : R3) A : dot3 A A = 1 -> near3 k a A -> k <= / 100 -> Rabs (cX a) <= 101 / 100 /\ Rabs (cY a) <= 101 / 100 /\ Rabs (cZ a) <= 101 / 100.
Proof. intros H (N0 & N1 & N2) K. destruct (unit_comp A H) as (U0 & U1 & U2). apply Rabs_le_inv in N0, N1, N2, U0, U1, U2. repeat split; apply Rabs_le; lra. Qed.

Definition ux (p t up : vec FT 3) := normalize (cross (normalize up) (normalize (p_sub_p p t))).
Definition uz (p t : vec FT 3) := normalize (p_sub_p p t).
Definition uy (p t up : vec FT 3) := cross (uz p t) (ux p t up).
Lemma axes_near (p t up : vec FT 3) : fall finite p -> fall finite t -> fall finite up ->
  bpow radix2 (-30) <= len3 (f3 up) <= bpow radix2 50 -> bpow radix2 (-30) <= len3 (sub3 (f3 p) (f3 t)) <= bpow radix2 50 ->
  / 64 <= up_sine (f3 p) (f3 t) (f3 up) ->
  let s := up_sine (f3 p) (f3 t) (f3 up) in
  (fall finite (ux p t up) /\ fall finite (uy p t up) /\ fall finite (uz p t)) /\
  near3 (8 * u) (f3 (uz p t)) (back_axis (f3 p) (f3 t)) /\ near3 (120 * u / s) (f3 (ux p t up)) (right_axis (f3 p) (f3 t) (f3 up)) /\
  near3 (262 * u / s) (f3 (uy p t up)) (up_axis (f3 p) (f3 t) (f3 up)).
Proof.
  intros Fp Ft Fu [LU HU] [LV HV] S s. assert (U := u_q (f := f)). assert (UP := u_pos (f := f)).
  assert (B30 : 0 < bpow radix2 (-30)) by apply bpow_gt_0. assert (B40 : 2 * bpow radix2 (-40) <= bpow radix2 (-30)) by (change 2 with (bpow radix2 1); rewrite <- bpow_plus; apply bpow_le; lia).
  assert (B55 : 2 * bpow radix2 50 <= bpow radix2 55) by (change 2 with (bpow radix2 1); rewrite <- bpow_plus; apply bpow_le; lia). assert (P40 := bpow_gt_0 radix2 (-40)). assert (P50 := bpow_gt_0 radix2 50).
  destruct (normalize_near up Fu ltac:(lra)) as [FU NU].
  destruct (sub_near p t Fp Ft HV) as [FD ND].
  set (D := sub3 (f3 p) (f3 t)) in *. set (d := p_sub_p p t) in *. assert (LD := len_diff (f3 d) D).
  assert (UD : u * len3 D <= / 1000000 * len3 D) by (apply Rmult_le_compat_r; lra).
  assert (LD2 : Rabs (len3 (f3 d) - len3 D) <= / 1000000 * len3 D) by lra. apply Rabs_le_inv in LD2.
  destruct (normalize_near d FD ltac:(lra)) as [FZ NZ]. fold (uz p t) in FZ, NZ.
  assert (NZ2 : near3 (8 * u) (f3 (uz p t)) (dir3 D)).
  { eapply near_le; [eapply near_tri; [exact NZ|apply (dir_close (f3 d) D); lra]|]. assert (K : 2 * len3 (sub3 (f3 d) D) / len3 D <= 2 * u); [|lra].
    apply Rmult_le_reg_r with (len3 D); [lra|]. unfold Rdiv. rewrite Rmult_assoc, Rinv_l by lra. lra. }
  change (dir3 D) with (back_axis (f3 p) (f3 t)) in NZ2. set (Z := back_axis (f3 p) (f3 t)) in *. set (W := dir3 (f3 up)) in *.
  assert (HZ : dot3 Z Z = 1) by (apply dir3_unit; fold D; lra). assert (HW : dot3 W W = 1) by (apply dir3_unit; lra).
  destruct (cross_unit (normalize up) (uz p t) W Z FU FZ HW HZ NU NZ2) as [FC NC]. set (c := cross (normalize up) (uz p t)) in *. set (C := cross3 W Z) in *.
  assert (SC : s = len3 C) by reflexivity.
  assert (LC := near_len74 (32 * u) _ _ ltac:(lra) NC). assert (DC := len_diff (f3 c) C). assert (LC2 : Rabs (len3 (f3 c) - len3 C) <= 7 / 4 * (32 * u)) by lra. apply Rabs_le_inv in LC2.
  assert (S1 : s <= 1). { rewrite SC. apply len_le; [lra|]. replace (dot3 C C) with (dot3 W W * dot3 Z Z - dot3 W Z * dot3 W Z) by (unfold C, dot3, cross3; cbn [cX cY cZ]; ring). rewrite HW, HZ. assert (H := Rle_0_sqr (dot3 W Z)). unfold Rsqr in H. lra. }
  assert (S64 : / 64 <= s) by exact S.
  assert (B1 : bpow radix2 (-40) <= / 100) by (apply Rle_trans with (bpow radix2 (-7)); [apply bpow_le; lia|cbn; lra]).
  assert (B2 : 2 <= bpow radix2 55) by (change 2 with (bpow radix2 1); apply bpow_le; lia).
  destruct (normalize_near c FC ltac:(lra)) as [FX NX]. fold (uz p t) in c. change (normalize c) with (ux p t up) in FX, NX.
  assert (IS : 1 <= / s) by (rewrite <- Rinv_1; apply Rinv_le_contravar; lra). assert (IS2 : / s <= 64) by (replace 64 with (/ / 64) by (rewrite Rinv_inv; reflexivity); apply Rinv_le_contravar; lra).
  assert (US : u <= u * / s) by (rewrite <- (Rmult_1_r u) at 1; apply Rmult_le_compat_l; lra).
  assert (NX2 : near3 (120 * u / s) (f3 (ux p t up)) (right_axis (f3 p) (f3 t) (f3 up))).
  { eapply near_le; [eapply near_tri; [exact NX|apply (dir_close (f3 c) C); lra]|]. rewrite <- SC.
    assert (K : 2 * len3 (sub3 (f3 c) C) / s <= 112 * u * / s). { unfold Rdiv. apply Rmult_le_compat_r; lra. } unfold Rdiv. lra. }
  set (X := right_axis (f3 p) (f3 t) (f3 up)) in *. assert (HX : dot3 X X = 1) by (apply dir3_unit; fold Z W C; lra).
  assert (US2 : u * / s <= / 1000000 * 64) by (apply Rmult_le_compat; lra).
  assert (XB := near_101 _ _ _ HX NX2 ltac:(unfold Rdiv; lra)). assert (ZB := near_101 _ _ _ HZ NZ2 ltac:(lra)).
  destruct (cross_round (uz p t) (ux p t up) FZ FX ZB XB) as [FY NY]. fold (uy p t up) in FY, NY.
  split; [split; [exact FX|split; [exact FY|exact FZ]]|]. split; [exact NZ2|]. split; [exact NX2|].
  change (up_axis (f3 p) (f3 t) (f3 up)) with (cross3 Z X).
  eapply near_le; [eapply near_tri; [exact NY|apply (cross_near _ _ _ _ (8 * u) (120 * u / s) (unit_comp Z HZ) XB); try assumption; unfold Rdiv; lra]|]. unfold Rdiv. lra.
Qed.
Lemma dot_eq3 (x p : vec FT 3) : dot x p = fadd (fadd (fadd (fzero false) (fmul (vx x) (vx p))) (fmul (vy x) (vy p))) (fmul (vz x) (vz p)).
Proof. rewrite (vec3_eta x), (vec3_eta p). reflexivity. Qed.
Lemma dot_near (x p : vec FT 3) : fall finite x -> fall finite p -> (Rabs (cX (f3 x)) <= 101 / 100 /\ Rabs (cY (f3 x)) <= 101 / 100 /\ Rabs (cZ (f3 x)) <= 101 / 100) ->
  len3 (f3 p) <= bpow radix2 100 -> finite (dot x p) /\ Rabs (B2R (dot x p) - dot3 (f3 x) (f3 p)) <= 4 * u * size3 (f3 p) + 2 * smallest_float f.
Proof.
  intros Fx Fp (X0 & X1 & X2) L. assert (U := u_q (f := f)). assert (ET := eta_tiny2 (f := f)). destruct (comp_len (f3 p)) as (C0 & C1 & C2).
  set (M := bpow radix2 100) in *. assert (M1 : 1 <= M) by (unfold M; change 1 with (bpow radix2 0); apply bpow_le; lia).
  assert (MB : 1048576 * M = bpow radix2 120) by (unfold M; change 1048576 with (bpow radix2 20); rewrite <- bpow_plus; reflexivity).
  assert (F : finite (dot x p)).
  { rewrite dot_eq3.
    assert (P : forall a b : FT, finite a -> finite b -> Rabs (B2R a) <= 101 / 100 -> Rabs (B2R b) <= M -> finite (fmul a b) /\ Rabs (B2R (fmul a b)) <= 2 * M).
    { intros a b Fa Fb Ha Hb. assert (K : Rabs (B2R a * B2R b) <= 101 / 100 * M) by (rewrite Rabs_mult; apply Rmult_le_compat; try apply Rabs_pos; assumption).
      destruct (big_fin _ _ (fmul_Rnd a b Fa Fb)) as [F E]; [lra|]. split; [exact F|].
      assert (u * Rabs (B2R a * B2R b) <= / 1000000 * (101 / 100 * M)) by (apply Rmult_le_compat; try lra; apply Rabs_pos).
      replace (B2R (fmul a b)) with ((B2R (fmul a b) - B2R a * B2R b) + B2R a * B2R b) by ring. eapply Rle_trans; [apply Rabs_triang|]. lra. }
    assert (S : forall (a b : FT) k, finite a -> finite b -> Rabs (B2R a) <= k * M -> Rabs (B2R b) <= 2 * M -> 0 <= k <= 10 -> finite (fadd a b) /\ Rabs (B2R (fadd a b)) <= (k + 3) * M).
    { intros a b k Fa Fb Ha Hb K. assert (KM : k * M <= 10 * M) by (apply Rmult_le_compat_r; lra). assert (K0 : 0 <= k * M) by (apply Rmult_le_pos; lra).
      assert (Q : Rabs (B2R a + B2R b) <= k * M + 2 * M) by (eapply Rle_trans; [apply Rabs_triang|]; lra).
      destruct (big_fin _ _ (fadd_Rnd a b Fa Fb)) as [F E]; [lra|]. split; [exact F|].
      assert (u * Rabs (B2R a + B2R b) <= / 1000000 * (k * M + 2 * M)) by (apply Rmult_le_compat; try lra; apply Rabs_pos).
      replace (B2R (fadd a b)) with ((B2R (fadd a b) - (B2R a + B2R b)) + (B2R a + B2R b)) by ring. eapply Rle_trans; [apply Rabs_triang|]. lra. }
    destruct (P (vx x) (vx p) (Fx _) (Fp _) X0) as [F0 B0]. { eapply Rle_trans; [exact C0|exact L]. }
    destruct (P (vy x) (vy p) (Fx _) (Fp _) X1) as [F1 B1]. { eapply Rle_trans; [exact C1|exact L]. }
    destruct (P (vz x) (vz p) (Fx _) (Fp _) X2) as [F2 B2]. { eapply Rle_trans; [exact C2|exact L]. }
    destruct (S (fzero false) _ 0 eq_refl F0) as [G0 H0]; [cbn [B2R fzero]; rewrite Rabs_R0; lra|exact B0|lra|].
    destruct (S _ _ (0 + 3) G0 F1 H0 B1) as [G1 H1]; [lra|]. apply (S _ _ (0 + 3 + 3) G1 F2 H1 B2). lra. }
  split; [exact F|]. assert (D := dot_err x p F). cbn [rsum INR] in D. unfold rdot in D; cbn [rsum] in D.
  assert (G := gl). unfold rel_err in G.
  assert (E3 : (1 + u) ^ 3 <= 101 / 100) by lra.
  replace (B2R (dot x p) - dot3 (f3 x) (f3 p)) with (B2R (dot x p) - (fvals x Fin.F1 * fvals p Fin.F1 + (fvals x (Fin.FS Fin.F1) * fvals p (Fin.FS Fin.F1) + (fvals x (Fin.FS (Fin.FS Fin.F1)) * fvals p (Fin.FS (Fin.FS Fin.F1)) + 0)))) by (unfold dot3, f3, fvals; cbn [cX cY cZ]; ring).
  eapply Rle_trans; [exact D|].
  assert (SB : Rabs (fvals x Fin.F1 * fvals p Fin.F1) + (Rabs (fvals x (Fin.FS Fin.F1) * fvals p (Fin.FS Fin.F1)) + (Rabs (fvals x (Fin.FS (Fin.FS Fin.F1)) * fvals p (Fin.FS (Fin.FS Fin.F1))) + 0)) <= 101 / 100 * size3 (f3 p)).
  { rewrite !Rabs_mult. unfold size3. change (Rabs (fvals x Fin.F1)) with (Rabs (cX (f3 x))). change (Rabs (fvals x (Fin.FS Fin.F1))) with (Rabs (cY (f3 x))). change (Rabs (fvals x (Fin.FS (Fin.FS Fin.F1)))) with (Rabs (cZ (f3 x))).
    change (Rabs (fvals p Fin.F1)) with (Rabs (cX (f3 p))). change (Rabs (fvals p (Fin.FS Fin.F1))) with (Rabs (cY (f3 p))). change (Rabs (fvals p (Fin.FS (Fin.FS Fin.F1)))) with (Rabs (cZ (f3 p))).
    assert (H0 := Rmult_le_compat_r _ _ _ (Rabs_pos (cX (f3 p))) X0). assert (H1 := Rmult_le_compat_r _ _ _ (Rabs_pos (cY (f3 p))) X1). assert (H2 := Rmult_le_compat_r _ _ _ (Rabs_pos (cZ (f3 p))) X2). lra. }
  set (sb := Rabs (fvals x Fin.F1 * fvals p Fin.F1) + _) in *. assert (SP : 0 <= size3 (f3 p)) by (unfold size3; assert (A := Rabs_pos (cX (f3 p))); assert (B := Rabs_pos (cY (f3 p))); assert (C := Rabs_pos (cZ (f3 p))); lra).
  assert (S0 : 0 <= sb) by (unfold sb; repeat (apply Rplus_le_le_0_compat; [apply Rabs_pos|]); lra).
  assert (Q1 : ((1 + u) ^ 3 - 1) * sb <= (301 / 100 * u) * (101 / 100 * size3 (f3 p))).
  { apply Rle_trans with ((301 / 100 * u) * sb); [apply Rmult_le_compat_r; assumption|apply Rmult_le_compat_l; [lra|exact SB]]. }
  assert (Q2 : (1 + 1 + 1) * (1 + u) ^ 3 * eta <= (1 + 1 + 1) * (101 / 100) * eta) by (apply Rmult_le_compat_r; [lra|]; apply Rmult_le_compat_l; lra).
  assert (0 <= u * size3 (f3 p)) by (apply Rmult_le_pos; lra). lra.
Qed.

Lemma look_at_eq (p t up : vec FT 3) : look_at p t up = init_from_orthogonal_basis p (ux p t up) (uy p t up) (uz p t).
Proof. reflexivity. Qed.
Lemma dot_near3 e x X v : near3 e x X -> Rabs (dot3 x v - dot3 X v) <= e * size3 v.
Proof. intros (A & B & C). unfold dot3, size3. apply lin3; assumption. Qed.
Lemma affine_pt A p : affine A -> app_pt A p = add3 (app_vec A p) (mk3 (A i0 i3) (A i1 i3) (A i2 i3)).
Proof. intros (A0 & A1 & A2 & A3). unfold app_pt, wcoord. rewrite A0, A1, A2, A3. replace (0 * cX p + 0 * cY p + 0 * cZ p + 1) with 1 by ring. rewrite Rinv_1. apply R3_eq; cbn; ring. Qed.
Lemma look_float (p t up : vec FT 3) : fall finite p -> fall finite t -> fall finite up ->
  bpow radix2 (-30) <= len3 (f3 up) <= bpow radix2 50 -> bpow radix2 (-30) <= len3 (sub3 (f3 p) (f3 t)) <= bpow radix2 50 -> len3 (f3 p) <= bpow radix2 100 ->
  / 64 <= up_sine (f3 p) (f3 t) (f3 up) ->
  let s := up_sine (f3 p) (f3 t) (f3 up) in let P := f3 p in let k := 262 * u / s in
  let X := right_axis P (f3 t) (f3 up) in let Y := up_axis P (f3 t) (f3 up) in let Z := back_axis P (f3 t) in
  right_frame X Y Z /\ exists A B, fM (t_matrix (look_at p t up)) A /\ fM (t_inverse_matrix (look_at p t up)) B /\ affine A /\ affine B /\
  (forall v, near3 (k * size3 v) (app_vec A v) (coords X Y Z v)) /\
  (forall v, near3 (k * size3 v) (app_vec B v) (combine X Y Z v)) /\
  (forall q, near3 (k * size3 (sub3 q P) + 4 * u * size3 P + 2 * smallest_float f) (app_pt A q) (coords X Y Z (sub3 q P))) /\
  (forall v, near3 (k * size3 v) (app_pt B v) (add3 P (combine X Y Z v))).
Proof.
  intros Fp Ft Fu HU HV HP S s P k X Y Z. assert (U := u_small (f := f)). assert (UP := u_pos (f := f)).
  assert (B30 : 0 < bpow radix2 (-30)) by apply bpow_gt_0.
  assert (S64 : / 64 <= s) by exact S.
  assert (FR : right_frame X Y Z) by (apply axes_frame; [unfold P; lra|unfold P; fold s; lra]).
  split; [exact FR|]. destruct FR as (HX & HY & HZ & _).
  destruct (axes_near p t up Fp Ft Fu HU HV S) as ((FX & FY & FZ) & NZ & NX & NY). fold s P X Y Z in NX, NY, NZ.
  assert (IS2 : / s <= 64) by (replace 64 with (/ / 64) by (rewrite Rinv_inv; reflexivity); apply Rinv_le_contravar; lra).
  assert (SU : s <= 1). { unfold s, up_sine. apply len_le; [lra|]. set (W := dir3 (f3 up)). assert (HW : dot3 W W = 1) by (apply dir3_unit; lra). fold P Z. replace (dot3 (cross3 W Z) (cross3 W Z)) with (dot3 W W * dot3 Z Z - dot3 W Z * dot3 W Z) by (unfold dot3, cross3; cbn [cX cY cZ]; ring). rewrite HW, HZ. assert (H := Rle_0_sqr (dot3 W Z)). unfold Rsqr in H. lra. }
  assert (IS : 1 <= / s) by (rewrite <- Rinv_1; apply Rinv_le_contravar; lra).
  assert (US : u <= u * / s) by (rewrite <- (Rmult_1_r u) at 1; apply Rmult_le_compat_l; lra).
  assert (US2 : u * / s <= / 16777216 * 64) by (apply Rmult_le_compat; lra).
  assert (K0 : k <= / 100) by (unfold k, Rdiv; lra).
  assert (NXk : near3 k (f3 (ux p t up)) X) by (apply (near_le _ k _ _ NX); unfold k, Rdiv; lra).
  assert (NZk : near3 k (f3 (uz p t)) Z) by (apply (near_le _ k _ _ NZ); unfold k, Rdiv; lra).
  assert (NYk : near3 k (f3 (uy p t up)) Y) by exact NY. clear NX NY NZ.
  set (x := ux p t up) in *. set (y := uy p t up) in *. set (z := uz p t) in *.
  assert (XB := near_101 _ _ _ HX NXk K0). assert (YB := near_101 _ _ _ HY NYk K0). assert (ZB := near_101 _ _ _ HZ NZk K0).
  destruct (dot_near x p FX Fp XB HP) as [FDX DX]. destruct (dot_near y p FY Fp YB HP) as [FDY DY]. destruct (dot_near z p FZ Fp ZB HP) as [FDZ DZ]. fold P in DX, DY, DZ.
  assert (NF : forall v : FT, finite v -> finite (fneg v)) by (intros v Fv; rewrite fneg_finite; exact Fv).
  assert (V1 := val_one (f := f)). assert (V0 := val_zero (f := f) false). destruct V1 as [F1 E1]. destruct V0 as [F0 E0].
  rewrite look_at_eq. fold x y z. set (T := init_from_orthogonal_basis p x y z).
  exists (fun i j => B2R (mget (tm T) i j)), (fun i j => B2R (mget (tminv T) i j)).
  assert (AA : affine (fun i j => B2R (mget (tm T) i j))) by (repeat split; first [exact E0|exact E1]).
  assert (AB : affine (fun i j => B2R (mget (tminv T) i j))) by (repeat split; first [exact E0|exact E1]).
  assert (VA : forall v, app_vec (fun i j => B2R (mget (tm T) i j)) v = coords (f3 x) (f3 y) (f3 z) v) by (intros v; reflexivity).
  assert (VB : forall v, app_vec (fun i j => B2R (mget (tminv T) i j)) v = combine (f3 x) (f3 y) (f3 z) v).
  { intros v. transitivity (mk3 (cX (f3 x) * cX v + cX (f3 y) * cY v + cX (f3 z) * cZ v) (cY (f3 x) * cX v + cY (f3 y) * cY v + cY (f3 z) * cZ v) (cZ (f3 x) * cX v + cZ (f3 y) * cY v + cZ (f3 z) * cZ v)); [reflexivity|].
    unfold combine, add3, scl3. generalize (f3 x) (f3 y) (f3 z). intros a b c. cbn [cX cY cZ]. f_equal; ring. }
  split; [|split; [|split; [exact AA|split; [exact AB|]]]].
  - intros i j. split; [|reflexivity]. revert i j. refine (fin4_case _ _ _ _ _); refine (fin4_case _ _ _ _ _); first [exact F0|exact F1|exact (FX _)|exact (FY _)|exact (FZ _)|exact (NF _ FDX)|exact (NF _ FDY)|exact (NF _ FDZ)].
  - intros i j. split; [|reflexivity]. revert i j. refine (fin4_case _ _ _ _ _); refine (fin4_case _ _ _ _ _); first [exact F0|exact F1|exact (FX _)|exact (FY _)|exact (FZ _)|exact (Fp _)].
  - assert (NA : forall v, near3 (k * size3 v) (app_vec (fun i j => B2R (mget (tm T) i j)) v) (coords X Y Z v)).
    { intros v. rewrite VA. split; [|split]; cbn [cX cY cZ coords]; apply dot_near3; assumption. }
    assert (NB : forall v, near3 (k * size3 v) (app_vec (fun i j => B2R (mget (tminv T) i j)) v) (combine X Y Z v)).
    { intros v. rewrite VB. destruct NXk as (X0 & X1 & X2). destruct NYk as (Y0 & Y1 & Y2). destruct NZk as (Z0 & Z1 & Z2).
      assert (L : forall a a' b b' c c', Rabs (a - a') <= k -> Rabs (b - b') <= k -> Rabs (c - c') <= k -> Rabs (cX v * a + (cY v * b + cZ v * c) - (cX v * a' + (cY v * b' + cZ v * c'))) <= k * size3 v).
      { intros a a' b b' c c' Ha Hb Hc. assert (Q := lin3 k a a' b b' c c' (cX v) (cY v) (cZ v) Ha Hb Hc). unfold size3. replace (cX v * a + (cY v * b + cZ v * c) - (cX v * a' + (cY v * b' + cZ v * c'))) with (a * cX v + b * cY v + c * cZ v - (a' * cX v + b' * cY v + c' * cZ v)) by ring. exact Q. }
      split; [|split]; unfold combine, add3, scl3; cbn [cX cY cZ]; apply L; assumption. }
    split; [exact NA|]. split; [exact NB|]. split.
    + intros q. rewrite (affine_pt _ _ AA), VA.
      assert (R : forall (w : vec FT 3) W d, near3 k (f3 w) W -> Rabs (d - dot3 (f3 w) P) <= 4 * u * size3 P + 2 * smallest_float f -> Rabs (dot3 (f3 w) q + - d - dot3 W (sub3 q P)) <= k * size3 (sub3 q P) + 4 * u * size3 P + 2 * smallest_float f).
      { intros w W d Nw Hd. assert (Q := dot_near3 k _ _ (sub3 q P) Nw). replace (dot3 (f3 w) q + - d - dot3 W (sub3 q P)) with ((dot3 (f3 w) (sub3 q P) - dot3 W (sub3 q P)) - (d - dot3 (f3 w) P)) by (unfold dot3, sub3; cbn [cX cY cZ]; ring).
        eapply Rle_trans; [apply Rabs_triang|]. rewrite Rabs_Ropp. lra. }
      split; [|split]; cbn [cX cY cZ coords add3].
      * replace (B2R (mget (tm T) i0 i3)) with (- B2R (dot x p)) by (symmetry; apply fneg_B2R). apply R; assumption.
      * replace (B2R (mget (tm T) i1 i3)) with (- B2R (dot y p)) by (symmetry; apply fneg_B2R). apply R; assumption.
      * replace (B2R (mget (tm T) i2 i3)) with (- B2R (dot z p)) by (symmetry; apply fneg_B2R). apply R; assumption.
    + intros v. rewrite (affine_pt _ _ AB). destruct (NB v) as (Q0 & Q1 & Q2). set (w := app_vec _ v) in *.
      change (mk3 (B2R (mget (tminv T) i0 i3)) (B2R (mget (tminv T) i1 i3)) (B2R (mget (tminv T) i2 i3))) with P.
      split; [|split]; unfold add3; cbn [cX cY cZ].
      * replace (cX w + cX P - (cX P + cX (combine X Y Z v))) with (cX w - cX (combine X Y Z v)) by ring. exact Q0.
      * replace (cY w + cY P - (cY P + cY (combine X Y Z v))) with (cY w - cY (combine X Y Z v)) by ring. exact Q1.
      * replace (cZ w + cZ P - (cZ P + cZ (combine X Y Z v))) with (cZ w - cZ (combine X Y Z v)) by ring. exact Q2.
Qed.
End L.
Lemma look_camera {f : fmt} {m : libm f} (p t up : vec (float f) 3) : fall finite p -> fall finite t -> fall finite up ->
  bpow radix2 (-30) <= len3 (f3 up) <= bpow radix2 50 -> bpow radix2 (-30) <= len3 (sub3 (f3 p) (f3 t)) <= bpow radix2 50 -> len3 (f3 p) <= bpow radix2 100 ->
  / 64 <= up_sine (f3 p) (f3 t) (f3 up) ->
  near_camera (look_at p t up) (f3 p) (right_axis (f3 p) (f3 t) (f3 up)) (up_axis (f3 p) (f3 t) (f3 up)) (back_axis (f3 p) (f3 t))
    (262 * unit_roundoff f / up_sine (f3 p) (f3 t) (f3 up)) (4 * unit_roundoff f * size3 (f3 p) + 2 * smallest_float f).
Proof.
  intros H1 H2 H3 H4 H5 H6 H7. destruct (look_float p t up H1 H2 H3 H4 H5 H6 H7) as (_ & A & B & HA & HB & AA & AB & V1 & V2 & V3 & V4).
  exists A, B. repeat (split; [assumption|]). split; [|exact V4]. intros q. rewrite <- Rplus_assoc. exact (V3 q).
Qed.
