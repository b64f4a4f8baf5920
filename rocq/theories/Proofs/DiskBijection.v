(** The disk sampling maps are one-to-one and onto. *)
From Coq Require Import ZArith Reals Bool List Lra Lia.
From Coq Require Vector Fin.
From Verif.Model Require Import FloatBase Scalar XReal Vec Camera.
From Verif Require Import Spec SpecGeom SpecCamera.
From Verif.Proofs Require Import XRealLemmas CameraProofs.
Open Scope R_scope.

Lemma sq_eq a b : a * a = b * b -> 0 <= a * b -> a = b.
Proof. intros H K. assert ((a - b) * (a + b) = 0) by lra. apply Rmult_integral in H0 as [|E]; [lra|]. assert (a = - b) by lra. subst a. assert (b * b = 0) by nra. assert (b = 0) by (apply Rmult_integral in H0; lra). lra. Qed.
Lemma Rabs_eq_0 a : Rabs a = 0 -> a = 0.
Proof. intros H. destruct (Req_dec a 0) as [|N]; [assumption|]. apply Rabs_no_R0 in N. contradiction. Qed.
(** angles within 45 degrees of an axis *)
Lemma wedge phi : - (PI / 4) <= phi <= PI / 4 -> 0 < cos phi /\ Rabs (sin phi) <= cos phi.
Proof.
  intros H. assert (P := PI_RGT_0). assert (C : 0 < cos phi) by (apply cos_gt_0; lra). split; [exact C|].
  assert (A : cos (2 * phi) >= 0). { destruct (Req_dec (2 * phi) (PI/2)) as [->|N1]; [rewrite cos_PI2; lra|]. destruct (Req_dec (2 * phi) (-(PI/2))) as [->|N2]; [rewrite cos_neg, cos_PI2; lra|]. apply Rle_ge, Rlt_le, cos_gt_0; lra. }
  rewrite cos_2a in A. apply Rsqr_le_abs_0 in C || idtac. apply Rsqr_incr_0_var; [|lra]. rewrite <- Rsqr_abs. unfold Rsqr; lra.
Qed.
Lemma wedge_lt phi : - (PI / 4) < phi < PI / 4 -> 0 < cos phi /\ Rabs (sin phi) < cos phi.
Proof.
  intros H. assert (P := PI_RGT_0). assert (C : 0 < cos phi) by (apply cos_gt_0; lra). split; [exact C|].
  assert (A : cos (2 * phi) > 0) by (apply cos_gt_0; lra).
  rewrite cos_2a in A. apply Rsqr_incrst_0; [|apply Rabs_pos|lra]. rewrite <- Rsqr_abs. unfold Rsqr; lra.
Qed.
Lemma sin_inj_wedge p q : - (PI / 4) <= p <= PI / 4 -> - (PI / 4) <= q <= PI / 4 -> sin p = sin q -> p = q.
Proof. intros A B E. assert (P := PI_RGT_0). rewrite <- (asin_sin p), <- (asin_sin q) by lra. now rewrite E. Qed.

(** the map in terms of a = 1 - 2x, b = 1 - 2y *)
Definition horiz (a b : R) := Rabs b < Rabs a.
Lemma ratio_le a b : a <> 0 -> Rabs b <= Rabs a -> - (PI / 4) <= PI / 4 * (b / a) <= PI / 4.
Proof.
  intros N H. assert (P := PI_RGT_0). assert (Q : Rabs (b / a) <= 1).
  { unfold Rdiv. rewrite Rabs_mult, Rabs_inv. assert (0 < Rabs a) by (apply Rabs_pos_lt; exact N). apply Rmult_le_reg_r with (Rabs a); [assumption|]. rewrite Rmult_assoc, Rinv_l by lra. lra. }
  assert (- 1 <= b / a <= 1) by (split; [|eapply Rle_trans; [apply Rle_abs|exact Q]]; apply Rabs_def2_le in Q || (unfold Rabs in Q; destruct (Rcase_abs (b / a)); lra)). nra.
Qed.
Lemma ratio_lt a b : Rabs b < Rabs a -> a <> 0 /\ - (PI / 4) < PI / 4 * (b / a) < PI / 4.
Proof.
  intros H. assert (N : a <> 0) by (intros ->; rewrite Rabs_R0 in H; assert (Q := Rabs_pos b); lra). split; [exact N|]. assert (P := PI_RGT_0). assert (Q : Rabs (b / a) < 1).
  { unfold Rdiv. rewrite Rabs_mult, Rabs_inv. assert (0 < Rabs a) by (apply Rabs_pos_lt; exact N). apply Rmult_lt_reg_r with (Rabs a); [assumption|]. rewrite Rmult_assoc, Rinv_l by lra. lra. }
  assert (- 1 < b / a < 1) by (unfold Rabs in Q; destruct (Rcase_abs (b / a)); lra). nra.
Qed.

Definition qX (a b : R) := if Rlt_dec (Rabs b) (Rabs a) then a * cos (PI / 4 * (b / a)) else b * sin (PI / 4 * (a / b)).
Definition qY (a b : R) := if Rlt_dec (Rabs b) (Rabs a) then a * sin (PI / 4 * (b / a)) else b * cos (PI / 4 * (a / b)).
Lemma c_q x y : cX2 x y = qX (1 - 2 * x) (1 - 2 * y) /\ cY2 x y = qY (1 - 2 * x) (1 - 2 * y).
Proof.
  unfold cX2, cY2, cpair, qX, qY. cbv zeta. set (a := 1 - 2 * x). set (b := 1 - 2 * y). destruct (Rlt_dec _ _); cbn [fst snd].
  - replace (PI / 4 * b / a) with (PI / 4 * (b / a)) by (unfold Rdiv; ring). auto.
  - replace (PI / 2 - a / b * (PI / 4)) with (PI / 2 - PI / 4 * (a / b)) by ring. rewrite cos_shift, sin_shift. auto.
Qed.
Lemma abs_pos_mul a c : 0 < c -> Rabs (a * c) = Rabs a * c. Proof. intros. rewrite Rabs_mult, (Rabs_pos_eq c); lra. Qed.
(** the half of the disk tells the half of the square *)
Lemma q_side a b : Rabs b < Rabs a <-> Rabs (qY a b) < Rabs (qX a b).
Proof.
  unfold qX, qY. destruct (Rlt_dec (Rabs b) (Rabs a)) as [L|L].
  - split; [intros _|intros _; exact L]. destruct (ratio_lt _ _ L) as [N R]. destruct (wedge_lt _ R) as [C S]. rewrite !Rabs_mult. rewrite (Rabs_pos_eq (cos _)) by lra. apply Rmult_lt_compat_l; [apply Rabs_pos_lt; exact N|exact S].
  - split; [contradiction|]. intros K. exfalso. destruct (Req_dec b 0) as [->|N]; [rewrite !Rmult_0_l in K; lra|].
    destruct (wedge _ (ratio_le b a N ltac:(lra))) as [C S]. rewrite !Rabs_mult in K. rewrite (Rabs_pos_eq (cos _)) in K by lra. assert (0 < Rabs b) by (apply Rabs_pos_lt; exact N). apply Rmult_lt_reg_l in K; lra.
Qed.
Lemma inj_half a b a' b' : a <> 0 -> a' <> 0 -> Rabs b <= Rabs a -> Rabs b' <= Rabs a' ->
  a * cos (PI / 4 * (b / a)) = a' * cos (PI / 4 * (b' / a')) -> a * sin (PI / 4 * (b / a)) = a' * sin (PI / 4 * (b' / a')) -> a = a' /\ b = b'.
Proof.
  intros N N' L L' EC ES. assert (R := ratio_le _ _ N L). assert (R' := ratio_le _ _ N' L'). destruct (wedge _ R) as [C _], (wedge _ R') as [C' _].
  assert (A : a = a').
  { apply sq_eq.
    - rewrite <- (pol2 a (PI / 4 * (b / a))), <- (pol2 a' (PI / 4 * (b' / a'))), EC, ES. reflexivity.
    - set (c := cos (PI / 4 * (b / a))) in *. set (c' := cos (PI / 4 * (b' / a'))) in *. assert (0 <= (a * c) * (a * c)) by apply Rle_0_sqr. rewrite EC in H at 2.
      assert (0 < c * c') by (apply Rmult_lt_0_compat; assumption). apply Rmult_le_reg_r with (c * c'); [assumption|]. lra. }
  split; [exact A|]. subst a'. apply Rmult_eq_reg_l in ES; [|exact N]. apply sin_inj_wedge in ES; try assumption.
  assert (P := PI_RGT_0). assert (b / a = b' / a) by (apply Rmult_eq_reg_l with (PI / 4); lra). apply Rmult_eq_reg_r with (/ a); [exact H|apply Rinv_neq_0_compat, N].
Qed.
Lemma q_inj a b a' b' : qX a b = qX a' b' -> qY a b = qY a' b' -> a = a' /\ b = b'.
Proof.
  intros EX EY. assert (S := q_side a b). assert (S' := q_side a' b'). rewrite EX, EY in S. unfold qX, qY in EX, EY.
  destruct (Rlt_dec (Rabs b) (Rabs a)) as [L|L], (Rlt_dec (Rabs b') (Rabs a')) as [L'|L']; try tauto.
  - destruct (ratio_lt _ _ L), (ratio_lt _ _ L'). apply inj_half; try assumption; lra.
  - destruct (Req_dec b 0) as [->|N].
    + rewrite Rabs_R0 in L. assert (a = 0) by (apply Rabs_eq_0; assert (Q := Rabs_pos a); lra). subst a. rewrite Rmult_0_l in EX, EY.
      destruct (Req_dec b' 0) as [->|N']; [rewrite Rabs_R0 in L'; assert (a' = 0) by (apply Rabs_eq_0; assert (Q := Rabs_pos a'); lra); subst; auto|].
      exfalso. destruct (wedge _ (ratio_le b' a' N' ltac:(lra))) as [C _]. symmetry in EY. apply Rmult_integral in EY. lra.
    + destruct (Req_dec b' 0) as [->|N'].
      * exfalso. rewrite Rmult_0_l in EY. destruct (wedge _ (ratio_le b a N ltac:(lra))) as [C _]. apply Rmult_integral in EY. lra.
      * destruct (inj_half b a b' a' N N') as [-> ->]; try lra; auto.
Qed.

Lemma half_onto X Y : Rabs Y <= Rabs X -> X <> 0 ->
  exists a b, a <> 0 /\ Rabs b <= Rabs a /\ (Rabs Y < Rabs X -> Rabs b < Rabs a) /\ a * a = X * X + Y * Y /\ a * cos (PI / 4 * (b / a)) = X /\ a * sin (PI / 4 * (b / a)) = Y.
Proof.
  intros L N. assert (P := PI_RGT_0). set (s := Y / X). set (a := X * sqrt (1 + s * s)). set (b := a * (4 / PI * atan s)).
  assert (0 <= s * s) by apply Rle_0_sqr. assert (Q : 0 < sqrt (1 + s * s)) by (apply sqrt_lt_R0; lra). assert (QQ := sqrt_sqrt (1 + s * s) ltac:(lra)).
  assert (NA : a <> 0) by (unfold a; apply Rmult_integral_contrapositive; split; [exact N|lra]).
  assert (R : b / a = 4 / PI * atan s) by (unfold b; field; split; [lra|exact NA]).
  assert (AB : Rabs b = Rabs a * (4 / PI * Rabs (atan s))). { unfold b. rewrite !Rabs_mult. f_equal. f_equal. apply Rabs_pos_eq. apply Rlt_le, Rdiv_lt_0_compat; lra. }
  assert (PA : 0 < Rabs a) by (apply Rabs_pos_lt; exact NA). assert (PX : 0 < Rabs X) by (apply Rabs_pos_lt; exact N).
  assert (Sabs : Rabs s * Rabs X = Rabs Y). { rewrite <- Rabs_mult. f_equal. unfold s. field. exact N. }
  assert (AT : (Rabs s <= 1 -> Rabs (atan s) <= PI / 4) /\ (Rabs s < 1 -> Rabs (atan s) < PI / 4)).
  { assert (M : forall u, Rabs u < 1 -> Rabs (atan u) < PI / 4).
    { intros u U. rewrite <- atan_1. apply Rabs_def2 in U as [U1 U2]. apply Rabs_def1; [apply atan_increasing; exact U1|rewrite <- atan_opp; apply atan_increasing; lra]. }
    split; [|apply M]. intros [U|U]; [left; apply M; exact U|]. right. rewrite <- atan_1. unfold Rabs in U. destruct (Rcase_abs s); [replace s with (Ropp 1) by lra; rewrite atan_opp, Rabs_Ropp|rewrite U]; apply Rabs_pos_eq; rewrite atan_1; lra. }
  destruct AT as [AT1 AT2].
  assert (K : 4 / PI * (PI / 4) = 1) by (field; lra). assert (PK : 0 < 4 / PI) by (apply Rdiv_lt_0_compat; lra).
  exists a, b. split; [exact NA|]. split; [|split; [|split; [|split]]].
  - rewrite AB. assert (S1 : Rabs s <= 1) by (apply Rmult_le_reg_r with (Rabs X); lra). specialize (AT1 S1). rewrite <- (Rmult_1_r (Rabs a)) at 2. apply Rmult_le_compat_l; [lra|]. rewrite <- K. apply Rmult_le_compat_l; lra.
  - intros LT. rewrite AB. assert (S1 : Rabs s < 1) by (apply Rmult_lt_reg_r with (Rabs X); lra). specialize (AT2 S1). rewrite <- (Rmult_1_r (Rabs a)) at 2. apply Rmult_lt_compat_l; [lra|]. rewrite <- K. apply Rmult_lt_compat_l; lra.
  - unfold a. transitivity (X * X * (sqrt (1 + s * s) * sqrt (1 + s * s))); [ring|]. rewrite QQ. unfold s. field. exact N.
  - rewrite R. replace (PI / 4 * (4 / PI * atan s)) with (atan s) by (field; lra). rewrite cos_atan. unfold a, Rsqr. field. lra.
  - rewrite R. replace (PI / 4 * (4 / PI * atan s)) with (atan s) by (field; lra). rewrite sin_atan. unfold a, Rsqr. transitivity (X * s); [field; lra|unfold s; field; exact N].
Qed.
Lemma q_onto X Y : X * X + Y * Y <= 1 -> exists a b, -1 <= a <= 1 /\ -1 <= b <= 1 /\ qX a b = X /\ qY a b = Y.
Proof.
  intros H. assert (IN : forall a b, a * a = X * X + Y * Y -> Rabs b <= Rabs a -> -1 <= a <= 1 /\ -1 <= b <= 1).
  { intros a b A B. assert (a * a <= 1) by lra. assert (Rabs a <= 1). { apply Rsqr_incr_0_var; [|lra]. rewrite <- Rsqr_abs. unfold Rsqr. lra. }
    split; unfold Rabs in *; destruct (Rcase_abs a), (Rcase_abs b); lra. }
  destruct (Rlt_dec (Rabs Y) (Rabs X)) as [L|L].
  - assert (N : X <> 0) by (intros ->; rewrite Rabs_R0 in L; assert (Q := Rabs_pos Y); lra).
    destruct (half_onto X Y ltac:(lra) N) as (a & b & NA & AB & LT & SQ & EX & EY). exists a, b. destruct (IN a b SQ AB) as [I1 I2]. specialize (LT L).
    unfold qX, qY. destruct (Rlt_dec _ _); [auto|contradiction].
  - destruct (Req_dec Y 0) as [->|N].
    + rewrite Rabs_R0 in L. assert (X = 0) by (apply Rabs_eq_0; assert (Q := Rabs_pos X); lra). subst X. exists 0, 0. unfold qX, qY. destruct (Rlt_dec _ _); [lra|]. lra.
    + destruct (half_onto Y X ltac:(lra) N) as (a & b & NA & AB & LT & SQ & EX & EY). exists b, a. destruct (IN a b ltac:(lra) AB) as [I1 I2].
      unfold qX, qY. destruct (Rlt_dec _ _); [lra|auto].
Qed.
Lemma conc_onto X Y : X * X + Y * Y <= 1 -> exists x y, 0 <= x <= 1 /\ 0 <= y <= 1 /\ cX2 x y = X /\ cY2 x y = Y.
Proof.
  intros H. destruct (q_onto X Y H) as (a & b & A & B & EX & EY). exists ((1 - a) / 2), ((1 - b) / 2). destruct (c_q ((1 - a) / 2) ((1 - b) / 2)) as [C1 C2].
  replace (1 - 2 * ((1 - a) / 2)) with a in * by field. replace (1 - 2 * ((1 - b) / 2)) with b in * by field. repeat split; try lra; congruence.
Qed.
Lemma conc_inj x y x' y' : cX2 x y = cX2 x' y' -> cY2 x y = cY2 x' y' -> x = x' /\ y = y'.
Proof.
  intros EX EY. destruct (c_q x y) as [A B], (c_q x' y') as [A' B']. destruct (q_inj (1 - 2 * x) (1 - 2 * y) (1 - 2 * x') (1 - 2 * y')) as [U V]; [congruence..|]. lra.
Qed.

(** uniform_sample_disk *)
Lemma two_angle a b : 0 <= a < 2 * PI -> 0 <= b < 2 * PI -> cos a = cos b -> sin a = sin b -> a = b.
Proof.
  intros A B C S. assert (P := PI_RGT_0).
  assert (K : cos (a - b) = 1). { rewrite cos_minus, C, S. assert (X := sin2_cos2 b). unfold Rsqr in X. lra. }
  assert (K2 : sin ((a - b) / 2) = 0). { replace (a - b) with (2 * ((a - b) / 2)) in K by field. rewrite cos_2a_sin in K. assert (sin ((a - b) / 2) * sin ((a - b) / 2) = 0) by lra. apply Rmult_integral in H. tauto. }
  set (h := (a - b) / 2) in *. assert (H : - PI < h < PI) by (unfold h; lra).
  destruct (Rtotal_order h 0) as [L|[L|L]]; [|unfold h in L; lra|].
  - assert (0 < sin (- h)) by (apply sin_gt_0; lra). rewrite sin_neg in H0. lra.
  - assert (0 < sin h) by (apply sin_gt_0; lra). lra.
Qed.
Lemma uni_inj x y x' y' : 0 <= x < 1 -> 0 < y -> 0 <= x' < 1 -> 0 < y' -> uX x y = uX x' y' -> uY x y = uY x' y' -> x = x' /\ y = y'.
Proof.
  intros X Y X' Y' EX EY. assert (P := PI_RGT_0). assert (E : y = y') by (rewrite <- (uni_radius x y), <- (uni_radius x' y'), EX, EY by lra; reflexivity). subst y'. split; [|reflexivity].
  assert (S : 0 < sqrt y) by (apply sqrt_lt_R0; exact Y). unfold uX, uY in *. apply Rmult_eq_reg_l in EX, EY; try lra.
  assert (2 * PI * x = 2 * PI * x') by (apply two_angle; try assumption; split; try nra). apply Rmult_eq_reg_l in H; [exact H|lra].
Qed.
Lemma polar X Y : X * X + Y * Y = 1 -> exists t, 0 <= t < 2 * PI /\ cos t = X /\ sin t = Y.
Proof.
  intros H. assert (P := PI_RGT_0). assert (RX : -1 <= X <= 1) by (split; nra). assert (B := acos_bound X). assert (C := cos_acos X RX). assert (S := sin_acos X RX).
  assert (SY : sqrt (1 - X²) = Rabs Y). { replace (1 - X²) with (Y²) by (unfold Rsqr; lra). apply sqrt_Rsqr_abs. } rewrite SY in S.
  destruct (Rle_dec 0 Y) as [L|L].
  - exists (acos X). rewrite Rabs_pos_eq in S by exact L. repeat split; try assumption; lra.
  - rewrite Rabs_left in S by lra. exists (2 * PI - acos X). assert (0 < acos X). { destruct (Req_dec (acos X) 0) as [E|E]; [rewrite E, sin_0 in S; lra|lra]. }
    split; [lra|]. replace (2 * PI - acos X) with (- acos X + 2 * INR 1 * PI) by (cbn; ring). rewrite cos_period, sin_period, cos_neg, sin_neg. split; lra.
Qed.
Lemma uni_onto X Y : 0 < X * X + Y * Y <= 1 -> exists x y, 0 <= x < 1 /\ 0 < y <= 1 /\ uX x y = X /\ uY x y = Y.
Proof.
  intros H. set (y := X * X + Y * Y) in *. assert (S : 0 < sqrt y) by (apply sqrt_lt_R0; lra). assert (SS := sqrt_sqrt y ltac:(lra)). assert (P := PI_RGT_0).
  destruct (polar (X / sqrt y) (Y / sqrt y)) as (t & T & C & D). { transitivity ((X * X + Y * Y) / (sqrt y * sqrt y)); [field; lra|]. rewrite SS. fold y. field. lra. }
  exists (t / (2 * PI)), y. unfold uX, uY. replace (2 * PI * (t / (2 * PI))) with t by (field; lra). rewrite C, D. repeat split; try lra; try (field; lra).
  - apply Rmult_le_reg_r with (2 * PI); [lra|]. unfold Rdiv. rewrite Rmult_assoc, Rinv_l by lra. lra.
  - apply Rmult_lt_reg_r with (2 * PI); [lra|]. unfold Rdiv. rewrite Rmult_assoc, Rinv_l by lra. lra.
Qed.

(** the program maps *)
Lemma is2_inj v a b c d : is2 v a b -> is2 v c d -> a = c /\ b = d.
Proof. intros [A B] [C D]. split; eapply isR_inj; eassumption. Qed.
Lemma concentric_bijective X Y : X * X + Y * Y <= 1 -> exists x y, 0 <= x <= 1 /\ 0 <= y <= 1 /\
  (forall p, is2 p x y -> is2 (concentric_sample_disk p) X Y) /\
  (forall p' x' y', is2 p' x' y' -> is2 (concentric_sample_disk p') X Y -> x' = x /\ y' = y).
Proof.
  intros H. destruct (conc_onto X Y H) as (x & y & A & B & <- & <-). exists x, y. split; [exact A|split; [exact B|split]]; [intros; apply conc_value; assumption|].
  intros p' x' y' I J. destruct (is2_inj _ _ _ _ _ (conc_value _ _ _ I) J). apply conc_inj; assumption.
Qed.
Lemma uniform_bijective X Y : 0 < X * X + Y * Y <= 1 -> exists x y, 0 <= x < 1 /\ 0 < y <= 1 /\
  (forall p, is2 p x y -> is2 (uniform_sample_disk p) X Y) /\
  (forall p' x' y', is2 p' x' y' -> 0 <= x' < 1 -> 0 < y' <= 1 -> is2 (uniform_sample_disk p') X Y -> x' = x /\ y' = y).
Proof.
  intros H. destruct (uni_onto X Y H) as (x & y & A & B & <- & <-). exists x, y. split; [exact A|split; [exact B|split]]; [intros; apply uni_value; [assumption|lra]|].
  intros p' x' y' I X1 Y1 J. destruct (is2_inj _ _ _ _ _ (uni_value _ _ _ I ltac:(lra)) J). apply uni_inj; try assumption; lra.
Qed.
Lemma uniform_map : exists F G : R -> R -> R,
  (forall p x y, is2 p x y -> 0 <= y -> is2 (uniform_sample_disk p) (F x y) (G x y)) /\
  (forall x y, 0 <= x <= 1 -> 0 <= y <= 1 -> F x y * F x y + G x y * G x y <= 1) /\
  (forall x y, 0 <= y -> F x y * F x y + G x y * G x y = y) /\
  (forall x y, 0 < y -> jacobian F G x y (- PI)).
Proof.
  exists uX, uY. split; [exact uni_value|]. split; [intros x y _ Y; rewrite uni_radius by lra; lra|]. split; [exact uni_radius|exact uni_jacobian].
Qed.
Lemma concentric_map : exists F G : R -> R -> R,
  (forall p x y, is2 p x y -> is2 (concentric_sample_disk p) (F x y) (G x y)) /\
  (forall x y, 0 <= x <= 1 -> 0 <= y <= 1 -> F x y * F x y + G x y * G x y <= 1) /\
  (forall x y, sqrt (F x y * F x y + G x y * G x y) = Rmax (Rabs (1 - 2 * x)) (Rabs (1 - 2 * y))) /\
  (forall x y, Rabs (1 - 2 * x) <> Rabs (1 - 2 * y) -> jacobian F G x y PI).
Proof.
  exists cX2, cY2. split; [exact conc_value|]. split; [exact conc_disk|]. split; [|exact conc_jacobian].
  intros x y. rewrite conc_radius. apply sqrt_square. eapply Rle_trans; [apply Rabs_pos|apply Rmax_l].
Qed.
