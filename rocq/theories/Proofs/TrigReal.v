(** Where sine stays between its values at the ends of a real interval. *)
From Coq Require Import ZArith Reals Lra Lia.
From Flocq Require Import Core.
Open Scope R_scope.

Lemma sin_2kpi t k : sin (t + 2 * IZR k * PI) = sin t.
Proof.
  destruct (Z_le_dec 0 k) as [H|H].
  - rewrite <- (Z2Nat.id k H), <- INR_IZR_INZ. apply sin_period.
  - rewrite <- (sin_period (t + 2 * IZR k * PI) (Z.to_nat (- k))). rewrite INR_IZR_INZ, Z2Nat.id, opp_IZR by lia. f_equal. ring.
Qed.
Lemma cos_2kpi t k : cos (t + 2 * IZR k * PI) = cos t.
Proof.
  destruct (Z_le_dec 0 k) as [H|H].
  - rewrite <- (Z2Nat.id k H), <- INR_IZR_INZ. apply cos_period.
  - rewrite <- (cos_period (t + 2 * IZR k * PI) (Z.to_nat (- k))). rewrite INR_IZR_INZ, Z2Nat.id, opp_IZR by lia. f_equal. ring.
Qed.
(** any angle, moved to a given full turn *)
Lemma turn t c : exists k, c <= t + 2 * IZR k * PI < c + 2 * PI.
Proof.
  assert (P := PI_RGT_0). exists (- Zfloor ((t - c) / (2 * PI)))%Z. rewrite opp_IZR.
  assert (L := Zfloor_lb ((t - c) / (2 * PI))). assert (U := Zfloor_ub ((t - c) / (2 * PI))). set (n := IZR (Zfloor _)) in *.
  assert (E : (t - c) / (2 * PI) * (2 * PI) = t - c) by (field; lra). apply Rmult_le_compat_r with (r := 2 * PI) in L; [|lra]. apply Rmult_lt_compat_r with (r := 2 * PI) in U; [|lra]. rewrite E in L, U. lra.
Qed.

(** decreasing on [PI/2, 3PI/2], increasing on [3PI/2, 5PI/2] *)
Lemma sin_dec a b : PI / 2 <= a -> a <= b -> b <= 3 * (PI / 2) -> sin b <= sin a.
Proof.
  intros A B C. destruct (Req_dec a b) as [->|N]; [lra|]. left. apply sin_decreasing_1; lra.
Qed.
Lemma sin_inc a b : 3 * (PI / 2) <= a -> a <= b -> b <= 5 * (PI / 2) -> sin a <= sin b.
Proof.
  intros A B C. destruct (Req_dec a b) as [->|N]; [lra|]. left.
  rewrite <- (sin_2kpi a (-1)), <- (sin_2kpi b (-1)). apply sin_increasing_1; lra.
Qed.
Lemma cos_neg_mid t : PI / 2 < t < 3 * (PI / 2) -> cos t < 0.
Proof. intros H. apply cos_lt_0; lra. Qed.

Lemma wave_up0 p q x : PI / 2 <= p <= 3 * (PI / 2) -> 0 <= cos q -> p <= x <= q -> q - p < 2 * PI -> sin x <= Rmax (sin p) (sin q).
Proof.
  intros HP HQ HX W. assert (P := PI_RGT_0).
  destruct (Rle_dec q (3 * (PI / 2))) as [Q|Q].
  - eapply Rle_trans; [apply (sin_dec p x); lra|apply Rmax_l].
  - destruct (Rle_dec x (3 * (PI / 2))) as [X|X]; [eapply Rle_trans; [apply (sin_dec p x); lra|apply Rmax_l]|].
    assert (q <= 5 * (PI / 2)). { destruct (Rle_dec q (5 * (PI / 2))); [assumption|]. exfalso. assert (cos q < 0); [|lra]. rewrite <- (cos_2kpi q (-1)). apply cos_neg_mid; lra. }
    eapply Rle_trans; [apply (sin_inc x q); lra|apply Rmax_r].
Qed.
Lemma wave_up p q x : cos p <= 0 -> 0 <= cos q -> p <= x <= q -> q - p < 2 * PI -> sin x <= Rmax (sin p) (sin q).
Proof.
  intros HP HQ HX W. assert (P := PI_RGT_0). destruct (turn p (PI / 2)) as [k K].
  rewrite <- (sin_2kpi x k), <- (sin_2kpi p k), <- (sin_2kpi q k). rewrite <- (cos_2kpi p k) in HP. rewrite <- (cos_2kpi q k) in HQ.
  apply wave_up0; try lra. split; [lra|]. destruct (Rle_dec (p + 2 * IZR k * PI) (3 * (PI / 2))); [assumption|]. exfalso.
  rewrite <- (cos_2kpi _ (-1)) in HP. assert (0 < cos (p + 2 * IZR k * PI + 2 * -1 * PI)); [apply cos_gt_0; lra|lra].
Qed.
Lemma neg_shift x : sin (x + PI) = - sin x /\ cos (x + PI) = - cos x.
Proof. split; [apply neg_sin|apply neg_cos]. Qed.
Lemma wave_down p q x : 0 <= cos p -> cos q <= 0 -> p <= x <= q -> q - p < 2 * PI -> Rmin (sin p) (sin q) <= sin x.
Proof.
  intros HP HQ HX W. assert (U := wave_up (p + PI) (q + PI) (x + PI)). rewrite !(proj1 (neg_shift _)), !(proj2 (neg_shift _)) in U.
  assert (K : - sin x <= Rmax (- sin p) (- sin q)) by (apply U; lra). unfold Rmax, Rmin in *. destruct (Rle_dec (- sin p) (- sin q)), (Rle_dec (sin p) (sin q)); lra.
Qed.
(** short intervals *)
Lemma cos_inside p q u : p <= u <= q -> q - p < PI -> 0 < cos p -> 0 < cos q -> 0 < cos u.
Proof.
  intros U W A B. assert (P := PI_RGT_0).
  assert (I : sin (q - p) * cos u = cos p * sin (q - u) + cos q * sin (u - p)).
  { rewrite !sin_minus. assert (T := sin2_cos2 u). ring. }
  destruct (Req_dec p q) as [->|N]; [replace u with q by lra; assumption|].
  assert (S : 0 < sin (q - p)) by (apply sin_gt_0; lra). assert (S1 : 0 <= sin (q - u)) by (apply sin_ge_0; lra). assert (S2 : 0 <= sin (u - p)) by (apply sin_ge_0; lra).
  assert (K : 0 <= cos p * sin (q - u)) by (apply Rmult_le_pos; lra). assert (K2 : 0 <= cos q * sin (u - p)) by (apply Rmult_le_pos; lra).
  destruct (Req_dec u q) as [->|N2]; [assumption|]. assert (S1' : 0 < sin (q - u)) by (apply sin_gt_0; lra).
  assert (0 < cos p * sin (q - u)) by (apply Rmult_lt_0_compat; assumption).
  apply Rmult_lt_reg_l with (sin (q - p)); [exact S|]. lra.
Qed.
Lemma sin_diff a b : sin b - sin a = 2 * (cos ((a + b) / 2) * sin ((b - a) / 2)).
Proof. rewrite form4. replace ((b + a) / 2) with ((a + b) / 2) by field. ring. Qed.
Lemma mono_pos p q x : p <= x <= q -> q - p < PI -> 0 < cos p -> 0 < cos q -> sin p <= sin x <= sin q.
Proof.
  intros X W A B. assert (P := PI_RGT_0).
  assert (forall a b, p <= a -> a <= b -> b <= q -> sin a <= sin b).
  { intros a b HA HB HC. assert (D := sin_diff a b). assert (0 < cos ((a + b) / 2)) by (apply (cos_inside p q); lra). assert (0 <= sin ((b - a) / 2)) by (apply sin_ge_0; lra).
    assert (0 <= cos ((a + b) / 2) * sin ((b - a) / 2)) by (apply Rmult_le_pos; lra). lra. }
  split; apply H; lra.
Qed.
Lemma Rmin_max_of a b x : a <= x <= b \/ b <= x <= a -> Rmin a b <= x <= Rmax a b.
Proof. intros H. unfold Rmin, Rmax. destruct (Rle_dec a b); lra. Qed.
Lemma cos0 p : cos p = 0 -> sin p = 1 \/ sin p = -1.
Proof. intros H. assert (T := sin2_cos2 p). rewrite H in T. unfold Rsqr in T. assert ((sin p - 1) * (sin p + 1) = 0) by lra. apply Rmult_integral in H0. lra. Qed.
Lemma mono_same p q x : p <= x <= q -> q - p <= PI -> (0 < cos p /\ 0 < cos q \/ cos p < 0 /\ cos q < 0 \/ cos p = 0 /\ cos q = 0) ->
  Rmin (sin p) (sin q) <= sin x <= Rmax (sin p) (sin q).
Proof.
  intros X W S. assert (P := PI_RGT_0).
  destruct (Req_dec (q - p) PI) as [E|N].
  - assert (C : cos q = - cos p /\ sin q = - sin p) by (replace q with (p + PI) by lra; destruct (neg_shift p); auto). destruct C as [C1 C2].
    assert (cos p = 0) by lra. assert (B := SIN_bound x). apply Rmin_max_of. destruct (cos0 p H); lra.
  - destruct S as [[A B]|[[A B]|[A B]]].
    + apply Rmin_max_of. left. apply mono_pos; lra.
    + assert (M := mono_pos (p + PI) (q + PI) (x + PI)). rewrite !(proj1 (neg_shift _)), !(proj2 (neg_shift _)) in M. apply Rmin_max_of. right. specialize (M ltac:(lra) ltac:(lra) ltac:(lra) ltac:(lra)). lra.
    + assert (K : sin (q - p) = 0) by (rewrite sin_minus, A, B; ring). assert (p = q). { destruct (Req_dec p q); [assumption|]. assert (0 < sin (q - p)) by (apply sin_gt_0; lra). lra. }
      subst q. replace x with p by lra. apply Rmin_max_of. lra.
Qed.
(** a lower end exactly on an extremum *)
Lemma wave_down0 p q x : cos p = 0 -> 0 < cos q -> p <= x <= q -> q - p <= PI -> Rmin (sin p) (sin q) <= sin x.
Proof.
  intros A B X W. assert (S := SIN_bound x). destruct (cos0 p A) as [E|E].
  - exfalso. assert (cos q = - sin (q - p)) by (rewrite sin_minus, A, E; ring). assert (0 <= sin (q - p)) by (apply sin_ge_0; lra). lra.
  - rewrite E. eapply Rle_trans; [apply Rmin_l|lra].
Qed.

(** the same for cosine, whose derivative is - sin *)
Lemma cos_as_sin t : cos t = sin (t + PI / 2) /\ - sin t = cos (t + PI / 2).
Proof. rewrite sin_plus, cos_plus, sin_PI2, cos_PI2. split; ring. Qed.
