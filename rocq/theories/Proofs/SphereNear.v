(** Float ray-sphere hits lie near the sphere. *)
From Coq Require Import ZArith Reals Bool Lra Lia.
From Coq Require Vector Fin.
From Flocq Require Import Core BinarySingleNaN Relative Mult_error.
From Verif.Model Require Import FloatBase Scalar Float Interval Outcome Vec Transform XReal Geometry.
From Verif Require Import Spec SpecGeom SpecShape SpecError SpecLens SpecQuad.
From Verif.Proofs Require Import BitsLemmas FloatLemmas ScalarProofs XRealLemmas SlabFloat SphereFloat MapErr VectorFloat VectorErr CameraFloat QuadFloat SphereErr.
Open Scope R_scope.

(** ** Real estimates *)
Lemma fin_a u h a t k r : 0 <= u <= / 1000000 -> 0 <= h <= / 10 ^ 36 * u -> / 4000000 <= a <= 4000000 -> 0 <= k <= 10000000 * h ->
  Rabs (4 * a * r) <= 15 * u * ((2 * a * t) * (2 * a * t)) + 3 * Rabs (2 * a * t) * k + 10 * (k * k) + 11 * h ->
  Rabs r <= 16 * u * (a * (t * t)) + / 10 ^ 20 * u.
Proof.
  intros U H A K R. cbn [pow] in *. rewrite Rabs_mult, (Rabs_pos_eq (4 * a)) in R by lra. rewrite Rabs_mult, (Rabs_pos_eq (2 * a)) in R by lra.
  assert (T0 := Rabs_pos t). assert (TT : t * t = Rabs t * Rabs t) by (rewrite <- Rabs_mult; symmetry; apply Rabs_pos_eq, Rle_0_sqr). set (x := Rabs t) in *. clearbody x.
  assert (Z : 2 * x <= 1 + x * x). { assert (0 <= (x - 1) * (x - 1)) by apply Rle_0_sqr. lra. }
  assert (X0 : 0 <= x * x) by apply Rle_0_sqr.
  assert (KU : k <= / 10 ^ 28 * u) by (cbn [pow]; lra). cbn [pow] in KU.
  assert (P1 : x * k <= (1 + x * x) / 2 * (/ 10 ^ 28 * u)). { apply Rmult_le_compat; cbn [pow]; lra. } cbn [pow] in P1.
  assert (P2 : a * (x * k) <= a * ((1 + x * x) / 2 * (/ 10 ^ 28 * u))) by (apply Rmult_le_compat_l; cbn [pow]; lra). cbn [pow] in P2.
  assert (P3 : k * k <= h). { assert (k * k <= (10000000 * h) * (/ 10 ^ 28 * u)) by (apply Rmult_le_compat; cbn [pow]; lra). cbn [pow] in *. assert (h * u <= h * / 1000000) by (apply Rmult_le_compat_l; lra). lra. }
  assert (P4 : / 4000000 * (a * (x * x) * u) <= a * (a * (x * x) * u)). { apply Rmult_le_compat_r; [|lra]. apply Rmult_le_pos; [apply Rmult_le_pos|]; lra. }
  assert (P5 : / 4000000 * u <= a * u) by (apply Rmult_le_compat_r; lra).
  assert (P6 : 0 <= a * (x * x) * u) by (apply Rmult_le_pos; [apply Rmult_le_pos|]; lra).
  apply (Rmult_le_reg_l (4 * a)); [lra|]. eapply Rle_trans; [exact R|]. replace (2 * a * t * (2 * a * t)) with (4 * a * a * (t * t)) by ring. rewrite TT. lra.
Qed.
Lemma w_bound u h a be c D e1 e2 : 0 <= u <= / 1000000 -> 0 <= h <= / 10 ^ 36 * u -> / 4000000 <= a <= 4000000 -> 0 <= be <= 1000000000000 -> Rabs c <= 10000000000000 -> 0 <= D ->
  Rabs (D - (be * be - 4 * a * c)) <= 31 / 10 * u * (be * be + 4 * a * Rabs c) + 10 * h -> Rabs e1 <= u -> Rabs e2 <= u ->
  0 <= (be + sqrt D * (1 + e1)) * (1 + e2) <= 4000000000000.
Proof.
  intros U H A B C D0 HD E1 E2. cbn [pow] in H. assert (B1 := Rabs_le_inv _ _ E1). assert (B2 := Rabs_le_inv _ _ E2). assert (SP := sqrt_pos D).
  assert (C0 := Rabs_pos c).
  assert (X1 : be * be <= 1000000000000 * 1000000000000) by (apply Rmult_le_compat; lra).
  assert (X2 : a * Rabs c <= 4000000 * 10000000000000) by (apply Rmult_le_compat; lra). assert (X0 : 0 <= a * Rabs c) by (apply Rmult_le_pos; lra).
  assert (X3 : Rabs (a * c) = a * Rabs c) by (rewrite Rabs_mult, (Rabs_pos_eq a) by lra; reflexivity). assert (X4 := Rabs_le_inv _ _ (Req_le _ _ X3)).
  assert (X5 : 0 <= be * be) by apply Rle_0_sqr.
  assert (X6 : u * (be * be + 4 * a * Rabs c) <= / 1000000 * (be * be + 4 * a * Rabs c)) by (apply Rmult_le_compat_r; lra). apply Rabs_le_inv in HD.
  assert (DB : D <= 2000000000000 * 2000000000000) by lra.
  assert (SB : sqrt D <= 2000000000000). { rewrite <- (sqrt_square 2000000000000) by lra. apply sqrt_le_1_alt. exact DB. }
  assert (0 <= be + sqrt D * (1 + e1) <= 3100000000000). { assert (0 <= sqrt D * (1 + e1) <= 2000000000000 * (101 / 100)). { split; [apply Rmult_le_pos|apply Rmult_le_compat]; lra. } lra. }
  split; [apply Rmult_le_pos; lra|]. apply Rle_trans with (3100000000000 * (101 / 100)); [apply Rmult_le_compat|]; lra.
Qed.
Lemma near_real u h o0 o1 o2 d0 d1 d2 Q t a b c : 0 <= u <= / 1000000 -> 0 <= h <= / 10 ^ 36 * u -> let A := d0 * d0 + d1 * d1 + d2 * d2 in let O := o0 * o0 + o1 * o1 + o2 * o2 in
  let G := A * (t * t) + 2 * (o0 * d0 + o1 * d1 + o2 * d2) * t + O - Q in
  / 2000000 <= Q -> Rabs (a - A) <= 302 / 100 * u * A ->
  Rabs (b - 2 * (o0 * d0 + o1 * d1 + o2 * d2)) <= 603 / 100 * u * (Rabs (o0 * d0) + Rabs (o1 * d1) + Rabs (o2 * d2)) + 8 * h ->
  Rabs (c - (O - Q)) <= 403 / 100 * u * O + 203 / 100 * u * Q + 8 * h -> Rabs t <= 10 ^ 21 ->
  Rabs (a * (t * t) + b * t + c) <= 16 * u * (a * (t * t) + Rabs c) + / 10 ^ 20 * u ->
  Rabs G <= 72 * u * (O + Q) /\ A * (t * t) <= 202 / 100 * (O + Q).
Proof.
  intros U H A O G HQ HA HB HC HT HR. cbn [pow] in *.
  assert (O0 : 0 <= O). { unfold O. assert (0 <= o0 * o0) by apply Rle_0_sqr. assert (0 <= o1 * o1) by apply Rle_0_sqr. assert (0 <= o2 * o2) by apply Rle_0_sqr. lra. }
  assert (A0 : 0 <= A). { unfold A. assert (0 <= d0 * d0) by apply Rle_0_sqr. assert (0 <= d1 * d1) by apply Rle_0_sqr. assert (0 <= d2 * d2) by apply Rle_0_sqr. lra. }
  assert (T0 : 0 <= t * t) by apply Rle_0_sqr. assert (AT0 : 0 <= A * (t * t)) by (apply Rmult_le_pos; assumption).
  (* the cross term *)
  assert (CT : forall x y, 2 * (Rabs (x * y) * Rabs t) <= x * x + y * y * (t * t)).
  { intros x y. rewrite <- Rabs_mult. assert (0 <= (x - y * t) * (x - y * t)) by apply Rle_0_sqr. assert (0 <= (x + y * t) * (x + y * t)) by apply Rle_0_sqr. unfold Rabs; destruct Rcase_abs; lra. }
  assert (ST : 2 * ((Rabs (o0 * d0) + Rabs (o1 * d1) + Rabs (o2 * d2)) * Rabs t) <= O + A * (t * t)). { assert (X := CT o0 d0). assert (Y := CT o1 d1). assert (Z := CT o2 d2). unfold O, A. lra. }
  set (S := Rabs (o0 * d0) + Rabs (o1 * d1) + Rabs (o2 * d2)) in *.
  (* the size of the ray parameter *)
  assert (SZ : A * (t * t) <= 2 * (G + Q) + 2 * O).
  { assert (X : forall x y, y * y * (t * t) <= 2 * ((x + t * y) * (x + t * y)) + 2 * (x * x)). { intros x y. assert (0 <= (2 * x + t * y) * (2 * x + t * y)) by apply Rle_0_sqr. lra. }
    assert (X0 := X o0 d0). assert (X1 := X o1 d1). assert (X2 := X o2 d2).
    assert (EG : G + Q = (o0 + t * d0) * (o0 + t * d0) + (o1 + t * d1) * (o1 + t * d1) + (o2 + t * d2) * (o2 + t * d2)) by (unfold G, A, O; ring). unfold O. unfold A at 1. lra. }
  assert (E1 : Rabs ((a - A) * (t * t)) <= 302 / 100 * u * A * (t * t)) by (rewrite Rabs_mult, (Rabs_pos_eq (t * t)) by exact T0; apply Rmult_le_compat_r; assumption).
  set (B := 2 * (o0 * d0 + o1 * d1 + o2 * d2)) in *.
  assert (E2 : Rabs ((b - B) * t) <= 302 / 100 * (u * (O + A * (t * t))) + / 10 ^ 14 * u).
  { rewrite Rabs_mult. assert (X : Rabs (b - B) * Rabs t <= (603 / 100 * u * S + 8 * h) * Rabs t) by (apply Rmult_le_compat_r; [apply Rabs_pos|assumption]).
    assert (Y : u * (2 * (S * Rabs t)) <= u * (O + A * (t * t))) by (apply Rmult_le_compat_l; lra).
    assert (Z : h * Rabs t <= (/ 10 ^ 36 * u) * 10 ^ 21) by (apply Rmult_le_compat; try apply Rabs_pos; cbn [pow]; lra). cbn [pow] in *. assert (0 <= u * O) by (apply Rmult_le_pos; lra). assert (0 <= u * (A * (t * t))) by (apply Rmult_le_pos; lra). lra. }
  assert (UO : 0 <= u * O <= / 1000000 * O) by (split; [apply Rmult_le_pos|apply Rmult_le_compat_r]; lra).
  assert (UQ : 0 <= u * Q <= / 1000000 * Q) by (split; [apply Rmult_le_pos|apply Rmult_le_compat_r]; lra).
  assert (UA : 0 <= u * (A * (t * t)) <= / 1000000 * (A * (t * t))) by (split; [apply Rmult_le_pos|apply Rmult_le_compat_r]; lra).
  assert (E3 : Rabs c <= 1001 / 1000 * (O + Q)). { replace c with ((c - (O - Q)) + (O - Q)) by ring. eapply Rle_trans; [apply Rabs_triang|]. assert (Rabs (O - Q) <= O + Q) by (apply Rabs_le; lra). lra. }
  assert (E4 : a * (t * t) <= 1001 / 1000 * (A * (t * t))). { apply Rabs_le_inv in E1. lra. }
  assert (E5 : u * (a * (t * t) + Rabs c) <= u * (1001 / 1000 * (A * (t * t) + (O + Q)))) by (apply Rmult_le_compat_l; lra).
  assert (HG : Rabs G <= 234 / 10 * (u * (A * (t * t))) + 234 / 10 * (u * (O + Q)) + / 10 ^ 13 * u).
  { replace G with ((a * (t * t) + b * t + c) + - ((a - A) * (t * t)) + - ((b - B) * t) + - (c - (O - Q))) by (unfold G; ring).
    eapply Rle_trans; [apply Rabs_triang|]. eapply Rle_trans; [apply Rplus_le_compat_r, Rabs_triang|]. eapply Rle_trans; [apply Rplus_le_compat_r, Rplus_le_compat_r, Rabs_triang|]. rewrite !Rabs_Ropp. cbn [pow] in *. lra. }
  assert (UU : / 2000000 * u <= Q * u) by (apply Rmult_le_compat_r; lra).
  assert (SZ2 : A * (t * t) <= 2 * Rabs G + 2 * (O + Q)) by (assert (X := Rle_abs G); lra).
  assert (UG : u * (A * (t * t)) <= u * (2 * Rabs G + 2 * (O + Q))) by (apply Rmult_le_compat_l; lra).
  assert (UG2 : u * Rabs G <= / 1000000 * Rabs G) by (apply Rmult_le_compat_r; [apply Rabs_pos|lra]). cbn [pow] in *.
  assert (GG : Rabs G <= 72 * u * (O + Q)) by lra. split; [exact GG|]. lra.
Qed.
Lemma near_comp u h o d t P : 0 <= u <= / 1000000 -> 0 <= h <= / 10 ^ 36 * u -> Rabs (P - (o + t * d)) <= 201 / 100 * u * (Rabs o + Rabs (t * d)) + 101 / 100 * h ->
  Rabs (P * P - (o + t * d) * (o + t * d)) <= 82 / 10 * u * (o * o + d * d * (t * t)) + 4 * h.
Proof.
  intros U H HP. cbn [pow] in H. set (q := Rabs o + Rabs (t * d)) in *. set (p := o + t * d) in *.
  assert (Q0 : 0 <= q) by (unfold q; assert (X := Rabs_pos o); assert (Y := Rabs_pos (t * d)); lra).
  assert (PQ : Rabs p <= q) by (unfold p, q; apply Rabs_triang).
  assert (QQ : q * q <= 2 * (o * o + d * d * (t * t))).
  { assert (X : Rabs o * Rabs o = o * o) by (rewrite <- Rabs_mult; apply Rabs_pos_eq, Rle_0_sqr). assert (Y : Rabs (t * d) * Rabs (t * d) = d * d * (t * t)) by (rewrite <- Rabs_mult, Rabs_pos_eq by apply Rle_0_sqr; ring).
    unfold q. assert (Z : 0 <= (Rabs o - Rabs (t * d)) * (Rabs o - Rabs (t * d))) by apply Rle_0_sqr. lra. }
  set (e := 201 / 100 * u * q + 101 / 100 * h) in *. assert (UQ : 0 <= u * q) by (apply Rmult_le_pos; lra). assert (E0 : 0 <= e) by (unfold e; lra).
  replace (P * P - p * p) with ((P - p) * (2 * p + (P - p))) by ring. rewrite Rabs_mult.
  assert (B : Rabs (2 * p + (P - p)) <= 2 * q + e). { eapply Rle_trans; [apply Rabs_triang|]. rewrite Rabs_mult, (Rabs_pos_eq 2) by lra. lra. }
  apply Rle_trans with (e * (2 * q + e)); [apply Rmult_le_compat; try apply Rabs_pos; assumption|].
  assert (S1 : 2 * q <= 1 + q * q). { assert (0 <= (q - 1) * (q - 1)) by apply Rle_0_sqr. lra. } assert (S0 : 0 <= q * q) by apply Rle_0_sqr.
  assert (S2 : h * (2 * q) <= h * (1 + q * q)) by (apply Rmult_le_compat_l; lra).
  assert (S3 : h * (q * q) <= (/ 10 ^ 36 * u) * (q * q)) by (apply Rmult_le_compat_r; [|cbn [pow]]; lra).
  assert (S4 : u * (u * (q * q)) <= / 1000000 * (u * (q * q))) by (apply Rmult_le_compat_r; [apply Rmult_le_pos|]; lra).
  assert (S5 : h * h <= / 1000000 * h) by (apply Rmult_le_compat_r; lra).
  assert (S6 : u * (h * (2 * q)) <= / 1000000 * (h * (2 * q))) by (apply Rmult_le_compat_r; [apply Rmult_le_pos|]; lra).
  assert (S7 : u * (q * q) <= u * (2 * (o * o + d * d * (t * t)))) by (apply Rmult_le_compat_l; lra).
  assert (S8 : 0 <= u * (q * q)) by (apply Rmult_le_pos; lra). unfold e. cbn [pow] in *. lra.
Qed.
Section N.
Context {f : fmt} {m : libm f}.
Notation FT := (float f).
Notation u := (unit_roundoff f).
Notation eta := (smallest_float f / 2).

Lemma eta_sq : 0 <= eta <= / 10 ^ 30 * (u * u).
Proof.
  split; [unfold smallest_float; assert (X := bpow_gt_0 radix2 (3 - emax f - prec f)); lra|].
  apply Rle_trans with (bpow radix2 (-100) * (u * u)).
  - unfold smallest_float, unit_roundoff. replace (bpow radix2 (3 - emax f - prec f) / 2) with (bpow radix2 (2 - emax f - prec f)).
    2: { replace (3 - emax f - prec f)%Z with (2 - emax f - prec f + 1)%Z by ring. rewrite bpow_plus. change (bpow radix2 1) with 2. field. }
    rewrite <- !bpow_plus. apply bpow_le. destruct f; vm_compute; discriminate.
  - apply Rmult_le_compat_r; [apply Rle_0_sqr|]. cbn [bpow]. apply Rinv_le; [cbn [pow]; lra|]. cbn [pow]. vm_compute (Z.pow_pos radix2 100). lra.
Qed.
Lemma eta_u : 0 <= eta <= / 10 ^ 36 * u.
Proof. assert (E := eta_sq). assert (U := u_q (f := f)). cbn [pow] in *. assert (u * u <= / 1000000 * u) by (apply Rmult_le_compat_r; lra). lra. Qed.
Lemma big_1e30 : 10 ^ 30 <= bpow radix2 120.
Proof. cbn [bpow pow]. vm_compute (Z.pow_pos radix2 120). lra. Qed.

Lemma root_res (a c w x y : FT) be sg D e1 e2 : sg = 1 \/ sg = -1 -> finite a -> finite c -> / 4000000 <= B2R a <= 4000000 -> Rabs (B2R c) <= 10000000000000 ->
  0 <= be <= 1000000000000 -> 0 <= D ->
  Rabs (D - (be * be - 4 * B2R a * B2R c)) <= 31 / 10 * u * (be * be + 4 * B2R a * Rabs (B2R c)) + 10 * eta -> Rabs e1 <= u -> Rabs e2 <= u ->
  finite w -> B2R w = (be + sqrt D * (1 + e1)) * (1 + e2) -> finite x -> B2R x = sg * B2R w -> finite y -> B2R y = sg * (2 * B2R c) ->
  B2R c = 0 \/ 100 * eta <= u * (B2R a * Rabs (B2R c)) ->
  forall kd : bool, let t := if kd then fdiv (fmul x half) a else fdiv y w in nonnan t ->
  finite t /\ Rabs (B2R t) <= 10 ^ 21 /\
  Rabs (B2R a * (B2R t * B2R t) - be * (sg * B2R t) + B2R c) <= 16 * u * (B2R a * (B2R t * B2R t) + Rabs (B2R c)) + / 10 ^ 20 * u /\
  (11 * eta <= u * ((be + sqrt D * (1 + e1)) * (be + sqrt D * (1 + e1))) -> 0 < B2R w ->
   99 / 100 * (sqrt D * (1 + e1)) - 12 * (u * (be + sqrt D * (1 + e1))) - (3 + 2 * B2R a) * eta <= (if kd then 1 else -1) * (2 * B2R a * (sg * B2R t) - be)).
Proof.
  intros SG Fa Fc Ba Bc Bb D0 HD HE1 HE2 Fw Vw Fx Vx Fy Vy HC kd t NN.
  assert (U := u_q (f := f)). assert (EU := eta_u). assert (T30 := big_1e30).
  assert (WB := w_bound u eta (B2R a) be (B2R c) D e1 e2 U EU Ba Bb Bc D0 HD HE1 HE2). rewrite <- Vw in WB.
  assert (AB : forall z, Rabs (sg * z) = Rabs z) by (intros z; rewrite Rabs_mult; destruct SG as [-> | ->]; [rewrite Rabs_R1; ring|unfold Rabs at 1; destruct Rcase_abs; lra]).
  assert (SS : sg * sg = 1) by (destruct SG as [-> | ->]; ring).
  cbn [pow] in EU, T30.
  subst t. destruct kd.
  - destruct (half_val (f := f)) as [Fh Vh]. assert (RX := fmul_Rnd x half Fx Fh). rewrite Vx, Vh in RX.
    assert (AX : Rabs (sg * B2R w * (1 / 2)) = B2R w / 2) by (rewrite Rmult_assoc, AB, Rabs_pos_eq by lra; lra).
    assert (A1 : Rabs (sg * B2R w * (1 / 2)) <= bpow radix2 120) by (rewrite AX; cbn [pow] in *; lra).
    destruct (big_fin _ _ RX A1) as [Fq Eq]. rewrite AX in Eq. set (q := fmul x half) in *.
    assert (A0 : B2R a <> 0) by lra. assert (RT := fdiv_Rnd q a Fq Fa A0).
    assert (UW : u * (B2R w / 2) <= / 1000000 * (B2R w / 2)) by (apply Rmult_le_compat_r; lra).
    assert (Q1 : Rabs (B2R q) <= 101 / 100 * (B2R w / 2) + eta). { replace (B2R q) with ((B2R q - sg * B2R w * (1 / 2)) + sg * B2R w * (1 / 2)) by ring. eapply Rle_trans; [apply Rabs_triang|]. rewrite AX. lra. }
    assert (IA : 0 < / B2R a <= 4000000). { split; [apply Rinv_0_lt_compat; lra|]. replace 4000000 with (/ / 4000000) by field. apply Rinv_le; lra. }
    assert (Q2 : Rabs (B2R q / B2R a) <= 10 ^ 20). { unfold Rdiv. rewrite Rabs_mult, (Rabs_pos_eq (/ B2R a)) by lra. apply Rle_trans with (3000000000000 * 4000000); [apply Rmult_le_compat; try apply Rabs_pos; lra|cbn [pow]; lra]. }
    assert (A2 : Rabs (B2R q / B2R a) <= bpow radix2 120) by (cbn [pow] in *; lra).
    destruct (big_fin _ _ RT A2) as [Ft Et]. set (t := fdiv q a) in *. split; [exact Ft|]. split.
    { replace (B2R t) with ((B2R t - B2R q / B2R a) + B2R q / B2R a) by ring. eapply Rle_trans; [apply Rabs_triang|].
      assert (u * Rabs (B2R q / B2R a) <= / 1000000 * Rabs (B2R q / B2R a)) by (apply Rmult_le_compat_r; [apply Rabs_pos|lra]). cbn [pow] in *. lra. }
    assert (KEY : Rabs (2 * B2R a * (sg * B2R t) - B2R w) <= 21 / 10 * u * B2R w + (3 + 2 * B2R a) * eta).
    { assert (K1 : Rabs (B2R a * B2R t - B2R q) <= u * Rabs (B2R q) + B2R a * eta).
      { replace (B2R a * B2R t - B2R q) with (B2R a * (B2R t - B2R q / B2R a)) by (field; exact A0). rewrite Rabs_mult, (Rabs_pos_eq (B2R a)) by lra.
        assert (X : B2R a * Rabs (B2R t - B2R q / B2R a) <= B2R a * (u * Rabs (B2R q / B2R a) + eta)) by (apply Rmult_le_compat_l; lra).
        assert (Y : B2R a * Rabs (B2R q / B2R a) = Rabs (B2R q)). { unfold Rdiv. rewrite Rabs_mult, (Rabs_pos_eq (/ B2R a)) by lra. field. exact A0. }
        replace (B2R a * (u * Rabs (B2R q / B2R a) + eta)) with (u * (B2R a * Rabs (B2R q / B2R a)) + B2R a * eta) in X by ring. rewrite Y in X. exact X. }
      replace (2 * B2R a * (sg * B2R t) - B2R w) with (2 * sg * (B2R a * B2R t - B2R q) + 2 * sg * (B2R q - sg * B2R w * (1 / 2)) + (sg * sg - 1) * B2R w) by field.
      rewrite SS. replace ((1 - 1) * B2R w) with 0 by ring. rewrite Rplus_0_r.
      eapply Rle_trans; [apply Rabs_triang|]. replace (2 * sg * (B2R a * B2R t - B2R q)) with (sg * (2 * (B2R a * B2R t - B2R q))) by ring. replace (2 * sg * (B2R q - sg * B2R w * (1 / 2))) with (sg * (2 * (B2R q - sg * B2R w * (1 / 2)))) by ring.
      rewrite !AB, !(Rabs_mult 2), (Rabs_pos_eq 2) by lra.
      assert (Z1 : u * Rabs (B2R q) <= u * (101 / 100 * (B2R w / 2) + eta)) by (apply Rmult_le_compat_l; lra).
      assert (u * eta <= / 1000000 * eta) by (apply Rmult_le_compat_r; lra). assert (0 <= u * B2R w) by (apply Rmult_le_pos; lra). lra. }
    rewrite Vw in KEY.
    assert (K0 : 0 <= (3 + 2 * B2R a) * eta) by (apply Rmult_le_pos; lra).
    assert (KR := res_a u eta (B2R a) be (B2R c) D e1 e2 U (proj1 EU) ltac:(lra) (proj1 Bb) D0 HD HE1 HE2 (sg * B2R t) _ K0 KEY).
    assert (KB : (3 + 2 * B2R a) * eta <= 10000000 * eta) by (apply Rmult_le_compat_r; lra).
    apply (fin_a u eta (B2R a) (sg * B2R t) _ _ U eta_u Ba (conj K0 KB)) in KR.
    replace (sg * B2R t * (sg * B2R t)) with ((sg * sg) * (B2R t * B2R t)) in KR by ring. rewrite SS, Rmult_1_l in KR.
    split; [eapply Rle_trans; [exact KR|]; assert (0 <= u * Rabs (B2R c)) by (apply Rmult_le_pos; [lra|apply Rabs_pos]); lra|].
    intros _ _. assert (SD := side_a u (B2R a) be D e1 e2 U (proj1 Bb) D0 HE1 HE2 (sg * B2R t) _ K0 KEY). lra.
  - destruct (r_W u be D e1 e2 U (proj1 Bb) D0 HE1 HE2) as (RW0 & RW1 & RW2 & RW3). rewrite <- Vw in RW2, RW3. set (W := be + sqrt D * (1 + e1)) in *.
    destruct (r_c u eta (B2R a) be (B2R c) D e1 e2 U (proj1 EU) ltac:(lra) (proj1 Bb) D0 HD HE1 HE2) as (RC & _). fold W in RC.
    assert (C0 := Rabs_pos (B2R c)). assert (AC : 0 <= B2R a * Rabs (B2R c)) by (apply Rmult_le_pos; lra).
    assert (UA : u * (B2R a * Rabs (B2R c)) <= / 1000000 * (B2R a * Rabs (B2R c))) by (apply Rmult_le_compat_r; lra).
    destruct (Req_dec (B2R c) 0) as [CZ|CZ].
    { assert (Y0 : B2R y = 0) by (rewrite Vy, CZ; ring). destruct (Req_dec (B2R w) 0) as [W0|W0].
      { exfalso. revert NN. clear - W0 Y0 Fy Fw. destruct (fdiv0 y w Fy Fw W0) as [[_ N]|[N _]]; [|contradiction]. unfold nonnan. rewrite N. discriminate. }
      assert (RT := fdiv_Rnd y w Fy Fw W0). rewrite Y0 in RT. unfold Rdiv in RT. rewrite Rmult_0_l in RT.
      destruct (big_fin _ _ RT) as [Ft _]; [rewrite Rabs_R0; cbn [pow] in *; lra|]. assert (TV := Rnd_finite _ _ RT Ft). rewrite rnd_0 in TV.
      split; [exact Ft|]. rewrite TV, CZ, Rabs_R0. split; [cbn [pow]; lra|]. replace (B2R a * (0 * 0) - be * (sg * 0) + 0) with 0 by ring. split; [rewrite Rabs_R0; cbn [pow]; lra|].
      intros HW WP. rewrite Vw in WP. assert (EW : 0 <= eta * (W * (1 + e2))) by (apply Rmult_le_pos; lra).
      assert (SD := side_c u eta (B2R a) be 0 D e1 e2 U (proj1 EU) ltac:(lra) (proj1 Bb) D0). rewrite <- CZ in SD at 1 2. specialize (SD HD HE1 HE2 (sg * 0) WP). replace (sg * 0 * _ - 2 * 0) with 0 in SD by ring. rewrite Rabs_R0 in SD. specialize (SD ltac:(fold W; lra) HW). fold W in SD. lra. }
    destruct HC as [HC|HC]; [contradiction|]. assert (CP : 0 < Rabs (B2R c)) by (apply Rabs_pos_lt; exact CZ). assert (ACP : 0 < B2R a * Rabs (B2R c)) by (apply Rmult_lt_0_compat; lra).
    assert (CW : 4 * (B2R a * Rabs (B2R c)) <= 104 / 100 * (W * W)) by lra.
    assert (WP : 0 < B2R w). { destruct (Req_dec W 0) as [Z|Z]; [rewrite Z in CW; lra|]. lra. } assert (W0 : B2R w <> 0) by lra.
    assert (RT := fdiv_Rnd y w Fy Fw W0). rewrite Vy in RT.
    assert (AT : Rabs (sg * (2 * B2R c) / B2R w) * B2R w = 2 * Rabs (B2R c)).
    { unfold Rdiv. rewrite Rmult_assoc, AB, !Rabs_mult, (Rabs_pos_eq 2) by lra. rewrite (Rabs_pos_eq (/ B2R w)) by (left; apply Rinv_0_lt_compat; lra). field. exact W0. }
    assert (Q2 : Rabs (sg * (2 * B2R c) / B2R w) <= 10 ^ 20).
    { apply (Rmult_le_reg_r (B2R w)); [exact WP|]. rewrite AT.
      assert (X1 : / 4000000 * Rabs (B2R c) <= B2R a * Rabs (B2R c)) by (apply Rmult_le_compat_r; lra).
      assert (X2 : W * W <= (1002 / 1000 * B2R w) * (1002 / 1000 * 4000000000000)) by (apply Rmult_le_compat; lra). cbn [pow]. lra. }
    assert (A2 : Rabs (sg * (2 * B2R c) / B2R w) <= bpow radix2 120) by (cbn [pow] in *; lra).
    destruct (big_fin _ _ RT A2) as [Ft Et]. set (t := fdiv y w) in *. split; [exact Ft|]. split.
    { replace (B2R t) with ((B2R t - sg * (2 * B2R c) / B2R w) + sg * (2 * B2R c) / B2R w) by ring. eapply Rle_trans; [apply Rabs_triang|].
      assert (u * Rabs (sg * (2 * B2R c) / B2R w) <= / 1000000 * Rabs (sg * (2 * B2R c) / B2R w)) by (apply Rmult_le_compat_r; [apply Rabs_pos|lra]). cbn [pow] in *. lra. }
    assert (KEY : Rabs (sg * B2R t * B2R w - 2 * B2R c) <= 2 * u * Rabs (B2R c) + eta * B2R w).
    { replace (sg * B2R t * B2R w - 2 * B2R c) with (sg * ((B2R t - sg * (2 * B2R c) / B2R w) * B2R w) + (sg * sg - 1) * (2 * B2R c)) by (field; exact W0).
      rewrite SS. replace ((1 - 1) * (2 * B2R c)) with 0 by ring. rewrite Rplus_0_r, AB, Rabs_mult, (Rabs_pos_eq (B2R w)) by lra.
      assert (X : Rabs (B2R t - sg * (2 * B2R c) / B2R w) * B2R w <= (u * Rabs (sg * (2 * B2R c) / B2R w) + eta) * B2R w) by (apply Rmult_le_compat_r; lra).
      replace ((u * Rabs (sg * (2 * B2R c) / B2R w) + eta) * B2R w) with (u * (Rabs (sg * (2 * B2R c) / B2R w) * B2R w) + eta * B2R w) in X by ring. rewrite AT in X. lra. }
    rewrite Vw in KEY, WP.
    assert (KR := res_c u eta (B2R a) be (B2R c) D e1 e2 U (proj1 EU) ltac:(lra) (proj1 Bb) D0 HD HE1 HE2 (sg * B2R t) WP KEY HC). fold W in KR. rewrite <- Vw in KR.
    replace (sg * B2R t * (sg * B2R t)) with ((sg * sg) * (B2R t * B2R t)) in KR by ring. rewrite SS, Rmult_1_l in KR.
    split; [|intros HW _; assert (SD := side_c u eta (B2R a) be (B2R c) D e1 e2 U (proj1 EU) ltac:(lra) (proj1 Bb) D0 HD HE1 HE2 (sg * B2R t) WP KEY HW); fold W in SD; lra].
    eapply Rle_trans; [exact KR|].
    assert (0 <= u * (B2R a * (B2R t * B2R t))) by (apply Rmult_le_pos; [lra|]; apply Rmult_le_pos; [lra|apply Rle_0_sqr]).
    assert (Y1 : eta * B2R w <= eta * 4000000000000) by (apply Rmult_le_compat_l; lra).
    assert (Y2 : B2R a * eta * eta <= 4000000 * eta * 1). { apply Rmult_le_compat; try lra; [apply Rmult_le_pos; lra|apply Rmult_le_compat_r; lra]. }
    cbn [pow] in *. lra.
Qed.

(** the discriminant *)
Lemma disc_err (a b c : FT) : finite a -> finite b -> finite c -> / 4000000 <= B2R a <= 4000000 -> Rabs (B2R b) <= 1000000000000 -> Rabs (B2R c) <= 10000000000000 ->
  let d := fsub (fmul b b) (fmul (fmul a c) (f_of_Z 4)) in
  finite d /\ Rabs (B2R d - (B2R b * B2R b - 4 * B2R a * B2R c)) <= 31 / 10 * u * (B2R b * B2R b + 4 * B2R a * Rabs (B2R c)) + 10 * eta.
Proof.
  intros Fa Fb Fc Ba Bb Bc. assert (U := u_q (f := f)). assert (EU := eta_u). assert (T30 := big_1e30). cbn [pow] in EU, T30.
  assert (C0 := Rabs_pos (B2R c)). assert (AC : Rabs (B2R a * B2R c) = B2R a * Rabs (B2R c)) by (rewrite Rabs_mult, (Rabs_pos_eq (B2R a)) by lra; reflexivity).
  assert (AC1 : 0 <= B2R a * Rabs (B2R c) <= 4000000 * 10000000000000) by (split; [apply Rmult_le_pos|apply Rmult_le_compat]; lra).
  assert (BB : Rabs (B2R b * B2R b) = B2R b * B2R b) by apply Rabs_pos_eq, Rle_0_sqr.
  assert (BB1 : 0 <= B2R b * B2R b <= 1000000000000 * 1000000000000). { split; [apply Rle_0_sqr|]. rewrite <- BB, Rabs_mult. apply Rmult_le_compat; try apply Rabs_pos; assumption. }
  destruct (big_fin _ _ (fmul_Rnd b b Fb Fb)) as [F1 E1]; [rewrite BB; lra|]. rewrite BB in E1.
  destruct (big_fin _ _ (fmul_Rnd a c Fa Fc)) as [F2 E2]; [rewrite AC; lra|]. rewrite AC in E2.
  assert (UB : u * (B2R b * B2R b) <= / 1000000 * (B2R b * B2R b)) by (apply Rmult_le_compat_r; lra).
  assert (UC : u * (B2R a * Rabs (B2R c)) <= / 1000000 * (B2R a * Rabs (B2R c))) by (apply Rmult_le_compat_r; lra).
  assert (S2 : Rabs (B2R (fmul a c)) <= 1001 / 1000 * (B2R a * Rabs (B2R c)) + eta). { replace (B2R (fmul a c)) with ((B2R (fmul a c) - B2R a * B2R c) + B2R a * B2R c) by ring. eapply Rle_trans; [apply Rabs_triang|]. lra. }
  destruct (four_exact (fmul a c) F2) as [F3 V3]. { apply Rle_trans with (10 ^ 30); [cbn [pow]; lra|]. cbn [pow bpow]. vm_compute (Z.pow_pos radix2 110). lra. }
  assert (S1 : Rabs (B2R (fmul b b)) <= 1001 / 1000 * (B2R b * B2R b) + eta). { replace (B2R (fmul b b)) with ((B2R (fmul b b) - B2R b * B2R b) + B2R b * B2R b) by ring. eapply Rle_trans; [apply Rabs_triang|]. rewrite BB. lra. }
  assert (S3 : Rabs (B2R (fmul b b) - 4 * B2R (fmul a c)) <= 1001 / 1000 * (B2R b * B2R b + 4 * (B2R a * Rabs (B2R c))) + 5 * eta).
  { unfold Rminus. eapply Rle_trans; [apply Rabs_triang|]. rewrite Rabs_Ropp, Rabs_mult, (Rabs_pos_eq 4) by lra. lra. }
  intros d. assert (RD := fsub_fadd _ _ F1 F3). fold d in RD. rewrite V3 in RD.
  destruct (big_fin _ _ RD) as [Fd _]; [lra|]. split; [exact Fd|].
  assert (ED := sub_rel _ _ F1 F3 Fd). fold d in ED. rewrite V3 in ED.
  replace (B2R d - (B2R b * B2R b - 4 * B2R a * B2R c)) with ((B2R d - (B2R (fmul b b) - 4 * B2R (fmul a c))) + (B2R (fmul b b) - B2R b * B2R b) + - (4 * (B2R (fmul a c) - B2R a * B2R c))) by ring.
  eapply Rle_trans; [apply Rabs_triang|]. eapply Rle_trans; [apply Rplus_le_compat_r, Rabs_triang|]. rewrite Rabs_Ropp, (Rabs_mult 4), (Rabs_pos_eq 4) by lra.
  assert (UD : u * Rabs (B2R (fmul b b) - 4 * B2R (fmul a c)) <= u * (1001 / 1000 * (B2R b * B2R b + 4 * (B2R a * Rabs (B2R c))) + 5 * eta)) by (apply Rmult_le_compat_l; lra).
  assert (u * eta <= / 1000000 * eta) by (apply Rmult_le_compat_r; lra).
  assert (0 <= u * (B2R b * B2R b)) by (apply Rmult_le_pos; lra). assert (0 <= u * (B2R a * Rabs (B2R c))) by (apply Rmult_le_pos; lra). lra.
Qed.
Definition good_root (a b c t : FT) : Prop := finite t /\ Rabs (B2R t) <= 10 ^ 21 /\
  Rabs (B2R a * (B2R t * B2R t) + B2R b * B2R t + B2R c) <= 16 * u * (B2R a * (B2R t * B2R t) + Rabs (B2R c)) + / 10 ^ 20 * u.
(** [D] the computed discriminant, [S] its square root; what is known of the two roots *)
Lemma quad_res (a b c : FT) : finite a -> finite b -> finite c -> / 4000000 <= B2R a <= 4000000 -> Rabs (B2R b) <= 1000000000000 -> Rabs (B2R c) <= 10000000000000 ->
  B2R c = 0 \/ 100 * eta <= u * (B2R a * Rabs (B2R c)) ->
  exists D, Rabs (D - (B2R b * B2R b - 4 * B2R a * B2R c)) <= 31 / 10 * u * (B2R b * B2R b + 4 * B2R a * Rabs (B2R c)) + 10 * eta /\
  match solve_quadratic a b c with
  | None => D < 0
  | Some (t0, t1) => 0 <= D /\ (forall t, t = t0 \/ t = t1 -> nonnan t -> good_root a b c t) /\
      exists S, Rabs (S - sqrt D) <= u * sqrt D /\ let W := Rabs (B2R b) + S in let sg := 99 / 100 * S - 12 * (u * W) - (3 + 2 * B2R a) * eta in
      (11 * eta <= u * (W * W) -> 0 < S -> exists tl tr, (tl = t0 \/ tl = t1) /\ (tr = t0 \/ tr = t1) /\ good_root a b c tl /\ good_root a b c tr /\
         2 * B2R a * B2R tl + B2R b <= - sg /\ sg <= 2 * B2R a * B2R tr + B2R b)
  end.
Proof.
  intros Fa Fb Fc Ba Bb Bc HC. assert (U := u_q (f := f)). assert (EU := eta_u). assert (T30 := big_1e30). cbn [pow] in EU, T30.
  destruct (disc_err a b c Fa Fb Fc Ba Bb Bc) as [Fd Ed]. set (d := fsub (fmul b b) (fmul (fmul a c) (f_of_Z 4))) in *.
  assert (QS : solve_quadratic a b c = if is_nonnegative d then if is_nonnegative b then Some (min_max (fdiv (fmul (fneg (fadd b (fsqrt d))) half) a) (fdiv (fneg (fadd c c)) (fadd b (fsqrt d))))
     else Some (min_max (fdiv (fmul (fadd (fneg b) (fsqrt d)) half) a) (fdiv (fadd c c) (fadd (fneg b) (fsqrt d)))) else None) by reflexivity.
  rewrite QS. rewrite (is_nn d Fd), (is_nn b Fb). clear QS.
  exists (B2R d). split; [exact Ed|].
  destruct (Rle_bool_spec 0 (B2R d)) as [D0|D0]; [|exact D0].
  destruct (sqrt_rel d Fd D0) as (Fs & e1 & He1 & Vs).
  destruct (dbl_exact c Fc) as [F2c V2c]. { apply Rle_trans with (10 ^ 30); [cbn [pow]; lra|]. cbn [pow bpow]. vm_compute (Z.pow_pos radix2 110). lra. }
  assert (SE : Rabs (B2R (fsqrt d) - sqrt (B2R d)) <= u * sqrt (B2R d)).
  { rewrite Vs. replace (sqrt (B2R d) * (1 + e1) - sqrt (B2R d)) with (e1 * sqrt (B2R d)) by ring. rewrite Rabs_mult, (Rabs_pos_eq (sqrt _)) by apply sqrt_pos. apply Rmult_le_compat_r; [apply sqrt_pos|exact He1]. }
  assert (SB : 0 <= B2R (fsqrt d) <= 4000000000000).
  { assert (X := w_bound u eta (B2R a) (Rabs (B2R b)) (B2R c) (B2R d) e1 0 U eta_u Ba (conj (Rabs_pos _) Bb) Bc D0). rewrite <- Rabs_mult, (Rabs_pos_eq (B2R b * B2R b)) in X by apply Rle_0_sqr. specialize (X Ed He1). rewrite Rabs_R0 in X. specialize (X ltac:(lra)).
    rewrite <- Vs in X. assert (0 <= B2R (fsqrt d)). { rewrite Vs. apply Rmult_le_pos; [apply sqrt_pos|]. apply Rabs_le_inv in He1. lra. } assert (Y := Rabs_pos (B2R b)). lra. }
  assert (MM : forall ta tb t : FT, t = fst (min_max ta tb) \/ t = snd (min_max ta tb) <-> t = ta \/ t = tb). { intros ta tb t. unfold min_max. destruct (slt ta tb); cbn; tauto. }
  assert (GO : forall (w x y : FT) be sg e2, sg = 1 \/ sg = -1 -> 0 <= be <= 1000000000000 -> Rabs (B2R b) = be -> B2R b = - (sg * be) -> Rabs e2 <= u -> finite w -> B2R w = (be + B2R (fsqrt d)) * (1 + e2) ->
     finite x -> B2R x = sg * B2R w -> finite y -> B2R y = sg * (2 * B2R c) ->
     let (t0, t1) := min_max (fdiv (fmul x half) a) (fdiv y w) in
     0 <= B2R d /\ (forall t, t = t0 \/ t = t1 -> nonnan t -> good_root a b c t) /\
      exists S, Rabs (S - sqrt (B2R d)) <= u * sqrt (B2R d) /\ let W := Rabs (B2R b) + S in let sg := 99 / 100 * S - 12 * (u * W) - (3 + 2 * B2R a) * eta in
      (11 * eta <= u * (W * W) -> 0 < S -> exists tl tr, (tl = t0 \/ tl = t1) /\ (tr = t0 \/ tr = t1) /\ good_root a b c tl /\ good_root a b c tr /\
         2 * B2R a * B2R tl + B2R b <= - sg /\ sg <= 2 * B2R a * B2R tr + B2R b)).
  { intros w x y be sg e2 SG Be Ab Vb He2 Fw Vw Fx Vx Fy Vy. assert (Vw' := Vw). rewrite Vs in Vw.
    assert (SQB : B2R b * B2R b = be * be). { rewrite Vb. destruct SG as [-> | ->]; ring. } rewrite SQB in Ed.
    assert (RR := root_res a c w x y be sg (B2R d) e1 e2 SG Fa Fc Ba Bc Be D0 Ed He1 He2 Fw Vw Fx Vx Fy Vy HC).
    assert (BT : forall t, B2R b * t = - (be * (sg * t))) by (intros t; rewrite Vb; ring).
    rewrite (surjective_pairing (min_max _ _)). split; [exact D0|]. split.
    - intros t Ht NN. apply (proj1 (MM _ _ _)) in Ht. unfold good_root. rewrite BT.
      destruct Ht as [-> | ->]; [destruct (RR true NN) as (X & Y & Z & _)|destruct (RR false NN) as (X & Y & Z & _)]; auto.
    - exists (B2R (fsqrt d)). split; [exact SE|]. cbv zeta. rewrite Ab. rewrite <- Vs in RR. intros HW SP.
      assert (WP : 0 < B2R w). { rewrite Vw'. apply Rabs_le_inv in He2. apply Rmult_lt_0_compat; lra. }
      assert (N1 : nonnan (fdiv (fmul x half) a)).
      { assert (Hx : finite (fmul x half)). { destruct (half_val (f := f)) as [Fh Vh]. assert (RX := fmul_Rnd x half Fx Fh). rewrite Vx, Vh in RX. refine (proj1 (big_fin _ _ RX _)).
          assert (X := w_bound u eta (B2R a) be (B2R c) (B2R d) e1 e2 U eta_u Ba Be Bc D0 Ed He1 He2). rewrite <- Vw in X. apply Rabs_le. destruct SG as [-> | ->]; lra. }
        exact (proj1 (fdiv_Rnd _ a Hx Fa ltac:(lra))). }
      assert (N2 : nonnan (fdiv y w)) by (exact (proj1 (fdiv_Rnd y w Fy Fw ltac:(lra)))).
      destruct (RR true N1) as (X1 & Y1 & Z1 & S1). destruct (RR false N2) as (X2 & Y2 & Z2 & S2). specialize (S1 HW WP). specialize (S2 HW WP).
      assert (G1 : good_root a b c (fdiv (fmul x half) a)) by (unfold good_root; rewrite BT; auto). assert (G2 : good_root a b c (fdiv y w)) by (unfold good_root; rewrite BT; auto).
      assert (I1 := proj2 (MM (fdiv (fmul x half) a) (fdiv y w) _) (or_introl eq_refl)). assert (I2 := proj2 (MM (fdiv (fmul x half) a) (fdiv y w) _) (or_intror eq_refl)).
      destruct SG as [-> | ->].
      + exists (fdiv y w), (fdiv (fmul x half) a). repeat (split; [assumption|]). cbv iota in S1, S2. rewrite Vb. split; lra.
      + exists (fdiv (fmul x half) a), (fdiv y w). repeat (split; [assumption|]). cbv iota in S1, S2. rewrite Vb. split; lra. }
  destruct (Rle_bool_spec 0 (B2R b)) as [B0|B0].
  - rewrite Rabs_pos_eq in Bb by lra. destruct (add_rel b (fsqrt d) Fb Fs) as (Fw & e2 & He2 & Vw). { rewrite Rabs_pos_eq by lra. lra. }
    refine (GO _ _ _ (B2R b) (-1) e2 (or_intror eq_refl) _ _ _ He2 Fw Vw _ _ _ _).
    + lra.
    + apply Rabs_pos_eq. exact B0.
    + ring.
    + apply (proj2 (fneg_finite _)); exact Fw.
    + rewrite fneg_B2R. ring.
    + apply (proj2 (fneg_finite _)); exact F2c.
    + rewrite fneg_B2R, V2c. ring.
  - assert (Fn : finite (fneg b)) by (apply (proj2 (fneg_finite _)); exact Fb). assert (Vn : B2R (fneg b) = - B2R b) by (apply fneg_B2R).
    rewrite Rabs_left in Bb by lra.
    destruct (add_rel (fneg b) (fsqrt d) Fn Fs) as (Fw & e2 & He2 & Vw). { rewrite Vn, Rabs_pos_eq by lra. lra. } rewrite Vn in Vw.
    refine (GO _ _ _ (- B2R b) 1 e2 (or_introl eq_refl) _ _ _ He2 Fw Vw Fw _ F2c _).
    + lra.
    + apply Rabs_left. exact B0.
    + ring.
    + ring.
    + rewrite V2c. ring.
Qed.
(** ** The coefficients of the ray-sphere equation *)
Lemma fl_gap (x y : FT) : finite x -> finite y -> 0 <= B2R x -> 0 <= B2R y -> B2R x <> B2R y -> u / 2 * B2R y <= Rabs (B2R x - B2R y).
Proof.
  intros Fx Fy X0 Y0 NE. assert (U := u_q (f := f)).
  assert (GX : generic_format radix2 (FLT_exp (3 - emax f - prec f) (prec f)) (B2R x)) by apply generic_format_B2R.
  assert (GY : generic_format radix2 (FLT_exp (3 - emax f - prec f) (prec f)) (B2R y)) by apply generic_format_B2R.
  assert (PG : Prec_gt_0 (prec f)) by (destruct f; reflexivity).
  assert (UL : forall z, 0 <= z -> u * z <= ulp radix2 (FLT_exp (3 - emax f - prec f) (prec f)) z).
  { intros z Z. assert (K := Rlt_le _ _ (ulp_FLT_gt radix2 (3 - emax f - prec f) (prec f) z)). rewrite (Rabs_pos_eq z) in K by exact Z. unfold unit_roundoff. rewrite Rmult_comm. exact K. }
  destruct (Rtotal_order (B2R x) (B2R y)) as [L|[L|L]]; [|contradiction|].
  - rewrite Rabs_left by lra. assert (S := succ_le_lt radix2 _ _ _ GX GY L). rewrite (succ_eq_pos radix2 _ _ X0) in S. assert (V := UL _ X0).
    destruct (Rle_dec (B2R y / 2) (B2R x)) as [H|H].
    + assert (u * (B2R y / 2) <= u * B2R x) by (apply Rmult_le_compat_l; lra). lra.
    + assert (u * B2R y <= / 1000000 * B2R y) by (apply Rmult_le_compat_r; lra). lra.
  - rewrite Rabs_pos_eq by lra. assert (S := succ_le_lt radix2 _ _ _ GY GX L). rewrite (succ_eq_pos radix2 _ _ Y0) in S. assert (V := UL _ Y0).
    assert (0 <= u * B2R y) by (apply Rmult_le_pos; lra). lra.
Qed.
Lemma two_exact (x : FT) : finite x -> Rabs (B2R x) <= bpow radix2 110 -> finite (fmul x (f_of_Z 2)) /\ B2R (fmul x (f_of_Z 2)) = 2 * B2R x.
Proof.
  intros F B. destruct (f_of_Z_exact (f := f) 2 ltac:(destruct f; vm_compute; discriminate)) as [F4 V4]. assert (R0 := fmul_Rnd x (f_of_Z 2) F F4). rewrite V4 in R0.
  assert (Bb : Rabs (B2R x * 2) <= bpow radix2 120).
  { rewrite Rabs_mult, (Rabs_pos_eq 2) by lra. eapply Rle_trans; [apply Rmult_le_compat_r; [lra|exact B]|]. change 2 with (bpow radix2 1). rewrite <- bpow_plus. apply bpow_le. lia. }
  destruct (big_fin _ _ R0 Bb) as [F2 _]. split; [exact F2|]. rewrite (Rnd_finite _ _ R0 F2). replace (B2R x * 2) with (B2R x * bpow radix2 1) by (change (bpow radix2 1) with 2; ring).
  rewrite rnd_id; [change (bpow radix2 1) with 2; ring|]. apply (mult_bpow_pos_exact_FLT radix2 (3 - emax f - prec f) (prec f)); [apply (generic_format_B2R (prec f) (emax f))|lia].
Qed.
Definition small3 (v : vec FT 3) : Prop := forall i, finite (Vector.nth v i) /\ Rabs (B2R (Vector.nth v i)) <= 1048576.
Lemma step_fin (acc x y : FT) K : finite acc -> Rabs (B2R acc) <= K -> K <= 10000000000000 -> finite x -> finite y -> Rabs (B2R x) <= 1048576 -> Rabs (B2R y) <= 1048576 ->
  finite (fadd acc (fmul x y)) /\ Rabs (B2R (fadd acc (fmul x y))) <= 101 / 100 * (K + 1200000000000).
Proof.
  intros Fa Ba BK Fx Fy Bx By. assert (U := u_q (f := f)). assert (EU := eta_u). assert (T30 := big_1e30). cbn [pow] in EU, T30.
  assert (P : Rabs (B2R x * B2R y) <= 1048576 * 1048576) by (rewrite Rabs_mult; apply Rmult_le_compat; try apply Rabs_pos; assumption).
  assert (G : forall (z : FT) r M, Rnd z r -> Rabs r <= M -> M <= 20000000000000 -> finite z /\ Rabs (B2R z) <= M + / 1000000 * M + 1).
  { intros z r M RZ BZ BM. destruct (big_fin z r RZ) as [F E]; [lra|]. split; [exact F|]. replace (B2R z) with ((B2R z - r) + r) by ring. eapply Rle_trans; [apply Rabs_triang|].
    assert (u * Rabs r <= / 1000000 * Rabs r) by (apply Rmult_le_compat_r; [apply Rabs_pos|lra]). lra. }
  destruct (G _ _ _ (fmul_Rnd x y Fx Fy) P ltac:(lra)) as [F1 B1].
  destruct (G _ _ (K + 1100000000000) (fadd_Rnd acc (fmul x y) Fa F1)) as [F2 B2]; [|lra|].
  - eapply Rle_trans; [apply Rabs_triang|]. lra.
  - split; [exact F2|]. assert (0 <= K) by (eapply Rle_trans; [apply Rabs_pos|exact Ba]). lra.
Qed.
Lemma dot_small (v w : vec FT 3) : small3 v -> small3 w -> finite (dot v w) /\
  Rabs (B2R (dot v w) - dot3 (f3 v) (f3 w)) <= 301 / 100 * u * (Rabs (cX (f3 v) * cX (f3 w)) + Rabs (cY (f3 v) * cY (f3 w)) + Rabs (cZ (f3 v) * cZ (f3 w))) + 4 * eta.
Proof.
  intros Sv Sw. assert (F : finite (dot v w)).
  { destruct (Sv Fin.F1) as [V0 V0']. destruct (Sv (Fin.FS Fin.F1)) as [V1 V1']. destruct (Sv (Fin.FS (Fin.FS Fin.F1))) as [V2 V2'].
    destruct (Sw Fin.F1) as [W0 W0']. destruct (Sw (Fin.FS Fin.F1)) as [W1 W1']. destruct (Sw (Fin.FS (Fin.FS Fin.F1))) as [W2 W2'].
    revert V0 V0' V1 V1' V2 V2' W0 W0' W1 W1' W2 W2'. clear Sv Sw. rewrite (vec3_eta v), (vec3_eta w). generalize (vx v) (vy v) (vz v) (vx w) (vy w) (vz w). clear v w. intros x0 x1 x2 y0 y1 y2. cbn [Vector.nth vec3 Vector.caseS].
    intros V0 V0' V1 V1' V2 V2' W0 W0' W1 W1' W2 W2'.
    assert (Z : finite (fzero false : FT) /\ Rabs (B2R (fzero false : FT)) <= 0) by (split; [reflexivity|]; cbn; rewrite Rabs_R0; lra).
    destruct (step_fin _ x0 y0 0 (proj1 Z) (proj2 Z) ltac:(lra) V0 W0 V0' W0') as [F0 B0].
    destruct (step_fin _ x1 y1 _ F0 B0 ltac:(lra) V1 W1 V1' W1') as [F1 B1].
    destruct (step_fin _ x2 y2 _ F1 B1 ltac:(lra) V2 W2 V2' W2') as [F2 B2]. exact F2. }
  split; [exact F|]. assert (K := dot_err v w F). assert (U := u_q (f := f)). assert (EU := eta_u). cbn [pow] in EU.
  assert (EQ : rdot (fvals v) (fvals w) = dot3 (f3 v) (f3 w)) by (unfold rdot, fvals, dot3, f3; cbn [rsum cX cY cZ]; ring). rewrite EQ in K. clear EQ.
  assert (EQ : rsum (fun i => Rabs (fvals v i * fvals w i)) = Rabs (cX (f3 v) * cX (f3 w)) + Rabs (cY (f3 v) * cY (f3 w)) + Rabs (cZ (f3 v) * cZ (f3 w))) by (unfold fvals, f3; cbn [rsum cX cY cZ]; ring). rewrite EQ in K. clear EQ.
  set (S := Rabs (cX (f3 v) * cX (f3 w)) + Rabs (cY (f3 v) * cY (f3 w)) + Rabs (cZ (f3 v) * cZ (f3 w))) in *.
  assert (S0 : 0 <= S) by (unfold S; assert (X := Rabs_pos (cX (f3 v) * cX (f3 w))); assert (Y := Rabs_pos (cY (f3 v) * cY (f3 w))); assert (Z := Rabs_pos (cZ (f3 v) * cZ (f3 w))); lra).
  eapply Rle_trans; [exact K|]. replace (INR 3) with 3 by (cbn; ring).
  assert (G : (1 + u) ^ 3 - 1 <= 301 / 100 * u). { clear - U. cbn [pow]. assert (u * u <= / 1000000 * u) by (apply Rmult_le_compat_r; lra). assert (0 <= u * u) by apply Rle_0_sqr. assert (u * (u * u) <= / 1000000 * (u * u)) by (apply Rmult_le_compat_r; lra). lra. }
  assert (G1 : ((1 + u) ^ 3 - 1) * S <= 301 / 100 * u * S) by (apply Rmult_le_compat_r; assumption).
  assert (G2 : 3 * (1 + u) ^ 3 * eta <= 4 * eta) by (apply Rmult_le_compat_r; lra). lra.
Qed.
Lemma abs_sq (x : R) : Rabs (x * x) = x * x. Proof. apply Rabs_pos_eq, Rle_0_sqr. Qed.
Lemma sqnorm_small (v : vec FT 3) : small3 v -> finite (square_norm v) /\ 0 <= B2R (square_norm v) /\
  Rabs (B2R (square_norm v) - dot3 (f3 v) (f3 v)) <= 301 / 100 * u * dot3 (f3 v) (f3 v) + 4 * eta.
Proof.
  intros Sv. destruct (dot_small v v Sv Sv) as [F E]. rewrite <- sqnorm_dot in F, E. rewrite !abs_sq in E. split; [exact F|]. split; [|exact E].
  destruct (sqnorm_ok v) as [_ P]. assert (NN := nonnan_of_finite _ F). specialize (P NN). apply fle_E in P. destruct P as (_ & _ & P). rewrite (E_B2R _ F) in P. rewrite E_B2R in P by reflexivity. exact P.
Qed.
Lemma coefs (s : sphere FT) (r : ray FT) : usual_ray (origin r) (direction r) -> usual_radius (radius s) ->
  let o := f3 (origin r) in let d := f3 (direction r) in let R2 := B2R (radius s) * B2R (radius s) in
  let S := Rabs (cX o * cX d) + Rabs (cY o * cY d) + Rabs (cZ o * cZ d) in
  exists a b c, finite a /\ finite b /\ finite c /\ / 4000000 <= B2R a <= 4000000 /\ Rabs (B2R b) <= 1000000000000 /\ Rabs (B2R c) <= 10000000000000 /\
    (B2R c = 0 \/ 100 * eta <= u * (B2R a * Rabs (B2R c))) /\
    Rabs (B2R a - dot3 d d) <= 302 / 100 * u * dot3 d d /\
    Rabs (B2R b - 2 * (cX o * cX d + cY o * cY d + cZ o * cZ d)) <= 603 / 100 * u * S + 8 * eta /\
    Rabs (B2R c - (dot3 o o - R2)) <= 403 / 100 * u * dot3 o o + 203 / 100 * u * R2 + 8 * eta /\ / 1048576 <= R2 /\
    s_intersect_ray s r = match solve_quadratic a b c with None => None | Some (t0, t1) => match s_get_intersection s r t0 with None => s_get_intersection s r t1 | Some i => Some i end end.
Proof.
  intros (Ho & Hd & HA) (Fr & Br). assert (U := u_q (f := f)). assert (EU := eta_u). assert (T30 := big_1e30). cbn [pow] in EU, T30.
  assert (So : small3 (origin r)) by exact Ho. assert (Sd : small3 (direction r)) by (intros i; destruct (Hd i) as [F B]; split; [exact F|lra]).
  destruct (sqnorm_small _ So) as (Fo & Po & Eo). destruct (sqnorm_small _ Sd) as (Fa & Pa & Ea). destruct (dot_small _ _ So Sd) as [Fb Eb].
  set (a := square_norm (direction r)) in *. set (no := square_norm (origin r)) in *. set (bb := dot (origin r) (direction r)) in *.
  intros o d R2. assert (EQA : f3 (direction r) = d) by reflexivity. assert (EQO : f3 (origin r) = o) by reflexivity. rewrite EQA, EQO in *.
  assert (Bo : Rabs (cX o) <= 1048576 /\ Rabs (cY o) <= 1048576 /\ Rabs (cZ o) <= 1048576) by (split; [|split]; apply Ho).
  assert (Bd : Rabs (cX d) <= 1024 /\ Rabs (cY d) <= 1024 /\ Rabs (cZ d) <= 1024) by (split; [|split]; apply Hd).
  assert (SQ : forall x M, Rabs x <= M -> 0 <= x * x <= M * M). { intros x M B. split; [apply Rle_0_sqr|]. rewrite <- abs_sq, Rabs_mult. apply Rmult_le_compat; try apply Rabs_pos; assumption. }
  assert (BA : dot3 d d <= 3200000). { unfold dot3. destruct Bd as (X & Y & Z). apply SQ in X, Y, Z. lra. }
  assert (BO : 0 <= dot3 o o <= 3300000000000). { unfold dot3. destruct Bo as (X & Y & Z). apply SQ in X, Y, Z. lra. }
  assert (PR : forall x y, Rabs x <= 1048576 -> Rabs y <= 1024 -> 0 <= Rabs (x * y) <= 1048576 * 1024). { intros x y X Y. split; [apply Rabs_pos|]. rewrite Rabs_mult. apply Rmult_le_compat; try apply Rabs_pos; assumption. }
  assert (BS : 0 <= Rabs (cX o * cX d) + Rabs (cY o * cY d) + Rabs (cZ o * cZ d) <= 3300000000). { destruct Bo as (X & Y & Z). destruct Bd as (X' & Y' & Z'). assert (K0 := PR _ _ X X'). assert (K1 := PR _ _ Y Y'). assert (K2 := PR _ _ Z Z'). lra. }
  assert (DS : Rabs (dot3 o d) <= Rabs (cX o * cX d) + Rabs (cY o * cY d) + Rabs (cZ o * cZ d)). { unfold dot3. eapply Rle_trans; [apply Rabs_triang|]. apply Rplus_le_compat_r, Rabs_triang. }
  set (S := Rabs (cX o * cX d) + Rabs (cY o * cY d) + Rabs (cZ o * cZ d)) in *. intros S'. assert (ES : S' = S) by reflexivity. rewrite ES. clear S' ES.
  assert (UA : 0 <= u * dot3 d d <= / 1000000 * dot3 d d) by (split; [apply Rmult_le_pos|apply Rmult_le_compat_r]; lra).
  assert (UAL : u * / 1048576 <= u * dot3 d d) by (apply Rmult_le_compat_l; lra).
  assert (UO : 0 <= u * dot3 o o <= / 1000000 * dot3 o o) by (split; [apply Rmult_le_pos|apply Rmult_le_compat_r]; lra).
  assert (US : 0 <= u * S <= / 1000000 * S) by (split; [apply Rmult_le_pos|apply Rmult_le_compat_r]; lra).
  assert (EA : Rabs (B2R a - dot3 d d) <= 302 / 100 * u * dot3 d d) by lra.
  assert (Ba : / 4000000 <= B2R a <= 4000000) by (apply Rabs_le_inv in EA; lra).
  (* b *)
  assert (Bbb : Rabs (B2R bb) <= 10000000000). { replace (B2R bb) with ((B2R bb - dot3 o d) + dot3 o d) by ring. eapply Rle_trans; [apply Rabs_triang|]. lra. }
  destruct (two_exact bb Fb) as [Fb2 Vb2]. { apply Rle_trans with (10 ^ 30); [cbn [pow]; lra|]. cbn [pow bpow]. vm_compute (Z.pow_pos radix2 110). lra. }
  set (b := fmul bb (f_of_Z 2)) in *.
  assert (Bb : Rabs (B2R b) <= 1000000000000) by (rewrite Vb2, Rabs_mult, (Rabs_pos_eq 2) by lra; lra).
  assert (EB : Rabs (B2R b - 2 * (cX o * cX d + cY o * cY d + cZ o * cZ d)) <= 603 / 100 * u * S + 8 * eta).
  { rewrite Vb2. fold (dot3 o d). replace (2 * B2R bb - 2 * dot3 o d) with (2 * (B2R bb - dot3 o d)) by ring. rewrite Rabs_mult, (Rabs_pos_eq 2) by lra. lra. }
  (* c *)
  assert (BR : / 1048576 <= R2 <= 1100000000000). { unfold R2. split; [apply Rle_trans with (/ 1024 * / 1024); [lra|]; apply Rmult_le_compat; lra|apply Rle_trans with (1048576 * 1048576); [apply Rmult_le_compat; lra|lra]]. }
  assert (R2P : Rabs R2 = R2) by (apply Rabs_pos_eq; lra).
  destruct (big_fin _ _ (fmul_Rnd (radius s) (radius s) Fr Fr)) as [Fy Ey]; [fold R2; rewrite R2P; lra|]. fold R2 in Ey. rewrite R2P in Ey.
  set (y := fmul (radius s) (radius s)) in *.
  assert (UR : 0 <= u * R2 <= / 1000000 * R2) by (split; [apply Rmult_le_pos|apply Rmult_le_compat_r]; lra).
  assert (By : 99 / 100 * R2 <= B2R y <= 101 / 100 * R2) by (apply Rabs_le_inv in Ey; lra).
  assert (Bno : B2R no <= 101 / 100 * dot3 o o + 1) by (apply Rabs_le_inv in Eo; lra).
  assert (BNY : Rabs (B2R no - B2R y) <= 5000000000000) by (apply Rabs_le; lra).
  assert (RC := fsub_fadd no y Fo Fy). destruct (big_fin _ _ RC) as [Fc _]; [lra|]. assert (RelC := sub_rel no y Fo Fy Fc).
  set (c := fsub no y) in *.
  assert (UNY : u * Rabs (B2R no - B2R y) <= / 1000000 * Rabs (B2R no - B2R y)) by (apply Rmult_le_compat_r; [apply Rabs_pos|lra]).
  assert (Bc : Rabs (B2R c) <= 10000000000000). { replace (B2R c) with ((B2R c - (B2R no - B2R y)) + (B2R no - B2R y)) by ring. eapply Rle_trans; [apply Rabs_triang|]. lra. }
  assert (EC : Rabs (B2R c - (dot3 o o - R2)) <= 403 / 100 * u * dot3 o o + 203 / 100 * u * R2 + 8 * eta).
  { replace (B2R c - (dot3 o o - R2)) with ((B2R c - (B2R no - B2R y)) + (B2R no - dot3 o o) + - (B2R y - R2)) by ring.
    eapply Rle_trans; [apply Rabs_triang|]. eapply Rle_trans; [apply Rplus_le_compat_r, Rabs_triang|]. rewrite Rabs_Ropp.
    assert (X : Rabs (B2R no - B2R y) <= dot3 o o + R2 + (301 / 100 * u * dot3 o o + 4 * eta) + (u * R2 + eta)) by (apply Rabs_le_inv in Eo, Ey; apply Rabs_le; lra).
    assert (X2 : u * Rabs (B2R no - B2R y) <= u * (dot3 o o + R2 + (301 / 100 * u * dot3 o o + 4 * eta) + (u * R2 + eta))) by (apply Rmult_le_compat_l; lra).
    assert (X3 : u * (u * dot3 o o) <= / 1000000 * (u * dot3 o o)) by (apply Rmult_le_compat_r; lra).
    assert (X4 : u * (u * R2) <= / 1000000 * (u * R2)) by (apply Rmult_le_compat_r; lra).
    assert (X5 : u * eta <= / 1000000 * eta) by (apply Rmult_le_compat_r; lra). lra. }
  assert (HC : B2R c = 0 \/ 100 * eta <= u * (B2R a * Rabs (B2R c))).
  { destruct (Req_dec (B2R no) (B2R y)) as [EQ|NE].
    - left. rewrite EQ in RelC. replace (B2R y - B2R y) with 0 in RelC by ring. rewrite Rabs_R0, Rmult_0_r, Rminus_0_r in RelC. assert (X := Rabs_pos (B2R c)). destruct (Req_dec (B2R c) 0) as [|Z]; [assumption|]. apply Rabs_pos_lt in Z. lra.
    - right. assert (G := fl_gap no y Fo Fy Po ltac:(lra) NE).
      assert (G1 : u / 2 * (/ 2000000) <= u / 2 * B2R y) by (apply Rmult_le_compat_l; lra).
      assert (G2 : Rabs (B2R no - B2R y) <= Rabs (B2R c) + / 1000000 * Rabs (B2R no - B2R y)).
      { replace (B2R no - B2R y) with (B2R c + - (B2R c - (B2R no - B2R y))) at 1 by ring. eapply Rle_trans; [apply Rabs_triang|]. rewrite Rabs_Ropp. lra. }
      assert (G3 : / 4000000 * (/ 5000000 * u) <= B2R a * Rabs (B2R c)) by (apply Rmult_le_compat; lra).
      assert (G4 : u * (/ 4000000 * (/ 5000000 * u)) <= u * (B2R a * Rabs (B2R c))) by (apply Rmult_le_compat_l; lra).
      assert (EQ := eta_sq). cbn [pow] in EQ. assert (0 <= u * u) by apply Rle_0_sqr. lra. }
  exists a, b, c. repeat (split; [assumption|]). split; [lra|]. reflexivity.
Qed.
Lemma sphere_near (s : sphere FT) (r : ray FT) ip : usual_ray (origin r) (direction r) -> usual_radius (radius s) -> s_intersect_ray s r = Some ip ->
  let o := f3 (origin r) in let d := f3 (direction r) in let p := at_ray o d (B2R (sp_t ip)) in let R2 := B2R (radius s) * B2R (radius s) in
  finite (sp_t ip) /\ fall finite (sp_p ip) /\ Rabs (dot3 p p - R2) <= 72 * u * (dot3 o o + R2) /\ Rabs (dot3 (f3 (sp_p ip)) (f3 (sp_p ip)) - R2) <= 100 * u * (dot3 o o + R2).
Proof.
  intros UR UP HI o d p R2. destruct (coefs s r UR UP) as (a & b & c & Fa & Fb & Fc & Ba & Bb & Bc & HC & EA & EB & EC & BR & UNF). fold o d R2 in EA, EB, EC, BR.
  destruct UR as (Ho & Hd & HA). assert (U := u_q (f := f)). assert (EU := eta_u). assert (T30 := big_1e30). cbn [pow] in EU, T30.
  destruct (quad_res a b c Fa Fb Fc Ba Bb Bc HC) as (D & _ & QR).
  rewrite UNF in HI. destruct (solve_quadratic a b c) as [[t0 t1]|]; [|discriminate].
  assert (HT : exists t, (t = t0 \/ t = t1) /\ s_get_intersection s r t = Some ip). { destruct (s_get_intersection s r t0) eqn:E0; [injection HI as <-; eauto|eauto]. }
  destruct HT as (t & T01 & GI). destruct (gi_float _ _ _ _ GI) as (ET & EP & TN & _). assert (NN : nonnan t) by (apply fle_E in TN; tauto).
  destruct QR as (_ & QR & _). destruct (QR t T01 NN) as (Ft & Bt & Rt).
  assert (BQ : / 2000000 <= R2) by lra.
  destruct (near_real u eta (cX o) (cY o) (cZ o) (cX d) (cY d) (cZ d) R2 (B2R t) (B2R a) (B2R b) (B2R c) U eta_u BQ EA EB EC Bt Rt) as [NR AT].
  unfold p. rewrite EP, ET in *. split; [exact Ft|].
  assert (FP : fall finite (ray_eval r t)).
  { assert (G : forall i, ray_eval r t @ i = fadd (origin r @ i) (fmul (direction r @ i) t)).
    { intros i. unfold ray_eval. etransitivity; [exact (Vector.nth_map2 _ _ _ i i i eq_refl eq_refl)|]. exact (f_equal (fadd _) (Vector.nth_map _ _ i i eq_refl)). }
    intros i. rewrite G. destruct (Ho i) as [F1 B1]. destruct (Hd i) as [F2 B2]. cbn [pow] in Bt.
    assert (X : Rabs (B2R (direction r @ i) * B2R t) <= 1024 * 10 ^ 21) by (rewrite Rabs_mult; apply Rmult_le_compat; try apply Rabs_pos; [exact B2|cbn [pow]; exact Bt]). cbn [pow] in X.
    destruct (big_fin _ _ (fmul_Rnd _ t F2 Ft)) as [F3 E3]; [lra|].
    destruct (big_fin _ _ (fadd_Rnd (origin r @ i) _ F1 F3)) as [F4 _]; [|exact F4].
    replace (B2R (fmul (direction r @ i) t)) with ((B2R (fmul (direction r @ i) t) - B2R (direction r @ i) * B2R t) + B2R (direction r @ i) * B2R t) by ring.
    eapply Rle_trans; [apply Rabs_triang|]. eapply Rle_trans; [apply Rplus_le_compat_l, Rabs_triang|].
    assert (u * Rabs (B2R (direction r @ i) * B2R t) <= / 1000000 * Rabs (B2R (direction r @ i) * B2R t)) by (apply Rmult_le_compat_r; [apply Rabs_pos|lra]). lra. }
  split; [exact FP|].
  assert (PG : dot3 (at_ray o d (B2R t)) (at_ray o d (B2R t)) - R2 = dot3 d d * (B2R t * B2R t) + 2 * (cX o * cX d + cY o * cY d + cZ o * cZ d) * B2R t + dot3 o o - R2) by (unfold at_ray, dot3, add3, scl3; cbn [cX cY cZ]; ring).
  assert (NR' : Rabs (dot3 (at_ray o d (B2R t)) (at_ray o d (B2R t)) - R2) <= 72 * u * (dot3 o o + R2)) by (rewrite PG; exact NR). split; [exact NR'|].
  destruct (ray_err r t FP) as (PX & PY & PZ). fold o d in PX, PY, PZ. unfold at_ray, add3, abs3, scl3 in PX, PY, PZ. cbn [cX cY cZ] in PX, PY, PZ.
  assert (G2 : rel_err f 2 <= 201 / 100 * u). { unfold rel_err. cbn [pow]. assert (u * u <= / 1000000 * u) by (apply Rmult_le_compat_r; lra). lra. }
  assert (W : forall P x q, 0 <= q -> Rabs (P - x) <= rel_err f 2 * q + (1 + u) * eta -> Rabs (P - x) <= 201 / 100 * u * q + 101 / 100 * eta).
  { intros P x q Q0 H. eapply Rle_trans; [exact H|]. assert (rel_err f 2 * q <= 201 / 100 * u * q) by (apply Rmult_le_compat_r; assumption). assert (u * eta <= / 1000000 * eta) by (apply Rmult_le_compat_r; lra). lra. }
  assert (AP : forall x y, 0 <= Rabs x + Rabs y) by (intros x z; assert (X := Rabs_pos x); assert (Z := Rabs_pos z); lra).
  apply W in PX; [|apply AP]. apply W in PY; [|apply AP]. apply W in PZ; [|apply AP].
  apply (near_comp u eta) in PX; [|exact U|exact eta_u]. apply (near_comp u eta) in PY; [|exact U|exact eta_u]. apply (near_comp u eta) in PZ; [|exact U|exact eta_u].
  set (P := f3 (ray_eval r t)) in *. set (T := B2R t) in *.
  replace (dot3 P P - R2) with ((dot3 (at_ray o d T) (at_ray o d T) - R2) + (cX P * cX P - (cX o + T * cX d) * (cX o + T * cX d)) + (cY P * cY P - (cY o + T * cY d) * (cY o + T * cY d)) + (cZ P * cZ P - (cZ o + T * cZ d) * (cZ o + T * cZ d))) by (unfold at_ray, dot3, add3, scl3; cbn [cX cY cZ]; ring).
  eapply Rle_trans; [apply Rabs_triang|]. eapply Rle_trans; [apply Rplus_le_compat_r, Rabs_triang|]. eapply Rle_trans; [apply Rplus_le_compat_r, Rplus_le_compat_r, Rabs_triang|].
  assert (SUM : 82 / 10 * u * (cX o * cX o + cX d * cX d * (T * T)) + 82 / 10 * u * (cY o * cY o + cY d * cY d * (T * T)) + 82 / 10 * u * (cZ o * cZ o + cZ d * cZ d * (T * T)) = 82 / 10 * (u * (dot3 o o + dot3 d d * (T * T)))) by (unfold dot3; ring).
  assert (AT2 : dot3 d d * (T * T) <= 202 / 100 * (dot3 o o + R2)) by exact AT.
  assert (UT : u * (dot3 o o + dot3 d d * (T * T)) <= u * (dot3 o o + 202 / 100 * (dot3 o o + R2))) by (apply Rmult_le_compat_l; lra).
  assert (UR3 : u * / 1048576 <= u * R2) by (apply Rmult_le_compat_l; lra). assert (UO : 0 <= u * dot3 o o). { apply Rmult_le_pos; [lra|]. unfold dot3. assert (X1 := Rle_0_sqr (cX o)). assert (X2 := Rle_0_sqr (cY o)). assert (X3 := Rle_0_sqr (cZ o)). unfold Rsqr in *. lra. } lra.
Qed.
End N.
