(** Rounding-error bounds for lengths, normalisation, cross products, ray evaluation, matrix
    products and affine maps. *)
From Coq Require Import ZArith Reals Bool List Lra Lia.
From Coq Require Vector Fin.
From Flocq Require Import Core BinarySingleNaN Relative Plus_error.
From Verif.Model Require Import FloatBase Scalar Float Interval Outcome Vec Transform XReal Geometry.
From Verif Require Import Spec SpecGeom SpecShape.
From Verif.Proofs Require Import BitsLemmas FloatLemmas ScalarProofs XRealLemmas VectorExact VectorFloat MatrixThms TransformFloat TransformCases SlabFloat.
Open Scope R_scope.
Notation "v @ i" := (Vector.nth v i) (at level 20, only parsing).
Local Arguments finite {f} x : simpl never.

(** ** real lengths *)
Lemma sqrt_close S S' g h : 0 <= S -> 0 <= S' -> 0 <= g <= 1 -> 0 <= h -> Rabs (S' - S) <= g * S + h ->
  Rabs (sqrt S' - sqrt S) <= g * sqrt S + sqrt h.
Proof.
  intros HS HS' Hg Hh K. apply Rabs_le_inv in K.
  assert (A := sqrt_pos S). assert (B := sqrt_pos S'). assert (C := sqrt_pos h).
  assert (A2 := sqrt_sqrt S HS). assert (B2 := sqrt_sqrt S' HS'). assert (C2 := sqrt_sqrt h Hh).
  set (a := sqrt S) in *. set (b := sqrt S') in *. set (c := sqrt h) in *.
  assert (P1 : 0 <= a * c) by now apply Rmult_le_pos. assert (P2 : 0 <= b * c) by now apply Rmult_le_pos.
  assert (P3 : 0 <= g * (a * a)) by (apply Rmult_le_pos; [lra|nra]). assert (P4 : 0 <= g * (a * c)) by (apply Rmult_le_pos; lra).
  assert (P5 : 0 <= g * (g * (a * a))) by (apply Rmult_le_pos; lra).
  assert (P6 : g * (g * (a * a)) <= g * (a * a)) by nra.
  apply Rabs_le. split.
  - assert ((1 - g) * a <= b + c); [|lra]. apply Rsqr_incr_0_var; [|lra]. unfold Rsqr. nra.
  - assert (b <= (1 + g) * a + c); [|lra]. apply Rsqr_incr_0_var; [|nra]. unfold Rsqr. nra.
Qed.
Lemma rdot_nonneg {n} (a : rvec n) : 0 <= rdot a a.
Proof. rewrite <- rlen_sq. assert (K := sqrt_pos (rdot a a)). fold (rlen a) in K. nra. Qed.
Lemma rlen_pos {n} (a : rvec n) : 0 <= rlen a.
Proof. apply sqrt_pos. Qed.
Lemma rsum_le {n} : forall g h : Fin.t n -> R, (forall i, g i <= h i) -> rsum g <= rsum h.
Proof.
  induction n as [|n IH]; intros g h K; cbn; [lra|]. assert (A := K Fin.F1). specialize (IH (fun i => g (Fin.FS i)) (fun i => h (Fin.FS i)) (fun i => K (Fin.FS i))). lra.
Qed.
Lemma rlen_le {n} (a b : rvec n) : (forall i, Rabs (a i) <= b i) -> rlen a <= rlen b.
Proof.
  intros K. unfold rlen. apply sqrt_le_1; [apply rdot_nonneg|apply rdot_nonneg|]. unfold rdot. apply rsum_le. intros i.
  specialize (K i). assert (P := Rabs_pos (a i)). replace (a i * a i) with (Rabs (a i) * Rabs (a i)); [nra|].
  rewrite <- Rabs_mult. apply Rabs_pos_eq. nra.
Qed.
Lemma rsum_scale {n} : forall k (g : Fin.t n -> R), rsum (fun i => k * g i) = k * rsum g.
Proof. induction n as [|n IH]; intros k g; cbn; [ring|]. rewrite (IH k (fun i => g (Fin.FS i))). ring. Qed.
Lemma rsum_ext {n} : forall g h : Fin.t n -> R, (forall i, g i = h i) -> rsum g = rsum h.
Proof. intros g h K. apply Rle_antisym; apply rsum_le; intros i; rewrite K; lra. Qed.
Lemma rlen_scale {n} k (a : rvec n) : rlen (fun i => k * a i) = Rabs k * rlen a.
Proof.
  unfold rlen. replace (rdot (fun i => k * a i) (fun i => k * a i)) with ((k * k) * rdot a a).
  - rewrite sqrt_mult_alt by nra. f_equal. rewrite <- (sqrt_Rsqr_abs k). reflexivity.
  - unfold rdot. rewrite <- rsum_scale. apply rsum_ext. intros i. ring.
Qed.
Lemma rlen_const {n} k : 0 <= k -> rlen (fun _ : Fin.t n => k) = sqrt (INR n) * k.
Proof.
  intros Hk. unfold rlen. assert (E : rdot (fun _ : Fin.t n => k) (fun _ => k) = INR n * (k * k)).
  { unfold rdot. induction n as [|n IH]; [cbn; ring|]. rewrite S_INR. cbn [rsum]. rewrite IH. ring. }
  rewrite E, sqrt_mult_alt by apply pos_INR. f_equal. now apply sqrt_square.
Qed.
Lemma rlen_abs {n} (a : rvec n) : rlen (fun i => Rabs (a i)) = rlen a.
Proof.
  unfold rlen. f_equal. unfold rdot. apply rsum_ext. intros i. rewrite <- Rabs_mult. apply Rabs_pos_eq. nra.
Qed.
Lemma rlen_diff {n} (a b : rvec n) : Rabs (rlen a - rlen b) <= rlen (fun i => a i - b i).
Proof.
  assert (A := rlen_triangle (fun i => a i - b i) b). assert (B := rlen_triangle (fun i => b i - a i) a).
  cbv beta in A, B. rewrite (rlen_ext (fun i => a i - b i + b i) a) in A by (intros; ring).
  rewrite (rlen_ext (fun i => b i - a i + a i) b) in B by (intros; ring).
  rewrite <- rdot_sym_sub in B. apply Rabs_le. lra.
Qed.
(** componentwise error k|b| + c *)
Lemma rlen_close {n} (a b : rvec n) k c : 0 <= k -> 0 <= c -> (forall i, Rabs (a i - b i) <= k * Rabs (b i) + c) ->
  Rabs (rlen a - rlen b) <= k * rlen b + sqrt (INR n) * c.
Proof.
  intros Hk Hc K. eapply Rle_trans; [apply rlen_diff|]. eapply Rle_trans; [apply (rlen_le _ (fun i => k * Rabs (b i) + c)), K|].
  eapply Rle_trans; [apply rlen_triangle|]. rewrite (rlen_scale k (fun i => Rabs (b i))), rlen_abs, rlen_const, (Rabs_pos_eq k) by assumption. lra.
Qed.
Lemma rsum_pos {n} : forall g : Fin.t n -> R, (forall i, 0 <= g i) -> 0 <= rsum g.
Proof. induction n as [|n IH]; intros g P; cbn; [lra|]. assert (A := P Fin.F1). specialize (IH (fun i => g (Fin.FS i)) (fun i => P (Fin.FS i))). lra. Qed.
Lemma rsum_elem {n} (i : Fin.t n) : forall g : Fin.t n -> R, (forall i, 0 <= g i) -> g i <= rsum g.
Proof.
  induction i as [m|m j IH]; intros g P; cbn.
  - assert (K := rsum_pos (fun i => g (Fin.FS i)) (fun i => P (Fin.FS i))). lra.
  - specialize (IH (fun i => g (Fin.FS i)) (fun i => P (Fin.FS i))). cbv beta in IH. assert (A := P Fin.F1). lra.
Qed.
Lemma comp_le_len {n} (a : rvec n) i : Rabs (a i) <= rlen a.
Proof.
  apply Rsqr_incr_0_var; [|apply rlen_pos]. unfold Rsqr. rewrite rlen_sq, <- Rabs_mult, (Rabs_pos_eq (a i * a i)) by nra.
  exact (rsum_elem i (fun i => a i * a i) (fun i => Rle_0_sqr (a i))).
Qed.

Section VE.
Context {f : fmt} {m : libm f}.
Notation FT := (float f).
Notation u := (unit_roundoff f).
Notation eta := (smallest_float f / 2).
Definition gam (n : nat) : R := INR n * u / (1 - INR n * u).

Lemma fsqrt_fin (x : FT) : finite (fsqrt x) -> finite x.
Proof. destruct x as [s|[]| |s mm e H]; try reflexivity; discriminate. Qed.
Lemma sqrt_err (x : FT) : finite (fsqrt x) -> 0 <= B2R x -> Rabs (B2R (fsqrt x) - sqrt (B2R x)) <= u * sqrt (B2R x) + eta.
Proof.
  intros F P. assert (Fx := fsqrt_fin x F). rewrite (Rnd_finite _ _ (proj1 (fsqrt_Rnd x Fx P)) F).
  eapply Rle_trans; [apply round_err|]. rewrite (Rabs_pos_eq (sqrt _)) by apply sqrt_pos. lra.
Qed.
Lemma gam_pos n : INR n * u <= 1 / 2 -> 0 <= gam n <= 1.
Proof.
  intros H. unfold gam. assert (P := pos_INR n). assert (U := u_pos (f := f)). assert (Q : 0 <= INR n * u) by (apply Rmult_le_pos; lra).
  split; [apply Rmult_le_pos; [lra|]; apply Rlt_le, Rinv_0_lt_compat; lra|].
  apply Rmult_le_reg_r with (1 - INR n * u); [lra|]. unfold Rdiv. rewrite Rmult_assoc, Rinv_l by lra. lra.
Qed.
Lemma norm_err {n} (v : vec FT n) : finite (norm v) -> INR n * u <= 1 / 2 ->
  Rabs (B2R (norm v) - rlen (fvals v)) <= ((1 + u) * gam n + u) * rlen (fvals v) + (1 + u) * sqrt (INR n * smallest_float f) + eta.
Proof.
  intros F H. change (norm v) with (fsqrt (square_norm v)) in *. assert (F2 := fsqrt_fin _ F).
  assert (N2 := nonnan_of_finite _ F2). assert (P2 : 0 <= B2R (square_norm v)).
  { destruct (sqnorm_ok v) as [_ K]. specialize (K N2). apply fle_E in K. destruct K as (_ & _ & K). rewrite (E_B2R _ F2) in K. exact K. }
  assert (D := dot_err_gamma v v). rewrite <- sqnorm_dot in D. specialize (D F2 H). fold (gam n) in D.
  assert (G := gam_pos n H). assert (U := u_pos (f := f)). assert (SF : 0 < smallest_float f) by apply bpow_gt_0.
  assert (E1 : rsum (fun i => Rabs (fvals v i * fvals v i)) = rdot (fvals v) (fvals v)).
  { unfold rdot. apply rsum_ext. intros i. apply Rabs_pos_eq. nra. }
  rewrite E1 in D.
  assert (Q := sqrt_close _ _ _ _ (rdot_nonneg (fvals v)) P2 G (Rmult_le_pos _ _ (pos_INR n) (Rlt_le _ _ SF)) D). fold (rlen (fvals v)) in Q.
  assert (R1 := sqrt_err _ F P2). set (N := B2R (fsqrt (square_norm v))) in *. set (r := sqrt (B2R (square_norm v))) in *.
  set (L := rlen (fvals v)) in *. set (h := sqrt (INR n * smallest_float f)) in *.
  replace (N - L) with ((N - r) + (r - L)) by ring. eapply Rle_trans; [apply Rabs_triang|].
  assert (r <= L + (gam n * L + h)). { apply Rabs_le_inv in Q. lra. }
  assert (u * r <= u * (L + (gam n * L + h))) by (apply Rmult_le_compat_l; lra). lra.
Qed.

(** ** distance *)
Lemma sqnorm_fin {n} (v : vec FT n) : finite (square_norm v) -> fall finite v.
Proof. rewrite sqnorm_dot. intros K. exact (proj1 (proj2 (fold_fin v v _ K))). Qed.
Lemma sub_fin (x y : FT) : finite (fsub x y) -> finite x /\ finite y.
Proof. destruct x as [s|[]| |s mm e H], y as [t|[]| |t m' e' H']; intros N; split; try reflexivity; discriminate N. Qed.
Lemma nth_sub {n} (p q : vec FT n) i : v_sub p q @ i = fsub (p @ i) (q @ i).
Proof. exact (Vector.nth_map2 _ p q i i i eq_refl eq_refl). Qed.
Lemma distance_err {n} (p q : vec FT n) : finite (distance p q) -> INR n * u <= 1 / 2 ->
  let L := rlen (fun i => fvals p i - fvals q i) in
  Rabs (B2R (distance p q) - L) <= (((1 + u) * gam n + u) * (1 + u) + u) * L + (1 + u) * sqrt (INR n * smallest_float f) + eta.
Proof.
  intros F H L. change (distance p q) with (norm (v_sub p q)) in *. assert (D := norm_err _ F H).
  assert (FD := sqnorm_fin _ (fsqrt_fin _ F)).
  assert (K : Rabs (rlen (fvals (v_sub p q)) - L) <= u * L + sqrt (INR n) * 0).
  { apply rlen_close; [apply Rlt_le, u_pos|lra|]. intros i. unfold fvals. assert (Fi := FD i). rewrite nth_sub in *.
    destruct (sub_fin _ _ Fi) as [A B]. eapply Rle_trans; [apply sub_rel; assumption|]. lra. }
  set (L' := rlen (fvals (v_sub p q))) in *. set (N := B2R (norm (v_sub p q))) in *.
  assert (U := u_pos (f := f)). assert (G := gam_pos n H). assert (LP : 0 <= L) by apply rlen_pos.
  replace (N - L) with ((N - L') + (L' - L)) by ring. eapply Rle_trans; [apply Rabs_triang|].
  assert (B : L' <= (1 + u) * L) by (apply Rabs_le_inv in K; lra).
  assert (C : 0 <= (1 + u) * gam n + u) by (assert (0 <= u * gam n) by (apply Rmult_le_pos; lra); lra).
  assert (X : ((1 + u) * gam n + u) * L' <= ((1 + u) * gam n + u) * ((1 + u) * L)) by (apply Rmult_le_compat_l; lra). lra.
Qed.

(** ** normalisation of 3-vectors of length at least 2^-40 *)
Lemma u_small : 0 < u <= / 16777216.
Proof.
  split; [apply u_pos|]. unfold unit_roundoff. change (/ 16777216) with (bpow radix2 (-24)). apply bpow_le. destruct f; vm_compute; discriminate.
Qed.
Lemma tiny : sqrt (INR 3 * smallest_float f) + eta <= u / 64 * bpow radix2 (-40).
Proof.
  assert (A : smallest_float f <= (u * bpow radix2 (-48)) * (u * bpow radix2 (-48))).
  { unfold smallest_float, unit_roundoff. rewrite <- !bpow_plus. apply bpow_le. destruct f; vm_compute; discriminate. }
  assert (U := u_small). assert (B : 0 < bpow radix2 (-48)) by apply bpow_gt_0. set (w := u * bpow radix2 (-48)) in *.
  assert (W : 0 < w) by (apply Rmult_lt_0_compat; lra). assert (SF : 0 < smallest_float f) by apply bpow_gt_0.
  assert (C : sqrt (INR 3 * smallest_float f) <= 2 * w).
  { rewrite <- (sqrt_square (2 * w)) by lra. apply sqrt_le_1; [apply Rmult_le_pos; [apply pos_INR|lra]|nra|]. simpl INR. nra. }
  assert (w <= / 16777216 * / 281474976710656). { unfold w. change (/ 281474976710656) with (bpow radix2 (-48)). apply Rmult_le_compat_r; lra. }
  assert (D : eta <= w). { assert (w * w <= w * 1) by (apply Rmult_le_compat_l; lra). lra. }
  replace (u / 64 * bpow radix2 (-40)) with (4 * w). { lra. }
  unfold w. change (bpow radix2 (-40)) with (/ 1099511627776). change (bpow radix2 (-48)) with (/ 281474976710656). field.
Qed.
Lemma nth_divs {n} (v : vec FT n) x i : v_divs v x @ i = fdiv (v @ i) x.
Proof. exact (Vector.nth_map _ v i i eq_refl). Qed.
Lemma div_fin_small (x y : FT) : finite x -> finite y -> 0 < B2R y -> Rabs (B2R x) <= 2 * B2R y -> finite (fdiv x y).
Proof.
  intros Fx Fy Py K. assert (R1 := fdiv_Rnd x y Fx Fy ltac:(lra)). 
  assert (two : finite (f_of_Z 2 : FT) /\ B2R (f_of_Z 2 : FT) = 2) by (apply f_of_Z_exact; destruct f; vm_compute; discriminate).
  assert (mtwo : finite (f_of_Z (-2) : FT) /\ B2R (f_of_Z (-2) : FT) = -2) by (apply (f_of_Z_exact (-2)); destruct f; vm_compute; discriminate).
  destruct two as [F2 V2], mtwo as [F3 V3].
  assert (Q : -2 <= B2R x / B2R y <= 2).
  { apply Rabs_le_inv in K. split; apply Rmult_le_reg_r with (B2R y); try assumption; unfold Rdiv; rewrite Rmult_assoc, Rinv_l by lra; lra. }
  assert (T2 := finite_E_range _ F2). assert (T3 := finite_E_range _ F3).
  assert (A := Rnd_le (f_of_Z 2 : FT) _ _ R1 ltac:(rewrite E_B2R by assumption; lra)).
  assert (B := Rnd_ge (f_of_Z (-2) : FT) _ _ R1 ltac:(rewrite E_B2R by assumption; lra)).
  assert (A' : E (fdiv x y) < bpow radix2 (emax f)) by lra. assert (B' : - bpow radix2 (emax f) < E (fdiv x y)) by lra. clear A B T2 T3 V2 V3 F2 F3.
  destruct R1 as [N _]. destruct (fdiv x y) as [s|[]| |s mm e H]; try reflexivity; [| |discriminate N]; cbn in A', B'; lra.
Qed.
Lemma normalize_err (v : vec FT 3) : finite (norm v) -> bpow radix2 (-40) <= rlen (fvals v) ->
  fall finite (normalize v) /\ Rabs (rlen (fvals (normalize v)) - 1) <= 6 * u /\
  forall i, Rabs (fvals (normalize v) i - fvals v i / rlen (fvals v)) <= 6 * u.
Proof.
  intros F H. assert (US := u_small). assert (T := tiny).
  assert (I3 : INR 3 = 3) by (simpl; lra).
  assert (H3 : INR 3 * u <= 1 / 2) by (rewrite I3; lra).
  assert (D := norm_err v F H3). assert (G : gam 3 <= 301 / 100 * u).
  { unfold gam. rewrite I3. apply Rmult_le_reg_r with (1 - 3 * u); [lra|]. unfold Rdiv at 1. rewrite Rmult_assoc, Rinv_l by lra. nra. }
  assert (GP := gam_pos 3 H3). set (L := rlen (fvals v)) in *. set (N := B2R (norm v)) in *.
  assert (B40 : 0 < bpow radix2 (-40)) by apply bpow_gt_0. assert (LP : 0 < L) by lra.
  assert (ET : 0 < eta) by apply (eta_pos (f := f)). assert (SQ := sqrt_pos (INR 3 * smallest_float f)).
  set (h := sqrt (INR 3 * smallest_float f)) in *. set (et := smallest_float f / 2) in *.
  assert (uL : 0 < u * L) by (apply Rmult_lt_0_compat; lra).
  assert (X : h + et <= / 64 * (u * L)). { assert (u * bpow radix2 (-40) <= u * L) by (apply Rmult_le_compat_l; lra). lra. }
  assert (Y : Rabs (N - L) <= 41 / 10 * (u * L)).
  { eapply Rle_trans; [exact D|]. assert (Y1 : (1 + u) * gam 3 + u <= 402 / 100 * u) by nra.
    assert (Y2 : ((1 + u) * gam 3 + u) * L <= 402 / 100 * (u * L)) by (rewrite <- Rmult_assoc; apply Rmult_le_compat_r; lra).
    assert (Y3 : u * h <= h) by (rewrite <- (Rmult_1_l h) at 2; apply Rmult_le_compat_r; lra). lra. }
  apply Rabs_le_inv in Y. assert (uL2 : u * L <= / 16777216 * L) by (apply Rmult_le_compat_r; lra). assert (NP : 0 < N) by lra.
  (* L / N *)
  set (k := L / N). assert (KN : k * N = L) by (unfold k; field; lra).
  assert (KB : Rabs (k - 1) <= 42 / 10 * u).
  { replace (k - 1) with ((L - N) * / N) by (unfold k; field; lra). rewrite Rabs_mult, (Rabs_pos_eq (/ N)) by (apply Rlt_le, Rinv_0_lt_compat; lra).
    apply Rmult_le_reg_r with N; [lra|]. rewrite Rmult_assoc, Rinv_l, Rmult_1_r by lra. apply Rabs_le.
    assert (42 / 10 * u * N >= 42 / 10 * u * (L - 41 / 10 * (u * L))) by (apply Rle_ge, Rmult_le_compat_l; lra).
    assert (42 / 10 * u * (41 / 10 * (u * L)) <= / 100 * (u * L)). { assert (u * (u * L) <= / 16777216 * (u * L)) by (apply Rmult_le_compat_r; lra). lra. }
    lra. }
  assert (KB' := Rabs_le_inv _ _ KB).
  assert (FV := sqnorm_fin _ (fsqrt_fin _ F)).
  assert (FQ : forall i, finite (normalize v @ i)).
  { intros i. change (normalize v) with (v_divs v (norm v)). rewrite nth_divs. apply div_fin_small; [apply FV|exact F|exact NP|].
    fold N. assert (Q := comp_le_len (fvals v) i). fold L in Q. unfold fvals in Q. lra. }
  assert (QE : forall i, Rabs (fvals (normalize v) i - k * (/ L * fvals v i)) <= u * Rabs (k * (/ L * fvals v i)) + et).
  { intros i. replace (k * (/ L * fvals v i)) with (fvals v i / N) by (unfold k; field; lra). unfold fvals. specialize (FQ i).
    change (normalize v) with (v_divs v (norm v)) in *. rewrite nth_divs in *.
    rewrite (Rnd_finite _ _ (fdiv_Rnd _ _ (FV i) F ltac:(fold N; lra)) FQ). apply round_err. }
  split; [exact FQ|]. assert (etS : et <= / 64 * u).
  { apply Rle_trans with (u / 64 * bpow radix2 (-40)); [lra|]. assert (bpow radix2 (-40) <= 1) by (change 1 with (bpow radix2 0); apply bpow_le; lia).
    assert (u / 64 * bpow radix2 (-40) <= u / 64 * 1) by (apply Rmult_le_compat_l; lra). lra. }
  split.
  - assert (C := rlen_close (fvals (normalize v)) (fun i => k * (/ L * fvals v i)) u et ltac:(lra) ltac:(lra) QE).
    rewrite (rlen_scale k (fun i => / L * fvals v i)), (rlen_scale (/ L)), (Rabs_pos_eq (/ L)), (Rabs_pos_eq k) in C.
    2: lra. 2: apply Rlt_le, Rinv_0_lt_compat; lra.
    fold L in C. rewrite Rinv_l, Rmult_1_r in C by lra.
    assert (S3 : sqrt (INR 3) <= 2). { replace 2 with (sqrt 4) by (replace 4 with (2 * 2) by ring; apply sqrt_square; lra). apply sqrt_le_1; rewrite ?I3; lra. }
    assert (S3' : sqrt (INR 3) * et <= 2 * et) by (apply Rmult_le_compat_r; lra).
    apply Rabs_le_inv in C. assert (u * k <= 11 / 10 * u) by nra. apply Rabs_le. lra.
  - intros i. specialize (QE i). set (w := fvals v i / L). replace (/ L * fvals v i) with w in QE by (unfold w; field; lra).
    assert (W : Rabs w <= 1).
    { unfold w, Rdiv. rewrite Rabs_mult, (Rabs_pos_eq (/ L)) by (apply Rlt_le, Rinv_0_lt_compat; lra).
      apply Rmult_le_reg_r with L; [lra|]. rewrite Rmult_assoc, Rinv_l by lra. assert (Q := comp_le_len (fvals v) i). fold L in Q. lra. }
    replace (fvals (normalize v) i - w) with ((fvals (normalize v) i - k * w) + (k - 1) * w) by ring.
    eapply Rle_trans; [apply Rabs_triang|]. rewrite !Rabs_mult in *. rewrite (Rabs_pos_eq k) in QE by lra.
    assert (WP := Rabs_pos w). assert (k * Rabs w <= 11 / 10). { assert (k * Rabs w <= k * 1) by (apply Rmult_le_compat_l; lra). lra. }
    assert (u * (k * Rabs w) <= u * (11 / 10)) by (apply Rmult_le_compat_l; lra).
    assert (Rabs (k - 1) * Rabs w <= 42 / 10 * u * 1) by (apply Rmult_le_compat; try apply Rabs_pos; lra). lra.
Qed.
End VE.
