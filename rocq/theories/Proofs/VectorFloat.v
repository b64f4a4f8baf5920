(** Dot product, norm and cross product of float vectors. *)
From Coq Require Import ZArith Reals Bool Lra Lia.
From Coq Require Vector Fin.
From Flocq Require Import Core BinarySingleNaN Relative Plus_error.
From Verif.Model Require Import FloatBase Scalar Float Vec Transform.
From Verif Require Import Spec SpecGeom.
From Verif.Proofs Require Import BitsLemmas FloatLemmas XRealLemmas TransformFloat MatrixThms.
Open Scope R_scope.

Section VF.
Context {f : fmt}.
Notation FT := (float f).
Notation step := (fun res a b : FT => fadd res (fmul a b)).

Lemma fmulC (x y : FT) : fmul x y = fmul y x.
Proof. exact (fmul_comm f x y). Qed.
Lemma dot_comm_fold {n} : forall (v w : vec FT n) acc,
  Vector.fold_left2 step acc v w = Vector.fold_left2 step acc w v.
Proof.
  induction v as [|x n v IH]; intros w acc.
  - now rewrite (vec_0 w).
  - destruct (vec_S w) as (y & w0 & ->). cbn [Vector.fold_left2 Vector.caseS' Vector.caseS]. rewrite (fmulC x y). apply IH.
Qed.
Lemma dot_comm {n} (v w : vec FT n) : dot v w = dot w v.
Proof. exact (dot_comm_fold v w _). Qed.
Lemma sqnorm_dot_fold {n} : forall (v : vec FT n) acc,
  Vector.fold_left (fun res a => fadd res (fmul a a)) acc v = Vector.fold_left2 step acc v v.
Proof. induction v as [|x n v IH]; intros acc; [reflexivity|]. cbn. apply IH. Qed.
Lemma sqnorm_dot {n} (v : vec FT n) : square_norm v = dot v v.
Proof. exact (sqnorm_dot_fold v _). Qed.

(** *** sign and NaN of squares *)
Definition nn (x : FT) : Prop := nonnan x /\ 0 <= E x.
Lemma fmul_self (x : FT) : nonnan x -> nn (fmul x x).
Proof.
  intros N. destruct x as [s|s| |s m e H]; try easy.
  - split; [reflexivity|]. cbn. lra.
  - split; [destruct s; reflexivity|]. destruct s; cbn; pose proof (top_pos (f := f)); lra.
  - set (y := B754_finite s m e H). destruct (fmul_Rnd y y eq_refl eq_refl) as [N1 E1]. split; [exact N1|].
    rewrite E1. unfold clampE. apply (Rle_trans _ (Rmin (bpow radix2 (emax f)) (rndf f (B2R y * B2R y)))); [|apply Rmax_r].
    apply Rmin_glb; [left; apply bpow_gt_0|]. rewrite <- (rnd_0 (f := f)). apply rnd_le. nra.
Qed.
Lemma fadd_nn (x y : FT) : nn x -> nn y -> nn (fadd x y).
Proof.
  intros [Nx Hx] [Ny Hy]. pose proof (top_pos (f := f)) as TP.
  assert (K : forall z : FT, nonnan z -> 0 <= E z -> z = finf false \/ finite z).
  { intros z Nz Hz. destruct z as [s|[]| |s m e H]; auto; try (right; reflexivity); try discriminate.
    cbn in Hz. lra. }
  destruct (K x Nx Hx) as [->|Fx].
  - destruct (K y Ny Hy) as [->|Fy].
    + split; [reflexivity|]. cbn. lra.
    + destruct y; try discriminate; (split; [reflexivity|]); cbn; lra.
  - destruct (K y Ny Hy) as [->|Fy].
    + destruct x; try discriminate; (split; [reflexivity|]); cbn; lra.
    + destruct (fadd_Rnd x y Fx Fy) as [N1 E1]. split; [exact N1|]. rewrite E1. rewrite <- !E_B2R by assumption.
      unfold clampE. apply (Rle_trans _ (Rmin (bpow radix2 (emax f)) (rndf f (E x + E y)))); [|apply Rmax_r].
      apply Rmin_glb; [lra|]. rewrite <- (rnd_0 (f := f)). apply rnd_le. lra.
Qed.
Lemma sqnorm_fold {n} : forall (v : vec FT n) acc, nn acc -> fall nonnan v ->
  nn (Vector.fold_left (fun res a => fadd res (fmul a a)) acc v).
Proof.
  induction v as [|x n v IH]; intros acc Ha Hv; [exact Ha|]. cbn. apply IH.
  - apply fadd_nn; [exact Ha|]. apply fmul_self. exact (Hv Fin.F1).
  - intros i. exact (Hv (Fin.FS i)).
Qed.
Lemma fadd_nan (x y : FT) : nonnan (fadd x y) -> nonnan x /\ nonnan y.
Proof. destruct x as [s|s| |s m e H], y as [t|t| |t m' e' H']; intros N; split; try reflexivity; try exact N; discriminate N. Qed.
Lemma fmul_nan (x y : FT) : nonnan (fmul x y) -> nonnan x /\ nonnan y.
Proof. destruct x as [s|s| |s m e H], y as [t|t| |t m' e' H']; intros N; split; try reflexivity; try exact N; discriminate N. Qed.
Lemma sqnorm_nan_fold {n} : forall (v : vec FT n) acc,
  nonnan (Vector.fold_left (fun res a => fadd res (fmul a a)) acc v) -> nonnan acc /\ fall nonnan v.
Proof.
  induction v as [|x n v IH]; intros acc H.
  - split; [exact H|]. intros i. inversion i.
  - cbn in H. apply IH in H. destruct H as [H1 H2]. apply fadd_nan in H1. destruct H1 as [H1 H3]. apply fmul_nan in H3.
    split; [exact H1|]. intros i. apply (Fin.caseS' i); [apply H3|]. exact H2.
Qed.
Lemma nn_zero : nn (fzero false).
Proof. split; [reflexivity|]. cbn. lra. Qed.
Lemma sqnorm_ok {n} (v : vec FT n) : (nonnan (square_norm v) <-> fall nonnan v) /\
  (nonnan (square_norm v) -> fle (fzero false) (square_norm v)).
Proof.
  split; [split|].
  - intros H. exact (proj2 (sqnorm_nan_fold v _ H)).
  - intros H. exact (proj1 (sqnorm_fold v _ nn_zero H)).
  - intros H. assert (K := sqnorm_fold v _ nn_zero (proj2 (sqnorm_nan_fold v _ H))).
    apply fle_E. destruct K as [K1 K2]. split; [reflexivity|]. split; [exact K1|]. exact K2.
Qed.

(** *** finiteness is inherited by the arguments *)
Lemma fadd_fin (x y : FT) : finite (fadd x y) -> finite x /\ finite y.
Proof.
  destruct x as [s|[]| |s m e H], y as [t|[]| |t m' e' H']; intros N; split; try reflexivity; discriminate N.
Qed.
Lemma fmul_fin (x y : FT) : finite (fmul x y) -> finite x /\ finite y.
Proof.
  destruct x as [s|s| |s m e H], y as [t|t| |t m' e' H']; intros N; split; try reflexivity; discriminate N.
Qed.
Lemma fold_fin {n} : forall (v w : vec FT n) acc, finite (Vector.fold_left2 step acc v w) ->
  finite acc /\ fall finite v /\ fall finite w.
Proof.
  induction v as [|x n v IH]; intros w acc H.
  - rewrite (vec_0 w) in *. split; [exact H|]. split; intros i; inversion i.
  - destruct (vec_S w) as (y & w0 & ->). cbn [Vector.fold_left2 Vector.caseS' Vector.caseS] in H.
    apply IH in H. destruct H as (H1 & H2 & H3). apply fadd_fin in H1. destruct H1 as [H1 H4]. apply fmul_fin in H4. destruct H4 as [H4 H5].
    split; [exact H1|]. split; intros i; apply (Fin.caseS' i); auto.
Qed.

(** *** rounding errors *)
Notation u := (unit_roundoff f).
Notation eta := (smallest_float f / 2).
Lemma u_pos : 0 < u. Proof. apply bpow_gt_0. Qed.
Lemma eta_pos : 0 < eta. Proof. assert (0 < smallest_float f) by apply bpow_gt_0. lra. Qed.
Lemma half_u : / 2 * bpow radix2 (- prec f + 1) = u.
Proof. rewrite bpow_plus. unfold unit_roundoff. change (bpow radix2 1) with 2. field. Qed.
Lemma fexp_FLT : SpecFloat.fexp (prec f) (emax f) = FLT_exp (3 - emax f - prec f) (prec f).
Proof. reflexivity. Qed.
Lemma mul_err (x y : FT) : finite (fmul x y) ->
  Rabs (B2R (fmul x y) - B2R x * B2R y) <= u * Rabs (B2R x * B2R y) + eta.
Proof.
  intros F. destruct (fmul_fin x y F) as [Fx Fy]. rewrite (Rnd_finite _ _ (fmul_Rnd x y Fx Fy) F).
  destruct (error_N_FLT radix2 (3 - emax f - prec f) (prec f) ltac:(destruct f; reflexivity) (fun z => negb (Z.even z)) (B2R x * B2R y))
    as (eps & et & H1 & H2 & _ & H3).
  change (rndf f (B2R x * B2R y)) with (round radix2 (FLT_exp (3 - emax f - prec f) (prec f)) (Znearest (fun z => negb (Z.even z))) (B2R x * B2R y)).
  rewrite H3. replace (_ - _) with (B2R x * B2R y * eps + et) by ring.
  eapply Rle_trans; [apply Rabs_triang|]. apply Rplus_le_compat.
  - rewrite Rabs_mult, Rmult_comm. apply Rmult_le_compat_r; [apply Rabs_pos|]. rewrite <- half_u. exact H1.
  - unfold smallest_float. lra.
Qed.
Lemma add_err (x y : FT) : finite (fadd x y) ->
  Rabs (B2R (fadd x y) - (B2R x + B2R y)) <= u * Rabs (B2R x + B2R y).
Proof.
  intros F. destruct (fadd_fin x y F) as [Fx Fy]. rewrite (Rnd_finite _ _ (fadd_Rnd x y Fx Fy) F).
  destruct (FLT_plus_error_N_ex radix2 (3 - emax f - prec f) (prec f) (fun z => negb (Z.even z)) (B2R x) (B2R y)) as (eps & H1 & H2).
  - apply (generic_format_B2R (prec f) (emax f)).
  - apply (generic_format_B2R (prec f) (emax f)).
  - change (rndf f (B2R x + B2R y)) with (round radix2 (FLT_exp (3 - emax f - prec f) (prec f)) (Znearest (fun z => negb (Z.even z))) (B2R x + B2R y)).
    rewrite H2. replace (_ - _) with ((B2R x + B2R y) * eps) by ring.
    rewrite Rabs_mult, Rmult_comm. apply Rmult_le_compat_r; [apply Rabs_pos|].
    eapply Rle_trans; [exact H1|]. assert (Eu : u_ro radix2 (prec f) = u).
    { unfold u_ro. apply half_u. }
    rewrite Eu. apply (Rmult_le_reg_r (1 + u)); [pose proof u_pos; lra|]. unfold Rdiv. rewrite Rmult_assoc, Rinv_l by (pose proof u_pos; lra).
    pose proof u_pos. nra.
Qed.

Lemma rsum_abs_pos {n} : forall g : Fin.t n -> R, 0 <= rsum (fun i => Rabs (g i)).
Proof. induction n as [|n IH]; intros g; cbn; [lra|]. pose proof (Rabs_pos (g Fin.F1)). specialize (IH (fun i => g (Fin.FS i))). cbn in IH. lra. Qed.

Lemma fold_err {n} : forall (v w : vec FT n) acc, finite (Vector.fold_left2 step acc v w) ->
  Rabs (B2R (Vector.fold_left2 step acc v w) - (B2R acc + rdot (fvals v) (fvals w)))
  <= ((1 + u) ^ n - 1) * Rabs (B2R acc) + ((1 + u) ^ S n - 1) * rsum (fun i => Rabs (fvals v i * fvals w i))
     + INR n * (1 + u) ^ n * eta.
Proof.
  induction v as [|x n v IH]; intros w acc F.
  - rewrite (vec_0 w). cbn. replace (_ - _) with 0 by ring. rewrite Rabs_R0. lra.
  - destruct (vec_S w) as (y & w0 & ->). cbn [Vector.fold_left2 Vector.caseS' Vector.caseS] in *.
    assert (F1 := proj1 (fold_fin _ _ _ F)). assert (F2 := proj2 (fadd_fin _ _ F1)).
    specialize (IH w0 _ F). assert (E1 := add_err _ _ F1). assert (E2 := mul_err _ _ F2).
    set (res := Vector.fold_left2 step (fadd acc (fmul x y)) v w0) in *.
    set (s' := B2R (fadd acc (fmul x y))) in *. set (p := B2R (fmul x y)) in *. set (s := B2R acc) in *. set (q := B2R x * B2R y) in *.
    unfold rdot. cbn [rsum].
    change (rsum (fun i : Fin.t n => fvals (Vector.cons FT x n v) (Fin.FS i) * fvals (Vector.cons FT y n w0) (Fin.FS i))) with (rdot (fvals v) (fvals w0)).
    change (rsum (fun i : Fin.t n => Rabs (fvals (Vector.cons FT x n v) (Fin.FS i) * fvals (Vector.cons FT y n w0) (Fin.FS i)))) with (rsum (fun i => Rabs (fvals v i * fvals w0 i))).
    change (fvals (Vector.cons FT x n v) Fin.F1 * fvals (Vector.cons FT y n w0) Fin.F1) with q.
    set (D := rdot (fvals v) (fvals w0)) in *. set (A := rsum (fun i => Rabs (fvals v i * fvals w0 i))) in *.
    assert (HA : 0 <= A) by apply (rsum_abs_pos (fun i => fvals v i * fvals w0 i)).
    assert (Hu := u_pos). assert (He := eta_pos).
    assert (HP : 1 <= (1 + u) ^ n) by (apply pow_R1_Rle; lra).
    rewrite S_INR. cbn [pow] in *. set (P := (1 + u) ^ n) in *. assert (HN := pos_INR n). set (N := INR n) in *.
    assert (Hs := Rabs_pos s). assert (Hq := Rabs_pos q).
    assert (Ap : Rabs p <= (1 + u) * Rabs q + eta).
    { replace p with ((p - q) + q) by ring. eapply Rle_trans; [apply Rabs_triang|]. lra. }
    assert (Ad : Rabs (s' - (s + q)) <= u * Rabs s + (2 * u + u * u) * Rabs q + (1 + u) * eta).
    { replace (s' - (s + q)) with ((s' - (s + p)) + (p - q)) by ring. eapply Rle_trans; [apply Rabs_triang|].
      assert (T1 : u * Rabs (s + p) <= u * Rabs s + u * Rabs p) by (pose proof (Rabs_triang s p); nra). 
      assert (T2 : u * Rabs p <= u * ((1 + u) * Rabs q + eta)) by nra. lra. }
    assert (As : Rabs s' <= (1 + u) * Rabs s + (1 + u) * (1 + u) * Rabs q + (1 + u) * eta).
    { replace s' with ((s' - (s + q)) + (s + q)) by ring. eapply Rle_trans; [apply Rabs_triang|]. pose proof (Rabs_triang s q). lra. }
    replace (B2R res - (s + (q + D))) with ((B2R res - (s' + D)) + (s' - (s + q))) by ring.
    eapply Rle_trans; [apply Rabs_triang|].
    assert (M : (P - 1) * Rabs s' <= (P - 1) * ((1 + u) * Rabs s + (1 + u) * (1 + u) * Rabs q + (1 + u) * eta)) by (apply Rmult_le_compat_l; lra).
    assert (X1 : 0 <= (1 + u) * P * u * A) by (repeat apply Rmult_le_pos; lra).
    assert (X2 : 0 <= N * P * u * eta) by (repeat apply Rmult_le_pos; lra).
    lra.
Qed.
Lemma dot_err {n} (v w : vec FT n) : finite (dot v w) ->
  Rabs (B2R (dot v w) - rdot (fvals v) (fvals w))
  <= ((1 + u) ^ n - 1) * rsum (fun i => Rabs (fvals v i * fvals w i)) + INR n * (1 + u) ^ n * (smallest_float f / 2).
Proof.
  destruct v as [|x n v].
  - intros _. rewrite (vec_0 w). cbn. replace (_ - _) with 0 by ring. rewrite Rabs_R0. lra.
  - destruct (vec_S w) as (y & w0 & ->). intros F.
    change (finite (Vector.fold_left2 step (fadd (fzero false) (fmul x y)) v w0)) in F.
    change (dot (Vector.cons FT x n v) (Vector.cons FT y n w0)) with (Vector.fold_left2 step (fadd (fzero false) (fmul x y)) v w0).
    assert (F1 := proj1 (fold_fin _ _ _ F)). assert (F2 := proj2 (fadd_fin _ _ F1)).
    assert (E0 := fold_err v w0 _ F). assert (E2 := mul_err _ _ F2).
    assert (E1 : B2R (fadd (fzero false) (fmul x y)) = B2R (fmul x y)).
    { rewrite (Rnd_finite _ _ (fadd_Rnd (fzero false) (fmul x y) eq_refl F2) F1). cbn [B2R fzero]. rewrite Rplus_0_l.
      apply rnd_id. apply (generic_format_B2R (prec f) (emax f)). }
    rewrite E1 in E0.
    set (res := Vector.fold_left2 step (fadd (fzero false) (fmul x y)) v w0) in *.
    set (p := B2R (fmul x y)) in *. set (q := B2R x * B2R y) in *.
    unfold rdot. cbn [rsum].
    change (rsum (fun i : Fin.t n => fvals (Vector.cons FT x n v) (Fin.FS i) * fvals (Vector.cons FT y n w0) (Fin.FS i))) with (rdot (fvals v) (fvals w0)).
    change (rsum (fun i : Fin.t n => Rabs (fvals (Vector.cons FT x n v) (Fin.FS i) * fvals (Vector.cons FT y n w0) (Fin.FS i)))) with (rsum (fun i => Rabs (fvals v i * fvals w0 i))).
    change (fvals (Vector.cons FT x n v) Fin.F1 * fvals (Vector.cons FT y n w0) Fin.F1) with q.
    set (D := rdot (fvals v) (fvals w0)) in *. set (A := rsum (fun i => Rabs (fvals v i * fvals w0 i))) in *.
    assert (HA : 0 <= A) by apply (rsum_abs_pos (fun i => fvals v i * fvals w0 i)).
    assert (Hu := u_pos). assert (He := eta_pos).
    assert (HP : 1 <= (1 + u) ^ n) by (apply pow_R1_Rle; lra).
    rewrite S_INR. cbn [pow] in *. set (P := (1 + u) ^ n) in *. assert (HN := pos_INR n). set (N := INR n) in *.
    assert (Hq := Rabs_pos q).
    assert (Ap : Rabs p <= (1 + u) * Rabs q + eta).
    { replace p with ((p - q) + q) by ring. eapply Rle_trans; [apply Rabs_triang|]. lra. }
    replace (B2R res - (q + D)) with ((B2R res - (p + D)) + (p - q)) by ring.
    eapply Rle_trans; [apply Rabs_triang|].
    assert (M : (P - 1) * Rabs p <= (P - 1) * ((1 + u) * Rabs q + eta)) by (apply Rmult_le_compat_l; lra).
    assert (X2 : 0 <= N * P * u * eta) by (repeat apply Rmult_le_pos; lra).
    assert (X3 : 0 <= P * u * eta) by (repeat apply Rmult_le_pos; lra).
    lra.
Qed.
Lemma pow_gamma n : INR n * u < 1 -> (1 + u) ^ n <= / (1 - INR n * u).
Proof.
  intros H. assert (Hu := u_pos). assert (Hu1 : u < 1).
  { unfold unit_roundoff. apply (bpow_lt radix2 _ 0). destruct f; reflexivity. }
  apply (Rmult_le_reg_r (1 - INR n * u)); [lra|]. rewrite Rinv_l by lra.
  assert (B : 1 - INR n * u <= (1 - u) ^ n).
  { clear H. induction n as [|n IH]; [cbn; lra|]. rewrite S_INR. cbn [pow]. assert (HN := pos_INR n).
    assert (0 <= (1 - u) ^ n) by (apply pow_le; lra).
    apply (Rle_trans _ ((1 - u) * (1 - INR n * u))); [|apply Rmult_le_compat_l; lra].
    assert (0 <= INR n * u * u) by (repeat apply Rmult_le_pos; lra). lra. }
  assert (P0 : 0 <= (1 + u) ^ n) by (apply pow_le; lra).
  apply (Rle_trans _ ((1 + u) ^ n * (1 - u) ^ n)); [now apply Rmult_le_compat_l|].
  rewrite <- Rpow_mult_distr. apply (Rle_trans _ (1 ^ n)); [apply pow_incr; split; nra|rewrite pow1; lra].
Qed.
Lemma dot_err_gamma {n} (v w : vec FT n) : finite (dot v w) -> INR n * u <= 1 / 2 ->
  Rabs (B2R (dot v w) - rdot (fvals v) (fvals w))
  <= INR n * u / (1 - INR n * u) * rsum (fun i => Rabs (fvals v i * fvals w i)) + INR n * smallest_float f.
Proof.
  intros F H. eapply Rle_trans; [apply (dot_err v w F)|]. assert (G := pow_gamma n ltac:(lra)).
  assert (HA := rsum_abs_pos (fun i => fvals v i * fvals w i)). cbn in HA.
  assert (He := eta_pos). assert (HN := pos_INR n). assert (Hu := u_pos).
  apply Rplus_le_compat.
  - apply Rmult_le_compat_r; [exact HA|]. replace (INR n * u / (1 - INR n * u)) with (/ (1 - INR n * u) - 1) by (field; lra). lra.
  - assert ((1 + u) ^ n <= 2). { eapply Rle_trans; [exact G|]. replace 2 with (/ (1 / 2)) by lra. apply Rinv_le; lra. }
    replace (INR n * smallest_float f) with (INR n * 2 * (smallest_float f / 2)) by field.
    apply Rmult_le_compat_r; [lra|]. apply Rmult_le_compat_l; lra.
Qed.

(** *** cross product *)
Lemma sub_anti (p q : FT) : fsame (fsub p q) (fneg (fsub q p)).
Proof.
  destruct (BinarySingleNaN.is_finite p) eqn:Fp; [destruct (BinarySingleNaN.is_finite q) eqn:Fq|].
  - left. apply feq_E. destruct (fsub_fadd p q Fp Fq) as [N1 E1]. destruct (fsub_fadd q p Fq Fp) as [N2 E2].
    split; [exact N1|]. split; [now apply fneg_nonnan|]. rewrite fneg_E, E1, E2.
    replace (B2R p - B2R q) with (- (B2R q - B2R p)) by ring. rewrite round_NE_opp.
    unfold clampE. set (t := round _ _ _ _). set (k := bpow radix2 (emax f)). assert (0 < k) by apply bpow_gt_0.
    unfold Rmax, Rmin. repeat destruct Rle_dec; lra.
  - destruct p as [s|s| |s m e H], q as [t|t| |t m' e' H']; try discriminate; try (right; split; reflexivity); left; destruct t; reflexivity.
  - destruct p as [s|s| |s m e H], q as [t|t| |t m' e' H']; try discriminate; try (right; split; reflexivity);
    try (left; destruct s; reflexivity); destruct s, t; (left; reflexivity) || (right; split; reflexivity).
Qed.
Lemma cross_anti (a b : vec FT 3) i : fsame (Vector.nth (cross a b) i) (Vector.nth (v_neg (cross b a)) i).
Proof.
  revert i. apply (fin3_case (fun i => fsame (Vector.nth (cross a b) i) (Vector.nth (v_neg (cross b a)) i))).
  - change (fsame (fsub (fmul (vy a) (vz b)) (fmul (vz a) (vy b))) (fneg (fsub (fmul (vy b) (vz a)) (fmul (vz b) (vy a))))).
    rewrite (fmulC (vy a) (vz b)), (fmulC (vz a) (vy b)). apply sub_anti.
  - change (fsame (fsub (fmul (vz a) (vx b)) (fmul (vx a) (vz b))) (fneg (fsub (fmul (vz b) (vx a)) (fmul (vx b) (vz a))))).
    rewrite (fmulC (vz a) (vx b)), (fmulC (vx a) (vz b)). apply sub_anti.
  - change (fsame (fsub (fmul (vx a) (vy b)) (fmul (vy a) (vx b))) (fneg (fsub (fmul (vx b) (vy a)) (fmul (vy b) (vx a))))).
    rewrite (fmulC (vx a) (vy b)), (fmulC (vy a) (vx b)). apply sub_anti.
Qed.
Lemma sub_self (p : FT) : nonnan (fsub p p) -> feq (fsub p p) (fzero false).
Proof.
  intros N. destruct p as [s|s| |s m e H]; try discriminate.
  - destruct s; reflexivity.
  - destruct s; discriminate.
  - apply feq_E. split; [exact N|]. split; [reflexivity|].
    destruct (fsub_fadd (B754_finite s m e H : FT) (B754_finite s m e H : FT) eq_refl eq_refl) as [_ ->].
    replace (_ - _) with 0 by ring. rewrite rnd_0. rewrite clampE_range; [reflexivity|]. pose proof (top_pos (f := f)). lra.
Qed.
Lemma cross_self (a : vec FT 3) i : nonnan (Vector.nth (cross a a) i) -> feq (Vector.nth (cross a a) i) (fzero false).
Proof.
  revert i. apply (fin3_case (fun i => nonnan (Vector.nth (cross a a) i) -> feq (Vector.nth (cross a a) i) (fzero false))).
  - change (nonnan (fsub (fmul (vy a) (vz a)) (fmul (vz a) (vy a))) -> feq (fsub (fmul (vy a) (vz a)) (fmul (vz a) (vy a))) (fzero false)).
    rewrite (fmulC (vy a) (vz a)). apply sub_self.
  - change (nonnan (fsub (fmul (vz a) (vx a)) (fmul (vx a) (vz a))) -> feq (fsub (fmul (vz a) (vx a)) (fmul (vx a) (vz a))) (fzero false)).
    rewrite (fmulC (vz a) (vx a)). apply sub_self.
  - change (nonnan (fsub (fmul (vx a) (vy a)) (fmul (vy a) (vx a))) -> feq (fsub (fmul (vx a) (vy a)) (fmul (vy a) (vx a))) (fzero false)).
    rewrite (fmulC (vx a) (vy a)). apply sub_self.
Qed.
(** the products do not overflow when the components are below sqrt(MAX)/2 *)
Lemma cross_self_fin (a : vec FT 3) : fall (fun x => finite x /\ Rabs (B2R x) <= bpow radix2 (emax f / 2 - 1)) a ->
  feqv (cross a a) (Vector.const (fzero false) 3).
Proof.
  intros H i. rewrite Vector.const_nth. apply cross_self. revert i.
  assert (P : forall x y : FT, finite x /\ Rabs (B2R x) <= bpow radix2 (emax f / 2 - 1) -> finite y /\ Rabs (B2R y) <= bpow radix2 (emax f / 2 - 1) -> finite (fmul x y)).
  { intros x y [Fx Hx] [Fy Hy]. pose proof (Bmult_correct (prec f) (emax f) _ _ mode_NE x y) as K. simpl round_mode in K.
    assert (M : Rabs (B2R x * B2R y) <= bpow radix2 (emax f - 2)).
    { rewrite Rabs_mult. replace (emax f - 2)%Z with ((emax f / 2 - 1) + (emax f / 2 - 1))%Z by (destruct f; reflexivity).
      rewrite bpow_plus. apply Rmult_le_compat; auto using Rabs_pos. }
    rewrite Rlt_bool_true in K.
    - destruct K as (_ & K & _). unfold finite in *. rewrite Fx, Fy in K. exact K.
    - eapply Rle_lt_trans; [|apply (bpow_lt radix2 (emax f - 2) (emax f)); lia].
      apply abs_round_le_generic; auto.
      + apply (fexp_correct (prec f) (emax f)). apply prec_gt_0_f.
      + apply valid_rnd_N.
      + apply generic_format_bpow. unfold SpecFloat.fexp, SpecFloat.emin. destruct f; vm_compute; discriminate. }
  assert (Q : forall x y : FT, finite x -> finite y -> nonnan (fsub x y)) by (intros x y Fx Fy; apply (fsub_fadd x y Fx Fy)).
  apply (fin3_case (fun i => nonnan (Vector.nth (cross a a) i))).
  - exact (Q _ _ (P _ _ (H (Fin.FS Fin.F1)) (H (Fin.FS (Fin.FS Fin.F1)))) (P _ _ (H (Fin.FS (Fin.FS Fin.F1))) (H (Fin.FS Fin.F1)))).
  - exact (Q _ _ (P _ _ (H (Fin.FS (Fin.FS Fin.F1))) (H Fin.F1)) (P _ _ (H Fin.F1) (H (Fin.FS (Fin.FS Fin.F1))))).
  - exact (Q _ _ (P _ _ (H Fin.F1) (H (Fin.FS Fin.F1))) (P _ _ (H (Fin.FS Fin.F1)) (H Fin.F1))).
Qed.
End VF.
