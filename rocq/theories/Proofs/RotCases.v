(** Concrete cases for float rotations. *)
From Coq Require Import ZArith Reals Bool List Lra Lia.
From Coq Require Vector Fin SpecFloat.
From Flocq Require Import Core BinarySingleNaN.
From Verif.Model Require Import FloatBase Scalar Float Interval Outcome Vec Transform XReal Geometry.
From Verif Require Import Spec SpecGeom SpecShape SpecTrig SpecError SpecRot.
From Verif.Proofs Require Import BitsLemmas FloatLemmas ScalarProofs XRealLemmas VectorFloat VectorCases TransformFloat TransformCases SlabFloat SlabCases VectorErr MapErr ErrCases DiskFloat IntervalTrig2 DiskCases CameraFloat QuadFloat RotFloat.
Open Scope R_scope.
Notation "v @ i" := (Vector.nth v i) (at level 20, only parsing).

(** an axis whose squared length overflows: the "rotation" by 3 radians shrinks the axis *)
Lemma rotate_huge f (m : libm f) : good_sin_cos m ->
  exists (v : vec (float f) 3) (a : float f), fall finite v /\ f3 v <> zero3 /\ finite a /\ ~ float_rotation 54 (rotate v a) (dir3 (f3 v)) (B2R a).
Proof.
  intros G. set (mx := fmax_value : float f). set (v := vec3 mx (fzero false) (fzero false)). set (a := f_of_Z 3 : float f).
  assert (Fa : finite a) by (unfold a; destruct f; reflexivity).
  assert (Va : B2R a = 3) by (apply (small_Z f); lia).
  assert (P : 0 < B2R mx) by (unfold mx; destruct f; unfold fmax_value, Bmax_float, B2R; apply F2R_gt_0; reflexivity).
  exists v, a. split; [|split; [|split; [exact Fa|]]].
  - unfold v, fall; a3; unfold mx; destruct f; reflexivity.
  - intros K. assert (K0 : cX (f3 v) = 0) by (rewrite K; reflexivity). change (cX (f3 v)) with (B2R mx) in K0. lra.
  - intros (A & HM & _ & _ & H). specialize (H (mk3 1 0 0)). destruct H as (H & _).
    assert (N : normalize v = vec3 (fzero false) (fzero false) (fzero false)).
    { rewrite (vec3_eta (normalize v)). unfold v, mx. f_equal; apply B2SF_inj; destruct f; vm_compute; reflexivity. }
    assert (U := u_q (f := f)). destruct (G a Fa) as (_ & _ & WC & _). apply wulp_err in WC; [|apply COS_bound]. destruct WC as [FC EC].
    destruct (G a Fa) as (WS & _ & _ & _). apply wulp_err in WS; [|apply SIN_bound]. destruct WS as [FS _].
    assert (E : A i0 i0 = B2R (m_cos m a)).
    { rewrite <- (proj2 (HM i0 i0)). rewrite rotate_eq, N.
      change (B2R (fadd (fadd (fmul sone (m_cos m a)) (fmul (fmul (fzero false) (fsub sone (m_cos m a))) (fadd (fadd (fadd (fzero false) (fmul (fzero false) sone)) (fmul (fzero false) (fzero false))) (fmul (fzero false) (fzero false)))))
        (fmul (fsub (fmul (fzero false) (fzero false)) (fmul (fzero false) (fzero false))) (m_sin m a))) = B2R (m_cos m a)).
      assert (V1 := val_one (f := f)). assert (V0 := val_zero (f := f) false).
      assert (Z0 : val (fmul (fzero false) (fzero false) : float f) 0) by (apply val_mul_zero; [apply V0|exact V0]).
      assert (D0 : val (fadd (fadd (fadd (fzero false) (fmul (fzero false) sone)) (fmul (fzero false) (fzero false))) (fmul (fzero false) (fzero false)) : float f) 0).
      { repeat (apply val_add_zero; [|exact Z0]). apply val_add_zero; [exact V0|]. apply val_zero_mul; [exact V0|apply V1]. }
      assert (W : finite (fsub sone (m_cos m a) : float f)).
      { apply (CameraFloat.big_fin _ _ (fsub_Rnd _ _ (proj1 V1) FC)). rewrite (proj2 V1). assert (C := COS_bound (B2R a)). apply Rabs_le_inv in EC. apply Rle_trans with 100; [|exact small_120]. apply Rabs_le. lra. }
      refine (proj2 (val_add_zero _ _ _ (val_add_zero _ _ _ (val_one_mul _ _ _ V1 (val_self _ FC)) _) _)).
      - apply val_mul_zero; [apply (val_zero_mul _ _ V0 W)|exact D0].
      - apply val_zero_mul; [|exact FS]. apply val_sub_zero; exact Z0. }
    assert (D : dir3 (f3 v) = mk3 1 0 0).
    { assert (F3 : f3 v = mk3 (B2R mx) 0 0) by reflexivity. assert (L : len3 (f3 v) = B2R mx). { rewrite F3. unfold len3, dot3; cbn [cX cY cZ]. replace (B2R mx * B2R mx + 0 * 0 + 0 * 0) with (B2R mx * B2R mx) by ring. apply sqrt_square. lra. }
      unfold dir3. rewrite L, F3. unfold scl3; cbn [cX cY cZ]. f_equal; field; lra. }
    rewrite D in H. unfold app_vec, turned, add3, scl3, cross3, dot3, size3 in H; cbn [cX cY cZ] in H. rewrite E, Rabs_R0, Rabs_R1, Va in H. rewrite Va in EC.
    assert (C2 : cos 3 < 0) by (apply cos_lt_0; [assert (Q := PI_4)|assert (Q := PI2_3_2)]; lra).
    apply Rabs_le_inv in H. apply Rabs_le_inv in EC. lra.
Qed.

Lemma C86_sample f (m : libm f) : let v := fv f 1 (-2) 3 in let w := fv f 4 0 7 in let a := f_of_Z 5 : float f in
  good_sin_cos (exact_libm f) /\ finite a /\ finite (norm v) /\ bpow radix2 (-40) <= len3 (f3 v) /\ fall finite w /\ len3 (f3 w) <= bpow radix2 100.
Proof.
  intros v w a. split; [apply exact_libm_good|]. split; [unfold a; destruct f; reflexivity|]. destruct (C76_sample f m) as (H1 & _ & _ & H2). split; [exact H1|].
  split; [rewrite <- rlen_f3; exact H2|]. split; [unfold fall, w, fv; a3; destruct f; reflexivity|].
  assert (V : forall z, (Z.abs z <= 100)%Z -> B2R (f_of_Z z : float f) = IZR z) by (intros; now apply (small_Z f)).
  replace (f3 w) with (mk3 4 0 7) by (unfold f3, w, fv; cbn [Vector.nth vec3 Vector.caseS]; rewrite !V by lia; reflexivity).
  apply Rle_trans with 100; [|apply Rle_trans with (bpow radix2 7); [cbn; lra|apply bpow_le; lia]]. apply len_le; [lra|]. unfold dot3; cbn [cX cY cZ]. lra.
Qed.

(** an up direction whose squared length overflows gives no camera at all *)
Lemma look_huge f (m : libm f) : exists p t up : vec (float f) 3, fall finite p /\ fall finite t /\ fall finite up /\ 0 < up_sine (f3 p) (f3 t) (f3 up) /\
  forall A, ~ fM (t_matrix (look_at p t up)) A.
Proof.
  set (mx := fmax_value : float f). set (p := fv f 0 0 1). set (t := fv f 0 0 0). set (up := vec3 mx (fzero false) (fzero false)).
  assert (P : 0 < B2R mx) by (unfold mx; destruct f; unfold fmax_value, Bmax_float, B2R; apply F2R_gt_0; reflexivity).
  assert (V : forall z, (Z.abs z <= 100)%Z -> B2R (f_of_Z z : float f) = IZR z) by (intros; now apply (small_Z f)).
  exists p, t, up. split; [unfold fall, p, fv; a3; destruct f; reflexivity|]. split; [unfold fall, t, fv; a3; destruct f; reflexivity|].
  split; [unfold up, fall; a3; unfold mx; destruct f; reflexivity|]. split.
  - assert (EP : f3 p = mk3 0 0 1) by (unfold f3, p, fv; cbn [Vector.nth vec3 Vector.caseS]; rewrite !V by lia; reflexivity).
    assert (ET : f3 t = mk3 0 0 0) by (unfold f3, t, fv; cbn [Vector.nth vec3 Vector.caseS]; rewrite !V by lia; reflexivity).
    assert (EU : f3 up = mk3 (B2R mx) 0 0) by reflexivity. rewrite EP, ET, EU. clear EP ET EU.
    assert (L1 : len3 (sub3 (mk3 0 0 1) (mk3 0 0 0)) = 1). { transitivity (sqrt 1); [|apply sqrt_1]. unfold len3, dot3, sub3; cbn [cX cY cZ]. replace ((0 - 0) * (0 - 0) + (0 - 0) * (0 - 0) + (1 - 0) * (1 - 0)) with 1 by ring. reflexivity. }
    assert (L2 : len3 (mk3 (B2R mx) 0 0) = B2R mx). { unfold len3, dot3; cbn [cX cY cZ]. replace (B2R mx * B2R mx + 0 * 0 + 0 * 0) with (B2R mx * B2R mx) by ring. apply sqrt_square. lra. }
    unfold up_sine, back_axis, dir3. rewrite L1, L2. unfold cross3, scl3, sub3; cbn [cX cY cZ]. unfold len3, dot3; cbn [cX cY cZ]. apply sqrt_lt_R0.
    rewrite Rinv_1, Rinv_l by lra. lra.
  - intros A H. destruct (H i0 i0) as [F _]. revert F. unfold finite, p, t, up, mx. destruct f; vm_compute; discriminate.
Qed.
Lemma C87_sample f (m : libm f) : let p := fv f 0 0 4 in let t := fv f 0 0 (-2) in let up := fv f 0 3 0 in
  fall finite p /\ fall finite t /\ fall finite up /\ bpow radix2 (-30) <= len3 (f3 up) <= bpow radix2 50 /\
  bpow radix2 (-30) <= len3 (sub3 (f3 p) (f3 t)) <= bpow radix2 50 /\ len3 (f3 p) <= bpow radix2 100 /\ up_sine (f3 p) (f3 t) (f3 up) = 1 /\
  right_axis (f3 p) (f3 t) (f3 up) = mk3 1 0 0.
Proof.
  intros p t up. assert (V : forall z, (Z.abs z <= 100)%Z -> B2R (f_of_Z z : float f) = IZR z) by (intros; now apply (small_Z f)).
  assert (EP : f3 p = mk3 0 0 4) by (unfold f3, p, fv; cbn [Vector.nth vec3 Vector.caseS]; rewrite !V by lia; reflexivity).
  assert (ET : f3 t = mk3 0 0 (-2)) by (unfold f3, t, fv; cbn [Vector.nth vec3 Vector.caseS]; rewrite !V by lia; reflexivity).
  assert (EU : f3 up = mk3 0 3 0) by (unfold f3, up, fv; cbn [Vector.nth vec3 Vector.caseS]; rewrite !V by lia; reflexivity).
  split; [unfold fall, p, fv; a3; destruct f; reflexivity|]. split; [unfold fall, t, fv; a3; destruct f; reflexivity|]. split; [unfold fall, up, fv; a3; destruct f; reflexivity|].
  rewrite EP, ET, EU. clear EP ET EU.
  assert (SQ : forall a r, 0 <= r -> dot3 a a = r * r -> len3 a = r) by (intros a r R E; unfold len3; rewrite E; apply sqrt_square, R).
  assert (L1 : len3 (mk3 0 3 0) = 3) by (apply SQ; [lra|unfold dot3; cbn [cX cY cZ]; ring]). assert (L2 : len3 (sub3 (mk3 0 0 4) (mk3 0 0 (-2))) = 6) by (apply SQ; [lra|unfold dot3, sub3; cbn [cX cY cZ]; ring]). assert (L3 : len3 (mk3 0 0 4) = 4) by (apply SQ; [lra|unfold dot3; cbn [cX cY cZ]; ring]).
  assert (B0 : bpow radix2 (-30) <= 1) by (change 1 with (bpow radix2 0); apply bpow_le; lia). assert (B1 : 8 <= bpow radix2 50) by (change 8 with (bpow radix2 3); apply bpow_le; lia). assert (B2 : 8 <= bpow radix2 100) by (change 8 with (bpow radix2 3); apply bpow_le; lia).
  rewrite L1, L2, L3. split; [lra|]. split; [lra|]. split; [lra|].
  assert (C : cross3 (dir3 (mk3 0 3 0)) (back_axis (mk3 0 0 4) (mk3 0 0 (-2))) = mk3 1 0 0).
  { unfold back_axis, dir3. rewrite L1, L2. unfold cross3, scl3, sub3; cbn [cX cY cZ]. f_equal; field. }
  assert (L4 : len3 (mk3 1 0 0) = 1) by (apply SQ; [lra|unfold dot3; cbn [cX cY cZ]; ring]).
  unfold up_sine, right_axis. rewrite C. split; [exact L4|]. unfold dir3. rewrite L4. unfold scl3; cbn [cX cY cZ]. f_equal; field.
Qed.
