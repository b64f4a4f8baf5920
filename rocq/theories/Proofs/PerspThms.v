(** perspective in f32/f64: the projection, the round trip and concrete cases. *)
From Coq Require Import ZArith Reals Bool Lra Lia.
From Coq Require Vector Fin SpecFloat.
From Flocq Require Import Core BinarySingleNaN.
From Verif.Model Require Import FloatBase Scalar Float Interval Outcome Vec Transform XReal.
From Verif Require Import Spec SpecGeom SpecShape SpecTrig SpecError SpecQuad SpecPersp.
From Verif.Proofs Require Import BitsLemmas FloatLemmas ScalarProofs XRealLemmas VectorFloat VectorCases TransformFloat TransformCases SlabFloat SlabCases VectorErr MapErr ErrCases IntervalTrig IntervalTrig2 DiskFloat DiskCases CameraFloat QuadFloat SphereNear RotFloat PerspFloat.
Open Scope R_scope.
Notation "v @ i" := (Vector.nth v i) (at level 20, only parsing).

Section T.
Context {f : fmt} {m : libm f}.
Notation FT := (float f).
Notation u := (unit_roundoff f).
Lemma persp_float (fov near far : FT) (p : vec FT 3) : good_tan m -> usual_fov fov -> usual_planes near far -> usual_point p ->
  let N := B2R near in let F := B2R far in let P := f3 p in let K := 1 + Rabs (cZ P) / N in
  exists q, t_map_point (perspective fov near far) p = Ret q /\ near_screen (6 * u) (7 * u * depth_scale N F (cZ P)) q (screen (tan (B2R fov / 2)) N F P) /\
    (64 * u * K <= 1 -> exists r, t_map_point_inverse (perspective fov near far) q = Ret r /\ near_rel3 (41 * u * K) r P).
Proof.
  intros GT UF UP (PX & PY & FZ & HZ) N F P K. destruct (entry_e fov GT UF) as (AE & MT & T0). destruct (entry_ab near far UP) as (AA & AB & MA & MB). fold N F in AA, AB, MA, MB.
  set (t := tan (B2R fov / 2)) in *. rewrite persp_eq. unfold t_map_point, t_map_point_inverse. cbn [tm tminv].
  set (e := pe fov) in *. set (a := pa near far) in *. set (b := pb near far) in *. clearbody e a b.
  assert (U := u_q (f := f)).
  assert (ME : mg 11 12 (B2R e)) by (eapply mg_le; [eapply mg_ap; [exact AE|lra|apply mg_opp, mg_inv, MT]|lia|lia]).
  assert (MA' := mg_ap _ _ _ _ _ AA ltac:(lra) MA). assert (MB' := mg_ap _ _ _ _ _ AB ltac:(lra) MB). change (mg 1 80 (B2R a)) in MA'. change (mg 11 70 (B2R b)) in MB'.
  destruct UP as (FN & FF & LN & LF & HF). fold N in LN, LF. fold F in LF, HF.
  apply zm_size in PX. apply zm_size in PY. change (p @ Fin.F1) with (vx p) in PX. change (p @ (Fin.FS Fin.F1)) with (vy p) in PY. change (p @ (Fin.FS (Fin.FS Fin.F1))) with (vz p) in FZ.
  change (cZ (f3 p)) with (B2R (vz p)) in HZ.
  assert (MZ : mg 10 16 (B2R (vz p))) by (unfold mg; change (bpow radix2 (-(10))) with (/ 1024); change (bpow radix2 16) with 65536; exact HZ).
  destruct (fwd e a b p (proj1 AE) (proj1 AA) (proj1 AB) ME MA' MB' PX PY FZ MZ) as (q & EQ & QX & QY & FQ & QZ).
  exists q. split; [exact EQ|].
  set (x := B2R (vx p)) in *. set (y := B2R (vy p)) in *. set (z := B2R (vz p)) in *.
  assert (NZ := mg_nz _ _ _ MZ). assert (PZ : 0 < Rabs z) by (apply Rabs_pos_lt, NZ). assert (IZ : 0 < / Rabs z) by (apply Rinv_0_lt_compat, PZ).
  assert (D0 : 0 < F - N) by lra. assert (A0 : 0 < F / (F - N)) by (apply Rdiv_lt_0_compat; lra).
  set (A := F / (F - N)) in *. assert (EB : F * N / (F - N) = A * N) by (unfold A; field; lra). rewrite EB in AB.
  destruct AE as (Fe & d1 & E1 & V1). destruct AA as (Fa & d2 & E2 & V2). destruct AB as (Fb & d3 & E3 & V3).
  assert (B0 : 0 < A * N) by (apply Rmult_lt_0_compat; lra).
  split.
  - split; [apply fall_3; [apply QX|apply QY|exact FQ]|].
    assert (XY : forall (s : FT) w, ap (21 / 10) s (w * B2R e / z) -> within_rel (6 * u) (B2R s) (- w / (z * t))).
    { intros s w (Fs & g & G & Vs). assert (H : Rabs (d1 + g + d1 * g) <= 6 * u).
      { eapply Rle_trans; [apply Rabs_triang|]. assert (Q := Rabs_triang d1 g). assert (Rabs (d1 * g) <= u * (/ 10)) by (rewrite Rabs_mult; replace (u * / 10) with (u * 4 * (/ 40)) by field; apply Rmult_le_compat; try apply Rabs_pos; lra). lra. }
      apply (form_rel _ _ _ _ H). rewrite Vs, V1. field. lra. }
    assert (ZZ : Rabs (B2R (vz q) - F * (z + N) / ((F - N) * z)) <= 7 * u * depth_scale N F z).
    { set (S := A + A * N / Rabs z). assert (DS : depth_scale N F z = S) by (unfold depth_scale, S; fold A; field; lra). rewrite DS.
      assert (EZ : F * (z + N) / ((F - N) * z) = A + A * N / z) by (unfold A; field; lra). rewrite EZ.
      assert (BZ : 0 < A * N / Rabs z) by (apply Rdiv_lt_0_compat; lra).
      assert (C2 := Rabs_le_inv _ _ E2). assert (C3 := Rabs_le_inv _ _ E3).
      assert (Aa : Rabs (B2R a) <= A * (1 + / 1000)). { rewrite V2, Rabs_mult, (Rabs_pos_eq A) by lra. apply Rmult_le_compat_l; [lra|]. apply Rabs_le. lra. }
      assert (Ab : Rabs (B2R b) / Rabs z <= A * N / Rabs z * (1 + / 1000)). { rewrite V3, Rabs_mult, (Rabs_pos_eq (A * N)) by lra. unfold Rdiv. rewrite Rmult_assoc, (Rmult_comm (Rabs (1 + d3))), <- Rmult_assoc. apply Rmult_le_compat_l; [unfold Rdiv in BZ; lra|]. apply Rabs_le. lra. }
      assert (Q1 : 32 / 10 * u * (Rabs (B2R a) + Rabs (B2R b) / Rabs z) <= 32 / 10 * u * (S * (1 + / 1000))) by (apply Rmult_le_compat_l; [lra|unfold S; lra]).
      assert (Q2 : Rabs (B2R a + B2R b / z - (A + A * N / z)) <= 31 / 10 * u * S).
      { rewrite V2, V3. replace (A * (1 + d2) + A * N * (1 + d3) / z - (A + A * N / z)) with (A * d2 + A * N * / z * d3) by (field; exact NZ). eapply Rle_trans; [apply Rabs_triang|].
        rewrite !Rabs_mult, Rabs_inv, (Rabs_pos_eq A), (Rabs_pos_eq N) by lra. fold (A * N / Rabs z).
        assert (A * Rabs d2 <= A * (21 / 10 * u)) by (apply Rmult_le_compat_l; lra). assert (A * N / Rabs z * Rabs d3 <= A * N / Rabs z * (31 / 10 * u)) by (apply Rmult_le_compat_l; lra).
        assert (0 <= A * u) by (apply Rmult_le_pos; lra). unfold S. lra. }
      replace (B2R (vz q) - (A + A * N / z)) with ((B2R (vz q) - (B2R a + B2R b / z)) + (B2R a + B2R b / z - (A + A * N / z))) by ring. eapply Rle_trans; [apply Rabs_triang|].
      assert (0 <= u * S) by (apply Rmult_le_pos; [lra|unfold S; lra]). lra. }
    split; [exact (XY _ _ QX)|]. split; [exact (XY _ _ QY)|exact ZZ].
  - intros HK.
    assert (AB : Rabs (B2R a) / Rabs (B2R b) <= (1 + / 1000) * / N).
    { assert (C2 := Rabs_le_inv _ _ E2). assert (C3 := Rabs_le_inv _ _ E3). rewrite V2, V3, !Rabs_mult, (Rabs_pos_eq A), (Rabs_pos_eq N), (Rabs_pos_eq (1 + d2)), (Rabs_pos_eq (1 + d3)) by lra.
      replace (A * (1 + d2) / (A * N * (1 + d3))) with ((1 + d2) * / (1 + d3) * / N) by (field; lra). apply Rmult_le_compat_r; [left; apply Rinv_0_lt_compat; lra|].
      apply Rmult_le_reg_r with (1 + d3); [lra|]. rewrite Rmult_assoc, Rinv_l by lra. lra. }
    assert (K0 : 1 + Rabs z * (Rabs (B2R a) / Rabs (B2R b)) <= (1 + / 1000) * K).
    { unfold K. change (cZ P) with z. apply Rmult_le_compat_l with (r := Rabs z) in AB; [|lra]. unfold Rdiv at 2. lra. }
    assert (HK' : 60 * u * (1 + Rabs z * (Rabs (B2R a) / Rabs (B2R b))) <= 1). { apply Rle_trans with (60 * u * ((1 + / 1000) * K)); [apply Rmult_le_compat_l; lra|]. assert (0 <= u * K); [|lra]. apply Rmult_le_pos; [lra|]. unfold K. assert (0 < Rabs (cZ P) / N) by (apply Rdiv_lt_0_compat; [exact PZ|lra]). lra. }
    destruct (bwd e a b q x y z Fe Fa Fb ME MA' MB' (proj2 PX) (proj2 PY) MZ QX QY FQ QZ HK') as (r & ER & FR & RX & RY & RZ).
    exists r. split; [exact ER|]. split; [exact FR|].
    assert (W : forall s w, within_rel (40 * u * (1 + Rabs z * (Rabs (B2R a) / Rabs (B2R b)))) s w -> within_rel (41 * u * K) s w).
    { unfold within_rel. intros s w H. apply Rle_trans with (1 := H). apply Rmult_le_compat_r; [apply Rabs_pos|]. apply Rle_trans with (40 * u * ((1 + / 1000) * K)); [apply Rmult_le_compat_l; lra|]. assert (0 <= u * K); [|lra]. apply Rmult_le_pos; [lra|]. unfold K. assert (0 < Rabs (cZ P) / N) by (apply Rdiv_lt_0_compat; [exact PZ|lra]). lra. }
    split; [exact (W _ _ RX)|]. split; [exact (W _ _ RY)|exact (W _ _ RZ)].
Qed.
End T.
(** what the exact projection does with the view frustum *)
Lemma screen_frustum t n f x y z : 0 < t -> 0 < n < f -> z < 0 -> let q := screen t n f (mk3 x y z) in
  (cX q <= 1 <-> x <= - z * t) /\ (-1 <= cX q <-> z * t <= x) /\ (cY q <= 1 <-> y <= - z * t) /\ (-1 <= cY q <-> z * t <= y) /\
  (0 <= cZ q <-> z <= - n) /\ (cZ q <= 1 <-> - f <= z).
Proof.
  intros T N Z q. unfold q, screen; cbn [cX cY cZ].
  assert (ZT : 0 < - z * t) by (apply Rmult_lt_0_compat; lra).
  assert (W : forall w, - w / (z * t) = w / (- z * t)) by (intros w; field; lra).
  assert (L : forall w, (w / (- z * t) <= 1 <-> w <= - z * t) /\ (-1 <= w / (- z * t) <-> z * t <= w)).
  { intros w. assert (E : w = w / (- z * t) * (- z * t)) by (field; lra). set (v := w / (- z * t)) in *. clearbody v. subst w. split; split; intros H.
    - rewrite <- (Rmult_1_l (- z * t)) at 2. apply Rmult_le_compat_r; lra.
    - apply Rmult_le_reg_r with (- z * t); lra.
    - replace (z * t) with (-1 * (- z * t)) by ring. apply Rmult_le_compat_r; lra.
    - apply Rmult_le_reg_r with (- z * t); [exact ZT|]. replace (-1 * (- z * t)) with (z * t) by ring. exact H. }
  rewrite !W. destruct (L x) as [L1 L2]. destruct (L y) as [L3 L4]. split; [exact L1|]. split; [exact L2|]. split; [exact L3|]. split; [exact L4|].
  assert (D : 0 < (f - n) * - z) by (apply Rmult_lt_0_compat; lra).
  assert (E : f * (z + n) / ((f - n) * z) = f * (- z - n) / ((f - n) * - z)) by (field; lra). rewrite E.
  set (c := f * (- z - n) / ((f - n) * - z)). assert (EC : c * ((f - n) * - z) = f * (- z - n)) by (unfold c; field; lra). clearbody c. split; split; intros H.
  - assert (0 <= f * (- z - n)) by (rewrite <- EC; apply Rmult_le_pos; lra). assert (0 <= - z - n); [|lra]. apply Rmult_le_reg_l with f; lra.
  - apply Rmult_le_reg_r with ((f - n) * - z); [exact D|]. rewrite EC, Rmult_0_l. apply Rmult_le_pos; lra.
  - assert (f * (- z - n) <= 1 * ((f - n) * - z)) by (rewrite <- EC; apply Rmult_le_compat_r; lra). assert (n * - z <= n * f) by lra. assert (- z <= f); [|lra]. apply Rmult_le_reg_l with n; lra.
  - apply Rmult_le_reg_r with ((f - n) * - z); [exact D|]. rewrite EC. assert (n * - z <= n * f) by (apply Rmult_le_compat_l; lra). lra.
Qed.
Lemma nearest_big f r : Rabs r <= bpow radix2 100 -> within_ulp (nearest f r) r.
Proof.
  intros H. assert (N := nearest_Rnd f r). apply ulp_intro; [|apply down_below; exact N|apply up_above; exact N].
  refine (proj1 (big_fin (m := exact_libm f) _ _ N _)). apply Rle_trans with (1 := H). apply bpow_le. lia.
Qed.
Lemma exact_tan f : good_tan (exact_libm f).
Proof. intros x F H. apply nearest_big, H. Qed.

(** far * near overflows for far = MAX, near = 2 *)
Lemma persp_overflow f (m : libm f) : exists (near far : float f) (p : vec (float f) 3), finite near /\ finite far /\ 0 < B2R near < B2R far /\ fall finite p /\ cZ (f3 p) <> 0 /\
  forall fov q, t_map_point (perspective fov near far) p = Ret q -> ~ fall finite q.
Proof.
  set (mx := fmax_value : float f). set (n := f_of_Z 2 : float f). set (p := fv f 0 0 (-2)). exists n, mx, p.
  assert (V : forall z, (Z.abs z <= 100)%Z -> B2R (f_of_Z z : float f) = IZR z) by (intros; now apply (small_Z f)).
  assert (P : 2 < B2R mx).
  { unfold mx. destruct f; unfold fmax_value, Bmax_float, B2R; cbn [cond_Zopp]; unfold F2R; cbn [Fnum Fexp].
    - apply Rlt_le_trans with (IZR 3 * bpow radix2 0); [cbn; lra|]. apply Rmult_le_compat; [lra|apply bpow_ge_0|apply IZR_le; vm_compute; discriminate|apply bpow_le; vm_compute; discriminate].
    - apply Rlt_le_trans with (IZR 3 * bpow radix2 0); [cbn; lra|]. apply Rmult_le_compat; [lra|apply bpow_ge_0|apply IZR_le; vm_compute; discriminate|apply bpow_le; vm_compute; discriminate]. }
  split; [unfold n; destruct f; reflexivity|]. split; [unfold mx; destruct f; reflexivity|]. split; [unfold n; rewrite V by lia; lra|].
  split; [unfold fall, p, fv; a3; destruct f; reflexivity|]. split.
  { change (cZ (f3 p)) with (B2R (f_of_Z (-2) : float f)). rewrite V by lia. lra. }
  intros fov q E A. rewrite persp_eq in E. unfold t_map_point in E. cbn [tm] in E. set (e := pe fov) in E. clearbody e.
  unfold map_point, oassert in E. cbv zeta in E. match type of E with (if ?c then _ else _) = _ => destruct c end; [|discriminate E].
  injection E as E. assert (F := A (Fin.FS (Fin.FS Fin.F1))). rewrite <- E in F. clear E A.
  change (finite (fdiv (fadd (fadd (fadd (fmul (vx p) (fzero false)) (fmul (vy p) (fzero false))) (fmul (vz p) (pa n mx))) (pb n mx)) (fadd (fadd (fadd (fmul (vx p) (fzero false)) (fmul (vy p) (fzero false))) (fmul (vz p) (sone : float f))) (fzero false)))) in F.
  revert F. unfold finite, p, n, mx. destruct f; vm_compute; discriminate.
Qed.
Lemma C88_sample f (m : libm f) : let fov := f_of_Z 1 : float f in let near := f_of_Z 1 : float f in let far := f_of_Z 3 : float f in let p := fv f 1 (-3) (-2) in
  usual_fov fov /\ usual_planes near far /\ usual_point p /\ 64 * unit_roundoff f * (1 + Rabs (cZ (f3 p)) / B2R near) <= 1 /\
  screen 1 (B2R near) (B2R far) (f3 p) = mk3 (/ 2) (-3 / 2) (3 / 4).
Proof.
  intros fov near far p. assert (V : forall z, (Z.abs z <= 100)%Z -> B2R (f_of_Z z : float f) = IZR z) by (intros; now apply (small_Z f)).
  assert (EP : f3 p = mk3 1 (-3) (-2)) by (unfold f3, p, fv; cbn [Vector.nth vec3 Vector.caseS]; rewrite !V by lia; reflexivity).
  assert (PL := PI2_1). assert (U := u_q (f := f)).
  assert (B50 : bpow radix2 50 >= 100) by (apply Rle_ge, (Rle_trans _ (bpow radix2 7)); [cbn; lra|apply bpow_le; lia]).
  assert (B51 : bpow radix2 (-50) <= 1) by (change 1 with (bpow radix2 0); apply bpow_le; lia).
  split; [|split; [|split; [|split]]].
  - split; [unfold fov; destruct f; reflexivity|]. unfold fov. rewrite V by lia. split; [lra|]. assert (T := tan_increasing (1 / 2) (PI / 4) ltac:(lra) ltac:(lra) ltac:(lra)). rewrite tan_PI4 in T. lra.
  - split; [unfold near; destruct f; reflexivity|]. split; [unfold far; destruct f; reflexivity|]. unfold near, far. rewrite !V by lia. lra.
  - unfold usual_point. rewrite EP. cbn [cZ].
    split; [left; split; [unfold p, fv; destruct f; reflexivity|]; change (p @ Fin.F1) with (f_of_Z 1 : float f); rewrite V by lia; rewrite Rabs_pos_eq; lra|].
    split; [left; split; [unfold p, fv; destruct f; reflexivity|]; change (p @ (Fin.FS Fin.F1)) with (f_of_Z (-3) : float f); rewrite V by lia; rewrite Rabs_left; lra|].
    split; [unfold p, fv; destruct f; reflexivity|]. rewrite Rabs_left; lra.
  - rewrite EP. cbn [cZ]. unfold near. rewrite V by lia. rewrite Rabs_left by lra. lra.
  - rewrite EP. unfold screen, near, far. rewrite !V by lia. cbn [cX cY cZ]. f_equal; field.
Qed.
