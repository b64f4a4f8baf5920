(** The second tangent and the second coordinate of float sphere hits. *)
From Coq Require Import ZArith Reals Bool Lra Lia.
From Coq Require Vector Fin.
From Flocq Require Import Core BinarySingleNaN.
From Verif.Model Require Import FloatBase Scalar Float Interval Outcome Vec Transform XReal Geometry.
From Verif Require Import Spec SpecGeom SpecShape SpecTrig SpecError SpecQuad SpecRot SpecFrame.
From Verif.Proofs Require Import BitsLemmas FloatLemmas ScalarProofs XRealLemmas VectorFloat MatrixProofs TransformProofs RotationProofs VectorExact TransformFloat SlabFloat VectorErr MapErr DiskFloat CameraFloat QuadFloat SphereErr SphereFloat SphereNear RotFloat LookFloat IntervalTrig2 PiBounds TrigTight SphereSeen FrameFloat FrameHit.
Open Scope R_scope.
Section F.
Context {f : fmt} {m : libm f}.
Notation FT := (float f).
Notation u := (unit_roundoff f).
Notation eta := (smallest_float f / 2).

Lemma second_parts (px py pz r kt : FT) q Q : good_sin_cos m -> good_asin_acos m -> good_atan2 m ->
  finite px -> finite py -> finite pz -> finite r -> finite q -> val kt (- Q) ->
  let x := B2R px in let y := B2R py in let z := B2R pz in let rad := B2R r in let rho := sqrt (x * x + y * y) in
  0 < rho -> / 1024 <= rad <= 1048576 -> / 1024 <= Q <= 16 -> Rabs z <= rad -> 0 <= B2R q <= 1 ->
  let phi := m_atan2 m py px in let s := m_sin m (m_acos m q) in
  let b := vec3 (fmul (fmul pz (m_cos m phi)) kt) (fmul (fmul pz (m_sin m phi)) kt) (fmul (fmul (fneg r) s) kt) in
  fall finite b /\ (let sg := sqrt (1 - B2R q * B2R q) in near3 (12 * u * (rad * Q)) (f3 b) (scl3 Q (mk3 (- z * (x / rho)) (- z * (y / rho)) (rad * sg)))).
Proof.
  intros G GA GT Fx Fy Fz Fr Fq [Fkt Vkt] x y z rad rho R0 RAD HQ Z Q01 phi s b. assert (U := u_q (f := f)).
  destruct (angle_lib px py G GT Fx Fy ltac:(fold x y rho; lra)) as (_ & SC & SS). fold x y rho phi in SC, SS.
  assert (SP := polar_lib q G GA Fq Q01). fold s in SP. set (sg := sqrt (1 - B2R q * B2R q)) in *.
  assert (SZ := sc_self pz rad Fz ltac:(exact Z)). fold z in SZ.
  assert (SR := sc_neg _ _ _ _ (sc_self r rad Fr ltac:(fold rad; rewrite Rabs_pos_eq; lra))). fold rad in SR.
  assert (SKT : sc 0 Q kt (- Q)) by (rewrite <- Vkt; apply sc_self; [exact Fkt|rewrite Vkt, Rabs_Ropp, Rabs_pos_eq; lra]).
  assert (RQ : / 1048576 <= rad * Q <= 16777216). { split; [replace (/ 1048576) with (/ 1024 * / 1024) by field; apply Rmult_le_compat; lra|apply Rle_trans with (1048576 * 16); [apply Rmult_le_compat; lra|lra]]. }
  assert (T30 : / 10 ^ 30 <= / 1048576) by (apply Rinv_le_contravar; [lra|cbn [pow]; lra]).
  assert (MC := sc_mul _ _ _ _ _ _ _ _ SZ SC ltac:(lra) ltac:(lra) ltac:(lra) ltac:(lra)). apply sc_scale with (T := rad) in MC; [|ring].
  assert (MS := sc_mul _ _ _ _ _ _ _ _ SZ SS ltac:(lra) ltac:(lra) ltac:(lra) ltac:(lra)). apply sc_scale with (T := rad) in MS; [|ring].
  assert (MP := sc_mul _ _ _ _ _ _ _ _ SR SP ltac:(lra) ltac:(lra) ltac:(lra) ltac:(lra)). apply sc_scale with (T := rad) in MP; [|ring].
  assert (LC := sc_mul _ _ _ _ _ _ _ _ MC SKT ltac:(lra) ltac:(lra) ltac:(lra) ltac:(lra)).
  assert (LS := sc_mul _ _ _ _ _ _ _ _ MS SKT ltac:(lra) ltac:(lra) ltac:(lra) ltac:(lra)).
  assert (LP := sc_mul _ _ _ _ _ _ _ _ MP SKT ltac:(lra) ltac:(lra) ltac:(lra) ltac:(lra)).
  apply sc_le with (l := 12) in LC; [|lra]. apply sc_le with (l := 12) in LS; [|lra]. apply sc_le with (l := 12) in LP; [|lra].
  destruct LC as (F0 & E0 & _). destruct LS as (F1 & E1 & _). destruct LP as (F2 & E2 & _).
  split. { intros i. revert i. apply (fin3_case (fun i => finite (Vector.nth b i))); assumption. }
  cbv zeta. split; [|split]; cbn [cX cY cZ scl3].
  - replace (Q * (- z * (x / rho))) with (z * (x / rho) * - Q) by ring. exact E0.
  - replace (Q * (- z * (y / rho))) with (z * (y / rho) * - Q) by ring. exact E1.
  - replace (Q * (rad * sg)) with (- rad * sg * - Q) by ring. exact E2.
Qed.
Lemma hit_dpdv (rd z0 z1 p1 : FT) (s : sphere FT) (r : ray FT) h : good_sin_cos m -> good_asin_acos m -> good_atan2 m ->
  s_new rd z0 z1 p1 = Ret s -> usual_radius rd -> usual_cut rd z0 z1 p1 -> usual_ray (origin r) (direction r) -> s_hit s r = Some h ->
  let q := f3 (si_p (h_si h)) in let o := f3 (origin r) in let rad := B2R rd in let rho := axis_dist q in let N := dot3 o o + rad * rad in
  0 <= cZ q -> / 1024 <= rho -> 1024 * u * N <= rho * rho ->
  fall finite (si_dpdv (h_si h)) /\ 0 < len3 (f3 (si_dpdv (h_si h))) /\
  near3 (512 * u * N / (rho * rad)) (dir3 (f3 (si_dpdv (h_si h)))) (dir3 (mk3 (- cZ q * cX q) (- cZ q * cY q) (rho * rho))).
Proof.
  intros G GA GT SN UR UC URay H q o rad rho N Z R0 OFF. assert (U := u_q (f := f)). assert (UP := u_pos (f := f)).
  destruct (new_scale rd z0 z1 p1 s GA UR UC SN) as (_ & (Q & VQ & BQ)).
  assert (RS : radius s = rd) by (rewrite (new_parts _ _ _ _ _ SN); reflexivity).
  destruct (hit_near f m s r h URay ltac:(rewrite RS; exact UR) H) as (_ & Fq & _ & HN & _). fold q o in HN. rewrite RS in HN. fold rad N in HN.
  destruct UR as [Fr BR]. fold rad in BR.
  assert (XX : rho * rho = cX q * cX q + cY q * cY q). { apply sqrt_sqrt. assert (A := Rle_0_sqr (cX q)). assert (B := Rle_0_sqr (cY q)). unfold Rsqr in *. lra. }
  assert (QQ : dot3 q q = rho * rho + cZ q * cZ q) by (rewrite XX; unfold dot3; ring).
  assert (OO : 0 <= dot3 o o) by (unfold dot3; assert (Y1 := Rle_0_sqr (cX o)); assert (Y2 := Rle_0_sqr (cY o)); assert (Y3 := Rle_0_sqr (cZ o)); unfold Rsqr in *; lra). assert (R2 : 0 < rad * rad) by (apply Rmult_lt_0_compat; lra).
  assert (NN : rad * rad <= N) by (unfold N; lra).
  assert (UN : 0 <= u * N) by (apply Rmult_le_pos; unfold N; lra).
  rewrite QQ in HN. assert (HN' := Rabs_le_inv _ _ HN). assert (ZZ : 0 <= cZ q * cZ q) by (apply Rmult_le_pos; exact Z).
  assert (RHO2 : rho * rho <= 10 / 9 * (rad * rad)) by lra.
  assert (RHO : rho <= 106 / 100 * rad). { apply Rsqr_incr_0_var; [unfold Rsqr; lra|lra]. }
  assert (ZR : cZ q <= rad). { apply Rsqr_incr_0_var; [unfold Rsqr; lra|lra]. }
  assert (RHO' : 0 < rho) by lra. assert (ZA : Rabs (cZ q) <= rad) by (rewrite Rabs_pos_eq; lra).
  destruct (hit_parts s r h H) as (_ & _ & EV). set (p := si_p (h_si h)) in *. rewrite EV. cbv zeta. rewrite RS.
  destruct (div_clip (vz p) rd (Fq _) Fr BR) as (FQ & RQ & EQ). { change (B2R (vz p)) with (cZ q). lra. }
  assert (ZC : clip (B2R (vz p) / B2R rd) = cZ q / rad). { apply clip_id. change (B2R (vz p)) with (cZ q). fold rad. split; [apply Rmult_le_pos; [exact Z|left; apply Rinv_0_lt_compat; lra]|]. apply Rmult_le_reg_r with rad; [lra|]. unfold Rdiv. rewrite Rmult_assoc, Rinv_l by lra. rewrite Rmult_1_r, Rmult_1_l. exact ZR. }
  rewrite ZC in EQ. set (qf := native_clamp (fdiv (vz p) rd) szero sone) in *.
  destruct (second_parts (vx p) (vy p) (vz p) rd (fsub (theta_max s) (theta_min s)) qf Q G GA GT (Fq _) (Fq _) (Fq _) Fr FQ VQ RHO' BR BQ ZA RQ) as [FC NC].
  match type of FC with fall finite ?x => set (c := x) in * end. clearbody c. split; [exact FC|].
  change (sqrt (B2R (vx p) * B2R (vx p) + B2R (vy p) * B2R (vy p))) with rho in NC. change (B2R rd) with rad in NC. change (B2R (vx p)) with (cX q) in NC. change (B2R (vy p)) with (cY q) in NC. change (B2R (vz p)) with (cZ q) in NC. cbv zeta in NC.
  assert (RD := ring_dist u rad rho (cZ q) (B2R qf) N ltac:(lra) ltac:(lra) (conj Z ZR) ltac:(lra) NN RQ EQ HN). set (sg := sqrt (1 - B2R qf * B2R qf)) in *.
  set (E := u * N / rho). assert (ER : E * rho = u * N) by (unfold E; field; lra). assert (E0 : 0 <= E) by (unfold E; apply Rmult_le_pos; [exact UN|left; apply Rinv_0_lt_compat; lra]).
  assert (RD2 : Rabs (rad * sg - rho) <= 103 * E). { apply Rmult_le_reg_r with rho; [lra|]. replace (103 * E * rho) with (103 * (E * rho)) by ring. rewrite ER. lra. }
  assert (UE : u * rad <= 106 / 100 * E). { apply Rmult_le_reg_r with rho; [lra|]. replace (106 / 100 * E * rho) with (106 / 100 * (E * rho)) by ring. rewrite ER. assert (rad * rho <= rad * (106 / 100 * rad)) by (apply Rmult_le_compat_l; lra). assert (u * (rad * rho) <= u * (106 / 100 * N)) by (apply Rmult_le_compat_l; lra). lra. }
  assert (EB : 1024 * E <= rho). { apply Rmult_le_reg_r with rho; [lra|]. replace (1024 * E * rho) with (1024 * (E * rho)) by ring. rewrite ER. lra. }
  set (T := mk3 (- cZ q * (cX q / rho)) (- cZ q * (cY q / rho)) rho). set (e := Q * (117 * E)).
  assert (NT : near3 e (f3 c) (scl3 Q T)).
  { assert (QE : 0 <= Q * E) by (apply Rmult_le_pos; lra). assert (K0 : 12 * u * (rad * Q) <= Q * (12720 / 1000 * E)) by (replace (12 * u * (rad * Q)) with (Q * (12 * (u * rad))) by ring; apply Rmult_le_compat_l; lra).
    assert (D3 : Rabs (Q * (rad * sg) - Q * rho) <= Q * (103 * E)). { replace (Q * (rad * sg) - Q * rho) with (Q * (rad * sg - rho)) by ring. rewrite Rabs_mult, (Rabs_pos_eq Q) by lra. apply Rmult_le_compat_l; lra. }
    destruct NC as (N1 & N2 & N3). unfold T, e. cbn [cX cY cZ scl3] in *. apply Rabs_le_inv in D3, N3.
    split; [|split]; cbn [cX cY cZ scl3]; [lra|lra|apply Rabs_le; lra]. }
  assert (QE : 0 <= Q * E) by (apply Rmult_le_pos; lra). assert (E0' : 0 <= e) by (unfold e; lra). assert (L := near_len74 e _ _ E0' NT). set (C := scl3 Q T) in *.
  assert (LT2 : len3 T * len3 T = rho * rho + cZ q * cZ q).
  { rewrite len3_sq. unfold T, dot3. cbn [cX cY cZ]. replace (- cZ q * (cX q / rho) * (- cZ q * (cX q / rho)) + - cZ q * (cY q / rho) * (- cZ q * (cY q / rho)) + rho * rho) with (cZ q * cZ q * ((cX q * cX q + cY q * cY q) / (rho * rho)) + rho * rho) by (field; lra). rewrite <- XX. field. lra. }
  assert (LT0 := len3_nonneg T).
  assert (LT : 94 / 100 * rad <= len3 T) by (apply Rsqr_incr_0_var; [unfold Rsqr; lra|lra]).
  assert (LC : len3 C = Q * len3 T) by (apply len_scl; lra).
  assert (S1 : Q * (94 / 100 * rad) <= len3 C) by (rewrite LC; apply Rmult_le_compat_l; lra).
  assert (QR : 0 < Q * rad) by (apply Rmult_lt_0_compat; lra).
  assert (S2 : Q * E <= Q * rad / 900). { replace (Q * rad / 900) with (Q * (rad / 900)) by field. apply Rmult_le_compat_l; lra. }
  assert (L2 : len3 (sub3 (f3 c) C) <= 205 * (Q * E)) by (unfold e in L; lra).
  assert (D := len_diff (f3 c) C). apply Rabs_le_inv in D. assert (LP : 0 < len3 (f3 c)) by lra. split; [exact LP|].
  assert (DC := dir_close (f3 c) C LP ltac:(lra)).
  assert (DS : dir3 C = dir3 (mk3 (- cZ q * cX q) (- cZ q * cY q) (rho * rho))).
  { unfold C. rewrite dir_scl by lra. replace (mk3 (- cZ q * cX q) (- cZ q * cY q) (rho * rho)) with (scl3 rho T) by (unfold T, scl3; cbn [cX cY cZ]; f_equal; field; lra). symmetry. apply dir_scl; lra. }
  rewrite DS in DC. eapply near_le; [exact DC|].
  apply Rmult_le_reg_r with (len3 C); [lra|]. unfold Rdiv at 1. rewrite Rmult_assoc, Rinv_l, Rmult_1_r by lra.
  replace (512 * u * N / (rho * rad)) with (512 * (E / rad)) by (unfold E; field; lra).
  assert (ED : 0 <= E / rad) by (apply Rmult_le_pos; [exact E0|left; apply Rinv_0_lt_compat; lra]).
  apply Rle_trans with (512 * (E / rad) * (Q * (94 / 100 * rad))); [|apply Rmult_le_compat_l; lra].
  replace (512 * (E / rad) * (Q * (94 / 100 * rad))) with (512 * 94 / 100 * (Q * E)) by (field; lra). lra.
Qed.

(** ** the second coordinate *)
Lemma div_clip_mono (a b r : FT) : finite a -> finite b -> finite r -> / 1024 <= B2R r <= 1048576 -> Rabs (B2R a) <= 4194304 -> Rabs (B2R b) <= 4194304 -> B2R a <= B2R b ->
  B2R (native_clamp (fdiv a r) szero sone : FT) <= B2R (native_clamp (fdiv b r) szero sone : FT).
Proof.
  intros Fa Fb Fr R Ba Bb L. assert (I : 0 < / B2R r) by (apply Rinv_0_lt_compat; lra).
  assert (FD : forall z, finite z -> Rabs (B2R z) <= 4194304 -> finite (fdiv z r) /\ B2R (fdiv z r) = rndf f (B2R z / B2R r)).
  { intros z Fz Z. assert (V : Rabs (B2R z / B2R r) <= 4294967296). { unfold Rdiv. rewrite Rabs_mult. rewrite (Rabs_pos_eq (/ B2R r)) by lra. apply Rle_trans with (4194304 * 1024); [|lra]. apply Rmult_le_compat; try apply Rabs_pos; try assumption; [lra|]. replace 1024 with (/ / 1024) by (rewrite Rinv_inv; reflexivity). apply Rinv_le_contravar; lra. }
    assert (RD := fdiv_Rnd z r Fz Fr ltac:(lra)). destruct (big_fin _ _ RD) as [F E]; [rewrite B120; lra|]. split; [exact F|]. exact (Rnd_finite _ _ RD F). }
  destruct (FD a Fa Ba) as [FA VA]. destruct (FD b Fb Bb) as [FB VB]. destruct (clamp_val _ FA) as [_ CA]. destruct (clamp_val _ FB) as [_ CB]. rewrite CA, CB, VA, VB.
  assert (M : rndf f (B2R a / B2R r) <= rndf f (B2R b / B2R r)) by (apply (rnd_le (f := f)); apply Rmult_le_compat_r; lra).
  apply Rle_min_compat_r, Rle_max_compat_r. exact M.
Qed.
Lemma acos_anti a b : 0 <= a -> a <= b -> b <= 1 -> acos b <= acos a.
Proof. intros A L B. assert (G := acos_gap a b ltac:(lra) ltac:(lra) L). lra. Qed.
Lemma hit_v_def (s : sphere FT) r h : s_hit s r = Some h -> let p := si_p (h_si h) in
  Vector.nth (si_uv (h_si h)) (Fin.FS Fin.F1) = fdiv (fsub (m_acos m (native_clamp (fdiv (vz p) (radius s)) szero sone)) (theta_min s)) (fsub (theta_max s) (theta_min s)).
Proof.
  intros H. unfold s_hit in H. destruct (s_intersect_ray s r) as [ip|] eqn:E; [|discriminate].
  cbv zeta in H. destruct (gsin_cos (sp_phi ip)) as [sp cp] eqn:GS. injection H as <-. reflexivity.
Qed.
Lemma small_sub (a b : FT) A B : finite a -> finite b -> Rabs (B2R a - A) <= 633 / 100 * u -> Rabs (B2R b - B) <= 633 / 100 * u -> 0 <= A <= 158 / 100 -> 0 <= B <= 158 / 100 ->
  finite (fsub a b) /\ Rabs (B2R (fsub a b) - (A - B)) <= 15 * u.
Proof.
  intros Fa Fb EA EB RA RB. assert (U := u_q (f := f)). assert (EU := eta_u (f := f)). cbn [pow] in EU. apply Rabs_le_inv in EA, EB.
  destruct (mid_fin _ _ (fsub_Rnd a b Fa Fb)) as [F E]; [apply Rabs_le; lra|]. split; [exact F|].
  assert (u * Rabs (B2R a - B2R b) <= u * (159 / 100)) by (apply Rmult_le_compat_l; [lra|apply Rabs_le; lra]). apply Rabs_le_inv in E. apply Rabs_le. lra.
Qed.
Lemma hit_v (rd z0 z1 p1 : FT) (s : sphere FT) (r : ray FT) h : good_asin_acos m ->
  s_new rd z0 z1 p1 = Ret s -> usual_radius rd -> usual_cut rd z0 z1 p1 -> usual_ray (origin r) (direction r) -> s_hit s r = Some h ->
  let c := Vector.nth (si_uv (h_si h)) (Fin.FS Fin.F1) in let rad := B2R rd in
  finite c /\ exists w w0 w1, 0 <= w0 <= w /\ w <= w1 <= 1 /\ / 1024 <= acos w0 - acos w1 /\
    Rabs (w - clip (cZ (f3 (si_p (h_si h))) / rad)) <= 2 * u /\ Rabs (w0 - clip (B2R z0 / rad)) <= 2 * u /\ Rabs (w1 - clip (B2R z1 / rad)) <= 2 * u /\
    Rabs (B2R c - (acos w0 - acos w) / (acos w0 - acos w1)) <= 36 * u / (acos w0 - acos w1).
Proof.
  intros GA SN UR UC URay H c rad. assert (U := u_q (f := f)). assert (UP := u_pos (f := f)). assert (EU := eta_u (f := f)). cbn [pow] in EU. assert (P1 := PI_upper_bound).
  destruct (new_scale rd z0 z1 p1 s GA UR UC SN) as (_ & (Q & VQ & BQ)).
  assert (NP := new_parts _ _ _ _ _ SN).
  assert (RS : radius s = rd) by (rewrite NP; reflexivity). assert (TM : theta_min s = m_acos m (native_clamp (fdiv z0 rd) szero sone)) by (rewrite NP; reflexivity). assert (TX : theta_max s = m_acos m (native_clamp (fdiv z1 rd) szero sone)) by (rewrite NP; reflexivity).
  assert (ZN : z_min s = z0) by (rewrite NP; reflexivity). assert (ZX : z_max s = z1) by (rewrite NP; reflexivity). clear NP.
  destruct (hit_near f m s r h URay ltac:(rewrite RS; exact UR) H) as (_ & Fq & _). destruct (hit_float_sphere s r h H) as (_ & _ & _ & L0 & L1 & _). rewrite ZN in L0. rewrite ZX in L1.
  unfold c. rewrite (hit_v_def s r h H). cbv zeta. rewrite RS, TM, TX. rewrite TM, TX in VQ. set (p := si_p (h_si h)) in *. change (cZ (f3 p)) with (B2R (vz p)).
  destruct UR as [Fr BR]. destruct UC as ((F0 & B0) & (F1 & B1) & _ & GAP). assert (Fz := Fq (Fin.FS (Fin.FS Fin.F1))). change (Vector.nth p (Fin.FS (Fin.FS Fin.F1))) with (vz p) in Fz.
  apply fle_E in L0, L1. destruct L0 as (_ & _ & L0). destruct L1 as (_ & _ & L1). rewrite !E_B2R in L0, L1 by assumption.
  assert (BZ : Rabs (B2R (vz p)) <= 1048576) by (apply Rabs_le_inv in B0, B1; apply Rabs_le; lra).
  destruct (div_clip (vz p) rd Fz Fr BR ltac:(lra)) as (FQ & RQ & EQ). destruct (div_clip z0 rd F0 Fr BR ltac:(lra)) as (FQ0 & RQ0 & EQ0). destruct (div_clip z1 rd F1 Fr BR ltac:(lra)) as (FQ1 & RQ1 & EQ1).
  assert (M0 := div_clip_mono z0 (vz p) rd F0 Fz Fr BR ltac:(lra) ltac:(lra) L0). assert (M1 := div_clip_mono (vz p) z1 rd Fz F1 Fr BR ltac:(lra) ltac:(lra) L1).
  set (q := native_clamp (fdiv (vz p) rd) szero sone) in *. set (q0 := native_clamp (fdiv z0 rd) szero sone) in *. set (q1 := native_clamp (fdiv z1 rd) szero sone) in *.
  destruct (acos_lib q GA FQ RQ) as [FA EA]. destruct (acos_lib q0 GA FQ0 RQ0) as [FA0 EA0]. destruct (acos_lib q1 GA FQ1 RQ1) as [FA1 EA1].
  assert (AR : forall w, 0 <= w <= 1 -> 0 <= acos w <= 158 / 100).
  { intros w W. split; [apply acos_bound|]. assert (K := acos_anti 0 w ltac:(lra) ltac:(lra) ltac:(lra)). rewrite acos_0 in K. lra. }
  assert (AQ := AR _ RQ). assert (AQ0 := AR _ RQ0). assert (AQ1 := AR _ RQ1).
  destruct (small_sub _ _ _ _ FA FA0 EA EA0 AQ AQ0) as [FN EN]. destruct (small_sub _ _ _ _ FA1 FA0 EA1 EA0 AQ1 AQ0) as [FD ED].
  set (n := fsub (m_acos m q) (m_acos m q0)) in *. set (d := fsub (m_acos m q1) (m_acos m q0)) in *. destruct VQ as [_ VQ].
  assert (X1 := acos_anti (B2R q0) (B2R q) ltac:(lra) M0 ltac:(lra)). assert (X2 := acos_anti (B2R q) (B2R q1) ltac:(lra) M1 ltac:(lra)).
  set (a := acos (B2R q)) in *. set (a0 := acos (B2R q0)) in *. set (a1 := acos (B2R q1)) in *.
  assert (GW : clip (B2R z0 / rad) + / 512 <= clip (B2R z1 / rad)).
  { unfold rad. rewrite !clip_div by lra. fold rad. fold rad in GAP, BR. set (y0 := B2R z0) in *. set (y1 := B2R z1) in *.
    assert (Y1 := Rmin_l y1 rad). assert (Y2 := Rmin_r y1 rad). assert (Y3 := Rmax_l y0 0). assert (Y4 := Rmax_r y0 0). rewrite (Rmin_left (Rmax y0 0) rad) by lra. rewrite (Rmax_left y1 0) by lra.
    apply Rmult_le_reg_r with rad; [lra|]. rewrite Rmult_plus_distr_r. unfold Rdiv. rewrite !Rmult_assoc, Rinv_l by lra. lra. }
  fold rad in EQ, EQ0, EQ1. assert (EQ0' := Rabs_le_inv _ _ EQ0). assert (EQ1' := Rabs_le_inv _ _ EQ1).
  assert (AG := acos_gap (B2R q0) (B2R q1) RQ0 RQ1 ltac:(lra)). fold a0 a1 in AG.
  set (B := a0 - a1) in *. assert (BB : / 600 <= B <= 158 / 100) by (split; [lra|unfold B; lra]). apply Rabs_le_inv in EN, ED.
  assert (DD : B - 15 * u <= - B2R d <= B + 15 * u) by (unfold B; lra). assert (D0 : B2R d <> 0) by lra.
  assert (RR := fdiv_Rnd n d FN FD D0). set (A := a0 - a). assert (AB : 0 <= A <= B) by (unfold A, B; lra).
  assert (QD : Rabs (B2R n / B2R d - A / B) <= 32 * u / B).
  { replace (B2R n / B2R d - A / B) with (((- B2R n - A) * B - A * (- B2R d - B)) / (- B2R d * B)) by (field; lra).
    unfold Rdiv at 1. rewrite Rabs_mult, (Rabs_pos_eq (/ _)) by (left; apply Rinv_0_lt_compat, Rmult_lt_0_compat; lra).
    apply Rmult_le_reg_r with (- B2R d * B); [apply Rmult_lt_0_compat; lra|]. rewrite Rmult_assoc, Rinv_l, Rmult_1_r by (apply Rgt_not_eq, Rmult_lt_0_compat; lra).
    replace (32 * u / B * (- B2R d * B)) with (32 * u * - B2R d) by (field; lra).
    apply Rle_trans with (15 * u * B + B * (15 * u)).
    - unfold Rminus at 1. eapply Rle_trans; [apply Rabs_triang|]. rewrite Rabs_Ropp. apply Rplus_le_compat; rewrite Rabs_mult.
      + rewrite (Rabs_pos_eq B) by lra. apply Rmult_le_compat_r; [lra|]. unfold A. apply Rabs_le; lra.
      + apply Rmult_le_compat; try apply Rabs_pos; apply Rabs_le; lra.
    - assert (u * (30 * B) <= u * (32 * - B2R d)) by (apply Rmult_le_compat_l; lra). lra. }
  assert (IB : / B <= 600) by (replace 600 with (/ / 600) by (rewrite Rinv_inv; reflexivity); apply Rinv_le_contravar; lra). assert (IB0 : 0 < / B) by (apply Rinv_0_lt_compat; lra).
  assert (TB : 0 <= A / B <= 1).
  { assert (TC : A / B * B = A) by (field; lra). split; (apply Rmult_le_reg_r with B; [lra|]; rewrite TC); lra. }
  assert (UB : 0 <= 32 * u / B <= / 40). { unfold Rdiv. split; [apply Rmult_le_pos; lra|]. apply Rle_trans with (32 * / 1000000 * 600); [apply Rmult_le_compat; lra|lra]. }
  assert (QD' := Rabs_le_inv _ _ QD). assert (QB : Rabs (B2R n / B2R d) <= 11 / 10) by (apply Rabs_le; lra).
  destruct (mid_fin _ _ RR ltac:(lra)) as [FC EC]. split; [exact FC|]. exists (B2R q), (B2R q0), (B2R q1). fold a a0 a1. fold A B.
  split; [lra|]. split; [lra|]. split; [clear - BB; lra|]. split; [clear - EQ UP; lra|]. split; [clear - EQ0 UP; lra|]. split; [clear - EQ1 UP; lra|].
  assert (u * Rabs (B2R n / B2R d) <= u * (11 / 10)) by (apply Rmult_le_compat_l; lra).
  assert (KU : u <= 158 / 100 * (u / B)). { apply Rmult_le_reg_r with B; [lra|]. replace (158 / 100 * (u / B) * B) with (158 / 100 * u) by (field; lra). assert (u * B <= u * (158 / 100)) by (apply Rmult_le_compat_l; lra). lra. }
  replace (32 * u / B) with (32 * (u / B)) in QD' by (field; lra). replace (36 * u / B) with (36 * (u / B)) by (field; lra).
  apply Rabs_le_inv in EC. apply Rabs_le. lra.
Qed.
End F.
