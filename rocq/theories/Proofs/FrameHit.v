(** The normal of float sphere hits: from the constructor's arguments to the hit record. *)
From Coq Require Import ZArith Reals Bool Lra Lia.
From Coq Require Vector Fin.
From Flocq Require Import Core BinarySingleNaN.
From Verif.Model Require Import FloatBase Scalar Float Interval Outcome Vec Transform XReal Geometry.
From Verif Require Import Spec SpecGeom SpecShape SpecTrig SpecError SpecQuad SpecRot SpecFrame.
From Verif.Proofs Require Import BitsLemmas FloatLemmas ScalarProofs XRealLemmas VectorFloat MatrixProofs TransformProofs RotationProofs VectorExact TransformFloat SlabFloat VectorErr MapErr DiskFloat CameraFloat QuadFloat SphereErr SphereFloat SphereNear RotFloat LookFloat IntervalTrig2 PiBounds TrigTight SphereSeen FrameFloat.
Open Scope R_scope.
Notation "v @ i" := (Vector.nth v i) (at level 20, only parsing).
Lemma len_scl k p : 0 <= k -> len3 (scl3 k p) = k * len3 p.
Proof. intros K. unfold len3. replace (dot3 (scl3 k p) (scl3 k p)) with (k * k * dot3 p p) by (unfold dot3, scl3; cbn [cX cY cZ]; ring). rewrite sqrt_mult_alt by (apply Rmult_le_pos; exact K). rewrite sqrt_square by exact K. reflexivity. Qed.
Lemma dir_scl k p : 0 < k -> 0 < len3 p -> dir3 (scl3 k p) = dir3 p.
Proof. intros K P. unfold dir3. rewrite len_scl by lra. apply R3_eq; cbn [cX cY cZ scl3]; field; lra. Qed.
Section F.
Context {f : fmt} {m : libm f}.
Notation FT := (float f).
Notation u := (unit_roundoff f).
Notation eta := (smallest_float f / 2).

Lemma mid_fin (z : FT) r : Rnd z r -> Rabs r <= 16 -> finite z /\ Rabs (B2R z - r) <= u * Rabs r + eta.
Proof. intros R H. apply big_fin; [exact R|]. rewrite B120. lra. Qed.
Lemma acos_gap a b : 0 <= a <= 1 -> 0 <= b <= 1 -> a <= b -> b - a <= acos a - acos b.
Proof.
  intros A B L. assert (CA : cos (acos a) = a) by (apply cos_acos; lra). assert (CB : cos (acos b) = b) by (apply cos_acos; lra).
  assert (BA := acos_bound a). assert (BB := acos_bound b). assert (LIP := cos_lip (acos b) (acos a)). rewrite CA, CB, Rabs_pos_eq in LIP by lra.
  assert (M : acos b <= acos a). { destruct (Rle_or_lt (acos b) (acos a)) as [K|K]; [exact K|]. assert (cos (acos b) < cos (acos a)) by (apply cos_decreasing_1; lra). lra. }
  rewrite Rabs_left1 in LIP by lra. lra.
Qed.
Lemma clip_div z r : 0 < r -> clip (z / r) = Rmin (Rmax z 0) r / r.
Proof.
  intros R. unfold clip. assert (I : 0 < / r) by (apply Rinv_0_lt_compat; exact R). unfold Rdiv.
  destruct (Rle_or_lt z 0) as [Z|Z].
  - assert (z * / r <= 0) by (assert (0 <= - z * / r) by (apply Rmult_le_pos; lra); lra). rewrite !Rmax_right by lra. rewrite !Rmin_left by lra. ring.
  - assert (0 < z * / r) by (apply Rmult_lt_0_compat; assumption). rewrite !Rmax_left by lra. destruct (Rle_or_lt z r) as [K|K].
    + assert (z * / r <= 1) by (apply Rmult_le_reg_r with r; [exact R|]; rewrite Rmult_assoc, Rinv_l by lra; lra). rewrite !Rmin_left by lra. reflexivity.
    + assert (1 < z * / r) by (apply Rmult_lt_reg_r with r; [exact R|]; rewrite Rmult_assoc, Rinv_l by lra; lra). rewrite !Rmin_right by lra. field. lra.
Qed.
Lemma new_parts (rd z0 z1 p1 : FT) s : s_new rd z0 z1 p1 = Ret s ->
  s = mkS rd z0 z1 (m_acos m (native_clamp (fdiv z0 rd) szero sone)) (m_acos m (native_clamp (fdiv z1 rd) szero sone)) p1.
Proof. unfold s_new, oassert. destruct (slt z0 z1); [|discriminate]. intros H. injection H as <-. reflexivity. Qed.
Lemma new_scale (rd z0 z1 p1 : FT) s : good_asin_acos m -> usual_radius rd -> usual_cut rd z0 z1 p1 -> s_new rd z0 z1 p1 = Ret s ->
  (exists P, val (fadd (phi_max s) (pi : FT)) P /\ / 512 <= P <= 16) /\ (exists Q, val (fsub (theta_max s) (theta_min s)) (- Q) /\ / 1024 <= Q <= 16).
Proof.
  intros GA [Fr R] ((F0 & B0) & (F1 & B1) & (Fp & Bp) & H) N. rewrite (new_parts _ _ _ _ _ N). cbn [phi_max theta_max theta_min]. assert (U := u_q (f := f)). assert (EU := eta_u (f := f)). cbn [pow] in EU.
  split.
  - destruct (pi_val (f := f)) as [FP VP]. change (pi : FT) with (f_pi f). assert (P1 := PI_upper_bound). assert (P2 := PI_lower_bound). apply Rabs_le_inv in VP.
    destruct (mid_fin _ _ (fadd_Rnd p1 (f_pi f) Fp FP)) as [F E]; [apply Rabs_le; lra|].
    exists (B2R (fadd p1 (f_pi f))). split; [split; [exact F|reflexivity]|].
    assert (u * Rabs (B2R p1 + B2R (f_pi f)) <= u * 16) by (apply Rmult_le_compat_l; [lra|apply Rabs_le; lra]). apply Rabs_le_inv in E. lra.
  - destruct (div_clip z0 rd F0 Fr R ltac:(lra)) as (FQ0 & R0 & E0). destruct (div_clip z1 rd F1 Fr R ltac:(lra)) as (FQ1 & R1 & E1).
    set (q0 := native_clamp (fdiv z0 rd) szero sone) in *. set (q1 := native_clamp (fdiv z1 rd) szero sone) in *.
    assert (GAP : clip (B2R z0 / B2R rd) + / 512 <= clip (B2R z1 / B2R rd)).
    { rewrite !clip_div by lra. set (a := B2R z0) in *. set (b := B2R z1) in *. set (r := B2R rd) in *.
      assert (M1 := Rmin_l b r). assert (M2 := Rmin_r b r). assert (M3 := Rmax_l a 0). assert (M4 := Rmax_r a 0). rewrite (Rmin_left (Rmax a 0) r) by lra. rewrite (Rmax_left b 0) by lra.
      apply Rmult_le_reg_r with r; [lra|]. rewrite Rmult_plus_distr_r. unfold Rdiv. rewrite !Rmult_assoc, Rinv_l by lra. lra. }
    apply Rabs_le_inv in E0, E1. assert (AG := acos_gap (B2R q0) (B2R q1) R0 R1 ltac:(lra)).
    destruct (acos_lib q0 GA FQ0 R0) as [FA0 A0]. destruct (acos_lib q1 GA FQ1 R1) as [FA1 A1]. apply Rabs_le_inv in A0, A1.
    assert (C0 := acos_bound (B2R q0)). assert (C1 := acos_bound (B2R q1)). assert (P1 := PI_upper_bound).
    destruct (mid_fin _ _ (fsub_Rnd (m_acos m q1) (m_acos m q0) FA1 FA0)) as [F E]; [apply Rabs_le; lra|].
    exists (- B2R (fsub (m_acos m q1) (m_acos m q0))). split; [split; [exact F|ring]|].
    assert (u * Rabs (B2R (m_acos m q1) - B2R (m_acos m q0)) <= u * 16) by (apply Rmult_le_compat_l; [lra|apply Rabs_le; lra]). apply Rabs_le_inv in E. lra.
Qed.
Lemma hit_parts (s : sphere FT) r h : s_hit s r = Some h -> let p := si_p (h_si h) in
  si_n (h_si h) = normalize (cross (si_dpdu (h_si h)) (si_dpdv (h_si h))) /\
  si_dpdu (h_si h) = vec3 (fmul (fneg (vy p)) (fadd (phi_max s) (pi : FT))) (fmul (vx p) (fadd (phi_max s) (pi : FT))) (fmul (fzero false) (fadd (phi_max s) (pi : FT))) /\
  si_dpdv (h_si h) = (let phi := m_atan2 m (vy p) (vx p) in let kt := fsub (theta_max s) (theta_min s) in let q := native_clamp (fdiv (vz p) (radius s)) szero sone in
    vec3 (fmul (fmul (vz p) (m_cos m phi)) kt) (fmul (fmul (vz p) (m_sin m phi)) kt) (fmul (fmul (fneg (radius s)) (m_sin m (m_acos m q))) kt)).
Proof.
  intros H. unfold s_hit in H. destruct (s_intersect_ray s r) as [ip|] eqn:E; [|discriminate].
  assert (PH : sp_phi ip = m_atan2 m (vy (sp_p ip)) (vx (sp_p ip))).
  { destruct (ir_float _ _ _ E) as (t & B). unfold s_get_intersection in B. destruct (negb (in_range t szero (tmax r))); [discriminate|]. cbv zeta in B. destruct (negb _); [discriminate|]. destruct (sgt _ _); [discriminate|]. injection B as <-. reflexivity. }
  cbv zeta in H. destruct (gsin_cos (sp_phi ip)) as [sp cp] eqn:GS. injection H as <-. cbn [h_si si_p si_n si_dpdu si_dpdv si_new].
  change (gsin_cos (sp_phi ip)) with (m_sin m (sp_phi ip), m_cos m (sp_phi ip)) in GS. injection GS as <- <-. rewrite PH. split; [reflexivity|]. split; reflexivity.
Qed.

Lemma hit_normal (rd z0 z1 p1 : FT) (s : sphere FT) (r : ray FT) h : good_sin_cos m -> good_asin_acos m -> good_atan2 m ->
  s_new rd z0 z1 p1 = Ret s -> usual_radius rd -> usual_cut rd z0 z1 p1 -> usual_ray (origin r) (direction r) -> s_hit s r = Some h ->
  let q := f3 (si_p (h_si h)) in let o := f3 (origin r) in let rad := B2R rd in let rho := axis_dist q in let N := dot3 o o + rad * rad in
  0 <= cZ q -> / 1024 <= rho -> 1024 * u * N <= rho * rho ->
  fall finite (si_n (h_si h)) /\ near3 (512 * u * N / (rho * rad)) (f3 (si_n (h_si h))) (dir3 q).
Proof.
  intros G GA GT SN UR UC URay H q o rad rho N Z R0 OFF. assert (U := u_q (f := f)). assert (UP := u_pos (f := f)).
  destruct (new_scale rd z0 z1 p1 s GA UR UC SN) as ((P & VP & BP) & (Q & VQ & BQ)).
  assert (RS : radius s = rd) by (rewrite (new_parts _ _ _ _ _ SN); reflexivity).
  destruct (hit_near f m s r h URay ltac:(rewrite RS; exact UR) H) as (_ & Fq & _ & HN & _). fold q o in HN. rewrite RS in HN. fold rad N in HN.
  destruct UR as [Fr BR]. fold rad in BR.
  assert (XX : rho * rho = cX q * cX q + cY q * cY q). { apply sqrt_sqrt. assert (A := Rle_0_sqr (cX q)). assert (B := Rle_0_sqr (cY q)). unfold Rsqr in *. lra. }
  assert (QQ : dot3 q q = rho * rho + cZ q * cZ q) by (rewrite XX; unfold dot3; ring).
  assert (OO : 0 <= dot3 o o) by (unfold dot3; assert (Y1 := Rle_0_sqr (cX o)); assert (Y2 := Rle_0_sqr (cY o)); assert (Y3 := Rle_0_sqr (cZ o)); unfold Rsqr in *; lra). assert (R2 : 0 < rad * rad) by (apply Rmult_lt_0_compat; lra).
  assert (NN : rad * rad <= N) by (unfold N; lra).
  assert (UN : 0 <= u * N) by (apply Rmult_le_pos; unfold N; lra).
  rewrite QQ in HN. assert (HN' := Rabs_le_inv _ _ HN). assert (ZZ : 0 <= cZ q * cZ q) by (apply Rmult_le_pos; exact Z).
  assert (RHO2 : rho * rho <= 10 / 9 * (rad * rad)) by lra.
  assert (RHO : rho <= 106 / 100 * rad). { apply Rsqr_incr_0_var; [unfold Rsqr; lra|lra]. }
  assert (ZR : cZ q <= rad). { apply Rsqr_incr_0_var; [unfold Rsqr; lra|lra]. }
  assert (RHO' : rho <= 2 * rad) by lra.
  destruct (hit_parts s r h H) as (EN & EU & EV). set (p := si_p (h_si h)) in *. rewrite EN, EU, EV. cbv zeta. rewrite RS.
  change (B2R (vx p)) with (cX q) in *. 
  destruct (div_clip (vz p) rd (Fq _) Fr BR) as (FQ & RQ & EQ). { change (B2R (vz p)) with (cZ q). rewrite Rabs_pos_eq; lra. }
  assert (ZC : clip (B2R (vz p) / B2R rd) = cZ q / rad). { apply clip_id. change (B2R (vz p)) with (cZ q). fold rad. split; [apply Rmult_le_pos; [exact Z|left; apply Rinv_0_lt_compat; lra]|]. apply Rmult_le_reg_r with rad; [lra|]. unfold Rdiv. rewrite Rmult_assoc, Rinv_l by lra. rewrite Rmult_1_r, Rmult_1_l. exact ZR. }
  rewrite ZC in EQ.
  destruct (frame_cross (vx p) (vy p) (vz p) rd (fadd (phi_max s) (pi : FT)) (fsub (theta_max s) (theta_min s)) (native_clamp (fdiv (vz p) rd) szero sone) P Q N G GA GT (Fq _) (Fq _) (Fq _) Fr FQ VP VQ R0 BR BP BQ (conj Z ZR) RHO' NN RQ EQ HN) as [FC NC].
  match type of FC with fall finite ?x => set (c := x) in * end. clearbody c. clear EN EU EV EQ ZC FQ RQ.
  change (mk3 (B2R (vx p)) (B2R (vy p)) (B2R (vz p))) with q in NC. change (sqrt (B2R (vx p) * B2R (vx p) + B2R (vy p) * B2R (vy p))) with rho in NC. change (B2R rd) with rad in NC.
  assert (PQ : 0 < P * Q) by (apply Rmult_lt_0_compat; lra).
  set (e := P * Q * (28 * u * (rho * rad) + 103 * u * N)) in *.
  assert (RR : rho * rad <= 106 / 100 * (rad * rad)) by (replace (106 / 100 * (rad * rad)) with (106 / 100 * rad * rad) by ring; apply Rmult_le_compat_r; lra).
  assert (RR0 : 0 < rho * rad) by (apply Rmult_lt_0_compat; lra).
  assert (UR1 : u * (rho * rad) <= 106 / 100 * (u * N)) by (replace (106 / 100 * (u * N)) with (u * (106 / 100 * N)) by ring; apply Rmult_le_compat_l; lra).
  assert (EB : 0 <= e <= P * Q * (133 * (u * N))). { unfold e. split; [apply Rmult_le_pos; [lra|]|apply Rmult_le_compat_l; [lra|lra]]. assert (0 <= u * (rho * rad)) by (apply Rmult_le_pos; lra). lra. }
  assert (L := near_len74 e _ _ (proj1 EB) NC). set (C := scl3 (P * Q * rho) q) in *.
  assert (L2 : len3 (sub3 (f3 c) C) <= P * Q * (233 * (u * N))) by lra.
  assert (LQ2 : len3 q * len3 q = rho * rho + cZ q * cZ q) by (rewrite len3_sq; exact QQ).
  assert (LQ0 := len3_nonneg q).
  assert (LQ : 94 / 100 * rad <= len3 q <= 106 / 100 * rad). { split; (apply Rsqr_incr_0_var; [unfold Rsqr; lra|lra]). }
  assert (PR : 0 < P * Q * rho) by (apply Rmult_lt_0_compat; lra).
  assert (LC : len3 C = P * Q * rho * len3 q) by (apply len_scl; lra).
  assert (S1 : P * Q * rho * (94 / 100 * rad) <= len3 C <= P * Q * rho * (106 / 100 * rad)) by (rewrite LC; split; apply Rmult_le_compat_l; lra).
  assert (S2 : P * Q * (233 * (u * N)) <= P * Q * rho * (25 / 100 * rad)).
  { replace (P * Q * rho * (25 / 100 * rad)) with (P * Q * (25 / 100 * (rho * rad))) by ring. apply Rmult_le_compat_l; [lra|]. assert (rho * rho <= rho * (106 / 100 * rad)) by (apply Rmult_le_compat_l; lra). lra. }
  assert (S3 : / 549755813888 <= P * Q * rho * rad <= 562949953421312).
  { replace (P * Q * rho * rad) with ((P * rho) * (Q * rad)) by ring. split.
    - replace (/ 549755813888) with ((/ 512 * / 1024) * (/ 1024 * / 1024)) by field. apply Rmult_le_compat; try lra; apply Rmult_le_compat; lra.
    - apply Rle_trans with ((16 * 2097152) * (16 * 1048576)); [|lra]. apply Rmult_le_compat; try (apply Rmult_le_pos; lra); apply Rmult_le_compat; lra. }
  assert (D := len_diff (f3 c) C). apply Rabs_le_inv in D.
  assert (B40 : bpow radix2 (-40) = / 1099511627776) by reflexivity. assert (B55 : bpow radix2 55 = 36028797018963968) by reflexivity.
  assert (LCC : / 1099511627776 <= len3 (f3 c) <= 36028797018963968) by lra.
  destruct (normalize_near c FC ltac:(rewrite B40, B55; exact LCC)) as [FN NR]. split; [exact FN|].
  assert (DC := dir_close (f3 c) C ltac:(lra) ltac:(lra)). assert (DS : dir3 C = dir3 q) by (apply dir_scl; lra). rewrite DS in DC.
  eapply near_le; [eapply near_tri; [exact NR|exact DC]|].
  assert (K1 : 2 * len3 (sub3 (f3 c) C) / len3 C <= 496 * (u * N) / (rho * rad)).
  { apply Rle_trans with (2 * (P * Q * (233 * (u * N))) / (P * Q * rho * (94 / 100 * rad))).
    - unfold Rdiv. apply Rmult_le_compat; [assert (P0 := len3_nonneg (sub3 (f3 c) C)); lra|left; apply Rinv_0_lt_compat; lra|lra|apply Rinv_le_contravar; lra].
    - replace (2 * (P * Q * (233 * (u * N))) / (P * Q * rho * (94 / 100 * rad))) with ((46600 / 94) * (u * N) / (rho * rad)) by (field; repeat split; lra). unfold Rdiv. apply Rmult_le_compat_r; [left; apply Rinv_0_lt_compat; lra|]. lra. }
  assert (K2 : u <= 106 / 100 * (u * N) / (rho * rad)). { apply Rmult_le_reg_r with (rho * rad); [lra|]. unfold Rdiv. rewrite Rmult_assoc, Rinv_l by lra. lra. }
  replace (512 * u * N / (rho * rad)) with (496 * (u * N) / (rho * rad) + 16 * (u * N) / (rho * rad)) by (field; lra).
  assert (0 <= u * N / (rho * rad)) by (apply Rmult_le_pos; [exact UN|left; apply Rinv_0_lt_compat; lra]).
  replace (106 / 100 * (u * N) / (rho * rad)) with (106 / 100 * (u * N / (rho * rad))) in K2 by (field; lra). replace (16 * (u * N) / (rho * rad)) with (16 * (u * N / (rho * rad))) by (field; lra). lra.
Qed.

Lemma hit_u_def (s : sphere FT) r h : s_hit s r = Some h -> let p := si_p (h_si h) in
  Vector.nth (si_uv (h_si h)) Fin.F1 = fdiv (fadd (m_atan2 m (vy p) (vx p)) (pi : FT)) (fadd (phi_max s) (pi : FT)).
Proof.
  intros H. unfold s_hit in H. destruct (s_intersect_ray s r) as [ip|] eqn:E; [|discriminate].
  assert (PH : sp_phi ip = m_atan2 m (vy (sp_p ip)) (vx (sp_p ip))).
  { destruct (ir_float _ _ _ E) as (t & B). unfold s_get_intersection in B. destruct (negb (in_range t szero (tmax r))); [discriminate|]. cbv zeta in B. destruct (negb _); [discriminate|]. destruct (sgt _ _); [discriminate|]. injection B as <-. reflexivity. }
  cbv zeta in H. destruct (gsin_cos (sp_phi ip)) as [sp cp] eqn:GS. injection H as <-. cbn [h_si si_p si_uv si_new]. rewrite PH. reflexivity.
Qed.
Lemma pi_sum (a : FT) A : finite a -> Rabs (B2R a - A) <= 633 / 100 * u -> -13 / 4 <= A <= 7 -> finite (fadd a (pi : FT)) /\ Rabs (B2R (fadd a (pi : FT)) - (A + PI)) <= 783 / 100 * u + 1025 / 100 * u /\ B2R (fadd a (pi : FT)) <= 16.
Proof.
  intros Fa EA BA. assert (U := u_q (f := f)). assert (EU := eta_u (f := f)). cbn [pow] in EU. change (pi : FT) with (f_pi f).
  destruct (pi_val (f := f)) as [FP VP]. assert (P1 := PI_upper_bound). assert (P2 := PI_lower_bound). apply Rabs_le_inv in VP, EA.
  destruct (mid_fin _ _ (fadd_Rnd a (f_pi f) Fa FP)) as [F E]; [apply Rabs_le; lra|]. split; [exact F|].
  assert (u * Rabs (B2R a + B2R (f_pi f)) <= u * (1021 / 100)) by (apply Rmult_le_compat_l; [lra|apply Rabs_le; lra]). apply Rabs_le_inv in E. split; [apply Rabs_le|]; lra.
Qed.
Lemma hit_u (s : sphere FT) (r : ray FT) h : good_atan2 m -> usual_radius (radius s) -> usual_ray (origin r) (direction r) -> finite (phi_max s) -> -3 <= B2R (phi_max s) <= 7 ->
  s_hit s r = Some h -> let q := f3 (si_p (h_si h)) in let B := B2R (phi_max s) + PI in let c := Vector.nth (si_uv (h_si h)) Fin.F1 in 0 < axis_dist q ->
  finite c /\ exists t, - PI <= t <= PI /\ cX q = axis_dist q * cos t /\ cY q = axis_dist q * sin t /\ Rabs (B2R c - (t + PI) / B) <= 64 * u / B.
Proof.
  intros GT UR URay Fm Bm H q B c R0. assert (U := u_q (f := f)). assert (EU := eta_u (f := f)). cbn [pow] in EU.
  assert (P1 := PI_upper_bound). assert (P2 := PI_lower_bound).
  destruct (hit_near f m s r h URay UR H) as (_ & Fq & _). destruct (hit_float_sphere s r h H) as (_ & _ & _ & _ & _ & NP).
  unfold c. rewrite (hit_u_def s r h H). cbv zeta. set (p := si_p (h_si h)) in *.
  destruct (GT (vy p) (vx p) (Fq _) (Fq _)) as (t & k & T & K & X & Y & W).
  { change (cY q <> 0 \/ cX q <> 0). destruct (Req_dec (cY q) 0) as [E|E]; [right|left; exact E]. intros E'. unfold axis_dist in R0. rewrite E, E' in R0. replace (0 * 0 + 0 * 0) with 0 in R0 by ring. rewrite sqrt_0 in R0. lra. }
  change (gatan2 (vy p) (vx p)) with (m_atan2 m (vy p) (vx p)) in NP. set (phi := m_atan2 m (vy p) (vx p)) in *.
  assert (AK : axis_dist q = k). { unfold axis_dist. change (cX q) with (B2R (vx p)). change (cY q) with (B2R (vy p)). rewrite X, Y. replace (k * cos t * (k * cos t) + k * sin t * (k * sin t)) with (k * k * (Rsqr (sin t) + Rsqr (cos t))) by (unfold Rsqr; ring). rewrite sin2_cos2, Rmult_1_r. apply sqrt_square. lra. }
  destruct (wulp4 _ _ (315 / 100) W) as [FA E]; [apply Rabs_le; lra|lra|]. replace ((2 * (315 / 100) + / 50) * u) with (632 / 100 * u) in E by field.
  assert (TP : t <= B2R (phi_max s) + 632 / 100 * u). { apply Rabs_le_inv in E. destruct (Rle_or_lt (B2R phi) (B2R (phi_max s))) as [L|L]; [lra|]. exfalso. apply NP. apply flt_R; assumption. }
  destruct (pi_sum phi t FA ltac:(lra) ltac:(lra)) as (FN & EN & BN). destruct (pi_sum (phi_max s) (B2R (phi_max s)) Fm ltac:(rewrite Rminus_eq_0, Rabs_R0; lra) ltac:(lra)) as (FD & ED & BD). fold B in ED.
  set (n := fadd phi (pi : FT)) in *. set (d := fadd (phi_max s) (pi : FT)) in *. apply Rabs_le_inv in EN, ED.
  assert (BB : 14 / 100 <= B <= 102 / 10) by (unfold B; lra). assert (DD : 13 / 100 <= B2R d) by lra.
  assert (QD : Rabs (B2R n / B2R d - (t + PI) / B) <= 38 * u / B).
  { replace (B2R n / B2R d - (t + PI) / B) with (((B2R n - (t + PI)) * B - (t + PI) * (B2R d - B)) / (B2R d * B)) by (field; lra).
    unfold Rdiv at 1. rewrite Rabs_mult, (Rabs_pos_eq (/ _)) by (left; apply Rinv_0_lt_compat, Rmult_lt_0_compat; lra).
    apply Rmult_le_reg_r with (B2R d * B); [apply Rmult_lt_0_compat; lra|]. rewrite Rmult_assoc, Rinv_l, Rmult_1_r by (apply Rgt_not_eq, Rmult_lt_0_compat; lra).
    replace (38 * u / B * (B2R d * B)) with (38 * u * B2R d) by (field; lra).
    apply Rle_trans with (1808 / 100 * u * B + (B + 632 / 100 * u) * (1808 / 100 * u)).
    - unfold Rminus at 1. eapply Rle_trans; [apply Rabs_triang|]. rewrite Rabs_Ropp. apply Rplus_le_compat; rewrite Rabs_mult.
      + rewrite (Rabs_pos_eq B) by lra. apply Rmult_le_compat_r; [lra|]. apply Rabs_le; lra.
      + assert (TB' : 0 <= t + PI <= B + 632 / 100 * u) by (unfold B; lra). apply Rmult_le_compat; try apply Rabs_pos; apply Rabs_le; lra.
    - assert (u * (3616 / 100 * B + 632 / 100 * (1808 / 100) * u) <= u * (38 * B2R d)) by (apply Rmult_le_compat_l; lra). lra. }
  assert (D0 : B2R d <> 0) by lra. assert (RR := fdiv_Rnd n d FN FD D0).
  assert (IB : / B <= 100 / 14) by (replace (100 / 14) with (/ (14 / 100)) by field; apply Rinv_le_contravar; lra). assert (IB0 : 0 < / B) by (apply Rinv_0_lt_compat; lra).
  assert (TB : -1 / 1000 <= (t + PI) / B <= 1001 / 1000).
  { assert (TC : (t + PI) / B * B = t + PI) by (field; lra). assert (TB' : 0 <= t + PI <= B + 632 / 100 * u) by (unfold B; lra). split; (apply Rmult_le_reg_r with B; [lra|]; rewrite TC); lra. }
  assert (UB : 0 <= 38 * u / B <= / 1000). { unfold Rdiv. split; [apply Rmult_le_pos; lra|]. apply Rle_trans with (38 * / 1000000 * (100 / 14)); [apply Rmult_le_compat; lra|lra]. }
  assert (QD' := Rabs_le_inv _ _ QD). assert (QB : Rabs (B2R n / B2R d) <= 101 / 100) by (apply Rabs_le; lra).
  destruct (mid_fin _ _ RR ltac:(lra)) as [FC EC]. split; [exact FC|]. exists t. split; [exact T|]. rewrite AK. split; [exact X|]. split; [exact Y|].
  assert (u * Rabs (B2R n / B2R d) <= u * (101 / 100)) by (apply Rmult_le_compat_l; lra).
  assert (KU : u <= 102 / 10 * u / B). { apply Rmult_le_reg_r with B; [lra|]. unfold Rdiv. rewrite Rmult_assoc, Rinv_l by lra. assert (u * B <= u * (102 / 10)) by (apply Rmult_le_compat_l; lra). lra. }
  replace (102 / 10 * u / B) with (102 / 10 * (u / B)) in KU by (field; lra). replace (38 * u / B) with (38 * (u / B)) in QD' by (field; lra). replace (64 * u / B) with (64 * (u / B)) by (field; lra).
  apply Rabs_le_inv in EC. apply Rabs_le. lra.
Qed.
Lemma hit_dpdu (s : sphere FT) (r : ray FT) h : usual_radius (radius s) -> usual_ray (origin r) (direction r) -> finite (phi_max s) -> -3 <= B2R (phi_max s) <= 7 ->
  s_hit s r = Some h -> let q := f3 (si_p (h_si h)) in let B := B2R (phi_max s) + PI in / 1024 <= axis_dist q ->
  fall finite (si_dpdu (h_si h)) /\ near3 (32 * u * axis_dist q) (f3 (si_dpdu (h_si h))) (scl3 B (mk3 (- cY q) (cX q) 0)).
Proof.
  intros UR URay Fm Bm H q B R0. assert (U := u_q (f := f)). assert (EU := eta_u (f := f)). cbn [pow] in EU.
  assert (P1 := PI_upper_bound). assert (P2 := PI_lower_bound).
  destruct (hit_near f m s r h URay UR H) as (_ & Fq & _ & HN & _). fold q in HN. destruct (hit_parts s r h H) as (_ & EU' & _). rewrite EU'. clear EU'. set (p := si_p (h_si h)) in *.
  destruct (pi_sum (phi_max s) (B2R (phi_max s)) Fm ltac:(rewrite Rminus_eq_0, Rabs_R0; lra) ltac:(lra)) as (FD & ED & BD). fold B in ED. set (d := fadd (phi_max s) (pi : FT)) in *.
  set (rho := axis_dist q) in *.
  assert (XX : rho * rho = cX q * cX q + cY q * cY q). { apply sqrt_sqrt. assert (A1 := Rle_0_sqr (cX q)). assert (A2 := Rle_0_sqr (cY q)). unfold Rsqr in *. lra. }
  assert (AX : Rabs (cX q) <= rho) by (rewrite <- (Rabs_pos_eq rho) by lra; apply Rsqr_le_abs_0; unfold Rsqr; assert (A2 := Rle_0_sqr (cY q)); unfold Rsqr in A2; lra).
  assert (AY : Rabs (cY q) <= rho) by (rewrite <- (Rabs_pos_eq rho) by lra; apply Rsqr_le_abs_0; unfold Rsqr; assert (A2 := Rle_0_sqr (cX q)); unfold Rsqr in A2; lra).
  assert (RB : rho <= 10000000).
  { destruct UR as [_ UR]. destruct URay as (UO & _). assert (O0 := proj2 (UO Fin.F1)). assert (O1 := proj2 (UO (Fin.FS Fin.F1))). assert (O2 := proj2 (UO (Fin.FS (Fin.FS Fin.F1)))).
    assert (SQ : forall a, Rabs a <= 1048576 -> a * a <= 1099511627776). { intros a A. assert (K := Rmult_le_compat _ _ _ _ (Rabs_pos a) (Rabs_pos a) A A). rewrite <- Rabs_mult in K. rewrite Rabs_pos_eq in K by (assert (Z := Rle_0_sqr a); unfold Rsqr in Z; lra). lra. }
    apply SQ in O0, O1, O2. assert (RR := SQ (B2R (radius s)) ltac:(rewrite Rabs_pos_eq; lra)).
    set (N := dot3 (f3 (origin r)) (f3 (origin r)) + B2R (radius s) * B2R (radius s)) in *.
    assert (NB : 0 <= N <= 4398046511104). { unfold N, dot3. change (cX (f3 (origin r))) with (B2R (Vector.nth (origin r) Fin.F1)). change (cY (f3 (origin r))) with (B2R (Vector.nth (origin r) (Fin.FS Fin.F1))). change (cZ (f3 (origin r))) with (B2R (Vector.nth (origin r) (Fin.FS (Fin.FS Fin.F1)))).
      assert (Z0 := Rle_0_sqr (B2R (Vector.nth (origin r) Fin.F1))). assert (Z1 := Rle_0_sqr (B2R (Vector.nth (origin r) (Fin.FS Fin.F1)))). assert (Z2 := Rle_0_sqr (B2R (Vector.nth (origin r) (Fin.FS (Fin.FS Fin.F1))))). assert (Z3 := Rle_0_sqr (B2R (radius s))). unfold Rsqr in *. lra. }
    assert (u * N <= / 1000000 * N) by (apply Rmult_le_compat_r; lra). apply Rabs_le_inv in HN. assert (Z4 := Rle_0_sqr (cZ q)). unfold Rsqr in Z4. unfold dot3 at 1 2 in HN.
    apply Rsqr_incr_0_var; [unfold Rsqr; lra|lra]. }
  assert (ED' := Rabs_le_inv _ _ ED). assert (BB : 14 / 100 <= B <= 102 / 10) by (unfold B; lra).
  assert (M : forall (a : FT), finite a -> Rabs (B2R a) <= rho -> finite (fmul a d) /\ Rabs (B2R (fmul a d) - B * B2R a) <= 32 * u * rho).
  { intros a Fa Ba. assert (PB : Rabs (B2R a * B2R d) <= rho * (1021 / 100)) by (rewrite Rabs_mult; apply Rmult_le_compat; try apply Rabs_pos; [exact Ba|apply Rabs_le; lra]).
    destruct (big_fin _ _ (fmul_Rnd a d Fa FD)) as [F E]; [assert (B30 := big_1e30); cbn [pow] in B30; lra|]. split; [exact F|].
    replace (B2R (fmul a d) - B * B2R a) with ((B2R (fmul a d) - B2R a * B2R d) + B2R a * (B2R d - B)) by ring.
    eapply Rle_trans; [apply Rabs_triang|]. rewrite (Rabs_mult (B2R a)).
    assert (Rabs (B2R a) * Rabs (B2R d - B) <= rho * (1808 / 100 * u)) by (apply Rmult_le_compat; try apply Rabs_pos; lra).
    assert (u * Rabs (B2R a * B2R d) <= u * (rho * (1021 / 100))) by (apply Rmult_le_compat_l; lra).
    assert (/ 1024 * u <= rho * u) by (apply Rmult_le_compat_r; lra). lra. }
  destruct (M (fneg (vy p)) ltac:(apply fneg_finite, Fq) ltac:(rewrite fneg_B2R, Rabs_Ropp; exact AY)) as [F1 E1]. destruct (M (vx p) (Fq _) AX) as [F2 E2].
  destruct (M (fzero false) eq_refl ltac:(change (B2R (fzero false : FT)) with 0; rewrite Rabs_R0; lra)) as [F3 E3].
  rewrite fneg_B2R in E1. change (B2R (fzero false : FT)) with 0 in E3.
  split.
  - intros i. apply (Fin.caseS' i); [exact F1|]. intros j. apply (Fin.caseS' j); [exact F2|]. intros k. apply (Fin.caseS' k); [exact F3|]. intros l. inversion l.
  - split; [exact E1|]. split; [exact E2|exact E3].
Qed.

Lemma clip_neg v : v <= 0 -> clip v = 0.
Proof. intros V. unfold clip. rewrite Rmax_right by lra. apply Rmin_left. lra. Qed.
Lemma hit_normal_lower (rd z0 z1 p1 : FT) (s : sphere FT) (r : ray FT) h : good_sin_cos m -> good_asin_acos m -> good_atan2 m ->
  s_new rd z0 z1 p1 = Ret s -> usual_radius rd -> usual_cut rd z0 z1 p1 -> usual_ray (origin r) (direction r) -> s_hit s r = Some h ->
  let q := f3 (si_p (h_si h)) in let o := f3 (origin r) in let rad := B2R rd in let rho := axis_dist q in let N := dot3 o o + rad * rad in
  cZ q <= 0 -> / 1024 <= rho -> 1024 * u * N <= rho * rho ->
  fall finite (si_n (h_si h)) /\ near3 (128 * u) (f3 (si_n (h_si h))) (dir3 (mk3 (rad * cX q) (rad * cY q) (rho * cZ q))).
Proof.
  intros G GA GT SN UR UC URay H q o rad rho N Z R0 OFF. assert (U := u_q (f := f)). assert (UP := u_pos (f := f)).
  destruct (new_scale rd z0 z1 p1 s GA UR UC SN) as ((P & VP & BP) & (Q & VQ & BQ)).
  assert (RS : radius s = rd) by (rewrite (new_parts _ _ _ _ _ SN); reflexivity).
  destruct (hit_near f m s r h URay ltac:(rewrite RS; exact UR) H) as (_ & Fq & _ & HN & _). fold q o in HN. rewrite RS in HN. fold rad N in HN.
  destruct UR as [Fr BR]. fold rad in BR.
  assert (XX : rho * rho = cX q * cX q + cY q * cY q). { apply sqrt_sqrt. assert (A := Rle_0_sqr (cX q)). assert (B := Rle_0_sqr (cY q)). unfold Rsqr in *. lra. }
  assert (QQ : dot3 q q = rho * rho + cZ q * cZ q) by (rewrite XX; unfold dot3; ring).
  rewrite QQ in HN. assert (HN' := Rabs_le_inv _ _ HN). assert (ZZ : 0 <= cZ q * cZ q) by (assert (ZZ := Rle_0_sqr (cZ q)); exact ZZ). assert (R2 : 0 < rad * rad) by (apply Rmult_lt_0_compat; lra).
  assert (RHO2 : rho * rho <= 10 / 9 * (rad * rad)) by lra.
  assert (RHO : rho <= 106 / 100 * rad). { apply Rsqr_incr_0_var; [unfold Rsqr; lra|lra]. }
  assert (ZR : Rabs (cZ q) <= rad). { rewrite <- (Rabs_pos_eq rad) by lra. apply Rsqr_le_abs_0. unfold Rsqr. lra. }
  assert (RHO' : rho <= 2 * rad) by lra.
  destruct (hit_parts s r h H) as (EN & EU & EV). set (p := si_p (h_si h)) in *. rewrite EN, EU, EV. cbv zeta. rewrite RS.
  destruct (div_clip (vz p) rd (Fq _) Fr BR) as (FQ & RQ & EQ). { change (B2R (vz p)) with (cZ q). lra. }
  rewrite clip_neg in EQ. 2:{ change (B2R (vz p)) with (cZ q). fold rad. assert (I : 0 < / rad) by (apply Rinv_0_lt_compat; lra). unfold Rdiv. assert (0 <= - cZ q * / rad) by (apply Rmult_le_pos; lra). lra. }
  set (qf := native_clamp (fdiv (vz p) rd) szero sone) in *.
  destruct (frame_cross_gen (vx p) (vy p) (vz p) rd (fadd (phi_max s) (pi : FT)) (fsub (theta_max s) (theta_min s)) qf P Q G GA GT (Fq _) (Fq _) (Fq _) Fr FQ VP VQ R0 BR BP BQ ZR RHO' RQ) as [FC NC].
  match type of FC with fall finite ?x => set (c := x) in * end. clearbody c. clear EN EU EV FQ.
  change (sqrt (B2R (vx p) * B2R (vx p) + B2R (vy p) * B2R (vy p))) with rho in NC. change (B2R rd) with rad in NC. change (B2R (vx p)) with (cX q) in NC. change (B2R (vy p)) with (cY q) in NC. change (B2R (vz p)) with (cZ q) in NC. cbv zeta in NC.
  rewrite Rminus_0_r, Rabs_pos_eq in EQ by lra. clearbody qf. set (w := B2R qf) in *.
  assert (W2 : 0 <= w * w <= 102 / 100 * u * (102 / 100 * u)) by (split; [apply Rmult_le_pos; lra|apply Rmult_le_compat; lra]).
  assert (W3 : w * w <= / 1000 * u). { assert (u * (1020 / 1000 * (102 / 100) * u) <= u * / 1000) by (apply Rmult_le_compat_l; lra). lra. }
  set (sg := sqrt (1 - w * w)) in *. assert (SS : sg * sg = 1 - w * w) by (apply sqrt_sqrt; lra). assert (S0 : 0 <= sg) by apply sqrt_pos.
  assert (SG : 1 - / 1000 * u <= sg <= 1). { split; [|apply Rsqr_incr_0_var; [unfold Rsqr; lra|lra]]. destruct (Rle_or_lt (1 - / 1000 * u) sg) as [K|K]; [exact K|]. exfalso. assert (sg * sg <= (1 - / 1000 * u) * 1) by (apply Rmult_le_compat; lra). assert (sg * sg < 1 - / 1000 * u); [|lra]. apply Rle_lt_trans with (sg * 1); [apply Rmult_le_compat_l; [exact S0|lra]|lra]. }
  assert (PQ : 0 < P * Q) by (apply Rmult_lt_0_compat; lra). assert (RR0 : 0 < rho * rad) by (apply Rmult_lt_0_compat; lra).
  assert (AX : Rabs (cX q) <= rho) by (rewrite <- (Rabs_pos_eq rho) by lra; apply Rsqr_le_abs_0; unfold Rsqr; assert (B := Rle_0_sqr (cY q)); unfold Rsqr in B; lra).
  assert (AY : Rabs (cY q) <= rho) by (rewrite <- (Rabs_pos_eq rho) by lra; apply Rsqr_le_abs_0; unfold Rsqr; assert (B := Rle_0_sqr (cX q)); unfold Rsqr in B; lra).
  set (T := mk3 (rad * cX q) (rad * cY q) (rho * cZ q)). set (e := P * Q * (29 * u * (rho * rad))).
  assert (UR0 : 0 <= P * Q * (u * (rho * rad))) by (apply Rmult_le_pos; [lra|apply Rmult_le_pos; lra]).
  assert (NT : near3 e (f3 c) (scl3 (P * Q) T)).
  { assert (DX : forall v, Rabs v <= rho -> Rabs (P * Q * (rad * sg * v) - P * Q * (rad * v)) <= P * Q * (u * (rho * rad))).
    { intros v V. replace (P * Q * (rad * sg * v) - P * Q * (rad * v)) with (P * Q * ((sg - 1) * (v * rad))) by ring. rewrite Rabs_mult, (Rabs_pos_eq (P * Q)) by lra. apply Rmult_le_compat_l; [lra|]. rewrite Rabs_mult.
      apply Rmult_le_compat; try apply Rabs_pos; [apply Rabs_le; lra|]. rewrite Rabs_mult, (Rabs_pos_eq rad) by lra. apply Rmult_le_compat_r; lra. }
    assert (D1 := DX _ AX). assert (D2 := DX _ AY). destruct NC as (N1 & N2 & N3). unfold T, e. cbn [cX cY cZ scl3] in *. apply Rabs_le_inv in D1, D2, N1, N2, N3.
    split; [|split]; cbn [cX cY cZ scl3]; apply Rabs_le; lra. }
  assert (E0 : 0 <= e) by (unfold e; lra). assert (L := near_len74 e _ _ E0 NT). set (C := scl3 (P * Q) T) in *.
  assert (LT2 : len3 T * len3 T = rho * rho * (rad * rad + cZ q * cZ q)). { rewrite len3_sq. unfold T, dot3. cbn [cX cY cZ]. replace (rad * cX q * (rad * cX q) + rad * cY q * (rad * cY q) + rho * cZ q * (rho * cZ q)) with (rad * rad * (cX q * cX q + cY q * cY q) + rho * rho * (cZ q * cZ q)) by ring. rewrite <- XX. ring. }
  assert (ZZR : cZ q * cZ q <= rad * rad). { assert (K := Rmult_le_compat _ _ _ _ (Rabs_pos _) (Rabs_pos _) ZR ZR). rewrite <- Rabs_mult, Rabs_pos_eq in K by exact ZZ. exact K. }
  assert (RH : 0 < rho * rho) by (apply Rmult_lt_0_compat; lra).
  assert (LT : rho * rad <= len3 T <= 3 / 2 * (rho * rad)).
  { assert (LT0 := len3_nonneg T). split; (apply Rsqr_incr_0_var; [unfold Rsqr; rewrite LT2|lra]).
    - replace (rho * rad * (rho * rad)) with (rho * rho * (rad * rad)) by ring. apply Rmult_le_compat_l; lra.
    - replace (3 / 2 * (rho * rad) * (3 / 2 * (rho * rad))) with (rho * rho * (9 / 4 * (rad * rad))) by field. apply Rmult_le_compat_l; lra. }
  assert (LC : len3 C = P * Q * len3 T) by (apply len_scl; lra).
  assert (S1 : P * Q * (rho * rad) <= len3 C <= P * Q * (3 / 2 * (rho * rad))) by (rewrite LC; split; apply Rmult_le_compat_l; lra).
  assert (L2 : len3 (sub3 (f3 c) C) <= P * Q * (51 * u * (rho * rad))) by (unfold e in L; lra).
  assert (L3 : P * Q * (51 * u * (rho * rad)) <= / 4 * (P * Q * (rho * rad))). { replace (P * Q * (51 * u * (rho * rad))) with (51 * u * (P * Q * (rho * rad))) by ring. apply Rmult_le_compat_r; [apply Rmult_le_pos; lra|lra]. }
  assert (S3 : / 549755813888 <= P * Q * (rho * rad) <= 562949953421312).
  { replace (P * Q * (rho * rad)) with ((P * rho) * (Q * rad)) by ring. split.
    - replace (/ 549755813888) with ((/ 512 * / 1024) * (/ 1024 * / 1024)) by field. apply Rmult_le_compat; try lra; apply Rmult_le_compat; lra.
    - apply Rle_trans with ((16 * 2097152) * (16 * 1048576)); [|lra]. apply Rmult_le_compat; try (apply Rmult_le_pos; lra); apply Rmult_le_compat; lra. }
  assert (D := len_diff (f3 c) C). apply Rabs_le_inv in D.
  assert (B40 : bpow radix2 (-40) = / 1099511627776) by reflexivity. assert (B55 : bpow radix2 55 = 36028797018963968) by reflexivity.
  assert (LCC : / 1099511627776 <= len3 (f3 c) <= 36028797018963968) by lra.
  destruct (normalize_near c FC ltac:(rewrite B40, B55; exact LCC)) as [FN NR]. split; [exact FN|].
  assert (DC := dir_close (f3 c) C ltac:(lra) ltac:(lra)). assert (DS : dir3 C = dir3 T) by (apply dir_scl; lra). rewrite DS in DC.
  eapply near_le; [eapply near_tri; [exact NR|exact DC]|].
  assert (K1 : 2 * len3 (sub3 (f3 c) C) / len3 C <= 102 * u).
  { apply Rmult_le_reg_r with (len3 C); [lra|]. unfold Rdiv. rewrite Rmult_assoc, Rinv_l, Rmult_1_r by lra.
    assert (102 * u * (P * Q * (rho * rad)) <= 102 * u * len3 C) by (apply Rmult_le_compat_l; lra). lra. }
  lra.
Qed.
End F.
