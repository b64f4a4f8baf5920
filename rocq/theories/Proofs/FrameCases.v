(** A platform library meeting the contract of [good_atan2], and a ball that is hit, for FrameHit. *)
From Coq Require Import ZArith Reals Bool Lra Lia.
From Coq Require Vector Fin.
From Flocq Require Import Core BinarySingleNaN.
From Verif.Model Require Import FloatBase Scalar Float Interval Outcome Vec Transform XReal Geometry.
From Verif Require Import Spec SpecGeom SpecShape SpecTrig SpecError SpecQuad SpecRot SpecFrame.
From Verif.Proofs Require MapBack QuadFloat.
From Verif.Proofs Require Import BitsLemmas FloatLemmas ScalarProofs XRealLemmas TransformCases SphereFloat SphereNear SpherePole IntervalTrig2 PiBounds TrigTight FrameFloat FrameHit.
Open Scope R_scope.

Definition angle_of (x y : R) : R := let a := acos (x / sqrt (x * x + y * y)) in if Rle_dec 0 y then a else - a.
Definition frame_libm (f : fmt) : libm f := {|
  m_sin := m_sin (exact_libm f); m_cos := m_cos (exact_libm f); m_tan := m_tan (exact_libm f); m_asin := m_asin (exact_libm f); m_acos := m_acos (exact_libm f);
  m_atan := m_atan (exact_libm f); m_atan2 := fun y x => nearest f (angle_of (B2R x) (B2R y)) |}.
Lemma angle_ok x y : y <> 0 \/ x <> 0 -> let t := angle_of x y in let r := sqrt (x * x + y * y) in - PI <= t <= PI /\ 0 < r /\ x = r * cos t /\ y = r * sin t.
Proof.
  intros H t r. assert (SX := Rle_0_sqr x). assert (SY := Rle_0_sqr y). unfold Rsqr in SX, SY.
  assert (P : 0 < x * x + y * y). { destruct H as [H|H]; [assert (0 < y * y) by (apply Rsqr_pos_lt; exact H)|assert (0 < x * x) by (apply Rsqr_pos_lt; exact H)]; lra. }
  assert (R : 0 < r) by (apply sqrt_lt_R0; exact P). assert (RR : r * r = x * x + y * y) by (apply sqrt_sqrt; lra).
  assert (XR : -1 <= x / r <= 1).
  { assert (XC : x / r * r = x) by (field; lra). assert (A : Rabs x <= r) by (rewrite <- (Rabs_pos_eq r) by lra; apply Rsqr_le_abs_0; unfold Rsqr; lra). apply Rabs_le_inv in A. split; (apply Rmult_le_reg_r with r; [exact R|rewrite XC; lra]). }
  assert (B := acos_bound (x / r)). assert (C := cos_acos (x / r) XR). assert (S := sin_acos (x / r) XR).
  assert (SQ : sqrt (1 - Rsqr (x / r)) = Rabs y / r).
  { replace (1 - Rsqr (x / r)) with (Rsqr (Rabs y / r)). - rewrite sqrt_Rsqr; [reflexivity|]. apply Rmult_le_pos; [apply Rabs_pos|left; apply Rinv_0_lt_compat; exact R].
    - unfold Rdiv. rewrite !Rsqr_mult, <- (Rsqr_abs y). unfold Rsqr. replace (y * y) with (r * r - x * x) by lra. field. lra. }
  rewrite SQ in S. unfold t, angle_of. fold r. cbv zeta. destruct (Rle_dec 0 y) as [Y|Y].
  - rewrite Rabs_pos_eq in S by exact Y. split; [lra|]. split; [exact R|]. rewrite C, S. split; field; lra.
  - rewrite Rabs_left in S by lra. split; [lra|]. split; [exact R|]. rewrite cos_neg, sin_neg, C, S. split; field; lra.
Qed.
Lemma frame_libm_good f : good_sin_cos (frame_libm f) /\ good_asin_acos (frame_libm f) /\ good_atan2 (frame_libm f).
Proof.
  destruct (exact_libm_good f) as (A & B & _). split; [exact A|]. split; [exact B|].
  intros y x Fy Fx H. destruct (angle_ok (B2R x) (B2R y) H) as (T & R & X & Y).
  exists (angle_of (B2R x) (B2R y)), (sqrt (B2R x * B2R x + B2R y * B2R y)). split; [exact T|]. split; [exact R|]. split; [exact X|]. split; [exact Y|].
  cbn. apply nearest_ulp. assert (P := PI_upper_bound). apply Rabs_le. lra.
Qed.

Definition ball5 (f : fmt) {m : libm f} : outcome (sphere (float f)) := s_new (f_of_Z 5) (f_of_Z (-5)) (f_of_Z 5) (f_of_Z 6).
Definition ball5_ray (f : fmt) (k : Z) : ray (float f) := mkRay (fv f (-10) 0 k) (fv f 1 0 0) (f_of_Z 20).
Lemma ball5_roots f (m : libm f) k : (k = 4 \/ k = -4)%Z -> match solve_quadratic (square_norm (direction (ball5_ray f k))) (smul (dot (origin (ball5_ray f k)) (direction (ball5_ray f k))) (from_i64 2)) (ssub (square_norm (origin (ball5_ray f k))) (ssquare (f_of_Z 5))) with
  | Some (t0, t1) => in_range t0 (fzero false) (tmax (ball5_ray f k)) && in_range (vz (ray_eval (ball5_ray f k) t0)) (f_of_Z (-5)) (f_of_Z 5) &&
      seqb (f_of_Z (-3)) (vx (ray_eval (ball5_ray f k) t0)) && seqb (f_of_Z 0) (vy (ray_eval (ball5_ray f k) t0)) && seqb (f_of_Z k) (vz (ray_eval (ball5_ray f k) t0))
  | None => false end = true.
Proof. intros [-> | ->]; destruct f; vm_compute; reflexivity. Qed.
Lemma ball5_hit f (m : libm f) k : (k = 4 \/ k = -4)%Z -> good_atan2 m -> exists s h, ball5 f = Ret s /\ s_hit s (ball5_ray f k) = Some h /\
  usual_radius (f_of_Z 5 : float f) /\ usual_cut (f_of_Z 5 : float f) (f_of_Z (-5)) (f_of_Z 5) (f_of_Z 6) /\ usual_ray (origin (ball5_ray f k)) (direction (ball5_ray f k)) /\
  f3 (origin (ball5_ray f k)) = mk3 (-10) 0 (IZR k) /\ f3 (si_p (h_si h)) = mk3 (-3) 0 (IZR k) /\ axis_dist (mk3 (-3) 0 (IZR k)) = 3 /\ 1024 * unit_roundoff f * (10 * 10 + 4 * 4 + 5 * 5) <= 3 * 3.
Proof.
  intros HK GT. destruct (fv_usual f (-10) 0 k 1 0 0) as (UR & VO & _); try (cbn; lia).
  assert (GZ : forall k, (Z.abs k <= 1024)%Z -> finite (f_of_Z k : float f) /\ B2R (f_of_Z k : float f) = IZR k).
  { intros k2 K. assert (P : (1024 <= 2 ^ prec f)%Z) by (destruct f; vm_compute; discriminate). apply f_of_Z_exact. lia. }
  destruct (GZ 5%Z ltac:(cbn; lia)) as [F5 V5]. destruct (GZ 0%Z ltac:(cbn; lia)) as [F0 V0]. destruct (GZ 6%Z ltac:(cbn; lia)) as [F6 V6]. destruct (GZ k ltac:(lia)) as [F4 V4]. destruct (GZ (-5)%Z ltac:(cbn; lia)) as [Fm Vm]. destruct (GZ (-3)%Z ltac:(cbn; lia)) as [F3 V3].
  assert (L : flt (f_of_Z (-5) : float f) (f_of_Z 5)) by (apply slt_spec; destruct f; vm_compute; reflexivity).
  destruct (proj1 (s_new_float (f_of_Z 5) (f_of_Z (-5)) (f_of_Z 5) (f_of_Z 6 : float f)) L) as (s & S0 & S1 & S2 & S3 & S4). exists s.
  assert (M := ball5_roots f m k HK). destruct (solve_quadratic _ _ _) as [[t0 t1]|] eqn:Q; [|discriminate M].
  rewrite !andb_true_iff in M. destruct M as ((((M0 & M1) & MX) & MY) & MZ).
  set (p := ray_eval (ball5_ray f k) t0) in *.
  assert (SE : forall a (j : Z), seqb (f_of_Z j : float f) a = true -> finite (f_of_Z j : float f) -> B2R (f_of_Z j : float f) = IZR j -> finite a /\ B2R a = IZR j).
  { intros a j E F V. apply seqb_spec in E. destruct (MapBack.feq_val (f_of_Z j) a E F) as [A B]. rewrite <- B. auto. }
  destruct (SE _ _ MX F3 V3) as [FX EX]. destruct (SE _ _ MY F0 V0) as [FY EY]. destruct (SE _ _ MZ F4 V4) as [FZ EZ].
  destruct (GT (vy p) (vx p) FY FX ltac:(right; rewrite EX; lra)) as (t & k1 & T & K & X & Y & W).
  assert (P1 := PI_upper_bound). destruct (wulp4 (m := m) _ _ (315 / 100) W) as [FA E]; [apply Rabs_le; lra|lra|].
  assert (U := QuadFloat.u_q (f := f)).
  assert (NP : sgt (gatan2 (vy p) (vx p)) (phi_max s) = false).
  { rewrite S4. destruct (sgt _ _) eqn:G; [|reflexivity]. exfalso. apply sgt_spec in G. change (gatan2 (vy p) (vx p)) with (m_atan2 m (vy p) (vx p)) in G. apply flt_E in G. destruct G as (_ & _ & G). rewrite !E_B2R in G by assumption. rewrite V6 in G. apply Rabs_le_inv in E. lra. }
  assert (GI : s_get_intersection s (ball5_ray f k) t0 = Some (mkSP t0 p (gatan2 (vy p) (vx p)))).
  { unfold s_get_intersection. rewrite <- S2, <- S3 in M1. change (in_range t0 szero (tmax (ball5_ray f k))) with (in_range t0 (fzero false) (tmax (ball5_ray f k))). rewrite M0. cbn [negb]. cbv zeta. fold p. match goal with |- context [negb ?b] => replace b with true by (symmetry; exact M1) end. cbn [negb]. match goal with |- (if ?b then _ else _) = _ => replace b with false by (symmetry; exact NP) end. reflexivity. }
  assert (I : s_intersect_ray s (ball5_ray f k) = Some (mkSP t0 p (gatan2 (vy p) (vx p)))).
  { unfold s_intersect_ray. rewrite S1. match goal with |- match ?q with _ => _ end = _ => replace q with (Some (t0, t1)) by (symmetry; exact Q) end. now rewrite GI. }
  assert (HH : exists h, s_hit s (ball5_ray f k) = Some h /\ si_p (h_si h) = p). { unfold s_hit. rewrite I. destruct (gsin_cos _). eexists. split; reflexivity. }
  destruct HH as (h & H1 & H2). exists h. split; [exact S0|]. split; [exact H1|]. split; [split; [exact F5|rewrite V5; lra]|].
  split. { unfold usual_cut. rewrite V5, Vm, V6. rewrite (Rabs_left (-5)), (Rabs_pos_eq 5) by lra. rewrite Rmax_right, Rmin_left by lra. repeat split; try assumption; lra. }
  split; [exact UR|]. split; [exact VO|]. split. { rewrite H2. unfold f3. change (Vector.nth p Fin.F1) with (vx p). rewrite EX. f_equal; [exact EY|exact EZ]. }
  split; [|lra]. unfold axis_dist. cbn [cX cY]. replace (-3 * -3 + 0 * 0) with (3 * 3) by ring. apply sqrt_square. lra.
Qed.

Lemma outward_refuted f (m : libm f) : good_sin_cos m -> good_asin_acos m -> good_atan2 m ->
  ~ (forall (rd z0 z1 p1 : float f) (s : sphere (float f)) (r : ray (float f)) h,
     s_new rd z0 z1 p1 = Ret s -> usual_radius rd -> usual_cut rd z0 z1 p1 -> usual_ray (origin r) (direction r) -> s_hit s r = Some h ->
     let q := f3 (si_p (h_si h)) in let rad := B2R rd in let rho := axis_dist q in let N := dot3 (f3 (origin r)) (f3 (origin r)) + rad * rad in
     / 1024 <= rho -> 1024 * unit_roundoff f * N <= rho * rho ->
     fall finite (si_n (h_si h)) /\ near3 (512 * unit_roundoff f * N / (rho * rad)) (f3 (si_n (h_si h))) (dir3 q)).
Proof.
  intros G GA GT C. destruct (ball5_hit f m (-4) (or_intror eq_refl) GT) as (s & h & S0 & H & UR & UC & URay & VO & VQ & AD & OK).
  assert (V5 : B2R (f_of_Z 5 : float f) = 5) by (apply f_of_Z_exact; destruct f; vm_compute; discriminate).
  assert (U := QuadFloat.u_q (f := f)).
  assert (LO := hit_normal_lower _ _ _ _ s _ h G GA GT S0 UR UC URay H). specialize (C _ _ _ _ s _ h S0 UR UC URay H). cbv zeta in LO, C. rewrite VO, VQ, V5, AD in LO, C. unfold dot3 in LO, C. cbn [cX cY cZ] in LO, C.
  destruct (LO ltac:(lra) ltac:(lra) ltac:(lra)) as (_ & _ & _ & L3). destruct (C ltac:(lra) ltac:(lra)) as (_ & _ & _ & C3). clear LO C.
  unfold dir3, len3, dot3 in L3, C3. cbn [cX cY cZ scl3] in L3, C3.
  replace (-3 * -3 + 0 * 0 + -4 * -4) with (5 * 5) in C3 by ring. rewrite sqrt_square in C3 by lra.
  set (l := sqrt _) in L3. assert (LL : l * l = 369) by (unfold l; rewrite sqrt_sqrt by lra; ring). assert (L0 := sqrt_pos (5 * -3 * (5 * -3) + 5 * 0 * (5 * 0) + 3 * -4 * (3 * -4))). fold l in L0.
  assert (LB : 19 <= l). { apply Rsqr_incr_0_var; [unfold Rsqr; lra|exact L0]. }
  assert (IL : / l <= / 19) by (apply Rinv_le_contravar; lra). assert (IL0 : 0 < / l) by (apply Rinv_0_lt_compat; lra).
  apply Rabs_le_inv in L3, C3. replace (512 * unit_roundoff f * (-10 * -10 + 0 * 0 + -4 * -4 + 5 * 5) / (3 * 5)) with (72192 / 15 * unit_roundoff f) in C3 by field. lra.
Qed.
