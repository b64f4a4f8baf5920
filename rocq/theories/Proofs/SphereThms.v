(** Spheres: construction, hit records, parametrisation, area. *)
From Coq Require Import ZArith Reals Bool List Lra Lia Nsatz.
From Coq Require Vector Fin.
From Flocq Require Import Core.
From Coquelicot Require Import Coquelicot.
From Verif.Model Require Import FloatBase Scalar Interval Outcome Vec Transform XReal Geometry.
From Verif Require Import Spec SpecGeom SpecShape SpecSphere.
From Verif.Proofs Require Import XRealLemmas MatrixProofs TransformProofs TransformThms TransformCases SphereExact.
Open Scope R_scope.

Definition clip01 (x : R) : R := Rmin 1 (Rmax 0 x).
Lemma clip01_id x : 0 <= x <= 1 -> clip01 x = x.
Proof. intros. unfold clip01. rewrite Rmax_right, Rmin_right; lra. Qed.
Lemma clip01_neg x : x <= 0 -> clip01 x = 0.
Proof. intros. unfold clip01. rewrite Rmax_left, Rmin_right; lra. Qed.
Lemma clip01_range x : 0 <= clip01 x <= 1.
Proof. unfold clip01. split; [apply Rmin_glb; [lra|apply Rmax_l]|apply Rmin_l]. Qed.
Definition gclamp {T} {G : GFloat T} (x : T) : T := native_clamp x szero sone.
Lemma gclamp_R (x : xr) a : isR x a -> isR (gclamp x) (clip01 a).
Proof.
  intros H. unfold gclamp, native_clamp, clip01.
  change (@slt xr _ x szero) with (slt x szero). destruct (slt_R x szero a 0 H isR_zero) as [L|L].
  - match goal with |- context [sgt ?p ?q] => change (sgt p q) with (sgt (szero : xr) sone) end.
    destruct (sgt_R (szero : xr) sone 0 1 isR_zero isR_one); [lra|]. rewrite Rmax_left, Rmin_right by lra. exact isR_zero.
  - match goal with |- context [sgt ?p ?q] => change (sgt p q) with (sgt x sone) end. rewrite Rmax_right by lra.
    destruct (sgt_R x sone a 1 H isR_one); [rewrite Rmin_left by lra; exact isR_one|rewrite Rmin_right by lra; exact H].
Qed.
Lemma isR_gacos (x : xr) a : isR x a -> 0 <= a <= 1 -> isR (gacos x) (acos a).
Proof. intros H K. apply isR_acos; [exact H|lra]. Qed.

Definition glt {T} {G : GFloat T} (x y : T) : bool := slt x y.
Lemma new_eq {T} {G : GFloat T} {N : Native T} (rd z0 z1 p1 : T) : s_new rd z0 z1 p1 =
  if glt z0 z1 then Ret (mkS rd z0 z1 (gacos (gclamp (sdiv z0 rd))) (gacos (gclamp (sdiv z1 rd))) p1) else Panic.
Proof. reflexivity. Qed.
Lemma new_fields {T} {G : GFloat T} {N : Native T} (rd z0 z1 p1 : T) s : s_new rd z0 z1 p1 = Ret s ->
  radius s = rd /\ z_min s = z0 /\ z_max s = z1 /\ phi_max s = p1 /\
  theta_min s = gacos (gclamp (sdiv z0 rd)) /\ theta_max s = gacos (gclamp (sdiv z1 rd)).
Proof. rewrite new_eq. destruct (glt z0 z1); [|discriminate]. intros H. injection H as <-. repeat split. Qed.
Lemma new_ok rd z0 z1 p1 rad a b p : isR rd rad -> isR z0 a -> isR z1 b -> isR p1 p ->
  (a < b -> exists s, s_new rd z0 z1 p1 = Ret s) /\ (~ a < b -> s_new rd z0 z1 p1 = Panic) /\
  (forall s, s_new rd z0 z1 p1 = Ret s -> isS s rad a b p /\ a < b).
Proof.
  intros H1 H2 H3 H4. rewrite new_eq. assert (L := slt_R z0 z1 a b H2 H3). change (glt z0 z1) with (slt z0 z1) in *.
  split; [|split].
  - intros K. destruct L; [eexists; reflexivity|lra].
  - intros K. destruct L; [lra|reflexivity].
  - intros s. destruct L; [|discriminate]. intros K. injection K as <-. split; [repeat split; assumption|assumption].
Qed.

(** ** C51 *)
Lemma sphere_bbox s rad a b p : isS s rad a b p -> a < b ->
  isB (s_bbox s) (mk3 (- Rabs rad) (- Rabs rad) a) (mk3 (Rabs rad) (Rabs rad) b).
Proof.
  intros (H1 & H2 & H3 & _) L. unfold s_bbox, b_new. assert (N := isR_neg _ _ H1).
  split; cbn [pmin pmax]; apply is3_vec3; cbn [cX cY cZ].
  1,2: eapply isR_eq; [exact (isR_nmin _ _ _ _ N H1)|]; unfold Rabs, Rmin; destruct (Rcase_abs rad), (Rle_dec (- rad) rad); lra.
  1: eapply isR_eq; [exact (isR_nmin _ _ _ _ H2 H3)|]; apply Rmin_left; lra.
  1,2: eapply isR_eq; [exact (isR_nmax _ _ _ _ N H1)|]; unfold Rabs, Rmax; destruct (Rcase_abs rad), (Rle_dec (- rad) rad); lra.
  eapply isR_eq; [exact (isR_nmax _ _ _ _ H2 H3)|]; apply Rmax_right; lra.
Qed.
Lemma on_sphere_box rad a b q : on_sphere rad a b q -> in_box (mk3 (- Rabs rad) (- Rabs rad) a) (mk3 (Rabs rad) (Rabs rad) b) q.
Proof.
  intros [H K]. unfold dot3 in H. unfold in_box, le3. cbn [cX cY cZ].
  assert (A := Rabs_pos rad). assert (S : Rabs rad * Rabs rad = rad * rad) by (rewrite <- Rabs_mult; apply Rabs_pos_eq; nra).
  rewrite <- S in H. set (q' := Rabs rad) in *. clearbody q'. repeat split; nra.
Qed.

(** ** The full hit record *)
Lemma s_hit_eq {T} {G : GFloat T} {N : Native T} (s : sphere T) (r : ray T) : s_hit s r =
  match s_intersect_ray s r with
  | None => None
  | Some ip =>
      let p := sp_p ip in let phi := sp_phi ip in
      let theta := gacos (gclamp (sdiv (vz p) (radius s))) in
      let K := sadd (phi_max s) pi in let D := ssub (theta_max s) (theta_min s) in
      Some (mkHit (si_new p (vec2 (sdiv (sadd phi pi) K) (sdiv (ssub theta (theta_min s)) D))
        (v_scale (vec3 (sneg (vy p)) (vx p) szero) K)
        (v_scale (vec3 (smul (vz p) (snd (gsin_cos phi))) (smul (vz p) (fst (gsin_cos phi))) (smul (sneg (radius s)) (gsin theta))) D)) (sp_t ip))
  end.
Proof. unfold s_hit. destruct (s_intersect_ray s r); [|reflexivity]. cbv zeta. destruct (gsin_cos (sp_phi s0)). reflexivity. Qed.

Lemma s_do_eq {T} {G : GFloat T} {N : Native T} (s : sphere T) (r : ray T) : s_do_intersect s r = true <-> exists h, s_hit s r = Some h.
Proof.
  unfold s_do_intersect. rewrite s_hit_eq. destruct (s_intersect_ray s r); split; intros H; try discriminate; try reflexivity.
  - eexists; reflexivity.
  - destruct H; discriminate.
Qed.

Lemma sphere_hit s r rad z0 z1 p1 o d tm : isS s rad z0 z1 p1 -> isRay r o d tm -> d <> zero3 ->
  match s_hit s r with
  | Some h => exists t, isR (t_ray h) t /\ is3 (si_p (h_si h)) (at_ray o d t) /\ meets rad z0 z1 o d tm t /\
      (exists phi, angle_of (at_ray o d t) phi /\ phi <= p1) /\
      (forall u, meets rad z0 z1 o d tm u -> u < t -> outside_wedge (at_ray o d u) p1)
  | None => forall u, meets rad z0 z1 o d tm u -> outside_wedge (at_ray o d u) p1
  end.
Proof.
  intros HS Hr Hd. assert (K := sphere_ok s r rad z0 z1 p1 o d tm HS Hr Hd). rewrite s_hit_eq.
  destruct (s_intersect_ray s r) as [ip|]; [|exact K].
  destruct K as (t & phi & K1 & K2 & K3 & K4 & K5 & K6 & K7). exists t. cbv zeta. cbn [t_ray h_si si_new si_p].
  split; [exact K1|split; [exact K2|split; [exact K6|split; [exists phi; auto|exact K7]]]].
Qed.

Lemma acos_dec x y : -1 <= x -> x < y -> y <= 1 -> acos y < acos x.
Proof.
  intros H1 H2 H3. destruct (Rlt_le_dec (acos y) (acos x)) as [L|L]; [exact L|exfalso].
  assert (Bx := acos_bound x). assert (By := acos_bound y).
  assert (K : cos (acos y) <= cos (acos x)) by (apply cos_decr_1; lra). rewrite !cos_acos in K by lra. lra.
Qed.
Lemma acos_dec' x y : -1 <= x -> x <= y -> y <= 1 -> acos y <= acos x.
Proof. intros. destruct (Rle_lt_or_eq_dec _ _ H0) as [L| ->]; [|lra]. apply Rlt_le, acos_dec; assumption. Qed.

Lemma deriv_u r phi1 th u v0 : deriv3 (fun u => spherical r (u * (phi1 + PI) - PI) th) u
  (scl3 (phi1 + PI) (mk3 (- (r * sin th * sin (u * (phi1 + PI) - PI))) (r * sin th * cos (u * (phi1 + PI) - PI)) (0 * v0))).
Proof.
  unfold deriv3, spherical, scl3. cbn [cX cY cZ]. split; [|split]; apply is_derive_Reals; auto_derive; auto; unfold Rminus; ring.
Qed.
Lemma deriv_v r phi a D v : deriv3 (fun v => spherical r phi (a + v * D)) v
  (scl3 D (mk3 (r * cos (a + v * D) * cos phi) (r * cos (a + v * D) * sin phi) (- r * sin (a + v * D)))).
Proof.
  unfold deriv3, spherical, scl3. cbn [cX cY cZ]. split; [|split]; apply is_derive_Reals; auto_derive; auto; ring.
Qed.

Lemma sphere_frame_upper rd' z0' z1' p1' rad z0 z1 p1 s r o d tm h :
  isR rd' rad -> isR z0' z0 -> isR z1' z1 -> isR p1' p1 -> s_new rd' z0' z1' p1' = Ret s ->
  0 < rad -> 0 < z1 -> z1 <= rad -> - PI < p1 -> isRay r o d tm -> d <> zero3 -> s_hit s r = Some h ->
  forall p, is3 (si_p (h_si h)) p -> 0 <= cZ p ->
  exists u v pu pv,
    isR (Vector.nth (si_uv (h_si h)) Fin.F1) u /\ isR (Vector.nth (si_uv (h_si h)) (Fin.FS Fin.F1)) v /\
    0 <= u <= 1 /\ 0 <= v <= 1 /\ p = sphere_uv rad (Rmax z0 0) z1 p1 u v /\
    is3 (si_dpdu (h_si h)) pu /\ deriv3 (fun u => sphere_uv rad (Rmax z0 0) z1 p1 u v) u pu /\
    is3 (si_dpdv (h_si h)) pv /\ deriv3 (fun v => sphere_uv rad (Rmax z0 0) z1 p1 u v) v pv /\
    (cX p <> 0 \/ cY p <> 0 -> is3 (si_n (h_si h)) (scl3 (/ rad) p) /\ scl3 (/ rad) p = unit3 (cross3 pu pv)).
Proof.
  intros H1 H2 H3 H4 HN R0 Z0 Z1 P1 Hr Hd Hh pp Hpp ZP.
  destruct (proj2 (proj2 (new_ok _ _ _ _ _ _ _ _ H1 H2 H3 H4)) s HN) as [HS ZL].
  destruct (new_fields _ _ _ _ _ HN) as (_ & _ & _ & _ & T0 & T1).
  assert (K := sphere_ok s r rad z0 z1 p1 o d tm HS Hr Hd). rewrite s_hit_eq in Hh.
  destruct (s_intersect_ray s r) as [ip|]; [|discriminate].
  destruct K as (t & phi & K1 & K2 & K3 & (A0 & A1 & A2) & K5 & (_ & (M1 & M2)) & _).
  set (p := at_ray o d t) in *. clearbody p.
  assert (PE : pp = p). { eapply is3_inj; [exact Hpp|]. injection Hh as <-. cbn [h_si si_new si_p]. exact K2. }
  subst pp. clear Hpp.
  assert (RZ : 0 <= Rmax z0 0 /\ z0 <= Rmax z0 0 /\ Rmax z0 0 <= cZ p) by (split; [apply Rmax_r|split; [apply Rmax_l|apply Rmax_lub; lra]]).
  set (zl := Rmax z0 0) in *.
  assert (ZL1 : zl < z1) by (unfold zl; apply Rmax_lub_lt; lra).
  assert (RN : rad <> 0) by lra.
  assert (Q0 : 0 <= zl / rad <= 1). { split; [apply Rdiv_le_0_compat; lra|]. apply Rmult_le_reg_r with rad; [lra|]. unfold Rdiv. rewrite Rmult_assoc, Rinv_l by lra. lra. }
  assert (Q1 : 0 <= z1 / rad <= 1). { split; [apply Rdiv_le_0_compat; lra|]. apply Rmult_le_reg_r with rad; [lra|]. unfold Rdiv. rewrite Rmult_assoc, Rinv_l by lra. lra. }
  assert (QZ : 0 <= cZ p / rad <= 1). { split; [apply Rdiv_le_0_compat; lra|]. apply Rmult_le_reg_r with rad; [lra|]. unfold Rdiv. rewrite Rmult_assoc, Rinv_l by lra. lra. }
  assert (L01 : zl / rad < z1 / rad) by (apply Rmult_lt_compat_r; [apply Rinv_0_lt_compat|]; lra).
  assert (L0Z : zl / rad <= cZ p / rad) by (apply Rmult_le_compat_r; [apply Rlt_le, Rinv_0_lt_compat|]; lra).
  assert (LZ1 : cZ p / rad <= z1 / rad) by (apply Rmult_le_compat_r; [apply Rlt_le, Rinv_0_lt_compat|]; lra).
  set (th0 := acos (zl / rad)) in *. set (th1 := acos (z1 / rad)) in *. set (th := acos (cZ p / rad)) in *.
  assert (TH0 : isR (theta_min s) th0). { rewrite T0. apply isR_gacos; [|exact Q0]. replace (zl / rad) with (clip01 (z0 / rad)).
    2:{ unfold zl. rewrite Rmax_comm. destruct (Rle_or_lt 0 z0) as [L|L]; [rewrite Rmax_right by exact L; apply clip01_id; unfold zl in Q0; rewrite Rmax_left in Q0 by exact L; exact Q0|].
      rewrite Rmax_left by lra. unfold Rdiv at 2. rewrite Rmult_0_l. apply clip01_neg. apply Rmult_le_reg_r with rad; [lra|]. unfold Rdiv. rewrite Rmult_assoc, Rinv_l by lra. lra. }
    apply gclamp_R. exact (isR_div _ _ _ _ H2 H1 RN). }
  assert (TH1 : isR (theta_max s) th1). { rewrite T1. apply isR_gacos; [|exact Q1]. rewrite <- (clip01_id _ Q1). apply gclamp_R. exact (isR_div _ _ _ _ H3 H1 RN). }
  assert (RS : isR (radius s) rad) by exact (proj1 HS).
  assert (PS : isR (phi_max s) p1) by exact (proj2 (proj2 (proj2 HS))).
  assert (PZ : isR (vz (sp_p ip)) (cZ p)) by exact (proj2 (proj2 K2)).
  assert (PX : isR (vx (sp_p ip)) (cX p)) by exact (proj1 K2).
  assert (PY : isR (vy (sp_p ip)) (cY p)) by exact (proj1 (proj2 K2)).
  cbv zeta in Hh.
  set (theta := gacos (gclamp (sdiv (vz (sp_p ip)) (radius s)))) in *.
  assert (TH : isR theta th). { apply isR_gacos; [|exact QZ]. rewrite <- (clip01_id _ QZ). apply gclamp_R. exact (isR_div _ _ _ _ PZ RS RN). }
  clearbody theta.
  assert (D0 : th1 < th0) by (apply acos_dec; lra). assert (D1 : th <= th0) by (apply acos_dec'; lra). assert (D2 : th1 <= th) by (apply acos_dec'; lra).
  set (K := p1 + PI) in *. assert (KP : 0 < K) by (unfold K; lra). set (D := th1 - th0) in *. assert (DN : D < 0) by (unfold D; lra).
  set (h0 := sqrt (cX p * cX p + cY p * cY p)) in *.
  assert (HH : h0 * h0 = cX p * cX p + cY p * cY p) by (apply sqrt_sqrt; nra). assert (HP : 0 <= h0) by apply sqrt_pos.
  assert (CT : cos th = cZ p / rad) by (apply cos_acos; lra).
  assert (ST : rad * sin th = h0).
  { unfold th. rewrite sin_acos by lra. unfold h0. rewrite <- (Rabs_pos_eq rad) at 1 by lra. rewrite <- sqrt_Rsqr_abs, <- sqrt_mult by (unfold Rsqr; nra).
    f_equal. unfold Rsqr. unfold dot3 in M1. field_simplify; [|exact RN]. lra. }
  clearbody h0.
  set (u := (phi + PI) / K). set (v := (th - th0) / D).
  assert (UV1 : u * K - PI = phi) by (unfold u; field; lra). assert (UV2 : th0 + v * D = th) by (unfold v; field; lra).
  assert (U01 : 0 <= u <= 1).
  { split; [apply Rdiv_le_0_compat; lra|]. apply Rmult_le_reg_r with K; [lra|]. unfold u, Rdiv. rewrite Rmult_assoc, Rinv_l by lra. unfold K. lra. }
  assert (V01 : 0 <= v <= 1).
  { assert (E : v * D = th - th0) by (unfold v; field; lra). unfold D in E, DN. split; nra. }
  exists u, v, (scl3 K (mk3 (- cY p) (cX p) 0)), (scl3 D (mk3 (cZ p * cos phi) (cZ p * sin phi) (- rad * sin th))).
  injection Hh as <-. cbn [h_si si_new si_p si_uv si_dpdu si_dpdv si_n].
  assert (DU : is3 (v_scale (vec3 (sneg (vy (sp_p ip))) (vx (sp_p ip)) szero) (sadd (phi_max s) pi)) (scl3 K (mk3 (- cY p) (cX p) 0))).
  { apply is3_scale; [|exact (isR_add _ _ _ _ PS isR_pi)]. apply is3_vec3; cbn [cX cY cZ]; [exact (isR_neg _ _ PY)|exact PX|exact isR_zero]. }
  assert (DV : is3 (v_scale (vec3 (smul (vz (sp_p ip)) (snd (gsin_cos (sp_phi ip)))) (smul (vz (sp_p ip)) (fst (gsin_cos (sp_phi ip)))) (smul (sneg (radius s)) (gsin theta)))
      (ssub (theta_max s) (theta_min s))) (scl3 D (mk3 (cZ p * cos phi) (cZ p * sin phi) (- rad * sin th)))).
  { apply is3_scale; [|exact (isR_sub _ _ _ _ TH1 TH0)]. apply is3_vec3; cbn [cX cY cZ].
    - exact (isR_mul _ _ _ _ PZ (isR_sc2 _ _ K3)).
    - exact (isR_mul _ _ _ _ PZ (isR_sc1 _ _ K3)).
    - exact (isR_mul _ _ _ _ (isR_neg _ _ RS) (isR_sin _ _ TH)). }
  split; [exact (isR_div _ _ _ _ (isR_add _ _ _ _ K3 isR_pi) (isR_add _ _ _ _ PS isR_pi) (Rgt_not_eq _ _ KP))|].
  split; [exact (isR_div _ _ _ _ (isR_sub _ _ _ _ TH TH0) (isR_sub _ _ _ _ TH1 TH0) (Rlt_not_eq _ _ DN))|].
  split; [exact U01|]. split; [exact V01|].
  assert (EP : p = sphere_uv rad zl z1 p1 u v).
  { unfold sphere_uv. fold th0 th1 K D. rewrite UV1, UV2. unfold spherical. rewrite ST, CT. destruct p as [x y z]; cbn [cX cY cZ] in *.
    rewrite <- A1, <- A2. f_equal. field. exact RN. }
  split; [exact EP|].
  split; [exact DU|]. split.
  { assert (X := deriv_u rad p1 (th0 + v * D) u 0). fold K in X. rewrite UV1, UV2, ST in X. unfold sphere_uv. fold th0 th1 K D. rewrite UV2.
    replace (mk3 (- cY p) (cX p) 0) with (mk3 (- (h0 * sin phi)) (h0 * cos phi) (0 * 0)); [exact X|].
    rewrite <- A1, <- A2. f_equal. ring. }
  split; [exact DV|]. split.
  { assert (X := deriv_v rad phi th0 D v). rewrite UV2, CT in X. unfold sphere_uv. fold th0 th1 K D. rewrite UV1.
    replace (rad * (cZ p / rad)) with (cZ p) in X by (field; exact RN). exact X. }
  intros NP. assert (HP' : 0 < h0). { destruct HP as [L|E]; [exact L|]. exfalso. rewrite <- E in HH. destruct NP; nra. }
  set (pu := scl3 K (mk3 (- cY p) (cX p) 0)) in *. set (pv := scl3 D (mk3 (cZ p * cos phi) (cZ p * sin phi) (- rad * sin th))) in *.
  assert (CR : cross3 pu pv = scl3 (- K * D * h0) p).
  { unfold pu, pv, cross3, scl3. cbn [cX cY cZ]. replace (- rad * sin th) with (- h0) by lra.
    assert (B1 : cos phi * h0 = cX p) by lra. assert (B2 : sin phi * h0 = cY p) by lra.
    assert (B3 : cX p * cos phi + cY p * sin phi = h0).
    { rewrite <- B1, <- B2. assert (S := sin2_cos2 phi). unfold Rsqr in S. transitivity (h0 * (sin phi * sin phi + cos phi * cos phi)); [ring|rewrite S; ring]. }
    destruct p as [x y z]; cbn [cX cY cZ] in *. f_equal; [ring|ring|]. transitivity (- K * D * z * (x * cos phi + y * sin phi)); [ring|rewrite B3; ring]. }
  set (lam := - K * D * h0) in *. assert (LP : 0 < lam).
  { unfold lam. replace (- K * D * h0) with (K * - D * h0) by ring. apply Rmult_lt_0_compat; [apply Rmult_lt_0_compat; lra|exact HP']. }
  clearbody lam.
  assert (DP : dot3 p p = rad * rad) by exact M1.
  assert (UN : unit3 (cross3 pu pv) = scl3 (/ rad) p).
  { rewrite CR. unfold unit3. assert (LN : len3 (scl3 lam p) = lam * rad).
    { unfold len3. replace (dot3 (scl3 lam p) (scl3 lam p)) with ((lam * rad) * (lam * rad)); [apply sqrt_square; nra|].
      transitivity (lam * lam * dot3 p p); [rewrite DP; ring|unfold dot3, scl3; cbn; ring]. }
    rewrite LN. destruct p as [x y z]; unfold scl3; cbn. f_equal; field; split; lra. }
  split; [|symmetry; exact UN].
  rewrite <- UN. apply is3_normalize; [exact (is3_cross _ _ _ _ DU DV)|].
  rewrite CR. intros Z. unfold scl3, zero3 in Z. injection Z as X1 X2 X3. assert (lam * lam * dot3 p p = 0) by (unfold dot3; nra). rewrite DP in H. assert (0 < lam * lam * (rad * rad)) by nra. lra.
Qed.
(** below z = 0: theta is cut to PI / 2, so v is 0 everywhere and the normal is wrong everywhere *)
Lemma sphere_lower rd' z0' z1' p1' rad z0 z1 p1 s r o d tm h :
  isR rd' rad -> isR z0' z0 -> isR z1' z1 -> isR p1' p1 -> s_new rd' z0' z1' p1' = Ret s ->
  0 < rad -> 0 < z1 -> z1 <= rad -> - PI < p1 -> isRay r o d tm -> d <> zero3 -> s_hit s r = Some h ->
  forall p, is3 (si_p (h_si h)) p -> cZ p < 0 -> (cX p <> 0 \/ cY p <> 0) ->
  isR (Vector.nth (si_uv (h_si h)) (Fin.FS Fin.F1)) 0 /\
  is3 (si_n (h_si h)) (unit3 (mk3 (rad * cX p) (rad * cY p) (sqrt (cX p * cX p + cY p * cY p) * cZ p))) /\
  ~ is3 (si_n (h_si h)) (scl3 (/ rad) p).
Proof.
  intros H1 H2 H3 H4 HN R0 Z0 Z1 P1 Hr Hd Hh pp Hpp ZP NP.
  destruct (proj2 (proj2 (new_ok _ _ _ _ _ _ _ _ H1 H2 H3 H4)) s HN) as [HS ZL].
  destruct (new_fields _ _ _ _ _ HN) as (_ & _ & _ & _ & T0 & T1).
  assert (K := sphere_ok s r rad z0 z1 p1 o d tm HS Hr Hd). rewrite s_hit_eq in Hh.
  destruct (s_intersect_ray s r) as [ip|]; [|discriminate].
  destruct K as (t & phi & K1 & K2 & K3 & (A0 & A1 & A2) & K5 & (_ & (M1 & M2)) & _).
  set (p := at_ray o d t) in *. clearbody p.
  assert (PE : pp = p). { eapply is3_inj; [exact Hpp|]. injection Hh as <-. cbn [h_si si_new si_p]. exact K2. }
  subst pp. clear Hpp. assert (RN : rad <> 0) by lra.
  assert (NEG : forall x, x < 0 -> clip01 (x / rad) = 0).
  { intros x X. apply clip01_neg. apply Rmult_le_reg_r with rad; [lra|]. unfold Rdiv. rewrite Rmult_assoc, Rinv_l by lra. lra. }
  assert (Q1 : 0 < z1 / rad <= 1). { split; [apply Rdiv_lt_0_compat; lra|]. apply Rmult_le_reg_r with rad; [lra|]. unfold Rdiv. rewrite Rmult_assoc, Rinv_l by lra. lra. }
  set (th1 := acos (z1 / rad)) in *.
  assert (AZ : acos 0 = PI / 2) by apply acos_0.
  assert (TH0 : isR (theta_min s) (PI / 2)). { rewrite T0, <- AZ. apply isR_gacos; [|lra]. rewrite <- (NEG z0) by lra. apply gclamp_R. exact (isR_div _ _ _ _ H2 H1 RN). }
  assert (TH1 : isR (theta_max s) th1). { rewrite T1. apply isR_gacos; [|lra]. rewrite <- (clip01_id (z1 / rad)) by lra. apply gclamp_R. exact (isR_div _ _ _ _ H3 H1 RN). }
  assert (RS : isR (radius s) rad) by exact (proj1 HS).
  assert (PS : isR (phi_max s) p1) by exact (proj2 (proj2 (proj2 HS))).
  assert (PZ : isR (vz (sp_p ip)) (cZ p)) by exact (proj2 (proj2 K2)).
  assert (PX : isR (vx (sp_p ip)) (cX p)) by exact (proj1 K2).
  assert (PY : isR (vy (sp_p ip)) (cY p)) by exact (proj1 (proj2 K2)).
  cbv zeta in Hh. set (theta := gacos (gclamp (sdiv (vz (sp_p ip)) (radius s)))) in *.
  assert (TH : isR theta (PI / 2)). { rewrite <- AZ. apply isR_gacos; [|lra]. rewrite <- (NEG (cZ p)) by lra. apply gclamp_R. exact (isR_div _ _ _ _ PZ RS RN). }
  clearbody theta.
  assert (D0 : th1 < PI / 2) by (rewrite <- AZ; apply acos_dec; lra).
  set (K := p1 + PI) in *. assert (KP : 0 < K) by (unfold K; lra). set (D := th1 - PI / 2) in *. assert (DN : D < 0) by (unfold D; lra).
  set (h0 := sqrt (cX p * cX p + cY p * cY p)) in *.
  assert (HH : h0 * h0 = cX p * cX p + cY p * cY p) by (apply sqrt_sqrt; nra). assert (HP : 0 <= h0) by apply sqrt_pos. clearbody h0.
  assert (HP' : 0 < h0). { destruct HP as [L|E]; [exact L|]. exfalso. rewrite <- E in HH. destruct NP; nra. }
  injection Hh as <-. cbn [h_si si_new si_p si_uv si_dpdu si_dpdv si_n].
  split.
  { eapply isR_eq; [exact (isR_div _ _ _ _ (isR_sub _ _ _ _ TH TH0) (isR_sub _ _ _ _ TH1 TH0) (Rlt_not_eq _ _ DN))|]. fold D. field. lra. }
  assert (DU : is3 (v_scale (vec3 (sneg (vy (sp_p ip))) (vx (sp_p ip)) szero) (sadd (phi_max s) pi)) (scl3 K (mk3 (- cY p) (cX p) 0))).
  { apply is3_scale; [|exact (isR_add _ _ _ _ PS isR_pi)]. apply is3_vec3; cbn [cX cY cZ]; [exact (isR_neg _ _ PY)|exact PX|exact isR_zero]. }
  assert (DV : is3 (v_scale (vec3 (smul (vz (sp_p ip)) (snd (gsin_cos (sp_phi ip)))) (smul (vz (sp_p ip)) (fst (gsin_cos (sp_phi ip)))) (smul (sneg (radius s)) (gsin theta)))
      (ssub (theta_max s) (theta_min s))) (scl3 D (mk3 (cZ p * cos phi) (cZ p * sin phi) (- rad * sin (PI / 2))))).
  { apply is3_scale; [|exact (isR_sub _ _ _ _ TH1 TH0)]. apply is3_vec3; cbn [cX cY cZ].
    - exact (isR_mul _ _ _ _ PZ (isR_sc2 _ _ K3)).
    - exact (isR_mul _ _ _ _ PZ (isR_sc1 _ _ K3)).
    - exact (isR_mul _ _ _ _ (isR_neg _ _ RS) (isR_sin _ _ TH)). }
  set (pu := scl3 K (mk3 (- cY p) (cX p) 0)) in *. set (pv := scl3 D (mk3 (cZ p * cos phi) (cZ p * sin phi) (- rad * sin (PI / 2)))) in *.
  set (w := mk3 (rad * cX p) (rad * cY p) (h0 * cZ p)).
  assert (CR : cross3 pu pv = scl3 (- K * D) w).
  { unfold pu, pv, w, cross3, scl3. rewrite sin_PI2. cbn [cX cY cZ].
    assert (B1 : cos phi * h0 = cX p) by lra. assert (B2 : sin phi * h0 = cY p) by lra.
    assert (B3 : cX p * cos phi + cY p * sin phi = h0).
    { rewrite <- B1, <- B2. assert (S := sin2_cos2 phi). unfold Rsqr in S. transitivity (h0 * (sin phi * sin phi + cos phi * cos phi)); [ring|rewrite S; ring]. }
    f_equal; [ring|ring|]. rewrite <- B3 at 1. ring. }
  set (lam := - K * D) in *. assert (LP : 0 < lam) by (unfold lam; nra). clearbody lam.
  assert (WP : 0 < dot3 w w).
  { unfold dot3, w; cbn [cX cY cZ]. replace (rad * cX p * (rad * cX p) + rad * cY p * (rad * cY p) + h0 * cZ p * (h0 * cZ p)) with (rad * rad * (cX p * cX p + cY p * cY p) + (h0 * h0) * (cZ p * cZ p)) by ring.
    rewrite <- HH. assert (0 < h0 * h0) by nra. assert (0 < rad * rad) by nra. assert (0 <= cZ p * cZ p) by nra. nra. }
  assert (WL : 0 < len3 w) by (apply sqrt_lt_R0; exact WP). assert (WW : len3 w * len3 w = dot3 w w) by (apply sqrt_sqrt; lra).
  assert (UN : unit3 (cross3 pu pv) = unit3 w).
  { rewrite CR. unfold unit3. assert (LN : len3 (scl3 lam w) = lam * len3 w).
    { transitivity (sqrt ((lam * len3 w) * (lam * len3 w))); [|apply sqrt_square; nra]. unfold len3 at 1. f_equal.
      transitivity (lam * lam * dot3 w w); [unfold dot3, scl3; cbn; ring|rewrite <- WW; ring]. }
    rewrite LN. set (q := len3 w) in *. clearbody q. destruct w as [x y z]; unfold scl3; cbn. f_equal; field; split; lra. }
  assert (NN : is3 (normalize (cross (v_scale (vec3 (sneg (vy (sp_p ip))) (vx (sp_p ip)) szero) (sadd (phi_max s) pi))
     (v_scale (vec3 (smul (vz (sp_p ip)) (snd (gsin_cos (sp_phi ip)))) (smul (vz (sp_p ip)) (fst (gsin_cos (sp_phi ip)))) (smul (sneg (radius s)) (gsin theta))) (ssub (theta_max s) (theta_min s))))) (unit3 w)).
  { rewrite <- UN. apply is3_normalize; [exact (is3_cross _ _ _ _ DU DV)|]. rewrite CR. intros Z. assert (E : lam * lam * dot3 w w = 0) by (transitivity (dot3 (scl3 lam w) (scl3 lam w)); [unfold dot3, scl3; cbn; ring|rewrite Z; unfold dot3, zero3; cbn; ring]).
    assert (0 < lam * lam * dot3 w w) by (apply Rmult_lt_0_compat; [nra|exact WP]). lra. }
  split; [exact NN|]. intros X. assert (E := is3_inj _ _ _ NN X). clear - E M1 ZP HH HP' NP R0 WL.
  unfold unit3 in E. set (q := len3 w) in *. clearbody q. unfold w, scl3 in E. injection E as E1 E2 E3. unfold dot3 in M1.
  assert (S1 : h0 = q / rad).
  { assert (E3' : (h0 * cZ p) = (q / rad) * cZ p). { apply Rmult_eq_reg_l with (/ q); [|apply Rinv_neq_0_compat; lra]. rewrite E3. field. split; lra. }
    apply Rmult_eq_reg_r in E3'; [exact E3'|lra]. }
  assert (S2 : rad = q / rad).
  { destruct NP as [NX|NY].
    - assert (E1' : rad * cX p = (q / rad) * cX p). { apply Rmult_eq_reg_l with (/ q); [|apply Rinv_neq_0_compat; lra]. rewrite E1. field. split; lra. } apply Rmult_eq_reg_r in E1'; [exact E1'|exact NX].
    - assert (E1' : rad * cY p = (q / rad) * cY p). { apply Rmult_eq_reg_l with (/ q); [|apply Rinv_neq_0_compat; lra]. rewrite E2. field. split; lra. } apply Rmult_eq_reg_r in E1'; [exact E1'|exact NY]. }
  rewrite S1, <- S2 in HH. nra.
Qed.
Lemma sphere_frame rd' z0' z1' p1' rad z0 z1 p1 s r o d tm h :
  isR rd' rad -> isR z0' z0 -> isR z1' z1 -> isR p1' p1 -> s_new rd' z0' z1' p1' = Ret s ->
  0 < rad -> 0 <= z0 -> z1 <= rad -> - PI < p1 -> isRay r o d tm -> d <> zero3 -> s_hit s r = Some h ->
  exists p u v pu pv, is3 (si_p (h_si h)) p /\
    isR (Vector.nth (si_uv (h_si h)) Fin.F1) u /\ isR (Vector.nth (si_uv (h_si h)) (Fin.FS Fin.F1)) v /\
    0 <= u <= 1 /\ 0 <= v <= 1 /\ p = sphere_uv rad z0 z1 p1 u v /\
    is3 (si_dpdu (h_si h)) pu /\ deriv3 (fun u => sphere_uv rad z0 z1 p1 u v) u pu /\
    is3 (si_dpdv (h_si h)) pv /\ deriv3 (fun v => sphere_uv rad z0 z1 p1 u v) v pv /\
    (cX p <> 0 \/ cY p <> 0 -> is3 (si_n (h_si h)) (scl3 (/ rad) p) /\ scl3 (/ rad) p = unit3 (cross3 pu pv)).
Proof.
  intros H1 H2 H3 H4 HN R0 Z0 Z1 P1 Hr Hd Hh.
  destruct (proj2 (proj2 (new_ok _ _ _ _ _ _ _ _ H1 H2 H3 H4)) s HN) as [HS ZL].
  assert (K := sphere_hit s r rad z0 z1 p1 o d tm HS Hr Hd). rewrite Hh in K. destruct K as (t & _ & P & (_ & (_ & M)) & _).
  destruct (sphere_frame_upper _ _ _ _ _ _ _ _ _ _ _ _ _ _ H1 H2 H3 H4 HN R0 ltac:(lra) Z1 P1 Hr Hd Hh _ P ltac:(lra)) as (u & v & pu & pv & K).
  rewrite Rmax_left in K by exact Z0. exists (at_ray o d t), u, v, pu, pv. split; [exact P|exact K].
Qed.
