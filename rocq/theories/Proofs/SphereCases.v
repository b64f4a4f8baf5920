(** Spheres: area, full-sphere corollaries, refutations and samples for Props/P_Sphere.v. *)
From Coq Require Import ZArith Reals Bool List Lra Lia.
From Coq Require Vector Fin.
From Flocq Require Import Core.
From Coquelicot Require Import Coquelicot.
From Verif.Model Require Import FloatBase Scalar Interval Outcome Vec Transform XReal Geometry.
From Verif Require Import Spec SpecGeom SpecShape SpecSphere.
From Verif.Proofs Require Import XRealLemmas MatrixProofs TransformProofs TransformThms TransformCases BoxCases SphereExact SphereThms.
Open Scope R_scope.

Lemma deriv_phi r th phi : deriv3 (fun s => spherical r s th) phi (mk3 (- (r * sin th * sin phi)) (r * sin th * cos phi) 0).
Proof. unfold deriv3, spherical. cbn [cX cY cZ]. split; [|split]; apply is_derive_Reals; auto_derive; auto; ring. Qed.
Lemma deriv_theta r th phi : deriv3 (fun s => spherical r phi s) th (mk3 (r * cos th * cos phi) (r * cos th * sin phi) (- r * sin th)).
Proof. unfold deriv3, spherical. cbn [cX cY cZ]. split; [|split]; apply is_derive_Reals; auto_derive; auto; ring. Qed.

Lemma spherical_area r z0 z1 a b : 0 < r -> - r <= z0 -> z0 < z1 -> z1 <= r ->
  area_of (spherical r) a b (acos (z1 / r)) (acos (z0 / r)) ((b - a) * (r * (z1 - z0))).
Proof.
  intros R0 H0 H1 H2.
  assert (N : r <> 0) by lra.
  assert (B : forall z, - r <= z <= r -> -1 <= z / r <= 1).
  { intros z [L U]. split; apply Rmult_le_reg_r with r; try lra; unfold Rdiv; rewrite Rmult_assoc, Rinv_l by lra; lra. }
  assert (B0 := B z0 ltac:(lra)). assert (B1 := B z1 ltac:(lra)).
  assert (LT : z0 / r < z1 / r) by (apply Rmult_lt_compat_r; [apply Rinv_0_lt_compat|]; lra).
  assert (AL : acos (z1 / r) < acos (z0 / r)) by (apply acos_dec; lra).
  assert (A0 := acos_bound (z0 / r)). assert (A1 := acos_bound (z1 / r)).
  exists (fun phi th => mk3 (- (r * sin th * sin phi)) (r * sin th * cos phi) 0),
         (fun phi th => mk3 (r * cos th * cos phi) (r * cos th * sin phi) (- r * sin th)), (fun _ => r * (z1 - z0)).
  split; [intros u v; split; [apply deriv_phi|apply deriv_theta]|]. split.
  - intros u. apply is_RInt_ext with (fun th => r * r * sin th).
    + intros th. rewrite Rmin_left, Rmax_right by lra. intros [L U]. assert (S : 0 <= sin th) by (apply sin_ge_0; lra).
      unfold len3. match goal with |- _ = sqrt ?x => replace x with ((r * r * sin th) * (r * r * sin th)) end; [symmetry; apply sqrt_square; apply Rmult_le_pos; [nra|exact S]|].
      unfold dot3, cross3; cbn [cX cY cZ]. assert (C1 := sin2_cos2 u). assert (C2 := sin2_cos2 th). unfold Rsqr in *.
      transitivity (r*r*r*r*sin th*sin th * ((sin u*sin u+cos u*cos u)*(sin th * sin th)+ (sin u * sin u + cos u * cos u)*(sin u * sin u + cos u * cos u) * (cos th * cos th))); [|ring].
      rewrite C1. replace (1 * (sin th * sin th) + 1 * 1 * (cos th * cos th)) with (sin th * sin th + cos th * cos th) by ring. rewrite C2. ring.
    + replace (r * (z1 - z0)) with (minus (- (r * r) * cos (acos (z0 / r))) (- (r * r) * cos (acos (z1 / r)))).
      * apply is_RInt_derive with (f := fun th => - (r * r) * cos th).
        -- intros x _. auto_derive; auto. ring.
        -- intros x _. apply (ex_derive_continuous (fun th => r * r * sin th)). auto_derive; auto.
      * rewrite !cos_acos by assumption. unfold minus, plus, opp. cbn. field. exact N.
  - apply (is_RInt_const a b (r * (z1 - z0))).
Qed.

Lemma deriv3_unique g x w w' : deriv3 g x w -> deriv3 g x w' -> w = w'.
Proof.
  intros (A1 & A2 & A3) (B1 & B2 & B3). destruct w, w'; cbn in *.
  f_equal; eapply uniqueness_limite; eassumption.
Qed.
Lemma area_unique P a b c d A A' : area_of P a b c d A -> area_of P a b c d A' -> A = A'.
Proof.
  intros (U & V & s & H1 & H2 & H3) (U' & V' & s' & K1 & K2 & K3).
  assert (E : forall u, s u = s' u).
  { intros u. rewrite <- (is_RInt_unique _ _ _ _ (K2 u)). symmetry. apply is_RInt_unique.
    apply is_RInt_ext with (2 := H2 u). intros v _. destruct (H1 u v) as [X Y], (K1 u v) as [X' Y'].
    rewrite (deriv3_unique _ _ _ _ X X'), (deriv3_unique _ _ _ _ Y Y'). reflexivity. }
  rewrite <- (is_RInt_unique _ _ _ _ H3), <- (is_RInt_unique _ _ _ _ K3). apply RInt_ext. intros; apply E.
Qed.

Lemma area_value rd' z0' z1' p1' rad z0 z1 p1 s : isR rd' rad -> isR z0' z0 -> isR z1' z1 -> isR p1' p1 -> s_new rd' z0' z1' p1' = Ret s ->
  isR (s_area s) (p1 * rad * (z1 - z0)) /\ z0 < z1.
Proof.
  intros H1 H2 H3 H4 HN. destruct (proj2 (proj2 (new_ok _ _ _ _ _ _ _ _ H1 H2 H3 H4)) s HN) as [(S1 & S2 & S3 & S4) L].
  split; [|exact L]. unfold s_area. exact (isR_mul _ _ _ _ (isR_mul _ _ _ _ S4 S1) (isR_sub _ _ _ _ S3 S2)).
Qed.

Definition xsphere (rd z0 z1 : R) (p1 : xr) : outcome (sphere xr) := s_new (xn rd) (xn z0) (xn z1) p1.
Lemma xsphere_ok rd z0 z1 p1 : z0 < z1 -> exists s, xsphere rd z0 z1 p1 = Ret s.
Proof.
  intros L. unfold xsphere. rewrite new_eq. change (glt (xn z0) (xn z1)) with (slt (xn z0) (xn z1)).
  destruct (slt_R (xn z0) (xn z1) _ _ (isR_xn z0) (isR_xn z1)) as [_|K]; [eexists; reflexivity|]. elim K. exact L.
Qed.

(** the surface of the sphere that rays can hit *)
Lemma area_refuted : ~ (forall rd' z0' z1' p1' rad z0 z1 p1 s, isR rd' rad -> isR z0' z0 -> isR z1' z1 -> isR p1' p1 -> s_new rd' z0' z1' p1' = Ret s ->
  0 < rad -> - rad <= z0 -> z1 <= rad -> - PI < p1 <= PI ->
  exists A, isR (s_area s) A /\ area_of (spherical rad) (- PI) p1 (acos (z1 / rad)) (acos (z0 / rad)) A).
Proof.
  intros C. destruct (xsphere_ok 1 (-1) 1 pi ltac:(lra)) as [s Hs]. assert (PP := PI_RGT_0).
  destruct (C _ _ _ _ 1 (-1) 1 PI s (isR_xn 1) (isR_xn (-1)) (isR_xn 1) isR_pi Hs) as (A & H1 & H2); try lra.
  destruct (area_value _ _ _ _ _ _ _ _ _ (isR_xn 1) (isR_xn (-1)) (isR_xn 1) isR_pi Hs) as [V _].
  assert (E := isR_inj _ _ _ H1 V). assert (W := spherical_area 1 (-1) 1 (- PI) PI ltac:(lra) ltac:(lra) ltac:(lra) ltac:(lra)).
  assert (E2 := area_unique _ _ _ _ _ _ _ H2 W). rewrite E2 in E. lra.
Qed.

Lemma area_partial rd' z0' z1' p1' rad z0 z1 p1 s : isR rd' rad -> isR z0' z0 -> isR z1' z1 -> isR p1' p1 -> s_new rd' z0' z1' p1' = Ret s ->
  0 < rad -> - rad <= z0 -> z1 <= rad ->
  exists A, isR (s_area s) A /\ area_of (spherical rad) 0 p1 (acos (z1 / rad)) (acos (z0 / rad)) A /\
    (p1 = 2 * PI -> area_of (spherical rad) (- PI) PI (acos (z1 / rad)) (acos (z0 / rad)) A).
Proof.
  intros H1 H2 H3 H4 HN R0 Z0 Z1. destruct (area_value _ _ _ _ _ _ _ _ _ H1 H2 H3 H4 HN) as [V L].
  exists (p1 * rad * (z1 - z0)). split; [exact V|]. split.
  - replace (p1 * rad * (z1 - z0)) with ((p1 - 0) * (rad * (z1 - z0))) by ring. apply spherical_area; assumption.
  - intros ->. replace (2 * PI * rad * (z1 - z0)) with ((PI - - PI) * (rad * (z1 - z0))) by ring. apply spherical_area; assumption.
Qed.
Lemma area_gap rd' z0' z1' p1' rad z0 z1 p1 s : isR rd' rad -> isR z0' z0 -> isR z1' z1 -> isR p1' p1 -> s_new rd' z0' z1' p1' = Ret s ->
  0 < rad -> - rad <= z0 -> z1 <= rad -> - PI < p1 <= PI ->
  exists A, isR (s_area s) A /\ area_of (spherical rad) (- PI) p1 (acos (z1 / rad)) (acos (z0 / rad)) (A + PI * rad * (z1 - z0)) /\ 0 < PI * rad * (z1 - z0).
Proof.
  intros H1 H2 H3 H4 HN R0 Z0 Z1 _. destruct (area_value _ _ _ _ _ _ _ _ _ H1 H2 H3 H4 HN) as [V L].
  exists (p1 * rad * (z1 - z0)). split; [exact V|]. split.
  - replace (p1 * rad * (z1 - z0) + PI * rad * (z1 - z0)) with ((p1 - - PI) * (rad * (z1 - z0))) by ring. apply spherical_area; assumption.
  - assert (P0 := PI_RGT_0). apply Rmult_lt_0_compat; [apply Rmult_lt_0_compat|]; lra.
Qed.

(** ** C49 *)
Lemma hit_first rd' z0' z1' p1' rad z0 z1 p1 s r o d tm :
  isR rd' rad -> isR z0' z0 -> isR z1' z1 -> isR p1' p1 -> s_new rd' z0' z1' p1' = Ret s -> isRay r o d tm -> d <> zero3 ->
  match s_hit s r with
  | Some h => exists t, isR (t_ray h) t /\ is3 (si_p (h_si h)) (at_ray o d t) /\ meets rad z0 z1 o d tm t /\ inside_wedge (at_ray o d t) p1 /\
      (forall u, meets rad z0 z1 o d tm u -> u < t -> outside_wedge (at_ray o d u) p1)
  | None => forall u, meets rad z0 z1 o d tm u -> outside_wedge (at_ray o d u) p1
  end.
Proof.
  intros H1 H2 H3 H4 HN. destruct (proj2 (proj2 (new_ok _ _ _ _ _ _ _ _ H1 H2 H3 H4)) s HN) as [HS _]. apply sphere_hit. exact HS.
Qed.
Lemma no_outside p p1 : PI <= p1 -> ~ outside_wedge p p1.
Proof. intros H (phi & (A & _) & L). lra. Qed.
Lemma hit_full rd' z0' z1' p1' rad z0 z1 p1 s r o d tm :
  isR rd' rad -> isR z0' z0 -> isR z1' z1 -> isR p1' p1 -> s_new rd' z0' z1' p1' = Ret s -> isRay r o d tm -> d <> zero3 -> PI <= p1 ->
  (s_do_intersect s r = true <-> exists t, meets rad z0 z1 o d tm t) /\
  (forall h, s_hit s r = Some h -> exists t, isR (t_ray h) t /\ is3 (si_p (h_si h)) (at_ray o d t) /\ meets rad z0 z1 o d tm t /\
     forall u, meets rad z0 z1 o d tm u -> t <= u).
Proof.
  intros H1 H2 H3 H4 HN HR HD HP. assert (K := hit_first _ _ _ _ _ _ _ _ _ _ _ _ _ H1 H2 H3 H4 HN HR HD). split.
  - rewrite s_do_eq. destruct (s_hit s r) as [h|].
    + destruct K as (t & _ & _ & M & _). split; intros _; eexists; [exact M|reflexivity].
    + split; [intros [h E]; discriminate|]. intros [t M]. elim (no_outside _ _ HP (K t M)).
  - intros h E. rewrite E in K. destruct K as (t & A & B & M & _ & F). exists t. split; [exact A|split; [exact B|split; [exact M|]]].
    intros u Mu. destruct (Rle_or_lt t u) as [L|L]; [exact L|]. elim (no_outside _ _ HP (F u Mu L)).
Qed.

(** ** C50 *)
Lemma quad_total (a' b' c' : xr) a b c : isR a' a -> isR b' b -> isR c' c -> a <> 0 ->
  (b * b - 4 * a * c < 0 -> solve_quadratic a' b' c' = None) /\
  (0 <= b * b - 4 * a * c -> ~ (b = 0 /\ c = 0) ->
     exists x y t0 t1, solve_quadratic a' b' c' = Some (x, y) /\ isR x t0 /\ isR y t1 /\ t0 <= t1 /\ forall t, a * t * t + b * t + c = 0 <-> t = t0 \/ t = t1).
Proof.
  intros Ha Hb Hc A. split; [exact (quad_none _ _ _ _ _ _ Ha Hb Hc)|]. intros D NZ.
  destruct (quad_some _ _ _ _ _ _ Ha Hb Hc A D NZ) as (x & y & t0 & t1 & E & X & Y & L & F).
  exists x, y, t0, t1. split; [exact E|split; [exact X|split; [exact Y|split; [exact L|]]]]. intros t. rewrite F. split.
  - intros K. apply Rmult_integral in K. destruct K as [K|K]; [apply Rmult_integral in K; destruct K; [tauto|left; lra]|right; lra].
  - intros [->| ->]; ring.
Qed.
Lemma quad_double (a' b' c' : xr) a : isR a' a -> isR b' 0 -> isR c' 0 -> a <> 0 ->
  exists x y, solve_quadratic a' b' c' = Some (x, y) /\ (forall t, ~ isR x t) /\ isR y 0.
Proof.
  intros Ha Hb Hc A. destruct (quad_degenerate _ _ _ _ Ha Hb Hc A) as (y & E & Y). exists XNaN, y. split; [exact E|split; [|exact Y]].
  intros t [sg H]. discriminate H.
Qed.

Lemma quad_refuted : ~ (forall (a' b' c' : xr) a b c, isR a' a -> isR b' b -> isR c' c -> a <> 0 ->
  (b * b - 4 * a * c < 0 -> solve_quadratic a' b' c' = None) /\
  (0 <= b * b - 4 * a * c ->
     exists x y t0 t1, solve_quadratic a' b' c' = Some (x, y) /\ isR x t0 /\ isR y t1 /\ t0 <= t1 /\
       forall t, a * t * t + b * t + c = 0 <-> t = t0 \/ t = t1)).
Proof.
  intros H. assert (A : isR (xn 1) 1) by (exists false; reflexivity). assert (Z : isR (xn 0) 0) by (exists false; reflexivity).
  destruct (quad_double _ _ _ _ A Z Z R1_neq_R0) as (x & y & E & N & _).
  destruct (proj2 (H _ _ _ _ _ _ A Z Z R1_neq_R0)) as (x' & y' & t0 & t1 & E' & X & _); [lra|].
  rewrite E in E'. injection E' as E1 E2. subst x'. exact (N _ X).
Qed.

(** ** C51 *)
Lemma hit_in_bbox rd' z0' z1' p1' rad z0 z1 p1 s r o d tm h :
  isR rd' rad -> isR z0' z0 -> isR z1' z1 -> isR p1' p1 -> s_new rd' z0' z1' p1' = Ret s -> isRay r o d tm -> d <> zero3 -> s_hit s r = Some h ->
  exists lo hi p, isB (s_bbox s) lo hi /\ is3 (si_p (h_si h)) p /\ in_box lo hi p.
Proof.
  intros H1 H2 H3 H4 HN HR HD HH. destruct (proj2 (proj2 (new_ok _ _ _ _ _ _ _ _ H1 H2 H3 H4)) s HN) as [HS L].
  assert (K := hit_first _ _ _ _ _ _ _ _ _ _ _ _ _ H1 H2 H3 H4 HN HR HD). rewrite HH in K. destruct K as (t & _ & P & (_ & M) & _).
  eexists _, _, _. split; [exact (sphere_bbox _ _ _ _ _ HS L)|split; [exact P|exact (on_sphere_box _ _ _ _ M)]].
Qed.

(** ** C52: what the reported frame is in general, and the failing cases *)
Lemma record_frame rd' z0' z1' p1' rad z0 z1 p1 s r o d tm h :
  isR rd' rad -> isR z0' z0 -> isR z1' z1 -> isR p1' p1 -> s_new rd' z0' z1' p1' = Ret s -> isRay r o d tm -> d <> zero3 -> rad <> 0 -> s_hit s r = Some h ->
  let th0 := acos (clip01 (z0 / rad)) in let th1 := acos (clip01 (z1 / rad)) in
  exists t phi, isR (t_ray h) t /\ meets rad z0 z1 o d tm t /\ angle_of (at_ray o d t) phi /\ phi <= p1 /\
    (forall u, meets rad z0 z1 o d tm u -> u < t -> outside_wedge (at_ray o d u) p1) /\
    let p := at_ray o d t in let th := acos (clip01 (cZ p / rad)) in
    is3 (si_p (h_si h)) p /\
    si_n (h_si h) = normalize (cross (si_dpdu (h_si h)) (si_dpdv (h_si h))) /\
    is3 (si_dpdu (h_si h)) (scl3 (p1 + PI) (mk3 (- cY p) (cX p) 0)) /\
    is3 (si_dpdv (h_si h)) (scl3 (th1 - th0) (mk3 (cZ p * cos phi) (cZ p * sin phi) (- rad * sin th))) /\
    (th1 - th0 <> 0 -> isR (Vector.nth (si_uv (h_si h)) (Fin.FS Fin.F1)) ((th - th0) / (th1 - th0))).
Proof.
  intros H1 H2 H3 H4 HN Hr Hd RN Hh th0 th1.
  destruct (proj2 (proj2 (new_ok _ _ _ _ _ _ _ _ H1 H2 H3 H4)) s HN) as [HS ZL].
  destruct (new_fields _ _ _ _ _ HN) as (_ & _ & _ & _ & T0 & T1).
  assert (K := sphere_ok s r rad z0 z1 p1 o d tm HS Hr Hd). rewrite s_hit_eq in Hh.
  destruct (s_intersect_ray s r) as [ip|]; [|discriminate].
  destruct K as (t & phi & K1 & K2 & K3 & K4 & K5 & K6 & K7). exists t, phi. cbv zeta in Hh.
  assert (TH0 : isR (theta_min s) th0). { rewrite T0. apply isR_gacos; [|apply clip01_range]. apply gclamp_R. exact (isR_div _ _ _ _ H2 H1 RN). }
  assert (TH1 : isR (theta_max s) th1). { rewrite T1. apply isR_gacos; [|apply clip01_range]. apply gclamp_R. exact (isR_div _ _ _ _ H3 H1 RN). }
  assert (RS : isR (radius s) rad) by exact (proj1 HS).
  assert (PS : isR (phi_max s) p1) by exact (proj2 (proj2 (proj2 HS))).
  assert (PZ : isR (vz (sp_p ip)) (cZ (at_ray o d t))) by exact (proj2 (proj2 K2)).
  assert (PX : isR (vx (sp_p ip)) (cX (at_ray o d t))) by exact (proj1 K2).
  assert (PY : isR (vy (sp_p ip)) (cY (at_ray o d t))) by exact (proj1 (proj2 K2)).
  set (theta := gacos (gclamp (sdiv (vz (sp_p ip)) (radius s)))) in *.
  assert (TH : isR theta (acos (clip01 (cZ (at_ray o d t) / rad)))). { apply isR_gacos; [|apply clip01_range]. apply gclamp_R. exact (isR_div _ _ _ _ PZ RS RN). }
  clearbody theta. injection Hh as <-. cbn [h_si si_new si_p si_uv si_dpdu si_dpdv si_n t_ray].
  assert (DU : is3 (v_scale (vec3 (sneg (vy (sp_p ip))) (vx (sp_p ip)) szero) (sadd (phi_max s) pi)) (scl3 (p1 + PI) (mk3 (- cY (at_ray o d t)) (cX (at_ray o d t)) 0))).
  { apply is3_scale; [|exact (isR_add _ _ _ _ PS isR_pi)]. apply is3_vec3; cbn [cX cY cZ]; [exact (isR_neg _ _ PY)|exact PX|exact isR_zero]. }
  assert (DV : is3 (v_scale (vec3 (smul (vz (sp_p ip)) (snd (gsin_cos (sp_phi ip)))) (smul (vz (sp_p ip)) (fst (gsin_cos (sp_phi ip)))) (smul (sneg (radius s)) (gsin theta)))
      (ssub (theta_max s) (theta_min s))) (scl3 (th1 - th0) (mk3 (cZ (at_ray o d t) * cos phi) (cZ (at_ray o d t) * sin phi) (- rad * sin (acos (clip01 (cZ (at_ray o d t) / rad))))))).
  { apply is3_scale; [|exact (isR_sub _ _ _ _ TH1 TH0)]. apply is3_vec3; cbn [cX cY cZ].
    - exact (isR_mul _ _ _ _ PZ (isR_sc2 _ _ K3)).
    - exact (isR_mul _ _ _ _ PZ (isR_sc1 _ _ K3)).
    - exact (isR_mul _ _ _ _ (isR_neg _ _ RS) (isR_sin _ _ TH)). }
  split; [exact K1|split; [exact K6|split; [exact K4|split; [exact K5|split; [exact K7|]]]]].
  cbv zeta. split; [exact K2|split; [reflexivity|split; [|split]]].
  - exact DU.
  - exact DV.
  - intros DN. exact (isR_div _ _ _ _ (isR_sub _ _ _ _ TH TH0) (isR_sub _ _ _ _ TH1 TH0) DN).
Qed.
Lemma si_normal (s : sphere xr) r h : s_hit s r = Some h -> si_n (h_si h) = normalize (cross (si_dpdu (h_si h)) (si_dpdv (h_si h))).
Proof. rewrite s_hit_eq. destruct (s_intersect_ray s r); [|discriminate]. cbv zeta. intros H. injection H as <-. reflexivity. Qed.

Lemma record_normal rd' z0' z1' p1' rad z0 z1 p1 s r o d tm h :
  isR rd' rad -> isR z0' z0 -> isR z1' z1 -> isR p1' p1 -> s_new rd' z0' z1' p1' = Ret s -> isRay r o d tm -> d <> zero3 -> rad <> 0 -> s_hit s r = Some h ->
  exists pu pv, is3 (si_dpdu (h_si h)) pu /\ is3 (si_dpdv (h_si h)) pv /\ (cross3 pu pv <> zero3 -> is3 (si_n (h_si h)) (unit3 (cross3 pu pv))).
Proof.
  intros H1 H2 H3 H4 HN Hr Hd RN Hh.
  destruct (record_frame _ _ _ _ _ _ _ _ _ _ _ _ _ _ H1 H2 H3 H4 HN Hr Hd RN Hh) as (t & phi & _ & _ & _ & _ & _ & _ & Q & U & V & _).
  eexists _, _. split; [exact U|split; [exact V|]]. intros NZ. rewrite Q. apply is3_normalize; [exact (is3_cross _ _ _ _ U V)|exact NZ].
Qed.

(** witnesses: the full unit sphere *)
Lemma full_ball : exists s, xsphere 1 (-1) 1 pi = Ret s.
Proof. apply xsphere_ok. lra. Qed.
Lemma clip_m1 : acos (clip01 (-1 / 1)) = PI / 2.
Proof. replace (clip01 (-1 / 1)) with 0; [apply acos_0|]. unfold clip01. rewrite Rmax_left by lra. rewrite Rmin_right; lra. Qed.
Lemma clip_p1 : acos (clip01 (1 / 1)) = 0.
Proof. replace (clip01 (1 / 1)) with 1; [apply acos_1|]. unfold clip01. rewrite Rmax_right, Rmin_left; lra. Qed.
Lemma clip_neg z : z <= 0 -> acos (clip01 (z / 1)) = PI / 2.
Proof. intros H. replace (clip01 (z / 1)) with 0; [apply acos_0|]. unfold clip01. replace (z / 1) with z by field. rewrite Rmax_left by lra. rewrite Rmin_right; lra. Qed.

(** horizontal rays towards the z axis in the plane y = 0 at height [z], with [x*x + z*z = 1] *)
Lemma ball_hit s x z : xsphere 1 (-1) 1 pi = Ret s -> 0 < x <= 1 -> x * x + z * z = 1 ->
  exists h, s_hit s (xray 2 0 z (-1) 0 0 10) = Some h.
Proof.
  intros Hs X E. assert (PP := PI_RGT_0).
  apply s_do_eq. refine (proj2 (proj1 (hit_full _ _ _ _ _ _ _ _ _ _ _ _ _ (isR_xn 1) (isR_xn (-1)) (isR_xn 1) isR_pi Hs (isRay_xray 2 0 z (-1) 0 0 10) _ _)) _).
  - intros K. injection K. lra.
  - lra.
  - exists (2 - x). split; [lra|]. unfold on_sphere, at_ray, dot3, add3, scl3; cbn. split; [nra|]. nra.
Qed.
Lemma ball_point x z t : 0 < x <= 1 -> x * x + z * z = 1 ->
  meets 1 (-1) 1 (mk3 2 0 z) (mk3 (-1) 0 0) 10 t ->
  (forall u, meets 1 (-1) 1 (mk3 2 0 z) (mk3 (-1) 0 0) 10 u -> u < t -> outside_wedge (at_ray (mk3 2 0 z) (mk3 (-1) 0 0) u) PI) -> 
  at_ray (mk3 2 0 z) (mk3 (-1) 0 0) t = mk3 x 0 z.
Proof.
  intros X E (B & (D & _)) F. unfold at_ray, dot3, add3, scl3 in *; cbn in *.
  assert (K : (t - (2 - x)) * (t - (2 + x)) = 0) by nra. apply Rmult_integral in K.
  assert (T : t = 2 - x).
  { destruct K as [K|K]; [lra|]. exfalso. apply (no_outside (mk3 (2 + (2 - x) * -1) (0 + (2 - x) * 0) (z + (2 - x) * 0)) PI ltac:(lra)).
    apply F; [|lra]. split; [lra|]. unfold on_sphere, at_ray, dot3, add3, scl3; cbn. split; nra. }
  rewrite T. f_equal; ring.
Qed.
Lemma uv_refuted : ~ (forall rd' z0' z1' p1' rad z0 z1 p1 s r o d tm h,
  isR rd' rad -> isR z0' z0 -> isR z1' z1 -> isR p1' p1 -> s_new rd' z0' z1' p1' = Ret s ->
  0 < rad -> - rad <= z0 -> z1 <= rad -> - PI < p1 -> isRay r o d tm -> d <> zero3 -> s_hit s r = Some h ->
  exists p u v, is3 (si_p (h_si h)) p /\
    isR (Vector.nth (si_uv (h_si h)) Fin.F1) u /\ isR (Vector.nth (si_uv (h_si h)) (Fin.FS Fin.F1)) v /\
    0 <= u <= 1 /\ 0 <= v <= 1 /\ p = sphere_uv rad z0 z1 p1 u v).
Proof.
  intros C. assert (PP := PI_RGT_0). destruct full_ball as [s Hs]. destruct (ball_hit s 1 0 Hs ltac:(lra) ltac:(lra)) as [h Hh].
  assert (ND : mk3 (-1) 0 0 <> zero3) by (intros K; injection K; lra).
  destruct (C _ _ _ _ _ _ _ _ _ _ _ _ _ h (isR_xn 1) (isR_xn (-1)) (isR_xn 1) isR_pi Hs ltac:(lra) ltac:(lra) ltac:(lra) ltac:(lra) (isRay_xray 2 0 0 (-1) 0 0 10) ND Hh)
    as (p & u & v & P & _ & V & _ & _ & E).
  destruct (record_frame _ _ _ _ _ _ _ _ _ _ _ _ _ h (isR_xn 1) (isR_xn (-1)) (isR_xn 1) isR_pi Hs (isRay_xray 2 0 0 (-1) 0 0 10) ND ltac:(lra) Hh)
    as (t & phi & _ & M & _ & _ & F & P' & _ & _ & _ & V').
  rewrite (ball_point 1 0 t ltac:(lra) ltac:(lra) M F) in *. rewrite clip_m1, clip_p1 in V'. cbn [cZ] in V'. rewrite clip_neg in V' by lra.
  specialize (V' ltac:(lra)). assert (Ev := isR_inj _ _ _ V V'). assert (v = 0) by (rewrite Ev; field; lra). clear Ev. subst v.
  assert (Ep := is3_inj _ _ _ P P'). rewrite E in Ep. unfold sphere_uv, spherical in Ep. injection Ep as _ _ K.
  replace (acos (-1 / 1) + 0 * (acos (1 / 1) - acos (-1 / 1))) with (acos (-1 / 1)) in K by ring. rewrite cos_acos in K by lra. lra.
Qed.
Lemma cross_orth a b : dot3 (cross3 a b) b = 0.
Proof. unfold dot3, cross3; cbn. ring. Qed.
Lemma normal_refuted : ~ (forall rd' z0' z1' p1' rad z0 z1 p1 s r o d tm h,
  isR rd' rad -> isR z0' z0 -> isR z1' z1 -> isR p1' p1 -> s_new rd' z0' z1' p1' = Ret s ->
  0 < rad -> - rad <= z0 -> z1 <= rad -> - PI < p1 -> isRay r o d tm -> d <> zero3 -> s_hit s r = Some h ->
  exists p, is3 (si_p (h_si h)) p /\ (cX p <> 0 \/ cY p <> 0 -> is3 (si_n (h_si h)) (scl3 (/ rad) p))).
Proof.
  intros C. assert (PP := PI_RGT_0). destruct full_ball as [s Hs]. destruct (ball_hit s (3/5) (-4/5) Hs ltac:(lra) ltac:(lra)) as [h Hh].
  assert (ND : mk3 (-1) 0 0 <> zero3) by (intros K; injection K; lra).
  destruct (C _ _ _ _ _ _ _ _ _ _ _ _ _ h (isR_xn 1) (isR_xn (-1)) (isR_xn 1) isR_pi Hs ltac:(lra) ltac:(lra) ltac:(lra) ltac:(lra) (isRay_xray 2 0 (-4/5) (-1) 0 0 10) ND Hh)
    as (p & P & NN).
  destruct (record_frame _ _ _ _ _ _ _ _ _ _ _ _ _ h (isR_xn 1) (isR_xn (-1)) (isR_xn 1) isR_pi Hs (isRay_xray 2 0 (-4/5) (-1) 0 0 10) ND ltac:(lra) Hh)
    as (t & phi & _ & M & A & _ & F & P' & Q & U & V & _).
  rewrite (ball_point (3/5) (-4/5) t ltac:(lra) ltac:(lra) M F) in *. rewrite clip_m1, clip_p1 in V. cbn [cX cY cZ] in *. rewrite clip_neg in V by lra.
  rewrite sin_PI2 in V. rewrite (is3_inj _ _ _ P P') in NN. cbn [cX cY cZ] in NN. specialize (NN ltac:(lra)).
  destruct A as (_ & A1 & A2). cbn [cX cY cZ] in A1, A2. replace (3 / 5 * (3 / 5) + 0 * 0) with (3 / 5 * (3 / 5)) in A1, A2 by lra.
  rewrite sqrt_square in A1, A2 by lra. assert (cos phi = 1) by lra. assert (sin phi = 0) by lra. rewrite H, H0 in V.
  set (pu := scl3 (PI + PI) _) in U. set (pv := scl3 (0 - PI / 2) _) in V.
  assert (W : is3 (si_n (h_si h)) (unit3 (cross3 pu pv))).
  { rewrite Q. apply is3_normalize; [exact (is3_cross _ _ _ _ U V)|]. unfold pu, pv, cross3, scl3, zero3; cbn. intros K. injection K as _ _ K. nra. }
  assert (E := is3_inj _ _ _ NN W). assert (O : dot3 (unit3 (cross3 pu pv)) pv = 0).
  { unfold unit3. set (k := / len3 (cross3 pu pv)). transitivity (k * dot3 (cross3 pu pv) pv); [unfold dot3, scl3; cbn; ring|rewrite cross_orth; ring]. }
  rewrite <- E in O. unfold pv, dot3, scl3 in O; cbn in O. lra.
Qed.

(** ** samples *)
Lemma C52_sample : exists s h, xsphere 2 0 2 pi = Ret s /\ s_hit s (xray 5 0 1 (-1) 0 0 10) = Some h.
Proof.
  assert (PP := PI_RGT_0). destruct (xsphere_ok 2 0 2 pi ltac:(lra)) as [s Hs]. exists s.
  assert (D : s_do_intersect s (xray 5 0 1 (-1) 0 0 10) = true).
  { refine (proj2 (proj1 (hit_full _ _ _ _ _ _ _ _ _ _ _ _ _ (isR_xn 2) (isR_xn 0) (isR_xn 2) isR_pi Hs (isRay_xray 5 0 1 (-1) 0 0 10) _ _)) _).
    - intros K. injection K. lra.
    - lra.
    - exists (5 - sqrt 3). assert (S : sqrt 3 * sqrt 3 = 3) by (apply sqrt_sqrt; lra). assert (0 <= sqrt 3) by apply sqrt_pos.
      split; [nra|]. unfold on_sphere, at_ray, dot3, add3, scl3; cbn. split; [nra|lra]. }
  apply s_do_eq in D. destruct D as [h D]. exists h. split; assumption.
Qed.
Lemma C49_sample : exists s h, xsphere 1 (-1) 1 pi = Ret s /\ s_hit s (xray 2 0 (-4/5) (-1) 0 0 10) = Some h.
Proof. destruct full_ball as [s Hs]. destruct (ball_hit s (3/5) (-4/5) Hs ltac:(lra) ltac:(lra)) as [h Hh]. eauto. Qed.
(** a wedge [phi <= 0]: the front of the sphere (phi = 1/2 PI) is skipped, the back is hit *)
Lemma C49_sample_wedge : exists s h, xsphere 1 (-1) 1 (xn 0) = Ret s /\ s_hit s (xray 0 2 0 0 (-1) 0 10) = Some h /\ isR (t_ray h) 3.
Proof.
  destruct (xsphere_ok 1 (-1) 1 (xn 0) ltac:(lra)) as [s Hs]. exists s.
  assert (ND : mk3 0 (-1) 0 <> zero3) by (intros K; injection K; lra).
  assert (K := hit_first _ _ _ _ _ _ _ _ _ _ _ _ _ (isR_xn 1) (isR_xn (-1)) (isR_xn 1) (isR_xn 0) Hs (isRay_xray 0 2 0 0 (-1) 0 10) ND).
  assert (M3 : meets 1 (-1) 1 (mk3 0 2 0) (mk3 0 (-1) 0) 10 3). { split; [lra|]. unfold on_sphere, at_ray, dot3, add3, scl3; cbn. lra. }
  assert (O3 : ~ outside_wedge (at_ray (mk3 0 2 0) (mk3 0 (-1) 0) 3) 0).
  { intros (phi & (A0 & A1 & A2) & L). unfold at_ray, add3, scl3 in *; cbn in *. replace (0 + 3 * 0) with 0 in * by ring. replace (2 + 3 * -1) with (-1) in * by ring.
    replace (0 * 0 + -1 * -1) with 1 in * by ring. rewrite sqrt_1 in *. assert (0 <= sin phi) by (apply sin_ge_0; lra). lra. }
  destruct (s_hit s (xray 0 2 0 0 (-1) 0 10)) as [h|]; [|elim (O3 (K 3 M3))].
  destruct K as (t & T & _ & (B & (D & _)) & (phi & (A0 & A1 & A2) & I) & _). exists h. split; [exact Hs|split; [reflexivity|]].
  unfold at_ray, dot3, add3, scl3 in *; cbn in *.
  assert (Q : (t - 1) * (t - 3) = 0) by nra. apply Rmult_integral in Q. destruct Q as [Q|Q]; [exfalso|replace 3 with t by lra; exact T].
  replace t with 1 in * by lra. replace (0 + 1 * 0) with 0 in * by ring. replace (2 + 1 * -1) with 1 in * by ring. replace (0 * 0 + 1 * 1) with 1 in * by ring.
  rewrite sqrt_1 in *. assert (S := sin_ge_0 (- phi) ltac:(lra) ltac:(lra)). rewrite sin_neg in S. lra.
Qed.
Lemma new_total rd z0 z1 p1 rad a b p : isR rd rad -> isR z0 a -> isR z1 b -> isR p1 p ->
  (a < b -> exists s, s_new rd z0 z1 p1 = Ret s) /\ (~ a < b -> s_new rd z0 z1 p1 = Panic).
Proof. intros H1 H2 H3 H4. destruct (new_ok _ _ _ _ _ _ _ _ H1 H2 H3 H4) as (A & B & _). split; assumption. Qed.
Lemma bbox_value rd' z0' z1' p1' rad z0 z1 p1 s : isR rd' rad -> isR z0' z0 -> isR z1' z1 -> isR p1' p1 -> s_new rd' z0' z1' p1' = Ret s ->
  isB (s_bbox s) (mk3 (- Rabs rad) (- Rabs rad) z0) (mk3 (Rabs rad) (Rabs rad) z1).
Proof. intros H1 H2 H3 H4 HN. destruct (proj2 (proj2 (new_ok _ _ _ _ _ _ _ _ H1 H2 H3 H4)) s HN) as [HS L]. exact (sphere_bbox _ _ _ _ _ HS L). Qed.
Lemma C50_sample : isR (xn 2) 2 /\ isR (xn (-3)) (-3) /\ isR (xn 1) 1 /\ 0 <= (-3) * (-3) - 4 * 2 * 1 /\ ~ (-3 = 0 /\ 1 = 0).
Proof. split; [apply isR_xn|split; [apply isR_xn|split; [apply isR_xn|lra]]]. Qed.
