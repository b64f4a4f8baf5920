(** The thin lens camera in exact arithmetic. *)
From Coq Require Import ZArith Reals Bool List Lra Lia.
From Coq Require Vector Fin.
From Verif.Model Require Import FloatBase Scalar Float Interval Outcome Vec Transform XReal Geometry Camera.
From Verif Require Import Spec SpecGeom SpecShape SpecCamera.
From Verif.Proofs Require Import XRealLemmas MatrixProofs RotationProofs TransformProofs TransformThms TransformCases BoxCases PrimThms CameraProofs.
Open Scope R_scope.

Definition film_D (fd fl : R) := fd * fl / (fd - fl).
Lemma film_D_nz fd fl : fd <> 0 -> fl <> 0 -> fd <> fl -> film_D fd fl <> 0.
Proof.
  intros A B C K. unfold film_D in K. assert (fd - fl <> 0) by lra.
  assert (E : fd * fl = 0). { apply Rmult_eq_reg_r with (/ (fd - fl)); [|apply Rinv_neq_0_compat; assumption]. unfold Rdiv in K. rewrite K. ring. }
  apply Rmult_integral in E. tauto.
Qed.
(** film and focus points, lens point *)
Definition film_pt (fd fl fov ar x y : R) : R3 :=
  let D := film_D fd fl in let W := 1 / 2 * tan (fov * (1 / 2)) * D in
  mk3 (1 / 2 * W - x * W) (1 / 2 * (W / ar) - y * (W / ar)) D.
Definition focus_pt (fd fl fov ar x y : R) : R3 := scl3 (1 - fd / film_D fd fl) (film_pt fd fl fov ar x y).
Definition lens_pt (lr x y : R) : R3 := mk3 (cX2 x y * lr) (cY2 x y * lr) 0.

Definition cam_ray {T} {G : GFloat T} {N : Native T} (self : thin_lens T) (sample : camera_sample T) : ray T :=
  let p_lens_xy := v_scale (concentric_sample_disk (p_lens sample)) (lens_radius self) in
  let p_lens_ := vec3 (vx p_lens_xy) (vy p_lens_xy) szero in
  let p_film_ := vec3
    (ssub (smul half (film_width self)) (smul (vx (p_film sample)) (film_width self)))
    (ssub (smul half (film_height self)) (smul (vy (p_film sample)) (film_height self)))
    (film_distance self) in
  let dir := p_sub_p (vec3 szero szero szero) p_film_ in
  let t := sdiv (sneg (focal_distance self)) (vz dir) in
  mkRay p_lens_ (normalize (p_sub_p (v_add p_film_ (v_scale dir t)) p_lens_)) shighest.
Lemma gen_eq {T} {G : GFloat T} {N : Native T} (self : thin_lens T) sample : generate_ray self sample = t_map_ray_inverse (view self) (cam_ray self sample).
Proof. reflexivity. Qed.

Lemma cam_ray_value view_ fd' fov' fl' lr' ar' fd fov fl lr ar film lens fx fy lx ly :
  isR fd' fd -> isR fov' fov -> isR fl' fl -> isR lr' lr -> isR ar' ar -> fd <> 0 -> fl <> 0 -> fd <> fl -> ar <> 0 ->
  is2 film fx fy -> is2 lens lx ly -> sub3 (focus_pt fd fl fov ar fx fy) (lens_pt lr lx ly) <> zero3 ->
  isRay (cam_ray (thin_lens_new view_ fd' fov' fl' lr' ar') (mkCS film lens)) (lens_pt lr lx ly) (unit3 (sub3 (focus_pt fd fl fov ar fx fy) (lens_pt lr lx ly))) x_max.
Proof.
  intros H1 H2 H3 H4 H5 N1 N2 N3 N4 [F1 F2] HL NZ. destruct (conc_value lens lx ly HL) as [L1 L2].
  assert (ND : fd - fl <> 0) by lra. assert (DZ := film_D_nz fd fl N1 N2 N3).
  unfold cam_ray, thin_lens_new. cbv zeta. cbn [p_film p_lens focal_distance lens_radius film_distance film_width film_height].
  set (D' := sdiv (smul fd' fl') (ssub fd' fl')). assert (HD : isR D' (film_D fd fl)) by exact (isR_div _ _ _ _ (isR_mul _ _ _ _ H1 H3) (isR_sub _ _ _ _ H1 H3) ND).
  set (W' := smul (smul half (gtan (smul fov' half))) D').
  assert (HW : isR W' (1 / 2 * tan (fov * (1 / 2)) * film_D fd fl)) by exact (isR_mul _ _ _ _ (isR_mul _ _ _ _ isR_half (isR_tan _ _ (isR_mul _ _ _ _ H2 isR_half))) HD).
  set (W := 1 / 2 * tan (fov * (1 / 2)) * film_D fd fl) in *.
  assert (HH := isR_div _ _ _ _ HW H5 N4).
  set (pf := vec3 (ssub (smul half W') (smul (vx film) W')) (ssub (smul half (sdiv W' ar')) (smul (vy film) (sdiv W' ar'))) D').
  assert (PF : is3 pf (film_pt fd fl fov ar fx fy)).
  { apply is3_vec3; unfold film_pt; cbv zeta; fold W; cbn [cX cY cZ].
    - exact (isR_sub _ _ _ _ (isR_mul _ _ _ _ isR_half HW) (isR_mul _ _ _ _ F1 HW)).
    - exact (isR_sub _ _ _ _ (isR_mul _ _ _ _ isR_half HH) (isR_mul _ _ _ _ F2 HH)).
    - exact HD. }
  assert (PZ : cZ (film_pt fd fl fov ar fx fy) = film_D fd fl) by reflexivity.
  unfold focus_pt in *. set (P := film_pt fd fl fov ar fx fy) in *. clearbody pf P W' W.
  set (pl := vec3 (vx (v_scale (concentric_sample_disk lens) lr')) (vy (v_scale (concentric_sample_disk lens) lr')) szero).
  assert (PL : is3 pl (lens_pt lr lx ly)).
  { apply is3_vec3; unfold lens_pt; cbn [cX cY cZ]; [| |exact isR_zero].
    - destruct (concentric_sample_disk lens) using Vector.caseS'. exact (isR_mul _ _ _ _ L1 H4).
    - destruct (concentric_sample_disk lens) using Vector.caseS'. destruct t using Vector.caseS'. exact (isR_mul _ _ _ _ L2 H4). }
  clearbody pl. set (L := lens_pt lr lx ly) in *. clearbody L.
  set (dir := p_sub_p (vec3 szero szero szero) pf).
  assert (HDIR : is3 dir (sub3 zero3 P)).
  { apply is3_sub; [|exact PF]. apply is3_vec3; exact isR_zero. }
  assert (HT : isR (sdiv (sneg fd') (vz dir)) (fd / film_D fd fl)).
  { eapply isR_eq; [apply isR_div; [exact (isR_neg _ _ H1)|exact (proj2 (proj2 HDIR))|]|]; unfold sub3, zero3; cbn [cZ]; rewrite PZ; [lra|field; exact DZ]. }
  split; [exact PL|split; [|exact isR_highest]]. cbn [direction].
  apply is3_normalize; [|exact NZ]. apply is3_sub; [|exact PL]. eapply is3_eq; [exact (is3_add _ _ _ _ PF (is3_scale _ _ _ _ HDIR HT))|].
  unfold add3, scl3, sub3, zero3. apply R3_eq; cbn; ring.
Qed.

Lemma lens_equation view_ fd' fov' fl' lr' ar' fd fl : isR fd' fd -> isR fl' fl -> fd <> 0 -> fl <> 0 -> fd <> fl ->
  exists D, isR (film_distance (thin_lens_new view_ fd' fov' fl' lr' ar')) D /\ D <> 0 /\ 1 / fl = 1 / fd + 1 / D.
Proof.
  intros H1 H2 A B C. exists (film_D fd fl). split; [exact (isR_div _ _ _ _ (isR_mul _ _ _ _ H1 H2) (isR_sub _ _ _ _ H1 H2) ltac:(lra))|].
  split; [apply film_D_nz; assumption|]. unfold film_D. field. repeat split; lra.
Qed.
Lemma lens_pt_len lr x y : 0 <= x <= 1 -> 0 <= y <= 1 -> len3 (lens_pt lr x y) <= Rabs lr.
Proof.
  intros X Y. assert (D := conc_disk x y X Y). unfold len3, lens_pt, dot3; cbn [cX cY cZ].
  rewrite <- (sqrt_Rsqr_abs lr). apply sqrt_le_1_alt. unfold Rsqr. replace (cX2 x y * lr * (cX2 x y * lr) + cY2 x y * lr * (cY2 x y * lr) + 0 * 0) with ((lr * lr) * (cX2 x y * cX2 x y + cY2 x y * cY2 x y)) by ring.
  rewrite <- (Rmult_1_r (lr * lr)) at 2. apply Rmult_le_compat_l; [apply Rle_0_sqr|exact D].
Qed.
Lemma focus_z fd fl fov ar x y : fd <> 0 -> fl <> 0 -> fd <> fl -> cZ (focus_pt fd fl fov ar x y) = film_D fd fl - fd.
Proof. intros A B C. assert (N := film_D_nz _ _ A B C). unfold focus_pt, film_pt, scl3; cbn [cZ]. field. exact N. Qed.
Lemma film_D_fd fd fl : fd <> 0 -> fl <> 0 -> fd <> fl -> film_D fd fl = fd -> fd = 2 * fl.
Proof.
  intros A B C K. assert (fd - fl <> 0) by lra. assert (E : fd * fl = fd * (fd - fl)). { rewrite <- K at 2. unfold film_D. field. lra. }
  apply Rmult_eq_reg_l in E; lra.
Qed.

Lemma camera_rays view_ fd' fov' fl' lr' ar' fd fov fl lr ar film fx fy :
  built_affine view_ -> isR fd' fd -> isR fov' fov -> isR fl' fl -> isR lr' lr -> isR ar' ar -> fd <> 0 -> fl <> 0 -> fd <> fl -> fd <> 2 * fl -> ar <> 0 ->
  is2 film fx fy ->
  exists D Q Qw, isR (film_distance (thin_lens_new view_ fd' fov' fl' lr' ar')) D /\
    Q = mk3 ((1/2 - fx) * ((D - fd) * tan (fov / 2) / 2)) ((1/2 - fy) * ((D - fd) * tan (fov / 2) / 2) / ar) (D - fd) /\ unmaps_pt view_ Q Qw /\
    forall lens lx ly, is2 lens lx ly -> 0 <= lx <= 1 -> 0 <= ly <= 1 ->
    exists r o d o' d' t, generate_ray (thin_lens_new view_ fd' fov' fl' lr' ar') (mkCS film lens) = Ret r /\ isRay r o' d' x_max /\
      unmaps_pt view_ o o' /\ unmaps_vec view_ d d' /\ 
      (forall X Y, is2 (concentric_sample_disk lens) X Y -> o = mk3 (lr * X) (lr * Y) 0) /\ len3 o <= Rabs lr /\ len3 d = 1 /\ 0 < t /\
      at_ray o d t = Q /\ at_ray o' d' t = Qw.
Proof.
  intros HV H1 H2 H3 H4 H5 N1 N2 N3 N4 N5 HF.
  destruct (built_affine_pair _ HV) as (A & B & T1 & I & A1 & B1).
  exists (film_D fd fl), (focus_pt fd fl fov ar fx fy), (app_pt B (focus_pt fd fl fov ar fx fy)).
  split; [exact (isR_div _ _ _ _ (isR_mul _ _ _ _ H1 H3) (isR_sub _ _ _ _ H1 H3) ltac:(lra))|].
  split.
  { assert (N := film_D_nz _ _ N1 N2 N3). unfold focus_pt, film_pt, scl3; cbn. replace (fov * (1 / 2)) with (fov / 2) by field. f_equal; field; auto. }
  assert (UP : forall a, unmaps_pt view_ a (app_pt B a)) by (intros a v Hv; destruct T1 as [_ M]; exact (map_point_affine _ _ _ _ M Hv B1)).
  assert (UV : forall a, unmaps_vec view_ a (app_vec B a)) by (intros a v Hv; destruct T1 as [_ M]; exact (map_vector_affine _ _ _ _ M Hv B1)).
  split; [apply UP|]. intros lens lx ly HL LX LY.
  set (Q := focus_pt fd fl fov ar fx fy). set (L := lens_pt lr lx ly).
  assert (NZ : sub3 Q L <> zero3).
  { intros K. apply N4. apply film_D_fd; [assumption..|]. assert (Z := focus_z fd fl fov ar fx fy N1 N2 N3). fold Q in Z. apply (f_equal cZ) in K. unfold sub3 in K; cbn [cZ zero3] in K. rewrite Z in K. unfold L, lens_pt in K; cbn [cZ] in K. unfold zero3 in K; cbn [cZ] in K. lra. }
  assert (CR := cam_ray_value view_ _ _ _ _ _ _ _ _ _ _ film lens fx fy lx ly H1 H2 H3 H4 H5 N1 N2 N3 N5 HF HL NZ). fold Q L in CR.
  assert (T2 : isT (t_inverse view_) B A) by (apply isT_inverse; assumption).
  destruct (map_ray_ok (t_inverse view_) B A _ _ _ _ T2 B1 CR) as (r & E & H & _).
  exists r, L, (unit3 (sub3 Q L)), (app_pt B L), (app_vec B (unit3 (sub3 Q L))), (len3 (sub3 Q L)).
  assert (LP : 0 < len3 (sub3 Q L)) by (apply len3_pos; exact NZ).
  assert (AT : at_ray L (unit3 (sub3 Q L)) (len3 (sub3 Q L)) = Q).
  { unfold at_ray, unit3. set (k := len3 (sub3 Q L)) in *. clearbody k. destruct Q, L. unfold add3, scl3, sub3; cbn. f_equal; field; lra. }
  split; [rewrite gen_eq; rewrite <- E; destruct view_; reflexivity|]. split; [exact H|]. split; [apply UP|]. split; [apply UV|].
  split; [intros X Y [X1 Y1]; destruct (conc_value lens lx ly HL) as [X2 Y2]; unfold L, lens_pt; f_equal; [rewrite (isR_inj _ _ _ X1 X2)|rewrite (isR_inj _ _ _ Y1 Y2)]; ring|].
  split; [apply lens_pt_len; assumption|]. split; [apply len3_unit, dot3_unit, NZ|]. split; [exact LP|]. split; [exact AT|].
  rewrite <- app_pt_at by exact B1. rewrite AT. reflexivity.
Qed.

(** samples *)
Definition x2 (a b : R) : vec xr 2 := vec2 (xn a) (xn b).
Lemma is2_x2 a b : is2 (x2 a b) a b. Proof. split; apply isR_xn. Qed.
Lemma conc_mid : cX2 (1/2) (1/2) = 0 /\ cY2 (1/2) (1/2) = 0.
Proof. unfold cX2, cY2, cpair. replace (1 - 2 * (1 / 2)) with 0 by lra. cbv zeta. destruct (Rlt_dec _ _); [lra|]. cbn. lra. Qed.
Lemma conc_left : cX2 0 (1/2) = 1 /\ cY2 0 (1/2) = 0.
Proof.
  unfold cX2, cY2, cpair. replace (1 - 2 * (1 / 2)) with 0 by lra. replace (1 - 2 * 0) with 1 by lra. cbv zeta. rewrite Rabs_R0, Rabs_R1.
  destruct (Rlt_dec 0 1); [|lra]. cbn [fst snd]. replace (PI / 4 * 0 / 1) with 0 by field. rewrite cos_0, sin_0. lra.
Qed.
Lemma app_id_pt p : app_pt rid p = p. Proof. apply app_pt_id. intros i j; reflexivity. Qed.

(** the camera with identity view *)
Lemma id_ray fd' fov' fl' lr' ar' fd fov fl lr ar film lens fx fy lx ly r o d tm :
  isR fd' fd -> isR fov' fov -> isR fl' fl -> isR lr' lr -> isR ar' ar -> fd <> 0 -> fl <> 0 -> fd <> fl -> ar <> 0 ->
  is2 film fx fy -> is2 lens lx ly -> sub3 (focus_pt fd fl fov ar fx fy) (lens_pt lr lx ly) <> zero3 ->
  generate_ray (thin_lens_new t_identity fd' fov' fl' lr' ar') (mkCS film lens) = Ret r -> isRay r o d tm ->
  o = lens_pt lr lx ly /\ d = unit3 (sub3 (focus_pt fd fl fov ar fx fy) (lens_pt lr lx ly)).
Proof.
  intros H1 H2 H3 H4 H5 N1 N2 N3 N5 HF HL NZ E (Ro & Rd & _).
  assert (CR := cam_ray_value t_identity _ _ _ _ _ _ _ _ _ _ film lens fx fy lx ly H1 H2 H3 H4 H5 N1 N2 N3 N5 HF HL NZ).
  destruct (built_affine_pair _ ba_identity) as (A & B & T1 & I & A1 & B1).
  assert (T0 := isT_identity). 
  assert (T2 : isT (t_inverse t_identity) rid rid) by (apply isT_inverse; exact T0).
  destruct (map_ray_ok (t_inverse t_identity) rid rid _ _ _ _ T2 ltac:(repeat split) CR) as (r0 & E0 & H & _).
  assert (r0 = r). { rewrite gen_eq in E. cbn [view thin_lens_new] in E. assert (Ret r0 = Ret r) by (rewrite <- E, <- E0; reflexivity). congruence. }
  subst r0. destruct H as (Ho & Hd & _).
  rewrite app_pt_id in Ho by (intros i j; reflexivity). rewrite app_vec_id in Hd by (intros i j; reflexivity).
  split; eapply is3_inj; eassumption.
Qed.

Lemma unmaps_id_pt a b : unmaps_pt t_identity a b -> b = a.
Proof.
  intros H. destruct (H (xv (cX a) (cY a) (cZ a)) (is3_xv _ _ _)) as (w & E & W).
  assert (P : returns (t_map_point_inverse t_identity (xv (cX a) (cY a) (cZ a))) (fun w => is3 w (app_pt rid a))).
  { destruct isT_identity as [_ M]. apply (map_point_affine _ _ _ _ M); [destruct a; apply is3_xv|repeat split]. }
  destruct P as (w' & E' & W'). rewrite E in E'. injection E' as <-. rewrite app_id_pt in W'. eapply is3_inj; eassumption.
Qed.
Lemma unmaps_id_vec a b : unmaps_vec t_identity a b -> b = a.
Proof.
  intros H. destruct (H (xv (cX a) (cY a) (cZ a)) (is3_xv _ _ _)) as (w & E & W).
  assert (P : returns (t_map_vector_inverse t_identity (xv (cX a) (cY a) (cZ a))) (fun w => is3 w (app_vec rid a))).
  { destruct isT_identity as [_ M]. apply (map_vector_affine _ _ _ _ M); [destruct a; apply is3_xv|repeat split]. }
  destruct P as (w' & E' & W'). rewrite E in E'. injection E' as <-. rewrite app_vec_id in W' by (intros i j; reflexivity). eapply is3_inj; eassumption.
Qed.

Lemma focus_mid fd fl fov ar : fd <> 0 -> fl <> 0 -> fd <> fl -> focus_pt fd fl fov ar (1/2) (1/2) = mk3 0 0 (film_D fd fl - fd).
Proof. intros A B C. assert (N := film_D_nz _ _ A B C). unfold focus_pt, film_pt, scl3; cbn. f_equal; [ring|ring|field; exact N]. Qed.

Lemma plane_refuted : ~ (forall view_ fd' fov' fl' lr' ar' fd fov fl lr ar film fx fy,
  built_affine view_ -> isR fd' fd -> isR fov' fov -> isR fl' fl -> isR lr' lr -> isR ar' ar -> 0 < fl -> fl < fd -> 0 < fov < PI -> 0 < ar ->
  is2 film fx fy -> 0 <= fx <= 1 -> 0 <= fy <= 1 ->
  exists Q Qw, cZ Q = - fd /\ unmaps_pt view_ Q Qw /\
    forall lens lx ly, is2 lens lx ly -> 0 <= lx <= 1 -> 0 <= ly <= 1 ->
    exists r o d t, generate_ray (thin_lens_new view_ fd' fov' fl' lr' ar') (mkCS film lens) = Ret r /\ isRay r o d x_max /\ at_ray o d t = Qw).
Proof.
  intros C. assert (P := PI_RGT_0).
  destruct (C t_identity (xn 3) (xn (PI/2)) (xn 1) (xn 1) (xn 1) 3 (PI/2) 1 1 1 (x2 (1/2) (1/2)) (1/2) (1/2)) as (Q & Qw & Z & U & K);
    try apply isR_xn; try apply is2_x2; try lra; [apply ba_identity|].
  apply unmaps_id_pt in U. subst Qw.
  assert (F := focus_mid 3 1 (PI/2) 1 ltac:(lra) ltac:(lra) ltac:(lra)). unfold film_D in F. replace (3 * 1 / (3 - 1) - 3) with (-3/2) in F by lra.
  destruct (K (x2 (1/2) (1/2)) (1/2) (1/2) (is2_x2 _ _) ltac:(lra) ltac:(lra)) as (r & o & d & t & E & R1 & A).
  destruct (K (x2 0 (1/2)) 0 (1/2) (is2_x2 _ _) ltac:(lra) ltac:(lra)) as (r' & o' & d' & t' & E' & R1' & A').
  destruct conc_mid as [M1 M2], conc_left as [L1 L2].
  eapply (id_ray _ _ _ _ _ 3 (PI/2) 1 1 1 _ _ (1/2) (1/2) (1/2) (1/2)) in E; try apply isR_xn; try apply is2_x2; try exact R1; try lra.
  2:{ rewrite F. unfold lens_pt, sub3, zero3; cbn. intros X; injection X; lra. }
  eapply (id_ray _ _ _ _ _ 3 (PI/2) 1 1 1 _ _ (1/2) (1/2) 0 (1/2)) in E'; try apply isR_xn; try apply is2_x2; try exact R1'; try lra.
  2:{ rewrite F. unfold lens_pt, sub3, zero3; cbn. intros X; injection X; lra. }
  rewrite F in E, E'. destruct E as [-> ->], E' as [-> ->]. unfold lens_pt in A, A'. rewrite M1, M2 in A. rewrite L1, L2 in A'.
  unfold at_ray, unit3, sub3, scl3, add3 in A, A'. cbn [cX cY cZ] in A, A'.
  set (k := / len3 _) in A. set (k' := / len3 _) in A'. clearbody k k'. 
  rewrite <- A' in A. injection A as AX AY AZ. rewrite <- A' in Z. cbn [cZ] in Z. nra.
Qed.

(** rays through the lens centre *)
Lemma ratio_unit a b : a <> zero3 -> b <> zero3 -> dot3 (unit3 a) (unit3 b) = dot3 a b / (len3 a * len3 b).
Proof. intros A B. assert (X := len3_nz _ A). assert (Y := len3_nz _ B). unfold unit3, dot3, scl3; cbn. field. auto. Qed.
Lemma cos_2atan s : cos (2 * atan s) = (1 - s * s) / (1 + s * s).
Proof.
  rewrite cos_2a_cos, cos_atan. assert (0 <= s * s) by apply Rle_0_sqr. assert (E := sqrt_sqrt (1 + s * s) ltac:(lra)).
  assert (sqrt (1 + s * s) <> 0) by (apply Rgt_not_eq, sqrt_lt_R0; lra). unfold Rsqr. set (q := sqrt (1 + s * s)) in *.
  transitivity (2 / (q * q) - 1); [field; assumption|]. rewrite E. field. lra.
Qed.

Lemma edge_angle k w D s a b : k <> 0 -> D <> 0 -> w = s * D ->
  a = mk3 (k * w) 0 (k * D) \/ a = mk3 0 (k * w) (k * D) ->
  b = mk3 (- cX a) (- cY a) (cZ a) -> dot3 (unit3 a) (unit3 b) = cos (2 * atan s).
Proof.
  intros K D0 W HA HB. rewrite cos_2atan.
  assert (KD : k * D <> 0) by (apply Rmult_integral_contrapositive; split; assumption).
  assert (A0 : a <> zero3) by (intros X; destruct HA as [->| ->]; injection X; auto).
  assert (B0 : b <> zero3) by (intros X; rewrite HB in X; destruct HA as [->| ->]; injection X; auto).
  assert (L : len3 b = len3 a) by (rewrite HB; unfold len3, dot3; cbn; f_equal; ring).
  rewrite ratio_unit, L, len3_sq by assumption. rewrite HB, W in *. assert (0 <= s * s) by apply Rle_0_sqr. 
  set (m := (k * D) * (k * D)). assert (M : m <> 0) by (unfold m; apply Rmult_integral_contrapositive; split; assumption).
  transitivity ((m * (1 - s * s)) / (m * (1 + s * s))); [|field; split; [lra|exact M]].
  destruct HA as [->| ->]; unfold dot3, m; cbn [cX cY cZ]; f_equal; ring.
Qed.
Lemma k_nz fd fl : fd <> 0 -> fl <> 0 -> fd <> fl -> fd <> 2 * fl -> 1 - fd / film_D fd fl <> 0.
Proof.
  intros A B C D K. apply D. apply film_D_fd; try assumption. assert (N := film_D_nz _ _ A B C).
  apply Rmult_eq_reg_r with (/ film_D fd fl); [|apply Rinv_neq_0_compat; exact N]. rewrite Rinv_r by exact N. unfold Rdiv in K. lra.
Qed.

(** the ray for film sample (x, y) through the lens centre, in camera space *)
Lemma centre_rays view_ fd' fov' fl' lr' ar' fd fov fl lr ar :
  built_affine view_ -> isR fd' fd -> isR fov' fov -> isR fl' fl -> isR lr' lr -> isR ar' ar -> fd <> 0 -> fl <> 0 -> fd <> fl -> fd <> 2 * fl -> ar <> 0 ->
  forall film fx fy lens, is2 film fx fy -> is2 lens (1/2) (1/2) ->
  exists r o' d' , generate_ray (thin_lens_new view_ fd' fov' fl' lr' ar') (mkCS film lens) = Ret r /\ isRay r o' d' x_max /\
    unmaps_pt view_ zero3 o' /\ unmaps_vec view_ (unit3 (focus_pt fd fl fov ar fx fy)) d'.
Proof.
  intros HV H1 H2 H3 H4 H5 N1 N2 N3 N4 N5 film fx fy lens HF HL.
  destruct (built_affine_pair _ HV) as (A & B & T1 & I & A1 & B1).
  assert (UP : forall a, unmaps_pt view_ a (app_pt B a)) by (intros a v Hv; destruct T1 as [_ M]; exact (map_point_affine _ _ _ _ M Hv B1)).
  assert (UV : forall a, unmaps_vec view_ a (app_vec B a)) by (intros a v Hv; destruct T1 as [_ M]; exact (map_vector_affine _ _ _ _ M Hv B1)).
  destruct conc_mid as [M1 M2].
  assert (L0 : lens_pt lr (1/2) (1/2) = zero3) by (unfold lens_pt; rewrite M1, M2; unfold zero3; f_equal; ring).
  assert (S0 : forall a, sub3 a zero3 = a) by (intros []; unfold sub3, zero3; cbn; f_equal; ring).
  assert (NZ : focus_pt fd fl fov ar fx fy <> zero3).
  { intros K. apply (f_equal cZ) in K. rewrite focus_z in K by assumption. unfold zero3 in K; cbn [cZ] in K. apply N4, film_D_fd; try assumption. lra. }
  assert (CR := cam_ray_value view_ _ _ _ _ _ _ _ _ _ _ film lens fx fy _ _ H1 H2 H3 H4 H5 N1 N2 N3 N5 HF HL). rewrite L0, S0 in CR. specialize (CR NZ).
  assert (T2 : isT (t_inverse view_) B A) by (apply isT_inverse; assumption).
  destruct (map_ray_ok (t_inverse view_) B A _ _ _ _ T2 B1 CR) as (r & E & H & _).
  exists r, (app_pt B zero3), (app_vec B (unit3 (focus_pt fd fl fov ar fx fy))).
  split; [rewrite gen_eq; rewrite <- E; destruct view_; reflexivity|]. split; [exact H|]. split; [apply UP|apply UV].
Qed.
Lemma fov_actual view_ fd' fov' fl' lr' ar' fd fov fl lr ar :
  built_affine view_ -> isR fd' fd -> isR fov' fov -> isR fl' fl -> isR lr' lr -> isR ar' ar -> fd <> 0 -> fl <> 0 -> fd <> fl -> fd <> 2 * fl -> ar <> 0 ->
  forall lens, is2 lens (1/2) (1/2) ->
  exists d_left d_right d_top d_bottom,
    (forall film x y d, ((x, y, d) = (0, 1/2, d_left) \/ (x, y, d) = (1, 1/2, d_right) \/ (x, y, d) = (1/2, 0, d_top) \/ (x, y, d) = (1/2, 1, d_bottom)) ->
       is2 film x y -> exists r o' d', generate_ray (thin_lens_new view_ fd' fov' fl' lr' ar') (mkCS film lens) = Ret r /\ isRay r o' d' x_max /\
         unmaps_pt view_ zero3 o' /\ unmaps_vec view_ d d') /\
    dot3 d_left d_right = cos (2 * atan (tan (fov / 2) / 4)) /\ dot3 d_top d_bottom = cos (2 * atan (tan (fov / 2) / (4 * ar))).
Proof.
  intros HV H1 H2 H3 H4 H5 N1 N2 N3 N4 N5 lens HL. set (Fp := fun x y => unit3 (focus_pt fd fl fov ar x y)).
  exists (Fp 0 (1/2)), (Fp 1 (1/2)), (Fp (1/2) 0), (Fp (1/2) 1). split.
  { assert (K := centre_rays view_ _ _ _ _ _ _ _ _ _ _ HV H1 H2 H3 H4 H5 N1 N2 N3 N4 N5).
    intros film x y d O HF. destruct O as [O|[O|[O|O]]]; injection O as -> -> ->; eapply K; assumption. }
  assert (D0 := film_D_nz _ _ N1 N2 N3). assert (K0 := k_nz _ _ N1 N2 N3 N4).
  unfold Fp, focus_pt, film_pt. cbv zeta. replace (fov * (1 / 2)) with (fov / 2) by field. set (k := 1 - _) in *. set (D := film_D fd fl) in *. set (T := tan (fov / 2)). clearbody k D T.
  split; eapply (edge_angle k _ D); try exact K0; try exact D0.
  - instantiate (1 := T / 4 * D). reflexivity.
  - left. unfold scl3; cbn. f_equal; field. exact N5.
  - unfold scl3; cbn. f_equal; field; exact N5.
  - instantiate (1 := T / (4 * ar) * D). reflexivity.
  - right. unfold scl3; cbn. f_equal; field. exact N5.
  - unfold scl3; cbn. f_equal; field; exact N5.
Qed.

Lemma fov_refuted : ~ (forall view_ fd' fov' fl' lr' ar' fd fov fl lr ar,
  built_affine view_ -> isR fd' fd -> isR fov' fov -> isR fl' fl -> isR lr' lr -> isR ar' ar -> 0 < fl -> 2 * fl < fd -> 0 < fov < PI -> 0 < lr -> 0 < ar ->
  forall lens film0 film1, is2 lens (1/2) (1/2) -> is2 film0 0 (1/2) -> is2 film1 1 (1/2) ->
  exists r0 r1 o0 o1 d0 d1 d0' d1',
    generate_ray (thin_lens_new view_ fd' fov' fl' lr' ar') (mkCS film0 lens) = Ret r0 /\ isRay r0 o0 d0' x_max /\ unmaps_vec view_ d0 d0' /\
    generate_ray (thin_lens_new view_ fd' fov' fl' lr' ar') (mkCS film1 lens) = Ret r1 /\ isRay r1 o1 d1' x_max /\ unmaps_vec view_ d1 d1' /\
    dot3 d0 d1 = cos fov).
Proof.
  intros C. assert (P := PI_RGT_0).
  destruct (C t_identity (xn 3) (xn (PI/2)) (xn 1) (xn 1) (xn 1) 3 (PI/2) 1 1 1 ba_identity (isR_xn _) (isR_xn _) (isR_xn _) (isR_xn _) (isR_xn _) ltac:(lra) ltac:(lra) ltac:(lra) ltac:(lra) ltac:(lra)
    (x2 (1/2) (1/2)) (x2 0 (1/2)) (x2 1 (1/2)) (is2_x2 _ _) (is2_x2 _ _) (is2_x2 _ _)) as (r0 & r1 & o0 & o1 & d0 & d1 & d0' & d1' & E0 & R0 & U0 & E1 & R1 & U1 & DD).
  destruct (fov_actual t_identity (xn 3) (xn (PI/2)) (xn 1) (xn 1) (xn 1) 3 (PI/2) 1 1 1 ba_identity (isR_xn _) (isR_xn _) (isR_xn _) (isR_xn _) (isR_xn _) ltac:(lra) ltac:(lra) ltac:(lra) ltac:(lra) ltac:(lra) _ (is2_x2 (1/2) (1/2)))
    as (dl & dr & dt & db & K & A & _).
  destruct (K (x2 0 (1/2)) 0 (1/2) dl (or_introl eq_refl) (is2_x2 _ _)) as (q0 & p0 & e0 & F0 & S0 & _ & V0).
  destruct (K (x2 1 (1/2)) 1 (1/2) dr (or_intror (or_introl eq_refl)) (is2_x2 _ _)) as (q1 & p1 & e1 & F1 & S1 & _ & V1).
  rewrite E0 in F0. injection F0 as <-. rewrite E1 in F1. injection F1 as <-.
  apply unmaps_id_vec in U0, U1, V0, V1. destruct R0 as (_ & R0 & _), R1 as (_ & R1 & _), S0 as (_ & S0 & _), S1 as (_ & S1 & _).
  assert (X0 := is3_inj _ _ _ R0 S0). assert (X1 := is3_inj _ _ _ R1 S1). subst d0' d1' e0 e1. subst dl dr.
  rewrite DD, cos_PI2 in A. replace (PI / 2 / 2) with (PI / 4) in A by field. rewrite tan_PI4, cos_2atan in A. lra.
Qed.

(** the sample camera, and a witness that its rays exist *)
Lemma C60_sample : built_affine t_identity /\ isR (xn 3) 3 /\ 3 <> 2 * 1 /\ is2 (x2 (1/3) (2/3)) (1/3) (2/3) /\
  exists r, generate_ray (thin_lens_new t_identity (xn 3) (xn (PI/2)) (xn 1) (xn 1) (xn 1)) (mkCS (x2 (1/3) (2/3)) (x2 0 (1/2))) = Ret r.
Proof.
  split; [apply ba_identity|]. split; [apply isR_xn|]. split; [lra|]. split; [apply is2_x2|].
  destruct (camera_rays t_identity (xn 3) (xn (PI/2)) (xn 1) (xn 1) (xn 1) 3 (PI/2) 1 1 1 (x2 (1/3) (2/3)) (1/3) (2/3) ba_identity (isR_xn _) (isR_xn _) (isR_xn _) (isR_xn _) (isR_xn _) ltac:(lra) ltac:(lra) ltac:(lra) ltac:(lra) ltac:(lra) (is2_x2 _ _))
    as (D & Q & Qw & _ & _ & _ & K).
  destruct (K (x2 0 (1/2)) 0 (1/2) (is2_x2 _ _) ltac:(lra) ltac:(lra)) as (r & _ & _ & _ & _ & _ & E & _). exists r; exact E.
Qed.
