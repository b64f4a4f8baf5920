(** Spheres with a full wedge wrapped in the identity transform. *)
From Coq Require Import ZArith Reals Bool Lra Lia.
From Coq Require Vector Fin.
From Flocq Require Import Core BinarySingleNaN Plus_error.
From Verif.Model Require Import FloatBase Scalar Float Interval Outcome Vec Transform XReal Geometry.
From Verif Require Import Spec SpecGeom SpecShape SpecTrig SpecFrame SpecSign.
From Verif.Proofs Require TransformFloat QuadFloat PrimProofs BoxFloat.
From Verif.Proofs Require Import BitsLemmas FloatLemmas ScalarProofs XRealLemmas SphereFloat FrameFloat IntervalTrig2 PiBounds FrameCases AreaFloat IdentityFloat IdentityBox.
Open Scope R_scope.

Section S.
Context {f : fmt} {m : libm f}.
Notation FT := (float f).

Lemma sim_add (a a' c c' : FT) : sim a a' -> sim c c' -> sim (fadd a c) (fadd a' c').
Proof.
  intros [->|(s & s' & -> & ->)] [->|(t & t' & -> & ->)].
  - left. reflexivity.
  - destruct a' as [sl|sl| |sl ml el Bl]; [|left; reflexivity|left; reflexivity|left; reflexivity]. right. destruct sl, t, t'; do 2 eexists; split; reflexivity.
  - destruct c' as [sl|sl| |sl ml el Bl]; [|left; reflexivity|left; reflexivity|left; reflexivity]. right. destruct sl, s, s'; do 2 eexists; split; reflexivity.
  - right. destruct s, s', t, t'; do 2 eexists; split; reflexivity.
Qed.
Lemma sim_mul (a a' c c' : FT) : sim a a' -> sim c c' -> sim (fmul a c) (fmul a' c').
Proof.
  intros [->|(s & s' & -> & ->)] [->|(t & t' & -> & ->)].
  - left. reflexivity.
  - destruct a' as [sl|sl| |sl ml el Bl]; [|left; reflexivity|left; reflexivity|]; right; do 2 eexists; split; reflexivity.
  - destruct c' as [sl|sl| |sl ml el Bl]; [|left; reflexivity|left; reflexivity|]; right; do 2 eexists; split; reflexivity.
  - right; do 2 eexists; split; reflexivity.
Qed.
Lemma sq_eq (a a' : FT) : sim a a' -> fmul a a = fmul a' a'.
Proof. intros [->|(s & s' & -> & ->)]; [reflexivity|]. destruct s, s'; reflexivity. Qed.
Lemma acc_eq (r a a' : FT) : r <> fzero true -> sim a a' -> fadd r a = fadd r a'.
Proof.
  intros N [->|(s & s' & -> & ->)]; [reflexivity|]. destruct r as [[|]|sl| |sl ml el Bl]; try reflexivity; [contradiction N; reflexivity|]. destruct s, s'; reflexivity.
Qed.
Lemma acc_pos (r a : FT) : r <> fzero true -> fadd r a <> fzero true.
Proof.
  intros N H. destruct (is_finite r) eqn:Fr; [destruct (is_finite a) eqn:Fa|].
  - pose proof (Bplus_correct (prec f) (emax f) _ _ mode_NE r a Fr Fa) as K. change (Bplus mode_NE r a) with (fadd r a) in K. rewrite H in K.
    destruct (Rlt_bool _ _); [|destruct K as [K _]; cbn in K; discriminate K].
    destruct K as (K1 & _ & K3). cbn [B2R fzero] in K1. cbn [Bsign fzero] in K3.
    assert (Z : B2R r + B2R a = 0).
    { destruct (Req_dec (B2R r + B2R a) 0) as [Z|NZ]; [exact Z|]. exfalso. symmetry in K1. revert K1.
      apply (round_plus_neq_0 radix2 (SpecFloat.fexp (prec f) (emax f)) (round_mode mode_NE)); [apply generic_format_B2R|apply generic_format_B2R|exact NZ]. }
    rewrite Z, Rcompare_Eq in K3 by reflexivity. symmetry in K3. apply andb_true_iff in K3. destruct K3 as [S1 S2].
    destruct r as [sr| | |sr mr er Br]; try discriminate Fr; cbn in S1; subst sr; [apply N; reflexivity|].
    destruct a as [sa| | |sa ma ea Ba]; try discriminate Fa; cbn in S2; subst sa.
    + discriminate H.
    + cbn [B2R] in Z. assert (P1 := F2R_lt_0 radix2 (Float radix2 (cond_Zopp true (Zpos mr)) er) ltac:(cbn; lia)). assert (P2 := F2R_lt_0 radix2 (Float radix2 (cond_Zopp true (Zpos ma)) ea) ltac:(cbn; lia)). lra.
  - destruct r as [sr|sr| |sr mr er Br]; try discriminate Fr; destruct a as [sa|sa| |sa ma ea Ba]; try discriminate Fa; discriminate H.
  - destruct r as [sr|sr| |sr mr er Br]; try discriminate Fr; destruct a as [sa|sa| |sa ma ea Ba]; try discriminate H. destruct sr, sa; discriminate H.
Qed.
Definition simv (v w : vec FT 3) : Prop := sim (vx v) (vx w) /\ sim (vy v) (vy w) /\ sim (vz v) (vz w).
Lemma norm_eq (v w : vec FT 3) : simv v w -> square_norm v = square_norm w.
Proof.
  intros (X & Y & Z). rewrite (vec3_eta v), (vec3_eta w).
  change (fadd (fadd (fadd (fzero false) (fmul (vx v) (vx v))) (fmul (vy v) (vy v))) (fmul (vz v) (vz v)) = fadd (fadd (fadd (fzero false) (fmul (vx w) (vx w))) (fmul (vy w) (vy w))) (fmul (vz w) (vz w))).
  rewrite (sq_eq _ _ X), (sq_eq _ _ Y), (sq_eq _ _ Z). reflexivity.
Qed.
Lemma dot_eq (o o' d d' : vec FT 3) : simv o o' -> simv d d' -> dot o d = dot o' d'.
Proof.
  intros (X & Y & Z) (X' & Y' & Z'). rewrite (vec3_eta o), (vec3_eta o'), (vec3_eta d), (vec3_eta d').
  change (fadd (fadd (fadd (fzero false) (fmul (vx o) (vx d))) (fmul (vy o) (vy d))) (fmul (vz o) (vz d)) = fadd (fadd (fadd (fzero false) (fmul (vx o') (vx d'))) (fmul (vy o') (vy d'))) (fmul (vz o') (vz d'))).
  assert (N0 : fzero false <> (fzero true : FT)) by discriminate.
  rewrite (acc_eq _ _ _ N0 (sim_mul _ _ _ _ X X')). assert (N1 := acc_pos _ (fmul (vx o') (vx d')) N0).
  rewrite (acc_eq _ _ _ N1 (sim_mul _ _ _ _ Y Y')). assert (N2 := acc_pos _ (fmul (vy o') (vy d')) N1).
  exact (acc_eq _ _ _ N2 (sim_mul _ _ _ _ Z Z')).
Qed.
Lemma range_sim (x y l h : FT) : sim x y -> in_range x l h = in_range y l h.
Proof. intros [->|(s & s' & -> & ->)]; [reflexivity|]. destruct l as [?|?| |[|] ? ? ?], h as [?|?| |[|] ? ? ?]; reflexivity. Qed.
Lemma found_sim (s : sphere FT) (r r' : ray FT) t : (forall y x, ~ flt (phi_max s) (m_atan2 m y x)) -> tmax r' = tmax r -> simv (origin r) (origin r') -> simv (direction r) (direction r') ->
  match s_get_intersection s r' t with Some _ => true | None => false end = match s_get_intersection s r t with Some _ => true | None => false end.
Proof.
  intros W T (_ & _ & OZ) (_ & _ & DZ).
  assert (K : forall y x, sgt (gatan2 y x) (phi_max s) = false). { intros y x. destruct (sgt (gatan2 y x) (phi_max s)) eqn:Q; [|reflexivity]. exfalso. apply sgt_spec in Q. exact (W y x Q). }
  assert (Z : in_range (vz (ray_eval r t)) (z_min s) (z_max s) = in_range (vz (ray_eval r' t)) (z_min s) (z_max s)).
  { apply range_sim. destruct r as [o d tm0], r' as [o' d' tm1]. cbn [origin direction] in *. rewrite (vec3_eta o), (vec3_eta o'), (vec3_eta d), (vec3_eta d').
    change (sim (fadd (vz o) (fmul (vz d) t)) (fadd (vz o') (fmul (vz d') t))). apply sim_add; [exact OZ|]. apply sim_mul; [exact DZ|left; reflexivity]. }
  unfold s_get_intersection. rewrite T. match goal with |- context [negb ?b] => destruct (negb b) end; [reflexivity|]. cbv zeta.
  match goal with |- context [negb ?b] => replace b with (in_range (vz (ray_eval r t)) (z_min s) (z_max s)) by exact Z end.
  match goal with |- _ = match (if ?b then _ else _) with _ => _ end => change b with (negb (in_range (vz (ray_eval r t)) (z_min s) (z_max s))) end.
  destruct (negb (in_range _ _ _)); [reflexivity|].
  match goal with |- match (if ?b then _ else _) with _ => _ end = match (if ?c then _ else _) with _ => _ end => replace b with false by (symmetry; apply K); replace c with false by (symmetry; apply K) end. reflexivity.
Qed.
Lemma sphere_sim (s : sphere FT) (r r' : ray FT) : (forall y x, ~ flt (phi_max s) (m_atan2 m y x)) -> tmax r' = tmax r -> simv (origin r) (origin r') -> simv (direction r) (direction r') ->
  s_do_intersect s r' = s_do_intersect s r.
Proof.
  intros W T O D. assert (Q0 := norm_eq _ _ D). assert (Q1 := dot_eq _ _ _ _ O D). assert (Q2 := norm_eq _ _ O).
  assert (FS := fun t => found_sim s r r' t W T O D).
  set (Q := fun r : ray FT => solve_quadratic (square_norm (direction r)) (smul (dot (origin r) (direction r)) (from_i64 2)) (ssub (square_norm (origin r)) (ssquare (radius s)))).
  assert (SQ : Q r' = Q r) by (unfold Q; rewrite Q0, Q1, Q2; reflexivity).
  unfold s_do_intersect, s_intersect_ray. cbv zeta. match goal with |- match match ?q with _ => _ end with _ => _ end = match match ?q' with _ => _ end with _ => _ end => replace q with (Q r) by (symmetry; exact SQ); change q' with (Q r) end.
  destruct (Q r) as [[t0 t1]|]; [|reflexivity].
  assert (A := FS t0). assert (B := FS t1). destruct (s_get_intersection s r' t0), (s_get_intersection s r t0); try discriminate A; [reflexivity|exact B].
Qed.
(** mapping keeps the relation; a fourth coordinate that is a zero makes both calls panic *)
Definition simr (r r' : ray FT) : Prop := tmax r' = tmax r /\ simv (origin r) (origin r') /\ simv (direction r) (direction r').
Definition simo {A} (P : A -> A -> Prop) (x y : outcome A) : Prop := match x, y with Ret a, Ret b => P a b | Panic, Panic => True | _, _ => False end.
Lemma row_sim (v v' : vec FT 3) (a b c : FT) : simv v v' -> sim (fadd (fadd (fmul (vx v) a) (fmul (vy v) b)) (fmul (vz v) c)) (fadd (fadd (fmul (vx v') a) (fmul (vy v') b)) (fmul (vz v') c)).
Proof. intros (X & Y & Z). apply sim_add; [apply sim_add|]; apply sim_mul; try assumption; left; reflexivity. Qed.
Lemma eqb_sim (x y : FT) : sim x y -> feqb x (fzero false) = feqb y (fzero false).
Proof. intros [->|(s & s' & -> & ->)]; reflexivity. Qed.
Lemma vec_sim (M : matrix FT) (v v' : vec FT 3) : simv v v' -> simo simv (map_vector M v) (map_vector M v').
Proof.
  intros S. assert (Q := eqb_sim _ _ (row_sim v v' (mget M i3 i0) (mget M i3 i1) (mget M i3 i2) S)).
  set (R := fun (v : vec FT 3) i => fadd (fadd (fmul (vx v) (mget M i i0)) (fmul (vy v) (mget M i i1))) (fmul (vz v) (mget M i i2))).
  change (simo simv (oassert (feqb (R v i3) (fzero false)) (Ret (vec3 (R v i0) (R v i1) (R v i2)))) (oassert (feqb (R v' i3) (fzero false)) (Ret (vec3 (R v' i0) (R v' i1) (R v' i2))))).
  change (feqb (R v i3) (fzero false) = feqb (R v' i3) (fzero false)) in Q. rewrite Q. destruct (feqb (R v' i3) (fzero false)); [|exact I].
  cbn [oassert simo]. split; [|split]; apply row_sim; exact S.
Qed.
Lemma point_sim (M : matrix FT) (v v' : vec FT 3) : simv v v' -> simo simv (map_point M v) (map_point M v').
Proof.
  intros S.
  set (R := fun (v : vec FT 3) i => fadd (fadd (fadd (fmul (vx v) (mget M i i0)) (fmul (vy v) (mget M i i1))) (fmul (vz v) (mget M i i2))) (mget M i i3)).
  assert (K : forall i, sim (R v i) (R v' i)) by (intros i; apply sim_add; [apply row_sim; exact S|left; reflexivity]).
  change (simo simv (oassert (negb (feqb (R v i3) (fzero false))) (Ret (vec3 (fdiv (R v i0) (R v i3)) (fdiv (R v i1) (R v i3)) (fdiv (R v i2) (R v i3)))))
    (oassert (negb (feqb (R v' i3) (fzero false))) (Ret (vec3 (fdiv (R v' i0) (R v' i3)) (fdiv (R v' i1) (R v' i3)) (fdiv (R v' i2) (R v' i3)))))).
  destruct (K i3) as [Q|(s & s' & Q & Q')]; [|rewrite Q, Q'; exact I]. rewrite Q. destruct (feqb (R v' i3) (fzero false)); [exact I|].
  cbn [negb oassert simo]. split; [|split]; apply sim_div; apply K.
Qed.
Lemma ray_sim (t : transform FT) (r r' : ray FT) : simr r r' -> simo simr (t_map_ray_inverse t r) (t_map_ray_inverse t r').
Proof.
  intros (T & O & D). assert (P := point_sim (tminv t) _ _ O). assert (V := vec_sim (tminv t) _ _ D).
  change (map_point (tminv t)) with (t_map_point_inverse t) in P. change (map_vector (tminv t)) with (t_map_vector_inverse t) in V. unfold t_map_ray_inverse.
  destruct (t_map_point_inverse t (origin r)) as [o|], (t_map_point_inverse t (origin r')) as [o'|]; try contradiction P; [|exact I]. cbn [obind].
  destruct (t_map_vector_inverse t (direction r)) as [d|], (t_map_vector_inverse t (direction r')) as [d'|]; try contradiction V; [|exact I]. cbn [obind simo].
  split; [exact T|]. split; assumption.
Qed.
Lemma map_tmax (t : transform FT) (r r1 : ray FT) : t_map_ray_inverse t r = Ret r1 -> tmax r1 = tmax r.
Proof.
  unfold t_map_ray_inverse. destruct (t_map_point_inverse t (origin r)); [|discriminate]. cbn [obind]. destruct (t_map_vector_inverse t (direction r)); [|discriminate]. cbn [obind]. intros H. injection H as <-. reflexivity.
Qed.
Lemma scene_sim (p : prim FT) : full_scene p -> forall r r', finite (tmax r) -> simr r r' -> p_do_intersect p r' = p_do_intersect p r.
Proof.
  induction p as [b|s|q t IH|ps IH|b d h] using PrimProofs.prim_ind'; intros W r r' F S.
  - cbn [p_do_intersect]. f_equal. destruct S as (T & (X & Y & Z) & (X' & Y' & Z')). apply box_sim; [exact F|exact T| |]; refine (proj2 (BoxFloat.forall3 _) _); (split; [|split]); assumption.
  - cbn [p_do_intersect]. f_equal. destruct S as (T & O & D). apply sphere_sim; assumption.
  - assert (K := ray_sim t r r' S). cbn [p_do_intersect].
    match goal with |- obind ?a _ = obind ?b _ => change b with (t_map_ray_inverse t r); change a with (t_map_ray_inverse t r') end.
    destruct (t_map_ray_inverse t r) as [r1|] eqn:Q, (t_map_ray_inverse t r') as [r1'|]; try contradiction K; [|reflexivity]. cbn [obind]. apply IH; [exact W| |exact K]. rewrite (map_tmax t r r1 Q). exact F.
  - rewrite !PrimProofs.list_do_eq. induction IH as [|q ps' H _ IHl]; [reflexivity|]. cbn in W. destruct W as [W1 W2]. cbn [PrimProofs.go]. rewrite (H W1 r r' F S). destruct (p_do_intersect q r) as [[|]|]; [reflexivity| |reflexivity]. cbn [obind]. exact (IHl W2).
  - contradiction W.
Qed.
Theorem identity_scene (p : prim FT) (r : ray FT) : full_scene p -> ray_finite r -> p_do_intersect (PTransformed p t_identity) r = p_do_intersect p r.
Proof.
  intros W (F1 & F2 & F3). destruct (proj1 (TransformFloat.identity_map (origin r) F1)) as (o & O1 & O2). destruct (proj2 (TransformFloat.identity_map (direction r) F2)) as (d & D1 & D2).
  change (t_map_point_inverse t_identity (origin r) = Ret o) in O1. change (t_map_vector_inverse t_identity (direction r) = Ret d) in D1.
  assert (K : t_map_ray_inverse t_identity r = Ret (mkRay o d (tmax r))). { unfold t_map_ray_inverse. rewrite O1. cbn [obind]. rewrite D1. reflexivity. }
  cbn [p_do_intersect]. match goal with |- obind ?q _ = _ => replace q with (Ret (mkRay o d (tmax r))) by (symmetry; exact K) end. cbn [obind].
  assert (C : forall (v w : vec FT 3), feqv w v -> fall finite v -> simv v w). { intros v w Q F. split; [|split]; apply feq_sim; try apply Q; apply F. }
  apply scene_sim; [exact W|exact F3|]. split; [reflexivity|]. split; apply C; assumption.
Qed.
End S.
(** a library and a ball for which no azimuth is cut off *)
Lemma full_sample f : let m := frame_libm f in exists s : sphere (float f), ball5 f = Ret s /\ full_scene (PList (PTransformed (PSphere s) (translate (vec3 (f_of_Z 7) (f_of_Z 0) (f_of_Z 0))) :: PSphere s :: nil)) /\ ray_finite (zray f) /\ ~ no_neg_zero (origin (zray f)).
Proof.
  cbv zeta. set (m := frame_libm f). assert (L : flt (f_of_Z (-5) : float f) (f_of_Z 5)) by (apply slt_spec; destruct f; vm_compute; reflexivity).
  destruct (proj1 (s_new_float (m := m) (f_of_Z 5) (f_of_Z (-5)) (f_of_Z 5) (f_of_Z 6 : float f)) L) as (s & S0 & S1 & S2 & S3 & S4).
  exists s. split; [exact S0|]. split; [|split; [apply zray_finite|intros H; exact (H (Fin.FS Fin.F1) eq_refl)]].
  assert (W : forall y x, ~ flt (phi_max s) (m_atan2 m y x)); [|cbn; auto].
  assert (P : (1024 <= 2 ^ prec f)%Z) by (destruct f; vm_compute; discriminate). destruct (f_of_Z_exact (f := f) 6 ltac:(lia)) as [F6 V6].
  intros y x. rewrite S4. change (m_atan2 m y x) with (nearest f (angle_of (B2R x) (B2R y))).
  assert (A : Rabs (angle_of (B2R x) (B2R y)) <= 4). { assert (PU := PI_upper_bound). unfold angle_of. cbv zeta. match goal with |- context [acos ?t] => assert (B := acos_bound t) end. apply Rabs_le. destruct (Rle_dec 0 (B2R y)); lra. }
  destruct (wulp4 (f := f) (m := m) _ _ 4 (nearest_ulp f _ A) A ltac:(lra)) as [F D]. assert (U := @QuadFloat.u_q f m). apply Rabs_le_inv in A, D.
  intros H. apply flt_E in H. destruct H as (_ & _ & H). rewrite !E_B2R in H by assumption. rewrite V6 in H. lra.
Qed.
