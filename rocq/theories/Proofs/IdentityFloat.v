(** Wrapping a primitive in the identity transform. *)
From Coq Require Import ZArith Reals Bool List Lra Lia.
From Coq Require Vector Fin.
From Flocq Require Import Core BinarySingleNaN.
From Verif.Model Require Import FloatBase Scalar Float Interval Outcome Vec Transform XReal Geometry.
From Verif Require Import Spec SpecGeom SpecShape SpecTrig SpecFrame SpecSign.
From Verif.Proofs Require QuadFloat MapBack BoxFloat TransformFloat.
From Verif.Proofs Require Import BitsLemmas FloatLemmas ScalarProofs XRealLemmas TransformCases SphereFloat FrameFloat IntervalTrig2 PiBounds TrigTight FrameHit FrameCases AreaFloat.
Open Scope R_scope.

Definition zray (f : fmt) : ray (float f) := mkRay (vec3 (f_of_Z (-10)) (fzero true) (fzero false)) (vec3 (f_of_Z 1) (fzero true) (fzero false)) (f_of_Z 10).
Definition wedge5 (f : fmt) {m : libm f} : outcome (sphere (float f)) := s_new (f_of_Z 5) (f_of_Z (-5)) (f_of_Z 5) (f_of_Z 1).
Definition is_zero_of {f} (s : bool) (x : float f) : bool := match x with B754_zero s' => Bool.eqb s s' | _ => false end.
Definition probe (f : fmt) {m : libm f} (s : bool) (r : ray (float f)) : bool :=
  match solve_quadratic (square_norm (direction r)) (smul (dot (origin r) (direction r)) (from_i64 2)) (ssub (square_norm (origin r)) (ssquare (f_of_Z 5))) with
  | Some (t0, t1) => in_range t0 (fzero false) (tmax r) && in_range (vz (ray_eval r t0)) (f_of_Z (-5)) (f_of_Z 5) && is_zero_of s (vy (ray_eval r t0)) &&
      seqb (f_of_Z (-5)) (vx (ray_eval r t0)) && negb (in_range t1 (fzero false) (tmax r))
  | None => false end.
Lemma probe_ray f (m : libm f) : probe f true (zray f) = true.
Proof. destruct f; vm_compute; reflexivity. Qed.
Lemma probe_mapped f (m : libm f) : match t_map_ray_inverse t_identity (zray f) with Ret r => probe f false r | Panic => false end = true.
Proof. destruct f; vm_compute; reflexivity. Qed.
Lemma probe_hit f (m : libm f) sg r s : signed_atan2 m -> wedge5 f = Ret s -> probe f sg r = true -> s_do_intersect s r = sg.
Proof.
  intros GT HS HP. assert (L : flt (f_of_Z (-5) : float f) (f_of_Z 5)) by (apply slt_spec; destruct f; vm_compute; reflexivity).
  destruct (proj1 (s_new_float (f_of_Z 5) (f_of_Z (-5)) (f_of_Z 5) (f_of_Z 1 : float f)) L) as (s' & S0 & S1 & S2 & S3 & S4). unfold wedge5 in HS. rewrite S0 in HS. injection HS as <-.
  assert (GZ : forall k, (Z.abs k <= 1024)%Z -> finite (f_of_Z k : float f) /\ B2R (f_of_Z k : float f) = IZR k).
  { intros k2 K. assert (P : (1024 <= 2 ^ prec f)%Z) by (destruct f; vm_compute; discriminate). apply f_of_Z_exact. lia. }
  destruct (GZ (-5)%Z ltac:(cbn; lia)) as [F5 V5]. destruct (GZ 1%Z ltac:(cbn; lia)) as [F1 V1].
  unfold probe in HP. destruct (solve_quadratic _ _ _) as [[t0 t1]|] eqn:Q; [|discriminate HP].
  rewrite !andb_true_iff in HP. destruct HP as ((((M0 & M1) & MY) & MX) & MT). apply negb_true_iff in MT.
  set (p := ray_eval r t0) in *. apply seqb_spec in MX. destruct (MapBack.feq_val (f_of_Z (-5)) (vx p) MX F5) as [FX EX]. rewrite V5 in EX.
  assert (YZ : vy p = fzero sg). { destruct (vy p) as [y| | |]; try discriminate MY. cbn in MY. apply eqb_prop in MY. subst. reflexivity. }
  destruct (GT (vx p) FX ltac:(lra)) as [[A1 A2] [B1 B2]].
  assert (NP : sgt (gatan2 (vy p) (vx p)) (phi_max s') = negb sg).
  { rewrite S4, YZ. change (gatan2 (fzero sg) (vx p)) with (m_atan2 m (fzero sg) (vx p)). change (sgt (m_atan2 m (fzero sg) (vx p)) (f_of_Z 1)) with (gt_of fcmp (m_atan2 m (fzero sg) (vx p)) (f_of_Z 1)). destruct sg; rewrite gt_b by (apply nonnan_of_finite; assumption); rewrite !E_B2R by assumption; rewrite V1; [apply Rlt_bool_false|apply Rlt_bool_true]; lra. }
  assert (G1 : s_get_intersection s' r t1 = None). { unfold s_get_intersection. match goal with |- context [negb ?b] => replace b with false by (symmetry; exact MT) end. reflexivity. }
  assert (GI : s_get_intersection s' r t0 = if sg then Some (mkSP t0 p (gatan2 (vy p) (vx p))) else None).
  { unfold s_get_intersection. rewrite <- S2, <- S3 in M1. match goal with |- context [negb ?b] => replace b with true by (symmetry; exact M0) end. cbn [negb]. cbv zeta. fold p. match goal with |- context [negb ?b] => replace b with true by (symmetry; exact M1) end. cbn [negb]. match goal with |- (if ?b then _ else _) = _ => replace b with (negb sg) by (symmetry; exact NP) end. destruct sg; reflexivity. }
  unfold s_do_intersect, s_intersect_ray. rewrite S1. match goal with |- match match ?q with _ => _ end with _ => _ end = _ => replace q with (Some (t0, t1)) by (symmetry; exact Q) end. rewrite GI, G1. destruct sg; reflexivity.
Qed.
Lemma zray_finite f : ray_finite (zray f).
Proof. split; [|split]; [refine (proj2 (BoxFloat.forall3 _) _)|refine (proj2 (BoxFloat.forall3 _) _)|]; destruct f; try (split; [|split]); vm_compute; reflexivity. Qed.
Theorem identity_refuted f (m : libm f) : signed_atan2 m -> ~ (forall (p : prim (float f)) r, ray_finite r -> p_do_intersect (PTransformed p t_identity) r = p_do_intersect p r).
Proof.
  intros GT H. assert (L : flt (f_of_Z (-5) : float f) (f_of_Z 5)) by (apply slt_spec; destruct f; vm_compute; reflexivity).
  destruct (proj1 (s_new_float (f_of_Z 5) (f_of_Z (-5)) (f_of_Z 5) (f_of_Z 1 : float f)) L) as (s & S0 & _).
  specialize (H (PSphere s) (zray f) (zray_finite f)). cbn [p_do_intersect] in H. rewrite (probe_hit f m true (zray f) s GT S0 (probe_ray f m)) in H.
  assert (M := probe_mapped f m). destruct (t_map_ray_inverse t_identity (zray f)) as [r'|] eqn:Q; [|discriminate M]. cbn [obind] in H. rewrite (probe_hit f m false r' s GT S0 M) in H. discriminate H.
Qed.
(** a library that follows the rule *)
Definition signed_libm (f : fmt) : libm f := {|
  m_sin := m_sin (frame_libm f); m_cos := m_cos (frame_libm f); m_tan := m_tan (frame_libm f); m_asin := m_asin (frame_libm f); m_acos := m_acos (frame_libm f); m_atan := m_atan (frame_libm f);
  m_atan2 := fun y x => match y with B754_zero true => if Rlt_dec (B2R x) 0 then nearest f (- PI) else m_atan2 (frame_libm f) y x | _ => m_atan2 (frame_libm f) y x end |}.
Lemma near_pi f (sg : R) : (sg = 1 \/ sg = -1) -> finite (nearest f (sg * PI)) /\ Rabs (B2R (nearest f (sg * PI)) - sg * PI) <= / 1000.
Proof.
  intros S. assert (PU := PI_upper_bound). assert (P0 := PI_RGT_0). assert (A : Rabs (sg * PI) <= 4) by (apply Rabs_le; destruct S; subst; lra).
  destruct (wulp4 (f:=f) (m:=frame_libm f) (nearest f (sg * PI)) (sg * PI) 4 (nearest_ulp f (sg * PI) A) A ltac:(lra)) as [F D]. split; [exact F|].
  assert (U := @QuadFloat.u_q f (frame_libm f)). lra.
Qed.
Lemma signed_meets f : signed_atan2 (signed_libm f) /\ good_atan2 (signed_libm f).
Proof.
  assert (PL := PI_lower_bound).
  split.
  - intros x FX NX. assert (A0 : angle_of (B2R x) 0 = PI).
    { unfold angle_of. cbv zeta. destruct (Rle_dec 0 0) as [_|N]; [|lra]. replace (B2R x * B2R x + 0 * 0) with ((- B2R x) * (- B2R x)) by ring. rewrite sqrt_square by lra. replace (B2R x / - B2R x) with (- (1)) by (field; lra). rewrite acos_opp, acos_1. ring. }
    destruct (near_pi f 1 (or_introl eq_refl)) as [F1 D1]. destruct (near_pi f (-1) (or_intror eq_refl)) as [F2 D2]. replace (1 * PI) with PI in * by ring. replace (-1 * PI) with (- PI) in * by ring.
    apply Rabs_le_inv in D1, D2. cbn. destruct (Rlt_dec (B2R x) 0) as [_|N]; [|lra]. rewrite A0. repeat apply conj; [exact F2|lra|exact F1|lra].
  - intros y x FY FX NZ. assert (G := proj2 (proj2 (frame_libm_good f)) y x FY FX NZ). cbn [m_atan2 signed_libm]. destruct y as [[|]| | |]; try exact G.
    destruct (Rlt_dec (B2R x) 0) as [NX|_]; [|exact G]. exists (- PI), (- B2R x). assert (PU := PI_upper_bound). rewrite cos_neg, sin_neg, cos_PI, sin_PI. cbn [B2R]. split; [lra|]. split; [lra|]. split; [lra|]. split; [lra|]. apply nearest_ulp. apply Rabs_le. lra.
Qed.
(** rays without negative zeros come back bit for bit *)
Definition zero_kept {f} (q : outcome (vec (float f) 3)) (i : Fin.t 3) : bool := match q with Ret v => is_zero_of false (Vector.nth v i) | Panic => false end.
Ltac kept_cases := intros f m x y FX FY; (destruct x as [sx|sx| |sx mx ex hx]; [| discriminate FX|discriminate FX|]); (destruct y as [sy|sy| |sy my ey hy]; [| discriminate FY|discriminate FY|]); destruct f, sx, sy; lazy; reflexivity.
Lemma kp0 : forall f (m : libm f) (x y : float f), finite x -> finite y -> zero_kept (t_map_point_inverse t_identity (vec3 (fzero false) x y)) Fin.F1 = true. Proof. kept_cases. Qed.
Lemma kp1 : forall f (m : libm f) (x y : float f), finite x -> finite y -> zero_kept (t_map_point_inverse t_identity (vec3 x (fzero false) y)) (Fin.FS Fin.F1) = true. Proof. kept_cases. Qed.
Lemma kp2 : forall f (m : libm f) (x y : float f), finite x -> finite y -> zero_kept (t_map_point_inverse t_identity (vec3 x y (fzero false))) (Fin.FS (Fin.FS Fin.F1)) = true. Proof. kept_cases. Qed.
Lemma kv0 : forall f (m : libm f) (x y : float f), finite x -> finite y -> zero_kept (t_map_vector_inverse t_identity (vec3 (fzero false) x y)) Fin.F1 = true. Proof. kept_cases. Qed.
Lemma kv1 : forall f (m : libm f) (x y : float f), finite x -> finite y -> zero_kept (t_map_vector_inverse t_identity (vec3 x (fzero false) y)) (Fin.FS Fin.F1) = true. Proof. kept_cases. Qed.
Lemma kv2 : forall f (m : libm f) (x y : float f), finite x -> finite y -> zero_kept (t_map_vector_inverse t_identity (vec3 x y (fzero false))) (Fin.FS (Fin.FS Fin.F1)) = true. Proof. kept_cases. Qed.
Lemma same_float {f} (x y : float f) : feq x y -> finite y -> (y = fzero false -> is_zero_of false x = true) -> y <> fzero true -> x = y.
Proof.
  intros Q F Z N. assert (FX : finite x). { apply feq_E in Q. destruct Q as (NX & _ & H). assert (R := finite_E_range y F). rewrite <- H in R. exact (finite_of_range x NX R). }
  destruct (MapBack.feq_val x y Q FX) as [_ V]. destruct y as [[|]|s| |s mm e B].
  - contradiction N. reflexivity.
  - specialize (Z eq_refl). destruct x as [[|]|s| |s mm e B]; try discriminate Z. reflexivity.
  - discriminate F.
  - discriminate F.
  - apply B2R_inj; [|reflexivity|congruence]. destruct x as [s'|s'| |s' mm' e' B']; try discriminate FX; [|reflexivity]. exfalso. cbn in V. assert (H := F2R_neq_0 radix2 (Float radix2 (cond_Zopp s (Zpos mm)) e)). destruct s; apply H; try discriminate; congruence.
Qed.
Lemma same_vec {f} (q p : vec (float f) 3) : feqv q p -> fall finite p -> no_neg_zero p -> (forall i, Vector.nth p i = fzero false -> is_zero_of false (Vector.nth q i) = true) -> q = p.
Proof. intros Q F N Z. apply Vector.eq_nth_iff. intros i j <-. apply same_float; [apply Q|apply F|apply Z|apply N]. Qed.
Lemma kept_point f (m : libm f) (p : vec (float f) 3) : fall finite p -> no_neg_zero p -> t_map_point_inverse t_identity p = Ret p.
Proof.
  intros F N. destruct (proj1 (TransformFloat.identity_map p F)) as (q & Q1 & Q2). change (t_map_point_inverse t_identity p = Ret q) in Q1. rewrite Q1. f_equal. apply same_vec; [exact Q2|exact F|exact N|].
  assert (K : forall i, Vector.nth p i = fzero false -> zero_kept (t_map_point_inverse t_identity p) i = true); [|intros i H; specialize (K i H); rewrite Q1 in K; exact K].
  clear N q Q1 Q2. rewrite (vec3_eta p) in F |- *. revert F. generalize (vx p) (vy p) (vz p). intros x y z F. apply (proj1 (BoxFloat.forall3 _)) in F. destruct F as (FX & FY & FZ). cbn in FX, FY, FZ.
  refine (proj2 (BoxFloat.forall3 _) _). split; [|split]; intros H.
  - change (x = fzero false) in H. subst x. now apply kp0.
  - change (y = fzero false) in H. subst y. now apply kp1.
  - change (z = fzero false) in H. subst z. now apply kp2.
Qed.
Lemma kept_vector f (m : libm f) (p : vec (float f) 3) : fall finite p -> no_neg_zero p -> t_map_vector_inverse t_identity p = Ret p.
Proof.
  intros F N. destruct (proj2 (TransformFloat.identity_map p F)) as (q & Q1 & Q2). change (t_map_vector_inverse t_identity p = Ret q) in Q1. rewrite Q1. f_equal. apply same_vec; [exact Q2|exact F|exact N|].
  assert (K : forall i, Vector.nth p i = fzero false -> zero_kept (t_map_vector_inverse t_identity p) i = true); [|intros i H; specialize (K i H); rewrite Q1 in K; exact K].
  clear N q Q1 Q2. rewrite (vec3_eta p) in F |- *. revert F. generalize (vx p) (vy p) (vz p). intros x y z F. apply (proj1 (BoxFloat.forall3 _)) in F. destruct F as (FX & FY & FZ). cbn in FX, FY, FZ.
  refine (proj2 (BoxFloat.forall3 _) _). split; [|split]; intros H.
  - change (x = fzero false) in H. subst x. now apply kv0.
  - change (y = fzero false) in H. subst y. now apply kv1.
  - change (z = fzero false) in H. subst z. now apply kv2.
Qed.
Theorem identity_kept f (m : libm f) (p : prim (float f)) (r : ray (float f)) : fall finite (origin r) -> fall finite (direction r) -> no_neg_zero (origin r) -> no_neg_zero (direction r) ->
  p_do_intersect (PTransformed p t_identity) r = p_do_intersect p r /\ p_intersect (PTransformed p t_identity) r = p_intersect p r.
Proof.
  intros F1 F2 N1 N2. assert (K : t_map_ray_inverse t_identity r = Ret r). { unfold t_map_ray_inverse. rewrite kept_point, kept_vector by assumption. destruct r; reflexivity. }
  cbn [p_do_intersect p_intersect]. split.
  - match goal with |- obind ?q _ = _ => replace q with (Ret r) by (symmetry; exact K) end. reflexivity.
  - match goal with |- obind ?q _ = _ => replace q with (Ret r) by (symmetry; exact K) end. reflexivity.
Qed.
Definition clean_ray (f : fmt) : ray (float f) := mkRay (vec3 (f_of_Z (-10)) (fzero false) (f_of_Z 2)) (vec3 (f_of_Z 1) (fzero false) (f_of_Z (-1))) (f_of_Z 100).
Lemma not_neg_zero {f} (x : float f) : is_zero_of true x = false -> x <> fzero true.
Proof. intros H ->. discriminate H. Qed.
Lemma clean_sample f : ray_finite (clean_ray f) /\ no_neg_zero (origin (clean_ray f)) /\ no_neg_zero (direction (clean_ray f)).
Proof.
  split; [split; [|split]; [refine (proj2 (BoxFloat.forall3 _) _)|refine (proj2 (BoxFloat.forall3 _) _)|]; destruct f; try (split; [|split]); vm_compute; reflexivity|].
  split; refine (proj2 (BoxFloat.forall3 _) _); destruct f; (split; [|split]); apply not_neg_zero; vm_compute; reflexivity.
Qed.
Lemma box_sample f (m : libm f) : ray_finite (zray f) /\ ~ no_neg_zero (origin (zray f)) /\
  p_do_intersect (PBox (mkB (vec3 (f_of_Z (-5)) (f_of_Z (-5)) (f_of_Z (-5))) (vec3 (f_of_Z 5) (f_of_Z 5) (f_of_Z 5)))) (zray f) = Ret true.
Proof.
  split; [apply zray_finite|]. split; [intros H; exact (H (Fin.FS Fin.F1) eq_refl)|].
  cbn [p_do_intersect]. f_equal. destruct f; vm_compute; reflexivity.
Qed.
