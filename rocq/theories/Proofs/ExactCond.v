(** Exact conditions: midpoints of intervals, centres of boxes, normals at the poles, boxes of spheres. *)
From Coq Require Import ZArith Reals Bool Lra Lia.
From Coq Require Vector Fin.
From Flocq Require Import Core BinarySingleNaN.
From Verif.Model Require Import FloatBase Scalar Float Interval Outcome Vec Transform XReal Geometry.
From Verif Require Import Spec SpecGeom SpecShape SpecQuad.
From Verif.Proofs Require Import BitsLemmas FloatLemmas ScalarProofs IntervalProofs2 TransformCases BoxFloat SphereFloat SphereSeen.
Open Scope R_scope.
Notation "v @ i" := (Vector.nth v i) (at level 20, only parsing).

Section S.
Context {f : fmt} {m : libm f}.
Notation FT := (float f).

Lemma half_finite (x : FT) : finite (fmul x (f_half f)) -> finite x.
Proof. destruct x as [s|s| |s mm e H]; try (intros _; reflexivity); destruct f; try destruct s; intros X; vm_compute in X; discriminate X. Qed.
Lemma sum_range (x y : FT) : finite x -> finite y -> finite (fadd x y) -> Rabs (rndf f (B2R x + B2R y)) < bpow radix2 (emax f).
Proof.
  intros Fx Fy Fs. destruct (fadd_Rnd x y Fx Fy) as [_ Es]. rewrite (E_B2R _ Fs) in Es. assert (L := abs_B2R_lt_emax _ _ (fadd x y)).
  rewrite Es in L. unfold clampE in L. set (t := bpow radix2 (emax f)) in *. change (Rabs (Rmax (- t) (Rmin t (rndf f (B2R x + B2R y)))) < t) in L. set (v := rndf f (B2R x + B2R y)) in *.
  assert (T0 : 0 < t) by apply bpow_gt_0. apply Rabs_lt_inv in L.
  unfold Rmax, Rmin in L. destruct (Rle_dec t v); destruct (Rle_dec (- t) _); apply Rabs_lt; lra.
Qed.
Lemma approx_iff (a : interval FT) : bounded a -> ordered a ->
  (finite (i_approx a) /\ mem (B2R (i_approx a)) a <-> Rabs (rndf f (B2R (inf a) + B2R (sup a))) < bpow radix2 (emax f)).
Proof.
  intros B O. split; [|apply approx_in; assumption]. intros [F _]. destruct B as [F1 F2]. apply sum_range; try assumption.
  change (i_approx a) with (fmul (fadd (inf a) (sup a)) (f_half f)) in F. exact (half_finite _ F).
Qed.
Lemma center_iff (b : bbox FT) : box_finite b -> box_ordered b ->
  (b_inside b (b_center b) = true <-> forall i, Rabs (rndf f (B2R (pmax b @ i) + B2R (pmin b @ i))) < bpow radix2 (emax f)).
Proof.
  intros F O. split.
  - intros H i. apply inside_spec in H. destruct (F i) as [F1 F2]. apply sum_range; try assumption. specialize (H i). rewrite center_at in H.
    destruct H as [H1 H2]. apply half_finite. change (fmul (fadd (pmax b @ i) (pmin b @ i)) (f_half f)) with (fmul (fadd (pmax b @ i) (pmin b @ i)) half) in *.
    apply fle_E in H1, H2. destruct H1 as (_ & N & H1). destruct H2 as (_ & _ & H2). rewrite (E_B2R _ F1) in H1. rewrite (E_B2R _ F2) in H2.
    change (finite (fmul (fadd (pmax b @ i) (pmin b @ i)) half)). apply finite_of_range; [exact N|].
    assert (L1 := abs_B2R_lt_emax _ _ (pmax b @ i)). assert (L2 := abs_B2R_lt_emax _ _ (pmin b @ i)). apply Rabs_lt_inv in L1. apply Rabs_lt_inv in L2. lra.
  - intros H. apply center_ok; try assumption. intros i. destruct (F i) as [F1 F2]. destruct (fadd_Rnd _ _ F2 F1) as [N Es].
    specialize (H i). apply Rabs_lt_inv in H. apply finite_of_range; [exact N|]. rewrite Es. rewrite clampE_range; [exact H|]. lra.
Qed.

(** zero or NaN *)
Definition zn (x : FT) : Prop := match x with B754_zero _ | B754_nan => True | _ => False end.
Lemma zn_mul_l x y : zn x -> zn (fmul x y). Proof. destruct x, y; cbn; tauto. Qed.
Lemma zn_mul_r x y : zn y -> zn (fmul x y). Proof. destruct x, y; cbn; tauto. Qed.
Lemma zn_add x y : zn x -> zn y -> zn (fadd x y). Proof. destruct x as [[]| | |], y as [[]| | |]; cbn; tauto. Qed.
Lemma zn_sub x y : zn x -> zn y -> zn (fsub x y). Proof. destruct x as [[]| | |], y as [[]| | |]; cbn; tauto. Qed.
Lemma zn_neg x : zn x -> zn (fneg x). Proof. destruct x; cbn; tauto. Qed.
Lemma zn_sqrt x : zn x -> zn (fsqrt x). Proof. destruct x; cbn; tauto. Qed.
Lemma zn_div x y : zn x -> zn y -> fdiv x y = B754_nan. Proof. destruct x, y; cbn; tauto. Qed.
Lemma zn_0 x : finite x -> B2R x = 0 -> zn x.
Proof. destruct x as [| | |s mm e H]; cbn; auto; try discriminate. intros _ Z. apply eq_0_F2R in Z. destruct s; discriminate Z. Qed.

Lemma pole_normal (s : sphere FT) (r : ray FT) h : s_hit s r = Some h -> finite (vx (si_p (h_si h))) -> B2R (vx (si_p (h_si h))) = 0 -> finite (vy (si_p (h_si h))) -> B2R (vy (si_p (h_si h))) = 0 ->
  forall i, si_n (h_si h) @ i = B754_nan.
Proof.
  intros H FX X FY Y. unfold s_hit in H. destruct (s_intersect_ray s r) as [ip|]; [|discriminate H]. destruct (gsin_cos (sp_phi ip)) as [sp cp]. injection H as <-. cbn [si_p si_n h_si si_new] in *.
  apply zn_0 in X; [|exact FX]. apply zn_0 in Y; [|exact FY]. unfold si_new. cbn [si_n].
  match goal with |- forall i, normalize (cross ?a ?b) @ i = _ => set (A := a); set (B := b) end.
  assert (A0 : zn (vx A) /\ zn (vy A) /\ zn (vz A)). { unfold A, v_scale. cbn. split; [apply zn_mul_l, zn_neg; exact Y|split; [apply zn_mul_l; exact X|destruct (fadd (phi_max s) (f_pi f)); exact I]]. }
  destruct A0 as (A0 & A1 & A2).
  assert (C0 : zn (fsub (fmul (vy A) (vz B)) (fmul (vz A) (vy B)))) by (apply zn_sub; apply zn_mul_l; assumption).
  assert (C1 : zn (fsub (fmul (vz A) (vx B)) (fmul (vx A) (vz B)))) by (apply zn_sub; apply zn_mul_l; assumption).
  assert (C2 : zn (fsub (fmul (vx A) (vy B)) (fmul (vy A) (vx B)))) by (apply zn_sub; apply zn_mul_l; assumption).
  unfold cross. set (c0 := fsub (fmul (vy A) (vz B)) (fmul (vz A) (vy B))) in *. set (c1 := fsub (fmul (vz A) (vx B)) (fmul (vx A) (vz B))) in *. set (c2 := fsub (fmul (vx A) (vy B)) (fmul (vy A) (vx B))) in *.
  change (forall i, normalize (vec3 c0 c1 c2) @ i = B754_nan).
  assert (N : zn (norm (vec3 c0 c1 c2))).
  { change (zn (fsqrt (fadd (fadd (fadd (fzero false) (fmul c0 c0)) (fmul c1 c1)) (fmul c2 c2)))). apply zn_sqrt. repeat apply zn_add; try (apply zn_mul_l; assumption). exact I. }
  intros i. unfold normalize, v_divs. etransitivity; [exact (Vector.nth_map _ _ i i eq_refl)|]. cbn beta.
  apply zn_div; [|exact N]. apply (Fin.caseS' i); [exact C0|]. intros j. apply (Fin.caseS' j); [exact C1|]. intros k. apply (Fin.caseS' k); [exact C2|]. intros l. inversion l.
Qed.

Lemma hit_bbox (s : sphere FT) (r : ray FT) h : usual_ray (origin r) (direction r) -> usual_radius (radius s) -> s_hit s r = Some h ->
  let rad := B2R (radius s) in let M := 100 * unit_roundoff f * (dot3 (f3 (origin r)) (f3 (origin r)) + rad * rad) / rad in let q := f3 (si_p (h_si h)) in
  - (rad + M) <= cX q <= rad + M /\ - (rad + M) <= cY q <= rad + M /\ fle (z_min s) (vz (si_p (h_si h))) /\ fle (vz (si_p (h_si h))) (z_max s).
Proof.
  intros UR UP HI rad M q. destruct (hit_near f m s r h UR UP HI) as (_ & _ & _ & _ & L). destruct (hit_float_sphere s r h HI) as (_ & _ & _ & Z0 & Z1 & _). fold q rad in L.
  destruct UP as (_ & BR). fold rad in BR.
  assert (LM : Rabs (len3 q - rad) <= M). { unfold M. apply Rmult_le_reg_r with rad; [lra|]. unfold Rdiv. rewrite Rmult_assoc, Rinv_l, Rmult_1_r by lra. exact L. }
  apply Rabs_le_inv in LM.
  assert (LE : forall x, x * x <= dot3 q q -> Rabs x <= len3 q). { intros x X. unfold len3. rewrite <- sqrt_Rsqr_abs. apply sqrt_le_1_alt. exact X. }
  assert (Y1 := Rle_0_sqr (cX q)). assert (Y2 := Rle_0_sqr (cY q)). assert (Y3 := Rle_0_sqr (cZ q)). unfold Rsqr in *.
  assert (LX := LE (cX q) ltac:(unfold dot3; lra)). assert (LY := LE (cY q) ltac:(unfold dot3; lra)). apply Rabs_le_inv in LX. apply Rabs_le_inv in LY.
  split; [lra|]. split; [lra|]. auto.
Qed.
End S.

Definition ball2 (f : fmt) {m : libm f} : outcome (sphere (float f)) := s_new (f_of_Z 2) (f_of_Z (-2)) (f_of_Z 2) (finf false).
Definition axis_ray (f : fmt) : ray (float f) := mkRay (fv f 0 0 5) (fv f 0 0 (-1)) (f_of_Z 10).
Lemma axis_roots f (m : libm f) : let r := axis_ray f in match solve_quadratic (square_norm (direction r)) (smul (dot (origin r) (direction r)) (from_i64 2)) (ssub (square_norm (origin r)) (ssquare (f_of_Z 2))) with
  | Some (t0, t1) => in_range t0 (fzero false) (tmax r) && in_range (vz (ray_eval r t0)) (f_of_Z (-2)) (f_of_Z 2) && seqb (vx (ray_eval r t0)) (fzero false) && seqb (vy (ray_eval r t0)) (fzero false) && BinarySingleNaN.is_finite (vx (ray_eval r t0)) && BinarySingleNaN.is_finite (vy (ray_eval r t0)) | None => false end = true.
Proof. destruct f; vm_compute; reflexivity. Qed.
Lemma axis_hit f (m : libm f) : exists s h, ball2 f = Ret s /\ s_hit s (axis_ray f) = Some h /\
  finite (vx (si_p (h_si h))) /\ B2R (vx (si_p (h_si h))) = 0 /\ finite (vy (si_p (h_si h))) /\ B2R (vy (si_p (h_si h))) = 0.
Proof.
  assert (L : flt (f_of_Z (-2) : float f) (f_of_Z 2)) by (apply slt_spec; destruct f; vm_compute; reflexivity).
  destruct (proj1 (s_new_float (f_of_Z 2 : float f) (f_of_Z (-2)) (f_of_Z 2) (finf false)) L) as (s & S0 & S1 & S2 & S3 & S4). exists s.
  assert (M := axis_roots f m). cbn zeta in M. destruct (solve_quadratic _ _ _) as [[t0 t1]|] eqn:Q; [|discriminate M].
  rewrite !andb_true_iff in M. destruct M as (((((M0 & M1) & M2) & M3) & M4) & M5).
  destruct (hit_first_root f m s (axis_ray f) t0 t1 S4) as (h & H1 & H2); [rewrite S1; exact Q|exact M0|rewrite S2, S3; exact M1|].
  exists h. split; [exact S0|]. split; [exact H1|]. destruct (hit_float_sphere s _ h H1) as (_ & _ & EP & _). rewrite EP, H2.
  assert (Z : forall x : float f, BinarySingleNaN.is_finite x = true -> seqb x (fzero false) = true -> finite x /\ B2R x = 0).
  { intros x Fx E0. split; [exact Fx|]. destruct x as [| | |sg mm e H]; try discriminate Fx; [reflexivity|]. exfalso. destruct sg; discriminate E0. }
  destruct (Z _ M4 M2) as [K1 K2]. destruct (Z _ M5 M3) as [K3 K4]. auto.
Qed.
