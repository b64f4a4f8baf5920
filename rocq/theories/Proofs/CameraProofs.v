(** Disk sampling and the thin lens camera in exact arithmetic. *)
From Coq Require Import ZArith Reals Bool List Lra Lia.
From Coq Require Vector Fin.
From Flocq Require Import Core BinarySingleNaN.
From Coquelicot Require Import Coquelicot.
From Verif.Model Require Import FloatBase Scalar Float Interval Outcome Vec Transform XReal Geometry Camera.
From Verif Require Import Spec SpecGeom SpecShape SpecCamera.
From Verif.Proofs Require Import BitsLemmas FloatLemmas ScalarProofs IntervalBase IntervalRefute XRealLemmas MatrixProofs TransformProofs TransformThms TransformCases BoxCases.
Open Scope R_scope.

(** ** the constant 2.0 *)
Lemma isR_two64 : isR (from_f64 lit2_f64 : xr) 2.
Proof.
  assert (E : (from_f64 lit2_f64 : xr) = XFin (B2R lit2_f64) false) by (cbn; reflexivity).
  rewrite E. eapply isR_eq; [apply isR_fin|]. unfold lit2_f64. match goal with |- B2R ?x = _ => b2r_eval x end; simpl bpow; lra.
Qed.
Lemma isR_two32 : isR (from_f32 lit2_f32 : xr) 2.
Proof.
  assert (E : (from_f32 lit2_f32 : xr) = XFin (B2R lit2_f32) false) by (cbn; reflexivity).
  rewrite E. eapply isR_eq; [apply isR_fin|]. unfold lit2_f32. match goal with |- B2R ?x = _ => b2r_eval x end; simpl bpow; lra.
Qed.

(** ** C59: uniform_sample_disk *)
Lemma uni_eq {T} {G : GFloat T} (p : vec T 2) : uniform_sample_disk p =
  vec2 (smul (gsqrt (vy p)) (snd (gsin_cos (smul (smul (from_f64 lit2_f64) pi) (vx p))))) (smul (gsqrt (vy p)) (fst (gsin_cos (smul (smul (from_f64 lit2_f64) pi) (vx p))))).
Proof. unfold uniform_sample_disk. destruct (gsin_cos _). reflexivity. Qed.
Definition uX (x y : R) := sqrt y * cos (2 * PI * x).
Definition uY (x y : R) := sqrt y * sin (2 * PI * x).
Lemma uni_value p x y : is2 p x y -> 0 <= y -> is2 (uniform_sample_disk p) (uX x y) (uY x y).
Proof.
  intros [HX HY] Y. rewrite uni_eq. assert (A := isR_mul _ _ _ _ (isR_mul _ _ _ _ isR_two64 isR_pi) HX). assert (S := isR_sqrt _ _ HY Y).
  split; cbn; [exact (isR_mul _ _ _ _ S (isR_sc2 _ _ A))|exact (isR_mul _ _ _ _ S (isR_sc1 _ _ A))].
Qed.
Lemma uni_radius x y : 0 <= y -> uX x y * uX x y + uY x y * uY x y = y.
Proof.
  intros Y. unfold uX, uY. assert (S := sqrt_sqrt y Y). assert (C := sin2_cos2 (2 * PI * x)). unfold Rsqr in C.
  transitivity ((sqrt y * sqrt y) * (sin (2 * PI * x) * sin (2 * PI * x) + cos (2 * PI * x) * cos (2 * PI * x))); [ring|rewrite C, S; ring].
Qed.
Lemma uni_jacobian x y : 0 < y -> jacobian uX uY x y (- PI).
Proof.
  intros Y. assert (S : 0 < sqrt y) by (apply sqrt_lt_R0; exact Y). unfold jacobian, uX, uY.
  exists (- (2 * PI) * sqrt y * sin (2 * PI * x)), (cos (2 * PI * x) / (2 * sqrt y)), (2 * PI * sqrt y * cos (2 * PI * x)), (sin (2 * PI * x) / (2 * sqrt y)).
  split; [|split; [|split; [|split]]].
  1-4: apply is_derive_Reals; auto_derive; auto; field; lra.
  assert (C := sin2_cos2 (2 * PI * x)). unfold Rsqr in C.
  transitivity (- PI * (sin (2 * PI * x) * sin (2 * PI * x) + cos (2 * PI * x) * cos (2 * PI * x))); [field; lra|rewrite C; ring].
Qed.

(** ** C59: concentric_sample_disk *)
Definition cgt {T} {G : GFloat T} {N : Native T} (x y : T) : bool := sgt (nabs x) (nabs y).
Definition zz {T} {G : GFloat T} (x y : T) : bool := is_zero x && is_zero y.
Definition rad2 {T} {G : GFloat T} (r th : T) : vec T 2 := vec2 (smul r (gcos th)) (smul r (gsin th)).
Definition cx {T} {G : GFloat T} (v : T) : T := ssub sone (smul (from_f32 lit2_f32) v).
Lemma conc_eq {T} {G : GFloat T} {N : Native T} (p : vec T 2) : concentric_sample_disk p =
  if zz (cx (vx p)) (cx (vy p)) then vec2 szero szero
  else if cgt (cx (vx p)) (cx (vy p)) then rad2 (cx (vx p)) (sdiv (smul frac_pi_4 (cx (vy p))) (cx (vx p)))
  else rad2 (cx (vy p)) (ssub frac_pi_2 (smul (sdiv (cx (vx p)) (cx (vy p))) frac_pi_4)).
Proof.
  unfold concentric_sample_disk, zz, cgt, rad2, cx. cbv zeta. destruct (is_zero _ && is_zero _); [reflexivity|].
  match goal with |- context [sgt ?a ?b] => destruct (sgt a b) end; reflexivity.
Qed.
Lemma cx_R x a : isR x a -> isR (cx x) (1 - 2 * a).
Proof. intros H. exact (isR_sub _ _ _ _ isR_one (isR_mul _ _ _ _ isR_two32 H)). Qed.
Lemma cgt_R (x y : xr) a b : isR x a -> isR y b -> reflect (Rabs b < Rabs a) (cgt x y).
Proof. intros H K. exact (sgt_R _ _ _ _ (isR_nabs _ _ H) (isR_nabs _ _ K)). Qed.
Lemma zz_R (x y : xr) a b : isR x a -> isR y b -> reflect (a = 0 /\ b = 0) (zz x y).
Proof.
  intros H K. change (zz x y) with (seqb x (szero : xr) && seqb y (szero : xr)).
  destruct (seqb_R x szero a 0 H isR_zero), (seqb_R y szero b 0 K isR_zero); constructor; tauto.
Qed.
Definition cpair (x y : R) : R * R :=
  let a := 1 - 2 * x in let b := 1 - 2 * y in
  if Rlt_dec (Rabs b) (Rabs a) then (a * cos (PI / 4 * b / a), a * sin (PI / 4 * b / a))
  else (b * cos (PI / 2 - a / b * (PI / 4)), b * sin (PI / 2 - a / b * (PI / 4))).
Definition cX2 x y := fst (cpair x y).
Definition cY2 x y := snd (cpair x y).
Lemma rad2_R r th a b : isR r a -> isR th b -> is2 (rad2 r th) (a * cos b) (a * sin b).
Proof. intros H K. split; [exact (isR_mul _ _ _ _ H (isR_cos _ _ K))|exact (isR_mul _ _ _ _ H (isR_sin _ _ K))]. Qed.
Lemma conc_value p x y : is2 p x y -> is2 (concentric_sample_disk p) (cX2 x y) (cY2 x y).
Proof.
  intros [HX HY]. rewrite conc_eq. unfold cX2, cY2, cpair. cbv zeta.
  change (Vector.nth p Fin.F1) with (vx p) in HX. change (Vector.nth p (Fin.FS Fin.F1)) with (vy p) in HY.
  assert (A := cx_R _ _ HX). assert (B := cx_R _ _ HY). set (a := 1 - 2 * x) in *. set (b := 1 - 2 * y) in *.
  generalize dependent (cx (vx p)). intros a' A. generalize dependent (cx (vy p)). intros b' B.
  destruct (zz_R a' b' a b A B) as [[Za Zb]|Z].
  - rewrite Za, Zb. destruct (Rlt_dec (Rabs 0) (Rabs 0)); [lra|]. cbn [fst snd]. split; (eapply isR_eq; [exact isR_zero|ring]).
  - destruct (cgt_R a' b' a b A B) as [L|L].
    + destruct (Rlt_dec (Rabs b) (Rabs a)); [|contradiction]. cbn [fst snd]. apply rad2_R; [exact A|].
      apply isR_div; [exact (isR_mul _ _ _ _ isR_pi4 B)|exact A|]. intros K. rewrite K, Rabs_R0 in L. assert (0 <= Rabs b) by apply Rabs_pos. lra.
    + destruct (Rlt_dec (Rabs b) (Rabs a)); [contradiction|]. cbn [fst snd]. apply rad2_R; [exact B|].
      apply isR_sub; [exact isR_pi2|]. apply isR_mul; [|exact isR_pi4]. apply isR_div; [exact A|exact B|].
      intros K. apply Z. split; [|exact K]. rewrite K, Rabs_R0 in L. assert (P := Rabs_pos a). assert (Q : Rabs a = 0) by lra. revert Q. unfold Rabs. destruct (Rcase_abs a); lra.
Qed.
Lemma pol2 a th : (a * cos th) * (a * cos th) + (a * sin th) * (a * sin th) = a * a.
Proof. assert (C := sin2_cos2 th). unfold Rsqr in C. transitivity (a * a * (sin th * sin th + cos th * cos th)); [ring|rewrite C; ring]. Qed.
Lemma conc_radius x y : cX2 x y * cX2 x y + cY2 x y * cY2 x y = Rmax (Rabs (1 - 2 * x)) (Rabs (1 - 2 * y)) * Rmax (Rabs (1 - 2 * x)) (Rabs (1 - 2 * y)).
Proof.
  unfold cX2, cY2, cpair. cbv zeta. set (a := 1 - 2 * x). set (b := 1 - 2 * y).
  destruct (Rlt_dec (Rabs b) (Rabs a)) as [L|L]; cbn [fst snd]; rewrite pol2.
  - rewrite Rmax_left by lra. rewrite <- Rabs_mult. symmetry. apply Rabs_pos_eq. apply Rle_0_sqr.
  - rewrite Rmax_right by lra. rewrite <- Rabs_mult. symmetry. apply Rabs_pos_eq. apply Rle_0_sqr.
Qed.
Lemma conc_disk x y : 0 <= x <= 1 -> 0 <= y <= 1 -> cX2 x y * cX2 x y + cY2 x y * cY2 x y <= 1.
Proof.
  intros X Y. rewrite conc_radius. set (m := Rmax _ _). assert (0 <= m <= 1); [|nra]. unfold m. split.
  - eapply Rle_trans; [apply Rabs_pos|apply Rmax_l].
  - apply Rmax_lub; apply Rabs_le; lra.
Qed.
Lemma loc_abs (x c : R) : c < Rabs (1 - 2 * x) -> locally x (fun s => c < Rabs (1 - 2 * s)).
Proof.
  intros H. assert (P : 0 < (Rabs (1 - 2 * x) - c) / 2) by lra. exists (mkposreal _ P). intros s B.
  change (Rabs (s - x) < (Rabs (1 - 2 * x) - c) / 2) in B.
  assert (T : Rabs (1 - 2 * x) <= Rabs (1 - 2 * s) + 2 * Rabs (s - x)).
  { replace (1 - 2 * x) with ((1 - 2 * s) + 2 * (s - x)) by ring. eapply Rle_trans; [apply Rabs_triang|]. rewrite (Rabs_mult 2), (Rabs_pos_eq 2) by lra. lra. }
  lra.
Qed.
Lemma loc_abs' (x c : R) : Rabs (1 - 2 * x) < c -> locally x (fun s => Rabs (1 - 2 * s) < c).
Proof.
  intros H. assert (P : 0 < (c - Rabs (1 - 2 * x)) / 2) by lra. exists (mkposreal _ P). intros s B.
  change (Rabs (s - x) < (c - Rabs (1 - 2 * x)) / 2) in B.
  assert (T : Rabs (1 - 2 * s) <= Rabs (1 - 2 * x) + 2 * Rabs (s - x)).
  { replace (1 - 2 * s) with ((1 - 2 * x) + 2 * (- (s - x))) by ring. eapply Rle_trans; [apply Rabs_triang|]. rewrite (Rabs_mult 2), (Rabs_pos_eq 2), Rabs_Ropp by lra. lra. }
  lra.
Qed.
Lemma conc_jacobian x y : Rabs (1 - 2 * x) <> Rabs (1 - 2 * y) -> jacobian cX2 cY2 x y PI.
Proof.
  intros NE. assert (PA := Rabs_pos (1 - 2 * x)). assert (PB := Rabs_pos (1 - 2 * y)).
  destruct (Rtotal_order (Rabs (1 - 2 * x)) (Rabs (1 - 2 * y))) as [L|[E|L]]; [|contradiction|].
  - assert (B : 1 - 2 * y <> 0) by (intros K; rewrite K, Rabs_R0 in L; lra).
    assert (DX : forall s t, Rabs (1 - 2 * s) < Rabs (1 - 2 * t) -> cX2 s t = (1 - 2 * t) * cos (PI / 2 - (1 - 2 * s) / (1 - 2 * t) * (PI / 4))) by (intros s t K; unfold cX2, cpair; destruct (Rlt_dec _ _); [lra|reflexivity]).
    assert (DY : forall s t, Rabs (1 - 2 * s) < Rabs (1 - 2 * t) -> cY2 s t = (1 - 2 * t) * sin (PI / 2 - (1 - 2 * s) / (1 - 2 * t) * (PI / 4))) by (intros s t K; unfold cY2, cpair; destruct (Rlt_dec _ _); [lra|reflexivity]).
    set (th := PI / 2 - (1 - 2 * x) / (1 - 2 * y) * (PI / 4)).
    exists (- 2 * (PI / 4) * sin th), (-2 * (cos th - sin th * (PI / 4) * ((1 - 2 * x) / (1 - 2 * y)))), (2 * (PI / 4) * cos th), (-2 * (sin th + cos th * (PI / 4) * ((1 - 2 * x) / (1 - 2 * y)))).
    split; [|split; [|split; [|split]]].
    + apply is_derive_Reals. eapply is_derive_ext_loc with (f := fun s => (1 - 2 * y) * cos (PI / 2 - (1 - 2 * s) / (1 - 2 * y) * (PI / 4))).
      * eapply filter_imp; [|exact (loc_abs' x _ L)]. intros s K. symmetry. apply DX, K.
      * auto_derive; auto. unfold th, Rminus, Rdiv. field. exact B.
    + apply is_derive_Reals. eapply is_derive_ext_loc with (f := fun t => (1 - 2 * t) * cos (PI / 2 - (1 - 2 * x) / (1 - 2 * t) * (PI / 4))).
      * eapply filter_imp; [|exact (loc_abs y _ L)]. intros s K. symmetry. apply DX, K.
      * auto_derive; [lra|]. unfold th, Rminus, Rdiv. field. lra.
    + apply is_derive_Reals. eapply is_derive_ext_loc with (f := fun s => (1 - 2 * y) * sin (PI / 2 - (1 - 2 * s) / (1 - 2 * y) * (PI / 4))).
      * eapply filter_imp; [|exact (loc_abs' x _ L)]. intros s K. symmetry. apply DY, K.
      * auto_derive; auto. unfold th, Rminus, Rdiv. field. exact B.
    + apply is_derive_Reals. eapply is_derive_ext_loc with (f := fun t => (1 - 2 * t) * sin (PI / 2 - (1 - 2 * x) / (1 - 2 * t) * (PI / 4))).
      * eapply filter_imp; [|exact (loc_abs y _ L)]. intros s K. symmetry. apply DY, K.
      * auto_derive; [lra|]. unfold th, Rminus, Rdiv. field. lra.
    + assert (C := sin2_cos2 th). unfold Rsqr in C. clearbody th. transitivity (PI * (sin th * sin th + cos th * cos th)); [field; exact B|rewrite C; ring].
  - assert (A : 1 - 2 * x <> 0) by (intros K; rewrite K, Rabs_R0 in L; lra).
    assert (DX : forall s t, Rabs (1 - 2 * t) < Rabs (1 - 2 * s) -> cX2 s t = (1 - 2 * s) * cos (PI / 4 * (1 - 2 * t) / (1 - 2 * s))) by (intros s t K; unfold cX2, cpair; destruct (Rlt_dec _ _); [reflexivity|lra]).
    assert (DY : forall s t, Rabs (1 - 2 * t) < Rabs (1 - 2 * s) -> cY2 s t = (1 - 2 * s) * sin (PI / 4 * (1 - 2 * t) / (1 - 2 * s))) by (intros s t K; unfold cY2, cpair; destruct (Rlt_dec _ _); [reflexivity|lra]).
    set (th := PI / 4 * (1 - 2 * y) / (1 - 2 * x)).
    exists (-2 * (cos th + sin th * (PI / 4) * ((1 - 2 * y) / (1 - 2 * x)))), (2 * (PI / 4) * sin th), (-2 * (sin th - cos th * (PI / 4) * ((1 - 2 * y) / (1 - 2 * x)))), (-2 * (PI / 4) * cos th).
    split; [|split; [|split; [|split]]].
    + apply is_derive_Reals. eapply is_derive_ext_loc with (f := fun s => (1 - 2 * s) * cos (PI / 4 * (1 - 2 * y) / (1 - 2 * s))).
      * eapply filter_imp; [|exact (loc_abs x _ L)]. intros s K. symmetry. apply DX, K.
      * auto_derive; [lra|]. unfold th, Rminus, Rdiv. field. lra.
    + apply is_derive_Reals. eapply is_derive_ext_loc with (f := fun t => (1 - 2 * x) * cos (PI / 4 * (1 - 2 * t) / (1 - 2 * x))).
      * eapply filter_imp; [|exact (loc_abs' y _ L)]. intros s K. symmetry. apply DX, K.
      * auto_derive; auto. unfold th, Rminus, Rdiv. field. exact A.
    + apply is_derive_Reals. eapply is_derive_ext_loc with (f := fun s => (1 - 2 * s) * sin (PI / 4 * (1 - 2 * y) / (1 - 2 * s))).
      * eapply filter_imp; [|exact (loc_abs x _ L)]. intros s K. symmetry. apply DY, K.
      * auto_derive; [lra|]. unfold th, Rminus, Rdiv. field. lra.
    + apply is_derive_Reals. eapply is_derive_ext_loc with (f := fun t => (1 - 2 * x) * sin (PI / 4 * (1 - 2 * t) / (1 - 2 * x))).
      * eapply filter_imp; [|exact (loc_abs' y _ L)]. intros s K. symmetry. apply DY, K.
      * auto_derive; auto. unfold th, Rminus, Rdiv. field. exact A.
    + assert (C := sin2_cos2 th). unfold Rsqr in C. clearbody th. transitivity (PI * (sin th * sin th + cos th * cos th)); [field; exact A|rewrite C; ring].
Qed.
