(** A ball looked at along its axis is missed; a ball looked at from the side is hit. *)
From Coq Require Import ZArith Reals Bool Lra Lia.
From Coq Require Vector Fin.
From Flocq Require Import Core BinarySingleNaN.
From Verif.Model Require Import FloatBase Scalar Float Interval Outcome Vec Transform XReal Geometry.
From Verif Require Import Spec SpecGeom SpecShape SpecSphere SpecQuad.
From Verif.Proofs Require Import BitsLemmas FloatLemmas ScalarProofs XRealLemmas TransformCases SphereFloat SphereNear.
Open Scope R_scope.

Definition rd43 (f : fmt) : float f := fdiv (f_of_Z 4) (f_of_Z 3).
Definition ball43 (f : fmt) {m : libm f} : outcome (sphere (float f)) := s_new (rd43 f) (fneg (rd43 f)) (rd43 f) (finf false).
Definition pole_ray (f : fmt) : ray (float f) := mkRay (fv f 0 0 5) (fv f 0 0 (-1)) (f_of_Z 10).
Definition side_ray (f : fmt) : ray (float f) := mkRay (fv f (-5) 0 0) (fv f 1 0 0) (f_of_Z 10).
Definition roots43 (f : fmt) {m : libm f} (r : ray (float f)) : option (float f * float f) :=
  solve_quadratic (square_norm (direction r)) (smul (dot (origin r) (direction r)) (from_i64 2)) (ssub (square_norm (origin r)) (ssquare (rd43 f))).

Lemma rd43_size f : usual_radius (rd43 f) /\ B2R (rd43 f) <= 2.
Proof.
  destruct (f_of_Z_exact (f := f) 4 ltac:(destruct f; vm_compute; discriminate)) as [F4 V4]. destruct (f_of_Z_exact (f := f) 3 ltac:(destruct f; vm_compute; discriminate)) as [F3 V3].
  destruct (f_of_Z_exact (f := f) 1 ltac:(destruct f; vm_compute; discriminate)) as [F1 V1]. destruct (f_of_Z_exact (f := f) 2 ltac:(destruct f; vm_compute; discriminate)) as [F2 V2].
  assert (F : finite (rd43 f)) by (destruct f; vm_compute; reflexivity).
  assert (L : fle (f_of_Z 1) (rd43 f)) by (apply sle_spec; destruct f; vm_compute; reflexivity). assert (H : fle (rd43 f) (f_of_Z 2)) by (apply sle_spec; destruct f; vm_compute; reflexivity).
  apply fle_E in L, H. destruct L as (_ & _ & L). destruct H as (_ & _ & H). rewrite (E_B2R _ F), E_B2R in L by exact F1. rewrite (E_B2R _ F), E_B2R in H by exact F2. rewrite V1 in L. rewrite V2 in H.
  split; [split; [exact F|]|]; lra.
Qed.
Lemma fv_usual f x y z x' y' z' : (Z.abs x <= 1024)%Z -> (Z.abs y <= 1024)%Z -> (Z.abs z <= 1024)%Z -> (Z.abs x' <= 1024)%Z -> (Z.abs y' <= 1024)%Z -> (Z.abs z' <= 1024)%Z ->
  (1 <= x' * x' + y' * y' + z' * z')%Z -> usual_ray (fv f x y z) (fv f x' y' z') /\ f3 (fv f x y z) = mk3 (IZR x) (IZR y) (IZR z) /\ f3 (fv f x' y' z') = mk3 (IZR x') (IZR y') (IZR z').
Proof.
  intros Hx Hy Hz Hx' Hy' Hz' N. assert (P : (1024 <= 2 ^ prec f)%Z) by (destruct f; vm_compute; discriminate).
  assert (G : forall k, (Z.abs k <= 1024)%Z -> finite (f_of_Z k : float f) /\ B2R (f_of_Z k : float f) = IZR k /\ Rabs (IZR k) <= 1024).
  { intros k K. destruct (f_of_Z_exact (f := f) k ltac:(lia)) as [F V]. split; [exact F|]. split; [exact V|]. rewrite <- abs_IZR. apply IZR_le. exact K. }
  assert (V3 : forall a b c, (Z.abs a <= 1024)%Z -> (Z.abs b <= 1024)%Z -> (Z.abs c <= 1024)%Z -> f3 (fv f a b c) = mk3 (IZR a) (IZR b) (IZR c) /\ forall i, finite (Vector.nth (fv f a b c) i) /\ Rabs (B2R (Vector.nth (fv f a b c) i)) <= 1024).
  { intros a b c A B C. destruct (G a A) as (A1 & A2 & A3). destruct (G b B) as (B1 & B2 & B3). destruct (G c C) as (C1 & C2 & C3). split.
    - unfold f3, fv. cbn [Vector.nth vec3 Vector.caseS]. rewrite A2, B2, C2. reflexivity.
    - intros i. apply (Fin.caseS' i); [cbn; rewrite A2; split; assumption|]. intros j. apply (Fin.caseS' j); [cbn; rewrite B2; split; assumption|]. intros k. apply (Fin.caseS' k); [cbn; rewrite C2; split; assumption|]. intros l. inversion l. }
  destruct (V3 x y z Hx Hy Hz) as [E1 B1]. destruct (V3 x' y' z' Hx' Hy' Hz') as [E2 B2]. split; [|split; assumption].
  split; [intros i; destruct (B1 i); split; [assumption|lra]|]. split; [exact B2|]. rewrite E2. unfold dot3. cbn [cX cY cZ]. rewrite <- !mult_IZR, <- !plus_IZR. apply IZR_le in N. lra.
Qed.

Lemma no_hit_roots f (m : libm f) (s : sphere (float f)) r t0 t1 :
  solve_quadratic (square_norm (direction r)) (smul (dot (origin r) (direction r)) (from_i64 2)) (ssub (square_norm (origin r)) (ssquare (radius s))) = Some (t0, t1) ->
  in_range (vz (ray_eval r t0)) (z_min s) (z_max s) = false -> in_range (vz (ray_eval r t1)) (z_min s) (z_max s) = false -> s_do_intersect s r = false.
Proof.
  intros Q Z0 Z1. assert (G : forall t, in_range (vz (ray_eval r t)) (z_min s) (z_max s) = false -> s_get_intersection s r t = None).
  { intros t H. unfold s_get_intersection. destruct (negb _); [reflexivity|]. match goal with |- context [negb ?b] => replace b with false by (symmetry; exact H) end. reflexivity. }
  unfold s_do_intersect, s_intersect_ray. match goal with |- match match ?q with _ => _ end with _ => _ end = _ => replace q with (Some (t0, t1)) by (symmetry; exact Q) end. rewrite (G t0 Z0), (G t1 Z1). reflexivity.
Qed.
Lemma pole_missed f (m : libm f) : match roots43 f (pole_ray f) with Some (t0, t1) => in_range (vz (ray_eval (pole_ray f) t0)) (fneg (rd43 f)) (rd43 f) || in_range (vz (ray_eval (pole_ray f) t1)) (fneg (rd43 f)) (rd43 f) | None => true end = false.
Proof. destruct f; vm_compute; reflexivity. Qed.
Lemma side_seen f (m : libm f) : match roots43 f (side_ray f) with Some (t0, t1) => in_range t0 (fzero false) (tmax (side_ray f)) && in_range (vz (ray_eval (side_ray f) t0)) (fneg (rd43 f)) (rd43 f) | None => false end = true.
Proof. destruct f; vm_compute; reflexivity. Qed.
Lemma ball43_new f (m : libm f) : exists s, ball43 f = Ret s /\ radius s = rd43 f /\ z_min s = fneg (rd43 f) /\ z_max s = rd43 f /\ phi_max s = finf false.
Proof.
  assert (L : flt (fneg (rd43 f)) (rd43 f)) by (apply slt_spec; destruct f; vm_compute; reflexivity).
  destruct (proj1 (s_new_float (rd43 f) (fneg (rd43 f)) (rd43 f) (finf false)) L) as (s & S0 & S1 & S2 & S3 & S4). exists s. auto.
Qed.
Lemma no_flt_inf f (x : float f) : ~ flt (finf false) x.
Proof. intros H. apply sgt_spec in H. assert (X := no_gt_inf f x). congruence. Qed.

Lemma pole_refuted f (m : libm f) :
  ~ (forall (rd z0 z1 p1 : float f) s r, s_new rd z0 z1 p1 = Ret s -> usual_radius rd -> usual_ray (origin r) (direction r) ->
      (forall y x : float f, ~ flt p1 (gatan2 y x)) -> finite (tmax r) ->
      (exists t, meets (B2R rd) (B2R z0) (B2R z1) (f3 (origin r)) (f3 (direction r)) (B2R (tmax r)) t) -> s_do_intersect s r = true).
Proof.
  intros C. destruct (ball43_new f m) as (s & S0 & S1 & S2 & S3 & S4).
  destruct (fv_usual f 0 0 5 0 0 (-1)) as (UR & VO & VD); try (cbn; lia).
  destruct (f_of_Z_exact (f := f) 10 ltac:(destruct f; vm_compute; discriminate)) as [F10 V10].
  destruct (rd43_size f) as [UR43 B43]. assert (UR43' := UR43). destruct UR43' as (F43 & L43).
  specialize (C (rd43 f) (fneg (rd43 f)) (rd43 f) (finf false) s (pole_ray f) S0 UR43 UR).
  specialize (C ltac:(intros y x; apply no_flt_inf) F10).
  assert (M := pole_missed f m). unfold roots43 in M. destruct (solve_quadratic _ _ _) as [[t0 t1]|] eqn:Q; [|discriminate M].
  apply orb_false_iff in M. destruct M as [M0 M1].
  assert (N : s_do_intersect s (pole_ray f) = false).
  { apply (no_hit_roots f m s (pole_ray f) t0 t1); rewrite ?S1, ?S2, ?S3; assumption. }
  rewrite N in C. assert (X : false = true); [|discriminate X]. apply C.
  exists (5 - B2R (rd43 f)). cbn [origin direction tmax pole_ray]. rewrite VO, VD, V10. split; [lra|]. split.
  - unfold at_ray, dot3, add3, scl3. cbn [cX cY cZ]. ring.
  - rewrite fneg_B2R. unfold at_ray, add3, scl3. cbn [cX cY cZ]. lra.
Qed.
Lemma side_hit f (m : libm f) : exists s h, ball43 f = Ret s /\ s_hit s (side_ray f) = Some h /\ usual_ray (origin (side_ray f)) (direction (side_ray f)) /\ usual_radius (radius s).
Proof.
  destruct (ball43_new f m) as (s & S0 & S1 & S2 & S3 & S4). exists s.
  destruct (fv_usual f (-5) 0 0 1 0 0) as (UR & _); try (cbn; lia).
  assert (M := side_seen f m). unfold roots43 in M. destruct (solve_quadratic _ _ _) as [[t0 t1]|] eqn:Q; [|discriminate M].
  apply andb_true_iff in M. destruct M as [M0 M1].
  destruct (hit_first_root f m s (side_ray f) t0 t1 S4) as (h & H1 & H2); [rewrite S1; exact Q|exact M0|rewrite S2, S3; exact M1|].
  exists h. split; [exact S0|]. split; [exact H1|]. split; [exact UR|]. rewrite S1. apply rd43_size.
Qed.
