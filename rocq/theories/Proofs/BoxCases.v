(** Float hit records of boxes, refutations and sample data for Props/P_Box.v. *)
From Coq Require Import ZArith Reals Bool List Lra Lia.
From Coq Require Vector Fin.
From Flocq Require Import Core BinarySingleNaN.
From Verif.Model Require Import FloatBase Scalar Float Interval Outcome Vec Transform XReal Geometry.
From Verif Require Import Spec SpecGeom SpecShape.
From Verif.Proofs Require Import BitsLemmas FloatLemmas ScalarProofs IntervalBase IntervalRefute XRealLemmas MatrixProofs TransformProofs TransformThms TransformCases
  VectorExact BoxFloat BoxExact.
Import Vector.VectorNotations.
Open Scope R_scope.
Notation "v @ i" := (Vector.nth v i) (at level 20, only parsing).

Section FloatHit.
Context {f : fmt} {m : libm f}.
Notation FT := (float f).

Lemma slab_t_bounds (b : bbox FT) (r : ray FT) t u : b_intersect_ray b r = Some (t, u) ->
  fle (fzero false) t /\ (fle (fzero false) (tmax r) -> fle t (tmax r)).
Proof.
  rewrite slab_eq. cbv zeta.
  match goal with |- context [nmax ?n szero] => set (near := n) end.
  match goal with |- context [slt ?n szero] => set (far := n) end.
  destruct (sgt near (tmax r)) eqn:E1; [discriminate|]. destruct (slt far szero); [discriminate|]. destruct (sgt near far); [discriminate|].
  cbn [orb]. intros H. injection H as <- _. clearbody near far.
  change (fle (fzero false) (nmax near (fzero false : FT)) /\ (fle (fzero false) (tmax r) -> fle (nmax near (fzero false : FT)) (tmax r))).
  destruct (BinarySingleNaN.is_nan near) eqn:NN.
  - assert (E : nmax near (fzero false) = (fzero false : FT)). { cbn [nmax float_native]. unfold native_max. now rewrite NN. }
    rewrite E. split; [apply fle_E; repeat split; lra|auto].
  - destruct (nmax_E near (fzero false) NN eq_refl) as [N1 N2].
    split.
    + apply fle_E. split; [reflexivity|]. split; [exact N1|]. rewrite N2. apply Rmax_r.
    + intros H. apply fle_E in H. destruct H as (_ & Nt & H). apply fle_E. split; [exact N1|]. split; [exact Nt|]. rewrite N2.
      apply Rmax_lub; [|exact H]. unfold sgt in E1. change (@scmp FT _) with (@fcmp f) in E1. rewrite gt_b in E1 by assumption.
      destruct (Rlt_bool_spec (E (tmax r)) (E near)); [discriminate|assumption].
Qed.

Lemma one_val : B2R (sone : FT) = 1 /\ B2R (sneg (sone : FT)) = -1 /\ B2R (szero : FT) = 0.
Proof. split; [|split]; [| |reflexivity]; destruct f; match goal with |- B2R ?x = _ => b2r_eval x end; simpl bpow; lra. Qed.

Lemma hit_float (b : bbox FT) (r : ray FT) h : b_hit b r = Ret (Some h) ->
  fle (fzero false) (t_ray h) /\ (fle (fzero false) (tmax r) -> fle (t_ray h) (tmax r)) /\
  exists i (upper : bool),
    si_p (h_si h) @ i = (if upper then pmax b else pmin b) @ i /\
    (forall j, j <> i -> si_p (h_si h) @ j = ray_eval r (t_ray h) @ j) /\
    B2R (si_n (h_si h) @ i) = (if upper then 1 else -1) /\ (forall j, j <> i -> B2R (si_n (h_si h) @ j) = 0).
Proof.
  rewrite hit_eq. destruct (b_intersect_ray b r) as [[t u]|] eqn:E; [|discriminate]. cbv zeta. intros H.
  injection H as <-. cbn [h_si t_ray]. destruct (slab_t_bounds b r t u E) as [B1 B2]. split; [exact B1|split; [exact B2|]].
  set (p := ray_eval r t). set (k := closest_face (face_ds b p)). destruct one_val as (V1 & V2 & V0).
  assert (V0' : B2R (szero : FT) = 0) by exact V0.
  destruct k as [|[|[|[|[|k]]]]];
  [exists Fin.F1, false|exists Fin.F1, true|exists (Fin.FS Fin.F1), false|exists (Fin.FS Fin.F1), true|exists (Fin.FS (Fin.FS Fin.F1)), false|exists (Fin.FS (Fin.FS Fin.F1)), true];
  (split; [reflexivity|split; [refine (fin3_case _ _ _ _); intros N; first [reflexivity|contradiction (N eq_refl)]|split; [first [exact V1|exact V2]|]]]);
  (refine (fin3_case _ _ _ _); intros N; first [exact V0|contradiction (N eq_refl)]).
Qed.

Definition fdu (k : nat) : R3 := match k with 0%nat => mk3 0 0 (-1) | 1%nat => mk3 0 0 1 | 5%nat => mk3 (-1) 0 0 | _ => mk3 1 0 0 end.
Definition fdv (k : nat) : R3 := match k with 2%nat => mk3 0 0 (-1) | 3%nat => mk3 0 0 1 | _ => mk3 0 1 0 end.
Lemma face_frame (b : bbox FT) p k : (k < 6)%nat ->
  f3 (si_n (face_si b p k)) = fnorm k /\ f3 (si_dpdu (face_si b p k)) = fdu k /\ f3 (si_dpdv (face_si b p k)) = fdv k.
Proof.
  intros Hk. destruct one_val as (V1 & V2 & V0).
  destruct k as [|[|[|[|[|[|k]]]]]]; [| | | | | |lia];
  (split; [|split]; apply R3_eq; first [exact V1|exact V2|exact V0]).
Qed.
Lemma hit_frame (b : bbox FT) (r : ray FT) h : b_hit b r = Ret (Some h) ->
  let n := f3 (si_n (h_si h)) in let u := f3 (si_dpdu (h_si h)) in let v := f3 (si_dpdv (h_si h)) in
  dot3 n n = 1 /\ dot3 u u = 1 /\ dot3 v v = 1 /\ dot3 u v = 0 /\ dot3 u n = 0 /\ dot3 v n = 0 /\ cross3 u v = scl3 (-1) n.
Proof.
  rewrite hit_eq. destruct (b_intersect_ray b r) as [[t u]|] eqn:E; [|discriminate]. cbv zeta. intros H.
  injection H as <-. cbn [h_si t_ray]. set (p := ray_eval r t).
  assert (Hk := closest_lt (face_ds b p)). destruct (face_frame b p _ Hk) as (-> & -> & ->).
  set (k := closest_face (face_ds b p)) in *. clearbody k. unfold dot3, cross3, scl3.
  destruct k as [|[|[|[|[|[|k]]]]]]; [| | | | | |lia]; cbn [fnorm fdu fdv cX cY cZ];
  (split; [lra|split; [lra|split; [lra|split; [lra|split; [lra|split; [lra|apply R3_eq; cbn; lra]]]]]]).
Qed.
End FloatHit.

(** ** C45: the centre of a huge box overflows *)
Definition huge_box (f : fmt) : bbox (float f) := mkB (vec3 shighest shighest shighest) (vec3 shighest shighest shighest).
Lemma huge_ok f : box_finite (huge_box f) /\ box_ordered (huge_box f).
Proof.
  split; refine (fin3_case _ _ _ _).
  1-3: split; destruct f; reflexivity.
  all: right; destruct f; reflexivity.
Qed.
Lemma huge_center f (m : libm f) : b_inside (huge_box f) (b_center (huge_box f)) = false.
Proof. destruct f; vm_compute; reflexivity. Qed.
Lemma center_refuted f (m : libm f) : ~ (forall b : bbox (float f), box_finite b -> box_ordered b -> b_inside b (b_center b) = true).
Proof. intros H. destruct (huge_ok f) as [F O]. specialize (H _ F O). rewrite huge_center in H. discriminate. Qed.

Lemma fv_box f x y z x' y' z' : (Z.abs x <= 1000)%Z -> (Z.abs y <= 1000)%Z -> (Z.abs z <= 1000)%Z ->
  (Z.abs x' <= 1000)%Z -> (Z.abs y' <= 1000)%Z -> (Z.abs z' <= 1000)%Z -> (x < x')%Z -> (y < y')%Z -> (z < z')%Z ->
  box_finite (mkB (fv f x y z) (fv f x' y' z')) /\ box_fat (mkB (fv f x y z) (fv f x' y' z')).
Proof.
  intros. destruct (fv_val f x y z) as ((A1 & A2) & (B1 & B2) & (C1 & C2)); try assumption.
  destruct (fv_val f x' y' z') as ((D1 & D2) & (E1 & E2) & (F1 & F2)); try assumption. cbn [pmin pmax].
  assert (L : forall a b : float f, finite a -> finite b -> B2R a < B2R b -> flt a b).
  { intros a b Ha Hb K. apply flt_E. split; [now apply nonnan_of_finite|]. split; [now apply nonnan_of_finite|]. now rewrite !E_B2R. }
  split; refine (fin3_case _ _ _ _); cbn [pmin pmax].
  1-3: split; assumption.
  - apply L; [exact A1|exact D1|]. revert A2 D2. unfold vx, vget. intros -> ->. now apply IZR_lt.
  - apply L; [exact B1|exact E1|]. revert B2 E2. unfold vy, vget. intros -> ->. now apply IZR_lt.
  - apply L; [exact C1|exact F1|]. revert C2 F2. unfold vz, vget. intros -> ->. now apply IZR_lt.
Qed.

(** ** C46-C48: exact arithmetic *)
Definition xbox (a b c a' b' c' : R) : bbox xr := mkB (xv a b c) (xv a' b' c').
Definition xray (a b c a' b' c' t : R) : ray xr := mkRay (xv a b c) (xv a' b' c') (xn t).
Lemma isB_xbox a b c a' b' c' : isB (xbox a b c a' b' c') (mk3 a b c) (mk3 a' b' c').
Proof. split; apply is3_xv. Qed.
Lemma isRay_xray a b c a' b' c' t : isRay (xray a b c a' b' c' t) (mk3 a b c) (mk3 a' b' c') t.
Proof. split; [apply is3_xv|split; [apply is3_xv|apply isR_xn]]. Qed.

Lemma slab_refuted : ~ (forall b r lo hi o d tm, isB b lo hi -> le3 lo hi -> isRay r o d tm -> 0 <= tm ->
  (b_do_intersect b r = true <-> exists t, 0 <= t <= tm /\ in_box lo hi (at_ray o d t))).
Proof.
  intros H. specialize (H _ _ _ _ _ _ _ (isB_xbox 0 0 0 1 1 1) ltac:(unfold le3; cbn; lra) (isRay_xray 0 (1/2) (-1) 0 0 1 10) ltac:(lra)).
  assert (K : b_do_intersect (xbox 0 0 0 1 1 1) (xray 0 (1/2) (-1) 0 0 1 10) = true).
  { apply H. exists 1. unfold in_box, le3, at_ray; cbn. lra. }
  unfold b_do_intersect in K. rewrite (slab_graze _ _ _ _ _ _ _ (isB_xbox 0 0 0 1 1 1) (isRay_xray 0 (1/2) (-1) 0 0 1 10)) in K; [discriminate|lra|].
  intros (N & _). apply N. unfold grazes; cbn. lra.
Qed.

Lemma hit_exists b r lo hi o d tm : isB b lo hi -> le3 lo hi -> isRay r o d tm -> 0 <= tm -> no_graze lo hi o d ->
  (b_do_intersect b r = true <-> exists t, 0 <= t <= tm /\ in_box lo hi (at_ray o d t)).
Proof.
  intros H1 H2 H3 H4 H5. assert (S := slab_ok b r lo hi o d tm H1 H2 H3 H4 H5). unfold b_do_intersect.
  destruct (b_intersect_ray b r) as [[x y]|].
  - destruct S as (t0 & t1 & X & Y & L & S). split; [|reflexivity]. intros _. exists t0. apply S. lra.
  - split; [discriminate|]. intros (t & Ht & K). contradiction (S t Ht K).
Qed.

Lemma hit_inside_refuted : ~ (forall b r lo hi o d tm h, isB b lo hi -> le3 lo hi -> isRay r o d tm -> 0 <= tm ->
  b_hit b r = Ret (Some h) -> exists t, isR (t_ray h) t /\ is3 (si_p (h_si h)) (at_ray o d t)).
Proof.
  intros H. assert (D : b_do_intersect (xbox 0 0 0 4 4 4) (xray 1 2 2 0 0 1 10) = true).
  { apply (hit_exists _ _ _ _ _ _ _ (isB_xbox 0 0 0 4 4 4) ltac:(unfold le3; cbn; lra) (isRay_xray 1 2 2 0 0 1 10) ltac:(lra)).
    - unfold no_graze, grazes; cbn. lra.
    - exists 0. unfold in_box, le3, at_ray; cbn. lra. }
  apply do_iff_hit in D. destruct D as (h & D).
  destruct (H _ _ _ _ _ _ _ h (isB_xbox 0 0 0 4 4 4) ltac:(unfold le3; cbn; lra) (isRay_xray 1 2 2 0 0 1 10) ltac:(lra) D) as (t & T & P).
  destruct (hit_exact _ _ _ _ _ _ _ h (isB_xbox 0 0 0 4 4 4) ltac:(unfold le3; cbn; lra) (isRay_xray 1 2 2 0 0 1 10) ltac:(lra) D)
    as (t' & p & n & T' & _ & P' & _ & _ & _ & _ & FN & _ & _ & Z).
  assert (t' = 0) by (apply Z; unfold inner; cbn; lra). rewrite (isR_inj _ _ _ T T'), H0 in P. rewrite <- (is3_inj _ _ _ P P') in FN.
  unfold face_normal, at_ray in FN; cbn in FN. lra.
Qed.

Lemma map_bbox_refuted : ~ (forall t A B b lo hi, built_affine t -> isT t A B -> isB b lo hi -> le3 lo hi ->
  exists lo' hi', isB (t_map_bbox t b) lo' hi' /\ forall p, in_box lo hi p -> in_box lo' hi' (app_pt A p)).
Proof.
  intros H. assert (X := isT_rotate_z (xn (PI / 2)) (PI / 2) (isR_xn _)). 
  match type of X with isT _ ?A ?B => destruct (H _ A B _ _ _ (ba_rotate_z _ _ (isR_xn (PI / 2))) X (isB_xbox 0 0 0 1 1 1) ltac:(unfold le3; cbn; lra)) as (lo' & hi' & K1 & K2);
    assert (V := map_bbox_value _ A _ _ _ (proj1 X) (isB_xbox 0 0 0 1 1 1)); set (AA := A) in * end.
  destruct K1 as [_ K1]. destruct V as [_ V]. 
  assert (E := is3_inj _ _ _ K1 V). specialize (K2 (mk3 1 0 0)). destruct K2 as [_ (_ & K2 & _)]; [unfold in_box, le3; cbn; lra|].
  rewrite E in K2. cbn in K2. unfold colmax in K2. cbn in K2. rewrite cos_PI2, sin_PI2 in K2. unfold wcoord in K2. cbn in K2.
  replace (0 * 1 + 0 * 0 + 0 * 0 + 1) with 1 in K2 by ring. rewrite Rinv_1 in K2.
  repeat (rewrite Rmax_left in K2 by lra || rewrite Rmax_right in K2 by lra). lra.
Qed.

Lemma map_bbox_partial t A B b lo hi : isT t A B -> affine A -> diagonal A -> isB b lo hi -> le3 lo hi ->
  exists lo' hi', isB (t_map_bbox t b) lo' hi' /\ (forall p, in_box lo hi p -> in_box lo' hi' (app_pt A p)) /\
    (forall l h, (forall p, in_box lo hi p -> in_box l h (app_pt A p)) -> le3 l lo' /\ le3 hi' h).
Proof. intros [H _] HA HD HB HL. exact (map_bbox_diag (tm t) A b lo hi H HA HD HB HL). Qed.
Lemma map_bbox_inv_partial t A B b lo hi : isT t A B -> affine B -> diagonal B -> isB b lo hi -> le3 lo hi ->
  exists lo' hi', isB (t_map_bbox_inverse t b) lo' hi' /\ (forall p, in_box lo hi p -> in_box lo' hi' (app_pt B p)) /\
    (forall l h, (forall p, in_box lo hi p -> in_box l h (app_pt B p)) -> le3 l lo' /\ le3 hi' h).
Proof. intros [_ H] HA HD HB HL. exact (map_bbox_diag (tminv t) B b lo hi H HA HD HB HL). Qed.
Lemma scale_translate_diag v w a c : is3 v a -> is3 w c -> cX c <> 0 -> cY c <> 0 -> cZ c <> 0 ->
  exists A B, isT (t_mul (translate v) (scale w)) A B /\ affine A /\ diagonal A /\ affine B /\ diagonal B.
Proof.
  intros Hv Hw X Y Z. assert (T1 := isT_translate v a Hv). assert (T2 := isT_scale w c Hw X Y Z).
  do 2 eexists. split; [exact (isT_mul _ _ _ _ _ _ T1 T2)|].
  unfold affine, diagonal. rewrite !rmul4. cbn. lra.
Qed.

Lemma C43_sample f : fall nonnan (fv f 3 (-2) 5) /\ fall nonnan (fv f 1 7 5).
Proof. split; intros i; apply nonnan_of_finite; revert i; apply fv_finite; lia. Qed.
Definition boxA f : bbox (float f) := mkB (fv f 0 0 0) (fv f 2 3 4).
Definition boxB f : bbox (float f) := mkB (fv f 1 (-1) 2) (fv f 5 1 3).
Lemma fat_nonnan {f} (b : bbox (float f)) : box_fat b -> box_nonnan b /\ box_ordered b.
Proof.
  intros H. split; intros i; specialize (H i).
  - apply flt_E in H. tauto.
  - apply fle_E. apply flt_E in H. destruct H as (? & ? & H). repeat split; auto; lra.
Qed.
Lemma C44_sample f (m : libm f) : box_fat (boxA f) /\ box_fat (boxB f) /\ box_nonnan (boxA f) /\ box_ordered (boxA f) /\ box_nonnan (boxB f) /\
  b_overlaps (boxA f) (boxB f) = true /\ (forall i, pmin (boxA f) @ i <> finf false /\ pmax (boxA f) @ i <> finf true).
Proof.
  destruct (fv_box f 0 0 0 2 3 4) as [F1 F2]; try lia. destruct (fv_box f 1 (-1) 2 5 1 3) as [G1 G2]; try lia.
  split; [exact F2|split; [exact G2|split; [apply fat_nonnan, F2|split; [apply fat_nonnan, F2|split; [apply fat_nonnan, G2|split]]]]].
  - destruct f; vm_compute; reflexivity.
  - intros i. destruct (F1 i) as [A B]. fold (boxA f) in A, B. split; intros K; rewrite K in *; discriminate.
Qed.
Lemma C45_sample f (m : libm f) : box_finite (boxB f) /\ box_ordered (boxB f) /\ (forall i, finite (sadd (pmax (boxB f) @ i) (pmin (boxB f) @ i))) /\
  box_finite (huge_box f) /\ box_ordered (huge_box f).
Proof.
  destruct (fv_box f 1 (-1) 2 5 1 3) as [G1 G2]; try lia.
  split; [exact G1|split; [apply fat_nonnan, G2|split; [|apply huge_ok]]].
  refine (fin3_case _ _ _ _); destruct f; vm_compute; reflexivity.
Qed.
Lemma C46_sample : isB (xbox 0 0 0 1 2 3) (mk3 0 0 0) (mk3 1 2 3) /\ le3 (mk3 0 0 0) (mk3 1 2 3) /\
  isRay (xray (1/2) 2 (-1) 0 0 1 10) (mk3 (1/2) 2 (-1)) (mk3 0 0 1) 10 /\ no_graze (mk3 0 0 0) (mk3 1 2 3) (mk3 (1/2) 2 (-1)) (mk3 0 0 1) /\
  b_do_intersect (xbox 0 0 0 1 2 3) (xray (1/2) 2 (-1) 0 0 1 10) = true.
Proof.
  assert (N : no_graze (mk3 0 0 0) (mk3 1 2 3) (mk3 (1/2) 2 (-1)) (mk3 0 0 1)) by (unfold no_graze, grazes; cbn; lra).
  split; [apply isB_xbox|split; [unfold le3; cbn; lra|split; [apply isRay_xray|split; [exact N|]]]].
  apply (hit_exists _ _ _ _ _ _ _ (isB_xbox 0 0 0 1 2 3) ltac:(unfold le3; cbn; lra) (isRay_xray (1/2) 2 (-1) 0 0 1 10) ltac:(lra) N).
  exists 1. unfold in_box, le3, at_ray; cbn. lra.
Qed.
Lemma C47_sample f (m : libm f) : exists h, b_hit (boxA f) (mkRay (fv f (-1) 1 1) (fv f 1 0 0) (f_of_Z 100)) = Ret (Some h).
Proof. apply do_iff_hit. destruct f; vm_compute; reflexivity. Qed.
Lemma C47_sample_inside : exists h, b_hit (xbox 0 0 0 4 4 4) (xray 1 2 2 0 0 1 10) = Ret (Some h) /\ inner (mk3 0 0 0) (mk3 4 4 4) (mk3 1 2 2).
Proof.
  assert (D : b_do_intersect (xbox 0 0 0 4 4 4) (xray 1 2 2 0 0 1 10) = true).
  { apply (hit_exists _ _ _ _ _ _ _ (isB_xbox 0 0 0 4 4 4) ltac:(unfold le3; cbn; lra) (isRay_xray 1 2 2 0 0 1 10) ltac:(lra)).
    - unfold no_graze, grazes; cbn. lra.
    - exists 0. unfold in_box, le3, at_ray; cbn. lra. }
  apply do_iff_hit in D. destruct D as (h & D). exists h. split; [exact D|unfold inner; cbn; lra].
Qed.
Lemma C48_sample : exists A B, isT (t_mul (translate (xv 1 2 3)) (scale (xv 2 (-1) 5))) A B /\ affine A /\ diagonal A /\ affine B /\ diagonal B.
Proof. eapply scale_translate_diag; [apply is3_xv|apply is3_xv|cbn; lra..]. Qed.
Lemma box_normal_refuted f (m : libm f) : ~ (forall (b : bbox (float f)) (r : ray (float f)) h, b_hit b r = Ret (Some h) ->
    f3 (si_n (h_si h)) = cross3 (f3 (si_dpdu (h_si h))) (f3 (si_dpdv (h_si h)))).
Proof.
  intros H. destruct (C47_sample f m) as (h & K). specialize (H _ _ _ K). destruct (hit_frame _ _ _ K) as (N & _ & _ & _ & _ & _ & X).
  rewrite X in H. revert N H. generalize (f3 (si_n (h_si h))). intros [a b c] N H. unfold scl3 in H. injection H as H1 H2 H3. cbn in *.
  unfold dot3 in N. cbn in N. assert (a = 0) by lra. assert (b = 0) by lra. assert (c = 0) by lra. subst. lra.
Qed.
