(** Corollaries in the form used by Props/P_Transform.v, and sample data for its examples. *)
From Coq Require Import ZArith Reals Bool Lra Lia.
From Coq Require Vector Fin.
From Flocq Require Import Core BinarySingleNaN.
From Verif.Model Require Import FloatBase Scalar Float Interval Outcome Vec Transform XReal Ints.
From Verif Require Import Spec SpecGeom SpecInt.
From Verif.Proofs Require Import BitsLemmas FloatLemmas ScalarProofs IntervalBase IntervalRefute XRealLemmas MatrixProofs TransformProofs RotationProofs
  TransformThms TransformThms2 IntProofs TransformFloat MatrixThms.
Import Vector.VectorNotations.
Open Scope R_scope.

Lemma imul_comm t md (x y : mint md t) : smul x y = smul y x.
Proof. cbn. unfold imul, ilift2. destruct (mval x), (mval y); auto. now rewrite Z.mul_comm. Qed.

Lemma built_products t : built t ->
  isM (m_mul (t_matrix t) (t_inverse_matrix t)) rid /\ isM (m_mul (t_inverse_matrix t) (t_matrix t)) rid.
Proof.
  intros H. destruct (built_inverse_pair t H) as (A & B & (HA & HB) & (I & J)).
  split; (eapply isM_eq; [apply isM_mul; eauto|assumption]).
Qed.
Lemma compose_affine t u : built_affine t -> built_affine u -> forall x a, is3 x a ->
  (exists q r s b, t_map_point u x = Ret q /\ t_map_point t q = Ret r /\ t_map_point (t_mul t u) x = Ret s /\ is3 r b /\ is3 s b) /\
  (exists q r s b, t_map_vector u x = Ret q /\ t_map_vector t q = Ret r /\ t_map_vector (t_mul t u) x = Ret s /\ is3 r b /\ is3 s b).
Proof.
  intros Ht Hu x a Hx. destruct (built_affine_pair t Ht) as (A & B & T1 & _ & A1 & _). destruct (built_affine_pair u Hu) as (C & D & T2 & _ & A2 & _).
  split; [eapply compose_points|eapply compose_vectors]; eauto; rewrite wcoord_affine by assumption; lra.
Qed.
Lemma roundtrip_affine t : built_affine t -> forall x a, is3 x a ->
  (exists q r, t_map_point t x = Ret q /\ t_map_point_inverse t q = Ret r /\ is3 r a) /\
  (exists q r, t_map_point_inverse t x = Ret q /\ t_map_point t q = Ret r /\ is3 r a) /\
  (exists q r, t_map_vector t x = Ret q /\ t_map_vector_inverse t q = Ret r /\ is3 r a) /\
  (exists q r, t_map_vector_inverse t x = Ret q /\ t_map_vector t q = Ret r /\ is3 r a).
Proof.
  intros Ht x a Hx. destruct (built_affine_pair t Ht) as (A & B & T1 & I1 & A1 & B1).
  assert (T2 : isT (t_inverse t) B A) by (apply isT_inverse; assumption).
  assert (I2 : mutually_inverse B A) by (destruct I1; split; assumption).
  split; [|split; [|split]].
  - eapply roundtrip_point; eauto. rewrite wcoord_affine by assumption; lra.
  - apply (roundtrip_point (t_inverse t) B A x a); auto. rewrite wcoord_affine by assumption; lra.
  - eapply roundtrip_vector; eauto.
  - apply (roundtrip_vector (t_inverse t) B A x a); auto.
Qed.
Lemma inverse_maps {T U : Type} {S : Scalar U} {X : Mixed T U} (t : transform T) (x : vec U 3) (r : ray U) :
  t_map_point (t_inverse t) x = t_map_point_inverse t x /\ t_map_point_inverse (t_inverse t) x = t_map_point t x /\
  t_map_vector (t_inverse t) x = t_map_vector_inverse t x /\ t_map_vector_inverse (t_inverse t) x = t_map_vector t x /\
  t_map_normal (t_inverse t) x = t_map_normal_inverse t x /\ t_map_normal_inverse (t_inverse t) x = t_map_normal t x /\
  t_map_ray (t_inverse t) r = t_map_ray_inverse t r /\ t_map_ray_inverse (t_inverse t) r = t_map_ray t r /\
  t_inverse (t_inverse t) = t.
Proof. destruct t. repeat split. Qed.
Lemma ray_tmax {T U : Type} {S : Scalar U} {X : Mixed T U} (t : transform T) (r r' : ray U) :
  t_map_ray t r = Ret r' \/ t_map_ray_inverse t r = Ret r' -> tmax r' = tmax r.
Proof.
  unfold t_map_ray, t_map_ray_inverse. intros [H|H].
  - destruct (t_map_point t (origin r)); cbn in H; [|discriminate]. destruct (t_map_vector t (direction r)); cbn in H; [|discriminate]. injection H as <-. reflexivity.
  - destruct (t_map_point_inverse t (origin r)); cbn in H; [|discriminate]. destruct (t_map_vector_inverse t (direction r)); cbn in H; [|discriminate]. injection H as <-. reflexivity.
Qed.
Lemma ray_roundtrip t : built_affine t -> forall r o d tm, isRay r o d tm ->
  exists r' r'', t_map_ray t r = Ret r' /\ t_map_ray_inverse t r' = Ret r'' /\ isRay r'' o d tm.
Proof.
  intros Ht r o d tm Hr. destruct (built_affine_pair t Ht) as (A & B & T1 & (I & J) & A1 & B1).
  assert (T2 : isT (t_inverse t) B A) by (apply isT_inverse; assumption).
  destruct (map_ray_ok t A B r o d tm T1 A1 Hr) as (r' & E1 & H1 & _).
  destruct (map_ray_ok (t_inverse t) B A r' _ _ tm T2 B1 H1) as (r'' & E2 & H2 & _).
  exists r', r''. split; [exact E1|]. split; [exact E2|].
  rewrite <- app_pt_mul, <- app_vec_mul in H2; auto; try (rewrite wcoord_affine by assumption; lra).
  now rewrite (app_pt_id _ _ J), (app_vec_id _ _ J) in H2.
Qed.
Lemma rotate_axis_turns x a : isR x a ->
  maps_vec (rotate_x x) (mk3 0 1 0) (mk3 0 (cos a) (sin a)) /\
  maps_vec (rotate_y x) (mk3 0 0 1) (mk3 (sin a) 0 (cos a)) /\
  maps_vec (rotate_z x) (mk3 1 0 0) (mk3 (cos a) (sin a) 0).
Proof.
  intros Hx. split; [|split]; intros w Hw.
  - destruct (isT_rotate_x x a Hx) as (M&_). destruct (map_vector_affine _ _ _ _ M Hw) as (q & Eq & Hq); [repeat split|].
    exists q; split; [exact Eq|]. eapply is3_eq; [exact Hq|]. apply R3_eq; cbn; ring.
  - destruct (isT_rotate_y x a Hx) as (M&_). destruct (map_vector_affine _ _ _ _ M Hw) as (q & Eq & Hq); [repeat split|].
    exists q; split; [exact Eq|]. eapply is3_eq; [exact Hq|]. apply R3_eq; cbn; ring.
  - destruct (isT_rotate_z x a Hx) as (M&_). destruct (map_vector_affine _ _ _ _ M Hw) as (q & Eq & Hq); [repeat split|].
    exists q; split; [exact Eq|]. eapply is3_eq; [exact Hq|]. apply R3_eq; cbn; ring.
Qed.
Lemma normals_refuted : ~ (forall t A B n c v a,
  isT t A B -> mutually_inverse A B -> affine A -> is3 n c -> is3 v a -> dot3 c a = 0 ->
  returns (t_map_vector t v) (fun v' => exists m b, is3 (t_map_normal t n) m /\ is3 v' b /\ dot3 m b = 0)).
Proof.
  intros H. destruct normal_perp_false as (n & c & v & a & Hn & Hv & Hd & (v' & E & (m & b & Hm & Hb & D))).
  destruct (H t_identity rid rid n c v a isT_identity) as (v'' & E' & (m' & b' & Hm' & Hb' & D')); auto.
  - split; apply rmul_id_l.
  - apply affine_rid.
  - rewrite E in E'. injection E' as <-. rewrite (is3_inj _ _ _ Hm Hm'), (is3_inj _ _ _ Hb Hb') in D. lra.
Qed.

(** ** sample data *)
Definition xn (r : R) : xr := XFin r false.
Definition xv (x y z : R) : vec xr 3 := vec3 (xn x) (xn y) (xn z).
Definition fv (f : fmt) (x y z : Z) : vec (float f) 3 := vec3 (f_of_Z x) (f_of_Z y) (f_of_Z z).
Definition iv (f : fmt) : vec (interval (float f)) 3 := vec3 (ZI f 0 1) (ZI f (-3) 2) (ZI f (-1) 0).
Definition sampleM : matrix xr :=
  [[xn 1; xn 5; xn 0; xn 2]; [xn 0; xn 2; xn 7; xn 0]; [xn 0; xn 0; xn 3; xn 1]; [xn 0; xn 0; xn 0; xn 1]].
Definition sampleFM : matrix (float F32) :=
  tab4 (fun i => tab4 (fun j => if Fin.eqb i j then f_of_Z 3 else f_of_Z (-1))).
Definition sampleIM (t : ity) : matrix (mint Release t) := tab4 (fun i => tab4 (fun j => if Fin.eqb i j then MI (Some 3) else MI (Some 1)))%Z.
Definition sampleTA : transform xr := t_mul (translate (xv 1 2 3)) (t_inverse (t_mul (rotate_x (xn 1)) (scale (xv 2 3 4)))).
Definition sampleT : transform xr := t_mul (perspective (xn (PI / 3)) (xn 1) (xn 100)) sampleTA.

Lemma isR_xn r : isR (xn r) r. Proof. exists false; reflexivity. Qed.
Lemma is3_xv x y z : is3 (xv x y z) (mk3 x y z). Proof. repeat split; apply isR_xn. Qed.
Lemma C31_sample : realm sampleM /\ (exists A, fM sampleFM A) /\ (forall t, exists a, zmat (sampleIM t) a).
Proof.
  split; [|split].
  - intros i j. fin4 i; fin4 j; eexists; apply isR_xn.
  - exists (fun i j => if Fin.eqb i j then IZR 3 else IZR (-1)). intros i j.
    fin4 i; fin4 j; (apply (f_of_Z_exact (f := F32) 3); vm_compute; discriminate) || (apply (f_of_Z_exact (f := F32) (-1)); vm_compute; discriminate).
  - intros t. exists (fun i j => if Fin.eqb i j then 3 else 1)%Z. intros i j. fin4 i; fin4 j; split; try reflexivity; destruct t; vm_compute; intuition discriminate.
Qed.
Lemma C32_sample : exists A, isM sampleM A /\ rdet A = 6.
Proof.
  exists (lit 1 5 0 2 0 2 7 0 0 0 3 1 0 0 0 1). split.
  - intros i j. fin4 i; fin4 j; apply isR_xn.
  - rewrite rdet_det4. unfold det4, D00, D01, D02, D03, mi. cbn. ring.
Qed.
Lemma C33_sample : built sampleT /\ built_affine sampleTA.
Proof.
  assert (B : built_affine sampleTA).
  { apply ba_mul. eapply ba_translate, is3_xv. apply ba_inverse, ba_mul.
    eapply ba_rotate_x, isR_xn. eapply ba_scale; [apply is3_xv|cbn; lra..]. }
  split; [|exact B]. apply built_mul; [|now apply built_affine_built].
  pose proof PI_RGT_0 as HP. pose proof (sin_gt_0 (PI / 3 / 2)) as HS. pose proof (cos_gt_0 (PI / 3 / 2)) as HC.
  eapply built_perspective; try apply isR_xn; try lra.
Qed.
Lemma C34_sample : exists A B, isT sampleTA A B /\ mutually_inverse A B /\ affine A /\ wcoord A (mk3 1 2 3) <> 0.
Proof.
  destruct (built_affine_pair _ (proj2 C33_sample)) as (A & B & HT & HI & HA & HB). exists A, B. repeat split; try apply HT; try apply HI; try apply HA.
  rewrite wcoord_affine by assumption. lra.
Qed.
Lemma C35_sample : is3 (xv 1 2 2) (mk3 1 2 2) /\ mk3 1 2 2 <> zero3 /\ isR (xn (PI / 3)) (PI / 3).
Proof. split; [apply is3_xv|]. split; [|apply isR_xn]. intros E. injection E. lra. Qed.
Lemma fv_val f x y z : (Z.abs x <= 1000)%Z -> (Z.abs y <= 1000)%Z -> (Z.abs z <= 1000)%Z ->
  (val (vx (fv f x y z)) (IZR x) /\ val (vy (fv f x y z)) (IZR y) /\ val (vz (fv f x y z)) (IZR z)).
Proof.
  intros Hx Hy Hz. assert (1000 <= 2 ^ prec f)%Z by (destruct f; vm_compute; discriminate).
  repeat split; try (apply (f_of_Z_exact (f := f)); lia).
Qed.
Lemma all3 {A} (P : A -> Prop) (v : vec A 3) : P (vx v) -> P (vy v) -> P (vz v) -> forall i, P (Vector.nth v i).
Proof. intros H1 H2 H3 i. revert i. apply fin3_case; assumption. Qed.
Lemma fv_finite f x y z : (Z.abs x <= 1000)%Z -> (Z.abs y <= 1000)%Z -> (Z.abs z <= 1000)%Z -> fall finite (fv f x y z).
Proof. intros Hx Hy Hz. destruct (fv_val f x y z Hx Hy Hz) as ([] & [] & []). intros i. revert i. apply (all3 finite); assumption. Qed.
Lemma C36_sample f : fall finite (fv f 1 (-2) 3) /\ (forall i, B2R (Vector.nth (fv f 1 (-2) 3) i) <> 0) /\
  fall finite (v_div (vec3 sone sone sone) (fv f 1 (-2) 3)).
Proof.
  destruct (fv_val f 1 (-2) 3) as ([F1 V1] & [F2 V2] & [F3 V3]); try lia.
  split; [apply fv_finite; lia|]. split; [intros i; revert i; apply (all3 (fun x => B2R x <> 0)); cbv beta; [intros E; pose proof (eq_trans (eq_sym V1) E)|intros E; pose proof (eq_trans (eq_sym V2) E)|intros E; pose proof (eq_trans (eq_sym V3) E)]; lra|].
  assert (D : forall y : float f, finite y -> 1 <= Rabs (B2R y) -> finite (fdiv sone y)).
  { intros y Fy Hy. destruct (val_one (f := f)) as [F1' V1']. 
    assert (Hy0 : B2R y <> 0) by (intros E; rewrite E, Rabs_R0 in Hy; lra).
    pose proof (fdiv_Rnd sone y F1' Fy Hy0) as HR. destruct HR as [N HE].
    assert (B : -1 <= B2R (sone : float f) / B2R y <= 1).
    { rewrite V1'. apply Rabs_le_inv. unfold Rdiv. rewrite Rmult_1_l, Rabs_inv.
      rewrite <- Rinv_1. apply Rinv_le; lra. }
    pose proof (Rnd_le (sone : float f) _ _ (conj N HE)) as U. pose proof (Rnd_ge (fneg sone : float f) _ _ (conj N HE)) as L.
    rewrite fneg_E, !E_B2R, V1' in * by assumption. apply finite_of_range; auto.
    assert (1 < bpow radix2 (emax f)). { replace 1 with (bpow radix2 0) by reflexivity. apply bpow_lt. destruct f; reflexivity. }
    specialize (U ltac:(lra)). specialize (L ltac:(lra)). lra. }
  intros i. revert i. apply (all3 finite).
  - apply (D _ F1). apply (Rle_trans _ (Rabs 1)); [rewrite Rabs_pos_eq; lra|]. rewrite <- V1. apply Rle_refl.
  - apply (D _ F2). apply (Rle_trans _ (Rabs (-2))); [rewrite Rabs_left; lra|]. rewrite <- V2. apply Rle_refl.
  - apply (D _ F3). apply (Rle_trans _ (Rabs 3)); [rewrite Rabs_pos_eq; lra|]. rewrite <- V3. apply Rle_refl.
Qed.
Lemma C37_sample : is3 (xv 1 2 3) (mk3 1 2 3) /\ cross3 (mk3 0 1 0) (sub3 (mk3 1 2 3) (mk3 0 0 0)) <> zero3.
Proof. split; [apply is3_xv|]. intros E. injection E. cbn. lra. Qed.
Lemma C38_sample : isR (xn (PI / 3)) (PI / 3) /\ 0 < PI / 3 < PI /\ isR (xn 1) 1 /\ isR (xn 100) 100.
Proof. pose proof PI_RGT_0. repeat split; try apply isR_xn; lra. Qed.
Lemma C39_sample : exists A B, isT sampleTA A B /\ mutually_inverse A B /\ affine A /\
  is3 (xv 1 2 0) (mk3 1 2 0) /\ is3 (xv (-2) 1 5) (mk3 (-2) 1 5) /\ dot3 (mk3 1 2 0) (mk3 (-2) 1 5) = 0.
Proof.
  destruct C34_sample as (A & B & H1 & H2 & H3 & _). exists A, B. split; [exact H1|]. split; [exact H2|]. split; [exact H3|].
  split; [apply is3_xv|]. split; [apply is3_xv|]. unfold dot3; cbn; ring.
Qed.
Lemma fM_translate f (m : libm f) x y z : (Z.abs x <= 1000)%Z -> (Z.abs y <= 1000)%Z -> (Z.abs z <= 1000)%Z ->
  fM (t_matrix (translate (fv f x y z))) (lit 1 0 0 (IZR x) 0 1 0 (IZR y) 0 0 1 (IZR z) 0 0 0 1).
Proof.
  intros Hx Hy Hz i j. destruct (fv_val f x y z Hx Hy Hz) as (V1 & V2 & V3).
  fin4 i; fin4 j; first [apply val_one | apply val_zero | exact V1 | exact V2 | exact V3].
Qed.
Lemma iv_ok f : bounded3 (iv f) /\ ordered3 (iv f).
Proof. split; intros i; revert i; (apply (all3 bounded) || apply (all3 ordered)); (apply ZI_bounded || apply ZI_ordered); lia. Qed.
Lemma C40_sample f (m : libm f) : (exists A, fM (t_matrix (translate (fv f 1 (-2) 3))) A /\ affine A) /\
  fall finite (fv f 4 5 6) /\ bounded3 (iv f) /\ ordered3 (iv f).
Proof.
  split; [eexists; split; [apply fM_translate; lia|repeat split]|]. split; [apply fv_finite; lia|apply iv_ok].
Qed.
Lemma interval_affine_refuted f (m : libm f) : ~ (forall (t : transform (float f)) A (v : vec (interval (float f)) 3),
  fM (t_matrix t) A -> affine A -> bounded3 v -> ordered3 v -> returns (t_map_vector t v) (fun _ => True)).
Proof.
  intros H. destruct (C40_sample f m) as ((A & HM & HA) & _ & HB & HO).
  destruct (H _ A (iv f) HM HA HB HO) as (w & E & _). rewrite interval_vector_panics in E; [discriminate| |exact HB|exact HO].
  intros i j. apply HM.
Qed.
Lemma interval_point_affine f (m : libm f) (t : transform (float f)) A (p : vec (interval (float f)) 3) (a : R3) :
  fM (t_matrix t) A -> affine A -> bounded3 p -> mem3 a p ->
  returns (t_map_point t p) (fun q => mem3 (add3 (app_vec A a) (mk3 (A i0 i3) (A i1 i3) (A i2 i3))) q).
Proof.
  intros HM HA B M. assert (W := wcoord_affine A a HA).
  assert (E : app_pt A a = add3 (app_vec A a) (mk3 (A i0 i3) (A i1 i3) (A i2 i3))).
  { unfold app_pt. rewrite W. apply R3_eq; cbn; field. }
  rewrite <- E. apply interval_point; auto. rewrite W. lra.
Qed.
Lemma C41_sample f (m : libm f) : (exists A, fM (t_matrix (translate (fv f 1 (-2) 3))) A /\ affine A) /\
  bounded3 (iv f) /\ mem3 (mk3 (1/3) 2 (-1/7)) (iv f).
Proof.
  split; [apply C40_sample|]. split; [apply iv_ok|].
  split; [|split]; apply ZI_mem; try lia; cbn; lra.
Qed.
Lemma C42_sample : exists A B, isT sampleTA A B /\ affine A /\
  isRay (mkRay (xv 1 2 3) (xv 0 1 (-1)) (xn 10)) (mk3 1 2 3) (mk3 0 1 (-1)) 10.
Proof.
  destruct C34_sample as (A & B & H1 & H2 & H3 & _). exists A, B. split; [exact H1|]. split; [exact H3|].
  split; [apply is3_xv|]. split; [apply is3_xv|apply isR_xn].
Qed.
