(** The bounding box of a float scene contains the computed positions of its parts. *)
From Coq Require Import ZArith Reals Bool List Lra Lia.
From Coq Require Vector Fin.
From Flocq Require Import Core BinarySingleNaN.
From Verif.Model Require Import FloatBase Scalar Float Interval Outcome Vec Transform XReal Geometry.
From Verif Require Import Spec SpecGeom SpecShape SpecBoxes.
From Verif.Proofs Require Import BitsLemmas FloatLemmas ScalarProofs XRealLemmas VectorFloat MatrixProofs TransformProofs TransformFloat TransformCases BoxFloat PrimProofs BoxMapFloat BoxMapCases.
Open Scope R_scope.
Notation "v @ i" := (Vector.nth v i) (at level 20, only parsing).
Section F.
Context {f : fmt} {m : libm f}.
Notation FT := (float f).
Lemma lohi_nonnan (M : matrix FT) (b : bbox FT) A j : fM M A -> box_finite b -> nonnan (lo2 (ea M b j j) (eb M b j j)) /\ nonnan (hi2 (ea M b j j) (eb M b j j)).
Proof.
  intros HM HB. destruct (fM_get M A (lift34 j) (lift34 j) HM) as [K _]. destruct (HB j) as [F1 F2].
  assert (N1 : nonnan (ea M b j j)) by exact (proj1 (fmul_Rnd _ _ K F1)). assert (N2 : nonnan (eb M b j j)) by exact (proj1 (fmul_Rnd _ _ K F2)).
  unfold lo2, hi2. destruct (slt (ea M b j j) (eb M b j j)); split; assumption.
Qed.
Lemma new_nonnan (p q : vec FT 3) : (forall i, nonnan (p @ i) /\ nonnan (q @ i)) -> box_nonnan (b_new p q).
Proof. intros H i. destruct (new_at p q i) as [-> ->]. destruct (H i) as [H1 H2]. split; [apply nmin_E|apply nmax_E]; assumption. Qed.
Lemma map_nonnan (M : matrix FT) A (b : bbox FT) : fM M A -> diagonal A -> box_finite b -> box_nonnan (map_bbox M b).
Proof.
  intros HM (D01 & D02 & D10 & D12 & D20 & D21) HB.
  assert (Z : forall i j, A (lift34 i) (lift34 j) = 0 -> val (lo2 (ea M b i j) (eb M b i j)) 0 /\ val (hi2 (ea M b i j) (eb M b i j)) 0) by (intros i j H; eapply lo_zero; eassumption).
  assert (LH := fun j => lohi_nonnan M b A j HM HB).
  assert (FT3 : forall j : Fin.t 3, finite (mget M (lift34 j) i3)) by (intros j; apply (fM_get M A (lift34 j) i3 HM)).
  rewrite map_bbox_parts. apply new_nonnan. refine (proj2 (forall3 _) _).
  assert (Z10 := Z (Fin.FS Fin.F1) Fin.F1 D10). assert (Z20 := Z (Fin.FS (Fin.FS Fin.F1)) Fin.F1 D20). assert (Z01 := Z Fin.F1 (Fin.FS Fin.F1) D01). assert (Z21 := Z (Fin.FS (Fin.FS Fin.F1)) (Fin.FS Fin.F1) D21). assert (Z02 := Z Fin.F1 (Fin.FS (Fin.FS Fin.F1)) D02). assert (Z12 := Z (Fin.FS Fin.F1) (Fin.FS (Fin.FS Fin.F1)) D12).
  split; [|split]; split.
  - exact (proj1 (sm_c0 _ _ _ _ (FT3 Fin.F1) (proj1 (LH Fin.F1)) (proj1 Z10) (proj1 Z20))).
  - exact (proj1 (sm_c0 _ _ _ _ (FT3 Fin.F1) (proj2 (LH Fin.F1)) (proj2 Z10) (proj2 Z20))).
  - exact (proj1 (sm_c1 _ _ _ _ (FT3 (Fin.FS Fin.F1)) (proj1 (LH (Fin.FS Fin.F1))) (proj1 Z01) (proj1 Z21))).
  - exact (proj1 (sm_c1 _ _ _ _ (FT3 (Fin.FS Fin.F1)) (proj2 (LH (Fin.FS Fin.F1))) (proj2 Z01) (proj2 Z21))).
  - exact (proj1 (sm_c2 _ _ _ _ (FT3 (Fin.FS (Fin.FS Fin.F1))) (proj1 (LH (Fin.FS (Fin.FS Fin.F1)))) (proj1 Z02) (proj1 Z12))).
  - exact (proj1 (sm_c2 _ _ _ _ (FT3 (Fin.FS (Fin.FS Fin.F1))) (proj2 (LH (Fin.FS (Fin.FS Fin.F1)))) (proj2 Z02) (proj2 Z12))).
Qed.
Lemma sphere_nonnan (s : sphere FT) : nonnan (radius s) -> nonnan (z_min s) -> nonnan (z_max s) -> box_nonnan (s_bbox s).
Proof.
  intros R1 R2 R3. unfold s_bbox. apply new_nonnan. assert (R1' := proj2 (fneg_nonnan _) R1). refine (proj2 (forall3 _) _). split; [|split]; split; assumption.
Qed.
Lemma fold_boxes (ps : list (prim FT)) : (forall p, In p ps -> box_nonnan (p_bbox p)) -> forall acc, box_nonnan acc ->
  let r := fold_left (fun acc q => b_union acc (p_bbox q)) ps acc in box_nonnan r /\ (forall q, in_fbox acc q -> in_fbox r q) /\ (forall p q, In p ps -> in_fbox (p_bbox p) q -> in_fbox r q).
Proof.
  induction ps as [|p ps IH]; intros H acc Na; cbn [fold_left]; [split; [exact Na|split; [auto|intros p q []]]|].
  assert (Np := H p (or_introl eq_refl)). assert (Nu := union_nonnan acc (p_bbox p) Na Np). assert (U : forall q, in_fbox acc q \/ in_fbox (p_bbox p) q -> in_fbox (b_union acc (p_bbox p)) q).
  { intros q HQ. rewrite <- !inside_spec in HQ. apply inside_spec. exact (union_inside acc (p_bbox p) Na Np q HQ). }
  destruct (IH (fun p' K => H p' (or_intror K)) _ Nu) as (I1 & I2 & I3). split; [exact I1|]. split; [intros q K; apply I2, U; left; exact K|].
  intros p' q [<-|K] L; [apply I2, U; right; exact L|exact (I3 p' q K L)].
Qed.
Lemma upright_in (ps : list (prim FT)) : upright_scene (PList ps) -> forall p, In p ps -> upright_scene p.
Proof. cbn [upright_scene]. induction ps as [|a ps IH]; intros H p []; cbn [fold_right] in H; [subst; apply H|apply IH; [apply H|assumption]]. Qed.
Lemma scene_nonnan (p : prim FT) : upright_scene p -> box_nonnan (p_bbox p).
Proof.
  induction p as [b|s|q t IH|ps IH|b d h] using prim_ind'; intros H.
  - exact H.
  - destruct H as (H1 & H2 & H3). exact (sphere_nonnan s H1 H2 H3).
  - destruct H as ((A & H1 & _ & H2) & HB & _). exact (map_nonnan (tm t) A (p_bbox q) H1 H2 HB).
  - assert (U := upright_in ps H). rewrite Forall_forall in IH. exact (proj1 (fold_boxes ps (fun p K => IH p K (U p K)) b_default default_nonnan)).
  - exact H.
Qed.
Lemma in_finite (b : bbox FT) q : box_finite b -> in_fbox b q -> fall finite q.
Proof.
  intros HB HI i. destruct (HB i) as [F1 F2]. destruct (HI i) as [I1 I2]. apply fle_E in I1. apply fle_E in I2. destruct I1 as (_ & N & L1). destruct I2 as (_ & _ & L2).
  assert (R1 := finite_E_range _ F1). assert (R2 := finite_E_range _ F2). apply finite_of_range; [exact N|lra].
Qed.
Theorem scene_box (p : prim FT) q : upright_scene p -> sits p q -> in_fbox (p_bbox p) q.
Proof.
  intros HU HS. revert HU. induction HS as [b q H|s q Hx Hy Hz|b d h q H|ps p q HI HS IH|p t q q' HS IH HQ]; intros HU.
  - exact H.
  - destruct HU as (N1 & N2 & N3). assert (N1' := proj2 (fneg_nonnan _) N1). cbn [p_bbox]. unfold s_bbox.
    assert (G : forall l h x : FT, fle l x /\ fle x h -> nonnan l -> nonnan h -> fle (nmin l h) x /\ fle x (nmax l h)).
    { intros l h x [L1 L2] Nl Nh. apply fle_E in L1. apply fle_E in L2. destruct (nmin_E l h Nl Nh) as [M1 M2]. destruct (nmax_E l h Nl Nh) as [M3 M4]. assert (Q1 := Rmin_l (E l) (E h)). assert (Q2 := Rmax_r (E l) (E h)). split; apply fle_E; [rewrite M2|rewrite M4]; (split; [tauto|split; [tauto|lra]]). }
    refine (proj2 (forall3 _) _). split; [|split].
    + exact (G _ _ _ Hx N1' N1).
    + exact (G _ _ _ Hy N1' N1).
    + exact (G _ _ _ Hz N2 N3).
  - exact H.
  - assert (U := upright_in ps HU). exact (proj2 (proj2 (fold_boxes ps (fun p K => scene_nonnan p (U p K)) b_default default_nonnan)) p q HI (IH (U p HI))).
  - destruct HU as ((A & H1 & H2 & H3) & HB & HU). specialize (IH HU). destruct (map_encloses (tm t) A (p_bbox p) q H1 H2 H3 HB (in_finite _ q HB IH) IH) as (q2 & Q & I2). unfold t_map_point in HQ. rewrite Q in HQ. injection HQ as <-. exact I2.
Qed.
Theorem scene_moves (p : prim FT) t q : upright_scene (PTransformed p t) -> sits p q -> exists q', t_map_point t q = Ret q' /\ sits (PTransformed p t) q' /\ in_fbox (p_bbox (PTransformed p t)) q'.
Proof.
  intros HU HS. assert (HU' := HU). destruct HU' as ((A & H1 & H2 & H3) & HB & HP). assert (I1 := scene_box p q HP HS).
  destruct (map_encloses (tm t) A (p_bbox p) q H1 H2 H3 HB (in_finite _ q HB I1) I1) as (q2 & Q & I2). exists q2. split; [exact Q|]. split; [exact (sits_moved p t q q2 HS Q)|exact I2].
Qed.
End F.
(** a scene: a box and a moved ball, scaled *)
Definition ball98 (f : fmt) : sphere (float f) := mkS (f_of_Z 2) (f_of_Z (-1)) (f_of_Z 2) (f_of_Z 2) (f_of_Z 0) (f_of_Z 4).
Definition scene98 (f : fmt) {m : libm f} : prim (float f) := PTransformed (PList (PBox (box97 f) :: PTransformed (PSphere (ball98 f)) (translate (fv f 3 (-2) 7)) :: nil)) (scale (fv f 3 (-2) 7)).
Lemma scene98_upright f (m : libm f) : upright_scene (scene98 f).
Proof.
  assert (S := proj1 (C97_sample f m)). destruct (translate_ok (m := m) _ S) as (A & _ & A1 & A2 & A3 & _). split; [exact (scale_ok (m := m) _ S)|]. split.
  - refine (proj2 (forall3 _) _). destruct f; (split; [|split]; split); vm_compute; reflexivity.
  - cbn [upright_scene fold_right]. split; [|split; [split; [exists A; auto|split]|exact I]].
    + intros i. destruct (C97_sample f m) as (_ & _ & B & _). destruct (B i). split; apply nonnan_of_finite; assumption.
    + refine (proj2 (forall3 _) _). destruct f; (split; [|split]; split); vm_compute; reflexivity.
    + destruct f; (split; [|split]); vm_compute; reflexivity.
Qed.
Lemma scene98_sits f (m : libm f) : exists q, sits (scene98 f) q.
Proof.
  destruct (C97_sample f m) as (_ & _ & _ & _ & _ & HI). destruct (scene_moves (PList (PBox (box97 f) :: PTransformed (PSphere (ball98 f)) (translate (fv f 3 (-2) 7)) :: nil)) (scale (fv f 3 (-2) 7)) (fv f 1 3 0) (scene98_upright f m)) as (q & _ & S & _).
  - apply (sits_list _ (PBox (box97 f))); [left; reflexivity|]. apply sits_box. exact HI.
  - exists q. exact S.
Qed.
Lemma empty_refuted f (m : libm f) : ~ (forall (p : prim (float f)) q, upright_scene p -> shapeless p -> b_inside (p_bbox p) q = false).
Proof.
  intros H. assert (F0 : fall finite (fv f 0 0 0)) by (apply fv_finite; lia). destruct (translate_ok (m := m) _ F0) as (A & _ & A1 & A2 & A3 & _).
  assert (U : upright_scene (PTransformed (PList nil) (translate (fv f 0 0 0)))).
  { split; [exists A; auto|]. split; [|exact I]. refine (proj2 (forall3 _) _). destruct f; (split; [|split]; split); vm_compute; reflexivity. }
  specialize (H _ (fv f 1 2 3) U I). revert H. clear. destruct f; vm_compute; discriminate.
Qed.
Lemma union_default f (m : libm f) : b_union (b_default (T := float f)) b_default = b_default.
Proof.
  unfold b_union, b_default. cbn [pmin pmax]. assert (G : forall x : float f, nonnan x -> nmin x x = x /\ nmax x x = x).
  { intros x N. cbn [nmin nmax float_native]. unfold native_min, native_max. unfold nonnan in N. rewrite N. split; match goal with |- (if ?c then _ else _) = _ => destruct c end; reflexivity. }
  assert (D := default_nonnan (f := f) (m := m) Fin.F1). destruct D as [D1 D2]. destruct (G _ D1) as [G1 _]. destruct (G _ D2) as [_ G2]. cbn in G1, G2 |- *. rewrite G1, G2. reflexivity.
Qed.
Lemma hollow_default f (m : libm f) (p : prim (float f)) : hollow p -> p_bbox p = b_default.
Proof.
  induction p as [b|s|q t IH|ps IH|b d h] using prim_ind'; intros H; try contradiction. cbn [p_bbox]. cbn [hollow] in H. induction IH as [|a l HA HL IHL]; [reflexivity|]. cbn [fold_left]. cbn [fold_right] in H. rewrite (HA (proj1 H)), union_default. apply IHL. apply H.
Qed.
Lemma hollow_empty f (m : libm f) (p : prim (float f)) q : hollow p -> b_inside (p_bbox p) q = false.
Proof. intros H. rewrite (hollow_default f m p H). apply default_empty. Qed.
