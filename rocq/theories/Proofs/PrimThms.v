(** Primitive lists over floats, transformed primitives in exact arithmetic, samples. *)
From Coq Require Import ZArith Reals Bool List Lra Lia Permutation.
From Coq Require Vector Fin.
From Flocq Require Import Core BinarySingleNaN.
From Verif.Model Require Import FloatBase Scalar Float Interval Outcome Vec Transform XReal Geometry.
From Verif Require Import Spec SpecGeom SpecShape SpecSphere SpecPrim.
From Verif.Proofs Require Import BitsLemmas FloatLemmas ScalarProofs IntervalRefute XRealLemmas MatrixProofs TransformProofs TransformThms TransformCases
  BoxFloat BoxExact BoxCases SphereExact SphereThms SphereCases PrimProofs.
Open Scope R_scope.
Notation "v @ i" := (Vector.nth v i) (at level 20, only parsing).

(** ** C55 *)
Lemma list_closest_sorted {T} {G : GFloat T} {N : Native T} (le : T -> T -> Prop) (ps : list (prim T)) r h :
  p_intersect (PList ps) r = Ret (Some h) ->
  (forall l1 q1 l2 q2 l3 h1 h2, ps = l1 ++ q1 :: l2 ++ q2 :: l3 -> p_intersect q1 r = Ret (Some h1) -> p_intersect q2 r = Ret (Some h2) -> le (t_ray h2) (t_ray h1)) ->
  forall q h', In q ps -> p_intersect q r = Ret (Some h') -> h' = h \/ le (t_ray h) (t_ray h').
Proof.
  intros H S q h' I Q. rewrite list_eq in H. destruct (fold_run _ _ _ _ H) as [_ [[K _]|(l1 & q0 & l2 & h0 & -> & Q0 & K & L)]]; [discriminate|]. injection K as <-.
  apply in_app_or in I. destruct I as [I|[<-|I]].
  - right. destruct (in_split _ _ I) as (a & b & ->). apply (S a q b q0 l2); auto. rewrite <- app_assoc. reflexivity.
  - left. congruence.
  - rewrite (L q I) in Q. discriminate.
Qed.
Definition nearP f : prim (float f) := PBox (mkB (fv f 0 0 0) (fv f 2 2 2)).
Definition farP f : prim (float f) := PBox (mkB (fv f 4 0 0) (fv f 6 2 2)).
Definition rayP f : ray (float f) := mkRay (fv f (-1) 1 1) (fv f 1 0 0) (f_of_Z 100).
Lemma near_far f (m : libm f) : exists h1 h2, p_intersect (nearP f) (rayP f) = Ret (Some h1) /\ p_intersect (farP f) (rayP f) = Ret (Some h2) /\
  flt (t_ray h1) (t_ray h2).
Proof.
  unfold nearP, farP. cbn [p_intersect]. rewrite !hit_eq.
  set (b1 := mkB (fv f 0 0 0) (fv f 2 2 2)). set (b2 := mkB (fv f 4 0 0) (fv f 6 2 2)).
  assert (K : match b_intersect_ray b1 (rayP f), b_intersect_ray b2 (rayP f) with Some (t, _), Some (t', _) => slt t t' | _, _ => false end = true)
    by (destruct f; vm_compute; reflexivity).
  destruct (b_intersect_ray b1 (rayP f)) as [[t u]|]; [|discriminate]. destruct (b_intersect_ray b2 (rayP f)) as [[t' u']|]; [|discriminate].
  cbv zeta. eexists _, _. split; [reflexivity|split; [reflexivity|]]. cbn [t_ray]. apply slt_spec. exact K.
Qed.
Lemma closest_refuted f (m : libm f) : ~ (forall (ps : list (prim (float f))) r h, p_intersect (PList ps) r = Ret (Some h) ->
  forall q h', In q ps -> p_intersect q r = Ret (Some h') -> fle (t_ray h) (t_ray h')).
Proof.
  intros C. destruct (near_far f m) as (h1 & h2 & H1 & H2 & L).
  assert (K : p_intersect (PList (nearP f :: farP f :: nil)) (rayP f) = Ret (Some h2)).
  { apply (list_last (nearP f :: nil) (farP f) nil); [|exact H2|intros q []]. intros q [<-|[]]. eauto. }
  specialize (C _ _ _ K (nearP f) h1 (or_introl eq_refl) H1). apply flt_E in L. apply fle_E in C. lra.
Qed.
Lemma C55_sample f (m : libm f) : exists h, p_intersect (PList (farP f :: nearP f :: nil)) (rayP f) = Ret (Some h) /\
  (forall l1 q1 l2 q2 l3 h1 h2, (farP f :: nearP f :: nil)%list = l1 ++ q1 :: l2 ++ q2 :: l3 -> p_intersect q1 (rayP f) = Ret (Some h1) -> p_intersect q2 (rayP f) = Ret (Some h2) -> fle (t_ray h2) (t_ray h1)).
Proof.
  destruct (near_far f m) as (h1 & h2 & H1 & H2 & L). exists h1. split.
  - apply (list_last (farP f :: nil) (nearP f) nil); [|exact H1|intros q []]. intros q [<-|[]]. eauto.
  - intros l1 q1 l2 q2 l3 a b E A B. destruct l1 as [|x [|y l1]]; cbn in E.
    + injection E as <- E. destruct l2 as [|z l2]; cbn in E.
      * injection E as <- E. rewrite H2 in A. rewrite H1 in B. injection A as <-. injection B as <-. left. exact L.
      * injection E as _ E. destruct l2; discriminate.
    + injection E as _ _ E. destruct l2; discriminate.
    + injection E as _ _ E. destruct l1; discriminate.
Qed.

(** ** C57 *)
Section ListBox.
Context {f : fmt} {m : libm f}.
Notation FT := (float f).
Definition ustep (acc : bbox FT) (q : prim FT) : bbox FT := b_union acc (p_bbox q).
Lemma lbox_eq ps : p_bbox (PList ps) = fold_left ustep ps b_default.
Proof. reflexivity. Qed.
Lemma lbox_E ps acc : box_nonnan acc -> (forall q, In q ps -> box_nonnan (p_bbox q)) -> forall i,
  nonnan (pmin (fold_left ustep ps acc) @ i) /\ nonnan (pmax (fold_left ustep ps acc) @ i) /\
  E (pmin (fold_left ustep ps acc) @ i) = fold_right (fun q a => Rmin (E (pmin (p_bbox q) @ i)) a) (E (pmin acc @ i)) ps /\
  E (pmax (fold_left ustep ps acc) @ i) = fold_right (fun q a => Rmax (E (pmax (p_bbox q) @ i)) a) (E (pmax acc @ i)) ps.
Proof.
  intros Na H i. revert acc Na. induction ps as [|q ps IH]; intros acc Na.
  - destruct (Na i). cbn. auto.
  - cbn [fold_left fold_right]. assert (Nq : box_nonnan (p_bbox q)) by (apply H; left; reflexivity).
    destruct (IH (fun q' I => H q' (or_intror I)) (ustep acc q) (union_nonnan _ _ Na Nq)) as (K1 & K2 & K3 & K4).
    split; [exact K1|split; [exact K2|]]. rewrite K3, K4. destruct (uE _ _ Na Nq i) as (_ & _ & U1 & U2). unfold ustep. rewrite U1, U2.
    clear. split.
    + induction ps as [|p ps IH]; cbn [fold_right]; [apply Rmin_comm|]. rewrite IH, !Rmin_assoc. f_equal. apply Rmin_comm.
    + induction ps as [|p ps IH]; cbn [fold_right]; [apply Rmax_comm|]. rewrite IH, !Rmax_assoc. f_equal. apply Rmax_comm.
Qed.
Lemma fold_min_le (g : prim FT -> R) a ps : fold_right (fun q x => Rmin (g q) x) a ps <= a /\ forall q, In q ps -> fold_right (fun q x => Rmin (g q) x) a ps <= g q.
Proof.
  induction ps as [|p ps [I1 I2]]; cbn [fold_right].
  - split; [lra|intros q []].
  - split; [eapply Rle_trans; [apply Rmin_r|exact I1]|]. intros q [<-|I]; [apply Rmin_l|eapply Rle_trans; [apply Rmin_r|exact (I2 q I)]].
Qed.
Lemma fold_min_glb (g : prim FT -> R) a ps b : b <= a -> (forall q, In q ps -> b <= g q) -> b <= fold_right (fun q x => Rmin (g q) x) a ps.
Proof. intros A. induction ps as [|p ps IH]; intros H; cbn [fold_right]; [exact A|]. apply Rmin_glb; [apply H; left; reflexivity|apply IH; intros; apply H; right; assumption]. Qed.
Lemma fold_max_ge (g : prim FT -> R) a ps : a <= fold_right (fun q x => Rmax (g q) x) a ps /\ forall q, In q ps -> g q <= fold_right (fun q x => Rmax (g q) x) a ps.
Proof.
  induction ps as [|p ps [I1 I2]]; cbn [fold_right].
  - split; [lra|intros q []].
  - split; [eapply Rle_trans; [exact I1|apply Rmax_r]|]. intros q [<-|I]; [apply Rmax_l|eapply Rle_trans; [exact (I2 q I)|apply Rmax_r]].
Qed.
Lemma fold_max_lub (g : prim FT -> R) a ps b : a <= b -> (forall q, In q ps -> g q <= b) -> fold_right (fun q x => Rmax (g q) x) a ps <= b.
Proof. intros A. induction ps as [|p ps IH]; intros H; cbn [fold_right]; [exact A|]. apply Rmax_lub; [apply H; left; reflexivity|apply IH; intros; apply H; right; assumption]. Qed.

Lemma list_box_contains ps : (forall q, In q ps -> box_nonnan (p_bbox q)) -> forall q, In q ps ->
  box_within (p_bbox q) (p_bbox (PList ps)) /\ forall x, b_inside (p_bbox q) x = true -> b_inside (p_bbox (PList ps)) x = true.
Proof.
  intros H q I. assert (W : box_within (p_bbox q) (p_bbox (PList ps))).
  { intros i. rewrite lbox_eq. destruct (lbox_E ps _ default_nonnan H i) as (K1 & K2 & K3 & K4). rewrite !fle_E, K3, K4. destruct (H q I i).
    split; (split; [assumption|split; [assumption|]]).
    - apply (fold_min_le (fun q => E (pmin (p_bbox q) @ i)) _ ps). exact I.
    - apply (fold_max_ge (fun q => E (pmax (p_bbox q) @ i)) _ ps). exact I. }
  split; [exact W|]. intros x. apply within_inside. exact W.
Qed.
Lemma list_box_least ps c : (forall q, In q ps -> box_nonnan (p_bbox q)) -> ps <> nil ->
  (forall q i, In q ps -> pmin (p_bbox q) @ i <> finf false /\ pmax (p_bbox q) @ i <> finf true) ->
  (forall q, In q ps -> box_within (p_bbox q) c) -> box_within (p_bbox (PList ps)) c.
Proof.
  intros H NE F W i. rewrite lbox_eq. destruct (lbox_E ps _ default_nonnan H i) as (K1 & K2 & K3 & K4). rewrite !fle_E, K3, K4.
  destruct ps as [|q0 ps0]; [congruence|]. set (ps := (q0 :: ps0)%list) in *. assert (I0 : In q0 ps) by (left; reflexivity).
  destruct (W q0 I0 i) as [L U]. apply fle_E in L, U. destruct (H q0 I0 i) as [N1 N2], (F q0 i I0) as [F1 F2].
  destruct (default_at i) as [D1 D2]. rewrite D1, D2.
  split; (split; [tauto|split; [tauto|]]).
  - apply (fold_min_glb (fun q => E (pmin (p_bbox q) @ i))).
    + eapply Rle_trans; [apply L|]. apply fmax_E; assumption.
    + intros q I. destruct (W q I i) as [L' _]. apply fle_E in L'. tauto.
  - apply (fold_max_lub (fun q => E (pmax (p_bbox q) @ i))).
    + eapply Rle_trans; [|apply U]. apply fmin_E; assumption.
    + intros q I. destruct (W q I i) as [_ U']. apply fle_E in U'. tauto.
Qed.
Lemma list_box_order ps qs : Permutation ps qs -> (forall q, In q ps -> box_nonnan (p_bbox q)) -> box_same (p_bbox (PList ps)) (p_bbox (PList qs)).
Proof.
  intros P H. assert (H' : forall q, In q qs -> box_nonnan (p_bbox q)) by (intros q I; apply H; eapply Permutation_in; [apply Permutation_sym; exact P|exact I]).
  intros i. rewrite !lbox_eq. destruct (lbox_E ps _ default_nonnan H i) as (K1 & K2 & K3 & K4). destruct (lbox_E qs _ default_nonnan H' i) as (L1 & L2 & L3 & L4).
  rewrite !feq_E, K3, K4, L3, L4. clear - P K1 K2 L1 L2.
  split; (split; [assumption|split; [assumption|]]); clear K1 K2 L1 L2; induction P; cbn [fold_right]; try congruence.
  - rewrite !Rmin_assoc. f_equal. apply Rmin_comm.
  - rewrite !Rmax_assoc. f_equal. apply Rmax_comm.
Qed.
Lemma list_box_empty p : b_inside (p_bbox (PList (nil : list (prim FT)))) p = false.
Proof. apply default_empty. Qed.
End ListBox.
Lemma C57_sample f (m : libm f) : let ps := (PBox (boxA f) :: PList (PBox (boxB f) :: nil) :: nil)%list in
  forall q, In q ps -> box_nonnan (p_bbox q) /\ forall i, pmin (p_bbox q) @ i <> finf false /\ pmax (p_bbox q) @ i <> finf true.
Proof.
  intros ps q I. assert (F : box_finite (p_bbox q)).
  { destruct I as [<-|[<-|[]]]; refine (fin3_case _ _ _ _); destruct f; split; vm_compute; reflexivity. }
  split; intros i; destruct (F i) as [A B]; (split; [|]); try (apply nonnan_of_finite; assumption); intros K; rewrite K in *; discriminate.
Qed.

(** ** C58 *)
Lemma app_vec0 A : app_vec A zero3 = zero3.
Proof. unfold app_vec, zero3; cbn. f_equal; ring. Qed.
Lemma transformed q t A B r o d tm : isT t A B -> mutually_inverse A B -> affine A -> affine B -> isRay r o d tm ->
  exists r', t_map_ray_inverse t r = Ret r' /\ isRay r' (app_pt B o) (app_vec B d) tm /\ p_intersect (PTransformed q t) r = p_intersect q r' /\
    p_do_intersect (PTransformed q t) r = p_do_intersect q r' /\ (forall u, app_pt A (at_ray (app_pt B o) (app_vec B d) u) = at_ray o d u) /\
    (forall u, at_ray (app_pt B o) (app_vec B d) u = app_pt B (at_ray o d u)) /\ (d <> zero3 -> app_vec B d <> zero3).
Proof.
  intros HT (I & J) HA HB Hr. assert (T2 : isT (t_inverse t) B A) by (apply isT_inverse; assumption).
  destruct (map_ray_ok (t_inverse t) B A r o d tm T2 HB Hr) as (r' & E & H & _). exists r'.
  assert (E' : t_map_ray_inverse t r = Ret r') by (rewrite <- E; destruct t; reflexivity).
  split; [exact E'|split; [exact H|]]. cbn [p_intersect p_do_intersect].
  split; [change (obind (t_map_ray_inverse t r) (fun r' => p_intersect q r') = p_intersect q r'); rewrite E'; reflexivity|].
  split; [change (obind (t_map_ray_inverse t r) (fun r' => p_do_intersect q r') = p_do_intersect q r'); rewrite E'; reflexivity|].
  assert (RT : forall p, app_pt A (app_pt B p) = p).
  { intros p. rewrite <- app_pt_mul; [apply app_pt_id; exact I| |]; rewrite wcoord_affine by assumption; lra. }
  split; [|split].
  - intros u. rewrite <- app_pt_at by assumption. apply RT.
  - intros u. symmetry. apply app_pt_at. exact HB.
  - intros Hd K. apply Hd. rewrite <- (app_vec_id _ d I), app_vec_mul by assumption. rewrite K. apply app_vec0.
Qed.
Lemma transformed_hit q t r o d tm h : built_affine t -> isRay r o d tm -> p_intersect (PTransformed q t) r = Ret (Some h) ->
  exists A B r', isT t A B /\ t_map_ray_inverse t r = Ret r' /\ isRay r' (app_pt B o) (app_vec B d) tm /\ p_intersect q r' = Ret (Some h) /\
    forall u, isR (t_ray h) u -> is3 (si_p (h_si h)) (at_ray (app_pt B o) (app_vec B d) u) ->
      returns (t_map_point t (si_p (h_si h))) (fun w => is3 w (at_ray o d u)).
Proof.
  intros Ht Hr Hh. destruct (built_affine_pair t Ht) as (A & B & T1 & I & A1 & B1).
  destruct (transformed q t A B r o d tm T1 I A1 B1 Hr) as (r' & E & H & P & _ & RT & _). exists A, B, r'.
  split; [exact T1|split; [exact E|split; [exact H|split; [rewrite <- P; exact Hh|]]]].
  intros u Hu Hp. destruct T1 as [M _]. destruct (map_point_affine _ _ _ _ M Hp A1) as (w & Ew & Hw). exists w. split; [exact Ew|]. rewrite RT in Hw. exact Hw.
Qed.
Lemma transformed_sphere rd' z0' z1' p1' rad z0 z1 p1 s t r o d tm :
  isR rd' rad -> isR z0' z0 -> isR z1' z1 -> isR p1' p1 -> s_new rd' z0' z1' p1' = Ret s -> built_affine t -> isRay r o d tm -> d <> zero3 -> PI <= p1 ->
  exists (F : R3 -> R3), (forall a, unmaps_pt t a (F a)) /\
    (p_do_intersect (PTransformed (PSphere s) t) r = Ret true <-> exists u, 0 <= u <= tm /\ on_sphere rad z0 z1 (F (at_ray o d u))) /\
    forall h, p_intersect (PTransformed (PSphere s) t) r = Ret (Some h) ->
      exists u, isR (t_ray h) u /\ 0 <= u <= tm /\ on_sphere rad z0 z1 (F (at_ray o d u)) /\
        (forall v, 0 <= v <= tm -> on_sphere rad z0 z1 (F (at_ray o d v)) -> u <= v) /\
        is3 (si_p (h_si h)) (F (at_ray o d u)) /\ returns (t_map_point t (si_p (h_si h))) (fun w => is3 w (at_ray o d u)).
Proof.
  intros H1 H2 H3 H4 HN Ht Hr Hd HP. destruct (built_affine_pair t Ht) as (A & B & T1 & I & A1 & B1).
  destruct (transformed (PSphere s) t A B r o d tm T1 I A1 B1 Hr) as (r' & E & H & P & PD & RT & RB & Z). specialize (Z Hd).
  destruct (hit_full _ _ _ _ _ _ _ _ _ _ _ _ _ H1 H2 H3 H4 HN H Z HP) as [D1 D2]. exists (app_pt B).
  split; [|split].
  - intros a v Hv. destruct T1 as [_ M]. exact (map_point_affine _ _ _ _ M Hv B1).
  - rewrite PD. cbn [p_do_intersect]. assert (X : Ret (s_do_intersect s r') = Ret true <-> s_do_intersect s r' = true) by (split; [intros K; injection K; auto|intros ->; reflexivity]).
    rewrite X, D1. split; intros (u & U1 & U2); exists u; (split; [exact U1|]); [rewrite <- RB|rewrite RB]; exact U2.
  - intros h Hh. rewrite P in Hh. cbn [p_intersect] in Hh. injection Hh as Hh. destruct (D2 h Hh) as (u & U1 & U2 & (U3 & U4) & U5). exists u.
    rewrite RB in U2, U4. split; [exact U1|split; [exact U3|split; [exact U4|split; [|split; [exact U2|]]]]].
    + intros v V1 V2. apply U5. split; [exact V1|]. rewrite RB. exact V2.
    + destruct T1 as [M _]. destruct (map_point_affine _ _ _ _ M U2 A1) as (w & Ew & Hw). exists w. split; [exact Ew|]. rewrite <- RB, RT in Hw. exact Hw.
Qed.
Lemma c58_hit : exists s h, xsphere 1 (-1) 1 pi = Ret s /\ p_intersect (PTransformed (PSphere s) (translate (xv 10 0 0))) (xray 15 0 0 (-1) 0 0 100) = Ret (Some h).
Proof.
  assert (PP := PI_RGT_0). destruct full_ball as [s Hs]. exists s.
  assert (ND : mk3 (-1) 0 0 <> zero3) by (intros K; injection K; lra).
  assert (HT := isT_translate _ _ (is3_xv 10 0 0)). 
  destruct (built_affine_pair _ (ba_translate _ _ (is3_xv 10 0 0))) as (A & B & T1 & I & A1 & B1).
  destruct (transformed_sphere _ _ _ _ _ _ _ _ s (translate (xv 10 0 0)) _ _ _ _ (isR_xn 1) (isR_xn (-1)) (isR_xn 1) isR_pi Hs (ba_translate _ _ (is3_xv 10 0 0)) (isRay_xray 15 0 0 (-1) 0 0 100) ND ltac:(lra))
    as (F & HF & D & _).
  assert (FV : F (at_ray (mk3 15 0 0) (mk3 (-1) 0 0) 4) = mk3 1 0 0).
  { destruct HT as [_ M]. assert (W := is3_xv 11 0 0). replace (at_ray (mk3 15 0 0) (mk3 (-1) 0 0) 4) with (mk3 11 0 0) by (unfold at_ray, add3, scl3; cbn; f_equal; lra).
    destruct (HF _ _ W) as (w & E & H). destruct (map_point_affine _ _ _ _ M W ltac:(repeat split)) as (w' & E' & H'). unfold t_map_point_inverse, t_inverse_matrix in *.
    rewrite E in E'. injection E' as <-. rewrite (is3_inj _ _ _ H H'). unfold app_pt. rewrite wcoord_affine by (repeat split). apply R3_eq; cbn; field. }
  assert (DT : p_do_intersect (PTransformed (PSphere s) (translate (xv 10 0 0))) (xray 15 0 0 (-1) 0 0 100) = Ret true).
  { apply D. exists 4. split; [lra|]. rewrite FV. unfold on_sphere, dot3; cbn. lra. }
  destruct (transformed (PSphere s) (translate (xv 10 0 0)) A B _ _ _ _ T1 I A1 B1 (isRay_xray 15 0 0 (-1) 0 0 100)) as (r' & _ & _ & P & PD & _).
  rewrite PD in DT. cbn [p_do_intersect] in DT. injection DT as DT. apply s_do_eq in DT. destruct DT as [h DT]. exists h. split; [exact Hs|]. rewrite P. cbn [p_intersect]. rewrite DT. reflexivity.
Qed.
Lemma world_refuted : ~ (forall rd' z0' z1' p1' rad z0 z1 p1 s t r o d tm h,
  isR rd' rad -> isR z0' z0 -> isR z1' z1 -> isR p1' p1 -> s_new rd' z0' z1' p1' = Ret s -> built_affine t -> isRay r o d tm -> d <> zero3 ->
  p_intersect (PTransformed (PSphere s) t) r = Ret (Some h) ->
  exists u, isR (t_ray h) u /\ is3 (si_p (h_si h)) (at_ray o d u)).
Proof.
  intros C. assert (PP := PI_RGT_0). destruct c58_hit as (s & h & Hs & Hh).
  assert (ND : mk3 (-1) 0 0 <> zero3) by (intros K; injection K; lra).
  destruct (C _ _ _ _ _ _ _ _ s (translate (xv 10 0 0)) _ _ _ _ h (isR_xn 1) (isR_xn (-1)) (isR_xn 1) isR_pi Hs (ba_translate _ _ (is3_xv 10 0 0)) (isRay_xray 15 0 0 (-1) 0 0 100) ND Hh) as (u & U & P).
  destruct (transformed_sphere _ _ _ _ _ _ _ _ s (translate (xv 10 0 0)) _ _ _ _ (isR_xn 1) (isR_xn (-1)) (isR_xn 1) isR_pi Hs (ba_translate _ _ (is3_xv 10 0 0)) (isRay_xray 15 0 0 (-1) 0 0 100) ND ltac:(lra))
    as (F & _ & _ & H). destruct (H h Hh) as (u' & U' & _ & _ & _ & _ & (w & E & W)). rewrite <- (isR_inj _ _ _ U U') in W.
  destruct (isT_translate _ _ (is3_xv 10 0 0)) as [M _]. destruct (map_point_affine _ _ _ _ M P ltac:(repeat split)) as (w' & E' & W').
  unfold t_map_point, t_matrix in *. rewrite E in E'. injection E' as <-. assert (K := is3_inj _ _ _ W W'). unfold app_pt in K. rewrite wcoord_affine in K by (repeat split).
  unfold at_ray in K; cbn in K. injection K as K _ _. lra.
Qed.
Lemma C54_sample : exists s : sphere xr, xsphere 1 (-1) 1 pi = Ret s /\
  customs_agree (PList (PTransformed (PList (PBox (xbox 0 0 0 1 1 1) :: PSphere s :: nil)) sampleTA ::
    PCustom (xbox 0 0 0 1 1 1) (fun _ => Ret false) (fun _ => Ret None) :: nil)).
Proof. destruct full_ball as [s Hs]. exists s. split; [exact Hs|]. cbn. auto. Qed.
