(** * Lemmas behind Props/P_Transform.v *)
From Coq Require Import ZArith Reals Bool List Lra Nsatz.
From Coq Require Vector Fin.
From Flocq Require Import Core.
From Verif.Model Require Import FloatBase Scalar XReal Vec Transform Outcome.
From Verif Require Import SpecGeom.
From Verif.Proofs Require Import XRealLemmas MatrixProofs TransformProofs RotationProofs.
Import Vector.VectorNotations.
Open Scope R_scope.

(** ** perspective *)
Definition perspm (e n f : R) : rmat :=
  lit (- e) 0 0 0 0 (- e) 0 0 0 0 (f / (f - n)) (f * n / (f - n)) 0 0 1 0.
Lemma det_perspm : forall e n f, f <> n -> det4 (perspm e n f) = - (e * e * (f * n / (f - n))).
Proof. intros e n f H. unfold det4; undet; unfold perspm; cbn. field; lra. Qed.
Lemma isM_persp : forall fov near far a n f, isR fov a -> isR near n -> isR far f ->
  tan (a / 2) <> 0 -> n <> f -> isM (t_matrix (perspective fov near far)) (perspm (/ tan (a / 2)) n f).
Proof.
  intros fov near far a n f Ha Hn Hf Ht Hnf.
  assert (He : isR (recip (gtan (smul fov half))) (/ tan (a / 2))).
  { eapply isR_eq; [apply isR_recip; [repeat isr_step|] |]; replace (a * (1 / 2)) with (a / 2) by field; auto. field; auto. }
  unfold perspective, t_matrix, t_new, tm. set (e := recip _) in *. clearbody e.
  apply isM_lit; repeat isr_step; lra.
Qed.
Lemma tan_nz : forall x, sin x <> 0 -> cos x <> 0 -> tan x <> 0.
Proof.
  intros x Hs Hc. unfold tan, Rdiv. apply Rmult_integral_contrapositive_currified; auto. apply Rinv_neq_0_compat; auto.
Qed.
Lemma det_persp_nz : forall a n f, tan (a / 2) <> 0 -> n <> 0 -> f <> 0 -> n <> f -> det4 (perspm (/ tan (a / 2)) n f) <> 0.
Proof.
  intros a n f Ht Hn Hf Hnf. rewrite det_perspm by auto. set (e := / tan (a / 2)).
  assert (He : e <> 0) by (apply Rinv_neq_0_compat; auto).
  apply Ropp_neq_0_compat. repeat apply Rmult_integral_contrapositive_currified; auto. apply Rinv_neq_0_compat; lra.
Qed.
Lemma isT_persp : forall fov near far a n f, isR fov a -> isR near n -> isR far f ->
  tan (a / 2) <> 0 -> n <> 0 -> f <> 0 -> n <> f ->
  isT (perspective fov near far) (perspm (/ tan (a / 2)) n f) (rinv (perspm (/ tan (a / 2)) n f)).
Proof.
  intros. assert (M := isM_persp fov near far a n f H H0 H1 H2 H5).
  split; [exact M|]. apply isM_inverse; [exact M | apply det_persp_nz; auto].
Qed.

(** ** every built transform carries its inverse *)
Lemma isT_mul : forall t u A B C D, isT t A B -> isT u C D -> isT (t_mul t u) (rmul A C) (rmul D B).
Proof. intros t u A B C D (H&H') (K&K'). split; apply isM_mul; assumption. Qed.
Lemma isT_inverse : forall t A B, isT t A B -> isT (t_inverse t) B A.
Proof. intros t A B (H&K); split; assumption. Qed.
Lemma inv_mul : forall A B C D, mutually_inverse A B -> mutually_inverse C D -> mutually_inverse (rmul A C) (rmul D B).
Proof.
  assert (G : forall A B C D, meq (rmul A B) rid -> meq (rmul C D) rid -> meq (rmul (rmul A C) (rmul D B)) rid).
  { intros A B C D H K.
    eapply meq_trans; [apply rmul_assoc|].
    eapply meq_trans; [apply rmul_ext; [apply meq_refl|]|].
    { eapply meq_trans; [apply meq_sym, rmul_assoc|]. eapply meq_trans; [apply rmul_ext; [apply K|apply meq_refl]|]. apply rmul_id_l. }
    exact H. }
  intros A B C D (H&H') (K&K'). split; apply G; auto.
Qed.
Lemma built_inverse_pair : forall t, built t -> exists A B, isT t A B /\ mutually_inverse A B.
Proof.
  induction 1.
  - exists rid, rid. split; [apply isT_identity|]. split; apply rmul_id_l.
  - do 2 eexists; split; [eapply isT_translate; eauto|]. split; meq4; ring.
  - do 2 eexists; split; [eapply isT_scale; eauto|]. split; meq4; field; auto.
  - do 2 eexists; split; [eapply isT_rotate_x; eauto|]. assert (S := sc1 a). split; meq4; nsatz.
  - do 2 eexists; split; [eapply isT_rotate_y; eauto|]. assert (S := sc1 a). split; meq4; nsatz.
  - do 2 eexists; split; [eapply isT_rotate_z; eauto|]. assert (S := sc1 a). split; meq4; nsatz.
  - do 2 eexists; split; [eapply isT_rotate; eauto|]. apply inv_rotm. apply dot3_unit; auto.
  - do 2 eexists; split; [eapply isT_look_at; eauto|]. apply la_inv; auto.
  - do 2 eexists; split; [eapply isT_persp; eauto|]; auto using tan_nz.
    assert (det4 (perspm (/ tan (a / 2)) n f) <> 0) by (apply det_persp_nz; auto using tan_nz).
    split; [apply rinv_r | apply rinv_l]; auto.
  - destruct IHbuilt1 as (A&B&HT&HI), IHbuilt2 as (C&D&HT'&HI').
    do 2 eexists; split; [apply isT_mul; eauto | apply inv_mul; auto].
  - destruct IHbuilt as (A&B&HT&(HI&HI')). exists B, A. split; [apply isT_inverse; auto | split; auto].
Qed.
Lemma built_affine_built : forall t, built_affine t -> built t.
Proof. induction 1; econstructor; eauto. Qed.
Lemma affine_rid : affine rid. Proof. repeat split. Qed.
Lemma built_isT_inv : forall t A B, built t -> isT t A B -> mutually_inverse A B.
Proof.
  intros t A B Ht (H&K). destruct (built_inverse_pair t Ht) as (A'&B'&(H'&K')&(I&J)).
  assert (E := isM_inj _ _ _ H H'). assert (E' := isM_inj _ _ _ K K').
  split; (eapply meq_trans; [apply rmul_ext; eassumption|assumption]).
Qed.
Lemma built_affine_pair : forall t, built_affine t ->
  exists A B, isT t A B /\ mutually_inverse A B /\ affine A /\ affine B.
Proof.
  assert (G : forall t A B, built t -> isT t A B -> affine A -> affine B ->
    exists A B, isT t A B /\ mutually_inverse A B /\ affine A /\ affine B).
  { intros t A B H K L M. exists A, B. split; [exact K|]. split; [eapply built_isT_inv; eauto|auto]. }
  intros t H; induction H.
  - eapply G; [constructor | apply isT_identity | |]; apply affine_rid.
  - eapply G; [econstructor; eauto | eapply isT_translate; eauto | |]; repeat split.
  - eapply G; [eapply built_scale; eauto | eapply isT_scale; eauto | |]; repeat split.
  - eapply G; [eapply built_rotate_x; eauto | eapply isT_rotate_x; eauto | |]; repeat split.
  - eapply G; [eapply built_rotate_y; eauto | eapply isT_rotate_y; eauto | |]; repeat split.
  - eapply G; [eapply built_rotate_z; eauto | eapply isT_rotate_z; eauto | |]; repeat split.
  - eapply G; [eapply built_rotate; eauto | eapply isT_rotate; eauto | |]; repeat split.
  - eapply G; [eapply built_look_at; eauto | eapply isT_look_at; eauto | |]; repeat split.
  - destruct IHbuilt_affine1 as (A&B&HT&HI&HA&HB), IHbuilt_affine2 as (C&D&HT'&HI'&HC&HD).
    do 2 eexists; split; [apply isT_mul; eauto|]. split; [apply inv_mul; auto|]. split; apply affine_mul; auto.
  - destruct IHbuilt_affine as (A&B&HT&(HI&HI')&HA&HB). exists B, A.
    split; [apply isT_inverse; auto|]. split; [split; auto|]. auto.
Qed.

(** ** C34: maps compose and are mutually inverse *)
Lemma returns_ret : forall {A} (a : A) (P : A -> Prop), P a -> returns (Ret a) P.
Proof. intros; eexists; eauto. Qed.
Lemma map_point_char : forall t A B p a, isT t A B -> is3 p a ->
  (wcoord A a <> 0 -> returns (t_map_point t p) (fun q => is3 q (app_pt A a))) /\
  (wcoord A a = 0 -> t_map_point t p = Panic).
Proof.
  intros t A B p a (H&_) K. split; intros W; [eapply map_point_ok | eapply map_point_panics]; eauto.
Qed.
Lemma map_vector_char : forall t A B v a, isT t A B -> is3 v a ->
  let e := A i3 i0 * cX a + A i3 i1 * cY a + A i3 i2 * cZ a in
  (e = 0 -> returns (t_map_vector t v) (fun q => is3 q (app_vec A a))) /\
  (e <> 0 -> t_map_vector t v = Panic).
Proof.
  intros t A B p a (H&_) K. split; intros W; [eapply map_vector_ok | eapply map_vector_panics]; eauto.
Qed.
Lemma compose_points : forall t u A B C D p a, isT t A B -> isT u C D -> is3 p a ->
  wcoord C a <> 0 -> wcoord A (app_pt C a) <> 0 ->
  exists q r s b, t_map_point u p = Ret q /\ t_map_point t q = Ret r /\
    t_map_point (t_mul t u) p = Ret s /\ is3 r b /\ is3 s b.
Proof.
  intros t u A B C D p a (HA&HB) (HC&HD) Hp W1 W2.
  destruct (map_point_ok _ _ _ _ HC Hp W1) as (q & Eq & Hq).
  destruct (map_point_ok _ _ _ _ HA Hq W2) as (r & Er & Hr).
  destruct (map_point_ok (tm (t_mul t u)) (rmul A C) p a) as (s & Es & Hs).
  - apply isM_mul; auto.
  - auto.
  - rewrite wcoord_mul by auto. apply Rmult_integral_contrapositive_currified; auto.
  - exists q, r, s, (app_pt A (app_pt C a)). repeat split; auto; try apply Hr.
    all: rewrite app_pt_mul in Hs by auto; apply Hs.
Qed.
Lemma compose_vectors : forall t u A B C D v a, isT t A B -> isT u C D -> is3 v a -> affine A -> affine C ->
  exists q r s b, t_map_vector u v = Ret q /\ t_map_vector t q = Ret r /\
    t_map_vector (t_mul t u) v = Ret s /\ is3 r b /\ is3 s b.
Proof.
  intros t u A B C D p a (HA&HB) (HC&HD) Hp W1 W2.
  destruct (map_vector_affine _ _ _ _ HC Hp W2) as (q & Eq & Hq).
  destruct (map_vector_affine _ _ _ _ HA Hq W1) as (r & Er & Hr).
  destruct (map_vector_affine (tm (t_mul t u)) (rmul A C) p a) as (s & Es & Hs).
  - apply isM_mul; auto.
  - auto.
  - apply affine_mul; auto.
  - exists q, r, s, (app_vec A (app_vec C a)). rewrite app_vec_mul in Hs by auto. repeat split; auto; try apply Hr; apply Hs.
Qed.
Lemma roundtrip_point : forall t A B p a, isT t A B -> mutually_inverse A B -> is3 p a -> wcoord A a <> 0 ->
  exists q r, t_map_point t p = Ret q /\ t_map_point_inverse t q = Ret r /\ is3 r a.
Proof.
  intros t A B p a (HA&HB) (HI&HJ) Hp W.
  destruct (map_point_ok _ _ _ _ HA Hp W) as (q & Eq & Hq).
  assert (W2 : wcoord B (app_pt A a) <> 0).
  { assert (E := wcoord_mul B A a W). rewrite (wcoord_id _ _ HJ) in E. intros Z; rewrite Z in E; lra. }
  destruct (map_point_ok _ _ _ _ HB Hq W2) as (r & Er & Hr).
  exists q, r. repeat split; auto; rewrite <- (app_pt_mul B A a W W2), (app_pt_id _ _ HJ) in Hr; apply Hr.
Qed.
Lemma roundtrip_vector : forall t A B v a, isT t A B -> mutually_inverse A B -> affine A -> is3 v a ->
  exists q r, t_map_vector t v = Ret q /\ t_map_vector_inverse t q = Ret r /\ is3 r a.
Proof.
  intros t A B p a (HA&HB) HI AA Hp. assert (AB := affine_inverse _ _ HI AA). destruct HI as (HI&HJ).
  destruct (map_vector_affine _ _ _ _ HA Hp AA) as (q & Eq & Hq).
  destruct (map_vector_affine _ _ _ _ HB Hq AB) as (r & Er & Hr).
  exists q, r. repeat split; auto; rewrite <- (app_vec_mul B A a AA), (app_vec_id _ _ HJ) in Hr; apply Hr.
Qed.

(** ** C42 rays *)
Lemma is3_eval : forall r o d tm s q, isRay r o d tm -> isR s q -> is3 (ray_eval r s) (at_ray o d q).
Proof. intros r o d tm s q (Ho&Hd&_) Hs. apply is3_add; auto. apply is3_scale; auto. Qed.
Lemma app_pt_at : forall A o d s, affine A -> app_pt A (at_ray o d s) = at_ray (app_pt A o) (app_vec A d) s.
Proof.
  intros A o d s HA. unfold app_pt. rewrite !wcoord_affine by auto.
  apply R3_eq; cbn; field.
Qed.
Lemma map_ray_ok : forall t A B r o d tm, isT t A B -> affine A -> isRay r o d tm ->
  returns (t_map_ray t r) (fun r' => isRay r' (app_pt A o) (app_vec A d) tm /\ tmax r' = tmax r).
Proof.
  intros t A B r o d tm (HA&_) AA (Ho&Hd&Ht). unfold t_map_ray.
  destruct (map_point_affine _ _ _ _ HA Ho AA) as (q & Eq & Hq).
  destruct (map_vector_affine _ _ _ _ HA Hd AA) as (w & Ew & Hw).
  unfold t_map_point, t_map_vector. unfold t_matrix in *. rewrite Eq, Ew. cbn. eexists; split; [reflexivity|].
  cbn. repeat split; auto; try apply Hq; try apply Hw.
Qed.
Lemma map_ray_eval : forall t A B r o d tm s q, isT t A B -> affine A -> isRay r o d tm -> isR s q ->
  exists r' p' b, t_map_ray t r = Ret r' /\ t_map_point t (ray_eval r s) = Ret p' /\
    is3 (ray_eval r' s) b /\ is3 p' b /\ tmax r' = tmax r.
Proof.
  intros t A B r o d tm s q HT AA Hr Hs.
  destruct (map_ray_ok t A B r o d tm HT AA Hr) as (r' & Er & Hr' & Et).
  assert (He := is3_eval _ _ _ _ _ _ Hr Hs).
  destruct HT as (HA&_).
  destruct (map_point_affine _ _ _ _ HA He AA) as (p' & Ep & Hp).
  rewrite app_pt_at in Hp by auto.
  exists r', p', (at_ray (app_pt A o) (app_vec A d) q).
  split; [exact Er|]. split; [exact Ep|]. split; [|split; [exact Hp|exact Et]].
  eapply is3_eval; eauto.
Qed.

(** ** C35 rotations *)
Lemma rotate_vec : forall v k x a, is3 v k -> k <> zero3 -> isR x a ->
  forall b, maps_vec (rotate v x) b (rodr (unit3 k) a b).
Proof.
  intros v k x a Hv Hk Hx b w Hw. rewrite <- app_vec_rotm.
  destruct (isT_rotate v k x a Hv Hk Hx) as (M&_). eapply map_vector_affine; eauto. repeat split.
Qed.
Lemma rotate_rigid : forall v k x a, is3 v k -> k <> zero3 -> isR x a ->
  exists F : R3 -> R3,
    (forall b, maps_vec (rotate v x) b (F b)) /\
    (forall b c, dot3 (F b) (F c) = dot3 b c) /\
    (forall b c, cross3 (F b) (F c) = F (cross3 b c)) /\
    F k = k /\
    (forall b, dot3 b k = 0 ->
       F b = add3 (scl3 (cos a) b) (scl3 (sin a) (scl3 (/ len3 k) (cross3 k b)))).
Proof.
  intros v k x a Hv Hk Hx. assert (U := dot3_unit k Hk). assert (L := len3_nz k Hk).
  exists (rodr (unit3 k) a). split; [eapply rotate_vec; eauto|].
  split; [intros; apply rodr_dot; auto|]. split; [intros; apply rodr_cross; auto|]. split.
  - assert (E : k = scl3 (len3 k) (unit3 k)) by (apply R3_eq; cbn; field; auto).
    transitivity (rodr (unit3 k) a (scl3 (len3 k) (unit3 k))); [f_equal; exact E|].
    transitivity (scl3 (len3 k) (rodr (unit3 k) a (unit3 k))).
    { generalize (unit3 k), (len3 k). intros u l. apply R3_eq; cbn; unfold dot3; cbn; ring. }
    rewrite rodr_axis by auto. symmetry; exact E.
  - intros b Hb. rewrite rodr_perp.
    + unfold unit3. rewrite cross3_scale_l. reflexivity.
    + unfold unit3, dot3 in *; cbn. transitivity (/ len3 k * (cX b * cX k + cY b * cY k + cZ b * cZ k)); [ring|].
      rewrite Hb; ring.
Qed.
Lemma rotate_additive : forall v k x y a b, is3 v k -> k <> zero3 -> isR x a -> isR y b ->
  forall c d e, maps_vec (rotate v y) c d -> maps_vec (rotate v x) d e -> maps_vec (rotate v (sadd x y)) c e.
Proof.
  intros v k x y a b Hv Hk Hx Hy c d e H K. assert (U := dot3_unit k Hk).
  assert (F := fun z t Hz c => rotate_vec v k z t Hv Hk Hz c).
  assert (Det : forall t c d d', maps_vec t c d -> maps_vec t c d' -> d = d').
  { intros t c0 d0 d1 M N. set (w := vec3 (XFin (cX c0) false) (XFin (cY c0) false) (XFin (cZ c0) false)).
    assert (W : is3 w c0) by (apply is3_vec3; apply isR_fin).
    destruct (M w W) as (p & Ep & Hp). destruct (N w W) as (p' & Ep' & Hp'). rewrite Ep in Ep'; injection Ep' as <-.
    eapply is3_inj; eauto. }
  rewrite (Det _ _ _ _ H (F y b Hy c)) in K. rewrite (Det _ _ _ _ K (F x a Hx _)).
  rewrite <- rodr_add by auto. apply F. apply isR_add; auto.
Qed.
Lemma rotate_coords : forall x a, isR x a ->
  forall b c,
  (maps_vec (rotate (vec3 sone szero szero) x) b c <-> maps_vec (rotate_x x) b c) /\
  (maps_vec (rotate (vec3 szero sone szero) x) b c <-> maps_vec (rotate_y x) b c) /\
  (maps_vec (rotate (vec3 szero szero sone) x) b c <-> maps_vec (rotate_z x) b c).
Proof.
  intros x a Hx b c.
  assert (Det : forall t c d d', maps_vec t c d -> maps_vec t c d' -> d = d').
  { intros t c0 d0 d1 M N. set (w := vec3 (XFin (cX c0) false) (XFin (cY c0) false) (XFin (cZ c0) false)).
    assert (W : is3 w c0) by (apply is3_vec3; apply isR_fin).
    destruct (M w W) as (p & Ep & Hp). destruct (N w W) as (p' & Ep' & Hp'). rewrite Ep in Ep'; injection Ep' as <-.
    eapply is3_inj; eauto. }
  assert (G : forall t u F, maps_vec t b F -> maps_vec u b F -> (maps_vec t b c <-> maps_vec u b c)).
  { intros t u F M N. split; intros K; [rewrite (Det _ _ _ _ K M) | rewrite (Det _ _ _ _ K N)]; auto. }
  assert (Uq : forall k, dot3 k k = 1 -> unit3 k = k).
  { intros k E. unfold unit3. rewrite (len3_unit k E). apply R3_eq; cbn; field. }
  split; [|split].
  - assert (N : mk3 1 0 0 <> zero3) by (intros E; injection E; lra).
    apply (G _ _ _ (rotate_vec _ (mk3 1 0 0) x a (is3_xyz 1 0 0) N Hx b)).
    rewrite Uq by (unfold dot3; cbn; ring).
    intros w Hw. destruct (isT_rotate_x x a Hx) as (M&_).
    destruct (map_vector_affine _ _ _ _ M Hw) as (q & Eq & Hq); [repeat split|].
    exists q; split; [exact Eq|]. eapply is3_eq; [exact Hq|]. apply R3_eq; cbn; unfold dot3; cbn; ring.
  - assert (N : mk3 0 1 0 <> zero3) by (intros E; injection E; lra).
    apply (G _ _ _ (rotate_vec _ (mk3 0 1 0) x a (is3_xyz 0 1 0) N Hx b)).
    rewrite Uq by (unfold dot3; cbn; ring).
    intros w Hw. destruct (isT_rotate_y x a Hx) as (M&_).
    destruct (map_vector_affine _ _ _ _ M Hw) as (q & Eq & Hq); [repeat split|].
    exists q; split; [exact Eq|]. eapply is3_eq; [exact Hq|]. apply R3_eq; cbn; unfold dot3; cbn; ring.
  - assert (N : mk3 0 0 1 <> zero3) by (intros E; injection E; lra).
    apply (G _ _ _ (rotate_vec _ (mk3 0 0 1) x a (is3_xyz 0 0 1) N Hx b)).
    rewrite Uq by (unfold dot3; cbn; ring).
    intros w Hw. destruct (isT_rotate_z x a Hx) as (M&_).
    destruct (map_vector_affine _ _ _ _ M Hw) as (q & Eq & Hq); [repeat split|].
    exists q; split; [exact Eq|]. eapply is3_eq; [exact Hq|]. apply R3_eq; cbn; unfold dot3; cbn; ring.
Qed.
