(** * Transforms in exact arithmetic *)
From Coq Require Import ZArith Reals Bool List Lra.
From Coq Require Vector Fin.
From Flocq Require Import Core.
From Verif.Model Require Import FloatBase Scalar XReal Vec Transform Outcome.
From Verif Require Import SpecGeom.
From Verif.Proofs Require Import XRealLemmas MatrixProofs.
Import Vector.VectorNotations.
Open Scope R_scope.

(** ** mapping by a real matrix *)
Lemma map_vector_ok : forall m A v a, isM m A -> is3 v a ->
  A i3 i0 * cX a + A i3 i1 * cY a + A i3 i2 * cZ a = 0 ->
  returns (map_vector m v) (fun w => is3 w (app_vec A a)).
Proof.
  intros m A v a H K E. unfold map_vector, oassert.
  destruct K as (Kx & Ky & Kz).
  rewrite (seqb_Reqb _ _ (cX a * A i3 i0 + cY a * A i3 i1 + cZ a * A i3 i2) 0);
    [| repeat isr_step; apply H | apply isR_zero ].
  destruct (Reqb_spec (cX a * A i3 i0 + cY a * A i3 i1 + cZ a * A i3 i2) 0); [|lra].
  eexists; split; [reflexivity|].
  apply is3_vec3; cbn [app_vec cX cY cZ]; (eapply isR_eq; [repeat first [apply (isM_get _ _ _ _ H) | isr_step] | ring]).
Qed.
Lemma map_vector_panics : forall m A v a, isM m A -> is3 v a ->
  A i3 i0 * cX a + A i3 i1 * cY a + A i3 i2 * cZ a <> 0 -> map_vector m v = Panic.
Proof.
  intros m A v a H K E. unfold map_vector, oassert.
  destruct K as (Kx & Ky & Kz).
  rewrite (seqb_Reqb _ _ (cX a * A i3 i0 + cY a * A i3 i1 + cZ a * A i3 i2) 0);
    [| repeat isr_step; apply H | apply isR_zero ].
  destruct (Reqb_spec (cX a * A i3 i0 + cY a * A i3 i1 + cZ a * A i3 i2) 0); [lra|]. reflexivity.
Qed.
Lemma isR_w : forall m A v a, isM m A -> is3 v a ->
  isR (sadd (sadd (sadd (smul (vx v) (mget m i3 i0)) (smul (vy v) (mget m i3 i1))) (smul (vz v) (mget m i3 i2))) (mget m i3 i3))
      (wcoord A a).
Proof.
  intros m A v a H (Kx & Ky & Kz). unfold wcoord.
  eapply isR_eq; [repeat first [apply (isM_get _ _ _ _ H) | isr_step] | ring].
Qed.
Lemma map_point_ok : forall m A v a, isM m A -> is3 v a -> wcoord A a <> 0 ->
  returns (map_point m v) (fun w => is3 w (app_pt A a)).
Proof.
  intros m A v a H K E. assert (W := isR_w m A v a H K). unfold map_point, oassert, sne.
  set (w := xadd _ (mget m i3 i3)). change (isR w (wcoord A a)) in W. clearbody w.
  rewrite (seqb_Reqb _ _ _ _ W isR_zero). destruct (Reqb_spec (wcoord A a) 0); [easy|].
  destruct K as (Kx & Ky & Kz). eexists; split; [reflexivity|].
  apply is3_vec3; cbn [app_pt app_vec add3 scl3 cX cY cZ];
   (eapply isR_eq; [apply isR_div; [repeat first [apply (isM_get _ _ _ _ H) | isr_step] | exact W | exact E] | field; auto]).
Qed.
Lemma map_point_panics : forall m A v a, isM m A -> is3 v a -> wcoord A a = 0 -> map_point m v = Panic.
Proof.
  intros m A v a H K E. assert (W := isR_w m A v a H K). unfold map_point, oassert, sne.
  set (w := xadd _ (mget m i3 i3)). change (isR w (wcoord A a)) in W. clearbody w.
  rewrite (seqb_Reqb _ _ _ _ W isR_zero), E. destruct (Reqb_spec 0 0); [reflexivity|lra].
Qed.
Lemma wcoord_affine : forall A a, affine A -> wcoord A a = 1.
Proof. intros A a (H0&H1&H2&H3). unfold wcoord. rewrite H0, H1, H2, H3; ring. Qed.
Lemma map_vector_affine : forall m A v a, isM m A -> is3 v a -> affine A ->
  returns (map_vector m v) (fun w => is3 w (app_vec A a)).
Proof. intros m A v a H K (H0&H1&H2&H3). apply map_vector_ok; auto. rewrite H0, H1, H2; ring. Qed.
Lemma map_point_affine : forall m A v a, isM m A -> is3 v a -> affine A ->
  returns (map_point m v) (fun w => is3 w (app_pt A a)).
Proof. intros m A v a H K HA. apply map_point_ok; auto. rewrite wcoord_affine by auto; lra. Qed.

(** ** real matrices acting on points *)
Lemma app_vec_mul : forall A B a, affine B -> app_vec (rmul A B) a = app_vec A (app_vec B a).
Proof.
  intros A B a (H0&H1&H2&H3). unfold app_vec. apply R3_eq; cbn [cX cY cZ]; rewrite !rmul4, H0, H1, H2; ring.
Qed.
Lemma wcoord_mul : forall A B a, wcoord B a <> 0 -> wcoord (rmul A B) a = wcoord A (app_pt B a) * wcoord B a.
Proof.
  intros A B a H. unfold app_pt. set (w := wcoord B a) in *. unfold wcoord at 1 2.
  cbn [app_vec add3 scl3 cX cY cZ]. rewrite !rmul4. 
  transitivity (A i3 i0 * (B i0 i0 * cX a + B i0 i1 * cY a + B i0 i2 * cZ a + B i0 i3) +
                A i3 i1 * (B i1 i0 * cX a + B i1 i1 * cY a + B i1 i2 * cZ a + B i1 i3) +
                A i3 i2 * (B i2 i0 * cX a + B i2 i1 * cY a + B i2 i2 * cZ a + B i2 i3) + A i3 i3 * w).
  - unfold w, wcoord; ring.
  - clearbody w. field; auto.
Qed.
Lemma app_pt_mul : forall A B a, wcoord B a <> 0 -> wcoord A (app_pt B a) <> 0 ->
  app_pt (rmul A B) a = app_pt A (app_pt B a).
Proof.
  intros A B a H K. assert (E := wcoord_mul A B a H).
  unfold app_pt at 1. rewrite E. unfold app_pt at 2. set (u := wcoord A (app_pt B a)) in *.
  unfold app_pt. set (w := wcoord B a) in *.
  assert (Ew : w = B i3 i0 * cX a + B i3 i1 * cY a + B i3 i2 * cZ a + B i3 i3) by reflexivity.
  clearbody u w. clear E.
  apply R3_eq; cbn [app_vec add3 scl3 cX cY cZ]; rewrite !rmul4;
  (replace (B i3 i3) with (w - (B i3 i0 * cX a + B i3 i1 * cY a + B i3 i2 * cZ a)) by (rewrite Ew; ring);
   field; auto).
Qed.
Lemma app_pt_id : forall A a, meq A rid -> app_pt A a = a.
Proof.
  intros A a H. unfold app_pt, wcoord, app_vec. rewrite !H. cbn.
  apply R3_eq; cbn; field.
Qed.
Lemma wcoord_id : forall A a, meq A rid -> wcoord A a = 1.
Proof. intros A a H. unfold wcoord. rewrite !H. cbn. ring. Qed.
Lemma app_vec_id : forall A a, meq A rid -> app_vec A a = a.
Proof. intros A a H. unfold app_vec. rewrite !H. apply R3_eq; cbn; ring. Qed.
Lemma affine_mul : forall A B, affine A -> affine B -> affine (rmul A B).
Proof.
  intros A B (H0&H1&H2&H3) (K0&K1&K2&K3). unfold affine. rewrite !rmul4, H0, H1, H2, H3, K0, K1, K2, K3.
  repeat split; ring.
Qed.
Lemma affine_inverse : forall A B, mutually_inverse A B -> affine A -> affine B.
Proof.
  intros A B (H & K) (A0&A1&A2&A3).
  assert (E : forall j, B i3 j = rid i3 j).
  { intros j. rewrite <- (H i3 j), rmul4, A0, A1, A2, A3. ring. }
  repeat split; rewrite E; reflexivity.
Qed.

(** ** matrices held by the constructors *)
Definition lit (a b c d e f g h i j k l m n o p : R) : rmat := fun r =>
  Fin.caseS' r (fun _ => Fin.t 4 -> R) (sel4 a b c d) (fun r =>
  Fin.caseS' r (fun _ => Fin.t 4 -> R) (sel4 e f g h) (fun r =>
  Fin.caseS' r (fun _ => Fin.t 4 -> R) (sel4 i j k l) (fun r => sel4 m n o p))).
Lemma isM_lit : forall a b c d e f g h i j k l m n o p a' b' c' d' e' f' g' h' i' j' k' l' m' n' o' p',
  isR a a' -> isR b b' -> isR c c' -> isR d d' -> isR e e' -> isR f f' -> isR g g' -> isR h h' ->
  isR i i' -> isR j j' -> isR k k' -> isR l l' -> isR m m' -> isR n n' -> isR o o' -> isR p p' ->
  isM ([[a; b; c; d]; [e; f; g; h]; [i; j; k; l]; [m; n; o; p]] : matrix xr)
      (lit a' b' c' d' e' f' g' h' i' j' k' l' m' n' o' p').
Proof. intros; intros x y. fin4 x; fin4 y; assumption. Qed.
Ltac meq4 := let i := fresh in let j := fresh in intros i j; fin4 i; fin4 j; rewrite ?rmul4; cbn.

Lemma isT_identity : isT t_identity rid rid.
Proof. split; apply isM_id. Qed.
Lemma isT_translate : forall v a, is3 v a -> isT (translate v)
  (lit 1 0 0 (cX a) 0 1 0 (cY a) 0 0 1 (cZ a) 0 0 0 1) (lit 1 0 0 (- cX a) 0 1 0 (- cY a) 0 0 1 (- cZ a) 0 0 0 1).
Proof. intros v a (Hx&Hy&Hz). split; apply isM_lit; repeat isr_step; assumption. Qed.
Lemma isT_scale : forall v a, is3 v a -> cX a <> 0 -> cY a <> 0 -> cZ a <> 0 -> isT (scale v)
  (lit (cX a) 0 0 0 0 (cY a) 0 0 0 0 (cZ a) 0 0 0 0 1) (lit (1 / cX a) 0 0 0 0 (1 / cY a) 0 0 0 0 (1 / cZ a) 0 0 0 0 1).
Proof. intros v a (Hx&Hy&Hz) ? ? ?. split; apply isM_lit; repeat isr_step; assumption. Qed.
Ltac rot := let x := fresh "x" in
  intros x a H; assert (Hs := isR_sc1 x a H); assert (Hc := isR_sc2 x a H);
  cbn [fst snd gsin_cos xr_gfloat] in Hs, Hc; split; apply isM_lit; repeat isr_step.
Lemma isT_rotate_x : forall x a, isR x a -> isT (rotate_x x)
  (lit 1 0 0 0 0 (cos a) (- sin a) 0 0 (sin a) (cos a) 0 0 0 0 1)
  (lit 1 0 0 0 0 (cos a) (sin a) 0 0 (- sin a) (cos a) 0 0 0 0 1).
Proof. rot. Qed.
Lemma isT_rotate_y : forall x a, isR x a -> isT (rotate_y x)
  (lit (cos a) 0 (sin a) 0 0 1 0 0 (- sin a) 0 (cos a) 0 0 0 0 1)
  (lit (cos a) 0 (- sin a) 0 0 1 0 0 (sin a) 0 (cos a) 0 0 0 0 1).
Proof. rot. Qed.
Lemma isT_rotate_z : forall x a, isR x a -> isT (rotate_z x)
  (lit (cos a) (- sin a) 0 0 (sin a) (cos a) 0 0 0 0 1 0 0 0 0 1)
  (lit (cos a) (sin a) 0 0 (- sin a) (cos a) 0 0 0 0 1 0 0 0 0 1).
Proof. rot. Qed.

(** Rodrigues' formula *)
Definition rodr (u : R3) (t : R) (e : R3) : R3 :=
  add3 (add3 (scl3 (cos t) e) (scl3 (dot3 u e) (scl3 (1 - cos t) u))) (scl3 (sin t) (cross3 u e)).
Definition rotm (u : R3) (t : R) : rmat :=
  let x := rodr u t (mk3 1 0 0) in let y := rodr u t (mk3 0 1 0) in let z := rodr u t (mk3 0 0 1) in
  lit (cX x) (cX y) (cX z) 0 (cY x) (cY y) (cY z) 0 (cZ x) (cZ y) (cZ z) 0 0 0 0 1.
Lemma is3_xyz : forall x y z, is3 (vec3 (XFin x false) (XFin y false) (XFin z false)) (mk3 x y z).
Proof. intros; apply is3_vec3; apply isR_fin. Qed.
Lemma isT_rotate : forall v k x a, is3 v k -> k <> zero3 -> isR x a ->
  isT (rotate v x) (rotm (unit3 k) a) (rtransp (rotm (unit3 k) a)).
Proof.
  intros v k x a H Hk Hx.
  assert (U := is3_normalize v k H Hk).
  assert (M : isM (t_matrix (rotate v x)) (rotm (unit3 k) a)).
  { unfold rotate, t_matrix. set (u := normalize v) in *. clearbody u.
    assert (Hs := isR_sc1 x a Hx). assert (Hc := isR_sc2 x a Hx).
    destruct (gsin_cos x) as [s c]. cbn [fst snd] in Hs, Hc.
    assert (R : forall e b, is3 e b -> is3 (v_add (v_add (v_scale e c) (v_scale (v_scale u (ssub sone c)) (dot u e))) (v_scale (cross u e) s))
       (rodr (unit3 k) a b)).
    { intros e b He. apply is3_add; [apply is3_add|]; repeat first [apply is3_scale | apply is3_cross | apply isR_dot3 | assumption | isr_step]. }
    assert (Rx := R _ _ (is3_xyz 1 0 0)). assert (Ry := R _ _ (is3_xyz 0 1 0)). assert (Rz := R _ _ (is3_xyz 0 0 1)).
    destruct Rx as (?&?&?), Ry as (?&?&?), Rz as (?&?&?).
    apply isM_lit; first [assumption | isr_step]. }
  split; [exact M|]. apply isM_transpose, M.
Qed.
