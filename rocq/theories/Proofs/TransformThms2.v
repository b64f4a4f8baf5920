(** * look_at, perspective, normals (lemmas behind Props/P_Transform.v) *)
From Coq Require Import ZArith Reals Bool List Lra Lia Nsatz Psatz.
From Coq Require Vector Fin.
From Flocq Require Import Core.
From Verif.Model Require Import FloatBase Scalar XReal Vec Transform Outcome.
From Verif Require Import SpecGeom.
From Verif.Proofs Require Import XRealLemmas MatrixProofs TransformProofs RotationProofs TransformThms.
Import Vector.VectorNotations.
Open Scope R_scope.

(** ** C37 *)
Lemma app_pt_framem : forall p X Y Z q,
  app_pt (framem p X Y Z) q = mk3 (dot3 X (sub3 q p)) (dot3 Y (sub3 q p)) (dot3 Z (sub3 q p)).
Proof.
  intros. unfold app_pt. replace (wcoord (framem p X Y Z) q) with 1 by (unfold wcoord; cbn; ring).
  apply R3_eq; cbn; unfold dot3; cbn; field.
Qed.
Lemma app_pt_framei0 : forall p X Y Z, app_pt (framei p X Y Z) zero3 = p.
Proof.
  intros. unfold app_pt. replace (wcoord (framei p X Y Z) zero3) with 1 by (unfold wcoord; cbn; ring).
  apply R3_eq; cbn; field.
Qed.
Lemma look_at_frame : forall p t u a b c, is3 p a -> is3 t b -> is3 u c -> cross3 c (sub3 a b) <> zero3 ->
  exists X Y Z : R3,
    dot3 X X = 1 /\ dot3 Y Y = 1 /\ dot3 Z Z = 1 /\ dot3 X Y = 0 /\ dot3 Y Z = 0 /\ dot3 X Z = 0 /\
    cross3 X Y = Z /\
    Z = scl3 (/ len3 (sub3 a b)) (sub3 a b) /\
    Y = (let w := sub3 c (scl3 (dot3 c Z) Z) in scl3 (/ len3 w) w) /\
    (forall v, maps_vec (look_at p t u) v (mk3 (dot3 X v) (dot3 Y v) (dot3 Z v))) /\
    (forall q, maps_pt (look_at p t u) q (mk3 (dot3 X (sub3 q a)) (dot3 Y (sub3 q a)) (dot3 Z (sub3 q a)))) /\
    (forall k, unmaps_pt (look_at p t u) k (add3 a (add3 (scl3 (cX k) X) (add3 (scl3 (cY k) Y) (scl3 (cZ k) Z))))).
Proof.
  intros p t u a b c Hp Ht Hu H.
  set (Z := unit3 (sub3 a b)). set (X := unit3 (cross3 (unit3 c) Z)). set (Y := cross3 Z X).
  assert (XX : dot3 X X = 1) by (apply la_XX; auto). assert (ZZ : dot3 Z Z = 1) by (eapply la_ZZ; eauto).
  assert (XZ : dot3 X Z = 0) by (apply la_XZ).
  destruct (frame_unit X Z XX ZZ XZ) as (YY & XY & YZ & C). fold Y in YY, XY, YZ, C.
  destruct (isT_look_at a b c H p t u Hp Ht Hu) as (M & M'). fold Z X Y in M, M'.
  assert (EY : Y = (let w := sub3 c (scl3 (dot3 c Z) Z) in scl3 (/ len3 w) w)) by (apply la_Y; auto).
  assert (EZ : Z = scl3 (/ len3 (sub3 a b)) (sub3 a b)) by reflexivity.
  clearbody Y. clearbody X. clearbody Z.
  exists X, Y, Z. do 9 (split; [assumption|]). split; [|split].
  - intros v w Hw. destruct (map_vector_affine _ _ _ _ M Hw) as (q & Eq & Hq); [repeat split|].
    exists q; split; [exact Eq|]. eapply is3_eq; [exact Hq|]. apply R3_eq; cbn; unfold dot3; ring.
  - intros v w Hw. destruct (map_point_affine _ _ _ _ M Hw) as (q & Eq & Hq); [repeat split|].
    exists q; split; [exact Eq|]. eapply is3_eq; [exact Hq|]. apply app_pt_framem.
  - intros v w Hw. destruct (map_point_affine _ _ _ _ M' Hw) as (q & Eq & Hq); [repeat split|].
    exists q; split; [exact Eq|]. eapply is3_eq; [exact Hq|].
    unfold app_pt. replace (wcoord (framei a X Y Z) v) with 1 by (unfold wcoord; cbn; ring).
    apply R3_eq; cbn; field.
Qed.
Lemma look_at_points : forall p t u a b c, is3 p a -> is3 t b -> is3 u c -> cross3 c (sub3 a b) <> zero3 ->
  maps_pt (look_at p t u) a zero3 /\
  maps_pt (look_at p t u) b (mk3 0 0 (- len3 (sub3 b a))) /\
  unmaps_pt (look_at p t u) zero3 a.
Proof.
  intros p t u a b c Hp Ht Hu H. assert (D := la_d a b c H). assert (L := len3_nz _ D).
  destruct (look_at_frame p t u a b c Hp Ht Hu H) as (X & Y & Z & XX & YY & ZZ & XY & YZ & XZ & C & EZ & EY & MV & MP & MI).
  assert (E : sub3 b a = scl3 (- len3 (sub3 a b)) Z).
  { rewrite EZ. apply R3_eq; cbn; field; auto. }
  split; [|split].
  - replace zero3 with (mk3 (dot3 X (sub3 a a)) (dot3 Y (sub3 a a)) (dot3 Z (sub3 a a))); [apply MP|].
    apply R3_eq; cbn; unfold dot3; cbn; ring.
  - replace (mk3 0 0 (- len3 (sub3 b a))) with (mk3 (dot3 X (sub3 b a)) (dot3 Y (sub3 b a)) (dot3 Z (sub3 b a))); [apply MP|].
    assert (L' : len3 (sub3 b a) = len3 (sub3 a b)) by (unfold len3; f_equal; unfold dot3; cbn; ring).
    rewrite L', E. set (l := len3 (sub3 a b)) in *. clearbody l.
    assert (G : forall W, dot3 W (scl3 (- l) Z) = - l * dot3 W Z) by (intros; unfold dot3; cbn; ring).
    apply R3_eq; cbn; rewrite G; rewrite ?XZ, ?YZ, ?ZZ; ring.
  - replace a with (add3 a (add3 (scl3 (cX zero3) X) (add3 (scl3 (cY zero3) Y) (scl3 (cZ zero3) Z)))) at 1; [apply MI|].
    apply R3_eq; cbn; ring.
Qed.

(** ** C38 *)
Lemma persp_point : forall fov near far a n f x y z, isR fov a -> isR near n -> isR far f ->
  0 < n -> n < f -> 0 < a < PI -> z <> 0 ->
  maps_pt (perspective fov near far) (mk3 x y z)
    (mk3 (- x / (z * tan (a / 2))) (- y / (z * tan (a / 2))) (f * (z + n) / ((f - n) * z))).
Proof.
  intros fov near far a n f x y z Ha Hn Hf Pn Pf Pa Pz w Hw.
  assert (T : 0 < tan (a / 2)) by (apply tan_gt_0; lra).
  assert (M := isM_persp fov near far a n f Ha Hn Hf ltac:(lra) ltac:(lra)).
  destruct (map_point_ok _ _ _ _ M Hw) as (q & Eq & Hq).
  { unfold wcoord; cbn. lra. }
  exists q; split; [exact Eq|]. eapply is3_eq; [exact Hq|].
  unfold app_pt. replace (wcoord _ _) with z by (unfold wcoord; cbn; ring).
  apply R3_eq; cbn; field; repeat split; lra.
Qed.
Lemma persp_point_panics : forall fov near far a n f v x y, isR fov a -> isR near n -> isR far f ->
  0 < n -> n < f -> 0 < a < PI -> is3 v (mk3 x y 0) -> t_map_point (perspective fov near far) v = Panic.
Proof.
  intros fov near far a n f v x y Ha Hn Hf Pn Pf Pa Hw.
  assert (T : 0 < tan (a / 2)) by (apply tan_gt_0; lra).
  assert (M := isM_persp fov near far a n f Ha Hn Hf ltac:(lra) ltac:(lra)).
  eapply map_point_panics; eauto. unfold wcoord; cbn. ring.
Qed.
Lemma Rdiv_bounds : forall x d, 0 < d -> (-1 <= x / d <= 1 <-> - d <= x <= d).
Proof.
  intros x d H. split.
  - intros [L U]. assert (E : x = x / d * d) by (field; lra). rewrite E. nra.
  - intros [L U]. split.
    + apply (Rmult_le_reg_r d); auto. replace (x / d * d) with x by (field; lra). lra.
    + apply (Rmult_le_reg_r d); auto. replace (x / d * d) with x by (field; lra). lra.
Qed.
Lemma persp_cube : forall fov near far a n f p, isR fov a -> isR near n -> isR far f ->
  0 < n -> n < f -> 0 < a < PI -> cZ p <> 0 ->
  exists q, maps_pt (perspective fov near far) p q /\
    ((-1 <= cX q <= 1 /\ -1 <= cY q <= 1 /\ 0 <= cZ q <= 1) <->
     (n <= - cZ p <= f /\ Rabs (cX p) <= - cZ p * tan (a / 2) /\ Rabs (cY p) <= - cZ p * tan (a / 2))).
Proof.
  intros fov near far a n f [x y z] Ha Hn Hf Pn Pf Pa Pz. cbn in Pz.
  eexists. split; [eapply persp_point; eauto|]. cbn [cX cY cZ].
  assert (T : 0 < tan (a / 2)) by (apply tan_gt_0; lra).
  set (t := tan (a / 2)) in *. clearbody t.
  destruct (Rlt_or_le z 0) as [Hz|Hz].
  - assert (D : 0 < - z * t) by nra.
    replace (- x / (z * t)) with (x / (- z * t)) by (field; split; lra).
    replace (- y / (z * t)) with (y / (- z * t)) by (field; split; lra).
    rewrite !Rdiv_bounds by auto.
    assert (E : 0 <= f * (z + n) / ((f - n) * z) <= 1 <-> n <= - z <= f).
    { replace (f * (z + n) / ((f - n) * z)) with (f * (- z - n) / ((f - n) * - z)) by (field; split; lra).
      assert (P : 0 < (f - n) * - z) by nra.
      assert (Q : f * (- z - n) / ((f - n) * - z) * ((f - n) * - z) = f * (- z - n)) by (field; split; lra).
      set (r := f * (- z - n) / ((f - n) * - z)) in *. clearbody r.
      split; intros [L U]; split; nra. }
    rewrite E. unfold Rabs. destruct (Rcase_abs x), (Rcase_abs y); intuition lra.
  - split; [|intros ((L&U)&_); lra].
    intros (_&_&_&U). exfalso.
    assert (P : 0 < (f - n) * z) by nra.
    assert (Q : f * (z + n) / ((f - n) * z) * ((f - n) * z) = f * (z + n)) by (field; split; lra).
    set (r := f * (z + n) / ((f - n) * z)) in *. clearbody r. nra.
Qed.
Lemma persp_depth : forall fov near far a n f, isR fov a -> isR near n -> isR far f ->
  0 < n -> n < f -> 0 < a < PI ->
  exists depth : R -> R,
    (forall x y z, z <> 0 -> exists x' y', maps_pt (perspective fov near far) (mk3 x y z) (mk3 x' y' (depth (- z)))) /\
    depth n = 0 /\ depth f = 1 /\ (forall d d', 0 < d -> d < d' -> depth d < depth d').
Proof.
  intros fov near far a n f Ha Hn Hf Pn Pf Pa.
  exists (fun d => f * (d - n) / ((f - n) * d)). split; [|split; [|split]].
  - intros x y z Hz. do 2 eexists.
    replace (f * (- z - n) / ((f - n) * - z)) with (f * (z + n) / ((f - n) * z)) by (field; split; lra).
    eapply persp_point; eauto.
  - field; split; lra.
  - field; split; lra.
  - intros d d' P Q. apply (Rmult_lt_reg_r ((f - n) * d * d')); [repeat apply Rmult_lt_0_compat; lra|].
    replace (f * (d - n) / ((f - n) * d) * ((f - n) * d * d')) with (f * (d - n) * d') by (field; split; lra).
    replace (f * (d' - n) / ((f - n) * d') * ((f - n) * d * d')) with (f * (d' - n) * d) by (field; split; lra).
    apply Rminus_gt_0_lt. replace (_ - _) with (f * n * (d' - d)) by ring.
    repeat apply Rmult_lt_0_compat; lra.
Qed.

(** ** C39: normals *)
Definition app_normal (B : rmat) (n : R3) : R3 :=
  mk3 (B i0 i0 * cX n + B i1 i0 * cY n + B i2 i0 * cZ n)
      (B i0 i1 * cX n + B i1 i1 * cY n + B i2 i1 * cZ n)
      (B i0 i2 * cX n + B i1 i2 * cY n + B i2 i2 * cZ n).
Definition app_normal' (B : rmat) (n : R3) : R3 :=
  mk3 (B i0 i0 * cX n + B i1 i0 * cY n + B i2 i0 * cZ n * cZ n)
      (B i0 i1 * cX n + B i1 i1 * cY n + B i2 i1 * cZ n * cZ n)
      (B i0 i2 * cX n + B i1 i2 * cY n + B i2 i2 * cZ n * cZ n).
Lemma map_normal_val : forall t A B n c, isT t A B -> is3 n c -> is3 (t_map_normal t n) (app_normal' B c).
Proof.
  intros t A B n c (_&H) (Hx&Hy&Hz). apply is3_vec3; cbn [app_normal' cX cY cZ];
  (eapply isR_eq; [repeat first [apply (isM_get _ _ _ _ H) | isr_step] | ring]).
Qed.
Lemma app_normal_perp : forall A B n v, mutually_inverse A B -> affine A ->
  dot3 (app_normal B n) (app_vec A v) = dot3 n v.
Proof.
  intros A B n v HI AA. assert (AB := affine_inverse _ _ HI AA).
  assert (E : app_vec (rmul B A) v = v) by (apply app_vec_id, HI).
  rewrite app_vec_mul in E by auto.
  transitivity (dot3 n (app_vec B (app_vec A v))); [|rewrite E; reflexivity].
  unfold dot3, app_normal; cbn. ring.
Qed.
Lemma normal_perp_partial : forall t A B n c v a, isT t A B -> mutually_inverse A B -> affine A ->
  is3 n c -> is3 v a -> (cZ c = 0 \/ cZ c = 1) ->
  returns (t_map_vector t v) (fun v' => exists m b,
    is3 (t_map_normal t n) m /\ is3 v' b /\ dot3 m b = dot3 c a).
Proof.
  intros t A B n c v a HT HI AA Hn Hv Hz.
  destruct (map_vector_affine _ _ _ _ (proj1 HT) Hv AA) as (q & Eq & Hq).
  exists q; split; [exact Eq|]. exists (app_normal' B c), (app_vec A a).
  split; [eapply map_normal_val; eauto|]. split; [exact Hq|].
  rewrite <- (app_normal_perp A B c a HI AA). f_equal.
  unfold app_normal', app_normal. apply R3_eq; cbn; destruct Hz as [E|E]; rewrite E; ring.
Qed.
(** the statement that fails: identity transform, n = (-2, 0, 2), v = (1, 0, 1) *)
Lemma normal_perp_false :
  let t : transform xr := t_identity in
  exists n c v a, is3 n c /\ is3 v a /\ dot3 c a = 0 /\
    returns (t_map_vector t v) (fun v' => exists m b, is3 (t_map_normal t n) m /\ is3 v' b /\ dot3 m b = 2).
Proof.
  intros t. exists (vec3 (XFin (-2) false) (XFin 0 false) (XFin 2 false)), (mk3 (-2) 0 2),
    (vec3 (XFin 1 false) (XFin 0 false) (XFin 1 false)), (mk3 1 0 1).
  split; [apply is3_xyz|]. split; [apply is3_xyz|]. split; [unfold dot3; cbn; ring|].
  destruct (map_vector_affine _ _ _ _ (proj1 isT_identity) (is3_xyz 1 0 1) affine_rid) as (q & Eq & Hq).
  exists q; split; [exact Eq|]. eexists _, _. split; [eapply map_normal_val; [apply isT_identity | apply is3_xyz]|].
  split; [exact Hq|]. unfold dot3; cbn. ring.
Qed.
