(** * Rotations, look_at, perspective in exact arithmetic *)
From Coq Require Import ZArith Reals Bool List Lra Nsatz.
From Coq Require Vector Fin.
From Flocq Require Import Core.
From Verif.Model Require Import FloatBase Scalar XReal Vec Transform Outcome.
From Verif Require Import SpecGeom.
From Verif.Proofs Require Import XRealLemmas MatrixProofs TransformProofs.
Import Vector.VectorNotations.
Open Scope R_scope.

Lemma sc1 : forall t, sin t * sin t + cos t * cos t = 1.
Proof. intros t. generalize (sin2_cos2 t). unfold Rsqr. auto. Qed.

Lemma app_vec_rotm : forall u t a, app_vec (rotm u t) a = rodr u t a.
Proof.
  intros [ux uy uz] t [x y z]. apply R3_eq; cbn; unfold dot3; cbn; ring.
Qed.
Lemma rodr_dot : forall u t a b, dot3 u u = 1 -> dot3 (rodr u t a) (rodr u t b) = dot3 a b.
Proof.
  intros [ux uy uz] t [x y z] [x' y' z'] H. assert (S := sc1 t). unfold dot3 in *; cbn in *; unfold dot3; cbn.
  generalize dependent (sin t). generalize dependent (cos t). intros c s S.
  nsatz.
Qed.
Lemma rodr_cross : forall u t a b, dot3 u u = 1 -> cross3 (rodr u t a) (rodr u t b) = rodr u t (cross3 a b).
Proof.
  intros [ux uy uz] t [x y z] [x' y' z'] H. assert (S := sc1 t). unfold dot3 in *; cbn in *.
  unfold rodr, dot3.
  apply R3_eq; cbn; 
  generalize dependent (sin t); generalize dependent (cos t); intros c s S.
  nsatz.
  nsatz.
  nsatz.
Qed.
Lemma rodr_axis : forall u t, dot3 u u = 1 -> rodr u t u = u.
Proof.
  intros [ux uy uz] t H. unfold rodr. rewrite H. apply R3_eq; cbn; ring.
Qed.
Lemma rodr_add : forall u t t' a, dot3 u u = 1 -> rodr u (t + t') a = rodr u t (rodr u t' a).
Proof.
  intros [ux uy uz] t t' [x y z] H. unfold rodr. rewrite cos_plus, sin_plus.
  generalize (sin t), (cos t), (sin t'), (cos t'). intros s c s' c'. unfold dot3 in *; cbn in *.
  apply R3_eq; cbn; nsatz.
Qed.
Lemma rodr_perp : forall u t a, dot3 u a = 0 -> rodr u t a = add3 (scl3 (cos t) a) (scl3 (sin t) (cross3 u a)).
Proof. intros u t a H. unfold rodr. rewrite H. apply R3_eq; cbn; ring. Qed.
Lemma unit3_scale : forall k a, 0 < k -> unit3 (scl3 k a) = unit3 a.
Proof.
  intros k a Hk. assert (E : len3 (scl3 k a) = k * len3 a).
  { unfold len3. replace (dot3 (scl3 k a) (scl3 k a)) with (k * k * dot3 a a) by (unfold dot3; cbn; ring).
    rewrite sqrt_mult_alt by nra. rewrite sqrt_square by lra. reflexivity. }
  unfold unit3. rewrite E.
  destruct (Req_dec (len3 a) 0) as [Z|Z].
  - rewrite (len3_zero a Z). apply R3_eq; cbn; ring.
  - apply R3_eq; cbn; field; split; lra.
Qed.
Lemma unit3_axis : forall k, k <> zero3 -> unit3 k = scl3 (/ len3 k) k.
Proof. reflexivity. Qed.
Lemma len3_unit : forall a, dot3 a a = 1 -> len3 a = 1.
Proof. intros a H. unfold len3. rewrite H. apply sqrt_1. Qed.

Lemma inv_rotm : forall u t, dot3 u u = 1 -> mutually_inverse (rotm u t) (rtransp (rotm u t)).
Proof.
  intros [ux uy uz] t H. assert (S := sc1 t). unfold dot3 in H; cbn in H.
  split; meq4; unfold rotm, rtransp, rid; cbn; unfold dot3; cbn;
  generalize dependent (sin t); generalize dependent (cos t); intros c s S;
  first [ring | nsatz].
Qed.

(** ** look_at *)
Definition framem (p X Y Z : R3) : rmat :=
  lit (cX X) (cY X) (cZ X) (- dot3 X p) (cX Y) (cY Y) (cZ Y) (- dot3 Y p) (cX Z) (cY Z) (cZ Z) (- dot3 Z p) 0 0 0 1.
Definition framei (p X Y Z : R3) : rmat :=
  lit (cX X) (cX Y) (cX Z) (cX p) (cY X) (cY Y) (cY Z) (cY p) (cZ X) (cZ Y) (cZ Z) (cZ p) 0 0 0 1.
Lemma isT_frame : forall p x y z a X Y Z, is3 p a -> is3 x X -> is3 y Y -> is3 z Z ->
  isT (init_from_orthogonal_basis p x y z) (framem a X Y Z) (framei a X Y Z).
Proof.
  intros p x y z a X Y Z Hp H K L. assert (Dx := isR_dot3 _ _ _ _ H Hp). assert (Dy := isR_dot3 _ _ _ _ K Hp).
  assert (Dz := isR_dot3 _ _ _ _ L Hp).
  destruct Hp as (?&?&?), H as (?&?&?), K as (?&?&?), L as (?&?&?).
  split; apply isM_lit; first [assumption | isr_step; first [assumption | isr_step]].
Qed.
Lemma frame_unit : forall X Z, dot3 X X = 1 -> dot3 Z Z = 1 -> dot3 X Z = 0 ->
  let Y := cross3 Z X in
  dot3 Y Y = 1 /\ dot3 X Y = 0 /\ dot3 Y Z = 0 /\ cross3 X Y = Z.
Proof.
  intros [a b c] [d e g] H K L. unfold dot3 in *; cbn in *. repeat split; unfold dot3; cbn; try nsatz.
  apply R3_eq; cbn; nsatz.
Qed.
Lemma inv_frame : forall p X Z, dot3 X X = 1 -> dot3 Z Z = 1 -> dot3 X Z = 0 ->
  mutually_inverse (framem p X (cross3 Z X) Z) (framei p X (cross3 Z X) Z).
Proof.
  intros [px py pz] [a b c] [d e g] H K L. unfold dot3 in *; cbn in *.
  split; meq4; unfold framem, framei, rid, dot3; cbn; first [ring | nsatz].
Qed.
Lemma cross3_scale_l : forall k a b, cross3 (scl3 k a) b = scl3 k (cross3 a b).
Proof. intros; apply R3_eq; cbn; ring. Qed.
Lemma cross3_scale_r : forall k a b, cross3 a (scl3 k b) = scl3 k (cross3 a b).
Proof. intros; apply R3_eq; cbn; ring. Qed.
Lemma cross3_nz_l : forall a b, cross3 a b <> zero3 -> a <> zero3.
Proof. intros a b H E; subst a. apply H. apply R3_eq; cbn; ring. Qed.
Lemma cross3_nz_r : forall a b, cross3 a b <> zero3 -> b <> zero3.
Proof. intros a b H E; subst b. apply H. apply R3_eq; cbn; ring. Qed.
Lemma scl3_nz : forall k a, k <> 0 -> a <> zero3 -> scl3 k a <> zero3.
Proof.
  intros k a Hk Ha E. apply Ha. injection E as E1 E2 E3.
  apply R3_eq; cbn; apply (Rmult_eq_reg_l k); auto; rewrite Rmult_0_r; auto.
Qed.
Lemma len3_pos : forall a, a <> zero3 -> 0 < len3 a.
Proof. intros a H. assert (L := len3_nonneg a). assert (N := len3_nz a H). lra. Qed.
Lemma cross_unit_unit : forall c d, cross3 c d <> zero3 ->
  cross3 (unit3 c) (unit3 d) = scl3 (/ len3 c * / len3 d) (cross3 c d).
Proof. intros. unfold unit3. apply R3_eq; cbn; ring. Qed.

Lemma cross_cross_unit : forall z u, dot3 z z = 1 -> cross3 z (cross3 u z) = sub3 u (scl3 (dot3 u z) z).
Proof. intros [x y z] [d e g] H. unfold dot3 in *; cbn in *. apply R3_eq; cbn; nsatz. Qed.
Lemma proj_len : forall z u, dot3 z z = 1 -> len3 (sub3 u (scl3 (dot3 u z) z)) = len3 (cross3 u z).
Proof. intros [x y z] [d e g] H. unfold len3. f_equal. unfold dot3 in *; cbn in *. nsatz. Qed.

Section LookAt.
Variables a b c : R3.
Hypothesis H : cross3 c (sub3 a b) <> zero3.
Let Z := unit3 (sub3 a b).
Let X := unit3 (cross3 (unit3 c) Z).
Let Y := cross3 Z X.
Lemma la_c : c <> zero3. Proof. eapply cross3_nz_l, H. Qed.
Lemma la_d : sub3 a b <> zero3. Proof. eapply cross3_nz_r, H. Qed.
Lemma la_x : cross3 (unit3 c) Z <> zero3.
Proof.
  unfold Z. rewrite cross_unit_unit by exact H. apply scl3_nz; [|exact H].
  assert (C := len3_pos c la_c). assert (D := len3_pos _ la_d).
  apply Rgt_not_eq. apply Rmult_lt_0_compat; apply Rinv_0_lt_compat; auto.
Qed.
Lemma la_ZZ : dot3 Z Z = 1. Proof. apply dot3_unit, la_d. Qed.
Lemma la_XX : dot3 X X = 1. Proof. apply dot3_unit, la_x. Qed.
Lemma la_XZ : dot3 X Z = 0.
Proof. unfold X. unfold unit3 at 1. unfold dot3; cbn. ring. Qed.
Lemma isT_look_at : forall p t u, is3 p a -> is3 t b -> is3 u c ->
  isT (look_at p t u) (framem a X Y Z) (framei a X Y Z).
Proof.
  intros p t u Hp Ht Hu. unfold look_at.
  assert (HZ : is3 (normalize (p_sub_p p t)) Z) by (apply is3_normalize; [apply is3_sub; auto | apply la_d]).
  assert (HU : is3 (normalize u) (unit3 c)) by (apply is3_normalize; [auto | apply la_c]).
  assert (HX : is3 (normalize (cross (normalize u) (normalize (p_sub_p p t)))) X)
    by (apply is3_normalize; [apply is3_cross; auto | apply la_x]).
  apply isT_frame; auto. apply is3_cross; auto.
Qed.
Lemma la_inv : mutually_inverse (framem a X Y Z) (framei a X Y Z).
Proof. apply inv_frame; [apply la_XX | apply la_ZZ | apply la_XZ]. Qed.
(** y is the normalised projection of up onto the plane orthogonal to z *)
Lemma la_Y : Y = unit3 (sub3 c (scl3 (dot3 c Z) Z)).
Proof.
  assert (ZZ := la_ZZ). assert (C := len3_pos c la_c).
  set (uc := unit3 c).
  assert (E := cross_cross_unit Z uc ZZ). assert (L := proj_len Z uc ZZ).
  transitivity (unit3 (sub3 uc (scl3 (dot3 uc Z) Z))).
  { unfold unit3 at 1. rewrite L, <- E. unfold Y, X. fold uc. unfold unit3. rewrite cross3_scale_r. reflexivity. }
  replace (sub3 uc (scl3 (dot3 uc Z) Z)) with (scl3 (/ len3 c) (sub3 c (scl3 (dot3 c Z) Z))).
  - apply unit3_scale. apply Rinv_0_lt_compat; auto.
  - unfold uc, unit3. apply R3_eq; cbn; unfold dot3; cbn; ring.
Qed.
End LookAt.
