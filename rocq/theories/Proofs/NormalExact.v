(** What the code does to normals, for every normal. *)
From Coq Require Import ZArith Reals Bool Lra Lia.
From Coq Require Vector Fin.
From Verif.Model Require Import FloatBase Scalar Interval Outcome Vec Transform XReal.
From Verif Require Import Spec SpecGeom.
From Verif.Proofs Require Import XRealLemmas MatrixProofs TransformProofs TransformThms TransformThms2 TransformCases.
Open Scope R_scope.

Lemma normal_actual t A B n c v a : isT t A B -> mutually_inverse A B -> affine A -> is3 n c -> is3 v a ->
  returns (t_map_vector t v) (fun v' => exists m b, is3 (t_map_normal t n) m /\ is3 v' b /\ dot3 m b = dot3 (mk3 (cX c) (cY c) (cZ c * cZ c)) a).
Proof.
  intros HT HI AA Hn Hv. destruct (map_vector_affine _ _ _ _ (proj1 HT) Hv AA) as (q & Eq & Hq).
  exists q; split; [exact Eq|]. exists (app_normal' B c), (app_vec A a). split; [eapply map_normal_val; eauto|]. split; [exact Hq|].
  rewrite <- (app_normal_perp A B _ a HI AA). f_equal. unfold app_normal', app_normal. apply R3_eq; cbn; ring.
Qed.
Lemma normal_iff t A B n c : isT t A B -> mutually_inverse A B -> affine A -> is3 n c ->
  ((forall v a, is3 v a -> dot3 c a = 0 -> returns (t_map_vector t v) (fun v' => exists m b, is3 (t_map_normal t n) m /\ is3 v' b /\ dot3 m b = 0)) <->
   cZ c = 0 \/ cZ c = 1 \/ (cX c = 0 /\ cY c = 0)).
Proof.
  intros HT HI AA Hn. split.
  - intros H. assert (K : forall x y z, dot3 c (mk3 x y z) = 0 -> dot3 (mk3 (cX c) (cY c) (cZ c * cZ c)) (mk3 x y z) = 0).
    { intros x y z Z. destruct (H (xv x y z) (mk3 x y z) (is3_xv x y z) Z) as (v' & E & m & b & M & Vb & D).
      destruct (normal_actual t A B n c _ _ HT HI AA Hn (is3_xv x y z)) as (v2 & E2 & m2 & b2 & M2 & Vb2 & D2). rewrite E in E2. injection E2 as <-.
      rewrite <- (is3_inj _ _ _ M M2), <- (is3_inj _ _ _ Vb Vb2) in D2. lra. }
    destruct c as [x y z]. unfold dot3 in K. cbn [cX cY cZ] in *.
    assert (K1 := K z 0 (- x) ltac:(ring)). assert (K2 := K 0 z (- y) ltac:(ring)).
    destruct (Req_dec z 0) as [Z|Z]; [auto|]. destruct (Req_dec z 1) as [Z1|Z1]; [auto|]. right. right.
    split; apply Rmult_eq_reg_r with (z * (1 - z)); try (apply Rmult_integral_contrapositive_currified; lra); lra.
  - intros C v a Hv D. destruct (normal_actual t A B n c v a HT HI AA Hn Hv) as (v' & E & m & b & M & Vb & D2).
    exists v'. split; [exact E|]. exists m, b. split; [exact M|split; [exact Vb|]]. rewrite D2. unfold dot3 in *. cbn [cX cY cZ].
    destruct C as [C|[C|[C1 C2]]]; [rewrite C in *; lra|rewrite C in *; lra|]. rewrite C1, C2 in *. assert (Z : cZ c * cZ a = 0) by lra.
    transitivity (cZ c * (cZ c * cZ a)); [ring|rewrite Z; ring].
Qed.
