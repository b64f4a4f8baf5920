(** Float translations and scalings meet the conditions of [BoxMapFloat]. *)
From Coq Require Import ZArith Reals Bool List Lra Lia.
From Coq Require Vector Fin.
From Flocq Require Import Core BinarySingleNaN.
From Verif.Model Require Import FloatBase Scalar Float Interval Outcome Vec Transform XReal Geometry.
From Verif Require Import Spec SpecGeom SpecShape.
From Verif.Proofs Require Import BitsLemmas FloatLemmas ScalarProofs XRealLemmas VectorFloat MatrixProofs TransformProofs TransformFloat TransformCases BoxFloat BoxMapFloat.
Open Scope R_scope.
Section F.
Context {f : fmt} {m : libm f}.
Notation FT := (float f).
Lemma self_val (x : FT) : finite x -> val x (B2R x). Proof. intros H. split; [exact H|reflexivity]. Qed.
Definition diag_mat (a b c x y z : R) : rmat := lit a 0 0 x 0 b 0 y 0 0 c z 0 0 0 1.
Lemma diag_affine a b c x y z : affine (diag_mat a b c x y z) /\ diagonal (diag_mat a b c x y z).
Proof. repeat split. Qed.
Lemma translate_ok (v : vec FT 3) : fall finite v -> exists A B, fM (tm (translate v)) A /\ affine A /\ diagonal A /\ fM (tminv (translate v)) B /\ affine B /\ diagonal B.
Proof.
  intros Fv. assert (V1 := self_val _ (Fv Fin.F1)). assert (V2 := self_val _ (Fv (Fin.FS Fin.F1))). assert (V3 := self_val _ (Fv (Fin.FS (Fin.FS Fin.F1)))).
  assert (W1 := self_val _ (proj2 (fneg_finite _) (Fv Fin.F1))). assert (W2 := self_val _ (proj2 (fneg_finite _) (Fv (Fin.FS Fin.F1)))). assert (W3 := self_val _ (proj2 (fneg_finite _) (Fv (Fin.FS (Fin.FS Fin.F1))))).
  exists (diag_mat 1 1 1 (B2R (Vector.nth v Fin.F1)) (B2R (Vector.nth v (Fin.FS Fin.F1))) (B2R (Vector.nth v (Fin.FS (Fin.FS Fin.F1))))), (diag_mat 1 1 1 (B2R (fneg (Vector.nth v Fin.F1))) (B2R (fneg (Vector.nth v (Fin.FS Fin.F1)))) (B2R (fneg (Vector.nth v (Fin.FS (Fin.FS Fin.F1)))))). split; [|split; [apply diag_affine|split; [apply diag_affine|split; [|split; apply diag_affine]]]].
  - intros i j. fin4 i; fin4 j; first [exact (val_zero false) | exact val_one | exact V1 | exact V2 | exact V3].
  - intros i j. fin4 i; fin4 j; first [exact (val_zero false) | exact val_one | exact W1 | exact W2 | exact W3].
Qed.
Lemma scale_ok (v : vec FT 3) : fall finite v -> exists A, fM (tm (scale v)) A /\ affine A /\ diagonal A.
Proof.
  intros Fv. assert (V1 := self_val _ (Fv Fin.F1)). assert (V2 := self_val _ (Fv (Fin.FS Fin.F1))). assert (V3 := self_val _ (Fv (Fin.FS (Fin.FS Fin.F1)))).
  exists (diag_mat (B2R (Vector.nth v Fin.F1)) (B2R (Vector.nth v (Fin.FS Fin.F1))) (B2R (Vector.nth v (Fin.FS (Fin.FS Fin.F1)))) 0 0 0). split; [|apply diag_affine].
  intros i j. fin4 i; fin4 j; first [exact (val_zero false) | exact val_one | exact V1 | exact V2 | exact V3].
Qed.
Lemma scale_inv_ok (v : vec FT 3) : (forall i, finite (fdiv (f_of_Z 1) (Vector.nth v i))) -> exists B, fM (tminv (scale v)) B /\ affine B /\ diagonal B.
Proof.
  intros Fv. assert (V1 := self_val _ (Fv Fin.F1)). assert (V2 := self_val _ (Fv (Fin.FS Fin.F1))). assert (V3 := self_val _ (Fv (Fin.FS (Fin.FS Fin.F1)))).
  exists (diag_mat (B2R (fdiv (f_of_Z 1) (Vector.nth v Fin.F1))) (B2R (fdiv (f_of_Z 1) (Vector.nth v (Fin.FS Fin.F1)))) (B2R (fdiv (f_of_Z 1) (Vector.nth v (Fin.FS (Fin.FS Fin.F1))))) 0 0 0). split; [|apply diag_affine].
  intros i j. fin4 i; fin4 j; first [exact (val_zero false) | exact val_one | exact V1 | exact V2 | exact V3].
Qed.
Theorem translate_box (v : vec FT 3) (b : bbox FT) p : fall finite v -> box_finite b -> fall finite p -> in_fbox b p ->
  (exists q, t_map_point (translate v) p = Ret q /\ in_fbox (t_map_bbox (translate v) b) q) /\ (exists q, t_map_point_inverse (translate v) p = Ret q /\ in_fbox (t_map_bbox_inverse (translate v) b) q).
Proof. intros Fv HB Fp HI. destruct (translate_ok v Fv) as (A & B & H1 & H2 & H3 & H4 & H5 & H6). split; [exact (map_encloses _ A b p H1 H2 H3 HB Fp HI)|exact (map_encloses _ B b p H4 H5 H6 HB Fp HI)]. Qed.
Theorem scale_box (v : vec FT 3) (b : bbox FT) p : fall finite v -> box_finite b -> fall finite p -> in_fbox b p ->
  (exists q, t_map_point (scale v) p = Ret q /\ in_fbox (t_map_bbox (scale v) b) q).
Proof. intros Fv HB Fp HI. destruct (scale_ok v Fv) as (A & H1 & H2 & H3). exact (map_encloses _ A b p H1 H2 H3 HB Fp HI). Qed.
Theorem scale_box_inv (v : vec FT 3) (b : bbox FT) p : (forall i, finite (fdiv (f_of_Z 1) (Vector.nth v i))) -> box_finite b -> fall finite p -> in_fbox b p ->
  (exists q, t_map_point_inverse (scale v) p = Ret q /\ in_fbox (t_map_bbox_inverse (scale v) b) q).
Proof. intros Fv HB Fp HI. destruct (scale_inv_ok v Fv) as (A & H1 & H2 & H3). exact (map_encloses _ A b p H1 H2 H3 HB Fp HI). Qed.
End F.
Definition box97 (f : fmt) {m : libm f} : bbox (float f) := b_new (fv f (-1) 2 0) (fv f 3 5 7).
Lemma C97_sample f (m : libm f) : fall finite (fv f 3 (-2) 7) /\ (forall i, finite (fdiv (f_of_Z 1) (Vector.nth (fv f 3 (-2) 7) i))) /\ box_finite (box97 f) /\ box_ordered (box97 f) /\ fall finite (fv f 1 3 0) /\ in_fbox (box97 f) (fv f 1 3 0).
Proof.
  split; [apply fv_finite; lia|]. split; [refine (proj2 (forall3 _) _); destruct f; (split; [|split]); vm_compute; reflexivity|].
  assert (B : box_finite (box97 f)) by (refine (proj2 (forall3 _) _); destruct f; (split; [|split]; split); vm_compute; reflexivity).
  split; [exact B|]. assert (I : in_fbox (box97 f) (fv f 1 3 0)) by (apply inside_spec; destruct f; vm_compute; reflexivity).
  split; [exact (in_ordered _ _ I)|]. split; [apply fv_finite; lia|exact I].
Qed.
