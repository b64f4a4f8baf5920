(** A concrete camera for the thin lens theorems in f32/f64. *)
From Coq Require Import ZArith Reals Bool List Lra Lia.
From Coq Require Vector Fin.
From Flocq Require Import Core BinarySingleNaN.
From Verif.Model Require Import FloatBase Scalar Float Interval Outcome Vec Transform XReal Geometry Camera.
From Verif Require Import Spec SpecGeom SpecShape SpecCamera SpecTrig SpecError SpecLens.
From Verif.Proofs Require Import BitsLemmas FloatLemmas ScalarProofs XRealLemmas TransformFloat TransformCases VectorFloat VectorCases VectorErr MapErr ErrCases IntervalTrig2 DiskCases.
Open Scope R_scope.

Definition lens_cam (f : fmt) {m : libm f} : thin_lens (float f) := mkTL (t_inverse (ft f)) (f_of_Z 3) (f_of_Z 1) (f_of_Z (-2)) (f_of_Z 4) (f_of_Z 2).
Lemma C81_sample f : let m := exact_libm f in good_sin_cos m /\ usual_lens (lens_cam f) /\
  (exists p : vec (float f) 2, unit_sample p /\ B2R (vx p) = 1 / 4 /\ B2R (vy p) = 3 / 4) /\
  (exists A, fM (t_inverse_matrix (view (lens_cam f))) A /\ affine A) /\
  is2 (vec2 (XFin (1 / 4) false) (XFin (3 / 4) false)) (1 / 4) (3 / 4) /\
  (usual_size (f_of_Z 3 : float f) /\ usual_size (f_of_Z 2 : float f) /\ / 1024 <= Rabs (B2R (f_of_Z 3 : float f) - B2R (f_of_Z 2 : float f))).
Proof.
  intros m. destruct (C78_sample f) as (G & (p & Fp & P1 & P2) & I). split; [exact G|].
  assert (S : forall z, (Z.abs z <= 5)%Z -> finite (f_of_Z z : float f) /\ B2R (f_of_Z z : float f) = IZR z) by (intros z Hz; apply f_of_Z_exact; assert (1000 <= 2 ^ prec f)%Z by (destruct f; vm_compute; discriminate); lia).
  split. { unfold usual_lens, usual_size, lens_cam; cbn [film_width film_height film_distance focal_distance lens_radius].
    destruct (S 3%Z) as [f3 e3]; [lia|]. destruct (S 1%Z) as [f1 e1]; [lia|]. destruct (S (-2)%Z) as [f2 e2]; [lia|]. destruct (S 4%Z) as [f4 e4]; [lia|]. destruct (S 2%Z) as [f5 e5]; [lia|].
    rewrite e1, e2, e3, e4, e5. repeat split; try assumption; split_Rabs; lra. }
  split; [exists p; split; [split; [exact Fp|rewrite P1, P2; lra]|auto]|].
  split; [destruct (C77_sample f m) as (_ & _ & _ & E & _); exact E|]. split; [exact I|].
  unfold usual_size. destruct (S 3%Z) as [f3 e3]; [lia|]. destruct (S 2%Z) as [f5 e5]; [lia|]. rewrite e3, e5. repeat split; try assumption; split_Rabs; lra.
Qed.
