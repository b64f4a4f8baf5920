(** Concrete cases for the rounding-error theorems. *)
From Coq Require Import ZArith Reals Bool List Lra Lia.
From Coq Require Vector Fin SpecFloat.
From Flocq Require Import Core BinarySingleNaN.
From Verif.Model Require Import FloatBase Scalar Float Interval Outcome Vec Transform XReal Geometry.
From Verif Require Import Spec SpecGeom SpecShape SpecError.
From Verif.Proofs Require Import BitsLemmas FloatLemmas ScalarProofs XRealLemmas VectorFloat VectorCases TransformFloat TransformCases SlabFloat SlabCases VectorErr MapErr.
Open Scope R_scope.
Notation "v @ i" := (Vector.nth v i) (at level 20, only parsing).

(** a vector whose squared length overflows normalizes to zero, one whose squared length underflows to infinity *)
Lemma normalize_overflow f (m : libm f) : exists v : vec (float f) 3, fall finite v /\ ~ (forall i, fvals v i = 0) /\
  fall finite (normalize v) /\ forall i, fvals (normalize v) i = 0.
Proof.
  set (mx := fmax_value : float f). exists (vec3 mx (fzero false) (fzero false)). split; [|split].
  - unfold fall; a3; unfold mx; destruct f; reflexivity.
  - intros K. specialize (K Fin.F1). unfold fvals in K. cbn [Vector.nth vec3 Vector.caseS] in K.
    assert (P : 0 < B2R mx) by (unfold mx; destruct f; unfold fmax_value, Bmax_float, B2R; apply F2R_gt_0; reflexivity). lra.
  - assert (N : forall i, normalize (vec3 mx (fzero false) (fzero false)) @ i = fzero false).
    { unfold mx; a3; apply B2SF_inj; unfold mx; destruct f; vm_compute; reflexivity. }
    split; intros i; [rewrite N; reflexivity|unfold fvals; rewrite N; reflexivity].
Qed.

Lemma unit_len_refuted f (m : libm f) : ~ (forall v : vec (float f) 3, fall finite v -> ~ (forall i, fvals v i = 0) ->
  fall finite (normalize v) /\ Rabs (rlen (fvals (normalize v)) - 1) <= 6 * unit_roundoff f).
Proof.
  intros K. destruct (normalize_overflow f m) as (v & F & Z & _ & N). destruct (K v F Z) as [_ B].
  assert (L : rlen (fvals (normalize v)) = 0). { unfold rlen, rdot, rsum. rewrite !N. replace (_ + _) with 0 by ring. apply sqrt_0. }
  rewrite L in B. replace (0 - 1) with (-1) in B by ring. rewrite Rabs_left in B by lra. assert (U := u_small (f := f)). lra.
Qed.
Lemma C76_sample f (m : libm f) : let v := fv f 1 (-2) 3 in let w := fv f 4 0 7 in
  finite (norm v) /\ finite (distance v w) /\ INR 3 * unit_roundoff f <= 1 / 2 /\ bpow radix2 (-40) <= rlen (fvals v).
Proof.
  intros v w. split; [destruct f; vm_compute; reflexivity|]. split; [destruct f; vm_compute; reflexivity|]. split; [exact (proj2 (C27_sample f m))|].
  assert (V : forall z, (Z.abs z <= 100)%Z -> B2R (f_of_Z z : float f) = IZR z) by (intros; now apply (small_Z f)).
  apply Rle_trans with 1. { change 1 with (bpow radix2 0). apply bpow_le. lia. }
  rewrite <- (Rabs_pos_eq 1) by lra. replace (Rabs 1) with (Rabs (fvals v Fin.F1)); [apply comp_le_len|]. change (fvals v Fin.F1) with (B2R (f_of_Z 1 : float f)). now rewrite V.
Qed.
Definition ft (f : fmt) {m : libm f} : transform (float f) := t_mul (translate (fv f 1 (-2) 3)) (scale (fv f 2 3 4)).
Lemma C77_sample f (m : libm f) : let v := fv f 1 (-2) 3 in let w := fv f 4 0 7 in
  fall finite v /\ fall finite (cross v w) /\ fall finite (ray_eval (mkRay v w (f_of_Z 9)) (f_of_Z 2)) /\
  (exists A, fM (t_matrix (ft f)) A /\ affine A) /\
  (exists q, t_map_vector (ft f) v = Ret q /\ fall finite q) /\ (exists q, t_map_point (ft f) v = Ret q /\ fall finite q) /\
  forall i j, finite (m_mul (t_matrix (ft f)) (t_matrix (ft f)) @ i @ j).
Proof.
  intros v w.
  assert (M : forall i j, finite (t_matrix (ft f) @ i @ j)).
  { intros i. revert i. refine (fin4_case _ _ _ _ _); refine (fin4_case _ _ _ _ _); destruct f; vm_compute; reflexivity. }
  split; [unfold fall; a3; destruct f; vm_compute; reflexivity|]. split; [unfold fall; a3; destruct f; vm_compute; reflexivity|]. split; [unfold fall; a3; destruct f; vm_compute; reflexivity|].
  split. { exists (fun i j => B2R (t_matrix (ft f) @ i @ j)). split; [intros i j; split; [apply M|reflexivity]|].
    assert (E0 : forall j, j <> i3 -> B2SF (t_matrix (ft f) @ i3 @ j) = SpecFloat.S754_zero false).
    { refine (fin4_case _ _ _ _ _); intros N; [| | |now destruct N]; destruct f; vm_compute; reflexivity. }
    assert (V : forall j, j <> i3 -> B2R (t_matrix (ft f) @ i3 @ j) = 0).
    { intros j N. specialize (E0 j N). destruct (t_matrix (ft f) @ i3 @ j); try discriminate; reflexivity. }
    repeat split; try (apply V; discriminate).
    replace (t_matrix (ft f) @ i3 @ i3) with (f_of_Z 1 : float f); [now apply (small_Z f 1)|]. apply B2SF_inj. destruct f; vm_compute; reflexivity. }
  split. { unfold t_map_vector, map_vector, oassert; cbv zeta. match goal with |- context [if ?b then _ else Panic] => replace b with true by (symmetry; destruct f; vm_compute; reflexivity) end.
    eexists. split; [reflexivity|]. unfold fall; a3; destruct f; vm_compute; reflexivity. }
  split. { unfold t_map_point, map_point, oassert; cbv zeta. match goal with |- context [if ?b then _ else Panic] => replace b with true by (symmetry; destruct f; vm_compute; reflexivity) end.
    eexists. split; [reflexivity|]. unfold fall; a3; destruct f; vm_compute; reflexivity. }
  refine (fin4_case _ _ _ _ _); refine (fin4_case _ _ _ _ _); destruct f; vm_compute; reflexivity.
Qed.
