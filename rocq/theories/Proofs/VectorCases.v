(** Refutations and sample data for Props/P_Vector.v. *)
From Coq Require Import ZArith Reals Bool Lra Lia.
From Coq Require Vector Fin.
From Flocq Require Import Core BinarySingleNaN.
From Verif.Model Require Import FloatBase Scalar Float Interval Vec Transform XReal.
From Verif Require Import Spec SpecGeom.
From Verif.Proofs Require Import BitsLemmas FloatLemmas PiBounds ScalarProofs IntervalBase IntervalProofs IntervalProofs2 IntervalRefute XRealLemmas
  VectorFloat VectorExact VectorInterval TransformCases.
Import Vector.VectorNotations.
Open Scope R_scope.

Definition one1 {A} (x : A) : vec A 1 := [x].
Lemma one1_all {A} (P : A -> Prop) (x : A) : P x -> forall i, P (Vector.nth (one1 x) i).
Proof. intros H i. apply (Fin.caseS' i (fun i => P (Vector.nth (one1 x) i))); [exact H|intros j; inversion j]. Qed.
Lemma one1_memv {f} r (x : interval (float f)) : mem r x -> memv (fun _ => r) (one1 x).
Proof. intros H. exact (one1_all (mem r) x H). Qed.

Lemma dot_bad_sup f (m : libm f) : B2R (sup (dot (one1 (ZI f (-1) 2)) (one1 (ZI f (-3) 1)))) < 5/2 /\ finite (sup (dot (one1 (ZI f (-1) 2)) (one1 (ZI f (-3) 1)))).
Proof.
  split; [|destruct f; vm_compute; reflexivity].
  destruct f; match goal with |- B2R ?x < _ => b2r_eval x end; simpl bpow; lra.
Qed.
Lemma dot_refuted f (m : libm f) : ~ (forall n (v w : vec (interval (float f)) n) a b,
  (forall i, bounded (Vector.nth v i)) -> (forall i, bounded (Vector.nth w i)) ->
  memv a v -> memv b w -> mem (rdot a b) (dot v w)).
Proof.
  intros H. assert (K : mem (rdot (fun _ : Fin.t 1 => -1) (fun _ => -3)) (dot (one1 (ZI f (-1) 2)) (one1 (ZI f (-3) 1)))).
  { apply H; [apply (one1_all bounded); zi|apply (one1_all bounded); zi|apply one1_memv; zi|apply one1_memv; zi]. }
  destruct (dot_bad_sup f m) as [L F]. destruct K as [_ K]. apply above_finite in K; auto.
  revert L K. generalize (B2R (sup (dot (one1 (ZI f (-1) 2)) (one1 (ZI f (-3) 1))))). intros x L K. unfold rdot in K. cbn [rsum] in K. lra.
Qed.
Lemma norm_refuted f (m : libm f) : ~ (forall n (v : vec (interval (float f)) n) a,
  (forall i, bounded (Vector.nth v i)) -> memv a v -> mem (rlen a) (norm v)).
Proof.
  intros H. assert (M : memv (fun _ => 0) (one1 (ZI f (-1) 2))) by (apply one1_memv; zi).
  apply (norm_nan _ M). apply (mem_proper (rlen (fun _ : Fin.t 1 => 0))). apply H; [|exact M]. apply (one1_all bounded); zi.
Qed.

(** ** sample data *)
Lemma isV3 v a : is3 v a -> isV v (fun i => Fin.caseS' i (fun _ => R) (cX a) (fun j => Fin.caseS' j (fun _ => R) (cY a) (fun _ => cZ a))).
Proof.
  intros (H1 & H2 & H3) i. apply (Fin.caseS' i); [exact H1|]. intros j. apply (Fin.caseS' j); [exact H2|]. intros k. apply (Fin.caseS' k); [exact H3|]. intros l; inversion l.
Qed.
Lemma C26_sample f : fall nonnan (fv f 1 (-2) 3) /\ fall nonnan (one1 (finf true : float f)).
Proof. split; [intros i; apply nonnan_of_finite; revert i; apply fv_finite; lia|]. exact (one1_all nonnan (finf true) eq_refl). Qed.
Lemma C27_sample f (m : libm f) : finite (dot (fv f 1 (-2) 3) (fv f 4 5 6)) /\ INR 3 * unit_roundoff f <= 1 / 2.
Proof.
  split; [destruct f; vm_compute; reflexivity|]. unfold unit_roundoff.
  apply Rle_trans with (INR 3 * bpow radix2 (-3)); [|cbn; lra].
  apply Rmult_le_compat_l; [cbn; lra|]. apply bpow_le. destruct f; vm_compute; discriminate.
Qed.
Lemma C28_sample f : fall (fun x => finite x /\ Rabs (B2R x) <= bpow radix2 (emax f / 2 - 1)) (fv f 1 (-2) 3).
Proof.
  destruct (fv_val f 1 (-2) 3) as ([F1 V1] & [F2 V2] & [F3 V3]); try lia.
  assert (4 <= bpow radix2 (emax f / 2 - 1)).
  { apply (Rle_trans _ (bpow radix2 2)); [cbn; lra|]. apply bpow_le. destruct f; vm_compute; discriminate. }
  intros i; revert i. apply (all3 (fun x => finite x /\ Rabs (B2R x) <= bpow radix2 (emax f / 2 - 1))); (split; [assumption|]).
  - rewrite V1, Rabs_pos_eq by lra. lra.
  - rewrite V2, Rabs_left by lra. lra.
  - rewrite V3, Rabs_pos_eq by lra. lra.
Qed.
Lemma C29_sample f : realv (xv 1 2 3) /\ isR (xn 2) 2 /\ fall nonnan (fv f 1 (-2) 3).
Proof. split; [|split; [apply isR_xn|apply C26_sample]]. intros i; revert i; apply (all3 isreal); eexists; apply isR_xn. Qed.
Lemma C30_sample : exists a, isV (xv 1 2 3) a /\ ~ (forall i, a i = 0).
Proof.
  eexists. split; [apply isV3, is3_xv|]. intros H. specialize (H Fin.F1). cbn in H. lra.
Qed.
Lemma C63_sample f (m : libm f) : memv (fun i => 1/2) (vec3 (ZI f 0 1) (ZI f (-3) 2) (ZI f 0 4)) /\
  (forall i, bounded (Vector.nth (vec3 (ZI f 0 1) (ZI f (-3) 2) (ZI f 0 4)) i)) /\
  (forall i, ~ (straddles (Vector.nth (vec3 (ZI f 0 1) (ZI f (-3) 2) (ZI f 0 4)) i) /\ straddles (Vector.nth (vec3 (ZI f (-1) 1) (ZI f 0 1) (ZI f 2 4)) i))) /\
  fle (fzero false) (inf (square_norm (vec3 (ZI f 1 2) (ZI f 3 4) (ZI f (-1) 1)))).
Proof.
  split; [|split; [|split]].
  - intros i; revert i. apply (all3 (mem (1/2))); cbv [vx vy vz vget vec3 Vector.nth Vector.caseS]; zi.
  - apply (all3 bounded); cbv [vx vy vz vget vec3 Vector.nth Vector.caseS]; zi.
  - intros i; revert i. apply (fin3_case (fun i => ~ (straddles (Vector.nth (vec3 (ZI f 0 1) (ZI f (-3) 2) (ZI f 0 4)) i) /\ straddles (Vector.nth (vec3 (ZI f (-1) 1) (ZI f 0 1) (ZI f 2 4)) i))));
    cbn [Vector.nth vec3 Vector.caseS]; intros [A B]; apply straddles_ZI in A; apply straddles_ZI in B; lia.
  - apply sle_spec. destruct f; vm_compute; reflexivity.
Qed.
