(** Concrete rays on which the float slab test and exact geometry disagree. *)
From Coq Require Import ZArith Reals Bool Lra Lia.
From Coq Require Vector Fin.
From Flocq Require Import Core BinarySingleNaN.
From Verif.Model Require Import FloatBase Scalar Float Interval Outcome Vec Transform XReal Geometry.
From Verif Require Import Spec SpecGeom SpecShape.
From Verif.Proofs Require Import BitsLemmas FloatLemmas ScalarProofs XRealLemmas VectorExact TransformCases BoxFloat BoxExact BoxCases SlabFloat.
Open Scope R_scope.
Notation "v @ i" := (Vector.nth v i) (at level 20, only parsing).

(** P = 2^(prec-1); the x entry is at (4P + P/2 + 6) / 3 = 3/2 P + 2, the z exit at 3/2 P + 2; the
    numerator is not a float and is rounded up. *)
Definition P_ (f : fmt) : Z := match f with F32 => 8388608 | F64 => 4503599627370496 end.
Definition miss_box (f : fmt) : bbox (float f) := mkB (fv f (4 * P_ f) (-1) 0) (fv f (8 * P_ f) 1 (3 * (P_ f / 2) + 2)).
Definition miss_ray (f : fmt) : ray (float f) := mkRay (fv f (- (P_ f / 2 + 6)) 0 0) (fv f 3 0 1) (f_of_Z (8 * P_ f)).
(** x entry at 2^60 + 1, z exit at 2^60 *)
Definition ghost_box (f : fmt) : bbox (float f) := mkB (fv f (2 ^ 60) (-1) 0) (fv f (2 ^ 61) 1 (2 ^ 60)).
Definition ghost_ray (f : fmt) : ray (float f) := mkRay (fv f (-1) 0 0) (fv f 1 0 1) (f_of_Z (2 ^ 61)).

Lemma fle_R {f} (a b : float f) : finite a -> finite b -> B2R a <= B2R b -> fle a b.
Proof. intros Ha Hb K. apply fle_E. split; [now apply nonnan_of_finite|]. split; [now apply nonnan_of_finite|]. now rewrite !E_B2R. Qed.
Ltac val1 := match goal with |- B2R ?x = IZR ?z => let z' := eval vm_compute in z in change z with z'; b2r_eval x end; simpl bpow; lra.
Lemma f3_fv f x y z : f3 (fv f x y z) = mk3 (B2R (@f_of_Z f x)) (B2R (@f_of_Z f y)) (B2R (@f_of_Z f z)).
Proof. reflexivity. Qed.
Lemma small_Z f (z : Z) : (Z.abs z <= 100)%Z -> B2R (@f_of_Z f z) = IZR z.
Proof. intros K. apply f_of_Z_exact. assert (100 <= 2 ^ prec f)%Z by (destruct f; vm_compute; discriminate). lia. Qed.

Definition sides_finite {f} (b : bbox (float f)) (r : ray (float f)) : Prop :=
  forall i, finite (ssub (pmin b @ i) (origin r @ i)) /\ finite (ssub (pmax b @ i) (origin r @ i)).
Lemma fall3 (Q : Fin.t 3 -> Prop) : Q Fin.F1 -> Q (Fin.FS Fin.F1) -> Q (Fin.FS (Fin.FS Fin.F1)) -> forall i, Q i.
Proof. intros A B C i. apply (Fin.caseS' i); [exact A|]. intros j. apply (Fin.caseS' j); [exact B|]. intros k. apply (Fin.caseS' k); [exact C|]. intros l. apply (Fin.case0 (fun l => Q (Fin.FS (Fin.FS (Fin.FS l)))) l). Qed.
Ltac a3 := match goal with |- forall i, @?Q i => apply (fall3 Q) end; cbv beta.
Ltac unf := unfold box_finite, box_ordered, ray_finite, sides_finite, fall.
Ltac fin3 := unf; a3; cbv beta; (split; match goal with g : fmt |- _ => destruct g end; vm_compute; reflexivity).

Lemma bigP f : B2R (@f_of_Z f (4 * P_ f)) = 4 * IZR (P_ f) /\ B2R (@f_of_Z f (8 * P_ f)) = 8 * IZR (P_ f) /\
  B2R (@f_of_Z f (3 * (P_ f / 2) + 2)) = 3 * (IZR (P_ f) / 2) + 2 /\ B2R (@f_of_Z f (- (P_ f / 2 + 6))) = - (IZR (P_ f) / 2 + 6).
Proof.
  destruct f; unfold P_; (split; [|split; [|split]]); match goal with |- B2R ?x = _ => b2r_eval x end; simpl bpow; lra.
Qed.
Lemma big60 f : B2R (@f_of_Z f (2 ^ 60)) = 1152921504606846976 /\ B2R (@f_of_Z f (2 ^ 61)) = 2305843009213693952.
Proof. destruct f; split; match goal with |- B2R ?x = _ => b2r_eval x end; simpl bpow; lra. Qed.
Lemma P_pos f : 1000 <= IZR (P_ f).
Proof. destruct f; unfold P_; lra. Qed.

Section M.
Context (f : fmt).
Lemma miss_pmin : f3 (pmin (miss_box f)) = mk3 (4 * IZR (P_ f)) (-1) 0.
Proof. unfold miss_box. cbn [pmin]. rewrite f3_fv. destruct (bigP f) as (-> & _). rewrite !small_Z by lia. reflexivity. Qed.
Lemma miss_pmax : f3 (pmax (miss_box f)) = mk3 (8 * IZR (P_ f)) 1 (3 * (IZR (P_ f) / 2) + 2).
Proof. unfold miss_box. cbn [pmax]. rewrite f3_fv. destruct (bigP f) as (_ & -> & -> & _). rewrite !small_Z by lia. reflexivity. Qed.
Lemma miss_o : f3 (origin (miss_ray f)) = mk3 (- (IZR (P_ f) / 2 + 6)) 0 0.
Proof. unfold miss_ray. cbn [origin]. rewrite f3_fv. destruct (bigP f) as (_ & _ & _ & ->). rewrite !small_Z by lia. reflexivity. Qed.
Lemma miss_d : f3 (direction (miss_ray f)) = mk3 3 0 1.
Proof. unfold miss_ray. cbn [direction]. rewrite f3_fv. rewrite !small_Z by lia. reflexivity. Qed.
Lemma miss_bf : box_finite (miss_box f).
Proof. fin3. Qed.
Lemma miss_bo : box_ordered (miss_box f).
Proof.
  assert (K : le3 (f3 (pmin (miss_box f))) (f3 (pmax (miss_box f)))) by (rewrite miss_pmin, miss_pmax; unfold le3; cbn [cX cY cZ]; pose proof (P_pos f); lra).
  destruct K as (A & B & C). unfold box_ordered. a3; (apply fle_R; [apply miss_bf|apply miss_bf|]); [exact A|exact B|exact C].
Qed.
Lemma miss_rf : ray_finite (miss_ray f).
Proof. unf; split; [|split]; [a3|a3|]; destruct f; vm_compute; reflexivity. Qed.
Lemma miss_sf : sides_finite (miss_box f) (miss_ray f). Proof. fin3. Qed.
Lemma miss_ng : ray_no_graze (miss_box f) (miss_ray f).
Proof.
  unfold ray_no_graze. rewrite miss_pmin, miss_pmax, miss_o, miss_d. unfold no_graze, grazes. cbn [cX cY cZ].
  split; [|split]; intros (A & B & C); lra.
Qed.
Lemma miss_exact : exists t, 0 <= t <= B2R (tmax (miss_ray f)) /\ ray_in_box (miss_box f) (miss_ray f) t.
Proof.
  exists (3 * (IZR (P_ f) / 2) + 2). pose proof (P_pos f).
  replace (B2R (tmax (miss_ray f))) with (8 * IZR (P_ f)) by (symmetry; apply bigP). split; [lra|].
  unfold ray_in_box. rewrite miss_pmin, miss_pmax, miss_o, miss_d. unfold in_box, le3, at_ray, add3, scl3. cbn [cX cY cZ]. lra.
Qed.
Lemma miss_false {m : libm f} : b_do_intersect (miss_box f) (miss_ray f) = false.
Proof. destruct f; vm_compute; reflexivity. Qed.

Lemma ghost_pmin : f3 (pmin (ghost_box f)) = mk3 1152921504606846976 (-1) 0.
Proof. unfold ghost_box. cbn [pmin]. rewrite f3_fv. destruct (big60 f) as (-> & _). rewrite !small_Z by lia. reflexivity. Qed.
Lemma ghost_pmax : f3 (pmax (ghost_box f)) = mk3 2305843009213693952 1 1152921504606846976.
Proof. unfold ghost_box. cbn [pmax]. rewrite f3_fv. destruct (big60 f) as (-> & ->). rewrite !small_Z by lia. reflexivity. Qed.
Lemma ghost_o : f3 (origin (ghost_ray f)) = mk3 (-1) 0 0.
Proof. unfold ghost_ray. cbn [origin]. rewrite f3_fv. rewrite !small_Z by lia. reflexivity. Qed.
Lemma ghost_d : f3 (direction (ghost_ray f)) = mk3 1 0 1.
Proof. unfold ghost_ray. cbn [direction]. rewrite f3_fv. rewrite !small_Z by lia. reflexivity. Qed.
Lemma ghost_bf : box_finite (ghost_box f). Proof. fin3. Qed.
Lemma ghost_bo : box_ordered (ghost_box f).
Proof.
  assert (K : le3 (f3 (pmin (ghost_box f))) (f3 (pmax (ghost_box f)))) by (rewrite ghost_pmin, ghost_pmax; unfold le3; cbn [cX cY cZ]; lra).
  destruct K as (A & B & C). unfold box_ordered. a3; (apply fle_R; [apply ghost_bf|apply ghost_bf|]); [exact A|exact B|exact C].
Qed.
Lemma ghost_rf : ray_finite (ghost_ray f).
Proof. unf; split; [|split]; [a3|a3|]; destruct f; vm_compute; reflexivity. Qed.
Lemma ghost_sf : sides_finite (ghost_box f) (ghost_ray f). Proof. fin3. Qed.
Lemma ghost_ng : ray_no_graze (ghost_box f) (ghost_ray f).
Proof.
  unfold ray_no_graze. rewrite ghost_pmin, ghost_pmax, ghost_o, ghost_d. unfold no_graze, grazes. cbn [cX cY cZ].
  split; [|split]; intros (A & B & C); lra.
Qed.
Lemma ghost_tm : 0 <= B2R (tmax (ghost_ray f)).
Proof. replace (B2R (tmax (ghost_ray f))) with 2305843009213693952 by (symmetry; apply big60). lra. Qed.
Lemma ghost_exact t : ~ ray_in_box (ghost_box f) (ghost_ray f) t.
Proof.
  unfold ray_in_box. rewrite ghost_pmin, ghost_pmax, ghost_o, ghost_d. unfold in_box, le3, at_ray, add3, scl3. cbn [cX cY cZ]. lra.
Qed.
Lemma ghost_true {m : libm f} : b_do_intersect (ghost_box f) (ghost_ray f) = true.
Proof. destruct f; vm_compute; reflexivity. Qed.
End M.

Lemma false_miss f (m : libm f) : ~ (forall (b : bbox (float f)) (r : ray (float f)),
  box_finite b -> box_ordered b -> ray_finite r -> ray_no_graze b r -> sides_finite b r ->
  (exists t, 0 <= t <= B2R (tmax r) /\ ray_in_box b r t) -> b_do_intersect b r = true).
Proof.
  intros C. specialize (C _ _ (miss_bf f) (miss_bo f) (miss_rf f) (miss_ng f) (miss_sf f) (miss_exact f)).
  rewrite miss_false in C. discriminate.
Qed.
Lemma false_hit f (m : libm f) : ~ (forall (b : bbox (float f)) (r : ray (float f)),
  box_finite b -> box_ordered b -> ray_finite r -> ray_no_graze b r -> sides_finite b r -> 0 <= B2R (tmax r) ->
  b_do_intersect b r = true -> exists t, 0 <= t <= B2R (tmax r) /\ ray_in_box b r t).
Proof.
  intros C. destruct (C _ _ (ghost_bf f) (ghost_bo f) (ghost_rf f) (ghost_ng f) (ghost_sf f) (ghost_tm f) (ghost_true f)) as (t & _ & K).
  exact (ghost_exact f t K).
Qed.
Lemma exact_diffs f (m : libm f) (b : bbox (float f)) (r : ray (float f)) :
  box_finite b -> box_ordered b -> ray_finite r -> ray_no_graze b r -> sides_finite b r ->
  (forall i, B2R (ssub (pmin b @ i) (origin r @ i)) = B2R (pmin b @ i) - B2R (origin r @ i) /\
             B2R (ssub (pmax b @ i) (origin r @ i)) = B2R (pmax b @ i) - B2R (origin r @ i)) ->
  (exists t, 0 <= t <= B2R (tmax r) /\ ray_in_box b r t) -> b_do_intersect b r = true.
Proof. intros A B C D E X (t & T & K). exact (slab_exact_diffs b r A B C D E t X T K). Qed.

(** ** the unit cube *)
Definition cubeb (f : fmt) : bbox (float f) := mkB (fv f 0 (-1) (-1)) (fv f 1 1 1).
Definition cuber (f : fmt) : ray (float f) := mkRay (fv f (-1) 0 0) (fv f 1 0 0) (f_of_Z 10).
Lemma cube_in f t : ray_in_box (cubeb f) (cuber f) t <-> 1 <= t <= 2.
Proof.
  unfold ray_in_box, cubeb, cuber. cbn [pmin pmax origin direction]. rewrite !f3_fv, !small_Z by lia.
  unfold in_box, le3, at_ray, add3, scl3. cbn [cX cY cZ]. lra.
Qed.
Lemma cube_case f (m : libm f) : let b := cubeb f in let r := cuber f in
  box_finite b /\ box_ordered b /\ ray_finite r /\ ray_no_graze b r /\ sides_finite b r /\ 0 <= B2R (tmax r) /\
  (0 <= 1 <= B2R (tmax r) /\ ray_in_box b r 1 /\ forall s, 0 <= s <= B2R (tmax r) -> ray_in_box b r s -> 1 <= s) /\
  (0 <= 2 <= B2R (tmax r) /\ ray_in_box b r 2 /\ forall s, 0 <= s <= B2R (tmax r) -> ray_in_box b r s -> s <= 2) /\
  (forall s, (3/2) / (1 + unit_roundoff f) <= s <= (3/2) / (1 - unit_roundoff f) -> ray_in_box b r s) /\
  (forall i, B2R (ssub (pmin b @ i) (origin r @ i)) = B2R (pmin b @ i) - B2R (origin r @ i) /\
             B2R (ssub (pmax b @ i) (origin r @ i)) = B2R (pmax b @ i) - B2R (origin r @ i)) /\
  exists x y, b_intersect_ray b r = Some (x, y).
Proof.
  cbv zeta. assert (TM : B2R (tmax (cuber f)) = 10) by (apply (small_Z f 10); lia). rewrite TM.
  assert (BF : box_finite (cubeb f)) by fin3.
  split; [exact BF|]. split.
  { assert (K : le3 (f3 (pmin (cubeb f))) (f3 (pmax (cubeb f)))) by (unfold cubeb; cbn [pmin pmax]; rewrite !f3_fv, !small_Z by lia; unfold le3; cbn [cX cY cZ]; lra).
    destruct K as (A & B & C). unfold box_ordered. a3; (apply fle_R; [apply BF|apply BF|]); [exact A|exact B|exact C]. }
  split. { unf; split; [|split]; [a3|a3|]; destruct f; vm_compute; reflexivity. }
  split. { unfold ray_no_graze, cubeb, cuber. cbn [pmin pmax origin direction]. rewrite !f3_fv, !small_Z by lia. unfold no_graze, grazes. cbn [cX cY cZ]. repeat split; intros (A & B & C); lra. }
  split; [fin3|]. split; [lra|].
  split. { split; [lra|]. split; [apply cube_in; lra|]. intros s _ K. apply cube_in in K. lra. }
  split. { split; [lra|]. split; [apply cube_in; lra|]. intros s _ K. apply cube_in in K. lra. }
  split. { intros s K. apply cube_in. assert (U : 0 < unit_roundoff f <= / 8).
    { unfold unit_roundoff. split; [apply bpow_gt_0|]. change (/ 8) with (bpow radix2 (-3)). apply bpow_le. destruct f; vm_compute; discriminate. }
    assert (A : 1 <= 3 / 2 / (1 + unit_roundoff f)). { apply Rmult_le_reg_r with (1 + unit_roundoff f); [lra|]. field_simplify; lra. }
    assert (B : 3 / 2 / (1 - unit_roundoff f) <= 2). { apply Rmult_le_reg_r with (1 - unit_roundoff f); [lra|]. field_simplify; lra. }
    lra. }
  split.
  { a3; (split; destruct f; match goal with |- B2R ?x = B2R ?y - B2R ?z => b2r_eval x; b2r_eval y; b2r_eval z end; simpl bpow; lra). }
  assert (K : b_do_intersect (cubeb f) (cuber f) = true) by (destruct f; vm_compute; reflexivity).
  unfold b_do_intersect in K. destruct (b_intersect_ray (cubeb f) (cuber f)) as [[x y]|]; [eauto|discriminate].
Qed.
