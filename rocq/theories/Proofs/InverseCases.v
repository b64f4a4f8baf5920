(** Residual of the float inverse and concrete matrices. *)
From Coq Require Import ZArith Reals Bool Lra Lia.
From Coq Require Vector Fin SpecFloat.
From Flocq Require Import Core BinarySingleNaN.
From Verif.Model Require Import FloatBase Scalar Float Interval Outcome Vec Transform XReal.
From Verif Require Import Spec SpecGeom SpecShape SpecTrig SpecError SpecQuad SpecInverse.
From Verif.Proofs Require Import BitsLemmas FloatLemmas ScalarProofs XRealLemmas VectorFloat MatrixProofs TransformFloat SlabCases CameraFloat QuadFloat PerspFloat InverseFloat.
Open Scope R_scope.

Lemma residual {f : fmt} {m : libm f} (M : matrix (float f)) A B X : fM M A -> mid_entries A -> rdet A <> 0 -> 32 * unit_roundoff f * cancellation A <= 1 -> mutually_inverse A B -> fM (m_inverse M) X ->
  forall i j, Rabs (rmul X A i j - rid i j) <= 24 * unit_roundoff f * cancellation A * rmul (entry_size A) (absM A) i j /\
    Rabs (rmul A X i j - rid i j) <= 24 * unit_roundoff f * cancellation A * rmul (absM A) (entry_size A) i j.
Proof.
  intros HM HA ND HC HB HX i j. assert (E : forall i j, Rabs (X i j - B i j) <= 24 * unit_roundoff f * cancellation A * entry_size A i j).
  { intros p q. destruct (inv_float (m := m) M A B HM HA ND HC HB p q) as [_ E]. destruct (HX p q) as [_ V]. unfold mget in E. rewrite V in E. exact E. }
  destruct HB as [B1 B2]. rewrite <- (B2 i j) at 1. rewrite <- (B1 i j). rewrite !rmul4. unfold absM. set (k := 24 * unit_roundoff f * cancellation A) in *. clearbody k.
  assert (T : forall a b c, Rabs (a - b) <= k * c -> forall d, Rabs ((a - b) * d) <= k * (c * Rabs d)). { intros a b c H d. rewrite Rabs_mult, <- Rmult_assoc. apply Rmult_le_compat_r; [apply Rabs_pos|exact H]. }
  split.
  - replace (_ - _) with ((X i i0 - B i i0) * A i0 j + (X i i1 - B i i1) * A i1 j + (X i i2 - B i i2) * A i2 j + (X i i3 - B i i3) * A i3 j) by ring.
    assert (T0 := T _ _ _ (E i i0) (A i0 j)). assert (T1 := T _ _ _ (E i i1) (A i1 j)). assert (T2 := T _ _ _ (E i i2) (A i2 j)). assert (T3 := T _ _ _ (E i i3) (A i3 j)).
    eapply Rle_trans; [apply Rabs_triang|]. eapply Rle_trans; [apply Rplus_le_compat_r, Rabs_triang|]. eapply Rle_trans; [apply Rplus_le_compat_r, Rplus_le_compat_r, Rabs_triang|]. lra.
  - replace (_ - _) with ((X i0 j - B i0 j) * A i i0 + (X i1 j - B i1 j) * A i i1 + (X i2 j - B i2 j) * A i i2 + (X i3 j - B i3 j) * A i i3) by ring.
    assert (T0 := T _ _ _ (E i0 j) (A i i0)). assert (T1 := T _ _ _ (E i1 j) (A i i1)). assert (T2 := T _ _ _ (E i2 j) (A i i2)). assert (T3 := T _ _ _ (E i3 j) (A i i3)).
    eapply Rle_trans; [apply Rabs_triang|]. eapply Rle_trans; [apply Rplus_le_compat_r, Rabs_triang|]. eapply Rle_trans; [apply Rplus_le_compat_r, Rplus_le_compat_r, Rabs_triang|]. lra.
Qed.

(** a matrix of integers *)
Definition zm (f : fmt) (z : Fin.t 4 -> Fin.t 4 -> Z) : matrix (float f) := let r i := mrow (f_of_Z (z i i0)) (f_of_Z (z i i1)) (f_of_Z (z i i2)) (f_of_Z (z i i3)) in m4 (r i0) (r i1) (r i2) (r i3).
Definition z44 (a b c d e f g h i j k l m n o p : Z) : Fin.t 4 -> Fin.t 4 -> Z := fun r s =>
  let sel (x y z w : Z) (t : Fin.t 4) : Z := Fin.caseS' t (fun _ => Z) x (fun t => Fin.caseS' t (fun _ => Z) y (fun t => Fin.caseS' t (fun _ => Z) z (fun _ => w))) in
  Fin.caseS' r (fun _ => Z) (sel a b c d s) (fun r => Fin.caseS' r (fun _ => Z) (sel e f g h s) (fun r => Fin.caseS' r (fun _ => Z) (sel i j k l s) (fun _ => sel m n o p s))).
Lemma zm_ok f z : (forall i j, (Z.abs (z i j) <= 2 ^ prec f)%Z) -> (forall i j, finite (f_of_Z (z i j) : float f)) -> fM (zm f z) (fun i j => IZR (z i j)).
Proof.
  intros K F i j. split; [revert i j; refine (fin4_case _ _ _ _ _); refine (fin4_case _ _ _ _ _); apply F|].
  transitivity (B2R (f_of_Z (z i j) : float f)); [|apply f_of_Z_exact, K]. clear K F. revert i j; refine (fin4_case _ _ _ _ _); refine (fin4_case _ _ _ _ _); reflexivity.
Qed.
(** rank 2, yet the rounded determinant is not zero *)
Definition sing (f : fmt) : Fin.t 4 -> Fin.t 4 -> Z :=
  match f with
  | F32 => z44 1429 348 1064 0 1489 62 1659 0 2918 410 2723 0 0 0 0 1
  | F64 => z44 75282619 99939696 100950829 0 99218807 30087088 124129544 0 174501426 130026784 225080373 0 0 0 0 1
  end.
Lemma singular_finite f (m : libm f) : exists (M : matrix (float f)) A, fM M A /\ rdet A = 0 /\ forall i j, finite (mget (m_inverse M) i j).
Proof.
  exists (zm f (sing f)), (fun i j => IZR (sing f i j)). split; [|split].
  - apply zm_ok; refine (fin4_case _ _ _ _ _); refine (fin4_case _ _ _ _ _); destruct f; vm_compute; first [reflexivity|discriminate].
  - rewrite rdet_det4. unfold det4. undet. destruct f; cbn [sing z44 Fin.caseS' i0 i1 i2 i3]; lra.
  - refine (fin4_case _ _ _ _ _); refine (fin4_case _ _ _ _ _); destruct f; vm_compute; reflexivity.
Qed.
Definition okm : Fin.t 4 -> Fin.t 4 -> Z := z44 2 1 0 0 1 3 0 5 0 0 4 0 0 0 0 1.
Lemma C89_sample f (m : libm f) : let A := fun i j => IZR (okm i j) in exists M : matrix (float f),
  fM M A /\ mid_entries A /\ rdet A = 20 /\ cancellation A = 7 / 5 /\ 32 * unit_roundoff f * cancellation A <= 1 /\ exists B, mutually_inverse A B.
Proof.
  intros A. exists (zm f okm).
  assert (D : rdet A = 20) by (rewrite rdet_det4; unfold det4; undet; unfold A; cbn [okm z44 Fin.caseS' i0 i1 i2 i3]; lra).
  assert (K : cancellation A = 7 / 5). { unfold cancellation. rewrite D, (Rabs_pos_eq 20) by lra. replace (rperm (absM A)) with 28; [lra|]. cbn. unfold absM, A. cbn. rewrite ?Rabs_R0, ?(Rabs_pos_eq 2), ?(Rabs_pos_eq 1), ?(Rabs_pos_eq 3), ?(Rabs_pos_eq 4), ?(Rabs_pos_eq 5) by lra. ring. }
  split; [|split; [|split; [exact D|split; [exact K|split]]]].
  - apply zm_ok; refine (fin4_case _ _ _ _ _); refine (fin4_case _ _ _ _ _); destruct f; vm_compute; first [reflexivity|discriminate].
  - refine (fin4_case _ _ _ _ _); refine (fin4_case _ _ _ _ _); unfold A; cbn [okm z44 Fin.caseS' i0 i1 i2 i3]; first [left; reflexivity|right; rewrite Rabs_pos_eq; lra].
  - rewrite K. assert (U := u_q (f := f)). lra.
  - exists (rinv A). rewrite rdet_det4 in D. split; [apply rinv_r|apply rinv_l]; lra.
Qed.
Lemma inf_mul f (c : float f) s : ~ finite (fmul c (fdiv (sone : float f) (fzero s))).
Proof.
  assert (E : fdiv (sone : float f) (fzero s) = B754_infinity s) by (apply B2SF_inj; destruct f, s; vm_compute; reflexivity). rewrite E. clear E.
  destruct c as [sc|sc| |sc mc ec Hc], s; unfold finite; cbn; discriminate.
Qed.
(** every product in the determinant is zero *)
Lemma structural {f : fmt} {m : libm f} (M : matrix (float f)) A : fM M A -> mid_entries A -> rperm (absM A) = 0 -> forall i j, ~ finite (mget (m_inverse M) i j).
Proof.
  intros HM HA HP i j. destruct (fM_vals M A HM) as [F EA]. subst A. destruct (inv_parts (m := m) M F HA) as (dt & (Fd & RD & ED & _) & EX). destruct (EX i j) as (c & _ & ->).
  rewrite HP in RD, ED. rewrite Rmult_0_r in ED. assert (Z : B2R dt = 0). { assert (Q := Rabs_pos (rdet (vals M))). destruct (Req_dec (rdet (vals M)) 0) as [Q1|Q1]; [|apply Rabs_pos_lt in Q1; lra]. rewrite Q1 in ED. destruct (Req_dec (B2R dt - 0) 0) as [Q2|Q2]; [lra|apply Rabs_pos_lt in Q2; lra]. }
  assert (E : exists s, dt = fzero s). { clear -Fd Z. destruct dt as [s|s| |s mm e H]; try discriminate Fd; [exists s; reflexivity|]. exfalso. cbn in Z. destruct s; [assert (Q := F2R_lt_0 radix2 (Float radix2 (Z.neg mm) e) eq_refl)|assert (Q := F2R_gt_0 radix2 (Float radix2 (Z.pos mm) e) eq_refl)]; cbn in Q, Z; lra. }
  destruct E as [s ->]. apply inf_mul.
Qed.
Lemma zero_row_perm (A : rmat) k : (forall j, A k j = 0) -> rperm (absM A) = 0.
Proof. intros Z. assert (Q : forall j, absM A k j = 0) by (intros j; unfold absM; rewrite Z; apply Rabs_R0). revert Q. generalize (absM A). intros B Q. clear Z. revert k Q. refine (fin4_case _ _ _ _ _); intros Q; cbn; unfold i0, i1, i2, i3 in Q; rewrite !Q; ring. Qed.
Lemma zero_col_perm (A : rmat) k : (forall i, A i k = 0) -> rperm (absM A) = 0.
Proof. intros Z. assert (Q : forall j, absM A j k = 0) by (intros j; unfold absM; rewrite Z; apply Rabs_R0). revert Q. generalize (absM A). intros B Q. clear Z. revert k Q. refine (fin4_case _ _ _ _ _); intros Q; cbn; unfold i0, i1, i2, i3 in Q; rewrite !Q; ring. Qed.
