(** * Matrix algebra and the inverse in exact arithmetic *)
From Coq Require Import ZArith Reals Bool List Lra.
From Coq Require Vector Fin.
From Flocq Require Import Core.
From Verif.Model Require Import FloatBase Scalar XReal Vec Transform Outcome.
From Verif Require Import SpecGeom.
From Verif.Proofs Require Import XRealLemmas.
Open Scope R_scope.

(** ** real matrices *)
Lemma meq_refl : forall A, meq A A. Proof. intros A i j; reflexivity. Qed.
Lemma meq_sym : forall A B, meq A B -> meq B A. Proof. intros A B H i j; symmetry; apply H. Qed.
Lemma meq_trans : forall A B C, meq A B -> meq B C -> meq A C.
Proof. intros A B C H K i j; rewrite H; apply K. Qed.
Lemma rmul_ext : forall A A' B B', meq A A' -> meq B B' -> meq (rmul A B) (rmul A' B').
Proof. intros A A' B B' H K i j. rewrite !rmul4, !H, !K. reflexivity. Qed.
Lemma rmul_assoc : forall A B C, meq (rmul (rmul A B) C) (rmul A (rmul B C)).
Proof. intros A B C i j. rewrite !rmul4. ring. Qed.
Lemma rmul_id_l : forall A, meq (rmul rid A) A.
Proof. intros A i j. rewrite rmul4. fin4 i; cbn; ring. Qed.
Lemma rmul_id_r : forall A, meq (rmul A rid) A.
Proof. intros A i j. rewrite rmul4. fin4 j; cbn; ring. Qed.
Lemma rmul_transp : forall A B, meq (rtransp (rmul A B)) (rmul (rtransp B) (rtransp A)).
Proof. intros A B i j. unfold rtransp. rewrite !rmul4. ring. Qed.

(** ** determinant and adjugate, written out *)
Definition mi (a b c d e f g h i : R) : R := a * (e * i - f * h) - b * (d * i - f * g) + c * (d * h - e * g).
Section Adj.
Variable A : rmat.
Let a i j := A i j.
Definition D00 := mi (a i1 i1) (a i1 i2) (a i1 i3) (a i2 i1) (a i2 i2) (a i2 i3) (a i3 i1) (a i3 i2) (a i3 i3).
Definition D01 := mi (a i1 i0) (a i1 i2) (a i1 i3) (a i2 i0) (a i2 i2) (a i2 i3) (a i3 i0) (a i3 i2) (a i3 i3).
Definition D02 := mi (a i1 i0) (a i1 i1) (a i1 i3) (a i2 i0) (a i2 i1) (a i2 i3) (a i3 i0) (a i3 i1) (a i3 i3).
Definition D03 := mi (a i1 i0) (a i1 i1) (a i1 i2) (a i2 i0) (a i2 i1) (a i2 i2) (a i3 i0) (a i3 i1) (a i3 i2).
Definition D10 := mi (a i0 i1) (a i0 i2) (a i0 i3) (a i2 i1) (a i2 i2) (a i2 i3) (a i3 i1) (a i3 i2) (a i3 i3).
Definition D11 := mi (a i0 i0) (a i0 i2) (a i0 i3) (a i2 i0) (a i2 i2) (a i2 i3) (a i3 i0) (a i3 i2) (a i3 i3).
Definition D12 := mi (a i0 i0) (a i0 i1) (a i0 i3) (a i2 i0) (a i2 i1) (a i2 i3) (a i3 i0) (a i3 i1) (a i3 i3).
Definition D13 := mi (a i0 i0) (a i0 i1) (a i0 i2) (a i2 i0) (a i2 i1) (a i2 i2) (a i3 i0) (a i3 i1) (a i3 i2).
Definition D20 := mi (a i0 i1) (a i0 i2) (a i0 i3) (a i1 i1) (a i1 i2) (a i1 i3) (a i3 i1) (a i3 i2) (a i3 i3).
Definition D21 := mi (a i0 i0) (a i0 i2) (a i0 i3) (a i1 i0) (a i1 i2) (a i1 i3) (a i3 i0) (a i3 i2) (a i3 i3).
Definition D22 := mi (a i0 i0) (a i0 i1) (a i0 i3) (a i1 i0) (a i1 i1) (a i1 i3) (a i3 i0) (a i3 i1) (a i3 i3).
Definition D23 := mi (a i0 i0) (a i0 i1) (a i0 i2) (a i1 i0) (a i1 i1) (a i1 i2) (a i3 i0) (a i3 i1) (a i3 i2).
Definition D30 := mi (a i0 i1) (a i0 i2) (a i0 i3) (a i1 i1) (a i1 i2) (a i1 i3) (a i2 i1) (a i2 i2) (a i2 i3).
Definition D31 := mi (a i0 i0) (a i0 i2) (a i0 i3) (a i1 i0) (a i1 i2) (a i1 i3) (a i2 i0) (a i2 i2) (a i2 i3).
Definition D32 := mi (a i0 i0) (a i0 i1) (a i0 i3) (a i1 i0) (a i1 i1) (a i1 i3) (a i2 i0) (a i2 i1) (a i2 i3).
Definition D33 := mi (a i0 i0) (a i0 i1) (a i0 i2) (a i1 i0) (a i1 i1) (a i1 i2) (a i2 i0) (a i2 i1) (a i2 i2).
Definition det4 : R := a i0 i0 * D00 - a i0 i1 * D01 + a i0 i2 * D02 - a i0 i3 * D03.
Definition sel4 (x y z w : R) (j : Fin.t 4) : R :=
  Fin.caseS' j (fun _ => R) x (fun j => Fin.caseS' j (fun _ => R) y (fun j => Fin.caseS' j (fun _ => R) z (fun _ => w))).
Definition adj (i j : Fin.t 4) : R :=
  Fin.caseS' i (fun _ => R) (sel4 D00 (- D10) D20 (- D30) j) (fun i =>
  Fin.caseS' i (fun _ => R) (sel4 (- D01) D11 (- D21) D31 j) (fun i =>
  Fin.caseS' i (fun _ => R) (sel4 D02 (- D12) D22 (- D32) j) (fun _ =>
  sel4 (- D03) D13 (- D23) D33 j))).
End Adj.

Ltac undet := unfold D00, D01, D02, D03, D10, D11, D12, D13, D20, D21, D22, D23, D30, D31, D32, D33, mi.

Lemma rdet_det4 : forall A : rmat, rdet A = det4 A.
Proof. intros A. unfold det4. undet. cbn. unfold altsign, i0, i1, i2, i3; cbn. ring. Qed.

Lemma adj_l : forall A i j, rmul (adj A) A i j = det4 A * rid i j.
Proof.
  intros A i j. rewrite rmul4. fin4 i; fin4 j; cbn [adj sel4 Fin.caseS' i0 i1 i2 i3 rid Fin.eqb];
  unfold det4; undet; fold i0 i1 i2 i3; cbn; ring.
Qed.
Lemma adj_r : forall A i j, rmul A (adj A) i j = det4 A * rid i j.
Proof.
  intros A i j. rewrite rmul4. fin4 i; fin4 j; cbn [adj sel4 Fin.caseS' i0 i1 i2 i3 rid Fin.eqb];
  unfold det4; undet; fold i0 i1 i2 i3; cbn; ring.
Qed.

Definition rinv (A : rmat) : rmat := fun i j => adj A i j * (1 / det4 A).
Lemma rinv_l : forall A, det4 A <> 0 -> meq (rmul (rinv A) A) rid.
Proof.
  intros A H i j. assert (E := adj_l A i j). rewrite rmul4 in *. unfold rinv.
  transitivity ((adj A i i0 * A i0 j + adj A i i1 * A i1 j + adj A i i2 * A i2 j + adj A i i3 * A i3 j) * (1 / det4 A)); [ring|].
  rewrite E. field; auto.
Qed.
Lemma rinv_r : forall A, det4 A <> 0 -> meq (rmul A (rinv A)) rid.
Proof.
  intros A H i j. assert (E := adj_r A i j). rewrite rmul4 in *. unfold rinv.
  transitivity ((A i i0 * adj A i0 j + A i i1 * adj A i1 j + A i i2 * adj A i2 j + A i i3 * adj A i3 j) * (1 / det4 A)); [ring|].
  rewrite E. field; auto.
Qed.

Lemma inverse_unique : forall A B C, meq (rmul B A) rid -> meq (rmul A C) rid -> meq B C.
Proof.
  intros A B C H K.
  eapply meq_trans; [apply meq_sym, rmul_id_r|].
  eapply meq_trans; [apply rmul_ext; [apply meq_refl | apply meq_sym, K]|].
  eapply meq_trans; [apply meq_sym, rmul_assoc|].
  eapply meq_trans; [apply rmul_ext; [apply H | apply meq_refl]|].
  apply rmul_id_l.
Qed.

(** determinant of a product; both sides are expanded along rows, one row at a time *)
Lemma det4_ext : forall A B, meq A B -> det4 A = det4 B.
Proof. intros A B H. unfold det4; undet. rewrite !H. reflexivity. Qed.

(** ** the model's inverse *)
Lemma isR_mi : forall a b c d e f g h i ra rb rc rd re rf rg rh ri,
  isR a ra -> isR b rb -> isR c rc -> isR d rd -> isR e re -> isR f rf -> isR g rg -> isR h rh -> isR i ri ->
  isR (sadd (ssub (smul a (ssub (smul e i) (smul f h))) (smul b (ssub (smul d i) (smul f g))))
            (smul c (ssub (smul d h) (smul e g))))
      (mi ra rb rc rd re rf rg rh ri).
Proof. intros. unfold mi. repeat isr_step. Qed.

Definition xdet4 (m : matrix xr) : xr :=
  let d i j := mget m i j in
  let mm a b c e f g h k l := (a * (f * l - g * k) - b * (e * l - g * h) + c * (e * k - f * h))%S in
  (d i0 i0 * mm (d i1 i1) (d i1 i2) (d i1 i3) (d i2 i1) (d i2 i2) (d i2 i3) (d i3 i1) (d i3 i2) (d i3 i3)
   - d i0 i1 * mm (d i1 i0) (d i1 i2) (d i1 i3) (d i2 i0) (d i2 i2) (d i2 i3) (d i3 i0) (d i3 i2) (d i3 i3)
   + d i0 i2 * mm (d i1 i0) (d i1 i1) (d i1 i3) (d i2 i0) (d i2 i1) (d i2 i3) (d i3 i0) (d i3 i1) (d i3 i3)
   - d i0 i3 * mm (d i1 i0) (d i1 i1) (d i1 i2) (d i2 i0) (d i2 i1) (d i2 i2) (d i3 i0) (d i3 i1) (d i3 i2))%S.
Lemma isR_xdet4 : forall m A, isM m A -> isR (xdet4 m) (det4 A).
Proof.
  intros m A H. unfold xdet4, det4.
  repeat first [ apply (isM_get _ _ _ _ H) | eapply isR_mi | isr_step ].
Qed.
(** every entry of the inverse is (a signed minor) * (1 / det) *)
Lemma inverse_entry : forall m A i j, isM m A ->
  exists x, isR x (adj A i j) /\ mget (m_inverse m) i j = smul x (sdiv sone (xdet4 m)).
Proof.
  intros m A i j H. fin4 i; fin4 j;
  (eexists; split; cycle 1;
   [ reflexivity
   | cbn [adj sel4 Fin.caseS' i0 i1 i2 i3]; repeat first [ apply (isM_get _ _ _ _ H) | eapply isR_mi | isr_step ] ]).
Qed.
Lemma isM_inverse : forall m A, isM m A -> det4 A <> 0 -> isM (m_inverse m) (rinv A).
Proof.
  intros m A H Hd i j. destruct (inverse_entry m A i j H) as (x & Hx & E).
  change (isR (mget (m_inverse m) i j) (rinv A i j)). rewrite E.
  apply isR_mul; [exact Hx|]. apply isR_div; auto using isR_one, isR_xdet4.
Qed.
Lemma inverse_singular : forall m A i j, isM m A -> det4 A = 0 -> ~ isreal (mget (m_inverse m) i j).
Proof.
  intros m A i j H Hd (r & s & E). destruct (inverse_entry m A i j H) as (x & (t & ->) & E').
  rewrite E' in E. destruct (isR_xdet4 m A H) as (u & Eu). rewrite Eu, Hd in E.
  cbn in E. unfold xdiv_ in E. destruct (Reqb_spec 0 0) as [_|]; [|lra]. destruct (Reqb_spec 1 0); [lra|].
  unfold xmul_ in E. destruct (Reqb _ 0); discriminate.
Qed.

(** adj (adj A) = det^2 A *)
Lemma adj_adj : forall A i j, adj (adj A) i j = det4 A * det4 A * A i j.
Proof.
  intros A i j. fin4 i; fin4 j;
  (cbn [adj sel4 Fin.caseS' i0 i1 i2 i3]; unfold det4; undet; cbn [adj sel4 Fin.caseS' i0 i1 i2 i3]; undet;
   fold i0 i1 i2 i3; ring).
Qed.
Lemma adj_scale : forall A c i j, adj (rscale c A) i j = c * c * c * adj A i j.
Proof.
  intros A c i j. fin4 i; fin4 j; cbn [adj sel4 Fin.caseS' i0 i1 i2 i3]; undet; unfold rscale; fold i0 i1 i2 i3; ring.
Qed.
Lemma adj_ext : forall A B, meq A B -> meq (adj A) (adj B).
Proof.
  intros A B H i j. fin4 i; fin4 j; cbn [adj sel4 Fin.caseS' i0 i1 i2 i3]; undet; rewrite !H; reflexivity.
Qed.
Lemma det4_adj_row : forall A, det4 A = A i0 i0 * adj A i0 i0 + A i0 i1 * adj A i1 i0 + A i0 i2 * adj A i2 i0 + A i0 i3 * adj A i3 i0.
Proof. intros A. unfold det4. cbn [adj sel4 Fin.caseS' i0 i1 i2 i3]. fold i0 i1 i2 i3. ring. Qed.
Lemma det4_scale : forall A c, det4 (rscale c A) = c * c * c * c * det4 A.
Proof. intros A c. rewrite !det4_adj_row, !adj_scale. unfold rscale. ring. Qed.
Lemma det4_adj : forall A, det4 (adj A) = det4 A * det4 A * det4 A.
Proof.
  intros A. rewrite (det4_adj_row (adj A)), !adj_adj.
  assert (E := adj_l A i0 i0). rewrite rmul4 in E. change (rid i0 i0) with 1 in E.
  transitivity ((adj A i0 i0 * A i0 i0 + adj A i0 i1 * A i1 i0 + adj A i0 i2 * A i2 i0 + adj A i0 i3 * A i3 i0) * (det4 A * det4 A)); [ring|].
  rewrite E. ring.
Qed.
Lemma rinv_scale : forall A, meq (rinv A) (rscale (/ det4 A) (adj A)).
Proof. intros A i j. unfold rinv, rscale, Rdiv. ring. Qed.
Lemma det4_rinv : forall A, det4 A <> 0 -> det4 (rinv A) = / det4 A.
Proof.
  intros A H. rewrite (det4_ext _ _ (rinv_scale A)), det4_scale, det4_adj. field; auto.
Qed.
Lemma rinv_rinv : forall A, det4 A <> 0 -> meq (rinv (rinv A)) A.
Proof.
  intros A H. apply (inverse_unique (rinv A)).
  - apply rinv_l. rewrite det4_rinv by auto. apply Rinv_neq_0_compat; auto.
  - apply rinv_l; auto.
Qed.
(** a matrix with a right inverse has non-zero determinant *)
Lemma adj_mul_zero : forall A B, meq (rmul A B) rid -> det4 A = 0 -> forall i j, adj A i j = 0.
Proof.
  intros A B H Hd i j.
  assert (E : meq (rmul (rmul (adj A) A) B) (adj A)).
  { eapply meq_trans; [apply rmul_assoc|]. eapply meq_trans; [apply rmul_ext; [apply meq_refl|apply H]|]. apply rmul_id_r. }
  rewrite <- (E i j). rewrite rmul4, !adj_l, Hd. ring.
Qed.
