(** Proofs for C79: equality and approximate equality of matrices and transforms are entrywise. *)
From Coq Require Import ZArith Reals Bool List Lra Lia.
From Coq Require Vector Fin.
From Flocq Require Import Core BinarySingleNaN.
From Verif.Model Require Import FloatBase Scalar Float Interval Outcome Vec Transform.
From Verif Require Import Spec SpecGeom.
From Verif.Proofs Require Import BitsLemmas FloatLemmas ScalarProofs IntervalBase VectorExact ScalarMisc IntervalTrig2.
Open Scope R_scope.
Section G.
Context {T : Type}.
Lemma m_eqb_iff {S : Scalar T} (a b : matrix T) : m_eqb a b = true <-> forall i j, seqb (mget a i j) (mget b i j) = true.
Proof.
  unfold m_eqb. rewrite fold_and. split.
  - intros [_ H] i j. exact (proj1 (v_eqb_iff _ _) (H i) j).
  - intros H. split; [reflexivity|]. intros i. apply v_eqb_iff. exact (H i).
Qed.
Lemma m_almost_iff {A : AlmostEq T} (a b : matrix T) : m_almost_eq a b = true <-> forall i j, almost_eq (mget a i j) (mget b i j) = true.
Proof.
  unfold m_almost_eq. rewrite fold_and. split.
  - intros [_ H] i j. exact (proj1 (v_almost_iff _ _) (H i) j).
  - intros H. split; [reflexivity|]. intros i. apply v_almost_iff. exact (H i).
Qed.
Lemma t_eqb_iff {G : GFloat T} (a b : transform T) : t_eqb a b = true <->
  forall i j, seqb (mget (tm a) i j) (mget (tm b) i j) = true /\ seqb (mget (tminv a) i j) (mget (tminv b) i j) = true.
Proof.
  unfold t_eqb. rewrite andb_true_iff, !m_eqb_iff. split; [intros [H1 H2] i j; split; [apply H1|apply H2]|intros H; split; intros i j; apply H].
Qed.
Lemma t_almost_iff {A : AlmostEq T} (a b : transform T) : t_almost_eq a b = true <->
  forall i j, almost_eq (mget (tm a) i j) (mget (tm b) i j) = true /\ almost_eq (mget (tminv a) i j) (mget (tminv b) i j) = true.
Proof.
  unfold t_almost_eq. rewrite andb_true_iff, !m_almost_iff. split; [intros [H1 H2] i j; split; [apply H1|apply H2]|intros H; split; intros i j; apply H].
Qed.
Lemma approx_comp {G : GFloat T} {n} (v : vec (interval T) n) i : Vector.nth (v_approx v) i = i_approx (Vector.nth v i).
Proof. unfold v_approx. now rewrite (Vector.nth_map _ _ _ _ eq_refl). Qed.
End G.
Section F.
Context {f : fmt} {m : libm f}.
Lemma ae_sym (a b : float f) : almost_eq a b = almost_eq b a.
Proof. exact (fequals_sym (f := f) m a b). Qed.
Lemma ae_refl (x : float f) : almost_eq x x = true <-> finite x.
Proof.
  split; [intros H; exact (proj1 (proj1 (almost_eq_float f m x x) H))|exact (fequals_refl (f := f) m x)].
Qed.
Lemma t_almost_float (a b : transform (float f)) : t_almost_eq a b = t_almost_eq b a /\
  (t_almost_eq a a = true <-> forall i j, finite (mget (tm a) i j) /\ finite (mget (tminv a) i j)).
Proof.
  split.
  - apply eq_true_iff_eq. rewrite !t_almost_iff. split; intros H i j; destruct (H i j); split; rewrite ae_sym; assumption.
  - rewrite t_almost_iff. split; intros H i j; destruct (H i j); split; apply ae_refl; assumption.
Qed.
Lemma eqb_nn (x : float f) : seqb x x = true <-> nonnan x.
Proof.
  rewrite seqb_spec. unfold feq. unfold nonnan. destruct x; cbn; intuition.
Qed.
Lemma t_eqb_float (a b : transform (float f)) : (t_eqb a b = true <->
    (forall i j, feq (mget (tm a) i j) (mget (tm b) i j)) /\ (forall i j, feq (mget (tminv a) i j) (mget (tminv b) i j))) /\
  (t_eqb a a = true <-> forall i j, nonnan (mget (tm a) i j) /\ nonnan (mget (tminv a) i j)).
Proof.
  split.
  - rewrite t_eqb_iff. split.
    + intros H. split; intros i j; apply seqb_spec; apply (H i j).
    + intros [H K] i j. split; apply seqb_spec; [apply H|apply K].
  - rewrite t_eqb_iff. split; intros H i j; destruct (H i j); split; apply eqb_nn; assumption.
Qed.
End F.
Local Existing Instance exact_libm.
Lemma C79_sample f : t_almost_eq (t_identity : transform (float f)) t_identity = true /\ t_eqb (t_identity : transform (float f)) t_identity = true /\
  t_almost_eq (t_identity : transform (float f)) (t_new m_identity m_zero) = false /\ t_eqb (t_identity : transform (float f)) (t_new m_zero m_identity) = false.
Proof. destruct f; repeat split; vm_compute; reflexivity. Qed.
