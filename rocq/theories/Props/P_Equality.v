(** * C79: equality of matrices and transforms, exact and approximate, is entrywise *)
From Coq Require Import ZArith Reals Bool Lra.
From Coq Require Vector Fin.
From Flocq Require Import Core BinarySingleNaN.
From Verif.Model Require Import FloatBase Scalar Float Interval Outcome Vec Transform.
From Verif Require Import Spec SpecGeom.
From Verif.Proofs Require Import EqualityProofs IntervalTrig2.
Local Existing Instance exact_libm.
Open Scope R_scope.

Theorem C79_matrix_eq : forall (T : Type) (S : Scalar T) (a b : matrix T),
  m_eqb a b = true <-> forall i j, seqb (mget a i j) (mget b i j) = true.
Proof. exact @m_eqb_iff. Qed.
Print Assumptions C79_matrix_eq.
Theorem C79_matrix_almost_eq : forall (T : Type) (A : AlmostEq T) (a b : matrix T),
  m_almost_eq a b = true <-> forall i j, almost_eq (mget a i j) (mget b i j) = true.
Proof. exact @m_almost_iff. Qed.
Print Assumptions C79_matrix_almost_eq.
(** transforms are compared with both of their matrices *)
Theorem C79_transform_almost_eq : forall (T : Type) (A : AlmostEq T) (a b : transform T), t_almost_eq a b = true <->
  forall i j, almost_eq (mget (tm a) i j) (mget (tm b) i j) = true /\ almost_eq (mget (tminv a) i j) (mget (tminv b) i j) = true.
Proof. exact @t_almost_iff. Qed.
Print Assumptions C79_transform_almost_eq.
Theorem C79_float_transform_eq : forall (f : fmt) (m : libm f) (a b : transform (float f)), (t_eqb a b = true <->
    (forall i j, feq (mget (tm a) i j) (mget (tm b) i j)) /\ (forall i j, feq (mget (tminv a) i j) (mget (tminv b) i j))) /\
  (t_eqb a a = true <-> forall i j, nonnan (mget (tm a) i j) /\ nonnan (mget (tminv a) i j)).
Proof. intros f m. exact t_eqb_float. Qed.
Print Assumptions C79_float_transform_eq.
(** approximate equality of float transforms is symmetric; it is reflexive exactly on the finite ones *)
Theorem C79_float_transform_almost_eq : forall (f : fmt) (m : libm f) (a b : transform (float f)), t_almost_eq a b = t_almost_eq b a /\
  (t_almost_eq a a = true <-> forall i j, finite (mget (tm a) i j) /\ finite (mget (tminv a) i j)).
Proof. intros f m. exact t_almost_float. Qed.
Print Assumptions C79_float_transform_almost_eq.
(** the float vector approximating an interval vector is made of the midpoints C18 describes *)
Theorem C79_interval_vector_approx : forall (T : Type) (G : GFloat T) n (v : vec (interval T) n) i,
  Vector.nth (v_approx v) i = i_approx (Vector.nth v i).
Proof. exact @approx_comp. Qed.
Print Assumptions C79_interval_vector_approx.
Example C79_case : forall f, t_almost_eq (t_identity : transform (float f)) t_identity = true /\ t_eqb (t_identity : transform (float f)) t_identity = true /\
  t_almost_eq (t_identity : transform (float f)) (t_new m_identity m_zero) = false /\ t_eqb (t_identity : transform (float f)) (t_new m_zero m_identity) = false.
Proof. exact C79_sample. Qed.
