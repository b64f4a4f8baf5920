(** * C89: Matrix4x4::inverse in f32/f64.

    SpecInverse.v: [cancellation A] is the permanent of |A| over |det A| (1 when nothing cancels in
    the determinant), [entry_size A i j] the same with the terms of the numerator of entry (i, j) of
    the inverse, [mid_entries] says that entries are zero or between 1/4096 and 4096.  [fM m A]: the
    float matrix [m] is finite and has the real entries [A]. *)
From Coq Require Import ZArith Reals Bool Lra.
From Coq Require Vector Fin.
From Flocq Require Import Core BinarySingleNaN.
From Verif.Model Require Import FloatBase Scalar Float Interval Outcome Vec Transform XReal.
From Verif Require Import Spec SpecGeom SpecShape SpecTrig SpecError SpecQuad SpecInverse.
From Verif.Proofs Require Import InverseFloat InverseCases.
Open Scope R_scope.

(** ** C89 every entry is that of the exact inverse up to 24 roundings of the terms it is made of,
    times the cancellation in the determinant *)
Theorem C89_entries : forall (f : fmt) (m : libm f) (M : matrix (float f)) A B, fM M A -> mid_entries A ->
  rdet A <> 0 -> 32 * unit_roundoff f * cancellation A <= 1 -> mutually_inverse A B ->
  forall i j, finite (Vector.nth (Vector.nth (m_inverse M) i) j) /\
    Rabs (B2R (Vector.nth (Vector.nth (m_inverse M) i) j) - B i j) <= 24 * unit_roundoff f * cancellation A * entry_size A i j.
Proof. intros f m. exact inv_float. Qed.
Print Assumptions C89_entries.
(** ** C89 the exact products with the matrix differ from the identity by as much *)
Theorem C89_residual : forall (f : fmt) (m : libm f) (M : matrix (float f)) A B X, fM M A -> mid_entries A ->
  rdet A <> 0 -> 32 * unit_roundoff f * cancellation A <= 1 -> mutually_inverse A B -> fM (m_inverse M) X ->
  forall i j, Rabs (rmul X A i j - rid i j) <= 24 * unit_roundoff f * cancellation A * rmul (entry_size A) (absM A) i j /\
    Rabs (rmul A X i j - rid i j) <= 24 * unit_roundoff f * cancellation A * rmul (absM A) (entry_size A) i j.
Proof. intros f m. exact residual. Qed.
Print Assumptions C89_residual.
(** ** C89 a singular matrix has no finite inverse *)
Definition C89_singular (f : fmt) (m : libm f) : Prop := forall (M : matrix (float f)) A, fM M A -> rdet A = 0 ->
  exists i j, ~ finite (Vector.nth (Vector.nth (m_inverse M) i) j).
(** refuted: a rank 2 upper left block (with the third row the sum of the other two) has a rounded
    determinant of 32 (f32), and every entry of the result is finite *)
Theorem C89_singular_refuted : forall (f : fmt) (m : libm f), ~ C89_singular f m.
Proof. intros f m H. destruct (singular_finite f m) as (M & A & HM & HD & HF). destruct (H M A HM HD) as (i & j & N). exact (N (HF i j)). Qed.
Print Assumptions C89_singular_refuted.
(** proved when every product in the determinant is zero, in particular for a zero row or column;
    missing: singular matrices whose determinant is a sum of terms that cancel *)
Theorem C89_singular_partial : forall (f : fmt) (m : libm f) (M : matrix (float f)) A, fM M A -> mid_entries A ->
  (rperm (absM A) = 0 \/ exists k, (forall j, A k j = 0) \/ (forall i, A i k = 0)) ->
  forall i j, ~ finite (Vector.nth (Vector.nth (m_inverse M) i) j).
Proof. intros f m M A H1 H2 [H|[k [H|H]]]; apply (structural (m := m) M A H1 H2); [exact H|exact (zero_row_perm A k H)|exact (zero_col_perm A k H)]. Qed.
Print Assumptions C89_singular_partial.
(** [2 1 0 0; 1 3 0 5; 0 0 4 0; 0 0 0 1] *)
Example C89_case : forall (f : fmt) (m : libm f), let A := fun i j => IZR (okm i j) in exists M : matrix (float f),
  fM M A /\ mid_entries A /\ rdet A = 20 /\ cancellation A = 7 / 5 /\ 32 * unit_roundoff f * cancellation A <= 1 /\ exists B, mutually_inverse A B.
Proof. exact C89_sample. Qed.
