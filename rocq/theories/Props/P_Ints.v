(** * Property C62: integer scalars, vectors and matrices.
    [mint md t]: a computation over the Rust integer type [t] in build mode [md], either a value or
    a panic ([holds], [panicked], SpecInt.v).  *)
From Coq Require Import ZArith Bool.
From Coq Require Vector Fin.
From Verif.Model Require Import FloatBase Scalar Vec Transform Ints.
From Verif Require Import SpecInt.
From Verif.Proofs Require Import IntProofs IntProofs2.
Open Scope Z_scope.

Theorem C62_constants : forall md t, holds (szero : mint md t) 0 /\ holds (sone : mint md t) 1 /\
  holds (slowest : mint md t) (zmin t) /\ holds (shighest : mint md t) (zmax t).
Proof. exact @consts. Qed.
Print Assumptions C62_constants.
(** release builds: everything is the exact result modulo 2^width *)
Theorem C62_release_ops : forall t (x y : mint Release t) a b, wraps_to x a -> wraps_to y b ->
  wraps_to (x + y)%S (a + b) /\ wraps_to (x - y)%S (a - b) /\ wraps_to (x * y)%S (a * b) /\ wraps_to (sneg x) (- a).
Proof. exact release_ops. Qed.
Print Assumptions C62_release_ops.
Theorem C62_release_dot : forall t n (v w : vec (mint Release t) n) a b, zvec v a -> zvec w b -> wraps_to (dot v w) (zdot a b).
Proof. exact @rep_dot. Qed.
Print Assumptions C62_release_dot.
Theorem C62_release_matrix_product : forall t (m n : matrix (mint Release t)) a b, zmat m a -> zmat n b ->
  forall i j, wraps_to (Vector.nth (Vector.nth (m_mul m n) i) j) (zmul a b i j).
Proof. exact @zmat_mul. Qed.
Print Assumptions C62_release_matrix_product.
Theorem C62_release_vectors : forall t n (v w : vec (mint Release t) n) a b i, zvec v a -> zvec w b ->
  wraps_to (Vector.nth (v_add v w) i) (a i + b i) /\ wraps_to (Vector.nth (v_sub v w) i) (a i - b i) /\
  wraps_to (Vector.nth (v_mul v w) i) (a i * b i).
Proof. exact @rel_vec. Qed.
Print Assumptions C62_release_vectors.
(** debug builds: the exact result, or a panic exactly when an intermediate result is out of range *)
Theorem C62_debug_ops : forall t (x y : mint Debug t) a b z, holds x a -> holds y b ->
  (holds (x + y)%S z <-> fits t (a + b) /\ z = a + b) /\
  (holds (x - y)%S z <-> fits t (a - b) /\ z = a - b) /\
  (holds (x * y)%S z <-> fits t (a * b) /\ z = a * b).
Proof. exact @debug_ops. Qed.
Print Assumptions C62_debug_ops.
Theorem C62_debug_dot : forall t n (v w : vec (mint Debug t) n) a b z, zvec v a -> zvec w b ->
  (holds (dot v w) z <-> no_overflow t (fun i => a i * b i) /\ z = zdot a b).
Proof. exact @debug_dot_iff. Qed.
Print Assumptions C62_debug_dot.
Theorem C62_debug_matrix_product : forall t (m n : matrix (mint Debug t)) a b i j z, zmat m a -> zmat n b ->
  (holds (Vector.nth (Vector.nth (m_mul m n) i) j) z <-> no_overflow t (fun k => a i k * b k j) /\ z = zmul a b i j).
Proof. exact @debug_mul_iff. Qed.
Print Assumptions C62_debug_matrix_product.
(** both builds agree (on the exact result) when nothing overflows *)
Theorem C62_no_overflow_ops : forall md t (x y : mint md t) a b, holds x a -> holds y b ->
  (fits t (a + b) -> holds (x + y)%S (a + b)) /\ (fits t (a - b) -> holds (x - y)%S (a - b)) /\
  (fits t (a * b) -> holds (x * y)%S (a * b)) /\ (fits t (- a) -> holds (sneg x) (- a)).
Proof. exact exact_ops. Qed.
Print Assumptions C62_no_overflow_ops.
Theorem C62_no_overflow_dot : forall md t n (v w : vec (mint md t) n) a b, zvec v a -> zvec w b ->
  no_overflow t (fun i => a i * b i) -> holds (dot v w) (zdot a b).
Proof. exact @exact_dot. Qed.
Print Assumptions C62_no_overflow_dot.
Theorem C62_no_overflow_matrix_product : forall md t (m n : matrix (mint md t)) a b i j, zmat m a -> zmat n b ->
  no_overflow t (fun k => a i k * b k j) -> holds (Vector.nth (Vector.nth (m_mul m n) i) j) (zmul a b i j).
Proof. exact @exact_mul. Qed.
Print Assumptions C62_no_overflow_matrix_product.
(** division truncates towards zero; it panics on 0 and on MIN / -1, in both builds *)
Theorem C62_division : forall md t (x y : mint md t) a b z, holds x a -> holds y b ->
  (holds (x / y)%S z <-> b <> 0 /\ fits t (Z.quot a b) /\ z = Z.quot a b).
Proof. exact @div_spec. Qed.
Print Assumptions C62_division.
Theorem C62_order : forall md t (x y : mint md t) a b, holds x a -> holds y b ->
  seqb x y = (a =? b) /\ scmp x y = Some (a ?= b) /\
  holds (smin x y) (Z.min a b) /\ holds (smax x y) (Z.max a b).
Proof. intros md t x y a b H K. destruct (cmp_spec x y a b H K). exact (conj H0 (conj H1 (min_spec x y a b H K))). Qed.
Print Assumptions C62_order.
Theorem C62_almost_eq : forall md t (x y : mint md t) a b, holds x a -> holds y b -> almost_eq x y = (a =? b).
Proof. intros md t x y a b H K. exact (proj1 (cmp_spec x y a b H K)). Qed.
Print Assumptions C62_almost_eq.
Theorem C62_abs : forall md t (x : mint md t) a, holds x a -> fits t (Z.abs a) -> holds (sabs x) (Z.abs a).
Proof. exact @abs_spec. Qed.
Print Assumptions C62_abs.
Example C62_case : (forall md t, zvec (sv md t) sa /\ no_overflow t (fun i => sa i * sa i) /\ holds (dot (sv md t) (sv md t)) 25) /\
  holds (dot (sq Release) (sq Release)) 80 /\ panicked (dot (sq Debug) (sq Debug)).
Proof. exact C62_sample. Qed.
