(** When exactly a dot product panics in debug mode; statements used by Props/P_Ints.v *)
From Coq Require Import ZArith Bool Lia.
From Coq Require Vector Fin.
From Verif.Model Require Import FloatBase Scalar Vec Transform Ints.
From Verif Require Import SpecInt SpecGeom.
From Verif.Proofs Require Import XRealLemmas IntProofs.
Open Scope Z_scope.

Section D.
Context {t : ity}.
Notation IT := (mint Debug t).
Lemma none_fold {n} : forall (v w : vec IT n) (acc : IT), panicked acc ->
  panicked (Vector.fold_left2 (fun res a b => sadd res (smul a b)) acc v w).
Proof.
  induction v as [|x n v IH]; intros w acc Ha.
  - rewrite (vec_0 w). exact Ha.
  - destruct (vec_S w) as (y & w0 & ->). cbn [Vector.fold_left2 Vector.caseS]. apply IH.
    unfold panicked in *. cbn. now rewrite Ha.
Qed.
Lemma fold_iff {n} : forall (v w : vec IT n) a b (acc : IT) z r, zvec v a -> zvec w b -> holds acc z ->
  (holds (Vector.fold_left2 (fun res a b => sadd res (smul a b)) acc v w) r <->
   no_overflow_from t z (fun i => a i * b i) /\ r = z + zdot a b).
Proof.
  induction v as [|x n v IH]; intros w a b acc z r Hv Hw Ha.
  - rewrite (vec_0 w). cbn. rewrite Z.add_0_r. unfold holds in *. rewrite Ha. intuition congruence.
  - destruct (vec_S w) as (y & w0 & ->). cbn [Vector.fold_left2 Vector.caseS].
    unfold zdot. cbn [zsum no_overflow_from]. rewrite Z.add_assoc.
    assert (Hx := proj1 (Hv Fin.F1)). assert (Hy := proj1 (Hw Fin.F1)). cbn [Vector.nth Vector.caseS] in Hx, Hy.
    destruct (in_rng t (a Fin.F1 * b Fin.F1)) eqn:E1.
    + assert (P : holds (smul x y) (a Fin.F1 * b Fin.F1)).
      { unfold holds in *. cbn. rewrite Hx, Hy. cbn. now rewrite E1. }
      destruct (in_rng t (z + a Fin.F1 * b Fin.F1)) eqn:E2.
      * assert (Q : holds (sadd acc (smul x y)) (z + a Fin.F1 * b Fin.F1)).
        { unfold holds in *. cbn [sadd int_scalar]. unfold iadd, ilift2. rewrite Ha, P. cbn. now rewrite E2. }
        apply in_rng_fits in E1, E2.
        rewrite (IH w0 (fun i => a (Fin.FS i)) (fun i => b (Fin.FS i)) _ _ r (fun i => Hv (Fin.FS i)) (fun i => Hw (Fin.FS i)) Q).
        unfold zdot. intuition.
      * assert (Q : panicked (sadd acc (smul x y))).
        { unfold panicked, holds in *. cbn [sadd int_scalar]. unfold iadd, ilift2. rewrite Ha, P. cbn. now rewrite E2. }
        apply (none_fold v w0) in Q. unfold panicked, holds in *. split; [intros HH; pose proof (eq_trans (eq_sym Q) HH); discriminate|].
        intros ((_ & F & _) & _). apply in_rng_fits in F. congruence.
    + assert (P : panicked (smul x y)).
      { unfold panicked, holds in *. cbn. rewrite Hx, Hy. cbn. now rewrite E1. }
      assert (Q : panicked (sadd acc (smul x y))).
      { unfold panicked, holds in *. cbn [sadd int_scalar]. unfold iadd, ilift2. now rewrite Ha, P. }
      apply (none_fold v w0) in Q. unfold panicked, holds in *. split; [intros HH; pose proof (eq_trans (eq_sym Q) HH); discriminate|].
      intros ((F & _) & _). apply in_rng_fits in F. congruence.
Qed.
Lemma debug_dot_iff {n} (v w : vec IT n) a b r : zvec v a -> zvec w b ->
  (holds (dot v w) r <-> no_overflow t (fun i => a i * b i) /\ r = zdot a b).
Proof. intros Hv Hw. apply (fold_iff v w a b szero 0 r Hv Hw); reflexivity. Qed.
Lemma debug_mul_iff (m n : matrix IT) A B i j r : zmat m A -> zmat n B ->
  (holds (Vector.nth (Vector.nth (m_mul m n) i) j) r <-> no_overflow t (fun k => A i k * B k j) /\ r = zmul A B i j).
Proof.
  intros Hm Hn.
  assert (K := debug_dot_iff (Vector.nth m i) (Vector.cons _ (mget n i0 j) _ (Vector.cons _ (mget n i1 j) _ (Vector.cons _ (mget n i2 j) _ (Vector.cons _ (mget n i3 j) _ (Vector.nil _))))) (A i) (fun k => B k j) r (Hm i)).
  assert (Hc : zvec (Vector.cons _ (mget n i0 j) _ (Vector.cons _ (mget n i1 j) _ (Vector.cons _ (mget n i2 j) _ (Vector.cons _ (mget n i3 j) _ (Vector.nil _))))) (fun k => B k j)).
  { intros k. apply (fin4_case (fun k => holds (Vector.nth (Vector.cons _ (mget n i0 j) _ (Vector.cons _ (mget n i1 j) _ (Vector.cons _ (mget n i2 j) _ (Vector.cons _ (mget n i3 j) _ (Vector.nil _))))) k) (B k j) /\ fits t (B k j))); apply Hn. }
  specialize (K Hc). unfold zmul. unfold zdot in K. rewrite <- K. clear K Hc.
  change (holds (mget (m_mul m n) i j) r <-> holds (dot (Vector.nth m i) (Vector.cons _ (mget n i0 j) _ (Vector.cons _ (mget n i1 j) _ (Vector.cons _ (mget n i2 j) _ (Vector.cons _ (mget n i3 j) _ (Vector.nil _)))))) r).
  rewrite mul_entry. unfold mget at 1 3 5 7. 
  destruct (vec_S (Vector.nth m i)) as (x0 & r0 & E). rewrite E.
  destruct (vec_S r0) as (x1 & r1 & ->). destruct (vec_S r1) as (x2 & r2 & ->). destruct (vec_S r2) as (x3 & r3 & ->). rewrite (vec_0 r3).
  reflexivity.
Qed.
Lemma debug_ops (x y : IT) a b z : holds x a -> holds y b ->
  (holds (sadd x y) z <-> fits t (a + b) /\ z = a + b) /\
  (holds (ssub x y) z <-> fits t (a - b) /\ z = a - b) /\
  (holds (smul x y) z <-> fits t (a * b) /\ z = a * b).
Proof. intros Hx Hy. split; [|split]; [exact (debug_op Z.add x y a b z Hx Hy)|exact (debug_op Z.sub x y a b z Hx Hy)|exact (debug_op Z.mul x y a b z Hx Hy)]. Qed.
End D.
Lemma release_ops t (x y : mint Release t) a b : wraps_to x a -> wraps_to y b ->
  wraps_to (sadd x y) (a + b) /\ wraps_to (ssub x y) (a - b) /\ wraps_to (smul x y) (a * b) /\ wraps_to (sneg x) (- a).
Proof. intros Hx Hy. split; [now apply rep_add|split; [now apply rep_sub|split; [now apply rep_mul|now apply rep_neg]]]. Qed.
Lemma exact_ops md t (x y : mint md t) a b : holds x a -> holds y b ->
  (fits t (a + b) -> holds (sadd x y) (a + b)) /\ (fits t (a - b) -> holds (ssub x y) (a - b)) /\
  (fits t (a * b) -> holds (smul x y) (a * b)) /\ (fits t (- a) -> holds (sneg x) (- a)).
Proof.
  intros Hx Hy. split; [|split; [|split]].
  - exact (exact_op Z.add x y a b Hx Hy).
  - exact (exact_op Z.sub x y a b Hx Hy).
  - exact (exact_op Z.mul x y a b Hx Hy).
  - exact (exact_neg x a Hx).
Qed.
(** the vector (3, 4) of any type, and (200, 100) of u8 *)
Definition sv (md : mode) (t : ity) : vec (mint md t) 2 := Vector.cons _ (MI (Some 3)) _ (Vector.cons _ (MI (Some 4)) _ (Vector.nil _)).
Definition sa : Fin.t 2 -> Z := fun i => if Fin.eqb i (@Fin.F1 1) then 3 else 4.
Definition sq (md : mode) : vec (mint md U8) 2 := Vector.cons _ (MI (Some 200)) _ (Vector.cons _ (MI (Some 100)) _ (Vector.nil _)).
Lemma C62_sample : (forall md t, zvec (sv md t) sa /\ no_overflow t (fun i => sa i * sa i) /\ holds (dot (sv md t) (sv md t)) 25) /\
  holds (dot (sq Release) (sq Release)) 80 /\ panicked (dot (sq Debug) (sq Debug)).
Proof.
  split; [|split; reflexivity]. intros md t. split; [|split].
  - intros i. apply (Fin.caseS' i); [|intros k; apply (Fin.caseS' k); [|intros l; inversion l]]; (split; [reflexivity|]); destruct t; vm_compute; split; discriminate.
  - destruct t; vm_compute; repeat split; discriminate.
  - destruct md, t; reflexivity.
Qed.
