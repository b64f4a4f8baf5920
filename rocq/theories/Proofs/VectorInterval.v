(** Vectors of intervals. *)
From Coq Require Import ZArith Reals Bool Lra Lia.
From Coq Require Vector Fin.
From Flocq Require Import Core BinarySingleNaN.
From Verif.Model Require Import FloatBase Scalar Float Interval Vec Transform XReal.
From Verif Require Import Spec SpecGeom.
From Verif.Proofs Require Import BitsLemmas FloatLemmas ScalarProofs IntervalBase IntervalProofs IntervalProofs2 IntervalRefute XRealLemmas VectorExact.
Open Scope R_scope.

Section VI.
Context {f : fmt} {m : libm f}.
Notation FI := (interval (float f)).

Lemma sq_fold_mem {n} : forall (v : vec FI n) (a : rvec n) acc s, memv a v -> mem s acc ->
  mem (s + rdot a a) (Vector.fold_left (fun res x => i_add res (i_square x)) acc v).
Proof.
  induction v as [|x n v IH]; intros a acc s Hv Ha.
  - unfold rdot. cbn. now rewrite Rplus_0_r.
  - cbn [Vector.fold_left]. unfold rdot. cbn [rsum]. rewrite <- Rplus_assoc.
    apply (IH (fun i => a (Fin.FS i))); [intros i; exact (Hv (Fin.FS i))|].
    apply add_incl; [exact Ha|]. apply square_incl. exact (Hv Fin.F1).
Qed.
Lemma mem_zero : mem 0 (szero : FI).
Proof. split; cbn; lra. Qed.
Lemma sqnorm_mem {n} (v : vec FI n) a : memv a v -> mem (rdot a a) (square_norm v).
Proof. intros H. rewrite <- (Rplus_0_l (rdot a a)). exact (sq_fold_mem v a _ 0 H mem_zero). Qed.
Lemma norm_mem {n} (v : vec FI n) a : memv a v -> fle (fzero false) (inf (square_norm v)) -> mem (rlen a) (norm v).
Proof. intros H K. exact (gsqrt_incl (square_norm v) (rdot a a) (sqnorm_mem v a H) K). Qed.
Lemma dot_fold_mem {n} : forall (v w : vec FI n) (a b : rvec n) acc s, memv a v -> memv b w ->
  (forall i, bounded (Vector.nth v i)) -> (forall i, bounded (Vector.nth w i)) ->
  (forall i, ~ (straddles (Vector.nth v i) /\ straddles (Vector.nth w i))) -> mem s acc ->
  mem (s + rdot a b) (Vector.fold_left2 (fun res x y => i_add res (i_mul x y)) acc v w).
Proof.
  induction v as [|x n v IH]; intros w a b acc s Hv Hw Bv Bw N Ha.
  - rewrite (vec_0 w). unfold rdot. cbn. now rewrite Rplus_0_r.
  - destruct (vec_S w) as (y & w0 & ->). cbn [Vector.fold_left2 Vector.caseS' Vector.caseS]. unfold rdot. cbn [rsum]. rewrite <- Rplus_assoc.
    apply (IH w0 (fun i => a (Fin.FS i)) (fun i => b (Fin.FS i))).
    + intros i; exact (Hv (Fin.FS i)).
    + intros i; exact (Hw (Fin.FS i)).
    + intros i; exact (Bv (Fin.FS i)).
    + intros i; exact (Bw (Fin.FS i)).
    + intros i; exact (N (Fin.FS i)).
    + apply add_incl; [exact Ha|].
      exact (mul_incl_bounded x y (a Fin.F1) (b Fin.F1) (Bv Fin.F1) (Bw Fin.F1) (Hv Fin.F1) (Hw Fin.F1) (N Fin.F1)).
Qed.
Lemma dot_mem {n} (v w : vec FI n) a b : memv a v -> memv b w ->
  (forall i, bounded (Vector.nth v i)) -> (forall i, bounded (Vector.nth w i)) ->
  (forall i, ~ (straddles (Vector.nth v i) /\ straddles (Vector.nth w i))) -> mem (rdot a b) (dot v w).
Proof. intros H1 H2 H3 H4 H5. rewrite <- (Rplus_0_l (rdot a b)). exact (dot_fold_mem v w a b _ 0 H1 H2 H3 H4 H5 mem_zero). Qed.

(** componentwise operators *)
Lemma comp_mem {n} (v w : vec FI n) a b : memv a v -> memv b w ->
  memv (fun i => a i + b i) (v_add v w) /\ memv (fun i => a i - b i) (v_sub v w) /\ memv (fun i => - a i) (v_neg v).
Proof.
  intros Hv Hw. split; [|split]; intros i.
  - destruct (comp_ops v w szero i) as (-> & _). apply add_incl; [apply Hv|apply Hw].
  - destruct (comp_ops v w szero i) as (_ & -> & _). apply sub_incl; [apply Hv|apply Hw].
  - rewrite neg_comp. apply neg_mem. apply Hv.
Qed.
Lemma scalar_mem {n} (v : vec FI n) (c : float f) a : memv a v -> finite c ->
  ((forall i, bounded (Vector.nth v i)) -> memv (fun i => a i * B2R c) (vi_mul_s v c)) /\
  (B2R c <> 0 -> memv (fun i => a i / B2R c) (vi_div_s v c)).
Proof.
  intros Hv Hc. split.
  - intros B i. unfold vi_mul_s. rewrite (Vector.nth_map _ _ _ _ eq_refl).
    exact (mul_s_incl (Vector.nth v i) c (a i) (Hv i) Hc (mul_s_proper _ _ (B i) Hc)).
  - intros Hz i. unfold vi_div_s. rewrite (Vector.nth_map _ _ _ _ eq_refl). apply div_s_incl; auto.
Qed.
Lemma from_mem {n} (v : vec (float f) n) : fall finite v -> memv (fvals v) (vi_from v).
Proof. intros H i. unfold vi_from. rewrite (Vector.nth_map _ _ _ _ eq_refl). apply mem_from. apply H. Qed.
Lemma from_exact {n} (v : vec (float f) n) a : fall finite v -> (memv a (vi_from v) <-> forall i, a i = fvals v i).
Proof.
  intros H. split.
  - intros M i. specialize (M i). unfold vi_from in M. rewrite (Vector.nth_map _ _ _ _ eq_refl) in M. destruct M as [A B].
    cbn [i_from i_new inf sup] in A, B. unfold fvals. assert (F := H i). unfold below, above in A, B.
    destruct (Vector.nth v i); try discriminate F; lra.
  - intros E i. rewrite E. exact (from_mem v H i).
Qed.
Lemma sqdist_mem {n} (v w : vec FI n) a b : memv a v -> memv b w ->
  mem (rdot (fun i => a i - b i) (fun i => a i - b i)) (square_distance v w).
Proof. intros Hv Hw. apply sqnorm_mem. apply (comp_mem v w a b Hv Hw). Qed.

(** a vector of intervals that may be zero has a NaN norm *)
Lemma nd_neg (x : float f) : below x 0 -> flt (f_next_down f x) (fzero false).
Proof.
  intros H. apply below_inv in H. destruct H as (N & NI & H).
  assert (L : E x <= 0). { destruct H as [->|[_ H]]; [cbn; pose proof (top_pos (f := f)); lra|exact H]. }
  destruct H as [->|[F H]].
  - rewrite next_down_inf. reflexivity.
  - assert (H0 : x <> finf true) by (intros ->; discriminate F).
    destruct (next_down_adjacent x N H0) as [K _]. apply flt_E in K. apply flt_E. cbn [E fzero B2R].
    split; [apply K|]. split; [reflexivity|]. cbn. lra.
Qed.
Lemma add_lo_neg (a b : FI) : below (inf a) 0 -> below (inf b) 0 -> nonnan (fadd (inf a) (inf b)) -> flt (inf (i_add a b)) (fzero false).
Proof.
  intros Ha Hb N. change (flt (f_next_down f (fadd (inf a) (inf b))) (fzero false)). apply nd_neg. apply below_inv in Ha, Hb. destruct Ha as (Na & Ia & Ha), Hb as (Nb & Ib & Hb).
  destruct Ha as [Ea|[Fa Ha]].
  - rewrite Ea in *. destruct (inf b) as [|[]| |] eqn:Eb; try reflexivity; try (exfalso; apply Ib; reflexivity); discriminate.
  - destruct Hb as [Eb|[Fb Hb]].
    + rewrite Eb in *. destruct (inf a) as [|[]| |] eqn:Ea; try reflexivity; try (exfalso; apply Ia; reflexivity); discriminate.
    + destruct (fadd_Rnd _ _ Fa Fb) as [N1 E1]. apply below_E; auto.
      * intros E0. rewrite E0 in E1. cbn in E1. rewrite <- !E_B2R in E1 by assumption.
        assert (K : clampE (f := f) (rndf f (E (inf a) + E (inf b))) <= clampE (f := f) 0).
        { apply clampE_le. rewrite <- (rnd_0 (f := f)). apply rnd_le. lra. }
        pose proof (top_pos (f := f)). rewrite (clampE_range (f := f) 0) in K by lra. lra.
      * rewrite E1. rewrite <- !E_B2R by assumption. pose proof (top_pos (f := f)).
        rewrite <- (clampE_range (f := f) 0) by lra. apply clampE_le. rewrite <- (rnd_0 (f := f)). apply rnd_le. lra.
Qed.
Lemma add_lo_nn (a b : FI) r s : mem r a -> mem s b -> nonnan (fadd (inf a) (inf b)).
Proof.
  intros Ha Hb. apply mem_E in Ha, Hb. destruct Ha as (Na & _ & Ia & _ & Ha & _), Hb as (Nb & _ & Ib & _ & Hb & _).
  destruct Ha as [Ea|[Fa _]].
  - rewrite Ea in *. destruct (inf b) as [|[]| |] eqn:Eb; try reflexivity; try (exfalso; apply Ib; reflexivity); discriminate.
  - destruct Hb as [Eb|[Fb _]].
    + rewrite Eb in *. destruct (inf a) as [|[]| |] eqn:Ea; try reflexivity; try (exfalso; apply Ia; reflexivity); discriminate.
    + apply (fadd_Rnd _ _ Fa Fb).
Qed.
Lemma sq_fold_neg {n} : forall (v : vec FI n) acc, memv (fun _ => 0) v -> mem 0 acc ->
  (flt (inf acc) (fzero false) \/ n <> O) ->
  flt (inf (Vector.fold_left (fun res x => i_add res (i_square x)) acc v)) (fzero false).
Proof.
  induction v as [|x n v IH]; intros acc Hv Ha K.
  - cbn. destruct K as [K|K]; [exact K|congruence].
  - cbn [Vector.fold_left]. assert (S0 := square_incl x 0 (Hv Fin.F1)). rewrite Rmult_0_l in S0.
    apply IH.
    + intros i. exact (Hv (Fin.FS i)).
    + rewrite <- (Rplus_0_l 0). now apply add_incl.
    + left. apply add_lo_neg; [apply Ha|apply S0|]. exact (add_lo_nn acc (i_square x) 0 0 Ha S0).
Qed.
Lemma norm_nan {n} (v : vec FI (S n)) : memv (fun _ => 0) v -> ~ proper (norm v).
Proof.
  intros H. refine (proj2 (sqrt_neg f m (square_norm v) _)).
  exact (sq_fold_neg v _ H mem_zero (or_intror (fun e => O_S n (eq_sym e)))).
Qed.
End VI.
