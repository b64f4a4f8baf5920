(** Machine integers (C31 over integers, C62). *)
From Coq Require Import ZArith Bool Lia List.
From Coq Require Vector Fin.
From Verif.Model Require Import FloatBase Scalar Ints Vec Transform.
From Verif Require Import SpecInt.
From Verif.Proofs Require Import XRealLemmas.
Import Vector.VectorNotations.
Open Scope Z_scope.

Lemma lo_ok t : ilo t = zmin t. Proof. destruct t; reflexivity. Qed.
Lemma hi_ok t : ihi t = zmax t. Proof. destruct t; reflexivity. Qed.
Lemma bits_ok t : ibits t = width t. Proof. destruct t; reflexivity. Qed.
Lemma span t : zmax t - zmin t + 1 = 2 ^ width t. Proof. destruct t; reflexivity. Qed.
Lemma pow_pos t : 0 < 2 ^ width t. Proof. destruct t; reflexivity. Qed.
Lemma in_rng_fits t z : in_rng t z = true <-> fits t z.
Proof. unfold in_rng, fits. rewrite lo_ok, hi_ok, andb_true_iff, !Z.leb_le. tauto. Qed.
Lemma in_rng_fits_false t z : in_rng t z = false <-> ~ fits t z.
Proof. rewrite <- in_rng_fits. destruct (in_rng t z); intuition congruence. Qed.
Lemma wrap_fits t z : fits t (wrap t z).
Proof.
  unfold wrap, fits. rewrite lo_ok, bits_ok. pose proof (Z.mod_pos_bound (z - zmin t) _ (pow_pos t)). pose proof (span t). lia.
Qed.
Lemma wrap_congr t z : congr t (wrap t z) z.
Proof.
  exists (- ((z - zmin t) / 2 ^ width t)). unfold wrap. rewrite lo_ok, bits_ok.
  pose proof (Z.div_mod (z - zmin t) (2 ^ width t)). pose proof (pow_pos t). nia.
Qed.
Lemma congr_refl t a : congr t a a. Proof. exists 0. lia. Qed.
Lemma congr_sym t a b : congr t a b -> congr t b a. Proof. intros [k H]. exists (- k). lia. Qed.
Lemma congr_trans t a b c : congr t a b -> congr t b c -> congr t a c.
Proof. intros [k H] [l K]. exists (k + l). lia. Qed.
Lemma congr_add t a b c d : congr t a b -> congr t c d -> congr t (a + c) (b + d).
Proof. intros [k H] [l K]. exists (k + l). lia. Qed.
Lemma congr_sub t a b c d : congr t a b -> congr t c d -> congr t (a - c) (b - d).
Proof. intros [k H] [l K]. exists (k - l). lia. Qed.
Lemma congr_mul t a b c d : congr t a b -> congr t c d -> congr t (a * c) (b * d).
Proof. intros [k ->] [l ->]. exists (k * d + b * l + k * l * 2 ^ width t). ring. Qed.
Lemma congr_opp t a b : congr t a b -> congr t (- a) (- b).
Proof. intros [k H]. exists (- k). lia. Qed.
Lemma congr_fits t a b : congr t a b -> fits t a -> fits t b -> a = b.
Proof. intros [k H] Ha Hb. pose proof (span t). unfold fits in *. assert (k = 0) by nia. nia. Qed.
Lemma wrap_id t z : fits t z -> wrap t z = z.
Proof. intros H. apply (congr_fits t); auto using wrap_fits, wrap_congr. Qed.
Lemma fits_0 t : fits t 0. Proof. destruct t; vm_compute; intuition discriminate. Qed.
Lemma fits_1 t : fits t 1. Proof. destruct t; vm_compute; intuition discriminate. Qed.

Lemma nth_ext {A n} (v w : Vector.t A n) : (forall i, Vector.nth v i = Vector.nth w i) -> v = w.
Proof. intros H. apply (proj1 (Vector.eq_nth_iff _ _ v w)). intros i j <-. apply H. Qed.

Lemma mul_entry {T} `{Scalar T} (m n : matrix T) i j : mget (m_mul m n) i j =
  sadd (sadd (sadd (sadd szero (smul (mget m i i0) (mget n i0 j))) (smul (mget m i i1) (mget n i1 j))) (smul (mget m i i2) (mget n i2 j))) (smul (mget m i i3) (mget n i3 j)).
Proof. fin4 i; fin4 j; reflexivity. Qed.

(** release mode: value = exact result reduced into range *)
Section Release.
Context {t : ity}.
Notation IT := (mint Release t).
Definition rep (x : IT) (z : Z) := exists v, holds x v /\ fits t v /\ congr t v z.
Lemma rep_of x z : holds x z -> fits t z -> rep x z.
Proof. intros. exists z. auto using congr_refl. Qed.
Lemma rep_op (op : Z -> Z -> Z) (x y : IT) a b :
  (forall a b c d, congr t a b -> congr t c d -> congr t (op a c) (op b d)) ->
  rep x a -> rep y b -> rep (ilift2 (fun x y => iresult (md := Release) (t := t) (op x y)) x y) (op a b).
Proof.
  intros Hop (v & Hv & Fv & Cv) (w & Hw & Fw & Cw). exists (wrap t (op v w)). unfold holds, ilift2. cbn. rewrite Hv, Hw.
  repeat split; auto; try apply wrap_fits. eapply congr_trans; [apply wrap_congr|]. auto.
Qed.
Lemma rep_add (x y : IT) a b : rep x a -> rep y b -> rep (sadd x y) (a + b).
Proof. apply (rep_op Z.add), congr_add. Qed.
Lemma rep_sub (x y : IT) a b : rep x a -> rep y b -> rep (ssub x y) (a - b).
Proof. apply (rep_op Z.sub), congr_sub. Qed.
Lemma rep_mul (x y : IT) a b : rep x a -> rep y b -> rep (smul x y) (a * b).
Proof. apply (rep_op Z.mul), congr_mul. Qed.
Lemma rep_neg (x : IT) a : rep x a -> rep (sneg x) (- a).
Proof.
  intros (v & Hv & Fv & Cv). exists (wrap t (- v)). unfold holds. cbn. rewrite Hv. repeat split; auto; try apply wrap_fits.
  eapply congr_trans; [apply wrap_congr|]. now apply congr_opp.
Qed.
Lemma rep_zero : rep szero 0. Proof. apply rep_of; [reflexivity|apply fits_0]. Qed.
Lemma rep_inj (x y : IT) a b : rep x a -> rep y b -> congr t a b -> x = y.
Proof.
  intros (v & Hv & Fv & Cv) (w & Hw & Fw & Cw) H. destruct x as [x], y as [y]. unfold holds in *. cbn in *. subst. do 2 f_equal.
  apply (congr_fits t); auto. eapply congr_trans; [eassumption|]. eapply congr_trans; [eassumption|]. now apply congr_sym.
Qed.
Lemma rep_fold {n} : forall (v w : vec IT n) a b (acc : IT) z, zvec v a -> zvec w b -> rep acc z ->
  rep (Vector.fold_left2 (fun res a b => sadd res (smul a b)) acc v w) (z + zdot a b).
Proof.
  induction v as [|x n v IH]; intros w a b acc z Hv Hw Ha.
  - rewrite (vec_0 w). cbn. now rewrite Z.add_0_r.
  - destruct (vec_S w) as (y & w0 & ->). cbn [Vector.fold_left2 Vector.caseS].
    unfold zdot. cbn [zsum]. rewrite Z.add_assoc.
    apply (IH _ (fun i => a (Fin.FS i)) (fun i => b (Fin.FS i))).
    + intros i. apply (Hv (Fin.FS i)).
    + intros i. apply (Hw (Fin.FS i)).
    + apply rep_add; auto. apply rep_mul; [destruct (Hv Fin.F1)|destruct (Hw Fin.F1)]; now apply rep_of.
Qed.
Lemma rep_dot {n} (v w : vec IT n) a b : zvec v a -> zvec w b -> rep (dot v w) (zdot a b).
Proof. intros. apply (rep_fold v w a b szero 0); auto using rep_zero. Qed.
Definition repm (m : matrix IT) (A : Fin.t 4 -> Fin.t 4 -> Z) := forall i j, rep (mget m i j) (A i j).
Lemma zmat_repm m A : zmat m A -> repm m A.
Proof. intros H i j. destruct (H i j). now apply rep_of. Qed.
Lemma zmul4 a b i j : zmul a b i j = a i i0 * b i0 j + (a i i1 * b i1 j + (a i i2 * b i2 j + (a i i3 * b i3 j + 0))).
Proof. reflexivity. Qed.
Lemma repm_mul m n A B : repm m A -> repm n B -> repm (m_mul m n) (zmul A B).
Proof.
  intros H K i j. rewrite zmul4.
  replace (A i i0 * B i0 j + (A i i1 * B i1 j + (A i i2 * B i2 j + (A i i3 * B i3 j + 0))))
    with ((((0 + A i i0 * B i0 j) + A i i1 * B i1 j) + A i i2 * B i2 j) + A i i3 * B i3 j) by ring.
  fin4 i; fin4 j; repeat (apply rep_add; [|apply rep_mul; [apply H|apply K]]); apply rep_zero.
Qed.
Lemma repm_inj m n A B : repm m A -> repm n B -> (forall i j, congr t (A i j) (B i j)) -> m = n.
Proof.
  intros H K C. apply nth_ext. intros i. apply nth_ext. intros j.
  exact (rep_inj _ _ _ _ (H i j) (K i j) (C i j)).
Qed.
Lemma rmul_assoc_int (x y z : matrix IT) a b c : zmat x a -> zmat y b -> zmat z c ->
  m_mul (m_mul x y) z = m_mul x (m_mul y z).
Proof.
  intros H1%zmat_repm H2%zmat_repm H3%zmat_repm.
  apply (repm_inj _ _ (zmul (zmul a b) c) (zmul a (zmul b c))); auto using repm_mul.
  intros i j. exists 0. rewrite !zmul4. ring.
Qed.
Definition zid : Fin.t 4 -> Fin.t 4 -> Z := fun i j => if Fin.eqb i j then 1 else 0.
Lemma repm_id : repm m_identity zid.
Proof. intros i j. fin4 i; fin4 j; apply rep_of; try reflexivity; try apply fits_0; apply fits_1. Qed.
Lemma id_int (x : matrix IT) a : zmat x a -> m_mul m_identity x = x /\ m_mul x m_identity = x.
Proof.
  intros H%zmat_repm. split.
  - apply (repm_inj _ _ (zmul zid a) a); auto using repm_mul, repm_id. intros i j. exists 0. rewrite zmul4. fin4 i; cbn -[Z.add Z.mul Z.pow]; ring.
  - apply (repm_inj _ _ (zmul a zid) a); auto using repm_mul, repm_id. intros i j. exists 0. rewrite zmul4. fin4 j; cbn -[Z.add Z.mul Z.pow]; ring.
Qed.
Lemma zmat_mul (m n : matrix IT) A B : zmat m A -> zmat n B ->
  forall i j, exists z, holds (Vector.nth (Vector.nth (m_mul m n) i) j) z /\ fits t z /\ congr t z (zmul A B i j).
Proof. intros H%zmat_repm K%zmat_repm i j. exact (repm_mul m n A B H K i j). Qed.
End Release.

(** debug mode: exact result or panic *)
Section Debug.
Context {t : ity}.
Notation IT := (mint Debug t).
Lemma debug_op (op : Z -> Z -> Z) (x y : IT) a b z : holds x a -> holds y b ->
  (holds (ilift2 (fun x y => iresult (md := Debug) (t := t) (op x y)) x y) z <-> fits t (op a b) /\ z = op a b).
Proof.
  intros Hx Hy. unfold holds, ilift2 in *. cbn. rewrite Hx, Hy. rewrite <- in_rng_fits.
  destruct (in_rng t (op a b)); intuition congruence.
Qed.
(** exact-or-panic *)
Definition dex (x : IT) (z : Z) := forall v, holds x v -> v = z.
Lemma dex_op (op : Z -> Z -> Z) (x y : IT) a b : dex x a -> dex y b ->
  dex (ilift2 (fun x y => iresult (md := Debug) (t := t) (op x y)) x y) (op a b).
Proof.
  intros Hx Hy v. unfold holds, ilift2. cbn. unfold dex, holds in *. destruct (mval x) as [p|], (mval y) as [q|]; try discriminate.
  rewrite <- (Hx p), <- (Hy q) by reflexivity. destruct (in_rng t (op p q)); congruence.
Qed.
Lemma dex_fold {n} : forall (v w : vec IT n) a b (acc : IT) z, zvec v a -> zvec w b -> dex acc z ->
  dex (Vector.fold_left2 (fun res a b => sadd res (smul a b)) acc v w) (z + zdot a b).
Proof.
  induction v as [|x n v IH]; intros w a b acc z Hv Hw Ha.
  - rewrite (vec_0 w). cbn. now rewrite Z.add_0_r.
  - destruct (vec_S w) as (y & w0 & ->). cbn [Vector.fold_left2 Vector.caseS].
    unfold zdot. cbn [zsum]. rewrite Z.add_assoc.
    apply (IH _ (fun i => a (Fin.FS i)) (fun i => b (Fin.FS i))).
    + intros i. apply (Hv (Fin.FS i)).
    + intros i. apply (Hw (Fin.FS i)).
    + apply (dex_op Z.add); auto. apply (dex_op Z.mul); [destruct (Hv Fin.F1) as [E _]|destruct (Hw Fin.F1) as [E _]]; cbn in E; unfold dex, holds in *; congruence.
Qed.
Lemma dex_dot {n} (v w : vec IT n) a b z : zvec v a -> zvec w b -> holds (dot v w) z -> z = zdot a b.
Proof.
  intros Hv Hw. apply (dex_fold v w a b szero 0); auto. intros u. unfold holds. cbn. congruence.
Qed.
Lemma dex_mul (m n : matrix IT) A B i j z : zmat m A -> zmat n B ->
  holds (Vector.nth (Vector.nth (m_mul m n) i) j) z -> z = zmul A B i j.
Proof.
  intros H K. rewrite zmul4.
  replace (A i i0 * B i0 j + (A i i1 * B i1 j + (A i i2 * B i2 j + (A i i3 * B i3 j + 0))))
    with ((((0 + A i i0 * B i0 j) + A i i1 * B i1 j) + A i i2 * B i2 j) + A i i3 * B i3 j) by ring.
  revert z. change (dex (mget (m_mul m n) i j) ((((0 + A i i0 * B i0 j) + A i i1 * B i1 j) + A i i2 * B i2 j) + A i i3 * B i3 j)).
  assert (H' : forall i j, dex (mget m i j) (A i j)). { intros p q v. unfold holds. destruct (H p q) as [E _]. unfold holds in E. unfold mget. congruence. }
  assert (K' : forall i j, dex (mget n i j) (B i j)). { intros p q v. unfold holds. destruct (K p q) as [E _]. unfold holds in E. unfold mget. congruence. }
  fin4 i; fin4 j; repeat (apply (dex_op Z.add); [|apply (dex_op Z.mul); [apply H'|apply K']]); intros v; unfold holds; cbn; congruence.
Qed.
End Debug.

(** both modes, no overflow on the way *)
Section Exact.
Context {md : mode} {t : ity}.
Notation IT := (mint md t).
Lemma exact_op (op : Z -> Z -> Z) (x y : IT) a b : holds x a -> holds y b -> fits t (op a b) ->
  holds (ilift2 (fun x y => iresult (md := md) (t := t) (op x y)) x y) (op a b).
Proof.
  intros Hx Hy F. unfold holds, ilift2 in *. cbn. rewrite Hx, Hy. unfold iresult. destruct md.
  - now rewrite wrap_id.
  - apply in_rng_fits in F. now rewrite F.
Qed.
Lemma exact_neg (x : IT) a : holds x a -> fits t (- a) -> holds (sneg x) (- a).
Proof.
  intros Hx F. unfold holds in *. cbn. rewrite Hx. unfold iresult. destruct md.
  - now rewrite wrap_id.
  - apply in_rng_fits in F. now rewrite F.
Qed.
Lemma exact_fold {n} : forall (v w : vec IT n) a b (acc : IT) z, zvec v a -> zvec w b -> holds acc z ->
  no_overflow_from t z (fun i => a i * b i) ->
  holds (Vector.fold_left2 (fun res a b => sadd res (smul a b)) acc v w) (z + zdot a b).
Proof.
  induction v as [|x n v IH]; intros w a b acc z Hv Hw Ha N.
  - rewrite (vec_0 w). cbn. now rewrite Z.add_0_r.
  - destruct (vec_S w) as (y & w0 & ->). cbn [Vector.fold_left2 Vector.caseS]. destruct N as (N1 & N2 & N3).
    unfold zdot. cbn [zsum]. rewrite Z.add_assoc.
    apply (IH _ (fun i => a (Fin.FS i)) (fun i => b (Fin.FS i))); auto.
    + intros i. apply (Hv (Fin.FS i)).
    + intros i. apply (Hw (Fin.FS i)).
    + apply (exact_op Z.add); auto. apply (exact_op Z.mul); [apply (Hv Fin.F1)|apply (Hw Fin.F1)|exact N1].
Qed.
Lemma exact_dot {n} (v w : vec IT n) a b : zvec v a -> zvec w b -> no_overflow t (fun i => a i * b i) ->
  holds (dot v w) (zdot a b).
Proof. intros. apply (exact_fold v w a b szero 0); auto. reflexivity. Qed.
Lemma exact_mul (m n : matrix IT) A B i j : zmat m A -> zmat n B -> no_overflow t (fun k => A i k * B k j) ->
  holds (Vector.nth (Vector.nth (m_mul m n) i) j) (zmul A B i j).
Proof.
  intros H K N. rewrite zmul4.
  replace (A i i0 * B i0 j + (A i i1 * B i1 j + (A i i2 * B i2 j + (A i i3 * B i3 j + 0))))
    with ((((0 + A i i0 * B i0 j) + A i i1 * B i1 j) + A i i2 * B i2 j) + A i i3 * B i3 j) by ring.
  change (holds (mget (m_mul m n) i j) ((((0 + A i i0 * B i0 j) + A i i1 * B i1 j) + A i i2 * B i2 j) + A i i3 * B i3 j)).
  unfold no_overflow in N. cbn -[Z.add Z.mul] in N. fold i0 in N. change (Fin.FS (@Fin.F1 2)) with i1 in N. change (Fin.FS (Fin.FS (@Fin.F1 1))) with i2 in N.
  change (Fin.FS (Fin.FS (Fin.FS (@Fin.F1 0)))) with i3 in N. destruct N as (N1 & N2 & N3 & N4 & N5 & N6 & N7 & N8 & _).
  rewrite mul_entry.
  repeat (apply (exact_op Z.add); [|apply (exact_op Z.mul); [apply H|apply K|assumption]|assumption]); reflexivity.
Qed.
Lemma div_spec (x y : IT) a b z : holds x a -> holds y b ->
  (holds (sdiv x y) z <-> b <> 0 /\ fits t (Z.quot a b) /\ z = Z.quot a b).
Proof.
  intros Hx Hy. unfold holds in *. cbn. rewrite Hx, Hy. rewrite <- in_rng_fits.
  destruct (Z.eqb_spec b 0); cbn; [intuition congruence|]. destruct (in_rng t (Z.quot a b)); cbn; intuition congruence.
Qed.
Lemma cmp_spec (x y : IT) a b : holds x a -> holds y b -> seqb x y = (a =? b) /\ scmp x y = Some (a ?= b).
Proof. intros Hx Hy. unfold holds in *. cbn. unfold ieq_, icmp_. rewrite Hx, Hy. auto. Qed.
Lemma min_spec (x y : IT) a b : holds x a -> holds y b -> holds (smin x y) (Z.min a b) /\ holds (smax x y) (Z.max a b).
Proof.
  intros Hx Hy. destruct (cmp_spec x y a b Hx Hy) as [_ H]. cbn in H. cbn [smin smax int_scalar]. unfold default_min, default_max, lt_of, gt_of. rewrite H.
  unfold holds, Z.min, Z.max in *. destruct (Z.compare_spec a b); cbn; split; congruence.
Qed.
Lemma abs_spec (x : IT) a : holds x a -> fits t (Z.abs a) -> holds (sabs x) (Z.abs a).
Proof.
  intros Hx F. cbn [sabs int_signed]. unfold default_abs, lt_of, icmp_. rewrite Hx. cbn.
  destruct (Z.compare_spec a 0) as [->|H|H].
  - assumption.
  - rewrite Z.abs_neq in * by lia. now apply exact_neg.
  - rewrite Z.abs_eq by lia. assumption.
Qed.
Lemma consts : holds (szero : IT) 0 /\ holds (sone : IT) 1 /\ holds (slowest : IT) (zmin t) /\ holds (shighest : IT) (zmax t).
Proof. unfold holds. cbn. rewrite lo_ok, hi_ok. auto. Qed.
End Exact.

(** componentwise operators *)
Section Comp.
Context {t : ity}.
Lemma rel_vec {n} (v w : vec (mint Release t) n) a b i : zvec v a -> zvec w b ->
  rep (Vector.nth (v_add v w) i) (a i + b i) /\ rep (Vector.nth (v_sub v w) i) (a i - b i) /\ rep (Vector.nth (v_mul v w) i) (a i * b i).
Proof.
  intros Hv Hw. unfold v_add, v_sub, v_mul. rewrite !(Vector.nth_map2 _ _ _ _ _ _ eq_refl eq_refl).
  assert (rep (Vector.nth v i) (a i)) by (destruct (Hv i); now apply rep_of).
  assert (rep (Vector.nth w i) (b i)) by (destruct (Hw i); now apply rep_of).
  auto using rep_add, rep_sub, rep_mul.
Qed.
End Comp.
