(** Vectors: componentwise operators (any scalar), exact arithmetic in any dimension. *)
From Coq Require Import ZArith Reals Bool Lra Lia.
From Coq Require Vector Fin.
From Flocq Require Import Core BinarySingleNaN.
From Verif.Model Require Import FloatBase Scalar Float Interval Vec Transform XReal.
From Verif Require Import Spec SpecGeom.
From Verif.Proofs Require Import BitsLemmas FloatLemmas ScalarProofs XRealLemmas.
Open Scope R_scope.

(** ** any scalar type *)
Section Generic.
Context {T : Type} {S : Scalar T}.
Lemma comp_ops {n} (a b : vec T n) (s : T) i :
  Vector.nth (v_add a b) i = sadd (Vector.nth a i) (Vector.nth b i) /\
  Vector.nth (v_sub a b) i = ssub (Vector.nth a i) (Vector.nth b i) /\
  Vector.nth (v_mul a b) i = smul (Vector.nth a i) (Vector.nth b i) /\
  Vector.nth (v_div a b) i = sdiv (Vector.nth a i) (Vector.nth b i) /\
  Vector.nth (v_scale a s) i = smul (Vector.nth a i) s /\
  Vector.nth (v_divs a s) i = sdiv (Vector.nth a i) s /\
  Vector.nth (v_min a b) i = smin (Vector.nth a i) (Vector.nth b i) /\
  Vector.nth (v_max a b) i = smax (Vector.nth a i) (Vector.nth b i) /\
  Vector.nth (v_default (n := n)) i = szero.
Proof.
  unfold v_add, v_sub, v_mul, v_div, v_scale, v_divs, v_min, v_max, v_default.
  rewrite !(Vector.nth_map2 _ _ _ _ _ _ eq_refl eq_refl), !(Vector.nth_map _ _ _ _ eq_refl), Vector.const_nth.
  repeat split.
Qed.
Lemma comp_points {n} (a b : vec T n) i :
  Vector.nth (p_sub_p a b) i = ssub (Vector.nth a i) (Vector.nth b i) /\
  Vector.nth (p_add_v a b) i = sadd (Vector.nth a i) (Vector.nth b i) /\
  Vector.nth (v_add_p a b) i = sadd (Vector.nth a i) (Vector.nth b i) /\
  Vector.nth (p_sub_v a b) i = ssub (Vector.nth a i) (Vector.nth b i).
Proof.
  unfold p_sub_v, p_sub_p, p_add_v, v_add_p. destruct (comp_ops a b szero i) as (H1 & H2 & _). auto.
Qed.
Lemma fold_and {A} (g : A -> A -> bool) {n} : forall (a b : Vector.t A n) acc,
  Vector.fold_left2 (fun acc x y => acc && g x y) acc a b = true <->
  acc = true /\ forall i, g (Vector.nth a i) (Vector.nth b i) = true.
Proof.
  induction a as [|x n a IH]; intros b acc.
  - rewrite (vec_0 b). cbn. split; [intros H; split; [exact H|intros i; inversion i]|tauto].
  - destruct (vec_S b) as (y & b0 & ->). cbn [Vector.fold_left2 Vector.caseS' Vector.caseS]. rewrite IH, andb_true_iff. split.
    + intros [[H1 H2] H3]. split; [exact H1|]. intros i. apply (Fin.caseS' i); auto.
    + intros [H1 H2]. split; [split; [exact H1|exact (H2 Fin.F1)]|]. intros i. exact (H2 (Fin.FS i)).
Qed.
Lemma v_eqb_iff {n} (a b : vec T n) : v_eqb a b = true <-> forall i, seqb (Vector.nth a i) (Vector.nth b i) = true.
Proof. unfold v_eqb. rewrite fold_and. tauto. Qed.
Lemma v_almost_iff {A : AlmostEq T} {n} (a b : vec T n) :
  v_almost_eq a b = true <-> forall i, almost_eq (Vector.nth a i) (Vector.nth b i) = true.
Proof. unfold v_almost_eq. rewrite fold_and. tauto. Qed.
End Generic.
Lemma accessors T (x y z w : T) (v2 : vec T 2) (v3 : vec T 3) (v4 : vec T 4) :
  Vector.to_list (vec2 x y) = (x :: y :: nil)%list /\ Vector.to_list (vec3 x y z) = (x :: y :: z :: nil)%list /\
  Vector.to_list (vec4 x y z w) = (x :: y :: z :: w :: nil)%list /\
  Vector.to_list v2 = (vx v2 :: vy v2 :: nil)%list /\ Vector.to_list v3 = (vx v3 :: vy v3 :: vz v3 :: nil)%list /\
  Vector.to_list v4 = (vx v4 :: vy v4 :: vz v4 :: vw v4 :: nil)%list.
Proof.
  unfold vec in *. repeat match goal with
  | v : Vector.t _ O |- _ => rewrite (vec_0 v); clear v
  | v : Vector.t _ (Datatypes.S _) |- _ => let a := fresh "a" in let u := fresh "u" in destruct (vec_S v) as (a & u & ->)
  end. repeat split; reflexivity.
Qed.
Lemma neg_comp {T} {S : SignedScalar T} {n} (a : vec T n) i : Vector.nth (v_neg a) i = sneg (Vector.nth a i).
Proof. unfold v_neg. now rewrite (Vector.nth_map _ _ _ _ eq_refl). Qed.

(** ** float min / max *)
Lemma minmax_float {f} {n} (a b : vec (float f) n) i : nonnan (Vector.nth a i) -> nonnan (Vector.nth b i) ->
  (fle (Vector.nth (v_min a b) i) (Vector.nth a i) /\ fle (Vector.nth (v_min a b) i) (Vector.nth b i) /\
   (Vector.nth (v_min a b) i = Vector.nth a i \/ Vector.nth (v_min a b) i = Vector.nth b i)) /\
  (fle (Vector.nth a i) (Vector.nth (v_max a b) i) /\ fle (Vector.nth b i) (Vector.nth (v_max a b) i) /\
   (Vector.nth (v_max a b) i = Vector.nth a i \/ Vector.nth (v_max a b) i = Vector.nth b i)).
Proof.
  intros Na Nb. destruct (comp_ops a b szero i) as (_ & _ & _ & _ & _ & _ & -> & -> & _).
  set (x := Vector.nth a i) in *. set (y := Vector.nth b i) in *. cbn [smin smax float_scalar].
  unfold default_min, default_max. rewrite lt_b, gt_b by assumption.
  destruct (Rlt_bool_spec (E x) (E y)), (Rlt_bool_spec (E y) (E x)); repeat split; auto; apply fle_E; repeat split; auto; lra.
Qed.

(** ** exact arithmetic, any dimension *)
Lemma isR_fold {n} : forall (v w : vec xr n) a b acc s, isV v a -> isV w b -> isR acc s ->
  isR (Vector.fold_left2 (fun res x y => sadd res (smul x y)) acc v w) (s + rdot a b).
Proof.
  induction v as [|x n v IH]; intros w a b acc s Hv Hw Ha.
  - rewrite (vec_0 w). cbn. rewrite Rplus_0_r. exact Ha.
  - destruct (vec_S w) as (y & w0 & ->). cbn [Vector.fold_left2 Vector.caseS' Vector.caseS].
    unfold rdot. cbn [rsum]. rewrite <- Rplus_assoc.
    apply (IH _ (fun i => a (Fin.FS i)) (fun i => b (Fin.FS i))).
    + intros i. apply (Hv (Fin.FS i)).
    + intros i. apply (Hw (Fin.FS i)).
    + apply isR_add; auto. apply isR_mul; [exact (Hv Fin.F1)|exact (Hw Fin.F1)].
Qed.
Lemma isR_dot {n} (v w : vec xr n) a b : isV v a -> isV w b -> isR (dot v w) (rdot a b).
Proof. intros Hv Hw. eapply isR_eq; [apply (isR_fold v w a b szero 0 Hv Hw); apply isR_zero|ring]. Qed.
Lemma sq_fold {n} : forall (v : vec xr n) acc,
  Vector.fold_left (fun res x => sadd res (ssquare x)) acc v = Vector.fold_left2 (fun res x y => sadd res (smul x y)) acc v v.
Proof. induction v as [|x n v IH]; intros acc; [reflexivity|]. cbn. apply IH. Qed.
Lemma sqn_dot {n} (v : vec xr n) : square_norm v = dot v v.
Proof. exact (sq_fold v szero). Qed.
Lemma rdot_pos {n} : forall a : rvec n, 0 <= rdot a a.
Proof. unfold rdot. induction n as [|n IH]; intros a; cbn; [lra|]. specialize (IH (fun i => a (Fin.FS i))). cbn in IH. nra. Qed.
Lemma isR_norm {n} (v : vec xr n) a : isV v a -> isR (norm v) (rlen a).
Proof. intros H. unfold norm. rewrite sqn_dot. apply isR_sqrt; [now apply isR_dot|apply rdot_pos]. Qed.
Lemma isV_ops {n} (v w : vec xr n) a b k r : isV v a -> isV w b -> isR k r ->
  isV (v_add v w) (fun i => a i + b i) /\ isV (v_sub v w) (fun i => a i - b i) /\ isV (v_mul v w) (fun i => a i * b i) /\
  isV (v_scale v k) (fun i => a i * r) /\ isV (v_neg v) (fun i => - a i) /\
  (r <> 0 -> isV (v_divs v k) (fun i => a i / r)) /\
  isV (v_min v w) (fun i => Rmin (a i) (b i)) /\ isV (v_max v w) (fun i => Rmax (a i) (b i)).
Proof.
  intros Hv Hw Hk.
  assert (Q := comp_ops v w k).
  split; [|split; [|split; [|split; [|split; [|split; [|split]]]]]].
  - intros i. destruct (Q i) as (-> & _). apply isR_add; auto.
  - intros i. destruct (Q i) as (_ & -> & _). apply isR_sub; auto.
  - intros i. destruct (Q i) as (_ & _ & -> & _). apply isR_mul; auto.
  - intros i. destruct (Q i) as (_ & _ & _ & _ & -> & _). apply isR_mul; auto.
  - intros i. rewrite neg_comp. apply isR_neg; auto.
  - intros Hr i. destruct (Q i) as (_ & _ & _ & _ & _ & -> & _). apply isR_div; auto.
  - intros i. destruct (Q i) as (_ & _ & _ & _ & _ & _ & -> & _). apply isR_smin; auto.
  - intros i. destruct (Q i) as (_ & _ & _ & _ & _ & _ & _ & -> & _). apply isR_smax; auto.
Qed.
Lemma isV_eq {n} (v : vec xr n) a b : isV v a -> (forall i, a i = b i) -> isV v b.
Proof. intros H E i. rewrite <- E. apply H. Qed.
Lemma isV_realv {n} (v : vec xr n) : realv v -> exists a, isV v a.
Proof. 
  induction v as [|x n v IH]; intros H.
  - exists (fun _ => 0). intros i. inversion i.
  - destruct (IH (fun i => H (Fin.FS i))) as (a & Ha). destruct (H Fin.F1) as (r & Hr).
    exists (fun i => Fin.caseS' i (fun _ => R) r a). intros i. apply (Fin.caseS' i); [exact Hr|exact Ha].
Qed.
(** affine laws of points *)
Lemma point_affine {n} (p q v : vec xr n) a b c : isV p a -> isV q b -> isV v c ->
  isV (p_add_v q (p_sub_p p q)) a /\ isV (v_add_p (p_sub_p p q) q) a /\ isV (p_sub_v (p_add_v p v) v) a /\
  isV (p_sub_p (p_add_v p v) p) c.
Proof.
  intros Hp Hq Hv. unfold p_add_v, p_sub_p, v_add_p, p_sub_v.
  split; [|split; [|split]]; intros i.
  - destruct (comp_ops q (v_sub p q) szero i) as (-> & _). destruct (comp_ops p q szero i) as (_ & -> & _).
    eapply isR_eq; [apply isR_add; [apply Hq|apply isR_sub; [apply Hp|apply Hq]]|ring].
  - destruct (comp_ops (v_sub p q) q szero i) as (-> & _). destruct (comp_ops p q szero i) as (_ & -> & _).
    eapply isR_eq; [apply isR_add; [apply isR_sub; [apply Hp|apply Hq]|apply Hq]|ring].
  - unfold p_sub_p. destruct (comp_ops (v_add p v) v szero i) as (_ & -> & _). destruct (comp_ops p v szero i) as (-> & _).
    eapply isR_eq; [apply isR_sub; [apply isR_add; [apply Hp|apply Hv]|apply Hv]|ring].
  - destruct (comp_ops (v_add p v) p szero i) as (_ & -> & _). destruct (comp_ops p v szero i) as (-> & _).
    eapply isR_eq; [apply isR_sub; [apply isR_add; [apply Hp|apply Hv]|apply Hp]|ring].
Qed.

(** ** Euclidean geometry in n dimensions *)
Lemma rlen_sq {n} (a : rvec n) : rlen a * rlen a = rdot a a.
Proof. apply sqrt_sqrt, rdot_pos. Qed.
Lemma cauchy {n} : forall a b : rvec n, rdot a b * rdot a b <= rdot a a * rdot b b.
Proof.
  induction n as [|n IH]; intros a b.
  - unfold rdot; cbn; lra.
  - specialize (IH (fun i => a (Fin.FS i)) (fun i => b (Fin.FS i))).
    assert (HA := rdot_pos (fun i => a (Fin.FS i))). assert (HB := rdot_pos (fun i => b (Fin.FS i))).
    unfold rdot in *. cbn [rsum] in *.
    set (s := rsum (fun i => a (Fin.FS i) * b (Fin.FS i))) in *.
    set (A := rsum (fun i => a (Fin.FS i) * a (Fin.FS i))) in *.
    set (B := rsum (fun i => b (Fin.FS i) * b (Fin.FS i))) in *.
    set (x := a Fin.F1). set (y := b Fin.F1).
    assert (K : 2 * (s * (x * y)) <= A * (y * y) + B * (x * x)).
    { apply Rsqr_incr_0_var; [|nra]. unfold Rsqr.
      assert (4 * (s * s) * ((x * y) * (x * y)) <= 4 * (A * B) * ((x * y) * (x * y))) by (apply Rmult_le_compat_r; [nra|lra]).
      pose proof (Rle_0_sqr (A * (y * y) - B * (x * x))) as Z0. unfold Rsqr in Z0. lra. }
    lra.
Qed.
Lemma rdot_add {n} : forall a b : rvec n, rdot (fun i => a i + b i) (fun i => a i + b i) = rdot a a + 2 * rdot a b + rdot b b.
Proof.
  unfold rdot. induction n as [|n IH]; intros a b; cbn [rsum]; [ring|].
  specialize (IH (fun i => a (Fin.FS i)) (fun i => b (Fin.FS i))). cbn in IH. rewrite IH. ring.
Qed.
Lemma rlen_triangle {n} (a b : rvec n) : rlen (fun i => a i + b i) <= rlen a + rlen b.
Proof.
  assert (HA := sqrt_pos (rdot a a)). assert (HB := sqrt_pos (rdot b b)). fold (rlen a) in HA. fold (rlen b) in HB.
  apply Rsqr_incr_0_var; [|lra]. unfold Rsqr. rewrite rlen_sq, rdot_add.
  assert (C := cauchy a b). assert (Ea := rlen_sq a). assert (Eb := rlen_sq b).
  assert (M : 0 <= rlen a * rlen b) by (apply Rmult_le_pos; lra).
  assert (rdot a b <= rlen a * rlen b).
  { apply Rsqr_incr_0_var; [|exact M]. unfold Rsqr. rewrite <- Ea, <- Eb in C. lra. }
  lra.
Qed.
Lemma rdot_zero {n} : forall a : rvec n, rdot a a = 0 -> forall i, a i = 0.
Proof.
  unfold rdot. induction n as [|n IH]; intros a H i; [inversion i|]. cbn [rsum] in H.
  assert (K := rdot_pos (fun i => a (Fin.FS i))). unfold rdot in K.
  assert (a Fin.F1 = 0) by nra. apply (Fin.caseS' i (fun i => a i = 0)); [assumption|].
  apply (IH (fun i => a (Fin.FS i))). nra.
Qed.
Lemma rlen_zero {n} (a : rvec n) : rlen a = 0 <-> forall i, a i = 0.
Proof.
  split.
  - intros H. apply rdot_zero. rewrite <- rlen_sq, H. ring.
  - intros H. unfold rlen. replace (rdot a a) with 0; [apply sqrt_0|]. symmetry. unfold rdot. 
    assert (G : forall m (g : Fin.t m -> R), (forall i, g i = 0) -> rsum g = 0).
    { induction m as [|m IH]; intros g E; cbn; [reflexivity|]. rewrite E, (IH (fun i => g (Fin.FS i))); auto. ring. }
    apply G. intros i. rewrite H. ring.
Qed.
Lemma rlen_ext {n} (a b : rvec n) : (forall i, a i = b i) -> rlen a = rlen b.
Proof.
  intros H. unfold rlen. f_equal. unfold rdot.
  assert (G : forall m (g h : Fin.t m -> R), (forall i, g i = h i) -> rsum g = rsum h).
  { induction m as [|m IH]; intros g h E; cbn; [reflexivity|]. rewrite E. f_equal. apply IH. auto. }
  apply G. intros i. now rewrite H.
Qed.
Lemma rdot_sym_sub {n} (a b : rvec n) : rlen (fun i => a i - b i) = rlen (fun i => b i - a i).
Proof.
  unfold rlen. f_equal. unfold rdot.
  assert (G : forall m (g h : Fin.t m -> R), (forall i, g i = h i) -> rsum g = rsum h).
  { induction m as [|m IH]; intros g h E; cbn; [reflexivity|]. rewrite E. f_equal. apply IH. auto. }
  apply G. intros i. ring.
Qed.
Lemma isR_distance {n} (v w : vec xr n) a b : isV v a -> isV w b -> isR (distance v w) (rlen (fun i => a i - b i)).
Proof.
  intros Hv Hw. change (isR (norm (v_sub v w)) (rlen (fun i => a i - b i))). apply isR_norm.
  apply (isV_ops v w a b szero 0 Hv Hw). apply isR_zero.
Qed.
Lemma distance_metric {n} (p q r : vec xr n) a b c : isV p a -> isV q b -> isV r c ->
  exists d e g, isR (distance p q) d /\ isR (distance q p) d /\ isR (distance q r) e /\ isR (distance p r) g /\
    0 <= d /\ (d = 0 <-> forall i, a i = b i) /\ g <= d + e.
Proof.
  intros Hp Hq Hr. exists (rlen (fun i => a i - b i)), (rlen (fun i => b i - c i)), (rlen (fun i => a i - c i)).
  split; [now apply isR_distance|]. split; [rewrite rdot_sym_sub; now apply isR_distance|].
  split; [now apply isR_distance|]. split; [now apply isR_distance|]. split; [apply sqrt_pos|].
  split.
  - rewrite rlen_zero. split; intros H i; specialize (H i); lra.
  - rewrite (rlen_ext (fun i => a i - c i) (fun i => (a i - b i) + (b i - c i))) by (intros; ring).
    apply rlen_triangle.
Qed.
Lemma normalize_ok {n} (v : vec xr n) a : isV v a -> ~ (forall i, a i = 0) ->
  exists u, isV (normalize v) u /\ rlen u = 1 /\ exists k, 0 < k /\ forall i, u i = k * a i.
Proof.
  intros Hv Hz. assert (L : rlen a <> 0) by (rewrite rlen_zero; exact Hz). assert (LP := sqrt_pos (rdot a a)). fold (rlen a) in LP.
  exists (fun i => a i / rlen a). split; [|split].
  - apply (isV_ops v v a a (norm v) (rlen a) Hv Hv); [now apply isR_norm|exact L].
  - apply Rsqr_inj; [apply sqrt_pos|lra|]. unfold Rsqr. rewrite rlen_sq.
    assert (G : forall m (x : rvec m) (l : R), rdot (fun i => x i / l) (fun i => x i / l) = rdot x x * (/ l * / l)).
    { unfold rdot. induction m as [|m IH]; intros x l; cbn [rsum]; [ring|]. specialize (IH (fun i => x (Fin.FS i)) l). cbn in IH. rewrite IH. unfold Rdiv. ring. }
    rewrite G, <- (rlen_sq a). field. exact L.
  - exists (/ rlen a). split; [apply Rinv_0_lt_compat; lra|]. intros i. unfold Rdiv. ring.
Qed.
Lemma normalize_zero {n} (v : vec xr n) : isV v (fun _ => 0) -> forall i, Vector.nth (normalize v) i = XNaN.
Proof.
  intros Hv i. assert (N := isR_norm v _ Hv). replace (rlen (fun _ => 0)) with 0 in N by (symmetry; now apply rlen_zero).
  change (Vector.nth (v_divs (S := xr_scalar) v (norm v)) i = XNaN). destruct (comp_ops (S := xr_scalar) v v (norm v) i) as (_ & _ & _ & _ & _ & -> & _).
  destruct (Hv i) as (s & ->). destruct N as (t & ->). cbn [sdiv xr_scalar]. unfold xdiv_. destruct (Reqb_spec 0 0); [reflexivity|lra].
Qed.
Lemma norm_sq {n} (v : vec xr n) a : isV v a ->
  exists r, isR (norm v) r /\ 0 <= r /\ isR (smul (norm v) (norm v)) (rdot a a) /\ isR (square_norm v) (rdot a a).
Proof.
  intros H. exists (rlen a). assert (N := isR_norm v a H). split; [exact N|]. split; [apply sqrt_pos|]. split.
  - rewrite <- rlen_sq. now apply isR_mul.
  - rewrite sqn_dot. now apply isR_dot.
Qed.

(** ** cross product *)
Lemma cross_laws u v w a b c k r : is3 u a -> is3 v b -> is3 w c -> isR k r ->
  isR (dot u (cross u v)) 0 /\ isR (dot v (cross u v)) 0 /\
  isR (square_norm (cross u v)) (dot3 a a * dot3 b b - dot3 a b * dot3 a b) /\
  (exists d, is3 (cross (v_add u w) v) d /\ is3 (v_add (cross u v) (cross w v)) d) /\
  (exists d, is3 (cross u (v_add v w)) d /\ is3 (v_add (cross u v) (cross u w)) d) /\
  (exists d, is3 (cross (v_scale u k) v) d /\ is3 (v_scale (cross u v) k) d) /\
  (exists d, is3 (cross u v) d /\ is3 (v_neg (cross v u)) d).
Proof.
  intros Hu Hv Hw Hk. assert (C := is3_cross u v a b Hu Hv).
  split; [|split; [|split; [|split; [|split; [|split]]]]].
  - eapply isR_eq; [apply isR_dot3; eassumption|]. unfold dot3, cross3; cbn; ring.
  - eapply isR_eq; [apply isR_dot3; eassumption|]. unfold dot3, cross3; cbn; ring.
  - eapply isR_eq; [apply isR_sqnorm3; eassumption|]. unfold dot3, cross3; cbn; ring.
  - eexists; split; [apply is3_cross; [apply is3_add; eassumption|eassumption]|].
    eapply is3_eq; [apply is3_add; apply is3_cross; eassumption|]. apply R3_eq; cbn; ring.
  - eexists; split; [apply is3_cross; [eassumption|apply is3_add; eassumption]|].
    eapply is3_eq; [apply is3_add; apply is3_cross; eassumption|]. apply R3_eq; cbn; ring.
  - eexists; split; [apply is3_cross; [apply is3_scale; eassumption|eassumption]|].
    eapply is3_eq; [apply is3_scale; [apply is3_cross; eassumption|eassumption]|]. apply R3_eq; cbn; ring.
  - eexists; split; [eassumption|]. eapply is3_eq; [apply is3_neg, is3_cross; eassumption|]. apply R3_eq; cbn; ring.
Qed.
