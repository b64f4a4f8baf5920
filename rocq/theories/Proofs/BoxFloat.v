(** Boxes at f32/f64: order reasoning only. *)
From Coq Require Import ZArith Reals Bool Lra Lia.
From Coq Require Vector Fin.
From Flocq Require Import Core BinarySingleNaN.
From Verif.Model Require Import FloatBase Scalar Float Interval Outcome Vec Transform XReal Geometry.
From Verif Require Import Spec SpecGeom SpecShape.
From Verif.Proofs Require Import BitsLemmas FloatLemmas ScalarProofs XRealLemmas VectorExact.
Open Scope R_scope.

Section BF.
Context {f : fmt} {m : libm f}.
Notation FT := (float f).
Notation "v @ i" := (Vector.nth v i) (at level 20, only parsing).

Lemma nmin_E (x y : FT) : nonnan x -> nonnan y -> nonnan (nmin x y) /\ E (nmin x y) = Rmin (E x) (E y).
Proof.
  intros Hx Hy. cbn [nmin float_native]. unfold native_min. unfold nonnan in *. rewrite Hx, Hy. rewrite lt_b by assumption.
  destruct (Rlt_bool_spec (E x) (E y)); split; auto; unfold Rmin; destruct Rle_dec; lra.
Qed.
Lemma nmax_E (x y : FT) : nonnan x -> nonnan y -> nonnan (nmax x y) /\ E (nmax x y) = Rmax (E x) (E y).
Proof.
  intros Hx Hy. cbn [nmax float_native]. unfold native_max. unfold nonnan in *. rewrite Hx, Hy. rewrite gt_b by assumption.
  destruct (Rlt_bool_spec (E y) (E x)); split; auto; unfold Rmax; destruct Rle_dec; lra.
Qed.

(** the components of the constructed boxes *)
Lemma new_at (p q : vec FT 3) i : pmin (b_new p q) @ i = nmin (p @ i) (q @ i) /\ pmax (b_new p q) @ i = nmax (p @ i) (q @ i).
Proof. revert i. apply (fin3_case (fun i => pmin (b_new p q) @ i = nmin (p @ i) (q @ i) /\ pmax (b_new p q) @ i = nmax (p @ i) (q @ i))); split; reflexivity. Qed.
Lemma union_at (a b : bbox FT) i : pmin (b_union a b) @ i = nmin (pmin a @ i) (pmin b @ i) /\ pmax (b_union a b) @ i = nmax (pmax a @ i) (pmax b @ i).
Proof. revert i. apply (fin3_case (fun i => pmin (b_union a b) @ i = nmin (pmin a @ i) (pmin b @ i) /\ pmax (b_union a b) @ i = nmax (pmax a @ i) (pmax b @ i))); split; reflexivity. Qed.
Lemma inter_at (a b : bbox FT) i : pmin (b_intersect a b) @ i = nmax (pmin a @ i) (pmin b @ i) /\ pmax (b_intersect a b) @ i = nmin (pmax a @ i) (pmax b @ i).
Proof. revert i. apply (fin3_case (fun i => pmin (b_intersect a b) @ i = nmax (pmin a @ i) (pmin b @ i) /\ pmax (b_intersect a b) @ i = nmin (pmax a @ i) (pmax b @ i))); split; reflexivity. Qed.
Lemma forall3 (P : Fin.t 3 -> Prop) : (forall i, P i) <-> P Fin.F1 /\ P (Fin.FS Fin.F1) /\ P (Fin.FS (Fin.FS Fin.F1)).
Proof. split; [auto|]. intros (H1 & H2 & H3). now apply fin3_case. Qed.
Lemma inside_spec (b : bbox FT) p : b_inside b p = true <-> in_fbox b p.
Proof.
  unfold b_inside, in_fbox. rewrite !andb_true_iff, !sge_spec, !sle_spec. rewrite forall3. unfold xmin, ymin, zmin, xmax, ymax, zmax, vx, vy, vz, vget. tauto.
Qed.

(** turn everything into statements about E *)
Ltac toE i :=
  repeat match goal with
  | H : box_nonnan _ |- _ => pose proof (H i); clear H
  | H : box_ordered _ |- _ => pose proof (H i); clear H
  | H : box_finite _ |- _ => pose proof (H i); clear H
  | H : fall _ _ |- _ => pose proof (H i); clear H
  | H : in_fbox _ _ |- _ => pose proof (H i); clear H
  | H : box_within _ _ |- _ => pose proof (H i); clear H
  end;
  rewrite ?(proj1 (new_at _ _ _)), ?(proj2 (new_at _ _ _)), ?(proj1 (union_at _ _ _)), ?(proj2 (union_at _ _ _)), ?(proj1 (inter_at _ _ _)), ?(proj2 (inter_at _ _ _)) in *;
  rewrite ?fle_E, ?feq_E, ?flt_E in *.
Ltac nmins := repeat match goal with
  | |- context [nmin ?x ?y] => let N := fresh in let K := fresh in destruct (nmin_E x y) as [N K]; [tauto|tauto|]; rewrite K; revert N; generalize (nmin x y); intros
  | |- context [nmax ?x ?y] => let N := fresh in let K := fresh in destruct (nmax_E x y) as [N K]; [tauto|tauto|]; rewrite K; revert N; generalize (nmax x y); intros
  end.

Lemma new_ok (p q : vec FT 3) : fall nonnan p -> fall nonnan q ->
  box_ordered (b_new p q) /\ b_inside (b_new p q) p = true /\ b_inside (b_new p q) q = true /\
  (forall c, b_inside c p = true -> b_inside c q = true -> box_within (b_new p q) c /\ (forall x, b_inside (b_new p q) x = true -> b_inside c x = true)).
Proof.
  intros Hp Hq.
  assert (N : forall i, nonnan (pmin (b_new p q) @ i) /\ nonnan (pmax (b_new p q) @ i) /\
    E (pmin (b_new p q) @ i) = Rmin (E (p @ i)) (E (q @ i)) /\ E (pmax (b_new p q) @ i) = Rmax (E (p @ i)) (E (q @ i))).
  { intros i. destruct (new_at p q i) as [-> ->]. destruct (nmin_E _ _ (Hp i) (Hq i)), (nmax_E _ _ (Hp i) (Hq i)). tauto. }
  assert (M : forall a b, Rmin a b <= a /\ Rmin a b <= b /\ a <= Rmax a b /\ b <= Rmax a b).
  { intros a b. auto using Rmin_l, Rmin_r, Rmax_l, Rmax_r. }
  split; [|split; [|split]].
  - intros i. apply fle_E. destruct (N i) as (N1 & N2 & -> & ->). destruct (M (E (p @ i)) (E (q @ i))) as (?&?&?&?). repeat split; auto; lra.
  - apply inside_spec. intros i. rewrite !fle_E. destruct (N i) as (N1 & N2 & -> & ->). destruct (M (E (p @ i)) (E (q @ i))) as (?&?&?&?). specialize (Hp i). repeat split; auto; lra.
  - apply inside_spec. intros i. rewrite !fle_E. destruct (N i) as (N1 & N2 & -> & ->). destruct (M (E (p @ i)) (E (q @ i))) as (?&?&?&?). specialize (Hq i). repeat split; auto; lra.
  - intros c Cp Cq. apply inside_spec in Cp, Cq.
    assert (W : box_within (b_new p q) c).
    { intros i. specialize (Cp i). specialize (Cq i). rewrite !fle_E in *. destruct (N i) as (N1 & N2 & -> & ->).
      split; (split; [tauto|split; [tauto|]]); [apply Rmin_glb|apply Rmax_lub]; tauto. }
    split; [exact W|]. intros x Hx. apply inside_spec. apply inside_spec in Hx. intros i. specialize (W i). specialize (Hx i). rewrite !fle_E in *.
    intuition lra.
Qed.

Section Two.
Variables a b : bbox FT.
Hypothesis Na : box_nonnan a.
Hypothesis Nb : box_nonnan b.
Lemma uE i : nonnan (pmin (b_union a b) @ i) /\ nonnan (pmax (b_union a b) @ i) /\
  E (pmin (b_union a b) @ i) = Rmin (E (pmin a @ i)) (E (pmin b @ i)) /\ E (pmax (b_union a b) @ i) = Rmax (E (pmax a @ i)) (E (pmax b @ i)).
Proof. destruct (union_at a b i) as [-> ->]. destruct (Na i), (Nb i). destruct (nmin_E (pmin a @ i) (pmin b @ i)), (nmax_E (pmax a @ i) (pmax b @ i)); tauto. Qed.
Lemma iE i : nonnan (pmin (b_intersect a b) @ i) /\ nonnan (pmax (b_intersect a b) @ i) /\
  E (pmin (b_intersect a b) @ i) = Rmax (E (pmin a @ i)) (E (pmin b @ i)) /\ E (pmax (b_intersect a b) @ i) = Rmin (E (pmax a @ i)) (E (pmax b @ i)).
Proof. destruct (inter_at a b i) as [-> ->]. destruct (Na i), (Nb i). destruct (nmax_E (pmin a @ i) (pmin b @ i)), (nmin_E (pmax a @ i) (pmax b @ i)); tauto. Qed.
Lemma union_nonnan : box_nonnan (b_union a b).
Proof. intros i. destruct (uE i). tauto. Qed.
Lemma inter_inside p : b_inside (b_intersect a b) p = true <-> b_inside a p = true /\ b_inside b p = true.
Proof.
  rewrite !inside_spec. split.
  - intros H. split; intros i; specialize (H i); rewrite !fle_E in *; destruct (iE i) as (N1 & N2 & K1 & K2); rewrite K1, K2 in H;
    destruct (Na i), (Nb i); destruct H as ((_ & Np & L1) & (_ & _ & L2));
    pose proof (Rmax_l (E (pmin a @ i)) (E (pmin b @ i))); pose proof (Rmax_r (E (pmin a @ i)) (E (pmin b @ i)));
    pose proof (Rmin_l (E (pmax a @ i)) (E (pmax b @ i))); pose proof (Rmin_r (E (pmax a @ i)) (E (pmax b @ i)));
    intuition lra.
  - intros [H1 H2] i. specialize (H1 i). specialize (H2 i). rewrite !fle_E in *. destruct (iE i) as (N1 & N2 & -> & ->).
    split; (split; [tauto|split; [tauto|]]); [apply Rmax_lub|apply Rmin_glb]; tauto.
Qed.
Lemma union_inside p : b_inside a p = true \/ b_inside b p = true -> b_inside (b_union a b) p = true.
Proof.
  rewrite !inside_spec. intros H i. rewrite !fle_E. destruct (uE i) as (N1 & N2 & -> & ->).
  pose proof (Rmin_l (E (pmin a @ i)) (E (pmin b @ i))); pose proof (Rmin_r (E (pmin a @ i)) (E (pmin b @ i)));
  pose proof (Rmax_l (E (pmax a @ i)) (E (pmax b @ i))); pose proof (Rmax_r (E (pmax a @ i)) (E (pmax b @ i))).
  destruct H as [H|H]; specialize (H i); rewrite !fle_E in H; intuition lra.
Qed.
Lemma union_upper : box_within a (b_union a b) /\ box_within b (b_union a b).
Proof.
  split; intros i; rewrite !fle_E; destruct (uE i) as (N1 & N2 & -> & ->); destruct (Na i), (Nb i);
  pose proof (Rmin_l (E (pmin a @ i)) (E (pmin b @ i))); pose proof (Rmin_r (E (pmin a @ i)) (E (pmin b @ i)));
  pose proof (Rmax_l (E (pmax a @ i)) (E (pmax b @ i))); pose proof (Rmax_r (E (pmax a @ i)) (E (pmax b @ i))); auto.
Qed.
Lemma union_least c : box_within a c -> box_within b c -> box_within (b_union a b) c.
Proof.
  intros H1 H2 i. specialize (H1 i). specialize (H2 i). rewrite !fle_E in *. destruct (uE i) as (N1 & N2 & -> & ->).
  split; (split; [tauto|split; [tauto|]]); [apply Rmin_glb|apply Rmax_lub]; tauto.
Qed.
End Two.
Lemma within_inside (a c : bbox FT) p : box_within a c -> b_inside a p = true -> b_inside c p = true.
Proof. rewrite !inside_spec. intros W H i. specialize (W i). specialize (H i). rewrite !fle_E in *. intuition lra. Qed.
(** for boxes that contain a point, "the bounds are within" is the same as set inclusion *)
Lemma inside_within (a c : bbox FT) : box_ordered a -> (forall p, b_inside a p = true -> b_inside c p = true) -> box_within a c.
Proof.
  intros O H.
  assert (C1 : in_fbox c (pmin a)). { apply inside_spec, H, inside_spec. intros i. specialize (O i). rewrite !fle_E in *. intuition lra. }
  assert (C2 : in_fbox c (pmax a)). { apply inside_spec, H, inside_spec. intros i. specialize (O i). rewrite !fle_E in *. intuition lra. }
  intros i. specialize (C1 i). specialize (C2 i). tauto.
Qed.
Lemma union_least_set (a b c : bbox FT) : box_ordered a -> box_ordered b ->
  (forall p, b_inside a p = true -> b_inside c p = true) -> (forall p, b_inside b p = true -> b_inside c p = true) ->
  forall p, b_inside (b_union a b) p = true -> b_inside c p = true.
Proof.
  intros Oa Ob Ha Hb p. apply within_inside. apply union_least.
  - intros i. specialize (Oa i). rewrite fle_E in Oa. tauto.
  - intros i. specialize (Ob i). rewrite fle_E in Ob. tauto.
  - now apply inside_within.
  - now apply inside_within.
Qed.
Lemma union_laws (a b c : bbox FT) : box_nonnan a -> box_nonnan b -> box_nonnan c ->
  box_same (b_union a b) (b_union b a) /\ box_same (b_union (b_union a b) c) (b_union a (b_union b c)) /\ box_same (b_union a a) a.
Proof.
  intros Na Nb Nc. split; [|split]; intros i; rewrite !feq_E.
  - destruct (uE a b Na Nb i) as (N1 & N2 & -> & ->), (uE b a Nb Na i) as (N3 & N4 & -> & ->). repeat split; auto using Rmin_comm, Rmax_comm.
  - destruct (uE (b_union a b) c (union_nonnan a b Na Nb) Nc i) as (N1 & N2 & -> & ->), (uE a (b_union b c) Na (union_nonnan b c Nb Nc) i) as (N3 & N4 & -> & ->).
    destruct (uE a b Na Nb i) as (_ & _ & -> & ->), (uE b c Nb Nc i) as (_ & _ & -> & ->). repeat split; auto.
    + unfold Rmin; repeat destruct Rle_dec; lra.
    + unfold Rmax; repeat destruct Rle_dec; lra.
  - destruct (uE a a Na Na i) as (N1 & N2 & -> & ->). destruct (Na i). repeat split; auto; [unfold Rmin|unfold Rmax]; destruct Rle_dec; lra.
Qed.

(** default *)
Lemma fmax_E : finite (fmax_value : FT) /\ E (fmax_value : FT) < bpow radix2 (emax f) /\ (forall x : FT, nonnan x -> x <> finf false -> E x <= E (fmax_value : FT)).
Proof.
  assert (F : finite (fmax_value : FT)) by (destruct f; reflexivity).
  split; [exact F|]. split; [apply finite_E_range; exact F|].
  intros x N I. destruct (Rle_or_lt (E x) (E (fmax_value : FT))) as [|H]; auto. exfalso.
  assert (S : f_next_up f (fmax_value : FT) = finf false) by (destruct f; apply B2SF_inj; vm_compute; reflexivity).
  destruct (next_up_adjacent (fmax_value : FT)) as [_ K]; [now apply nonnan_of_finite|intros E0; rewrite E0 in F; discriminate|].
  apply I. apply is_inf_pos; auto. apply Rle_antisym; [apply E_range|].
  rewrite S in K. assert (K' : fle (finf false) x). { apply K. apply flt_E. split; [now apply nonnan_of_finite|]. auto. }
  apply fle_E in K'. apply K'.
Qed.
Lemma fmin_E : (slowest : FT) = fneg fmax_value /\ (forall x : FT, nonnan x -> x <> finf true -> E (slowest : FT) <= E x).
Proof.
  assert (S : (slowest : FT) = fneg fmax_value) by (destruct f; apply B2SF_inj; vm_compute; reflexivity).
  split; [exact S|]. intros x N I. rewrite S, fneg_E. destruct fmax_E as (_ & _ & K). specialize (K (fneg x)).
  rewrite fneg_E in K. assert (- E x <= E (fmax_value : FT)); [|lra]. apply K; [now apply fneg_nonnan|].
  intros H. apply I. rewrite <- (Bopp_involutive _ _ x). fold (fneg x). rewrite H. reflexivity.
Qed.
Lemma default_at i : pmin (b_default (T := FT)) @ i = fmax_value /\ pmax (b_default (T := FT)) @ i = (slowest : FT).
Proof. revert i. apply (fin3_case (fun i => pmin (b_default (T := FT)) @ i = fmax_value /\ pmax (b_default (T := FT)) @ i = (slowest : FT))); split; reflexivity. Qed.
Lemma default_nonnan : box_nonnan (b_default (T := FT)).
Proof. intros i. destruct (default_at i) as [-> ->]. destruct fmin_E as [-> _]. split; [|apply fneg_nonnan]; apply nonnan_of_finite, fmax_E. Qed.
Lemma default_empty p : b_inside (b_default (T := FT)) p = false.
Proof.
  apply not_true_is_false. rewrite inside_spec. intros H. specialize (H Fin.F1).
  rewrite (proj1 (default_at Fin.F1)), (proj2 (default_at Fin.F1)) in H. rewrite !fle_E in H. destruct fmin_E as [S _]. rewrite S, fneg_E in H.
  assert (0 < E (fmax_value : FT)) by (rewrite E_B2R by apply fmax_E; destruct f; apply F2R_gt_0; reflexivity).
  lra.
Qed.
Lemma default_unit (b : bbox FT) : box_nonnan b -> (forall i, pmin b @ i <> finf false /\ pmax b @ i <> finf true) ->
  box_same (b_union b_default b) b /\ box_same (b_union b b_default) b.
Proof.
  intros Nb H. split; intros i; rewrite !feq_E; destruct (Nb i) as [B1 B2], (H i) as [I1 I2].
  - destruct (uE _ _ default_nonnan Nb i) as (N1 & N2 & -> & ->). destruct (default_at i) as [-> ->].
    pose proof (proj2 (proj2 fmax_E) _ B1 I1). pose proof (proj2 fmin_E _ B2 I2). repeat split; auto; [apply Rmin_right|apply Rmax_right]; lra.
  - destruct (uE _ _ Nb default_nonnan i) as (N1 & N2 & -> & ->). destruct (default_at i) as [-> ->].
    pose proof (proj2 (proj2 fmax_E) _ B1 I1). pose proof (proj2 fmin_E _ B2 I2). repeat split; auto; [apply Rmin_left|apply Rmax_left]; lra.
Qed.

(** overlaps *)
Lemma fltR_E (x : FT) r : nonnan x -> x <> finf false -> E x < r -> fltR x r.
Proof. destruct x as [|[]| |]; try easy; cbn; auto. Qed.
Lemma fgtR_E (x : FT) r : nonnan x -> x <> finf true -> r < E x -> fgtR x r.
Proof. destruct x as [|[]| |]; try easy; cbn; auto. Qed.
Lemma between_flt (x y : FT) r : fltR x r -> fgtR y r -> flt x y.
Proof.
  destruct x as [sx|sx| |sx mx ex Hx], y as [sy|sy| |sy my ey Hy]; cbn; try tauto; intros; subst; auto; try lra.
Qed.
Lemma flt_between (x y : FT) : flt x y -> x <> finf false /\ y <> finf true.
Proof. intros H. split; intros ->; [destruct y as [|[]| |]|destruct x as [|[]| |]]; cbn in H; try easy. Qed.
Lemma overlaps_spec (a b : bbox FT) : b_overlaps a b = true <-> forall i, flt (pmin b @ i) (pmax a @ i) /\ flt (pmin a @ i) (pmax b @ i).
Proof. unfold b_overlaps. rewrite !andb_true_iff, !sgt_spec, forall3. unfold xmin, ymin, zmin, xmax, ymax, zmax, vx, vy, vz, vget. tauto. Qed.
Lemma overlaps_interior (a b : bbox FT) : box_fat a -> box_fat b ->
  (b_overlaps a b = true <-> exists r, interior a r /\ interior b r).
Proof.
  intros Fa Fb. rewrite overlaps_spec. split.
  - intros H. exists (fun i => (Rmax (E (pmin a @ i)) (E (pmin b @ i)) + Rmin (E (pmax a @ i)) (E (pmax b @ i))) / 2).
    assert (G : forall i, let r := (Rmax (E (pmin a @ i)) (E (pmin b @ i)) + Rmin (E (pmax a @ i)) (E (pmax b @ i))) / 2 in
      fltR (pmin a @ i) r /\ fgtR (pmax a @ i) r /\ fltR (pmin b @ i) r /\ fgtR (pmax b @ i) r).
    { intros i. cbv zeta. destruct (H i) as [K1 K2]. assert (K3 := Fa i). assert (K4 := Fb i).
      destruct (flt_between _ _ K1), (flt_between _ _ K2). apply flt_E in K1, K2, K3, K4.
      assert (L : Rmax (E (pmin a @ i)) (E (pmin b @ i)) < Rmin (E (pmax a @ i)) (E (pmax b @ i))).
      { apply Rmax_lub_lt; apply Rmin_glb_lt; tauto. }
      pose proof (Rmax_l (E (pmin a @ i)) (E (pmin b @ i))); pose proof (Rmax_r (E (pmin a @ i)) (E (pmin b @ i)));
      pose proof (Rmin_l (E (pmax a @ i)) (E (pmax b @ i))); pose proof (Rmin_r (E (pmax a @ i)) (E (pmax b @ i))).
      split; [apply fltR_E; try tauto; lra|]. split; [apply fgtR_E; try tauto; lra|]. split; [apply fltR_E; try tauto; lra|apply fgtR_E; try tauto; lra]. }
    split; intros i; specialize (G i); cbv zeta in G; tauto.
  - intros (r & Ha & Hb) i. destruct (Ha i), (Hb i). split; eapply between_flt; eauto.
Qed.
Lemma overlaps_share (a b : bbox FT) : box_ordered a -> box_ordered b -> b_overlaps a b = true ->
  exists p, b_inside a p = true /\ b_inside b p = true.
Proof.
  intros Oa Ob H. rewrite overlaps_spec in H. exists (pmin (b_intersect a b)). 
  assert (Na : box_nonnan a) by (intros i; specialize (Oa i); rewrite fle_E in Oa; tauto).
  assert (Nb : box_nonnan b) by (intros i; specialize (Ob i); rewrite fle_E in Ob; tauto).
  rewrite <- inter_inside by assumption. apply inside_spec. intros i. rewrite !fle_E. destruct (iE a b Na Nb i) as (N1 & N2 & -> & ->).
  split; [repeat split; auto; lra|]. split; [auto|]. split; [auto|].
  destruct (H i) as [H1 H2]. specialize (Oa i). specialize (Ob i). rewrite !fle_E, !flt_E in *.
  apply Rmax_lub; apply Rmin_glb; lra.
Qed.
Lemma overlaps_sym (a b : bbox FT) : b_overlaps a b = b_overlaps b a.
Proof. apply eq_true_iff_eq. rewrite !overlaps_spec. split; intros H i; destruct (H i); auto. Qed.

(** diagonal, max_extent *)
Lemma diag_at (b : bbox FT) i : b_diagonal b @ i = fsub (pmax b @ i) (pmin b @ i).
Proof. exact (proj1 (proj2 (comp_ops (pmax b) (pmin b) szero i))). Qed.
Lemma diag_ok (b : bbox FT) : box_finite b -> forall i,
  rounds_to (b_diagonal b @ i) (B2R (pmax b @ i) - B2R (pmin b @ i)) /\
  (fle (pmin b @ i) (pmax b @ i) -> fle (fzero false) (b_diagonal b @ i)).
Proof.
  intros F i. rewrite diag_at. destruct (F i) as [F1 F2]. assert (K := fsub_fadd _ _ F2 F1). split; [now apply Rnd_rounds_to|].
  intros H. apply fle_E in H. destruct H as (_ & _ & H). rewrite !E_B2R in H by assumption. apply fle_E. split; [reflexivity|]. split; [apply K|].
  change (E (fzero false : FT)) with (E (fzero false : FT)). apply (Rnd_ge (fzero false) _ _ K). cbn. lra.
Qed.
Lemma max_extent_ok (b : bbox FT) : box_finite b -> exists i lo hi, b_max_extent b = ((lo, hi), proj1_sig (Fin.to_nat i)) /\
  lo = pmin b @ i /\ hi = pmax b @ i /\ forall j, fle (b_diagonal b @ j) (b_diagonal b @ i).
Proof.
  intros F. assert (D : forall i, nonnan (b_diagonal b @ i)).
  { intros i. rewrite diag_at. destruct (F i) as [F1 F2]. apply (fsub_fadd _ _ F2 F1). }
  unfold b_max_extent.
  change (vx (pmax b) - vx (pmin b))%S with (fsub (pmax b @ Fin.F1) (pmin b @ Fin.F1)).
  change (vy (pmax b) - vy (pmin b))%S with (fsub (pmax b @ Fin.FS Fin.F1) (pmin b @ Fin.FS Fin.F1)).
  change (vz (pmax b) - vz (pmin b))%S with (fsub (pmax b @ Fin.FS (Fin.FS Fin.F1)) (pmin b @ Fin.FS (Fin.FS Fin.F1))).
  rewrite <- !diag_at.
  assert (D1 := D Fin.F1). assert (D2 := D (Fin.FS Fin.F1)). assert (D3 := D (Fin.FS (Fin.FS Fin.F1))).
  assert (G : forall i, (forall j, E (b_diagonal b @ j) <= E (b_diagonal b @ i)) -> forall j, fle (b_diagonal b @ j) (b_diagonal b @ i)).
  { intros i H j. apply fle_E. auto. }
  unfold sgt. cbn [scmp float_scalar]. change (@scmp FT _) with (@fcmp f). rewrite !gt_b by assumption.
  destruct (Rlt_bool_spec (E (b_diagonal b @ Fin.FS Fin.F1)) (E (b_diagonal b @ Fin.F1))).
  - destruct (Rlt_bool_spec (E (b_diagonal b @ Fin.FS (Fin.FS Fin.F1))) (E (b_diagonal b @ Fin.F1))).
    + exists Fin.F1, (vx (pmin b)), (vx (pmax b)). repeat split. apply G. rewrite forall3. lra.
    + exists (Fin.FS (Fin.FS Fin.F1)), (vz (pmin b)), (vz (pmax b)). repeat split. apply G. rewrite forall3. lra.
  - destruct (Rlt_bool_spec (E (b_diagonal b @ Fin.FS (Fin.FS Fin.F1))) (E (b_diagonal b @ Fin.FS Fin.F1))).
    + exists (Fin.FS Fin.F1), (vy (pmin b)), (vy (pmax b)). repeat split. apply G. rewrite forall3. lra.
    + exists (Fin.FS (Fin.FS Fin.F1)), (vz (pmin b)), (vz (pmax b)). repeat split. apply G. rewrite forall3. lra.
Qed.

(** center *)
Lemma half_val : finite (half : FT) /\ B2R (half : FT) = 1 / 2.
Proof. split; [destruct f; reflexivity|]. destruct f; match goal with |- B2R ?x = _ => b2r_eval x end; simpl bpow; lra. Qed.
Lemma two_format r : generic_format radix2 (SpecFloat.fexp (prec f) (emax f)) r -> generic_format radix2 (SpecFloat.fexp (prec f) (emax f)) (2 * r).
Proof.
  intros H. destruct (Req_dec r 0) as [->|Hr]; [rewrite Rmult_0_r; apply generic_format_0|].
  apply generic_format_FLT. apply (FLT_format_generic radix2 (SpecFloat.emin (prec f) (emax f)) (prec f)) in H.
  destruct H as [g Hg1 Hg2 Hg3]. exists (Float radix2 (Fnum g) (Fexp g + 1)).
  - rewrite Hg1. unfold F2R. cbn [Fnum Fexp]. rewrite bpow_plus. change (bpow radix2 1) with 2. ring.
  - exact Hg2.
  - cbn [Fexp]. lia.
Qed.
Lemma center_axis (x y : FT) : finite x -> finite y -> B2R x <= B2R y -> finite (fadd y x) ->
  fle x (fmul (fadd y x) half) /\ fle (fmul (fadd y x) half) y.
Proof.
  intros Fx Fy H Fs. destruct half_val as [Fh Vh].
  assert (A := fadd_Rnd y x Fy Fx). assert (V := Rnd_finite _ _ A Fs).
  assert (L : 2 * B2R x <= B2R (fadd y x) <= 2 * B2R y).
  { rewrite V. assert (Gx : generic_format radix2 (SpecFloat.fexp (prec f) (emax f)) (B2R x)) by (rewrite <- E_B2R by assumption; apply generic_E).
    assert (Gy : generic_format radix2 (SpecFloat.fexp (prec f) (emax f)) (B2R y)) by (rewrite <- E_B2R by assumption; apply generic_E).
    split.
    - rewrite <- (rnd_id (f := f) (2 * B2R x)) by (now apply two_format). apply rnd_le. lra.
    - rewrite <- (rnd_id (f := f) (2 * B2R y)) by (now apply two_format). apply rnd_le. lra. }
  assert (M := fmul_Rnd _ _ Fs Fh). rewrite Vh in M.
  assert (Nx := nonnan_of_finite x Fx). assert (Ny := nonnan_of_finite y Fy). assert (Nm := proj1 M).
  split; apply fle_E; (split; [assumption|split; [assumption|]]).
  - apply (Rnd_ge x _ _ M). rewrite E_B2R by assumption. lra.
  - apply (Rnd_le y _ _ M). rewrite E_B2R by assumption. lra.
Qed.
Lemma center_at (b : bbox FT) i : b_center b @ i = fmul (fadd (pmax b @ i) (pmin b @ i)) half.
Proof.
  destruct (comp_ops (v_add (pmax b) (pmin b)) (pmin b) half i) as (_ & _ & _ & _ & H & _). destruct (comp_ops (pmax b) (pmin b) szero i) as (K & _).
  rewrite K in H. exact H.
Qed.
Lemma center_ok (b : bbox FT) : box_finite b -> box_ordered b -> (forall i, finite (fadd (pmax b @ i) (pmin b @ i))) -> b_inside b (b_center b) = true.
Proof.
  intros F O S. apply inside_spec. intros i. rewrite center_at.
  destruct (F i) as [F1 F2]. specialize (O i). apply fle_E in O. rewrite !E_B2R in O by assumption. apply center_axis; auto. tauto.
Qed.
End BF.
