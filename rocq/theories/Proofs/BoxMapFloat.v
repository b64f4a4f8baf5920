(** Boxes mapped by float scalings and translations enclose the mapped points, with no rounding allowance. *)
From Coq Require Import ZArith Reals Bool List Lra Lia.
From Coq Require Vector Fin.
From Flocq Require Import Core BinarySingleNaN.
From Verif.Model Require Import FloatBase Scalar Float Interval Outcome Vec Transform XReal Geometry.
From Verif Require Import Spec SpecGeom SpecShape.
From Verif.Proofs Require Import BitsLemmas FloatLemmas ScalarProofs VectorFloat MatrixProofs TransformProofs TransformFloat BoxFloat TraceCases.
Open Scope R_scope.
Notation "v @ i" := (Vector.nth v i) (at level 20, only parsing).
Section F.
Context {f : fmt} {m : libm f}.
Notation FT := (float f).

Notation top := (bpow radix2 (emax f)).
Notation rnd := (rndf f).

(** [z] is [t] plus something of value [e] *)
Definition Sm (t : FT) (e : R) (z : FT) : Prop := nonnan z /\ (- top < e < top -> E z = clampE (f := f) (rnd (B2R t + e))) /\ (e = top \/ e = - top -> E z = e).
Lemma not_fin (d : FT) : nonnan d -> (finite d /\ - top < E d < top) \/ exists s, d = finf s /\ (E d = top \/ E d = - top).
Proof. intros N. destruct d as [s|s| |s mm e H]; try (left; split; [reflexivity|apply finite_E_range; reflexivity]); [|discriminate N]. right. exists s. split; [reflexivity|]. destruct s; [right|left]; reflexivity. Qed.
Lemma sm_add (t t' d : FT) : finite t -> val t' (B2R t) -> nonnan d -> Sm t (E d) (fadd t' d) /\ Sm t (E d) (fadd d t').
Proof.
  intros Ft [Ft' Vt] Nd. destruct (not_fin d Nd) as [[Fd R]|(s & -> & R)].
  - assert (A := fadd_Rnd t' d Ft' Fd). assert (B := fadd_Rnd d t' Fd Ft'). rewrite Vt in A, B. rewrite Rplus_comm in B. destruct A as [A1 A2]. destruct B as [B1 B2]. rewrite (E_B2R d Fd). rewrite (E_B2R d Fd) in R.
    split; (split; [assumption|]; split; [intros _; assumption|intros K; lra]).
  - assert (HT := top_pos (f := f)). destruct t' as [s'|s'| |s' mm e H]; try discriminate Ft'; (split; (split; [reflexivity|]; split; [intros K; lra|intros _; reflexivity])).
Qed.
Lemma add_zero (x y : FT) : nonnan x -> val y 0 -> (nonnan (fadd x y) /\ E (fadd x y) = E x) /\ (nonnan (fadd y x) /\ E (fadd y x) = E x).
Proof.
  intros N [Fy Vy]. destruct (not_fin x N) as [[Fx R]|(s & -> & R)].
  - assert (A := fadd_Rnd x y Fx Fy). assert (B := fadd_Rnd y x Fy Fx). rewrite Vy in A, B. rewrite Rplus_0_r in A. rewrite Rplus_0_l in B. rewrite <- (E_B2R x Fx) in A, B. destruct A as [A1 A2]. destruct B as [B1 B2]. rewrite rnd_E, clampE_E in A2, B2. auto.
  - destruct y as [s'|s'| |s' mm e H]; try discriminate Fy; (split; split; reflexivity).
Qed.
Lemma sm_addz t e z y : Sm t e z -> val y 0 -> Sm t e (fadd z y).
Proof. intros (N & A & B) Y. destruct (add_zero z y N Y) as [[N' E'] _]. unfold Sm. rewrite E'. auto. Qed.
Lemma sm_div t e z w : Sm t e z -> val w 1 -> Sm t e (fdiv z w).
Proof.
  intros (N & A & B) [Fw Vw]. assert (G : nonnan (fdiv z w) /\ E (fdiv z w) = E z); [|destruct G as [G1 G2]; unfold Sm; rewrite G2; auto].
  destruct (not_fin z N) as [[Fz R]|(s & -> & R)].
  - assert (K := fdiv_Rnd z w Fz Fw ltac:(lra)). rewrite Vw in K. unfold Rdiv in K. rewrite Rinv_1, Rmult_1_r, <- (E_B2R z Fz) in K. destruct K as [K1 K2]. rewrite rnd_E, clampE_E in K2. auto.
  - destruct w as [s'|s'| |s' mm e' H]; try discriminate Fw; [cbn in Vw; lra|]. assert (s' = false). { destruct s'; [|reflexivity]. exfalso. cbn in Vw. assert (K := F2R_lt_0 radix2 {| Fnum := Z.neg mm; Fexp := e' |} ltac:(reflexivity)). cbn in K. unfold B2R, Defs.F2R in *. cbn in *. lra. }
    subst s'. destruct s; split; reflexivity.
Qed.
Lemma sm_mono t e e' z z' : Sm t e z -> Sm t e' z' -> - top <= e -> e <= e' -> e' <= top -> E z <= E z'.
Proof.
  intros (N & A & B) (N' & A' & B') L H T. assert (HT := top_pos (f := f)). assert (R := E_range z). assert (R' := E_range z').
  destruct (Req_dec e (- top)) as [K|K]; [rewrite (B (or_intror K)); lra|]. destruct (Req_dec e' top) as [K'|K']; [rewrite (B' (or_introl K')); lra|].
  rewrite A, A' by lra. apply clampE_le, rnd_le. lra.
Qed.
Lemma sm_same t e z z' : Sm t e z -> Sm t e z' -> - top <= e <= top -> feq z z'.
Proof. intros S S' R. apply feq_E. split; [apply S|]. split; [apply S'|]. assert (A := sm_mono _ _ _ _ _ S S'). assert (B := sm_mono _ _ _ _ _ S' S). apply Rle_antisym; [apply A|apply B]; lra. Qed.

(** ** the computed box *)
Definition lo2 (a b : FT) : FT := if slt a b then a else b.
Definition hi2 (a b : FT) : FT := if slt a b then b else a.
Definition ea (M : matrix FT) (b : bbox FT) (i j : Fin.t 3) : FT := smul (mget M (lift34 i) (lift34 j)) (vget (pmin b) j).
Definition eb (M : matrix FT) (b : bbox FT) (i j : Fin.t 3) : FT := smul (mget M (lift34 i) (lift34 j)) (vget (pmax b) j).
Definition fstep (M : matrix FT) (b : bbox FT) (acc : Vector.t FT 4 * Vector.t FT 4) (ij : Fin.t 3 * Fin.t 3) :=
  let (i, j) := ij in (upd (fst acc) (lift34 j) (fun x => sadd x (lo2 (ea M b i j) (eb M b i j))), upd (snd acc) (lift34 j) (fun x => sadd x (hi2 (ea M b i j) (eb M b i j)))).
Lemma map_bbox_eq (M : matrix FT) (b : bbox FT) : let r := fold_left (fstep M b) (list_prod fin3 fin3) (m_col M i3, m_col M i3) in
  map_bbox M b = b_new (vec3 (vx (fst r)) (vy (fst r)) (vz (fst r))) (vec3 (vx (snd r)) (vy (snd r)) (vz (snd r))).
Proof.
  intros r. unfold map_bbox. cbv zeta. match goal with |- b_new (vec3 (vx (fst (fold_left ?g ?l ?s))) _ _) _ = _ => assert (X : fold_left g l s = r) end; [|rewrite X; reflexivity].
  unfold r. generalize (m_col M i3, m_col M i3). generalize (list_prod fin3 fin3). induction l as [|[i j] l IH]; intros st; [reflexivity|]. cbn [fold_left]. rewrite IH. f_equal.
  unfold fstep, lo2, hi2, ea, eb. match goal with |- (if ?c then _ else _) = (upd _ _ (fun _ => sadd _ (if ?d then _ else _)), _) => change d with c; destruct c end; reflexivity.
Qed.
Notation lo M b i j := (lo2 (ea M b i j) (eb M b i j)).
Notation hi M b i j := (hi2 (ea M b i j) (eb M b i j)).
Notation j0 := (@Fin.F1 2).
Notation j1 := (Fin.FS (@Fin.F1 1)).
Notation j2 := (Fin.FS (Fin.FS (@Fin.F1 0))).
Lemma map_bbox_parts (M : matrix FT) (b : bbox FT) :
  map_bbox M b = b_new
   (vec3 (fadd (fadd (fadd (mget M i0 i3) (lo M b j0 j0)) (lo M b j1 j0)) (lo M b j2 j0)) (fadd (fadd (fadd (mget M i1 i3) (lo M b j0 j1)) (lo M b j1 j1)) (lo M b j2 j1)) (fadd (fadd (fadd (mget M i2 i3) (lo M b j0 j2)) (lo M b j1 j2)) (lo M b j2 j2)))
   (vec3 (fadd (fadd (fadd (mget M i0 i3) (hi M b j0 j0)) (hi M b j1 j0)) (hi M b j2 j0)) (fadd (fadd (fadd (mget M i1 i3) (hi M b j0 j1)) (hi M b j1 j1)) (hi M b j2 j1)) (fadd (fadd (fadd (mget M i2 i3) (hi M b j0 j2)) (hi M b j1 j2)) (hi M b j2 j2))).
Proof. rewrite map_bbox_eq. reflexivity. Qed.

(** ** one axis *)
Lemma lo_zero (M : matrix FT) (b : bbox FT) A i j : fM M A -> box_finite b -> A (lift34 i) (lift34 j) = 0 -> val (lo M b i j) 0 /\ val (hi M b i j) 0.
Proof.
  intros HM HB H0. assert (K := fM_get M A (lift34 i) (lift34 j) HM). rewrite H0 in K.
  assert (P : forall q : FT, finite q -> val (smul (mget M (lift34 i) (lift34 j)) q) 0). { intros q Fq. assert (Z := val_mul_zero q _ Fq K). destruct K as [K1 K2]. assert (X := fmul_Rnd _ q K1 Fq). rewrite K2, Rmult_0_l in X. change (val (fmul (mget M (lift34 i) (lift34 j)) q) 0). apply (val_Rnd (fzero false)); [reflexivity|reflexivity|exact X]. }
  assert (Q := HB j). unfold lo2, hi2, ea, eb. destruct (slt _ _); split; apply P, Q.
Qed.
Lemma lo_hi (M : matrix FT) (b : bbox FT) A j (p : FT) : fM M A -> box_finite b -> finite p -> fle (pmin b @ j) p -> fle p (pmax b @ j) ->
  let e := E (fmul p (mget M (lift34 j) (lift34 j))) in nonnan (fmul p (mget M (lift34 j) (lift34 j))) /\ nonnan (lo M b j j) /\ nonnan (hi M b j j) /\ E (lo M b j j) <= e <= E (hi M b j j).
Proof.
  intros HM HB Fp L H e. destruct (fM_get M A (lift34 j) (lift34 j) HM) as [K1 _]. set (k := mget M (lift34 j) (lift34 j)) in *. destruct (HB j) as [F1 F2].
  assert (X := fmul_Rnd p k Fp K1). assert (Y1 := fmul_Rnd k (pmin b @ j) K1 F1). assert (Y2 := fmul_Rnd k (pmax b @ j) K1 F2).
  apply fle_E in L. apply fle_E in H. destruct L as (_ & _ & L). destruct H as (_ & _ & H). rewrite !E_B2R in L, H by assumption.
  assert (G : (E (fmul k (pmin b @ j)) <= e <= E (fmul k (pmax b @ j))) \/ (E (fmul k (pmax b @ j)) <= e <= E (fmul k (pmin b @ j)))).
  { destruct (Rle_or_lt 0 (B2R k)) as [S|S]; [left|right]; split; (eapply Rnd_mono; [eassumption|eassumption|nra]). }
  assert (N1 : nonnan (ea M b j j)) by apply Y1. assert (N2 : nonnan (eb M b j j)) by apply Y2.
  change (fmul k (pmin b @ j)) with (ea M b j j) in *. change (fmul k (pmax b @ j)) with (eb M b j j) in *.
  split; [apply X|]. unfold lo2, hi2. change (slt (ea M b j j) (eb M b j j)) with (lt_of fcmp (ea M b j j) (eb M b j j)). rewrite lt_b by assumption. destruct (Rlt_bool_spec (E (ea M b j j)) (E (eb M b j j))); (split; [assumption|]; split; [assumption|]; lra).
Qed.
Lemma sm_c0 t d y z : finite t -> nonnan d -> val y 0 -> val z 0 -> Sm t (E d) (fadd (fadd (fadd t d) y) z).
Proof. intros. apply sm_addz; [|assumption]. apply sm_addz; [|assumption]. apply sm_add; [assumption|split; auto|assumption]. Qed.
Lemma sm_c1 t d y z : finite t -> nonnan d -> val y 0 -> val z 0 -> Sm t (E d) (fadd (fadd (fadd t y) d) z).
Proof. intros. apply sm_addz; [|assumption]. apply sm_add; [assumption|apply val_add_zero; [split; auto|assumption]|assumption]. Qed.
Lemma sm_c2 t d y z : finite t -> nonnan d -> val y 0 -> val z 0 -> Sm t (E d) (fadd (fadd (fadd t y) z) d).
Proof. intros. apply sm_add; [assumption|apply val_add_zero; [apply val_add_zero; [split; auto|assumption]|assumption]|assumption]. Qed.
Lemma sm_p (t d d' w : FT) : finite t -> nonnan d' -> E d' = E d -> val w 1 -> Sm t (E d) (fdiv (fadd d' t) w).
Proof. intros Ft N K W. apply sm_div; [|assumption]. rewrite <- K. apply sm_add; [assumption|split; auto|assumption]. Qed.
Lemma same0 (d y z : FT) : nonnan d -> val y 0 -> val z 0 -> nonnan (fadd (fadd d y) z) /\ E (fadd (fadd d y) z) = E d.
Proof. intros N Y Z. destruct (add_zero d y N Y) as [[N1 E1] _]. destruct (add_zero (fadd d y) z N1 Z) as [[N2 E2] _]. split; [assumption|congruence]. Qed.
Lemma same1 (d y z : FT) : nonnan d -> val y 0 -> val z 0 -> nonnan (fadd (fadd y d) z) /\ E (fadd (fadd y d) z) = E d.
Proof. intros N Y Z. destruct (add_zero d y N Y) as [_ [N1 E1]]. destruct (add_zero (fadd y d) z N1 Z) as [[N2 E2] _]. split; [assumption|congruence]. Qed.
Lemma same2 (d y z : FT) : nonnan d -> val y 0 -> val z 0 -> nonnan (fadd (fadd y z) d) /\ E (fadd (fadd y z) d) = E d.
Proof. intros N Y Z. apply add_zero; [assumption|]. apply val_add_zero; assumption. Qed.

Notation pc p M j := (fmul (p @ j) (mget M (lift34 j) (lift34 j))).
(** the image of a point, coordinate by coordinate *)
Lemma point_sm (M : matrix FT) A (p : vec FT 3) : fM M A -> affine A -> diagonal A -> fall finite p ->
  exists q, map_point M p = Ret q /\ forall j, Sm (mget M (lift34 j) i3) (E (pc p M j)) (q @ j).
Proof.
  intros HM (A0 & A1 & A2 & A3) (D01 & D02 & D10 & D12 & D20 & D21) Fp. unfold map_point. cbv zeta. match goal with |- context [oassert (sne ?x _)] => set (w := x) end.
  assert (Z : forall i j k, A i j = 0 -> val (fmul (p @ k) (mget M i j)) 0). { intros i j k H. apply val_mul_zero; [apply Fp|]. rewrite <- H. apply fM_get. exact HM. }
  assert (W : val w 1). { unfold w. apply val_zero_add; [|rewrite <- A3; apply (fM_get M A i3 i3 HM)]. apply val_add_zero; [apply val_add_zero|]; apply Z; assumption. }
  assert (N : sne w szero = true). { unfold sne. change (negb (feqb w (fzero false)) = true). destruct (feqb w (fzero false)) eqn:Q; [|reflexivity]. exfalso. apply eqb_true in Q. destruct Q as (_ & _ & Q). destruct W as [W1 W2]. rewrite (E_B2R w W1), W2 in Q. cbn in Q. lra. }
  rewrite N. eexists. split; [reflexivity|].
  assert (NN : forall j, nonnan (pc p M j)). { intros j. destruct (fM_get M A (lift34 j) (lift34 j) HM) as [K _]. exact (proj1 (fmul_Rnd _ _ (Fp j) K)). }
  assert (FT3 : forall j : Fin.t 3, finite (mget M (lift34 j) i3)) by (intros j; apply (fM_get M A (lift34 j) i3 HM)).
  apply forall3. split; [|split].
  - destruct (same0 (pc p M j0) _ _ (NN j0) (Z i0 i1 j1 D01) (Z i0 i2 j2 D02)) as [S1 S2]. exact (sm_p _ _ _ w (FT3 j0) S1 S2 W).
  - destruct (same1 (pc p M j1) _ _ (NN j1) (Z i1 i0 j0 D10) (Z i1 i2 j2 D12)) as [S1 S2]. exact (sm_p _ _ _ w (FT3 j1) S1 S2 W).
  - destruct (same2 (pc p M j2) _ _ (NN j2) (Z i2 i0 j0 D20) (Z i2 i1 j1 D21)) as [S1 S2]. exact (sm_p _ _ _ w (FT3 j2) S1 S2 W).
Qed.
(** the corners of the mapped box *)
Lemma corner_sm (M : matrix FT) A (b : bbox FT) : fM M A -> affine A -> diagonal A -> box_finite b -> box_ordered b ->
  forall j, Sm (mget M (lift34 j) i3) (E (lo M b j j)) (pmin (map_bbox M b) @ j) /\ Sm (mget M (lift34 j) i3) (E (hi M b j j)) (pmax (map_bbox M b) @ j).
Proof.
  intros HM _ (D01 & D02 & D10 & D12 & D20 & D21) HB HO.
  assert (Zl : forall i j, A (lift34 i) (lift34 j) = 0 -> val (lo M b i j) 0) by (intros i j H; eapply lo_zero; eassumption).
  assert (Zh : forall i j, A (lift34 i) (lift34 j) = 0 -> val (hi M b i j) 0) by (intros i j H; eapply lo_zero; eassumption).
  assert (LH : forall j, nonnan (lo M b j j) /\ nonnan (hi M b j j) /\ E (lo M b j j) <= E (hi M b j j)).
  { intros j. destruct (HB j) as [F1 F2]. destruct (lo_hi M b A j (pmin b @ j) HM HB F1) as (_ & N1 & N2 & L1 & L2); [|apply HO|split; [assumption|split; [assumption|eapply Rle_trans; eassumption]]]. apply fle_E. split; [|split]; [apply nonnan_of_finite; assumption..|lra]. }
  assert (FT3 : forall j : Fin.t 3, finite (mget M (lift34 j) i3)) by (intros j; apply (fM_get M A (lift34 j) i3 HM)).
  assert (K : forall t e e' x y, Sm t e x -> Sm t e' y -> - top <= e -> e <= e' -> e' <= top -> Sm t e (nmin x y) /\ Sm t e' (nmax x y)).
  { intros t e e' x y Sx Sy R1 R2 R3. assert (L := sm_mono _ _ _ _ _ Sx Sy R1 R2 R3). destruct Sx as (N1 & X1 & X2). destruct Sy as (N2 & Y1 & Y2). destruct (nmin_E x y N1 N2) as [M1 M2]. destruct (nmax_E x y N1 N2) as [M3 M4]. rewrite Rmin_left in M2 by exact L. rewrite Rmax_right in M4 by exact L. unfold Sm. rewrite M2, M4. auto. }
  rewrite map_bbox_parts. apply forall3. split; [|split].
  - destruct (LH j0) as (N1 & N2 & L). destruct (new_at (f := f) (vec3 (fadd (fadd (fadd (mget M i0 i3) (lo M b j0 j0)) (lo M b j1 j0)) (lo M b j2 j0)) (fadd (fadd (fadd (mget M i1 i3) (lo M b j0 j1)) (lo M b j1 j1)) (lo M b j2 j1)) (fadd (fadd (fadd (mget M i2 i3) (lo M b j0 j2)) (lo M b j1 j2)) (lo M b j2 j2))) (vec3 (fadd (fadd (fadd (mget M i0 i3) (hi M b j0 j0)) (hi M b j1 j0)) (hi M b j2 j0)) (fadd (fadd (fadd (mget M i1 i3) (hi M b j0 j1)) (hi M b j1 j1)) (hi M b j2 j1)) (fadd (fadd (fadd (mget M i2 i3) (hi M b j0 j2)) (hi M b j1 j2)) (hi M b j2 j2))) j0) as [-> ->].
    apply K; [apply (sm_c0 _ (lo M b j0 j0)); [apply (FT3 j0)|assumption|apply Zl; assumption..]|apply (sm_c0 _ (hi M b j0 j0)); [apply (FT3 j0)|assumption|apply Zh; assumption..]|apply E_range|exact L|apply E_range].
  - destruct (LH j1) as (N1 & N2 & L). match goal with |- Sm _ _ (pmin (b_new ?p ?q) @ _) /\ _ => destruct (new_at p q j1) as [-> ->] end.
    apply K; [apply (sm_c1 _ (lo M b j1 j1)); [apply (FT3 j1)|assumption|apply Zl; assumption..]|apply (sm_c1 _ (hi M b j1 j1)); [apply (FT3 j1)|assumption|apply Zh; assumption..]|apply E_range|exact L|apply E_range].
  - destruct (LH j2) as (N1 & N2 & L). match goal with |- Sm _ _ (pmin (b_new ?p ?q) @ _) /\ _ => destruct (new_at p q j2) as [-> ->] end.
    apply K; [apply (sm_c2 _ (lo M b j2 j2)); [apply (FT3 j2)|assumption|apply Zl; assumption..]|apply (sm_c2 _ (hi M b j2 j2)); [apply (FT3 j2)|assumption|apply Zh; assumption..]|apply E_range|exact L|apply E_range].
Qed.
Lemma in_ordered (b : bbox FT) p : in_fbox b p -> box_ordered b.
Proof. intros H i. destruct (H i) as [H1 H2]. apply fle_E in H1. apply fle_E in H2. apply fle_E. split; [apply H1|]. split; [apply H2|]. apply Rle_trans with (E (p @ i)); [apply H1|apply H2]. Qed.
Theorem map_encloses (M : matrix FT) A (b : bbox FT) p : fM M A -> affine A -> diagonal A -> box_finite b -> fall finite p -> in_fbox b p ->
  exists q, map_point M p = Ret q /\ in_fbox (map_bbox M b) q.
Proof.
  intros HM HA HD HB Fp HI. destruct (point_sm M A p HM HA HD Fp) as (q & Q & S). exists q. split; [exact Q|]. intros j. specialize (S j).
  destruct (corner_sm M A b HM HA HD HB (in_ordered b p HI) j) as [S1 S2]. destruct (lo_hi M b A j (p @ j) HM HB (Fp j) (proj1 (HI j)) (proj2 (HI j))) as (_ & _ & _ & L1 & L2).
  assert (R1 := E_range (lo M b j j)). assert (R2 := E_range (hi M b j j)). assert (R3 := E_range (pc p M j)).
  split; apply fle_E.
  - split; [exact (proj1 S1)|]. split; [exact (proj1 S)|]. exact (sm_mono _ _ _ _ _ S1 S (proj1 R1) L1 (proj2 R3)).
  - split; [exact (proj1 S)|]. split; [exact (proj1 S2)|]. exact (sm_mono _ _ _ _ _ S S2 (proj1 R3) L2 (proj2 R2)).
Qed.
Theorem map_tight (M : matrix FT) A (b : bbox FT) : fM M A -> affine A -> diagonal A -> box_finite b -> box_ordered b -> forall j,
  exists q1 q2, map_point M (pmin b) = Ret q1 /\ map_point M (pmax b) = Ret q2 /\
   ((feq (pmin (map_bbox M b) @ j) (q1 @ j) /\ feq (pmax (map_bbox M b) @ j) (q2 @ j)) \/ (feq (pmin (map_bbox M b) @ j) (q2 @ j) /\ feq (pmax (map_bbox M b) @ j) (q1 @ j))).
Proof.
  intros HM HA HD HB HO j. destruct (point_sm M A (pmin b) HM HA HD (fun i => proj1 (HB i))) as (q1 & Q1 & S1). destruct (point_sm M A (pmax b) HM HA HD (fun i => proj2 (HB i))) as (q2 & Q2 & S2). exists q1, q2. split; [exact Q1|]. split; [exact Q2|].
  destruct (corner_sm M A b HM HA HD HB HO j) as [C1 C2]. specialize (S1 j). specialize (S2 j). destruct (fM_get M A (lift34 j) (lift34 j) HM) as [K1 _]. destruct (HB j) as [F1 F2].
  assert (E1 : E (pc (pmin b) M j) = E (ea M b j j)). { destruct (fmul_Rnd _ _ F1 K1) as [_ ->]. assert (X := proj2 (fmul_Rnd _ _ K1 F1)). change (E (ea M b j j)) with (E (fmul (mget M (lift34 j) (lift34 j)) (pmin b @ j))). rewrite X. rewrite Rmult_comm. reflexivity. }
  assert (E2 : E (pc (pmax b) M j) = E (eb M b j j)). { destruct (fmul_Rnd _ _ F2 K1) as [_ ->]. assert (X := proj2 (fmul_Rnd _ _ K1 F2)). change (E (eb M b j j)) with (E (fmul (mget M (lift34 j) (lift34 j)) (pmax b @ j))). rewrite X. rewrite Rmult_comm. reflexivity. }
  rewrite E1 in S1. rewrite E2 in S2. unfold lo2, hi2 in *. destruct (slt (ea M b j j) (eb M b j j)); [left|right]; split; [exact (sm_same _ _ _ _ C1 S1 (E_range _))|exact (sm_same _ _ _ _ C2 S2 (E_range _))|exact (sm_same _ _ _ _ C1 S2 (E_range _))|exact (sm_same _ _ _ _ C2 S1 (E_range _))].
Qed.
Theorem map_isotone (M : matrix FT) A (a b : bbox FT) : fM M A -> affine A -> diagonal A -> box_finite a -> box_finite b -> box_ordered a -> box_within a b -> box_within (map_bbox M a) (map_bbox M b).
Proof.
  intros HM HA HD Fa Fb HO HW j. destruct (map_tight M A a HM HA HD Fa HO j) as (q1 & q2 & Q1 & Q2 & T).
  assert (I1 : in_fbox b (pmin a)). { intros i. destruct (HW i) as [W1 W2]. specialize (HO i). split; [exact W1|]. apply fle_E in HO. apply fle_E in W2. apply fle_E. split; [tauto|]. split; [tauto|]. apply Rle_trans with (E (pmax a @ i)); tauto. }
  assert (I2 : in_fbox b (pmax a)). { intros i. destruct (HW i) as [W1 W2]. specialize (HO i). split; [|exact W2]. apply fle_E in HO. apply fle_E in W1. apply fle_E. split; [tauto|]. split; [tauto|]. apply Rle_trans with (E (pmin a @ i)); tauto. }
  destruct (map_encloses M A b (pmin a) HM HA HD Fb (fun i => proj1 (Fa i)) I1) as (r1 & R1 & J1). destruct (map_encloses M A b (pmax a) HM HA HD Fb (fun i => proj2 (Fa i)) I2) as (r2 & R2 & J2).
  rewrite Q1 in R1. injection R1 as <-. rewrite Q2 in R2. injection R2 as <-. specialize (J1 j). specialize (J2 j). rewrite !fle_E in *. rewrite !feq_E in T. destruct J1 as [(A1 & A2 & A3) (A4 & A5 & A6)]. destruct J2 as [(B1 & B2 & B3) (B4 & B5 & B6)].
  destruct T as [[(T1 & T2 & T3) (T4 & T5 & T6)]|[(T1 & T2 & T3) (T4 & T5 & T6)]]; rewrite T3, T6; auto 10.
Qed.
End F.
