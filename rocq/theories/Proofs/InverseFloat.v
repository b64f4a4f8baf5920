(** Matrix4x4::inverse in f32/f64. *)
From Coq Require Import ZArith Reals Bool Lra Lia FunctionalExtensionality.
From Coq Require Vector Fin.
From Flocq Require Import Core BinarySingleNaN.
From Verif.Model Require Import FloatBase Scalar Float Interval Outcome Vec Transform XReal.
From Verif Require Import Spec SpecGeom SpecShape SpecTrig SpecError SpecQuad SpecInverse.
From Verif.Proofs Require Import BitsLemmas FloatLemmas ScalarProofs XRealLemmas VectorFloat MatrixProofs TransformProofs MatrixThms TransformFloat SlabFloat VectorErr MapErr CameraFloat QuadFloat SphereNear RotFloat PerspFloat.
Open Scope R_scope.
Notation "v @ i" := (Vector.nth v i) (at level 20, only parsing).

Section I.
Context {f : fmt} {m : libm f}.
Notation FT := (float f).
Notation u := (unit_roundoff f).
Notation eta := (smallest_float f / 2).
(** [x] is [r] with error [k] roundings of the size [s] of the terms that make up [r] *)
Definition er (k : R) (l h : Z) (x : FT) (r s : R) : Prop :=
  finite x /\ Rabs r <= s /\ Rabs (B2R x - r) <= k * u * s /\ (s = 0 \/ bpow radix2 (- l) <= s) /\ s <= bpow radix2 h.
Lemma er_le k l h k' l' h' x r s : er k l h x r s -> k <= k' -> (l <= l')%Z -> (h <= h')%Z -> er k' l' h' x r s.
Proof.
  intros (F & R & E & L & H) K L' H'. assert (U := u_q (f := f)). assert (S0 : 0 <= s) by (apply Rle_trans with (2 := R), Rabs_pos).
  split; [exact F|]. split; [exact R|]. split; [|split].
  - apply Rle_trans with (1 := E). apply Rmult_le_compat_r; [exact S0|]. apply Rmult_le_compat_r; lra.
  - destruct L as [L|L]; [left; exact L|right]. apply Rle_trans with (2 := L), bpow_le. lia.
  - apply Rle_trans with (1 := H), bpow_le. lia.
Qed.
Lemma er_neg k l h x r s : er k l h x r s -> er k l h (fneg x) (- r) s.
Proof.
  intros (F & R & E & L & H). split; [rewrite fneg_finite; exact F|]. rewrite fneg_B2R, Rabs_Ropp. split; [exact R|]. split; [|auto].
  replace (- B2R x - - r) with (- (B2R x - r)) by ring. rewrite Rabs_Ropp. exact E.
Qed.
Lemma er_bound k l h x r s : er k l h x r s -> 0 <= k <= 20 -> Rabs (B2R x) <= (1 + / 10000) * s.
Proof.
  intros (F & R & E & L & H) K. assert (U := u_q (f := f)). assert (S0 : 0 <= s) by (apply Rle_trans with (2 := R), Rabs_pos).
  replace (B2R x) with ((B2R x - r) + r) by ring. eapply Rle_trans; [apply Rabs_triang|].
  assert (k * u * s <= / 10000 * s) by (apply Rmult_le_compat_r; [exact S0|]; apply Rle_trans with (20 * / 1000000); [apply Rmult_le_compat; lra|lra]). lra.
Qed.
Lemma eta_small s : bpow radix2 (-100) <= s -> eta <= / 1000 * u * s.
Proof.
  intros S. assert (EU := eta_u (f := f)). assert (U := u_q (f := f)). apply Rle_trans with (1 := proj2 EU).
  assert (B : / 10 ^ 32 <= bpow radix2 (-100)). { change (-100)%Z with (- (100))%Z. rewrite bpow_opp. apply Rinv_le_contravar; [apply bpow_gt_0|]. change (bpow radix2 100) with (IZR (Z.pow_pos 2 100)). rewrite pow_IZR. apply IZR_le. vm_compute. discriminate. }
  replace (/ 1000 * u * s) with (/ 1000 * s * u) by ring. apply Rmult_le_compat_r; [lra|]. apply Rle_trans with (/ 1000 * / 10 ^ 32); [|apply Rmult_le_compat_l; lra]. lra.
Qed.
Lemma er_mul k k' l l' h h' x y r r' s s' : er k l h x r s -> er k' l' h' y r' s' -> 0 <= k <= 20 -> 0 <= k' <= 20 -> (l + l' <= 100)%Z -> (h + h' <= 110)%Z ->
  er (k + k' + 1 + / 100) (l + l') (h + h') (fmul x y) (r * r') (s * s').
Proof.
  intros A B K K' L1 H1. assert (BX := er_bound _ _ _ _ _ _ A K). assert (BY := er_bound _ _ _ _ _ _ B K'). destruct A as (F & R & E & L & H). destruct B as (F' & R' & E' & L' & H').
  assert (U := u_q (f := f)). assert (S0 : 0 <= s) by (apply Rle_trans with (2 := R), Rabs_pos). assert (S1 : 0 <= s') by (apply Rle_trans with (2 := R'), Rabs_pos). assert (P0 : 0 <= s * s') by (apply Rmult_le_pos; assumption).
  assert (HS : s * s' <= bpow radix2 (h + h')) by (rewrite bpow_plus; apply Rmult_le_compat; assumption).
  assert (LS : s * s' = 0 \/ bpow radix2 (- (l + l')) <= s * s').
  { destruct L as [->|L]; [left; ring|]. destruct L' as [->|L']; [left; ring|]. right. replace (- (l + l'))%Z with (- l + - l')%Z by ring. rewrite bpow_plus. apply Rmult_le_compat; try assumption; apply bpow_ge_0. }
  assert (PB : Rabs (B2R x * B2R y) <= (1 + / 4000) * (s * s')).
  { rewrite Rabs_mult. apply Rle_trans with ((1 + / 10000) * s * ((1 + / 10000) * s')); [apply Rmult_le_compat; try apply Rabs_pos; assumption|]. replace ((1 + / 10000) * s * ((1 + / 10000) * s')) with ((1 + / 10000) * (1 + / 10000) * (s * s')) by ring. apply Rmult_le_compat_r; lra. }
  assert (HB : Rabs (B2R x * B2R y) <= bpow radix2 120).
  { apply Rle_trans with (1 := PB). apply Rle_trans with (2 * bpow radix2 110); [apply Rmult_le_compat; try lra; apply Rle_trans with (1 := HS), bpow_le; lia|]. change 2 with (bpow radix2 1). rewrite <- bpow_plus. apply bpow_le. lia. }
  assert (EX : Rabs (B2R x * B2R y - r * r') <= (k + k' + / 400) * u * (s * s')).
  { replace (B2R x * B2R y - r * r') with ((B2R x - r) * B2R y + r * (B2R y - r')) by ring. eapply Rle_trans; [apply Rabs_triang|]. rewrite !Rabs_mult.
    assert (T1 : Rabs (B2R x - r) * Rabs (B2R y) <= k * u * s * ((1 + / 10000) * s')) by (apply Rmult_le_compat; try apply Rabs_pos; assumption).
    assert (T2 : Rabs r * Rabs (B2R y - r') <= s * (k' * u * s')) by (apply Rmult_le_compat; try apply Rabs_pos; assumption).
    assert (T3 : k * u * (1 + / 10000) * (s * s') <= (k + / 400) * u * (s * s')); [|lra].
    apply Rmult_le_compat_r; [exact P0|]. replace (k * u * (1 + / 10000)) with (k * (1 + / 10000) * u) by ring. apply Rmult_le_compat_r; lra. }
  assert (RM := fmul_Rnd _ _ F F'). destruct (big_fin (m := m) _ _ RM HB) as [FM EM]. split; [exact FM|].
  split; [rewrite Rabs_mult; apply Rmult_le_compat; try apply Rabs_pos; assumption|]. split; [|split; assumption].
  destruct LS as [Z|LS].
  - assert (XY : B2R x * B2R y = 0) by (destruct (Req_dec (B2R x * B2R y) 0) as [Q|Q]; [exact Q|]; apply Rabs_pos_lt in Q; rewrite Z in PB; lra).
    destruct (rel_fin (m := m) _ _ RM) as [_ (e & _ & V)]; [left; exact XY|rewrite XY, Rabs_R0; apply bpow_ge_0|]. rewrite V, XY, Rmult_0_l.
    rewrite XY in EX. rewrite Z in *. rewrite Rmult_0_r in *. exact EX.
  - assert (ET := eta_small (s * s') ltac:(apply Rle_trans with (2 := LS), bpow_le; lia)).
    replace (B2R (fmul x y) - r * r') with ((B2R (fmul x y) - B2R x * B2R y) + (B2R x * B2R y - r * r')) by ring. eapply Rle_trans; [apply Rabs_triang|].
    assert (u * Rabs (B2R x * B2R y) <= u * ((1 + / 4000) * (s * s'))) by (apply Rmult_le_compat_l; lra). assert (0 <= u * (s * s')) by (apply Rmult_le_pos; lra). lra.
Qed.
Lemma er_sum k l h x y r r' s s' z : er k l h x r s -> er k l h y r' s' -> 0 <= k <= 19 -> (h <= 110)%Z ->
  (finite z /\ exists e, Rabs e <= u /\ B2R z = (B2R x + B2R y) * (1 + e)) ->
  er (k + 1 + / 100) l (h + 1) z (r + r') (s + s').
Proof.
  intros A B K HH [FZ (e & E & V)]. assert (BX := er_bound _ _ _ _ _ _ A ltac:(lra)). assert (BY := er_bound _ _ _ _ _ _ B ltac:(lra)). destruct A as (F & R & EX & L & H). destruct B as (F' & R' & EY & L' & H').
  assert (U := u_q (f := f)). assert (S0 : 0 <= s) by (apply Rle_trans with (2 := R), Rabs_pos). assert (S1 : 0 <= s') by (apply Rle_trans with (2 := R'), Rabs_pos).
  split; [exact FZ|]. split; [eapply Rle_trans; [apply Rabs_triang|]; lra|]. split; [|split].
  - rewrite V. replace ((B2R x + B2R y) * (1 + e) - (r + r')) with ((B2R x - r) + (B2R y - r') + (B2R x + B2R y) * e) by ring. eapply Rle_trans; [apply Rabs_triang|]. rewrite Rabs_mult.
    assert (T1 : Rabs (B2R x - r + (B2R y - r')) <= k * u * s + k * u * s') by (eapply Rle_trans; [apply Rabs_triang|]; lra).
    assert (T2 : Rabs (B2R x + B2R y) <= (1 + / 10000) * (s + s')) by (eapply Rle_trans; [apply Rabs_triang|]; lra).
    assert (T3 : Rabs (B2R x + B2R y) * Rabs e <= (1 + / 10000) * (s + s') * u) by (apply Rmult_le_compat; try apply Rabs_pos; assumption).
    assert (0 <= u * (s + s')) by (apply Rmult_le_pos; lra). lra.
  - destruct L as [->|L]; [rewrite Rplus_0_l; exact L'|right; lra].
  - rewrite bpow_plus. change (bpow radix2 1) with 2. lra.
Qed.
Lemma sum_fin k l h x y r r' s s' : er k l h x r s -> er k l h y r' s' -> 0 <= k <= 19 -> (h <= 110)%Z -> Rabs (B2R x) + Rabs (B2R y) <= bpow radix2 120.
Proof.
  intros A B K HH. assert (BX := er_bound _ _ _ _ _ _ A ltac:(lra)). assert (BY := er_bound _ _ _ _ _ _ B ltac:(lra)). destruct A as (_ & _ & _ & _ & H). destruct B as (_ & _ & _ & _ & H').
  assert (Q : bpow radix2 h <= bpow radix2 110) by (apply bpow_le; lia). assert (Q2 : 4 * bpow radix2 110 <= bpow radix2 120) by (change 4 with (bpow radix2 2); rewrite <- bpow_plus; apply bpow_le; lia).
  assert (P := bpow_gt_0 radix2 110). lra.
Qed.
Lemma er_add k l h x y r r' s s' : er k l h x r s -> er k l h y r' s' -> 0 <= k <= 19 -> (h <= 110)%Z -> er (k + 1 + / 100) l (h + 1) (fadd x y) (r + r') (s + s').
Proof.
  intros A B K H. apply (er_sum _ _ _ x y); auto. apply (add_rel (m := m)); [apply A|apply B|]. eapply Rle_trans; [apply Rabs_triang|]. eapply sum_fin; eassumption.
Qed.
Lemma er_sub k l h x y r r' s s' : er k l h x r s -> er k l h y r' s' -> 0 <= k <= 19 -> (h <= 110)%Z -> er (k + 1 + / 100) l (h + 1) (fsub x y) (r - r') (s + s').
Proof.
  intros A B K H. apply (er_sum _ _ _ x (fneg y)); auto; [apply er_neg; exact B|]. rewrite fneg_B2R. fold (B2R x - B2R y).
  assert (BB : Rabs (B2R x - B2R y) <= bpow radix2 120) by (unfold Rminus; eapply Rle_trans; [apply Rabs_triang|]; rewrite Rabs_Ropp; eapply sum_fin; eassumption).
  destruct (big_fin (m := m) _ _ (fsub_fadd x y (proj1 A) (proj1 B)) BB) as [F _]. split; [exact F|]. apply rel_form; [apply u_q|]. apply sub_rel; [apply A|apply B|exact F].
Qed.

Lemma er_base (x : FT) : finite x -> B2R x = 0 \/ / 4096 <= Rabs (B2R x) <= 4096 -> er 0 12 12 x (B2R x) (Rabs (B2R x)).
Proof.
  intros F S. assert (U := u_q (f := f)). split; [exact F|]. split; [lra|]. split; [rewrite Rminus_diag_eq, Rabs_R0 by reflexivity; assert (Q := Rabs_pos (B2R x)); lra|].
  change (bpow radix2 (-(12))) with (/ 4096). change (bpow radix2 12) with 4096. destruct S as [->|S]; [rewrite Rabs_R0; lra|lra].
Qed.
Definition pe9 (a b c d e f g h i : R) : R := a * (e * i + f * h) + b * (d * i + f * g) + c * (d * h + e * g).
Notation A := Rabs.
Definition bs (x : FT) : Prop := er 0 12 12 x (B2R x) (Rabs (B2R x)).
Lemma er_m33 (a b c d e g h i j : FT) : bs a -> bs b -> bs c -> bs d -> bs e -> bs g -> bs h -> bs i -> bs j ->
  er (51 / 10) 36 39 (m33 a b c d e g h i j) (mi (B2R a) (B2R b) (B2R c) (B2R d) (B2R e) (B2R g) (B2R h) (B2R i) (B2R j))
    (pe9 (A (B2R a)) (A (B2R b)) (A (B2R c)) (A (B2R d)) (A (B2R e)) (A (B2R g)) (A (B2R h)) (A (B2R i)) (A (B2R j))).
Proof.
  unfold bs. intros Ha Hb Hc Hd He Hg Hh Hi Hj.
  assert (M2 : forall x y z w, er 0 12 12 x (B2R x) (A (B2R x)) -> er 0 12 12 y (B2R y) (A (B2R y)) -> er 0 12 12 z (B2R z) (A (B2R z)) -> er 0 12 12 w (B2R w) (A (B2R w)) ->
    er (202 / 100) 24 25 (fsub (fmul x y) (fmul z w)) (B2R x * B2R y - B2R z * B2R w) (A (B2R x) * A (B2R y) + A (B2R z) * A (B2R w))).
  { intros x y z w Hx Hy Hz Hw. eapply er_le; [eapply er_sub; [exact (er_mul _ _ _ _ _ _ _ _ _ _ _ _ Hx Hy ltac:(lra) ltac:(lra) ltac:(lia) ltac:(lia))|exact (er_mul _ _ _ _ _ _ _ _ _ _ _ _ Hz Hw ltac:(lra) ltac:(lra) ltac:(lia) ltac:(lia))|lra|lia]|lra|lia|lia]. }
  assert (M3 : forall v x y z w, er 0 12 12 v (B2R v) (A (B2R v)) -> er 0 12 12 x (B2R x) (A (B2R x)) -> er 0 12 12 y (B2R y) (A (B2R y)) -> er 0 12 12 z (B2R z) (A (B2R z)) -> er 0 12 12 w (B2R w) (A (B2R w)) ->
    er (303 / 100) 36 37 (fmul v (fsub (fmul x y) (fmul z w))) (B2R v * (B2R x * B2R y - B2R z * B2R w)) (A (B2R v) * (A (B2R x) * A (B2R y) + A (B2R z) * A (B2R w)))).
  { intros v x y z w Hv Hx Hy Hz Hw. eapply er_le; [exact (er_mul _ _ _ _ _ _ _ _ _ _ _ _ Hv (M2 x y z w Hx Hy Hz Hw) ltac:(lra) ltac:(lra) ltac:(lia) ltac:(lia))|lra|lia|lia]. }
  unfold m33, mi, pe9. eapply er_le; [eapply er_add; [eapply er_sub; [apply M3; assumption|apply M3; assumption|lra|lia]|eapply er_le; [apply M3; assumption|lra|lia|lia]|lra|lia]|lra|lia|lia].
Qed.

Lemma mat_eta (M : matrix FT) : M = m4 (mrow (mget M i0 i0) (mget M i0 i1) (mget M i0 i2) (mget M i0 i3)) (mrow (mget M i1 i0) (mget M i1 i1) (mget M i1 i2) (mget M i1 i3))
  (mrow (mget M i2 i0) (mget M i2 i1) (mget M i2 i2) (mget M i2 i3)) (mrow (mget M i3 i0) (mget M i3 i1) (mget M i3 i2) (mget M i3 i3)).
Proof.
  apply (proj1 (Vector.eq_nth_iff _ _ _ _)). intros i ? <-. apply (proj1 (Vector.eq_nth_iff _ _ _ _)). intros j ? <-. revert i j. refine (fin4_case _ _ _ _ _); refine (fin4_case _ _ _ _ _); reflexivity.
Qed.
Definition vals (M : matrix FT) : rmat := fun i j => B2R (mget M i j).
Lemma inv_parts (M : matrix FT) : (forall i j, finite (mget M i j)) -> mid_entries (vals M) -> exists dt : FT, er (92 / 10) 48 54 dt (rdet (vals M)) (rperm (absM (vals M))) /\
  forall i j, exists c, er (51 / 10) 36 39 c (adj (vals M) i j) (rperm (minor (absM (vals M)) j i)) /\ mget (m_inverse M) i j = fmul c (fdiv (sone : FT) dt).
Proof.
  intros F S. assert (BS : forall i j, bs (mget M i j)) by (intros i j; apply er_base; [apply F|apply S]).
  assert (IG := inv_gen (mget M i0 i0) (mget M i0 i1) (mget M i0 i2) (mget M i0 i3) (mget M i1 i0) (mget M i1 i1) (mget M i1 i2) (mget M i1 i3) (mget M i2 i0) (mget M i2 i1) (mget M i2 i2) (mget M i2 i3) (mget M i3 i0) (mget M i3 i1) (mget M i3 i2) (mget M i3 i3)).
  cbv zeta in IG. rewrite <- (mat_eta M) in IG. match type of IG with context [fdiv _ ?d] => exists d; set (dt := d) in * end. split.
  - assert (M4 : forall x a b c d e g h i j, bs x -> bs a -> bs b -> bs c -> bs d -> bs e -> bs g -> bs h -> bs i -> bs j ->
      er (612 / 100) 48 51 (fmul x (m33 a b c d e g h i j)) (B2R x * mi (B2R a) (B2R b) (B2R c) (B2R d) (B2R e) (B2R g) (B2R h) (B2R i) (B2R j)) (A (B2R x) * pe9 (A (B2R a)) (A (B2R b)) (A (B2R c)) (A (B2R d)) (A (B2R e)) (A (B2R g)) (A (B2R h)) (A (B2R i)) (A (B2R j)))).
    { intros x a b c d e g h i j Hx Ha Hb Hc Hd He Hg Hh Hi Hj. eapply er_le; [exact (er_mul _ _ _ _ _ _ _ _ _ _ _ _ Hx (er_m33 a b c d e g h i j Ha Hb Hc Hd He Hg Hh Hi Hj) ltac:(lra) ltac:(lra) ltac:(lia) ltac:(lia))|lra|lia|lia]. }
    unfold dt. match goal with |- er _ _ _ (fsub (fadd (fsub ?a ?b) ?c) ?d) _ _ => assert (QA := er_sub _ _ _ a b _ _ _ _ (M4 _ _ _ _ _ _ _ _ _ _ (BS _ _) (BS _ _) (BS _ _) (BS _ _) (BS _ _) (BS _ _) (BS _ _) (BS _ _) (BS _ _) (BS _ _)) (M4 _ _ _ _ _ _ _ _ _ _ (BS _ _) (BS _ _) (BS _ _) (BS _ _) (BS _ _) (BS _ _) (BS _ _) (BS _ _) (BS _ _) (BS _ _)) ltac:(lra) ltac:(lia));
      assert (QC := M4 _ _ _ _ _ _ _ _ _ _ (BS i0 i2) (BS i1 i0) (BS i1 i1) (BS i1 i3) (BS i2 i0) (BS i2 i1) (BS i2 i3) (BS i3 i0) (BS i3 i1) (BS i3 i3));
      assert (QD := M4 _ _ _ _ _ _ _ _ _ _ (BS i0 i3) (BS i1 i0) (BS i1 i1) (BS i1 i2) (BS i2 i0) (BS i2 i1) (BS i2 i2) (BS i3 i0) (BS i3 i1) (BS i3 i2)) end.
    assert (QE := er_add _ _ _ _ _ _ _ _ _ QA (er_le _ _ _ (612 / 100 + 1 + / 100) 48 (51 + 1) _ _ _ QC ltac:(lra) ltac:(lia) ltac:(lia)) ltac:(lra) ltac:(lia)).
    assert (QF := er_sub _ _ _ _ _ _ _ _ _ QE (er_le _ _ _ (612 / 100 + 1 + / 100 + 1 + / 100) 48 (51 + 1 + 1) _ _ _ QD ltac:(lra) ltac:(lia) ltac:(lia)) ltac:(lra) ltac:(lia)).
    match type of QF with er _ _ _ _ ?r ?s => replace (rdet (vals M)) with r; [replace (rperm (absM (vals M))) with s|] end.
    + eapply er_le; [exact QF|lra|lia|lia].
    + unfold pe9. cbn. unfold absM, vals, i0, i1, i2, i3; cbn. ring.
    + rewrite rdet_det4. unfold det4. undet. unfold vals. ring.
  - rewrite IG.
    assert (Q9 : forall a b c d e g h i j r s, bs a -> bs b -> bs c -> bs d -> bs e -> bs g -> bs h -> bs i -> bs j ->
      r = mi (B2R a) (B2R b) (B2R c) (B2R d) (B2R e) (B2R g) (B2R h) (B2R i) (B2R j) -> s = pe9 (A (B2R a)) (A (B2R b)) (A (B2R c)) (A (B2R d)) (A (B2R e)) (A (B2R g)) (A (B2R h)) (A (B2R i)) (A (B2R j)) ->
      er (51 / 10) 36 39 (m33 a b c d e g h i j) r s /\ er (51 / 10) 36 39 (fneg (m33 a b c d e g h i j)) (- r) s).
    { intros a b c d e g h i j r s Ha Hb Hc Hd He Hg Hh Hi Hj -> ->. assert (Q := er_m33 a b c d e g h i j Ha Hb Hc Hd He Hg Hh Hi Hj). split; [exact Q|apply er_neg, Q]. }
    refine (fin4_case _ _ _ _ _); refine (fin4_case _ _ _ _ _); (eexists; split; [|reflexivity]; cbn [adj sel4 Fin.caseS' i0 i1 i2 i3]; first [refine (proj1 (Q9 _ _ _ _ _ _ _ _ _ _ _ (BS _ _) (BS _ _) (BS _ _) (BS _ _) (BS _ _) (BS _ _) (BS _ _) (BS _ _) (BS _ _) eq_refl _))|refine (proj2 (Q9 _ _ _ _ _ _ _ _ _ _ _ (BS _ _) (BS _ _) (BS _ _) (BS _ _) (BS _ _) (BS _ _) (BS _ _) (BS _ _) (BS _ _) eq_refl _))]; unfold pe9, minor; cbn; unfold absM, vals, i0, i1, i2, i3; cbn; ring).
Qed.

Lemma prec60 : (prec f <= 60)%Z. Proof. destruct f; vm_compute; discriminate. Qed.
Lemma wide_fin (z : FT) r : Rnd z r -> Rabs r <= bpow radix2 (83 + prec f) -> finite z /\ Rabs (B2R z - r) <= u * Rabs r + eta.
Proof.
  intros R K. assert (F : finite z).
  { destruct R as [NN E0]. apply finite_of_range; [exact NN|]. rewrite E0.
    assert (T : bpow radix2 (83 + prec f) < bpow radix2 (emax f)) by (apply bpow_lt; destruct f; vm_compute; reflexivity).
    assert (G : Rabs (rndf f r) <= bpow radix2 (83 + prec f)).
    { apply abs_round_le_generic; [apply valid_fx|apply valid_rnd_N| |exact K]. apply generic_format_bpow. destruct f; vm_compute; discriminate. }
    apply Rabs_le_inv in G. rewrite clampE_range; lra. }
  split; [exact F|]. rewrite (Rnd_finite _ _ R F). apply round_err.
Qed.
Lemma fM_vals (M : matrix FT) B : fM M B -> (forall i j, finite (mget M i j)) /\ B = vals M.
Proof. intros H. split; [intros i j; apply H|]. apply functional_extensionality. intros i. apply functional_extensionality. intros j. symmetry. apply H. Qed.
Lemma inv_float (M : matrix FT) B C : fM M B -> mid_entries B -> rdet B <> 0 -> 32 * u * cancellation B <= 1 -> mutually_inverse B C ->
  forall i j, finite (mget (m_inverse M) i j) /\ Rabs (B2R (mget (m_inverse M) i j) - C i j) <= 24 * u * cancellation B * entry_size B i j.
Proof.
  intros FM S ND HC MI i j. destruct (fM_vals M B FM) as [F EB]. subst B. set (B := vals M) in *.
  assert (EC : C i j = adj B i j * (1 / rdet B)). { rewrite rdet_det4 in ND |- *. destruct MI as [_ MI]. exact (inverse_unique B C (rinv B) MI (rinv_r B ND) i j). }
  rewrite EC. destruct (inv_parts M F S) as (dt & ED & EA). fold B in ED, EA. destruct (EA i j) as (c & EC' & ->). clear EA EC MI.
  unfold cancellation, entry_size in *. set (D := rdet B) in *. set (P := rperm (absM B)) in *. set (Q := rperm (minor (absM B) j i)) in *. set (a := adj B i j) in *. clearbody D P Q a.
  assert (U := u_q (f := f)). assert (BC := er_bound _ _ _ _ _ _ EC' ltac:(lra)). destruct ED as (Fd & RD & EDD & LD & HD). destruct EC' as (Fc & RC & ECC & LC & HCC).
  assert (AD : 0 < Rabs D) by (apply Rabs_pos_lt, ND). assert (ID : 0 < / Rabs D) by (apply Rinv_0_lt_compat, AD).
  set (k := P / Rabs D) in *. assert (K1 : 1 <= k). { unfold k. apply Rmult_le_reg_r with (Rabs D); [exact AD|]. unfold Rdiv. rewrite Rmult_assoc, Rinv_l by lra. lra. }
  assert (PK : P = k * Rabs D) by (unfold k; field; lra).
  assert (PL : bpow radix2 (-48) <= P) by (destruct LD as [LD|LD]; [lra|exact LD]).
  (* the determinant *)
  set (d := (B2R dt - D) / D). assert (VD : B2R dt = D * (1 + d)) by (unfold d; field; exact ND).
  assert (Hd : Rabs d <= 92 / 10 * u * k). { unfold d, Rdiv. rewrite Rabs_mult, Rabs_inv. apply Rle_trans with (92 / 10 * u * P * / Rabs D); [apply Rmult_le_compat_r; lra|]. unfold k. right. field. lra. }
  assert (Hd3 : Rabs d <= 3 / 10) by lra. assert (D3 := Rabs_le_inv _ _ Hd3).
  assert (I1 : / 2 <= / (1 + d) <= 143 / 100). { split; apply Rmult_le_reg_r with (1 + d); try lra; rewrite Rinv_l by lra; lra. }
  assert (NT : B2R dt <> 0) by (rewrite VD; intros Z; apply Rmult_integral in Z; lra).
  assert (V1 := val_one (f := f)). destruct V1 as [F1 V1].
  assert (RDV := fdiv_Rnd _ _ F1 Fd NT). rewrite V1, VD in RDV.
  (* sizes *)
  assert (DH : Rabs D <= bpow radix2 54) by lra.
  assert (DL : 32 * u * P <= Rabs D). { rewrite PK. replace (32 * u * (k * Rabs D)) with (32 * u * k * Rabs D) by ring. rewrite <- (Rmult_1_l (Rabs D)) at 2. apply Rmult_le_compat_r; lra. }
  assert (DL2 : bpow radix2 (- (43 + prec f)) <= Rabs D). { apply Rle_trans with (2 := DL). replace (- (43 + prec f))%Z with (5 + - prec f + -48)%Z by ring. rewrite !bpow_plus. change (bpow radix2 5) with 32. apply Rmult_le_compat_l; [|exact PL]. unfold unit_roundoff. assert (T := bpow_ge_0 radix2 (- prec f)). lra. }
  assert (IH : / Rabs D <= bpow radix2 (43 + prec f)). { replace (43 + prec f)%Z with (- - (43 + prec f))%Z by ring. rewrite bpow_opp. apply Rinv_le_contravar; [apply bpow_gt_0|exact DL2]. }
  assert (IL : bpow radix2 (-54) <= / Rabs D). { change (-54)%Z with (- (54))%Z. rewrite bpow_opp. apply Rinv_le_contravar; [exact AD|exact DH]. }
  assert (E0 : 1 / (D * (1 + d)) = / D * / (1 + d)) by (field; split; [lra|exact ND]). rewrite E0 in RDV.
  assert (A0 : Rabs (/ D * / (1 + d)) = / Rabs D * / (1 + d)) by (rewrite Rabs_mult, Rabs_inv, (Rabs_pos_eq (/ (1 + d))) by lra; reflexivity).
  destruct (rel_fin (m := m) _ _ RDV) as [FI (e & E & VI)].
  { right. rewrite A0. apply Rle_trans with (bpow radix2 (-54) * / 2); [change (/ 2) with (bpow radix2 (-1)); rewrite <- bpow_plus; apply bpow_le; lia|apply Rmult_le_compat; try lra; apply bpow_ge_0]. }
  { rewrite A0. apply Rle_trans with (bpow radix2 (43 + prec f) * 2); [apply Rmult_le_compat; lra|]. change 2 with (bpow radix2 1). rewrite <- bpow_plus. apply bpow_le. assert (PP : (prec f <= 60)%Z) by exact prec60. lia. }
  set (di := fdiv (sone : FT) dt) in *. clearbody di. apply Rabs_le_inv in E as E2.
  assert (BI : Rabs (B2R di) <= 1431 / 1000 * / Rabs D). { rewrite VI, Rabs_mult, A0. replace (1431 / 1000 * / Rabs D) with (/ Rabs D * (143 / 100) * (1431 / 1430)) by (field; lra). apply Rmult_le_compat; [apply Rmult_le_pos; lra|apply Rabs_pos|apply Rmult_le_compat_l; lra|apply Rabs_le; lra]. }
  assert (Q0 : 0 <= Q) by (apply Rle_trans with (2 := RC), Rabs_pos).
  set (t := Q / Rabs D). assert (T0 : 0 <= t) by (apply Rmult_le_pos; lra). assert (QT : Q = t * Rabs D) by (unfold t; field; lra).
  assert (X1 : Rabs (B2R c * B2R di) <= 1432 / 1000 * t).
  { rewrite Rabs_mult. apply Rle_trans with ((1 + / 10000) * Q * (1431 / 1000 * / Rabs D)); [apply Rmult_le_compat; try apply Rabs_pos; assumption|]. replace ((1 + / 10000) * Q * (1431 / 1000 * / Rabs D)) with ((1 + / 10000) * (1431 / 1000) * t) by (unfold t; field; lra). apply Rmult_le_compat_r; lra. }
  assert (X2 : Rabs (B2R c * B2R di - a * (1 / D)) <= (219 / 10) * u * k * t).
  { replace (B2R c * B2R di - a * (1 / D)) with ((B2R c - a) * B2R di + a * (B2R di - / D)) by (field; exact ND). eapply Rle_trans; [apply Rabs_triang|]. rewrite !Rabs_mult.
    assert (T1 : Rabs (B2R c - a) * Rabs (B2R di) <= 51 / 10 * u * Q * (1431 / 1000 * / Rabs D)) by (apply Rmult_le_compat; try apply Rabs_pos; assumption).
    replace (51 / 10 * u * Q * (1431 / 1000 * / Rabs D)) with (51 / 10 * (1431 / 1000) * (u * t)) in T1 by (unfold t; field; lra).
    assert (T2 : Rabs (B2R di - / D) <= (146 / 10 * u * k) * / Rabs D).
    { rewrite VI. replace (/ D * / (1 + d) * (1 + e) - / D) with ((e - d) * / (1 + d) * / D) by (field; split; [exact ND|lra]). rewrite !Rabs_mult, (Rabs_pos_eq (/ (1 + d))), Rabs_inv by lra. apply Rmult_le_compat_r; [lra|].
      assert (T3 : Rabs (e - d) <= u + 92 / 10 * u * k) by (unfold Rminus; eapply Rle_trans; [apply Rabs_triang|]; rewrite Rabs_Ropp; lra).
      apply Rle_trans with ((u + 92 / 10 * u * k) * (143 / 100)); [apply Rmult_le_compat; try apply Rabs_pos; lra|]. assert (u * 1 <= u * k) by (apply Rmult_le_compat_l; lra). lra. }
    assert (T4 : Rabs a * Rabs (B2R di - / D) <= Q * ((146 / 10 * u * k) * / Rabs D)) by (apply Rmult_le_compat; try apply Rabs_pos; assumption).
    replace (Q * ((146 / 10 * u * k) * / Rabs D)) with (146 / 10 * (u * k * t)) in T4 by (unfold t; field; lra).
    assert (T5 : u * t <= u * k * t) by (apply Rmult_le_compat_r; [exact T0|]; rewrite <- (Rmult_1_r u) at 1; apply Rmult_le_compat_l; lra). assert (0 <= u * t) by (apply Rmult_le_pos; lra). lra. }
  assert (RM := fmul_Rnd _ _ Fc FI).
  destruct LC as [Z|LC].
  - assert (TZ : t = 0) by (unfold t; rewrite Z; unfold Rdiv; ring). assert (XY : B2R c * B2R di = 0) by (destruct (Req_dec (B2R c * B2R di) 0) as [W|W]; [exact W|]; apply Rabs_pos_lt in W; rewrite TZ in X1; lra).
    destruct (rel_fin (m := m) _ _ RM) as [FX (g & _ & V)]; [left; exact XY|rewrite XY, Rabs_R0; apply bpow_ge_0|]. split; [exact FX|]. rewrite V, XY, Rmult_0_l. rewrite XY in X2. rewrite TZ, Rmult_0_r in *. exact X2.
  - assert (TL : bpow radix2 (-100) <= t). { apply Rle_trans with (bpow radix2 (-(36)) * bpow radix2 (-54)); [rewrite <- bpow_plus; apply bpow_le; lia|]. apply Rmult_le_compat; try assumption; apply bpow_ge_0. }
    assert (ET := eta_small t TL).
    destruct (wide_fin _ _ RM) as [FX EX].
    { apply Rle_trans with (1 := X1). apply Rle_trans with (2 * (bpow radix2 39 * bpow radix2 (43 + prec f))); [apply Rmult_le_compat; try lra; apply Rmult_le_compat; lra|]. change 2 with (bpow radix2 1). rewrite <- !bpow_plus. apply bpow_le. lia. }
    split; [exact FX|]. replace (B2R (fmul c di) - a * (1 / D)) with ((B2R (fmul c di) - B2R c * B2R di) + (B2R c * B2R di - a * (1 / D))) by ring. eapply Rle_trans; [apply Rabs_triang|].
    assert (T5 : u * t <= u * k * t) by (apply Rmult_le_compat_r; [exact T0|]; rewrite <- (Rmult_1_r u) at 1; apply Rmult_le_compat_l; lra).
    assert (u * Rabs (B2R c * B2R di) <= u * (1432 / 1000 * t)) by (apply Rmult_le_compat_l; lra). assert (0 <= u * t) by (apply Rmult_le_pos; lra). lra.
Qed.
End I.
