(** Boxes wrapped in the identity transform: the signs of zeros do not matter. *)
From Coq Require Import ZArith Reals Bool Lra Lia.
From Coq Require Vector Fin.
From Flocq Require Import Core BinarySingleNaN.
From Verif.Model Require Import FloatBase Scalar Float Interval Outcome Vec Transform XReal Geometry.
From Verif Require Import Spec SpecGeom SpecShape.
From Verif.Proofs Require MapBack TransformFloat.
From Verif.Proofs Require Import BitsLemmas FloatLemmas ScalarProofs VectorFloat BoxFloat BoxExact SlabFloat.
Open Scope R_scope.

Section S.
Context {f : fmt} {m : libm f}.
Notation FT := (float f).
Notation top := (bpow radix2 (emax f)).

(** equal up to the sign of a zero *)
Definition sim (x y : FT) : Prop := x = y \/ exists s s', x = B754_zero s /\ y = B754_zero s'.
Lemma sim_sub (l o o' : FT) : sim o o' -> sim (fsub l o) (fsub l o').
Proof.
  intros [->|(s & s' & -> & ->)]; [left; reflexivity|]. destruct l as [sl|sl| |sl ml el Bl]; [|left; reflexivity|left; reflexivity|left; reflexivity].
  right. destruct sl, s, s'; do 2 eexists; split; reflexivity.
Qed.
Lemma sim_div (a a' d : FT) : sim a a' -> sim (fdiv a d) (fdiv a' d).
Proof.
  intros [->|(s & s' & -> & ->)]; [left; reflexivity|]. destruct d as [sd|sd| |sd md ed Bd]; [left; reflexivity| |left; reflexivity|]; right; do 2 eexists; split; reflexivity.
Qed.
Lemma sim_E (x y : FT) : sim x y -> BinarySingleNaN.is_nan x = BinarySingleNaN.is_nan y /\ E x = E y.
Proof. intros [->|(s & s' & -> & ->)]; split; reflexivity. Qed.
Lemma sim_ax (q1 q2 q1' q2' : FT) : sim q1 q1' -> sim q2 q2' -> vlo (smin q1 q2) = vlo (smin q1' q2') /\ vhi (smax q1 q2) = vhi (smax q1' q2').
Proof.
  intros S1 S2. destruct (sim_E _ _ S1) as [N1 E1]. destruct (sim_E _ _ S2) as [N2 E2].
  destruct (BinarySingleNaN.is_nan q1) eqn:K1; [|destruct (BinarySingleNaN.is_nan q2) eqn:K2].
  - destruct (min_max_nan q1 q2) as (A & B & _); [left; unfold nonnan; rewrite K1; discriminate|]. destruct (min_max_nan q1' q2') as (A' & B' & _); [left; unfold nonnan; rewrite <- N1; discriminate|].
    rewrite A, B, A', B'. unfold vlo, vhi. rewrite N2, E2. split; reflexivity.
  - destruct (min_max_nan q1 q2) as (A & B & _); [right; unfold nonnan; rewrite K2; discriminate|]. destruct (min_max_nan q1' q2') as (A' & B' & _); [right; unfold nonnan; rewrite <- N2; discriminate|].
    rewrite A, B, A', B'. unfold vlo, vhi. rewrite K2, <- N2. split; reflexivity.
  - symmetry in N1, N2. destruct (smin_E _ _ K1 K2) as [A B]. destruct (smax_E _ _ K1 K2) as [A' B']. destruct (smin_E _ _ N1 N2) as [C D]. destruct (smax_E _ _ N1 N2) as [C' D'].
    rewrite (vlo_of _ _ A B), (vlo_of _ _ C D), (vhi_of _ _ A' B'), (vhi_of _ _ C' D'), E1, E2. split; reflexivity.
Qed.
Definition missed (L H : R) : Prop := L = H /\ (L = top \/ L = - top).
Definition wild (q : FT) : Prop := q = B754_nan \/ exists s, q = B754_infinity s.
Lemma wild_ax (q1 q2 : FT) : wild q1 -> wild q2 -> 
  (vlo (smin q1 q2) = - top /\ vhi (smax q1 q2) = top) /\ (q2 = B754_nan \/ exists s, q1 = B754_infinity s /\ q2 = B754_infinity (negb s)) \/
  missed (vlo (smin q1 q2)) (vhi (smax q1 q2)) /\ (exists s, q2 = B754_infinity s /\ (q1 = B754_nan \/ q1 = q2)).
Proof.
  intros [->|[s ->]] [->|[s' ->]].
  - left. split; [split; reflexivity|left; reflexivity].
  - right. split; [|exists s'; auto]. destruct s'; (split; [reflexivity|]); [right|left]; reflexivity.
  - left. split; [|left; reflexivity]. destruct s; split; reflexivity.
  - destruct s, s'; [right|left|left|right].
    + split; [|exists true; auto]. split; [reflexivity|right; reflexivity].
    + split; [split; reflexivity|]. right. exists true. auto.
    + split; [split; reflexivity|]. right. exists false. auto.
    + split; [|exists false; auto]. split; [reflexivity|left; reflexivity].
Qed.
Lemma div_zero (a a' : FT) s s' : sim a a' -> wild (fdiv a (B754_zero s)) /\ wild (fdiv a' (B754_zero s')) /\
  fdiv a' (B754_zero s') = (if Bool.eqb s s' then fdiv a (B754_zero s) else fneg (fdiv a (B754_zero s))).
Proof.
  unfold wild. intros [->|(t & t' & -> & ->)].
  - destruct a' as [sl|sl| |sl ml el Bl]; (split; [|split]); try (left; reflexivity); try (right; eexists; reflexivity); destruct s, s'; try destruct sl; reflexivity.
  - split; [left; reflexivity|]. split; [left; reflexivity|]. destruct s, s'; reflexivity.
Qed.
Lemma ax_sim (l h o o' d d' : FT) : sim o o' -> sim d d' ->
  (vlo (t1ax l h o d) = vlo (t1ax l h o' d') /\ vhi (t2ax l h o d) = vhi (t2ax l h o' d')) \/
  (missed (vlo (t1ax l h o d)) (vhi (t2ax l h o d)) /\ missed (vlo (t1ax l h o' d')) (vhi (t2ax l h o' d'))).
Proof.
  intros SO SD. assert (S1 := sim_sub l o o' SO). assert (S2 := sim_sub h o o' SO).
  change (t1ax l h o d) with (smin (fdiv (fsub l o) d) (fdiv (fsub h o) d)). change (t2ax l h o d) with (smax (fdiv (fsub l o) d) (fdiv (fsub h o) d)).
  change (t1ax l h o' d') with (smin (fdiv (fsub l o') d') (fdiv (fsub h o') d')). change (t2ax l h o' d') with (smax (fdiv (fsub l o') d') (fdiv (fsub h o') d')).
  destruct SD as [->|(s & s' & -> & ->)]; [left; apply sim_ax; apply sim_div; assumption|].
  destruct (div_zero _ _ s s' S1) as (W1 & W1' & Q1). destruct (div_zero _ _ s s' S2) as (W2 & W2' & Q2).
  destruct (Bool.eqb s s'); [left; rewrite Q1, Q2; split; reflexivity|].
  set (q1 := fdiv (fsub l o) (B754_zero s)) in *. set (q2 := fdiv (fsub h o) (B754_zero s)) in *. set (q1' := fdiv (fsub l o') (B754_zero s')) in *. set (q2' := fdiv (fsub h o') (B754_zero s')) in *. clearbody q1 q2 q1' q2'.
  destruct (wild_ax q1 q2 W1 W2) as [[[A B] C]|[A (t & C & D)]], (wild_ax q1' q2' W1' W2') as [[[A' B'] C']|[A' (t' & C' & D')]]; [left|exfalso|exfalso|right].
  - rewrite A, B, A', B'. split; reflexivity.
  - destruct C as [C|(t & C & D)]; subst; [discriminate C'|]. destruct D' as [D'|D']; destruct t; discriminate D'.
  - destruct C' as [C'|(t2 & C' & D2)]; subst; [discriminate C'|]. destruct D as [D|D]; subst; [discriminate C'|]. destruct t, t2; try discriminate C'; discriminate D2.
  - split; assumption.
Qed.
Lemma missed_no (b : bbox FT) r i : finite (tmax r) -> missed (Lx b r i) (Hx b r i) -> b_do_intersect b r = false.
Proof.
  intros F [M1 M2]. assert (S := slab_float b r (nonnan_of_finite _ F)). unfold b_do_intersect. destruct (b_intersect_ray b r) as [[x y]|]; [|reflexivity].
  exfalso. destruct S as [S _]. destruct (S i i) as (A & B & _). assert (R := finite_E_range (tmax r) F). assert (P := bpow_gt_0 radix2 (emax f)). lra.
Qed.
Lemma box_sim (b : bbox FT) (r r' : ray FT) : finite (tmax r) -> tmax r' = tmax r -> (forall i, sim (Vector.nth (origin r) i) (Vector.nth (origin r') i)) -> (forall i, sim (Vector.nth (direction r) i) (Vector.nth (direction r') i)) ->
  b_do_intersect b r' = b_do_intersect b r.
Proof.
  intros F T SO SD. assert (K : forall i, (Lx b r i = Lx b r' i /\ Hx b r i = Hx b r' i) \/ (missed (Lx b r i) (Hx b r i) /\ missed (Lx b r' i) (Hx b r' i))) by (intros i; apply ax_sim; [apply SO|apply SD]).
  assert (F' : finite (tmax r')) by (rewrite T; exact F).
  assert (D : (exists i, missed (Lx b r i) (Hx b r i) /\ missed (Lx b r' i) (Hx b r' i)) \/ forall i, Lx b r i = Lx b r' i /\ Hx b r i = Hx b r' i).
  { destruct (K Fin.F1) as [K1|K1]; [|left; eauto]. destruct (K (Fin.FS Fin.F1)) as [K2|K2]; [|left; eauto]. destruct (K (Fin.FS (Fin.FS Fin.F1))) as [K3|K3]; [|left; eauto]. right. refine (proj2 (forall3 _) _). auto. }
  destruct D as [(i & M & M')|D]; [rewrite (missed_no b r i F M), (missed_no b r' i F' M'); reflexivity|].
  assert (S := slab_float b r (nonnan_of_finite _ F)). assert (S' := slab_float b r' (nonnan_of_finite _ F')). rewrite T in S'. unfold b_do_intersect.
  destruct (b_intersect_ray b r) as [[x y]|], (b_intersect_ray b r') as [[x' y']|]; try reflexivity; exfalso.
  - destruct S as [S _]. destruct S' as (i & j & S'). destruct (S i j) as (A & B & C). destruct (D i) as [D1 D2]. destruct (D j) as [D3 D4]. lra.
  - destruct S' as [S' _]. destruct S as (i & j & S). destruct (S' i j) as (A & B & C). destruct (D i) as [D1 D2]. destruct (D j) as [D3 D4]. lra.
Qed.
Lemma feq_sim (x y : FT) : feq x y -> finite y -> sim y x.
Proof.
  intros Q F. assert (FX : finite x). { apply feq_E in Q. destruct Q as (NX & _ & H). assert (R := finite_E_range y F). rewrite <- H in R. exact (finite_of_range x NX R). }
  destruct (MapBack.feq_val x y Q FX) as [_ V]. 
  assert (NZ : forall s mm e B, B2R (B754_finite s mm e B : FT) <> 0). { intros s mm e B H. cbn in H. apply eq_0_F2R in H. destruct s; discriminate H. }
  destruct x as [s|s| |s mm e B]; try discriminate FX; destruct y as [s'|s'| |s' mm' e' B']; try discriminate F.
  - right. exists s', s. auto.
  - exfalso. symmetry in V. revert V. apply NZ.
  - exfalso. revert V. apply NZ.
  - left. apply B2R_inj; [reflexivity|reflexivity|congruence].
Qed.
Theorem identity_box (b : bbox FT) (r : ray FT) : ray_finite r -> p_do_intersect (PTransformed (PBox b) t_identity) r = p_do_intersect (PBox b) r.
Proof.
  intros (F1 & F2 & F3). destruct (proj1 (TransformFloat.identity_map (origin r) F1)) as (o & O1 & O2). destruct (proj2 (TransformFloat.identity_map (direction r) F2)) as (d & D1 & D2).
  change (t_map_point_inverse t_identity (origin r) = Ret o) in O1. change (t_map_vector_inverse t_identity (direction r) = Ret d) in D1.
  assert (K : t_map_ray_inverse t_identity r = Ret (mkRay o d (tmax r))). { unfold t_map_ray_inverse. rewrite O1. cbn [obind]. rewrite D1. reflexivity. }
  cbn [p_do_intersect]. match goal with |- obind ?q _ = _ => replace q with (Ret (mkRay o d (tmax r))) by (symmetry; exact K) end. cbn [obind]. f_equal.
  apply box_sim; [exact F3|reflexivity|intros i|intros i]; apply feq_sim; [apply O2|apply F1|apply D2|apply F2].
Qed.
End S.
