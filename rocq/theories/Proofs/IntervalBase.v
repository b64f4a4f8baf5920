(** * Rounded bounds: each float operation on bounds gives a bound of the exact result. *)
From Coq Require Import ZArith Reals Bool Lra Lia.
From Flocq Require Import Core BinarySingleNaN.
From Verif.Model Require Import FloatBase Scalar Float Interval.
From Verif Require Import Spec.
From Verif.Proofs Require Import BitsLemmas FloatLemmas ScalarProofs.
Open Scope R_scope.

Section B.
Context {f : fmt}.
Notation FT := (float f).
Notation nd := (f_next_down f).
Notation nu := (f_next_up f).
Notation top := (bpow radix2 (emax f)).

Lemma mem_E (r : R) (i : interval FT) : mem r i ->
  nonnan (inf i) /\ nonnan (sup i) /\ inf i <> finf false /\ sup i <> finf true /\
  (inf i = finf true \/ (finite (inf i) /\ E (inf i) <= r)) /\
  (sup i = finf false \/ (finite (sup i) /\ r <= E (sup i))).
Proof.
  intros [H1 H2]. apply below_inv in H1. apply above_inv in H2. intuition.
Qed.
Lemma mem_ordered (r : R) (i : interval FT) : mem r i -> ordered i.
Proof.
  intros H. apply mem_E in H. destruct H as (N1 & N2 & _ & _ & H1 & H2).
  apply fle_E. repeat split; auto. pose proof (E_range (inf i)). pose proof (E_range (sup i)).
  destruct H1 as [H1|[_ H1]]; [rewrite H1 in *; simpl in *; lra|].
  destruct H2 as [H2|[_ H2]]; [rewrite H2 in *; simpl in *; lra|]. lra.
Qed.
Lemma mem_proper (r : R) (i : interval FT) : mem r i -> proper i.
Proof. intros H. apply mem_E in H. split; tauto. Qed.

Lemma bounded_nonempty (i : interval FT) : bounded i -> ordered i -> mem (B2R (inf i)) i /\ mem (B2R (sup i)) i.
Proof.
  intros [F1 F2] H. apply fle_E in H. destruct H as (N1 & N2 & H).
  rewrite !E_B2R in H by assumption.
  repeat split; try (apply below_finite; auto; lra); apply above_finite; auto; lra.
Qed.

(** lower bounds *)
Lemma below_ninf r : below (finf true : FT) r. Proof. reflexivity. Qed.
Lemma above_pinf r : above (finf false : FT) r. Proof. reflexivity. Qed.
Lemma nd_ninf (x : FT) r : x = finf true -> below (nd x) r.
Proof. intros ->. rewrite next_down_inf. reflexivity. Qed.
Lemma nu_pinf (x : FT) r : x = finf false -> above (nu x) r.
Proof. intros ->. rewrite next_up_inf. reflexivity. Qed.
Lemma down_below' (z : FT) r t : Rnd z r -> r <= t -> below (nd z) t.
Proof. intros. eapply below_trans; [apply down_below; eassumption|assumption]. Qed.
Lemma up_above' (z : FT) r t : Rnd z r -> t <= r -> above (nu z) t.
Proof. intros. eapply above_trans; [apply up_above; eassumption|assumption]. Qed.

Ltac cases H := apply below_inv in H || apply above_inv in H;
  destruct H as (?N & ?D & [->|[?F ?L]]).
Ltac fins := repeat match goal with H : finite ?x |- _ =>
  lazymatch goal with K : E x = B2R x |- _ => fail | _ => pose proof (E_B2R x H) end end.

Lemma add_below (x y : FT) r s : below x r -> below y s -> below (nd (fadd x y)) (r + s).
Proof.
  intros Hx Hy. cases Hx; cases Hy; try (apply nd_ninf; reflexivity).
  - apply nd_ninf. destruct y; try easy.
  - apply nd_ninf. destruct x; try easy.
  - eapply down_below'; [now apply fadd_Rnd|]. fins. lra.
Qed.
Lemma add_above (x y : FT) r s : above x r -> above y s -> above (nu (fadd x y)) (r + s).
Proof.
  intros Hx Hy. cases Hx; cases Hy; try (apply nu_pinf; reflexivity).
  - apply nu_pinf. destruct y; try easy.
  - apply nu_pinf. destruct x; try easy.
  - eapply up_above'; [now apply fadd_Rnd|]. fins. lra.
Qed.
Lemma sub_below (x y : FT) r s : below x r -> above y s -> below (nd (fsub x y)) (r - s).
Proof.
  intros Hx Hy. cases Hx; cases Hy; try (apply nd_ninf; reflexivity).
  - apply nd_ninf. destruct y; try easy.
  - apply nd_ninf. destruct x; try easy.
  - eapply down_below'; [now apply fsub_Rnd|]. fins. lra.
Qed.
Lemma sub_above (x y : FT) r s : above x r -> below y s -> above (nu (fsub x y)) (r - s).
Proof.
  intros Hx Hy. cases Hx; cases Hy; try (apply nu_pinf; reflexivity).
  - apply nu_pinf. destruct y; try easy.
  - apply nu_pinf. destruct x; try easy.
  - eapply up_above'; [now apply fsub_Rnd|]. fins. lra.
Qed.

(** Infinite operands of a product or a quotient. *)
Lemma Bsign_E (x : FT) : nonnan x -> (0 < E x -> Bsign x = false) /\ (E x < 0 -> Bsign x = true).
Proof.
  intros N. pose proof (top_pos (f := f)). destruct (BinarySingleNaN.is_finite x) eqn:F.
  - rewrite E_B2R by assumption. now apply finite_sign.
  - destruct x as [|[]| |]; try easy; simpl; split; try easy; intros; lra.
Qed.
Lemma fmul_inf_l s (y : FT) : nonnan y -> E y <> 0 -> fmul (finf s) y = finf (xorb s (Bsign y)).
Proof. destruct y as [|t| |t m e H]; simpl; try easy; intros _ H0; (now elim H0) || reflexivity. Qed.
Lemma fmul_inf_r s (x : FT) : nonnan x -> E x <> 0 -> fmul x (finf s) = finf (xorb (Bsign x) s).
Proof. destruct x as [|t| |t m e H]; simpl; try easy; intros _ H0; (now elim H0) || reflexivity. Qed.
Lemma fmul_inf_nan_l s (y : FT) : E y = 0 -> nonnan y -> fmul (finf s) y = fnan.
Proof.
  intros H N. pose proof (top_pos (f := f)). destruct y as [|t| |t m e B]; try easy.
  - destruct t; simpl in H; lra.
  - exfalso. simpl in H. apply eq_0_F2R in H. destruct t; discriminate.
Qed.
Lemma fmul_inf_nan_r s (x : FT) : E x = 0 -> nonnan x -> fmul x (finf s) = fnan.
Proof.
  intros H N. pose proof (top_pos (f := f)). destruct x as [|t| |t m e B]; try easy.
  - destruct t; simpl in H; lra.
  - exfalso. simpl in H. apply eq_0_F2R in H. destruct t; discriminate.
Qed.

Lemma not_nan : ~ nonnan (fnan : FT). Proof. discriminate. Qed.

(** [x*y] when at least one operand is infinite and the result is a number. *)
Lemma fmul_inf_cases (x y : FT) : nonnan x -> nonnan y -> nonnan (fmul x y) ->
  (finite x /\ finite y) \/
  (E x <> 0 /\ E y <> 0 /\ fmul x y = finf (xorb (Bsign x) (Bsign y))).
Proof.
  intros Nx Ny N.
  destruct (BinarySingleNaN.is_finite x) eqn:Fx.
  - destruct (BinarySingleNaN.is_finite y) eqn:Fy; [left; now split|right].
    destruct y as [|s| |]; try easy.
    destruct (Req_dec (E x) 0) as [H|H].
    { pose proof (fmul_inf_nan_r s x H Nx) as HH. unfold finf in HH. rewrite HH in N. now elim not_nan. }
    split; auto. split; [|now apply (fmul_inf_r s)]. pose proof (top_pos (f := f)). destruct s; simpl; lra.
  - right. destruct x as [|s| |]; try easy.
    destruct (Req_dec (E y) 0) as [H|H].
    { pose proof (fmul_inf_nan_l s y H Ny) as HH. unfold finf in HH. rewrite HH in N. now elim not_nan. }
    split; [pose proof (top_pos (f := f)); destruct s; simpl; lra|]. split; auto.
    now apply (fmul_inf_l s).
Qed.

Ltac signs := repeat match goal with N : nonnan ?x |- _ =>
  lazymatch goal with K : (0 < E x -> Bsign x = false) /\ _ |- _ => fail | _ => pose proof (Bsign_E x N) end end.

Lemma fin_of_below_nn (x : FT) r : below x r -> 0 <= E x -> finite x /\ B2R x <= r.
Proof.
  intros H H0. apply below_inv in H. pose proof (top_pos (f := f)). destruct H as (N & D & [->|[F L]]).
  - simpl in H0. lra.
  - rewrite E_B2R in L by assumption. auto.
Qed.
Lemma fin_of_above_np (x : FT) r : above x r -> E x <= 0 -> finite x /\ r <= B2R x.
Proof.
  intros H H0. apply above_inv in H. pose proof (top_pos (f := f)). destruct H as (N & D & [->|[F L]]).
  - simpl in H0. lra.
  - rewrite E_B2R in L by assumption. auto.
Qed.
Lemma lo_real (x : FT) r : below x r -> finite x -> B2R x <= r.
Proof. intros H F. now apply below_finite. Qed.
Lemma hi_real (x : FT) r : above x r -> finite x -> r <= B2R x.
Proof. intros H F. now apply above_finite. Qed.
Lemma below_nn (x : FT) r : below x r -> nonnan x. Proof. intros H. apply below_inv in H. tauto. Qed.
Lemma above_nn (x : FT) r : above x r -> nonnan x. Proof. intros H. apply above_inv in H. tauto. Qed.
(** sign facts about the enclosed real *)
Lemma below_sign (x : FT) r : below x r -> 0 <= E x -> 0 <= r.
Proof. intros H H0. destruct (fin_of_below_nn x r H H0) as [F L]. rewrite E_B2R in H0 by assumption. lra. Qed.
Lemma above_sign (x : FT) r : above x r -> E x <= 0 -> r <= 0.
Proof. intros H H0. destruct (fin_of_above_np x r H H0) as [F L]. rewrite E_B2R in H0 by assumption. lra. Qed.

(** products: the four lower-bound and four upper-bound situations *)
Lemma mul_below_ll (x y : FT) r s : below x r -> below y s -> 0 <= E x -> 0 <= E y ->
  below (nd (fmul x y)) (r * s).
Proof.
  intros Hx Hy H1 H2. destruct (fin_of_below_nn x r Hx H1), (fin_of_below_nn y s Hy H2).
  eapply down_below'; [now apply fmul_Rnd|]. rewrite E_B2R in * by assumption. apply Rmult_le_compat; assumption.
Qed.
Lemma mul_below_uu (x y : FT) r s : above x r -> above y s -> E x <= 0 -> E y <= 0 ->
  below (nd (fmul x y)) (r * s).
Proof.
  intros Hx Hy H1 H2. destruct (fin_of_above_np x r Hx H1), (fin_of_above_np y s Hy H2).
  eapply down_below'; [now apply fmul_Rnd|]. rewrite E_B2R in * by assumption. nra.
Qed.
Lemma mul_above_lu (x y : FT) r s : below x r -> above y s -> 0 <= E x -> E y <= 0 ->
  above (nu (fmul x y)) (r * s).
Proof.
  intros Hx Hy H1 H2. destruct (fin_of_below_nn x r Hx H1), (fin_of_above_np y s Hy H2).
  eapply up_above'; [now apply fmul_Rnd|]. rewrite E_B2R in * by assumption. nra.
Qed.
Lemma mul_above_ul (x y : FT) r s : above x r -> below y s -> E x <= 0 -> 0 <= E y ->
  above (nu (fmul x y)) (r * s).
Proof.
  intros Hx Hy H1 H2. destruct (fin_of_above_np x r Hx H1), (fin_of_below_nn y s Hy H2).
  eapply up_above'; [now apply fmul_Rnd|]. rewrite E_B2R in * by assumption. nra.
Qed.
(** those with possibly infinite operands *)
Lemma Esign_nn (x : FT) : nonnan x -> 0 <= E x -> E x <> 0 -> Bsign x = false.
Proof. intros N H H0. apply Bsign_E; auto. lra. Qed.
Lemma Esign_np (x : FT) : nonnan x -> E x <= 0 -> E x <> 0 -> Bsign x = true.
Proof. intros N H H0. apply Bsign_E; auto. lra. Qed.

Lemma mul_below_ul (x y : FT) r s : above x r -> below y s -> 0 <= E x -> E y <= 0 -> nonnan (fmul x y) ->
  (0 <= r \/ s <= 0) -> below (nd (fmul x y)) (r * s).
Proof.
  intros Hx Hy H1 H2 N HH. pose proof (above_nn _ _ Hx). pose proof (below_nn _ _ Hy).
  destruct (fmul_inf_cases x y) as [[Fx Fy]|(K1 & K2 & K)]; auto.
  - apply (hi_real _ _ Hx) in Fx as Lx. apply (lo_real _ _ Hy) in Fy as Ly.
    eapply down_below'; [now apply fmul_Rnd|]. rewrite E_B2R in * by assumption. nra.
  - apply nd_ninf. rewrite K, Esign_nn, Esign_np; auto.
Qed.
Lemma mul_below_lu (x y : FT) r s : below x r -> above y s -> E x <= 0 -> 0 <= E y -> nonnan (fmul x y) ->
  (0 <= s \/ r <= 0) -> below (nd (fmul x y)) (r * s).
Proof.
  intros Hx Hy H1 H2 N HH. pose proof (below_nn _ _ Hx). pose proof (above_nn _ _ Hy).
  destruct (fmul_inf_cases x y) as [[Fx Fy]|(K1 & K2 & K)]; auto.
  - apply (lo_real _ _ Hx) in Fx as Lx. apply (hi_real _ _ Hy) in Fy as Ly.
    eapply down_below'; [now apply fmul_Rnd|]. rewrite E_B2R in * by assumption. nra.
  - apply nd_ninf. rewrite K, Esign_np, Esign_nn; auto.
Qed.
Lemma mul_above_uu (x y : FT) r s : above x r -> above y s -> 0 <= E x -> 0 <= E y -> nonnan (fmul x y) ->
  (0 <= r \/ 0 <= s) -> above (nu (fmul x y)) (r * s).
Proof.
  intros Hx Hy H1 H2 N HH. pose proof (above_nn _ _ Hx). pose proof (above_nn _ _ Hy).
  destruct (fmul_inf_cases x y) as [[Fx Fy]|(K1 & K2 & K)]; auto.
  - apply (hi_real _ _ Hx) in Fx as Lx. apply (hi_real _ _ Hy) in Fy as Ly.
    eapply up_above'; [now apply fmul_Rnd|]. rewrite E_B2R in * by assumption. nra.
  - apply nu_pinf. rewrite K, !Esign_nn; auto.
Qed.
Lemma mul_above_ll (x y : FT) r s : below x r -> below y s -> E x <= 0 -> E y <= 0 -> nonnan (fmul x y) ->
  (r <= 0 \/ s <= 0) -> above (nu (fmul x y)) (r * s).
Proof.
  intros Hx Hy H1 H2 N HH. pose proof (below_nn _ _ Hx). pose proof (below_nn _ _ Hy).
  destruct (fmul_inf_cases x y) as [[Fx Fy]|(K1 & K2 & K)]; auto.
  - apply (lo_real _ _ Hx) in Fx as Lx. apply (lo_real _ _ Hy) in Fy as Ly.
    eapply up_above'; [now apply fmul_Rnd|]. rewrite E_B2R in * by assumption. nra.
  - apply nu_pinf. rewrite K, !Esign_np; auto.
Qed.

(** tightness *)
Lemma near_lower_nd (z : FT) r (P : R -> Prop) : Rnd z r -> P r -> near_lower (nd z) P.
Proof.
  intros HR HP y1 y2 Hlt Hb. specialize (Hb r HP). pose proof (down_tight z y2 r HR Hb) as H.
  assert (N2 : nonnan y2) by (apply flt_E in Hlt; tauto).
  assert (D : y2 <> finf true).
  { intros ->. apply flt_E in Hlt. pose proof (E_range y1). destruct Hlt as (_ & _ & Hlt). simpl in Hlt. lra. }
  destruct (next_down_adjacent y2 N2 D) as [_ HH]. apply HH in Hlt.
  apply fle_E in H. apply fle_E in Hlt. apply fle_E. intuition lra.
Qed.
Lemma near_upper_nu (z : FT) r (P : R -> Prop) : Rnd z r -> P r -> near_upper (nu z) P.
Proof.
  intros HR HP y1 y2 Hlt Hb. specialize (Hb r HP). pose proof (up_tight z y2 r HR Hb) as H.
  assert (N2 : nonnan y2) by (apply flt_E in Hlt; tauto).
  assert (D : y2 <> finf false).
  { intros ->. apply flt_E in Hlt. pose proof (E_range y1). destruct Hlt as (_ & _ & Hlt). simpl in Hlt. lra. }
  destruct (next_up_adjacent y2 N2 D) as [_ HH]. apply HH in Hlt.
  apply fle_E in H. apply fle_E in Hlt. apply fle_E. intuition lra.
Qed.
Lemma near_lower_exact (z : FT) (P : R -> Prop) : finite z -> P (B2R z) -> near_lower z P.
Proof.
  intros F HP y1 y2 Hlt Hb. specialize (Hb _ HP). apply below_inv in Hb. apply flt_E in Hlt.
  pose proof (E_range z). pose proof (E_range y1).
  apply fle_E. split; [tauto|]. split; [now apply nonnan_of_finite|].
  destruct Hb as (N & D & [->|[F2 L]]); [simpl in Hlt; lra|]. rewrite <- E_B2R in L by assumption. lra.
Qed.
Lemma near_upper_exact (z : FT) (P : R -> Prop) : finite z -> P (B2R z) -> near_upper z P.
Proof.
  intros F HP y1 y2 Hlt Hb. specialize (Hb _ HP). apply above_inv in Hb. apply flt_E in Hlt.
  pose proof (E_range z). pose proof (E_range y1).
  apply fle_E. split; [now apply nonnan_of_finite|]. split; [tauto|].
  destruct Hb as (N & D & [->|[F2 L]]); [simpl in Hlt; lra|]. rewrite <- E_B2R in L by assumption. lra.
Qed.

(** division *)
Lemma cross_le x y r s : 0 < y * s -> x * s <= r * y -> x / y <= r / s.
Proof.
  intros H1 H2. assert (y <> 0) by (intros ->; lra). assert (s <> 0) by (intros ->; lra).
  apply Rmult_le_reg_r with (y * s); auto.
  replace (x / y * (y * s)) with (x * s) by (field; auto).
  replace (r / s * (y * s)) with (r * y) by (field; auto). exact H2.
Qed.
Lemma fdiv_fin_inf (x : FT) s : finite x -> Rnd (fdiv x (finf s)) 0.
Proof.
  destruct x as [|t| |t m e B]; try easy; intros _; apply Rnd_of_finite; try reflexivity; simpl; now rewrite rnd_0.
Qed.
Lemma fdiv_inf_fin (y : FT) s : finite y -> E y <> 0 -> fdiv (finf s) y = finf (xorb s (Bsign y)).
Proof. destruct y as [t|t| |t m e B]; try easy. Qed.

Lemma div_below (x y : FT) t : finite x -> nonnan y -> E y <> 0 ->
  (finite y -> B2R x / B2R y <= t) -> (~ finite y -> 0 <= t) -> below (nd (fdiv x y)) t.
Proof.
  intros Fx Ny Hy H1 H2. destruct (BinarySingleNaN.is_finite y) eqn:Fy.
  - eapply down_below'; [apply fdiv_Rnd; auto; now rewrite <- E_B2R|auto].
  - assert (~ finite y) by (unfold finite; rewrite Fy; discriminate).
    destruct y as [|s| |]; try easy. eapply down_below'; [now apply (fdiv_fin_inf x s)|auto].
Qed.
Lemma div_above (x y : FT) t : finite x -> nonnan y -> E y <> 0 ->
  (finite y -> t <= B2R x / B2R y) -> (~ finite y -> t <= 0) -> above (nu (fdiv x y)) t.
Proof.
  intros Fx Ny Hy H1 H2. destruct (BinarySingleNaN.is_finite y) eqn:Fy.
  - eapply up_above'; [apply fdiv_Rnd; auto; now rewrite <- E_B2R|auto].
  - assert (~ finite y) by (unfold finite; rewrite Fy; discriminate).
    destruct y as [|s| |]; try easy. eapply up_above'; [now apply (fdiv_fin_inf x s)|auto].
Qed.
Lemma div_below_xinf (x y : FT) r t : below x r -> finite y -> 0 < E y ->
  (finite x -> B2R x / B2R y <= t) -> below (nd (fdiv x y)) t.
Proof.
  intros Hx Fy Hy H. apply below_inv in Hx. destruct Hx as (N & D & [->|[F L]]).
  - apply nd_ninf. rewrite fdiv_inf_fin by (auto; lra). rewrite (proj1 (Bsign_E y (nonnan_of_finite y Fy))); auto.
  - eapply down_below'; [apply fdiv_Rnd; auto; rewrite <- E_B2R; auto; lra|auto].
Qed.
Lemma div_below_xinf' (x y : FT) r t : above x r -> finite y -> E y < 0 ->
  (finite x -> B2R x / B2R y <= t) -> below (nd (fdiv x y)) t.
Proof.
  intros Hx Fy Hy H. apply above_inv in Hx. destruct Hx as (N & D & [->|[F L]]).
  - apply nd_ninf. rewrite fdiv_inf_fin by (auto; lra). rewrite (proj2 (Bsign_E y (nonnan_of_finite y Fy))); auto.
  - eapply down_below'; [apply fdiv_Rnd; auto; rewrite <- E_B2R; auto; lra|auto].
Qed.
Lemma div_above_xinf (x y : FT) r t : above x r -> finite y -> 0 < E y ->
  (finite x -> t <= B2R x / B2R y) -> above (nu (fdiv x y)) t.
Proof.
  intros Hx Fy Hy H. apply above_inv in Hx. destruct Hx as (N & D & [->|[F L]]).
  - apply nu_pinf. rewrite fdiv_inf_fin by (auto; lra). rewrite (proj1 (Bsign_E y (nonnan_of_finite y Fy))); auto.
  - eapply up_above'; [apply fdiv_Rnd; auto; rewrite <- E_B2R; auto; lra|auto].
Qed.
Lemma div_above_xinf' (x y : FT) r t : below x r -> finite y -> E y < 0 ->
  (finite x -> t <= B2R x / B2R y) -> above (nu (fdiv x y)) t.
Proof.
  intros Hx Fy Hy H. apply below_inv in Hx. destruct Hx as (N & D & [->|[F L]]).
  - apply nu_pinf. rewrite fdiv_inf_fin by (auto; lra). rewrite (proj2 (Bsign_E y (nonnan_of_finite y Fy))); auto.
  - eapply up_above'; [apply fdiv_Rnd; auto; rewrite <- E_B2R; auto; lra|auto].
Qed.

(** square roots *)
Lemma sqrt_below (x : FT) r : below x r -> 0 <= E x -> below (nd (fsqrt x)) (sqrt r).
Proof.
  intros H H0. destruct (fin_of_below_nn x r H H0) as [F L]. rewrite E_B2R in H0 by assumption.
  eapply down_below'; [apply fsqrt_Rnd; assumption|]. now apply sqrt_le_1_alt.
Qed.
Lemma sqrt_above (x : FT) r : above x r -> 0 <= E x -> above (nu (fsqrt x)) (sqrt r).
Proof.
  intros H H0. apply above_inv in H. destruct H as (N & D & [->|[F L]]).
  - apply nu_pinf. reflexivity.
  - rewrite E_B2R in * by assumption.
    eapply up_above'; [apply fsqrt_Rnd; assumption|]. now apply sqrt_le_1_alt.
Qed.
Lemma fmul_self_nn (x : FT) : nonnan x -> nonnan (fmul x x).
Proof.
  intros N. destruct (BinarySingleNaN.is_finite x) eqn:F; [apply (fmul_Rnd x x F F)|].
  destruct x as [|[]| |]; easy.
Qed.
Lemma fmul_fin_nn (x y : FT) : finite x -> finite y -> nonnan (fmul x y).
Proof. intros Fx Fy. apply (fmul_Rnd x y Fx Fy). Qed.

Lemma below_min (x y : FT) r : nonnan x -> nonnan y -> (below (smin x y) r <-> below x r \/ below y r).
Proof.
  intros Nx Ny. destruct (smin_spec x y Nx Ny) as ([H|H] & H1 & H2); rewrite H in *; apply fle_E in H1; apply fle_E in H2.
  - split; auto. intros [Hx|Hy]; auto. apply (below_le x y); tauto.
  - split; auto. intros [Hx|Hy]; auto. apply (below_le y x); tauto.
Qed.
Lemma below_max (x y : FT) r : nonnan x -> nonnan y -> (below (smax x y) r <-> below x r /\ below y r).
Proof.
  intros Nx Ny. destruct (smax_spec x y Nx Ny) as ([H|H] & H1 & H2); rewrite H in *; apply fle_E in H1; apply fle_E in H2.
  - split; [|tauto]. intros Hx. split; auto. apply (below_le y x); tauto.
  - split; [|tauto]. intros Hx. split; auto. apply (below_le x y); tauto.
Qed.
Lemma above_max (x y : FT) r : nonnan x -> nonnan y -> (above (smax x y) r <-> above x r \/ above y r).
Proof.
  intros Nx Ny. destruct (smax_spec x y Nx Ny) as ([H|H] & H1 & H2); rewrite H in *; apply fle_E in H1; apply fle_E in H2.
  - split; auto. intros [Hx|Hy]; auto. apply (above_ge x y); tauto.
  - split; auto. intros [Hx|Hy]; auto. apply (above_ge y x); tauto.
Qed.
Lemma above_min (x y : FT) r : nonnan x -> nonnan y -> (above (smin x y) r <-> above x r /\ above y r).
Proof.
  intros Nx Ny. destruct (smin_spec x y Nx Ny) as ([H|H] & H1 & H2); rewrite H in *; apply fle_E in H1; apply fle_E in H2.
  - split; [|tauto]. intros Hx. split; auto. apply (above_ge y x); tauto.
  - split; [|tauto]. intros Hx. split; auto. apply (above_ge x y); tauto.
Qed.
Lemma below_neg (x : FT) r : below (fneg x) (- r) <-> above x r.
Proof. destruct x as [|[]| |s mm e B]; try easy; unfold below, above; cbn [fneg Bopp]; try (simpl; intuition lra).
  change (B754_finite (negb s) mm e B) with (fneg (B754_finite s mm e B : FT)). rewrite fneg_B2R. lra. Qed.
Lemma above_neg (x : FT) r : above (fneg x) (- r) <-> below x r.
Proof. destruct x as [|[]| |s mm e B]; try easy; unfold below, above; cbn [fneg Bopp]; try (simpl; intuition lra).
  change (B754_finite (negb s) mm e B) with (fneg (B754_finite s mm e B : FT)). rewrite fneg_B2R. lra. Qed.
End B.
