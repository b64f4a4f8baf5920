(** The slab test at f32/f64: rounding analysis. *)
From Coq Require Import ZArith Reals Bool Lra Lia Psatz.
From Coq Require Vector Fin.
From Flocq Require Import Core BinarySingleNaN Relative Plus_error.
From Verif.Model Require Import FloatBase Scalar Float Interval Outcome Vec Transform XReal Geometry.
From Verif Require Import Spec SpecGeom SpecShape.
From Verif.Proofs Require Import BitsLemmas FloatLemmas ScalarProofs VectorFloat BoxFloat BoxExact.
Open Scope R_scope.

Section S.
Context {f : fmt} {m : libm f}.
Notation FT := (float f).
Notation "v @ i" := (Vector.nth v i) (at level 20, only parsing).
Notation u := (unit_roundoff f).
Notation eta := (smallest_float f / 2).
Notation top := (bpow radix2 (emax f)).
Notation rnd := (rndf f).
Notation g := (2 * unit_roundoff f + unit_roundoff f * unit_roundoff f).

Lemma u_lt1 : 0 < u < 1.
Proof. split; [apply u_pos|]. unfold unit_roundoff. change 1 with (bpow radix2 0). apply bpow_lt. destruct f; reflexivity. Qed.
Lemma round_err x : Rabs (rnd x - x) <= u * Rabs x + eta.
Proof.
  destruct (error_N_FLT radix2 (3 - emax f - prec f) (prec f) ltac:(destruct f; reflexivity) (fun z => negb (Z.even z)) x) as (eps & et & H1 & H2 & _ & H3).
  change (rnd x) with (round radix2 (FLT_exp (3 - emax f - prec f) (prec f)) (Znearest (fun z => negb (Z.even z))) x).
  rewrite H3. replace (_ - _) with (x * eps + et) by ring.
  eapply Rle_trans; [apply Rabs_triang|]. apply Rplus_le_compat.
  - rewrite Rabs_mult, Rmult_comm. apply Rmult_le_compat_r; [apply Rabs_pos|]. rewrite <- (half_u (f := f)). exact H1.
  - unfold smallest_float. lra.
Qed.
Lemma sub_rel (x y : FT) : finite x -> finite y -> finite (fsub x y) -> Rabs (B2R (fsub x y) - (B2R x - B2R y)) <= u * Rabs (B2R x - B2R y).
Proof.
  intros Fx Fy F. rewrite (Rnd_finite _ _ (fsub_fadd x y Fx Fy) F).
  destruct (FLT_plus_error_N_ex radix2 (3 - emax f - prec f) (prec f) (fun z => negb (Z.even z)) (B2R x) (- B2R y)) as (eps & H1 & H2).
  { apply (generic_format_B2R (prec f) (emax f)). }
  { apply generic_format_opp, (generic_format_B2R (prec f) (emax f)). }
  change (rnd (B2R x - B2R y)) with (round radix2 (FLT_exp (3 - emax f - prec f) (prec f)) (Znearest (fun z => negb (Z.even z))) (B2R x + - B2R y)).
  rewrite H2. replace (_ - _) with ((B2R x - B2R y) * eps) by ring.
  rewrite Rabs_mult, Rmult_comm. apply Rmult_le_compat_r; [apply Rabs_pos|].
  eapply Rle_trans; [exact H1|]. assert (Eu : u_ro radix2 (prec f) = u) by (unfold u_ro; apply half_u).
  rewrite Eu. apply (Rmult_le_reg_r (1 + u)); [pose proof (u_pos (f := f)); lra|]. unfold Rdiv. rewrite Rmult_assoc, Rinv_l by (pose proof (u_pos (f := f)); lra).
  pose proof (u_pos (f := f)). nra.
Qed.

(** ** One axis *)
Definition vlo (z : FT) : R := if BinarySingleNaN.is_nan z then - top else E z.
Definition vhi (z : FT) : R := if BinarySingleNaN.is_nan z then top else E z.
(** [L], [H]: the values used by the test for a slab; either both are accurate, or the direction
    has no component along the axis *)
Definition AX (l h o d : R) (ex : Prop) (L H : R) : Prop :=
  (exists x y X Y, x <= y /\ (forall s, l <= o + s * d <= h <-> x <= s <= y) /\ Rabs (X - x) <= u * Rabs x /\ Rabs (Y - y) <= u * Rabs y /\
     L = clampE (f := f) (rnd X) /\ H = clampE (f := f) (rnd Y) /\ (ex -> X = x /\ Y = y)) \/
  ((forall s, l <= o + s * d <= h) /\ L = - top /\ H = top) \/
  ((forall s, ~ (l <= o + s * d <= h)) /\ L = H /\ (L = top \/ L = - top)).

Lemma fdiv0 (a d : FT) : finite a -> finite d -> B2R d = 0 ->
  (B2R a = 0 /\ BinarySingleNaN.is_nan (fdiv a d) = true) \/ (B2R a <> 0 /\ exists s, fdiv a d = finf s /\ s = xorb (Bsign a) (Bsign d)).
Proof.
  intros Fa Fd Hd. destruct d as [sd| | |sd md ed Bd]; try discriminate.
  2:{ exfalso. simpl in Hd. apply eq_0_F2R in Hd. destruct sd; discriminate. }
  destruct a as [sa| | |sa ma ea Ba]; try discriminate; [left|right]; (split; [|]).
  - reflexivity.
  - reflexivity.
  - intros H. simpl in H. apply eq_0_F2R in H. destruct sa; discriminate.
  - eexists. split; reflexivity.
Qed.
Lemma rnd_sub0 (x y : FT) : finite x -> finite y -> finite (fsub x y) -> (B2R (fsub x y) = 0 <-> B2R x = B2R y).
Proof.
  intros Fx Fy F. assert (K := sub_rel x y Fx Fy F). pose proof u_lt1. split; intros H1.
  - rewrite H1 in K. destruct (Req_dec (B2R x - B2R y) 0) as [Z|NZ]; [lra|]. exfalso. apply Rabs_pos_lt in NZ.
    replace (0 - (B2R x - B2R y)) with (- (B2R x - B2R y)) in K by ring. rewrite Rabs_Ropp in K. nra.
  - rewrite H1 in K. replace (B2R y - B2R y) with 0 in K by ring. rewrite Rabs_R0 in K. replace (B2R (fsub x y) - 0) with (B2R (fsub x y)) in K by ring.
    rewrite Rmult_0_r in K. destruct (Req_dec (B2R (fsub x y)) 0) as [Z|NZ]; [assumption|]. apply Rabs_pos_lt in NZ. lra.
Qed.
Lemma rnd_sub_sign (x y : FT) : finite x -> finite y -> finite (fsub x y) -> (B2R x < B2R y -> B2R (fsub x y) < 0) /\ (B2R y < B2R x -> 0 < B2R (fsub x y)).
Proof.
  intros Fx Fy F. assert (K := sub_rel x y Fx Fy F). pose proof u_lt1. split; intros H1; apply Rabs_le_inv in K;
    [rewrite Rabs_left in K by lra|rewrite Rabs_pos_eq in K by lra]; nra.
Qed.
Lemma clampE_rng x : - top <= clampE (f := f) x <= top.
Proof. unfold clampE. assert (P := bpow_gt_0 radix2 (emax f)). split; [apply Rmax_l|]. apply Rmax_lub; [lra|apply Rmin_l]. Qed.

Lemma vlo_of (z : FT) r : nonnan z -> E z = r -> vlo z = r.
Proof. unfold vlo, nonnan. intros -> K. exact K. Qed.
Lemma vhi_of (z : FT) r : nonnan z -> E z = r -> vhi z = r.
Proof. unfold vhi, nonnan. intros -> K. exact K. Qed.
Lemma v_nan (z : FT) : BinarySingleNaN.is_nan z = true -> vlo z = - top /\ vhi z = top.
Proof. unfold vlo, vhi. intros ->. split; reflexivity. Qed.
Lemma t12_nn (l h o d : FT) : nonnan (fdiv (fsub l o) d) -> nonnan (fdiv (fsub h o) d) ->
  vlo (t1ax l h o d) = Rmin (E (fdiv (fsub l o) d)) (E (fdiv (fsub h o) d)) /\ vhi (t2ax l h o d) = Rmax (E (fdiv (fsub l o) d)) (E (fdiv (fsub h o) d)).
Proof.
  intros N1 N2. destruct (smin_E _ _ N1 N2) as [A B]. destruct (smax_E _ _ N1 N2) as [A' B']. split; [exact (vlo_of _ _ A B)|exact (vhi_of _ _ A' B')].
Qed.
Lemma t12_nan (l h o d : FT) : BinarySingleNaN.is_nan (fdiv (fsub h o) d) = true -> vlo (t1ax l h o d) = - top /\ vhi (t2ax l h o d) = top.
Proof.
  intros N. destruct (min_max_nan (fdiv (fsub l o) d) (fdiv (fsub h o) d)) as (A & B & _); [right; unfold nonnan; rewrite N; discriminate|].
  destruct (v_nan _ N) as [V1 V2]. split; [exact (eq_trans (f_equal vlo A) V1)|exact (eq_trans (f_equal vhi B) V2)].
Qed.

Lemma axis_float (l h o d : FT) : finite l -> finite h -> finite o -> finite d -> finite (fsub l o) -> finite (fsub h o) ->
  B2R l <= B2R h -> ~ grazes (B2R l) (B2R h) (B2R o) (B2R d) ->
  AX (B2R l) (B2R h) (B2R o) (B2R d) (B2R (fsub l o) = B2R l - B2R o /\ B2R (fsub h o) = B2R h - B2R o) (vlo (t1ax l h o d)) (vhi (t2ax l h o d)).
Proof.
  intros Fl Fh Fo Fd Fa Fb LH NG. assert (T0 := t12_nn l h o d). assert (T1 := t12_nan l h o d).
  set (a := fsub l o) in *. set (b := fsub h o) in *.
  assert (MN : B2R a <= B2R b). { unfold a, b. rewrite (Rnd_finite _ _ (fsub_fadd l o Fl Fo) Fa), (Rnd_finite _ _ (fsub_fadd h o Fh Fo) Fb). apply rnd_le. lra. }
  assert (RA := sub_rel l o Fl Fo Fa). assert (RB := sub_rel h o Fh Fo Fb). fold a in RA. fold b in RB.
  destruct (Req_dec (B2R d) 0) as [D0|DN].
  - (* no motion along this axis *)
    right. assert (FD := fdiv0 a d Fa Fd D0). assert (FD' := fdiv0 b d Fb Fd D0).
    assert (Za := rnd_sub0 l o Fl Fo Fa). assert (Zb := rnd_sub0 h o Fh Fo Fb). fold a in Za. fold b in Zb.
    destruct (rnd_sub_sign l o Fl Fo Fa) as [SA1 SA2]. destruct (rnd_sub_sign h o Fh Fo Fb) as [SB1 SB2]. fold a in SA1, SA2. fold b in SB1, SB2.
    destruct (finite_sign a Fa) as [TA1 TA2]. destruct (finite_sign b Fb) as [TB1 TB2].
    assert (SS : forall s, B2R o + s * B2R d = B2R o) by (intros; rewrite D0; ring).
    destruct (Rlt_le_dec (B2R o) (B2R l)) as [C1|C1]; [|destruct (Rlt_le_dec (B2R h) (B2R o)) as [C2|C2]].
    + right. split; [intros s; rewrite SS; lra|]. destruct FD as [[E1 _]|[_ (s1 & Q1 & S1)]]; [apply Za in E1; lra|]. destruct FD' as [[E1 _]|[_ (s2 & Q2 & S2)]]; [apply Zb in E1; lra|].
      rewrite TA1 in S1 by (apply SA2; lra). rewrite TB1 in S2 by (apply SB2; lra). rewrite Q1, Q2, S1, S2 in T0. destruct (T0 eq_refl eq_refl) as [-> ->]. destruct (Bsign d); cbn [xorb E finf]; rewrite ?Rmin_left, ?Rmax_left by lra; split; try reflexivity; [right|left]; reflexivity.
    + right. split; [intros s; rewrite SS; lra|]. destruct FD as [[E1 _]|[_ (s1 & Q1 & S1)]]; [apply Za in E1; lra|]. destruct FD' as [[E1 _]|[_ (s2 & Q2 & S2)]]; [apply Zb in E1; lra|].
      rewrite TA2 in S1 by (apply SA1; lra). rewrite TB2 in S2 by (apply SB1; lra). rewrite Q1, Q2, S1, S2 in T0. destruct (T0 eq_refl eq_refl) as [-> ->]. destruct (Bsign d); cbn [xorb E finf]; rewrite ?Rmin_left, ?Rmax_left by lra; split; try reflexivity; [left|right]; reflexivity.
    + left. split; [intros s; rewrite SS; lra|]. destruct FD' as [[E1 N2]|[N2 (s2 & Q2 & S2)]].
      * exact (T1 N2).
      * assert (HO : B2R o < B2R h). { destruct C2 as [C2|C2]; [exact C2|]. exfalso. apply N2, Zb. now symmetry. }
        assert (LO : B2R l < B2R o). { destruct C1 as [C1|C1]; [exact C1|]. exfalso. apply NG. split; [exact D0|]. split; [now symmetry|]. lra. }
        destruct FD as [[E1 _]|[_ (s1 & Q1 & S1)]]; [apply Za in E1; lra|].
        rewrite TA2 in S1 by (apply SA1; lra). rewrite TB1 in S2 by (apply SB2; lra). rewrite Q1, Q2, S1, S2 in T0. destruct (T0 eq_refl eq_refl) as [-> ->]. assert (TP := bpow_gt_0 radix2 (emax f)). destruct (Bsign d); cbn [xorb E finf]; [rewrite Rmin_right, Rmax_left by lra|rewrite Rmin_left, Rmax_right by lra]; split; reflexivity.
  - left.
    assert (Q1 := fdiv_Rnd a d Fa Fd DN). assert (Q2 := fdiv_Rnd b d Fb Fd DN).
    destruct (T0 (proj1 Q1) (proj1 Q2)) as [-> ->]. rewrite (proj2 Q1), (proj2 Q2).
    assert (DV : forall v w, Rabs (v - w) <= u * Rabs w -> Rabs (v / B2R d - w / B2R d) <= u * Rabs (w / B2R d)).
    { intros v w K. replace (v / B2R d - w / B2R d) with ((v - w) * / B2R d) by (unfold Rdiv; ring). unfold Rdiv. rewrite !Rabs_mult. rewrite <- Rmult_assoc. apply Rmult_le_compat_r; [apply Rabs_pos|exact K]. }
    assert (CM : forall p q, p <= q -> clampE (f := f) (rnd p) <= clampE (f := f) (rnd q)) by (intros p q K; apply clampE_le, rnd_le, K).
    destruct (Rdichotomy _ _ DN) as [Dn|Dp].
    + exists ((B2R h - B2R o) / B2R d), ((B2R l - B2R o) / B2R d), (B2R b / B2R d), (B2R a / B2R d).
      assert (I0 : / B2R d < 0) by now apply Rinv_lt_0_compat.
      assert (O1 : B2R b / B2R d <= B2R a / B2R d) by (unfold Rdiv; nra).
      split; [unfold Rdiv; nra|]. split; [|split; [now apply DV|split; [now apply DV|split; [now apply Rmin_right, CM|split; [now apply Rmax_left, CM|intros [-> ->]; split; reflexivity]]]]].
      intros s. assert (R1 : (B2R h - B2R o) / B2R d * B2R d = B2R h - B2R o) by (field; lra). assert (R2 : (B2R l - B2R o) / B2R d * B2R d = B2R l - B2R o) by (field; lra).
      split; intros [K1 K2]; split; nra.
    + exists ((B2R l - B2R o) / B2R d), ((B2R h - B2R o) / B2R d), (B2R a / B2R d), (B2R b / B2R d).
      assert (I0 : 0 < / B2R d) by now apply Rinv_0_lt_compat.
      assert (O1 : B2R a / B2R d <= B2R b / B2R d) by (unfold Rdiv; nra).
      split; [unfold Rdiv; nra|]. split; [|split; [now apply DV|split; [now apply DV|split; [now apply Rmin_left, CM|split; [now apply Rmax_right, CM|intros [-> ->]; split; reflexivity]]]]].
      intros s. assert (R1 : (B2R h - B2R o) / B2R d * B2R d = B2R h - B2R o) by (field; lra). assert (R2 : (B2R l - B2R o) / B2R d * B2R d = B2R l - B2R o) by (field; lra).
      split; intros [K1 K2]; split; nra.
Qed.

Lemma ax_hit l h o d (ex : Prop) L H t : AX l h o d ex L H -> 0 <= t ->
  (ex /\ l <= o + t * d <= h \/ l <= o + t / (1 + u) * d <= h /\ l <= o + t / (1 - u) * d <= h) ->
  L <= clampE (f := f) (rnd t) <= H.
Proof.
  intros A T C. pose proof u_lt1 as U. assert (CR := clampE_rng (rnd t)).
  destruct A as [(x & y & X & Y & XY & S & EX & EY & -> & -> & EQ)|[(S & -> & ->)|(S & _)]].
  - assert (K : X <= t <= Y); [|split; apply clampE_le, rnd_le; lra].
    destruct C as [[e C]|[C1 C2]].
    + destruct (EQ e) as [-> ->]. apply S, C.
    + apply S in C1. apply S in C2. apply Rabs_le_inv in EX. apply Rabs_le_inv in EY.
      assert (P1 : t / (1 + u) * (1 + u) = t) by (field; lra). assert (P2 : t / (1 - u) * (1 - u) = t) by (field; lra).
      assert (0 <= t / (1 + u)) by (apply Rmult_le_pos; [lra|left; apply Rinv_0_lt_compat; lra]).
      assert (0 <= t / (1 - u)) by (apply Rmult_le_pos; [lra|left; apply Rinv_0_lt_compat; lra]).
      split.
      * destruct (Rle_lt_dec 0 x); [rewrite Rabs_pos_eq in EX by lra|rewrite Rabs_left in EX by lra]; nra.
      * rewrite (Rabs_pos_eq y) in EY by lra. nra.
  - exact CR.
  - exfalso. destruct C as [[_ C]|[C _]]; exact (S _ C).
Qed.

Lemma ax_sound l h o d (ex : Prop) L H t : AX l h o d ex L H -> 0 <= t < top -> L <= t <= H ->
  exists s, l <= o + s * d <= h /\ Rabs (s - t) <= g * Rabs s + eta.
Proof.
  intros A T C. pose proof u_lt1 as U. pose proof (eta_pos (f := f)) as EP. assert (TP := bpow_gt_0 radix2 (emax f)).
  destruct A as [(x & y & X & Y & XY & S & EX & EY & -> & -> & EQ)|[(S & -> & ->)|(S & -> & [-> | ->])]].
  - assert (NE : forall s, x <= s <= y -> l <= o + s * d <= h) by (intros s; apply S).
    assert (RX := round_err X). assert (RY := round_err Y).
    assert (K1 : rnd X <= t). { destruct C as [C _]. unfold clampE in C. assert (Q := Rmax_r (- top) (Rmin top (rnd X))). unfold Rmin in *. destruct (Rle_dec top (rnd X)); lra. }
    assert (K2 : t <= rnd Y). { destruct C as [_ C]. unfold clampE in C. unfold Rmax, Rmin in C. destruct (Rle_dec top (rnd Y)); destruct (Rle_dec (- top) _); lra. }
    assert (BX : Rabs X <= (1 + u) * Rabs x). { replace X with ((X - x) + x) by ring. eapply Rle_trans; [apply Rabs_triang|]. lra. }
    assert (BY : Rabs Y <= (1 + u) * Rabs y). { replace Y with ((Y - y) + y) by ring. eapply Rle_trans; [apply Rabs_triang|]. lra. }
    assert (PX := Rabs_pos x). assert (PY := Rabs_pos y).
    apply Rabs_le_inv in EX. apply Rabs_le_inv in EY. apply Rabs_le_inv in RX. apply Rabs_le_inv in RY.
    destruct (Rlt_le_dec t x) as [C1|C1]; [|destruct (Rlt_le_dec y t) as [C2|C2]].
    + exists x. split; [apply NE; lra|]. rewrite Rabs_pos_eq by lra. nra.
    + exists y. split; [apply NE; lra|]. rewrite Rabs_left by lra. nra.
    + exists t. split; [apply NE; lra|]. replace (t - t) with 0 by ring. rewrite Rabs_R0. pose proof (Rabs_pos t). nra.
  - exists t. split; [apply S|]. replace (t - t) with 0 by ring. rewrite Rabs_R0. pose proof (Rabs_pos t). nra.
  - lra.
  - lra.
Qed.

(** ** Three axes *)
Lemma vlo_rng (z : FT) : - top <= vlo z <= top.
Proof. unfold vlo. assert (TP := bpow_gt_0 radix2 (emax f)). destruct BinarySingleNaN.is_nan; [lra|]. apply E_range. Qed.
Lemma vhi_rng (z : FT) : - top <= vhi z <= top.
Proof. unfold vhi. assert (TP := bpow_gt_0 radix2 (emax f)). destruct BinarySingleNaN.is_nan; [lra|]. apply E_range. Qed.
Lemma nmax_nan (x y : FT) : (BinarySingleNaN.is_nan x = true -> nmax x y = y) /\ (BinarySingleNaN.is_nan x = false -> BinarySingleNaN.is_nan y = true -> nmax x y = x).
Proof. cbn [nmax float_native]. unfold native_max. split; [intros -> |intros -> ->]; reflexivity. Qed.
Lemma nmin_nan (x y : FT) : (BinarySingleNaN.is_nan x = true -> nmin x y = y) /\ (BinarySingleNaN.is_nan x = false -> BinarySingleNaN.is_nan y = true -> nmin x y = x).
Proof. cbn [nmin float_native]. unfold native_min. split; [intros -> |intros -> ->]; reflexivity. Qed.
Lemma vlo_nmax (x y : FT) : vlo (nmax x y) = Rmax (vlo x) (vlo y).
Proof.
  assert (Rx := vlo_rng x). assert (Ry := vlo_rng y). destruct (nmax_nan x y) as [K1 K2].
  destruct (BinarySingleNaN.is_nan x) eqn:Nx.
  - rewrite K1 by reflexivity. rewrite (proj1 (v_nan x Nx)). rewrite Rmax_right; lra.
  - destruct (BinarySingleNaN.is_nan y) eqn:Ny.
    + rewrite K2 by reflexivity. rewrite (proj1 (v_nan y Ny)). rewrite Rmax_left; lra.
    + destruct (nmax_E x y Nx Ny) as [N Q]. rewrite (vlo_of _ _ N Q). unfold vlo. rewrite Nx, Ny. reflexivity.
Qed.
Lemma vhi_nmin (x y : FT) : vhi (nmin x y) = Rmin (vhi x) (vhi y).
Proof.
  assert (Rx := vhi_rng x). assert (Ry := vhi_rng y). destruct (nmin_nan x y) as [K1 K2].
  destruct (BinarySingleNaN.is_nan x) eqn:Nx.
  - rewrite K1 by reflexivity. rewrite (proj2 (v_nan x Nx)). rewrite Rmin_right; lra.
  - destruct (BinarySingleNaN.is_nan y) eqn:Ny.
    + rewrite K2 by reflexivity. rewrite (proj2 (v_nan y Ny)). rewrite Rmin_left; lra.
    + destruct (nmin_E x y Nx Ny) as [N Q]. rewrite (vhi_of _ _ N Q). unfold vhi. rewrite Nx, Ny. reflexivity.
Qed.
Lemma gt_lo (x y : FT) : nonnan y -> (sgt x y = true <-> E y < vlo x).
Proof.
  intros Ny. rewrite sgt_spec, flt_E. assert (R := E_range y). unfold vlo. destruct (BinarySingleNaN.is_nan x) eqn:Nx.
  - split; [intros (_ & N & _); unfold nonnan in N; congruence|lra].
  - unfold nonnan. tauto.
Qed.
Lemma gt_lohi (x y : FT) : sgt x y = true <-> vhi y < vlo x.
Proof.
  rewrite sgt_spec, flt_E. assert (R := vlo_rng x). assert (R' := vhi_rng y). unfold vlo, vhi in *. destruct (BinarySingleNaN.is_nan x) eqn:Nx, (BinarySingleNaN.is_nan y) eqn:Ny; unfold nonnan;
  (split; [intros (N1 & N2 & K); try congruence; try lra|intros K; try lra; tauto]).
Qed.
Lemma lt_hi0 (x : FT) : slt x szero = true <-> vhi x < 0.
Proof.
  assert (S := slt_spec x (fzero false)). rewrite flt_E in S. change (E (fzero false : FT)) with 0 in S. unfold vhi. assert (TP := bpow_gt_0 radix2 (emax f)). destruct (BinarySingleNaN.is_nan x) eqn:Nx; unfold nonnan in S.
  - split; [intros K; apply S in K; destruct K as [K _]; congruence|lra].
  - split; [intros K; apply S in K; tauto|]. intros K. apply S. repeat split; auto.
Qed.

Definition Lx (b : bbox FT) (r : ray FT) (i : Fin.t 3) : R := vlo (t1ax (pmin b @ i) (pmax b @ i) (origin r @ i) (direction r @ i)).
Definition Hx (b : bbox FT) (r : ray FT) (i : Fin.t 3) : R := vhi (t2ax (pmin b @ i) (pmax b @ i) (origin r @ i) (direction r @ i)).
Lemma slab_float (b : bbox FT) (r : ray FT) : nonnan (tmax r) ->
  match b_intersect_ray b r with
  | None => exists i j, E (tmax r) < Lx b r i \/ Hx b r i < 0 \/ Hx b r j < Lx b r i
  | Some (x, y) => (forall i j, Lx b r i <= E (tmax r) /\ 0 <= Hx b r i /\ Lx b r i <= Hx b r j) /\
      (nonnan x /\ 0 <= E x /\ (forall i, Lx b r i <= E x) /\ (E x = 0 \/ exists i, E x = Lx b r i)) /\
      (nonnan y /\ E y <= E (tmax r) /\ (forall i, E y <= Hx b r i) /\ (E y = E (tmax r) \/ exists i, E y = Hx b r i))
  end.
Proof.
  intros Nt. assert (K := slab_eq b r). cbv zeta beta in K. rewrite K. clear K.
  set (n1 := t1ax (vx (pmin b)) _ _ _). set (n2 := t1ax (vy (pmin b)) _ _ _). set (n3 := t1ax (vz (pmin b)) _ _ _).
  set (h1 := t2ax (vx (pmin b)) _ _ _). set (h2 := t2ax (vy (pmin b)) _ _ _). set (h3 := t2ax (vz (pmin b)) _ _ _).
  assert (L1 : Lx b r Fin.F1 = vlo n1) by reflexivity. assert (L2 : Lx b r (Fin.FS Fin.F1) = vlo n2) by reflexivity. assert (L3 : Lx b r (Fin.FS (Fin.FS Fin.F1)) = vlo n3) by reflexivity.
  assert (H1 : Hx b r Fin.F1 = vhi h1) by reflexivity. assert (H2 : Hx b r (Fin.FS Fin.F1) = vhi h2) by reflexivity. assert (H3 : Hx b r (Fin.FS (Fin.FS Fin.F1)) = vhi h3) by reflexivity.
  clearbody n1 n2 n3 h1 h2 h3. set (near := nmax (nmax n1 n2) n3). set (far := nmin (nmin h1 h2) h3).
  assert (VN : vlo near = Rmax (Rmax (vlo n1) (vlo n2)) (vlo n3)). { unfold near. rewrite !vlo_nmax. reflexivity. }
  assert (VF : vhi far = Rmin (Rmin (vhi h1) (vhi h2)) (vhi h3)). { unfold far. rewrite !vhi_nmin. reflexivity. }
  clearbody near far.
  assert (UB : forall i, Lx b r i <= vlo near). { apply forall3. rewrite L1, L2, L3, VN. assert (A := Rmax_l (vlo n1) (vlo n2)). assert (B := Rmax_r (vlo n1) (vlo n2)). assert (C := Rmax_l (Rmax (vlo n1) (vlo n2)) (vlo n3)). assert (D := Rmax_r (Rmax (vlo n1) (vlo n2)) (vlo n3)). repeat split; lra. }
  assert (AB : exists i, vlo near = Lx b r i). { rewrite VN. unfold Rmax at 1. destruct Rle_dec; [exists (Fin.FS (Fin.FS Fin.F1)); auto|]. unfold Rmax. destruct Rle_dec; [exists (Fin.FS Fin.F1)|exists Fin.F1]; auto. }
  assert (LB : forall i, vhi far <= Hx b r i). { apply forall3. rewrite H1, H2, H3, VF. assert (A := Rmin_l (vhi h1) (vhi h2)). assert (B := Rmin_r (vhi h1) (vhi h2)). assert (C := Rmin_l (Rmin (vhi h1) (vhi h2)) (vhi h3)). assert (D := Rmin_r (Rmin (vhi h1) (vhi h2)) (vhi h3)). repeat split; lra. }
  assert (AF : exists i, vhi far = Hx b r i). { rewrite VF. unfold Rmin at 1. destruct Rle_dec; [|exists (Fin.FS (Fin.FS Fin.F1)); auto]. unfold Rmin. destruct Rle_dec; [exists Fin.F1|exists (Fin.FS Fin.F1)]; auto. }
  destruct AB as [ia AB]. destruct AF as [jf AF].
  assert (G1 := gt_lo near (tmax r) Nt). assert (G2 := lt_hi0 far). assert (G3 := gt_lohi near far).
  destruct (sgt near (tmax r)) eqn:C1.
  { cbn [orb]. exists ia, ia. left. rewrite <- AB. apply G1. reflexivity. }
  destruct (slt far szero) eqn:C2.
  { cbn [orb]. exists jf, jf. right. left. rewrite <- AF. apply G2. reflexivity. }
  destruct (sgt near far) eqn:C3.
  { cbn [orb]. exists ia, jf. right. right. rewrite <- AB, <- AF. apply G3. reflexivity. }
  cbn [orb]. assert (N1 : vlo near <= E (tmax r)). { apply Rnot_lt_le. intros Q. apply G1 in Q. discriminate. }
  assert (N2 : 0 <= vhi far). { apply Rnot_lt_le. intros Q. apply G2 in Q. discriminate. }
  assert (N3 : vlo near <= vhi far). { apply Rnot_lt_le. intros Q. apply G3 in Q. discriminate. }
  split; [|split].
  - intros i j. specialize (UB i). assert (LB' := LB i). specialize (LB j). repeat split; lra.
  - assert (Z : nonnan (nmax near (fzero false : FT)) /\ E (nmax near (fzero false : FT)) = Rmax (vlo near) 0).
    { destruct (BinarySingleNaN.is_nan near) eqn:NN.
      - rewrite (proj1 (nmax_nan _ _) NN). rewrite (proj1 (v_nan _ NN)). split; [reflexivity|]. change (E (fzero false : FT)) with 0. assert (TP := bpow_gt_0 radix2 (emax f)). rewrite Rmax_right; lra.
      - destruct (nmax_E near (fzero false) NN eq_refl) as [A B]. split; [exact A|]. rewrite B. unfold vlo. rewrite NN. reflexivity. }
    destruct Z as [Z1 Z2]. split; [exact Z1|]. change (E (nmax near szero)) with (E (nmax near (fzero false : FT))). rewrite Z2. split; [apply Rmax_r|]. split.
    + intros i. eapply Rle_trans; [apply UB|apply Rmax_l].
    + unfold Rmax. destruct Rle_dec; [left; reflexivity|right; exists ia; exact AB].
  - assert (Z : nonnan (nmin far (tmax r)) /\ E (nmin far (tmax r)) = Rmin (vhi far) (E (tmax r))).
    { assert (Rt := E_range (tmax r)). destruct (BinarySingleNaN.is_nan far) eqn:NN.
      - rewrite (proj1 (nmin_nan _ _) NN). rewrite (proj2 (v_nan _ NN)). split; [exact Nt|]. rewrite Rmin_right; lra.
      - destruct (nmin_E far (tmax r) NN Nt) as [A B]. split; [exact A|]. rewrite B. unfold vhi. rewrite NN. reflexivity. }
    destruct Z as [Z1 Z2]. split; [exact Z1|]. rewrite Z2. split; [apply Rmin_r|]. split.
    + intros i. eapply Rle_trans; [apply Rmin_l|apply LB].
    + unfold Rmin. destruct Rle_dec; [right; exists jf; exact AF|left; reflexivity].
Qed.

Lemma in_box_at (b : bbox FT) (r : ray FT) t : ray_in_box b r t <-> forall i, B2R (pmin b @ i) <= B2R (origin r @ i) + t * B2R (direction r @ i) <= B2R (pmax b @ i).
Proof. rewrite forall3. unfold ray_in_box, in_box, le3, at_ray, add3, scl3, f3. cbn [cX cY cZ]. tauto. Qed.
Lemma no_graze_at (b : bbox FT) (r : ray FT) : ray_no_graze b r -> forall i, ~ grazes (B2R (pmin b @ i)) (B2R (pmax b @ i)) (B2R (origin r @ i)) (B2R (direction r @ i)).
Proof. intros H. rewrite forall3. exact H. Qed.

Section T.
Variables (b : bbox FT) (r : ray FT).
Hypothesis BF : box_finite b.
Hypothesis BO : box_ordered b.
Hypothesis RF : ray_finite r.
Hypothesis NG : ray_no_graze b r.
Hypothesis NO : forall i, finite (fsub (pmin b @ i) (origin r @ i)) /\ finite (fsub (pmax b @ i) (origin r @ i)).

Lemma axes i : AX (B2R (pmin b @ i)) (B2R (pmax b @ i)) (B2R (origin r @ i)) (B2R (direction r @ i))
  (B2R (fsub (pmin b @ i) (origin r @ i)) = B2R (pmin b @ i) - B2R (origin r @ i) /\ B2R (fsub (pmax b @ i) (origin r @ i)) = B2R (pmax b @ i) - B2R (origin r @ i)) (Lx b r i) (Hx b r i).
Proof.
  destruct (BF i) as [F1 F2]. destruct RF as (F3 & F4 & F5). destruct (NO i) as [N1 N2].
  apply axis_float; auto; [|now apply no_graze_at]. assert (O := BO i). apply fle_E in O. rewrite !E_B2R in O by assumption. tauto.
Qed.
Lemma tm_E : E (tmax r) = B2R (tmax r) /\ nonnan (tmax r) /\ E (tmax r) < top.
Proof. destruct RF as (_ & _ & F). split; [now apply E_B2R|]. split; [now apply nonnan_of_finite|]. apply finite_E_range, F. Qed.

Lemma between_hits c : (forall i, Lx b r i <= c <= Hx b r i) -> 0 <= c <= E (tmax r) -> b_do_intersect b r = true.
Proof.
  intros K C. destruct tm_E as (_ & N & _). assert (S := slab_float b r N). unfold b_do_intersect. destruct (b_intersect_ray b r) as [[x y]|]; [reflexivity|].
  exfalso. destruct S as (i & j & S). assert (Ki := K i). specialize (K j). lra.
Qed.
Lemma clamp_t t : 0 <= t <= B2R (tmax r) -> 0 <= clampE (f := f) (rnd t) <= E (tmax r).
Proof.
  intros T. split.
  - assert (Z : clampE (f := f) (rnd 0) = 0). { rewrite (rnd_0 (f := f)). exact (clampE_E (fzero false : FT)). }
    rewrite <- Z. apply clampE_le, rnd_le. apply T.
  - rewrite <- (clampE_E (tmax r)), <- (rnd_E (tmax r)). apply clampE_le, rnd_le. rewrite (proj1 tm_E). lra.
Qed.
Lemma slab_complete t : 0 <= t <= B2R (tmax r) -> (forall s, t / (1 + u) <= s <= t / (1 - u) -> ray_in_box b r s) -> b_do_intersect b r = true.
Proof.
  intros T K. pose proof u_lt1 as U. assert (O : t / (1 + u) <= t / (1 - u)). { unfold Rdiv. apply Rmult_le_compat_l; [lra|]. apply Rinv_le; lra. }
  apply (between_hits (clampE (f := f) (rnd t))); [|now apply clamp_t].
  intros i. eapply ax_hit; [apply axes|lra|]. right. split; [apply (proj1 (in_box_at b r _) (K (t / (1 + u)) ltac:(lra)))|apply (proj1 (in_box_at b r _) (K (t / (1 - u)) ltac:(lra)))].
Qed.
Lemma slab_exact_diffs t : (forall i, B2R (fsub (pmin b @ i) (origin r @ i)) = B2R (pmin b @ i) - B2R (origin r @ i) /\ B2R (fsub (pmax b @ i) (origin r @ i)) = B2R (pmax b @ i) - B2R (origin r @ i)) ->
  0 <= t <= B2R (tmax r) -> ray_in_box b r t -> b_do_intersect b r = true.
Proof.
  intros EX T K. apply (between_hits (clampE (f := f) (rnd t))); [|now apply clamp_t].
  intros i. eapply ax_hit; [apply axes|lra|]. left. split; [apply EX|apply (proj1 (in_box_at b r _) K)].
Qed.
Hypothesis TM : 0 <= B2R (tmax r).
Lemma slab_sound : b_do_intersect b r = true -> exists t, 0 <= t <= B2R (tmax r) /\
  forall i, exists s, Rabs (s - t) <= g * Rabs s + eta /\ B2R (pmin b @ i) <= B2R (origin r @ i) + s * B2R (direction r @ i) <= B2R (pmax b @ i).
Proof.
  destruct tm_E as (ET & N & TT). assert (S := slab_float b r N). unfold b_do_intersect. destruct (b_intersect_ray b r) as [[x y]|]; [|discriminate]. intros _.
  destruct S as (S & (_ & X0 & X1 & X2) & _). exists (E x).
  assert (XT : E x <= E (tmax r)). { destruct X2 as [->|[j ->]]; [lra|apply (S j j)]. }
  split; [rewrite <- ET; lra|]. intros i. destruct (ax_sound _ _ _ _ _ _ _ (E x) (axes i)) as (s & A & B); [lra| |exists s; auto].
  split; [apply X1|]. destruct X2 as [->|[j ->]]; [apply (S i i)|apply (S j i)].
Qed.

(** accuracy of the reported range *)
Lemma up_err t v : 0 <= t -> 0 <= v -> v <= t * (1 + u) -> rnd v <= t + g * t + eta.
Proof. intros T V0 V. pose proof u_lt1. assert (K := round_err v). apply Rabs_le_inv in K. rewrite (Rabs_pos_eq v) in K by lra. nra. Qed.
Lemma down_err t v : 0 <= t -> t * (1 - u) <= v -> t - g * t - eta <= rnd v.
Proof.
  intros T V. pose proof u_lt1. eapply Rle_trans; [|apply rnd_le, V]. assert (K := round_err (t * (1 - u))). apply Rabs_le_inv in K.
  assert (0 <= t * (1 - u)) by nra. rewrite (Rabs_pos_eq (t * (1 - u))) in K by lra. nra.
Qed.
Lemma ax_low_up l h o d (ex : Prop) L H t : AX l h o d ex L H -> 0 <= t < top -> l <= o + t * d <= h -> L <= t + g * t + eta.
Proof.
  intros A T C. pose proof u_lt1 as U. pose proof (eta_pos (f := f)) as EP. assert (TP := bpow_gt_0 radix2 (emax f)).
  destruct A as [(x & y & X & Y & XY & S & EX & EY & -> & _)|[(S & -> & _)|(S & _)]].
  - apply S in C. apply Rabs_le_inv in EX.
    assert (K : forall v, 0 <= v -> X <= v -> v <= t * (1 + u) -> clampE (f := f) (rnd X) <= t + g * t + eta).
    { intros v V0 V1 V2. assert (Q := up_err t v ltac:(lra) V0 V2). assert (Q' : rnd X <= rnd v) by now apply rnd_le. unfold clampE. apply Rmax_lub; [nra|]. eapply Rle_trans; [apply Rmin_r|lra]. }
    destruct (Rle_lt_dec x 0) as [X0|X0].
    + apply (K 0); [lra| |nra]. rewrite Rabs_left1 in EX by lra. nra.
    + rewrite Rabs_pos_eq in EX by lra. apply (K (x * (1 + u))); nra.
  - nra.
  - contradiction (S _ C).
Qed.
Lemma ax_high_low l h o d (ex : Prop) L H t : AX l h o d ex L H -> 0 <= t < top -> l <= o + t * d <= h -> t - g * t - eta <= H.
Proof.
  intros A T C. pose proof u_lt1 as U. pose proof (eta_pos (f := f)) as EP. assert (TP := bpow_gt_0 radix2 (emax f)).
  destruct A as [(x & y & X & Y & XY & S & EX & EY & _ & -> & _)|[(S & _ & ->)|(S & _)]].
  - apply S in C. apply Rabs_le_inv in EY. rewrite Rabs_pos_eq in EY by lra.
    assert (Q := down_err t Y ltac:(lra) ltac:(nra)). unfold clampE. eapply Rle_trans; [|apply Rmax_r]. apply Rmin_glb; [nra|exact Q].
  - nra.
  - contradiction (S _ C).
Qed.
Definition first (t : R) : Prop := 0 <= t <= B2R (tmax r) /\ ray_in_box b r t /\ forall s, 0 <= s <= B2R (tmax r) -> ray_in_box b r s -> t <= s.
Definition last (t : R) : Prop := 0 <= t <= B2R (tmax r) /\ ray_in_box b r t /\ forall s, 0 <= s <= B2R (tmax r) -> ray_in_box b r s -> s <= t.
(** some axis is binding at the first parameter *)
Lemma ax_lower i : exists lo, forall t, B2R (pmin b @ i) <= B2R (origin r @ i) + t * B2R (direction r @ i) <= B2R (pmax b @ i) -> 0 <= t ->
  lo <= t /\ (0 <= lo) /\ (forall s, lo <= s <= t -> B2R (pmin b @ i) <= B2R (origin r @ i) + s * B2R (direction r @ i) <= B2R (pmax b @ i)) /\
  (0 < lo -> Lx b r i < top -> lo - g * lo - eta <= Lx b r i).
Proof.
  pose proof u_lt1 as U. destruct (axes i) as [(x & y & X & Y & XY & S & EX & EY & LE & _)|[(S & LE & _)|(S & _)]].
  - exists (Rmax 0 x). intros t C T. assert (C' := proj1 (S t) C). split; [apply Rmax_lub; lra|]. split; [apply Rmax_l|]. split.
    + intros s [K1 K2]. assert (Q := Rmax_r 0 x). apply S. lra.
    + intros P LT. assert (X0 : 0 < x). { unfold Rmax in P. destruct (Rle_dec 0 x); lra. } rewrite Rmax_right by lra.
      apply Rabs_le_inv in EX. rewrite Rabs_pos_eq in EX by lra. assert (Q := down_err x X ltac:(lra) ltac:(nra)). rewrite LE in *. unfold clampE in *.
      eapply Rle_trans; [exact Q|]. assert (M := Rmax_r (- top) (Rmin top (rnd X))). unfold Rmin in *. destruct (Rle_dec top (rnd X)); lra.
  - exists 0. intros t C T. split; [lra|]. split; [lra|]. split; [intros s _; apply S|lra].
  - exists 0. intros t C. contradiction (S _ C).
Qed.
Lemma ax_upper i : exists hi, forall t, B2R (pmin b @ i) <= B2R (origin r @ i) + t * B2R (direction r @ i) <= B2R (pmax b @ i) -> 0 <= t <= B2R (tmax r) ->
  t <= hi /\ (hi <= B2R (tmax r)) /\ (forall s, t <= s <= hi -> B2R (pmin b @ i) <= B2R (origin r @ i) + s * B2R (direction r @ i) <= B2R (pmax b @ i)) /\
  (hi < B2R (tmax r) -> Hx b r i <= hi + g * hi + eta).
Proof.
  pose proof u_lt1 as U. assert (TP := bpow_gt_0 radix2 (emax f)). pose proof (eta_pos (f := f)) as EP.
  destruct (axes i) as [(x & y & X & Y & XY & S & EX & EY & _ & HE & _)|[(S & _ & HE)|(S & _)]].
  - exists (Rmin (B2R (tmax r)) y). intros t C T. assert (C' := proj1 (S t) C). split; [apply Rmin_glb; lra|]. split; [apply Rmin_l|]. split.
    + intros s [K1 K2]. assert (Q := Rmin_r (B2R (tmax r)) y). apply S. lra.
    + intros P. assert (Y0 : y < B2R (tmax r)). { unfold Rmin in P. destruct (Rle_dec (B2R (tmax r)) y); lra. } rewrite Rmin_right by lra.
      apply Rabs_le_inv in EY. rewrite Rabs_pos_eq in EY by lra. assert (Q := up_err y Y ltac:(lra) ltac:(nra) ltac:(nra)). rewrite HE. unfold clampE.
      apply Rmax_lub; [nra|]. eapply Rle_trans; [apply Rmin_r|exact Q].
  - exists (B2R (tmax r)). intros t C T. split; [lra|]. split; [lra|]. split; [intros s _; apply S|lra].
  - exists 0. intros t C. contradiction (S _ C).
Qed.
Lemma slab_accuracy x y t0 t1 : b_intersect_ray b r = Some (x, y) -> first t0 -> last t1 ->
  (finite x /\ Rabs (B2R x - t0) <= g * t0 + eta) /\ (finite y /\ Rabs (B2R y - t1) <= g * t1 + eta).
Proof.
  intros HB (T0 & I0 & M0) (T1 & I1 & M1). destruct tm_E as (ET & N & TT). assert (S := slab_float b r N). rewrite HB in S.
  destruct S as (S & (NX & X0 & X1 & X2) & (NY & Y0 & Y1 & Y2)). rewrite ET in *. pose proof u_lt1 as U. pose proof (eta_pos (f := f)) as EP. assert (TP := bpow_gt_0 radix2 (emax f)).
  assert (J0 := proj1 (in_box_at b r t0) I0). assert (J1 := proj1 (in_box_at b r t1) I1).
  assert (XT : E x < top). { destruct X2 as [->|[j ->]]; [lra|]. destruct (S j j). lra. }
  assert (YT : - top < E y). { destruct Y2 as [->|[j ->]]; [lra|]. destruct (S j j) as (_ & Q & _). lra. }
  assert (FX : finite x). { destruct x as [s|s| |s mm e B]; try reflexivity; [|discriminate NX]. destruct s; cbn in X0, XT; lra. }
  assert (FY : finite y). { destruct y as [s|s| |s mm e B]; try reflexivity; [|discriminate NY]. destruct s; cbn in Y0, YT; lra. }
  rewrite (E_B2R x FX) in *. rewrite (E_B2R y FY) in *.
  split; (split; [assumption|]); apply Rabs_le.
  - split.
    + destruct (Rle_lt_dec t0 0) as [Z|P]; [nra|].
      destruct (ax_lower Fin.F1) as (l1 & A1). destruct (ax_lower (Fin.FS Fin.F1)) as (l2 & A2). destruct (ax_lower (Fin.FS (Fin.FS Fin.F1))) as (l3 & A3).
      destruct (A1 t0 (J0 _) ltac:(lra)) as (B1 & C1 & D1 & E1). destruct (A2 t0 (J0 _) ltac:(lra)) as (B2 & C2 & D2 & E2). destruct (A3 t0 (J0 _) ltac:(lra)) as (B3 & C3 & D3 & E3).
      assert (BND : t0 = l1 \/ t0 = l2 \/ t0 = l3).
      { destruct (Req_dec t0 l1); auto. destruct (Req_dec t0 l2); auto. destruct (Req_dec t0 l3); auto. exfalso.
        set (s := Rmax l1 (Rmax l2 l3)). assert (s < t0) by (unfold s; apply Rmax_lub_lt; [lra|apply Rmax_lub_lt; lra]).
        assert (Q1 := Rmax_l l1 (Rmax l2 l3)). assert (Q2 := Rmax_r l1 (Rmax l2 l3)). assert (Q3 := Rmax_l l2 l3). assert (Q4 := Rmax_r l2 l3). fold s in Q1, Q2.
        assert (t0 <= s); [|lra]. apply M0; [lra|]. apply in_box_at, forall3. repeat split; first [apply D1; lra|apply D2; lra|apply D3; lra]. }
      assert (LT : forall i, Lx b r i < top). { intros i. destruct (S i i). lra. }
      destruct BND as [Q|[Q|Q]]; rewrite Q in *; [specialize (E1 P (LT _)); specialize (X1 Fin.F1)|specialize (E2 P (LT _)); specialize (X1 (Fin.FS Fin.F1))|specialize (E3 P (LT _)); specialize (X1 (Fin.FS (Fin.FS Fin.F1)))]; lra.
    + destruct X2 as [->|[j Q]]; [nra|]. rewrite Q. assert (K := ax_low_up _ _ _ _ _ _ _ t0 (axes j) ltac:(lra) (J0 j)). lra.
  - split.
    + destruct Y2 as [->|[j Q]]; [nra|]. rewrite Q. assert (K := ax_high_low _ _ _ _ _ _ _ t1 (axes j) ltac:(lra) (J1 j)). lra.
    + destruct (Rle_lt_dec (B2R (tmax r)) t1) as [Z|P]; [nra|].
      destruct (ax_upper Fin.F1) as (l1 & A1). destruct (ax_upper (Fin.FS Fin.F1)) as (l2 & A2). destruct (ax_upper (Fin.FS (Fin.FS Fin.F1))) as (l3 & A3).
      destruct (A1 t1 (J1 _) ltac:(lra)) as (B1 & C1 & D1 & E1). destruct (A2 t1 (J1 _) ltac:(lra)) as (B2 & C2 & D2 & E2). destruct (A3 t1 (J1 _) ltac:(lra)) as (B3 & C3 & D3 & E3).
      assert (BND : t1 = l1 \/ t1 = l2 \/ t1 = l3).
      { destruct (Req_dec t1 l1); auto. destruct (Req_dec t1 l2); auto. destruct (Req_dec t1 l3); auto. exfalso.
        set (s := Rmin l1 (Rmin l2 l3)). assert (t1 < s) by (unfold s; apply Rmin_glb_lt; [lra|apply Rmin_glb_lt; lra]).
        assert (Q1 := Rmin_l l1 (Rmin l2 l3)). assert (Q2 := Rmin_r l1 (Rmin l2 l3)). assert (Q3 := Rmin_l l2 l3). assert (Q4 := Rmin_r l2 l3). fold s in Q1, Q2.
        assert (s <= t1); [|lra]. apply M1; [lra|]. apply in_box_at, forall3. repeat split; first [apply D1; lra|apply D2; lra|apply D3; lra]. }
      destruct BND as [Q|[Q|Q]]; rewrite <- Q in *; [specialize (E1 P); specialize (Y1 Fin.F1)|specialize (E2 P); specialize (Y1 (Fin.FS Fin.F1))|specialize (E3 P); specialize (Y1 (Fin.FS (Fin.FS Fin.F1)))]; lra.
Qed.
End T.
End S.
