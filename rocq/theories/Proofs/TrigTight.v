(** How close the bounds of interval sin, cos, atan, asin, acos come to values the function takes. *)
From Coq Require Import ZArith Reals Bool Lra Lia.
From Flocq Require Import Core BinarySingleNaN.
From Verif.Model Require Import FloatBase Scalar Float Interval.
From Verif Require Import Spec SpecGeom SpecTrig.
From Verif.Proofs Require Import BitsLemmas FloatLemmas PiBounds ScalarProofs IntervalBase IntervalProofs IntervalProofs2 IntervalRefute TrigReal IntervalTrig IntervalTrig2 SlabFloat DiskFloat PiIrrational.
Open Scope R_scope.

(** ** reals *)
Lemma hits_low0 p q : cos p < 0 -> 0 <= cos q -> p <= q -> exists x, p <= x <= q /\ sin x = -1.
Proof.
  intros HP HQ HX. assert (P := PI_RGT_0). destruct (turn p (PI / 2)) as [k K].
  rewrite <- (cos_2kpi p k) in HP. rewrite <- (cos_2kpi q k) in HQ.
  assert (A : p + 2 * IZR k * PI < 3 * (PI / 2)).
  { destruct (Rlt_dec (p + 2 * IZR k * PI) (3 * (PI / 2))); [assumption|exfalso].
    rewrite <- (cos_2kpi _ (-1)) in HP. assert (0 <= cos (p + 2 * IZR k * PI + 2 * -1 * PI)); [apply cos_ge_0; lra|lra]. }
  assert (B : 3 * (PI / 2) <= q + 2 * IZR k * PI).
  { destruct (Rle_dec (3 * (PI / 2)) (q + 2 * IZR k * PI)); [assumption|exfalso].
    assert (PI / 2 < p + 2 * IZR k * PI). { destruct (Req_dec (p + 2 * IZR k * PI) (PI / 2)) as [E|E]; [|lra]. rewrite E, cos_PI2 in HP. lra. }
    assert (cos (q + 2 * IZR k * PI) < 0) by (apply cos_neg_mid; lra). lra. }
  exists (3 * (PI / 2) - 2 * IZR k * PI). split; [lra|].
  rewrite <- (sin_2kpi _ k). replace (3 * (PI / 2) - 2 * IZR k * PI + 2 * IZR k * PI) with (3 * (PI / 2)) by ring. apply sin_3PI2.
Qed.
Lemma hits_high0 p q : 0 < cos p -> cos q <= 0 -> p <= q -> exists x, p <= x <= q /\ sin x = 1.
Proof.
  intros HP HQ HX. destruct (hits_low0 (p + PI) (q + PI)) as (x & X & S); rewrite ?(proj2 (neg_shift _)); try lra.
  exists (x - PI). split; [lra|]. replace x with (x - PI + PI) in S by ring. rewrite (proj1 (neg_shift _)) in S. lra.
Qed.
Lemma cos_quad d : 1 - d * d / 2 <= cos d.
Proof.
  assert (C : cos d = 1 - 2 * sin (d / 2) * sin (d / 2)) by (rewrite <- cos_2a_sin; f_equal; field). rewrite C. assert (L := sin_le_abs (d / 2)).
  assert (Rabs (sin (d / 2)) * Rabs (sin (d / 2)) <= Rabs (d / 2) * Rabs (d / 2)) by (apply Rmult_le_compat; try apply Rabs_pos; exact L).
  rewrite <- !Rabs_mult in H. rewrite !Rabs_pos_eq in H by apply Rle_0_sqr. lra.
Qed.
(** a stretch almost as long as a full turn almost reaches -1 and 1 *)
Lemma almost_low p q d : 0 <= d -> 2 * PI - d <= q - p -> p <= q -> exists x, p <= x <= q /\ sin x <= -1 + d * d / 2.
Proof.
  intros D W O. assert (P := PI_RGT_0). destruct (turn (3 * (PI / 2)) p) as [k K]. set (x0 := 3 * (PI / 2) + 2 * IZR k * PI) in *.
  assert (S : sin x0 = -1) by (unfold x0; rewrite sin_2kpi; apply sin_3PI2).
  assert (C : cos x0 = 0) by (unfold x0; rewrite cos_2kpi; apply cos_3PI2).
  destruct (Rle_dec x0 q) as [X|X]. { exists x0. split; [lra|]. rewrite S. assert (0 <= d * d) by nra. lra. }
  exists q. split; [lra|]. replace q with (x0 - (x0 - q)) by ring. rewrite sin_minus, S, C. assert (Q := cos_quad (x0 - q)).
  assert ((x0 - q) * (x0 - q) <= d * d) by (apply Rmult_le_compat; lra). lra.
Qed.
Lemma almost_high p q d : 0 <= d -> 2 * PI - d <= q - p -> p <= q -> exists x, p <= x <= q /\ 1 - d * d / 2 <= sin x.
Proof.
  intros D W O. destruct (almost_low (p + PI) (q + PI) d) as (x & X & S); try lra.
  exists (x - PI). split; [lra|]. replace x with (x - PI + PI) in S by ring. rewrite (proj1 (neg_shift _)) in S. lra.
Qed.

Section TT.
Context {f : fmt} {m : libm f}.
Notation FT := (float f).
Notation IT := (interval (float f)).
Notation u := (unit_roundoff f).
Notation eta := (smallest_float f / 2).
Notation nd := (f_next_down f).
Notation nu := (f_next_up f).

Lemma near_ok s : Rabs s <= 4 -> finite (nearest f s) /\ Rabs (B2R (nearest f s) - s) <= u * Rabs s + eta.
Proof. intros S. apply small_err; [apply nearest_Rnd|lra]. Qed.
(** a float at most [2 * d] and strictly below (above) a given real *)
Lemma step_below r B : Rabs r <= B -> 1 <= B <= 3 -> exists y : FT, finite y /\ r - (2 * B + / 50) * u <= B2R y < r.
Proof.
  intros R HB. assert (U := uu (f := f)). assert (ET := eta_tiny (f := f)). set (d := (B + / 100) * u).
  assert (D : 0 < d <= 4 * u) by (unfold d; split; nra). apply Rabs_le_inv in R.
  destruct (near_ok (r - d)) as [F Y]; [apply Rabs_le; lra|]. exists (nearest f (r - d)). split; [exact F|].
  assert (S : Rabs (r - d) <= B + / 1000) by (apply Rabs_le; lra).
  assert (u * Rabs (r - d) <= u * (B + / 1000)) by (apply Rmult_le_compat_l; lra). apply Rabs_le_inv in Y.
  unfold d in *. split; lra.
Qed.
Lemma step_above r B : Rabs r <= B -> 1 <= B <= 3 -> exists y : FT, finite y /\ r < B2R y <= r + (2 * B + / 50) * u.
Proof.
  intros R HB. destruct (step_below (- r) B) as (y & F & Y); [rewrite Rabs_Ropp; exact R|exact HB|].
  exists (fneg y). split; [apply fneg_finite; exact F|]. rewrite fneg_B2R. lra.
Qed.
Lemma flt_R (x y : FT) : finite x -> finite y -> B2R x < B2R y -> flt x y.
Proof. intros F G L. apply flt_E. repeat split; try (apply nonnan_of_finite; assumption). rewrite !E_B2R by assumption. exact L. Qed.
Lemma wulp_gen (z : FT) r B : within_ulp z r -> Rabs r <= B -> 1 <= B <= 3 -> finite z /\ Rabs (B2R z - r) <= (2 * B + / 50) * u.
Proof.
  intros (F & D & V) R HB. split; [exact F|]. apply Rabs_le. split.
  - destruct (step_below r B R HB) as (y & FY & Y). destruct (Rle_or_lt (B2R y) (B2R z)) as [K|K]; [lra|exfalso].
    assert (A := V y (flt_R _ _ F FY K)). apply (above_finite _ _ FY) in A. lra.
  - destruct (step_above r B R HB) as (y & FY & Y). destruct (Rle_or_lt (B2R z) (B2R y)) as [K|K]; [lra|exfalso].
    assert (A := D y (flt_R _ _ FY F K)). apply (below_finite _ _ FY) in A. lra.
Qed.
Lemma nd_close (z : FT) B : finite z -> Rabs (B2R z) <= B -> 1 <= B <= 3 -> finite (nd z) /\ B2R z - (2 * B + / 50) * u <= B2R (nd z) <= B2R z.
Proof.
  intros F R HB. assert (N := nonnan_of_finite _ F). destruct (next_down_adjacent z N ltac:(destruct z; discriminate)) as [A1 A2].
  destruct (step_below (B2R z) B R HB) as (y & FY & Y). assert (L := A2 y (flt_R _ _ FY F ltac:(lra))).
  apply fle_E in L as (_ & NN & L). apply flt_E in A1 as (_ & _ & A1).
  assert (FN : finite (nd z)).
  { apply finite_of_range; [exact NN|]. assert (Q1 := finite_E_range y FY). assert (Q2 := finite_E_range z F). lra. }
  split; [exact FN|]. rewrite !E_B2R in L, A1 by assumption. lra.
Qed.
Lemma nu_close (z : FT) B : finite z -> Rabs (B2R z) <= B -> 1 <= B <= 3 -> finite (nu z) /\ B2R z <= B2R (nu z) <= B2R z + (2 * B + / 50) * u.
Proof.
  intros F R HB. assert (N := nonnan_of_finite _ F). destruct (next_up_adjacent z N ltac:(destruct z; discriminate)) as [A1 A2].
  destruct (step_above (B2R z) B R HB) as (y & FY & Y). assert (L := A2 y (flt_R _ _ F FY ltac:(lra))).
  apply fle_E in L as (NN & _ & L). apply flt_E in A1 as (_ & _ & A1).
  assert (FN : finite (nu z)).
  { apply finite_of_range; [exact NN|]. assert (Q1 := finite_E_range y FY). assert (Q2 := finite_E_range z F). lra. }
  split; [exact FN|]. rewrite !E_B2R in L, A1 by assumption. lra.
Qed.
(** one library call and one outward step *)
Lemma lib_down (z : FT) r B K : within_ulp z r -> Rabs r <= B -> 1 <= B <= 2 -> 4 * B + / 10 <= K -> finite (nd z) /\ r - K * u <= B2R (nd z).
Proof.
  intros W R HB HK. assert (U := uu (f := f)). destruct (wulp_gen z r B W R ltac:(lra)) as [F E0]. apply Rabs_le_inv in E0, R.
  assert (M : (2 * B + / 50) * u <= / 1000) by nra.
  destruct (nd_close z (B + / 1000) F) as [FN L]; [apply Rabs_le; lra|lra|]. split; [exact FN|]. nra.
Qed.
Lemma lib_up (z : FT) r B K : within_ulp z r -> Rabs r <= B -> 1 <= B <= 2 -> 4 * B + / 10 <= K -> finite (nu z) /\ B2R (nu z) <= r + K * u.
Proof.
  intros W R HB HK. assert (U := uu (f := f)). destruct (wulp_gen z r B W R ltac:(lra)) as [F E0]. apply Rabs_le_inv in E0, R.
  assert (M : (2 * B + / 50) * u <= / 1000) by nra.
  destruct (nu_close z (B + / 1000) F) as [FN L]; [apply Rabs_le; lra|lra|]. split; [exact FN|]. nra.
Qed.

(** a subtraction that rounds to [tau] or more is almost a full turn *)
Lemma tau_near (a : IT) : bounded a -> sge (ssub (sup a) (inf a)) (tau : FT) = true -> 2 * PI - 20 * u <= B2R (sup a) - B2R (inf a).
Proof.
  intros [F1 F2] H. assert (U := uu (f := f)). assert (ET := eta_tiny (f := f)). assert (L := PI_lower_bound). assert (UU := PI_upper_bound).
  destruct (Rle_or_lt (2 * PI - 20 * u) (B2R (sup a) - B2R (inf a))) as [|N]; [assumption|exfalso].
  set (w := B2R (sup a) - B2R (inf a)) in *.
  assert (FT' : finite (f_tau f)) by (destruct f; vm_compute; reflexivity).
  assert (T : B2R (f_tau f) = rndf f (2 * PI)) by apply std_constants_rounded.
  assert (TE : Rabs (rndf f (2 * PI) - 2 * PI) <= u * Rabs (2 * PI) + eta) by apply round_err.
  rewrite (Rabs_pos_eq (2 * PI)) in TE by lra. apply Rabs_le_inv in TE.
  assert (R := fsub_fadd _ _ F2 F1). fold w in R. apply ge_true in H as (_ & _ & H). change (E (f_tau f) <= E (fsub (sup a) (inf a))) in H.
  destruct (Rle_or_lt (-8) w) as [W|W].
  - destruct (small_err _ w R) as [FS ES]; [apply Rabs_le; lra|]. rewrite !E_B2R in H by assumption. rewrite T in H. apply Rabs_le_inv in ES.
    assert (u * Rabs w <= u * 8) by (apply Rmult_le_compat_l; [lra|apply Rabs_le; lra]).
    assert (u * (2 * PI) <= u * (63 / 10)) by (apply Rmult_le_compat_l; lra). lra.
  - destruct R as [NN EE]. rewrite EE in H. assert (clampE (f := f) (rndf f w) <= 0); [|rewrite (E_B2R _ FT'), T in H].
    + assert (Z := clampE_E (fzero false : FT)). change (E (fzero false : FT)) with 0 in Z. rewrite <- Z. apply clampE_le. rewrite <- (rnd_0 (f := f)). apply rnd_le. lra.
    + assert (u * (2 * PI) <= u * (63 / 10)) by (apply Rmult_le_compat_l; lra). lra.
Qed.

Lemma m_fin (a : IT) : bounded a -> ordered a -> B2R (inf a) <= B2R (sup a).
Proof. intros [F1 F2] O. apply fle_E in O as (_ & _ & O). rewrite !E_B2R in O by assumption. exact O. Qed.
Lemma mem_of (a : IT) x : bounded a -> B2R (inf a) <= x <= B2R (sup a) -> mem x a.
Proof. intros [F1 F2] H. split; [apply below_finite|apply above_finite]; try assumption; lra. Qed.
Lemma smin_pick (x y : FT) : finite x -> finite y -> finite (smin x y) /\ (smin x y = x \/ smin x y = y) /\ B2R (smin x y) <= B2R x /\ B2R (smin x y) <= B2R y.
Proof.
  intros Fx Fy. destruct (smin_spec x y (nonnan_of_finite _ Fx) (nonnan_of_finite _ Fy)) as (A & B & C).
  assert (F : finite (smin x y)) by (destruct A as [-> | ->]; assumption). apply fle_E in B as (_ & _ & B), C as (_ & _ & C).
  rewrite !E_B2R in B, C by assumption. auto.
Qed.
Lemma smax_pick (x y : FT) : finite x -> finite y -> finite (smax x y) /\ (smax x y = x \/ smax x y = y) /\ B2R x <= B2R (smax x y) /\ B2R y <= B2R (smax x y).
Proof.
  intros Fx Fy. destruct (smax_spec x y (nonnan_of_finite _ Fx) (nonnan_of_finite _ Fy)) as (A & B & C).
  assert (F : finite (smax x y)) by (destruct A as [-> | ->]; assumption). apply fle_E in B as (_ & _ & B), C as (_ & _ & C).
  rewrite !E_B2R in B, C by assumption. auto.
Qed.
Lemma wave_tight (a : IT) vi vs si ss down (sh : R) : bounded a -> ordered a ->
  within_ulp vi (sin (B2R (inf a) + sh)) -> within_ulp vs (sin (B2R (sup a) + sh)) ->
  finite si -> finite ss -> (exists k, k <> 0 /\ same_sign si (k * cos (B2R (inf a) + sh)) /\ same_sign ss (k * cos (B2R (sup a) + sh))) ->
  (down = true <-> cos (B2R (inf a) + sh) < 0) -> sin (B2R (inf a) + sh) <> -1 ->
  bounded (wave a vi vs si ss down) /\
  exists x y, mem x a /\ mem y a /\ sin (x + sh) - 5 * u <= B2R (inf (wave a vi vs si ss down)) /\ B2R (sup (wave a vi vs si ss down)) <= sin (y + sh) + 5 * u.
Proof.
  intros BD O WI WS FI FS (k & K0 & SI & SS) DN NB. assert (PQ := m_fin a BD O). assert (U := uu (f := f)).
  destruct (one_B2R (f := f)) as [F1 V1]. change (B2R (f_of_Z 1 : FT) = 1) in V1. destruct (mone (f := f)) as [FM VM].
  assert (EP : mem (B2R (inf a)) a) by (apply mem_of; [exact BD|lra]). assert (EQ : mem (B2R (sup a)) a) by (apply mem_of; [exact BD|lra]).
  assert (SB : forall t, Rabs (sin t) <= 1) by (intros t; apply Rabs_le, SIN_bound).
  destruct (lib_down vi _ 1 5 WI (SB _) ltac:(lra) ltac:(lra)) as [D1 D1'], (lib_down vs _ 1 5 WS (SB _) ltac:(lra) ltac:(lra)) as [D2 D2'].
  destruct (lib_up vi _ 1 5 WI (SB _) ltac:(lra) ltac:(lra)) as [U1 U1'], (lib_up vs _ 1 5 WS (SB _) ltac:(lra) ltac:(lra)) as [U2 U2'].
  destruct (smin_pick vi vs (proj1 WI) (proj1 WS)) as (_ & MN & _), (smax_pick vi vs (proj1 WI) (proj1 WS)) as (_ & MX & _).
  assert (LOW : finite (nd (smin vi vs)) /\ exists x, mem x a /\ sin (x + sh) - 5 * u <= B2R (nd (smin vi vs))).
  { destruct MN as [-> | ->]; (split; [assumption|]); [exists (B2R (inf a))|exists (B2R (sup a))]; auto. }
  assert (HIGH : finite (nu (smax vi vs)) /\ exists x, mem x a /\ B2R (nu (smax vi vs)) <= sin (x + sh) + 5 * u).
  { destruct MX as [-> | ->]; (split; [assumption|]); [exists (B2R (inf a))|exists (B2R (sup a))]; auto. }
  unfold wave. destruct (sge _ _) eqn:TA.
  - apply tau_near in TA; [|exact BD]. cbn [inf sup i_new]. change (sneg sone : FT) with (fneg (f_of_Z 1) : FT). change (sone : FT) with (f_of_Z 1 : FT).
    split; [split; assumption|].
    destruct (almost_low (B2R (inf a) + sh) (B2R (sup a) + sh) (20 * u)) as (x & X & X'); try lra.
    destruct (almost_high (B2R (inf a) + sh) (B2R (sup a) + sh) (20 * u)) as (y & Y & Y'); try lra.
    exists (x - sh), (y - sh). replace (x - sh + sh) with x by ring. replace (y - sh + sh) with y by ring.
    assert (20 * u * (20 * u) / 2 <= u) by nra.
    split; [apply mem_of; [exact BD|lra]|]. split; [apply mem_of; [exact BD|lra]|]. rewrite VM, V1. lra.
  - destruct (seqb _ _) eqn:SE.
    + destruct (min_max_spec vi vs (nonnan_of_finite _ (proj1 WI)) (nonnan_of_finite _ (proj1 WS))) as [[E0|E0] _]; rewrite E0; cbn [inf sup i_new];
      (split; [split; assumption|]); [exists (B2R (inf a)), (B2R (sup a))|exists (B2R (sup a)), (B2R (inf a))]; auto.
    + assert (SE' : ~ (0 < cos (B2R (inf a) + sh) /\ 0 < cos (B2R (sup a) + sh) \/ cos (B2R (inf a) + sh) < 0 /\ cos (B2R (sup a) + sh) < 0 \/ cos (B2R (inf a) + sh) = 0 /\ cos (B2R (sup a) + sh) = 0)).
      { intros K. assert (seqb (signum si) (signum ss) = true); [|congruence]. apply (signum_eq _ _ _ _ FI FS SI SS).
        set (cp := cos (B2R (inf a) + sh)) in *. set (cq := cos (B2R (sup a) + sh)) in *. clear - K K0. assert (k > 0 \/ k < 0) by lra.
        destruct K as [[? ?]|[[? ?]|[? ?]]]; [destruct H; [left|right; left]|destruct H; [right; left|left]|right; right]; split; nra. }
      destruct down; cbn [inf sup i_new].
      * assert (CP : cos (B2R (inf a) + sh) < 0) by (apply DN; reflexivity).
        assert (CQ : 0 <= cos (B2R (sup a) + sh)) by (destruct (Rlt_dec (cos (B2R (sup a) + sh)) 0); [exfalso; apply SE'; right; left; split; assumption|lra]).
        destruct (hits_low0 _ _ CP CQ ltac:(lra)) as (x & X & X'). destruct HIGH as [FH (y & Y & Y')].
        change (sneg sone : FT) with (fneg (f_of_Z 1) : FT). split; [split; assumption|].
        exists (x - sh), y. replace (x - sh + sh) with x by ring. split; [apply mem_of; [exact BD|lra]|]. split; [exact Y|]. rewrite VM. lra.
      * assert (CP : 0 <= cos (B2R (inf a) + sh)) by (destruct (Rlt_dec (cos (B2R (inf a) + sh)) 0) as [L|L]; [apply DN in L; discriminate|lra]).
        change (sone : FT) with (f_of_Z 1 : FT). destruct LOW as [FL (x & X & X')]. split; [split; assumption|].
        assert (HI : exists y, B2R (inf a) + sh <= y <= B2R (sup a) + sh /\ sin y = 1).
        { destruct (Req_dec (cos (B2R (inf a) + sh)) 0) as [Z|Z].
          - exists (B2R (inf a) + sh). split; [lra|]. assert (Q := sin2_cos2 (B2R (inf a) + sh)). rewrite Z in Q. unfold Rsqr in Q.
            assert ((sin (B2R (inf a) + sh) - 1) * (sin (B2R (inf a) + sh) + 1) = 0) by lra. apply Rmult_integral in H as [H|H]; lra.
          - apply hits_high0; [lra| |lra]. destruct (Rle_dec (cos (B2R (sup a) + sh)) 0); [assumption|exfalso; apply SE'; left; lra]. }
        destruct HI as (y & Y & Y'). exists x, (y - sh). replace (y - sh + sh) with y by ring.
        split; [exact X|]. split; [apply mem_of; [exact BD|lra]|]. rewrite V1. lra.
Qed.
Lemma sin_tight (a : IT) : good_sin_cos m -> bounded a -> ordered a ->
  bounded (gsin a) /\ exists x y, mem x a /\ mem y a /\ sin x - 5 * u <= B2R (inf (gsin a)) /\ B2R (sup (gsin a)) <= sin y + 5 * u.
Proof.
  intros GM BD O. assert (NB := float_sin_m1 f (inf a)). destruct (GM _ (proj1 BD)) as (A1 & A2 & A3 & A4), (GM _ (proj2 BD)) as (B1 & B2 & B3 & B4).
  rewrite sin_wave. destruct (wave_tight a (m_sin m (inf a)) (m_sin m (sup a)) (m_cos m (inf a)) (m_cos m (sup a)) (is_negative (m_cos m (inf a))) 0 BD O) as (C & x & y & H);
    rewrite ?Rplus_0_r; try assumption.
  - apply A3. - apply B3.
  - exists 1. rewrite !Rmult_1_l. repeat split; try lra; try apply A4; try apply B4.
  - apply sign_neg; [apply A3|exact A4].
  - split; [exact C|]. exists x, y. rewrite !Rplus_0_r in H. exact H.
Qed.
Lemma cos_tight (a : IT) : good_sin_cos m -> bounded a -> ordered a ->
  bounded (gcos a) /\ exists x y, mem x a /\ mem y a /\ cos x - 5 * u <= B2R (inf (gcos a)) /\ B2R (sup (gcos a)) <= cos y + 5 * u.
Proof.
  intros GM BD O. assert (NB := float_cos_m1 f (inf a)). destruct (GM _ (proj1 BD)) as (A1 & A2 & A3 & A4), (GM _ (proj2 BD)) as (B1 & B2 & B3 & B4).
  rewrite cos_wave. destruct (wave_tight a (m_cos m (inf a)) (m_cos m (sup a)) (m_sin m (inf a)) (m_sin m (sup a)) (is_positive (m_sin m (inf a))) (PI / 2) BD O) as (C & x & y & H);
    rewrite <- ?(proj1 (cos_as_sin _)), <- ?(proj2 (cos_as_sin _)); try assumption.
  - apply A1. - apply B1.
  - exists (-1). replace (-1 * - sin (B2R (inf a))) with (sin (B2R (inf a))) by ring. replace (-1 * - sin (B2R (sup a))) with (sin (B2R (sup a))) by ring. repeat split; try lra; try apply A2; try apply B2.
  - rewrite (proj2 (sign_neg _ _ (proj1 A1) A2)). lra.
  - split; [exact C|]. exists x, y. rewrite <- !(proj1 (cos_as_sin _)) in H. exact H.
Qed.
Lemma atan_tight (a : IT) : good_atan m -> bounded a ->
  bounded (gatan a) /\ atan (B2R (inf a)) - 7 * u <= B2R (inf (gatan a)) /\ B2R (sup (gatan a)) <= atan (B2R (sup a)) + 7 * u.
Proof.
  intros (GM & _) [F1 F2]. assert (U := PI_upper_bound). assert (P := PI_RGT_0).
  assert (AB : forall t, Rabs (atan t) <= 158 / 100) by (intros t; apply Rabs_le; assert (Q := atan_bound t); lra).
  destruct (lib_down _ _ _ 7 (GM _ F1) (AB _) ltac:(lra) ltac:(lra)) as [A B], (lib_up _ _ _ 7 (GM _ F2) (AB _) ltac:(lra) ltac:(lra)) as [C D].
  exact (conj (conj A C) (conj B D)).
Qed.

Lemma quarter_range x : 0 <= x <= 1 -> (Rabs (asin x) <= 158 / 100) /\ (Rabs (acos x) <= 158 / 100).
Proof.
  intros H. assert (U := PI_upper_bound). assert (A := asin_bound x). assert (B := acos_bound x).
  assert (C := acos_mono 0 x ltac:(lra) ltac:(lra) ltac:(lra)). rewrite acos_0 in C. split; apply Rabs_le; lra.
Qed.
Lemma cut_tight (i : IT) lo hi : finite (inf i) -> finite (sup i) -> lo <= B2R (inf i) -> B2R (sup i) <= hi ->
  bounded (i_intersect i (i_new szero frac_pi_2_upper)) /\ lo <= B2R (inf (i_intersect i (i_new szero frac_pi_2_upper))) /\ B2R (sup (i_intersect i (i_new szero frac_pi_2_upper))) <= hi.
Proof.
  intros F1 F2 L H. assert (FZ : finite (szero : FT)) by (destruct f; vm_compute; reflexivity). destruct (smax_pick (inf i) (szero : FT) F1 FZ) as (A & _ & B & _).
  destruct (smin_pick (sup i) (f_frac_pi_2_upper f) F2 (proj1 (fpu_finite (f := f)))) as (C & _ & D & _).
  split; [exact (conj A C)|]. split; [exact (Rle_trans _ _ _ L B)|exact (Rle_trans _ _ _ D H)].
Qed.
Lemma asin_tight (a : IT) : good_asin_acos m -> bounded a -> ordered a -> 0 <= B2R (inf a) -> B2R (sup a) <= 1 ->
  bounded (gasin a) /\ asin (B2R (inf a)) - 7 * u <= B2R (inf (gasin a)) /\ B2R (sup (gasin a)) <= asin (B2R (sup a)) + 7 * u.
Proof.
  intros GM BD O L H. assert (PQ := m_fin a BD O). assert (QI : 0 <= B2R (inf a) <= 1) by lra. assert (QS : 0 <= B2R (sup a) <= 1) by lra. destruct BD as [F1 F2]. destruct (GM (inf a) F1 ltac:(lra)) as [A _], (GM (sup a) F2 ltac:(lra)) as [B _].
  destruct (lib_down _ _ _ 7 A (proj1 (quarter_range _ QI)) ltac:(lra) ltac:(lra)) as [C1 C2], (lib_up _ _ _ 7 B (proj1 (quarter_range _ QS)) ltac:(lra) ltac:(lra)) as [D1 D2].
  exact (cut_tight (i_map_monotonic_inc a gasin) _ _ C1 D1 C2 D2).
Qed.
Lemma acos_tight (a : IT) : good_asin_acos m -> bounded a -> ordered a -> 0 <= B2R (inf a) -> B2R (sup a) <= 1 ->
  bounded (gacos a) /\ acos (B2R (sup a)) - 7 * u <= B2R (inf (gacos a)) /\ B2R (sup (gacos a)) <= acos (B2R (inf a)) + 7 * u.
Proof.
  intros GM BD O L H. assert (PQ := m_fin a BD O). assert (QI : 0 <= B2R (inf a) <= 1) by lra. assert (QS : 0 <= B2R (sup a) <= 1) by lra. destruct BD as [F1 F2]. destruct (GM (inf a) F1 ltac:(lra)) as [_ A], (GM (sup a) F2 ltac:(lra)) as [_ B].
  destruct (lib_down _ _ _ 7 B (proj2 (quarter_range _ QS)) ltac:(lra) ltac:(lra)) as [C1 C2], (lib_up _ _ _ 7 A (proj2 (quarter_range _ QI)) ltac:(lra) ltac:(lra)) as [D1 D2].
  exact (cut_tight (i_map_monotonic_dec a gacos) _ _ C1 D1 C2 D2).
Qed.

(** wide intervals whose slopes agree at the ends are always enclosed wrongly *)
Lemma both_extremes p q : PI < q - p -> 0 < cos p * cos q -> exists x y, p <= x <= q /\ p <= y <= q /\ sin x = -1 /\ sin y = 1.
Proof.
  intros W C. assert (P := PI_RGT_0). assert (K := proj2 (neg_shift p)).
  destruct (Rlt_dec 0 (cos p)) as [L|L].
  - assert (0 < cos q) by nra. destruct (hits_high0 p (p + PI)) as (y & Y & Y'); try lra. destruct (hits_low0 (p + PI) q) as (x & X & X'); try lra.
    exists x, y. repeat split; lra.
  - assert (cos p < 0) by (destruct (Req_dec (cos p) 0) as [Z|Z]; [rewrite Z in C; lra|lra]). assert (cos q < 0) by nra. destruct (hits_low0 p (p + PI)) as (x & X & X'); try lra. destruct (hits_high0 (p + PI) q) as (y & Y & Y'); try lra.
    exists x, y. repeat split; lra.
Qed.
Lemma tau_far (a : IT) : bounded a -> B2R (sup a) - B2R (inf a) < 2 * PI - 20 * u -> sge (ssub (sup a) (inf a)) (tau : FT) = false.
Proof. intros B H. destruct (sge _ _) eqn:E0; [|reflexivity]. apply tau_near in E0; [lra|exact B]. Qed.
Lemma wave_gap (a : IT) (vi vs si ss : FT) down sh : bounded a -> PI < B2R (sup a) - B2R (inf a) < 2 * PI - 20 * u ->
  within_ulp vi (sin (B2R (inf a) + sh)) -> within_ulp vs (sin (B2R (sup a) + sh)) -> seqb (signum si) (signum ss) = true ->
  0 < cos (B2R (inf a) + sh) * cos (B2R (sup a) + sh) ->
  (Rmin (sin (B2R (inf a) + sh)) (sin (B2R (sup a) + sh)) > -1 + 5 * u -> exists x, mem x a /\ sin (x + sh) = -1 /\ ~ mem (sin (x + sh)) (wave a vi vs si ss down)) /\
  (Rmax (sin (B2R (inf a) + sh)) (sin (B2R (sup a) + sh)) < 1 - 5 * u -> exists x, mem x a /\ sin (x + sh) = 1 /\ ~ mem (sin (x + sh)) (wave a vi vs si ss down)).
Proof.
  intros BD W A1 B1 E0 C. assert (U := uu (f := f)).
  assert (SB : forall t, Rabs (sin t) <= 1) by (intros t; apply Rabs_le, SIN_bound).
  destruct (lib_down _ _ 1 5 A1 (SB _) ltac:(lra) ltac:(lra)) as [D1 D1'], (lib_down _ _ 1 5 B1 (SB _) ltac:(lra) ltac:(lra)) as [D2 D2'].
  destruct (lib_up _ _ 1 5 A1 (SB _) ltac:(lra) ltac:(lra)) as [U1 U1'], (lib_up _ _ 1 5 B1 (SB _) ltac:(lra) ltac:(lra)) as [U2 U2'].
  destruct (both_extremes (B2R (inf a) + sh) (B2R (sup a) + sh) ltac:(lra) C) as (x & y & X & Y & X' & Y').
  assert (V : exists t0 t1, wave a vi vs si ss down = i_new (nd t0) (nu t1) /\ (t0 = vi /\ t1 = vs \/ t0 = vs /\ t1 = vi)).
  { unfold wave. rewrite (tau_far a BD (proj2 W)), E0.
    destruct (min_max_spec vi vs (nonnan_of_finite _ (proj1 A1)) (nonnan_of_finite _ (proj1 B1))) as [[Q|Q] _]; rewrite Q; eauto 6. }
  destruct V as (t0 & t1 & V & T). rewrite V.
  set (sp := sin (B2R (inf a) + sh)) in *. set (sq := sin (B2R (sup a) + sh)) in *.
  assert (M1 := Rmin_l sp sq). assert (M2 := Rmin_r sp sq). assert (M3 := Rmax_l sp sq). assert (M4 := Rmax_r sp sq).
  split; intros H; [exists (x - sh)|exists (y - sh)]; (split; [apply mem_of; [exact BD|lra]|]); unfold Rminus; rewrite Rplus_assoc, Rplus_opp_l, Rplus_0_r;
    (split; [assumption|]); intros [L R]; cbn [inf sup i_new] in L, R.
  - rewrite X' in L. destruct T as [[-> ->]|[-> ->]]; apply below_finite in L; try assumption; lra.
  - rewrite Y' in R. destruct T as [[-> ->]|[-> ->]]; apply above_finite in R; try assumption; lra.
Qed.
Lemma same_sg cp cq : 0 < cp * cq -> 0 < cp /\ 0 < cq \/ cp < 0 /\ cq < 0.
Proof.
  intros C. destruct (Rlt_dec 0 cp) as [L|L]; [left; split; nra|right]. assert (cp < 0) by (destruct (Req_dec cp 0) as [Z|Z]; [rewrite Z in C; lra|lra]). split; nra.
Qed.
Lemma sin_gap (a : IT) : good_sin_cos m -> bounded a -> PI < B2R (sup a) - B2R (inf a) < 2 * PI - 20 * u ->
  0 < cos (B2R (inf a)) * cos (B2R (sup a)) ->
  (Rmin (sin (B2R (inf a))) (sin (B2R (sup a))) > -1 + 5 * u -> exists x, mem x a /\ sin x = -1 /\ ~ mem (sin x) (gsin a)) /\
  (Rmax (sin (B2R (inf a))) (sin (B2R (sup a))) < 1 - 5 * u -> exists x, mem x a /\ sin x = 1 /\ ~ mem (sin x) (gsin a)).
Proof.
  intros GM BD W C. destruct (GM _ (proj1 BD)) as (A1 & A2 & A3 & A4), (GM _ (proj2 BD)) as (B1 & B2 & B3 & B4).
  assert (E0 : seqb (signum (m_cos m (inf a))) (signum (m_cos m (sup a))) = true).
  { apply (signum_eq _ _ _ _ (proj1 A3) (proj1 B3) A4 B4). destruct (same_sg _ _ C); auto. }
  rewrite sin_wave. destruct (wave_gap a (m_sin m (inf a)) (m_sin m (sup a)) (m_cos m (inf a)) (m_cos m (sup a)) (is_negative (m_cos m (inf a))) 0 BD W) as [H1 H2]; rewrite ?Rplus_0_r in *; try assumption; try exact E0.
  split; intros H; [destruct (H1 H) as (x & X)|destruct (H2 H) as (x & X)]; exists x; rewrite Rplus_0_r in X; exact X.
Qed.
Lemma cos_gap (a : IT) : good_sin_cos m -> bounded a -> PI < B2R (sup a) - B2R (inf a) < 2 * PI - 20 * u ->
  0 < sin (B2R (inf a)) * sin (B2R (sup a)) ->
  (Rmin (cos (B2R (inf a))) (cos (B2R (sup a))) > -1 + 5 * u -> exists x, mem x a /\ cos x = -1 /\ ~ mem (cos x) (gcos a)) /\
  (Rmax (cos (B2R (inf a))) (cos (B2R (sup a))) < 1 - 5 * u -> exists x, mem x a /\ cos x = 1 /\ ~ mem (cos x) (gcos a)).
Proof.
  intros GM BD W C. destruct (GM _ (proj1 BD)) as (A1 & A2 & A3 & A4), (GM _ (proj2 BD)) as (B1 & B2 & B3 & B4).
  assert (E0 : seqb (signum (m_sin m (inf a))) (signum (m_sin m (sup a))) = true).
  { apply (signum_eq _ _ _ _ (proj1 A1) (proj1 B1) A2 B2). destruct (same_sg _ _ C); auto. }
  rewrite cos_wave. destruct (wave_gap a (m_cos m (inf a)) (m_cos m (sup a)) (m_sin m (inf a)) (m_sin m (sup a)) (is_positive (m_sin m (inf a))) (PI / 2) BD W) as [H1 H2];
    rewrite <- ?(proj1 (cos_as_sin _)), <- ?(proj2 (cos_as_sin _)) in *; try assumption; try exact E0; try lra.
  split; intros H; [destruct (H1 H) as (x & X)|destruct (H2 H) as (x & X)]; exists x; rewrite <- (proj1 (cos_as_sin _)) in X; exact X.
Qed.
End TT.
