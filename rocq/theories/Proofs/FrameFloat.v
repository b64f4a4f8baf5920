(** The normal of float sphere hits. *)
From Coq Require Import ZArith Reals Bool Lra Lia.
From Coq Require Vector Fin.
From Flocq Require Import Core BinarySingleNaN.
From Verif.Model Require Import FloatBase Scalar Float Interval Outcome Vec Transform XReal Geometry.
From Verif Require Import Spec SpecGeom SpecShape SpecTrig SpecError SpecQuad SpecRot SpecFrame.
From Verif.Proofs Require Import BitsLemmas FloatLemmas ScalarProofs XRealLemmas VectorFloat MatrixProofs TransformProofs RotationProofs VectorExact TransformFloat SlabFloat VectorErr MapErr DiskFloat CameraFloat QuadFloat SphereErr SphereFloat SphereNear RotFloat LookFloat IntervalTrig2 PiBounds TrigTight.
Open Scope R_scope.
Notation "v @ i" := (Vector.nth v i) (at level 20, only parsing).

Section F.
Context {f : fmt} {m : libm f}.
Notation FT := (float f).
Notation u := (unit_roundoff f).
Notation eta := (smallest_float f / 2).

(** ** errors relative to a scale *)
Definition sc (k S : R) (x : FT) (r : R) : Prop := finite x /\ Rabs (B2R x - r) <= k * u * S /\ Rabs r <= S.
Lemma sc_self (x : FT) S : finite x -> Rabs (B2R x) <= S -> sc 0 S x (B2R x).
Proof. intros F H. split; [exact F|]. split; [|exact H]. replace (B2R x - B2R x) with 0 by ring. rewrite Rabs_R0. lra. Qed.
Lemma sc_le k l S x r : sc k S x r -> k <= l -> sc l S x r.
Proof. intros (F & B & H) L. split; [exact F|]. split; [|exact H]. eapply Rle_trans; [exact B|]. assert (U := u_q (f := f)). assert (P := Rabs_pos r). apply Rmult_le_compat_r; [lra|]. apply Rmult_le_compat_r; lra. Qed.
Lemma sc_neg k S x r : sc k S x r -> sc k S (fneg x) (- r).
Proof. intros (F & B & H). split; [apply fneg_finite; exact F|]. rewrite fneg_B2R, Rabs_Ropp. split; [|exact H]. replace (- B2R x - - r) with (- (B2R x - r)) by ring. rewrite Rabs_Ropp. exact B. Qed.
Lemma sc_eq k S x r s : sc k S x r -> r = s -> sc k S x s. Proof. intros H <-. exact H. Qed.
Lemma sc_scale k S T x r : sc k S x r -> S = T -> sc k T x r. Proof. intros H <-. exact H. Qed.
Lemma sc_abs k S x r : sc k S x r -> 0 <= k <= 100 -> Rabs (B2R x) <= S * (1 + / 10000) /\ Rabs (B2R x) <= S * (1 + k * u).
Proof.
  intros (F & B & H) K. assert (U := u_q (f := f)). assert (P := Rabs_pos r). assert (KU : 0 <= k * u <= 100 * / 1000000) by (split; [apply Rmult_le_pos; lra|apply Rmult_le_compat; lra]).
  assert (k * u * S <= / 10000 * S) by (apply Rmult_le_compat_r; lra).
  assert (Rabs (B2R x) <= Rabs r + Rabs (B2R x - r)) by (replace (B2R x) with (r + (B2R x - r)) at 1 by ring; apply Rabs_triang). split; lra.
Qed.
Lemma big100 S : S <= 1000000000000000000000000000000 -> S * 2 <= bpow radix2 120.
Proof. intros H. rewrite B120. lra. Qed.
Lemma sc_mul k l S T x y r s : sc k S x r -> sc l T y s -> 0 <= k <= 100 -> 0 <= l <= 100 -> / 10 ^ 30 <= S * T -> S * T <= 1000000000000000000000000000000 ->
  sc (k + l + 1 + / 50) (S * T) (fmul x y) (r * s).
Proof.
  intros N1 N2 K L LO HI. assert (U := u_q (f := f)). assert (EU := eta_u (f := f)). cbn [pow] in EU, LO.
  destruct (sc_abs _ _ _ _ N1 K) as [AX AX']. destruct (sc_abs _ _ _ _ N2 L) as [AY AY']. destruct N1 as (Fx & Bx & Hr). destruct N2 as (Fy & By & Hs).
  assert (R0 := Rabs_pos r). assert (S0 := Rabs_pos s). assert (PX := Rabs_pos (B2R x)). assert (PY := Rabs_pos (B2R y)).
  assert (KU : 0 <= k * u <= 100 * / 1000000) by (split; [apply Rmult_le_pos|apply Rmult_le_compat]; lra). assert (LU : 0 <= l * u <= 100 * / 1000000) by (split; [apply Rmult_le_pos|apply Rmult_le_compat]; lra).
  assert (ST : 0 <= S * T) by (apply Rmult_le_pos; lra).
  assert (XY : Rabs (B2R x * B2R y) <= S * T * (1 + / 1000)).
  { rewrite Rabs_mult. apply Rle_trans with ((S * (1 + / 10000)) * (T * (1 + / 10000))); [apply Rmult_le_compat; assumption|]. replace (S * (1 + / 10000) * (T * (1 + / 10000))) with (S * T * ((1 + / 10000) * (1 + / 10000))) by ring. apply Rmult_le_compat_l; lra. }
  destruct (big_fin _ _ (fmul_Rnd x y Fx Fy)) as [F E]. { apply Rle_trans with (S * T * 2); [lra|]. apply big100. exact HI. }
  split; [exact F|]. split; [|rewrite Rabs_mult; apply Rmult_le_compat; lra].
  replace (B2R (fmul x y) - r * s) with ((B2R (fmul x y) - B2R x * B2R y) + (B2R x - r) * B2R y + r * (B2R y - s)) by ring.
  eapply Rle_trans; [apply Rabs_triang|]. eapply Rle_trans; [apply Rplus_le_compat_r, Rabs_triang|]. rewrite !Rabs_mult.
  assert (E1 : Rabs (B2R x - r) * Rabs (B2R y) <= (k * u * S) * (T * (1 + / 10000))) by (apply Rmult_le_compat; try apply Rabs_pos; assumption).
  assert (E2 : Rabs r * Rabs (B2R y - s) <= S * (l * u * T)) by (apply Rmult_le_compat; try apply Rabs_pos; assumption).
  assert (E3 : u * Rabs (B2R x * B2R y) <= u * (S * T * (1 + / 1000))) by (apply Rmult_le_compat_l; lra).
  assert (E4 : / 1000000000000000000000000000000 * u <= S * T * u) by (apply Rmult_le_compat_r; lra).
  assert (E5 : k * (u * (S * T)) <= 100 * (u * (S * T))) by (apply Rmult_le_compat_r; [apply Rmult_le_pos; lra|lra]).
  replace (k * u * S * (T * (1 + / 10000))) with (k * (u * (S * T)) + / 10000 * (k * (u * (S * T)))) in E1 by ring.
  replace (S * (l * u * T)) with (l * (u * (S * T))) in E2 by ring.
  replace ((k + l + 1 + / 50) * u * (S * T)) with (k * (u * (S * T)) + l * (u * (S * T)) + (1 + / 50) * (u * (S * T))) by ring.
  lra.
Qed.
Lemma sc_sub k l S x y r s : sc k S x r -> sc l S y s -> 0 <= k <= 100 -> 0 <= l <= 100 -> Rabs (r - s) <= S -> / 10 ^ 30 <= S -> S <= 1000000000000000000000000000000 ->
  sc (k + l + 1 + / 50) S (fsub x y) (r - s).
Proof.
  intros N1 N2 K L H LO HI. assert (U := u_q (f := f)). assert (EU := eta_u (f := f)). cbn [pow] in EU, LO. destruct N1 as (Fx & Bx & Hr). destruct N2 as (Fy & By & Hs).
  assert (D : Rabs (B2R x - B2R y - (r - s)) <= k * u * S + l * u * S). { replace (B2R x - B2R y - (r - s)) with ((B2R x - r) + - (B2R y - s)) by ring. eapply Rle_trans; [apply Rabs_triang|]. rewrite Rabs_Ropp. lra. }
  assert (KU : 0 <= k * u <= 100 * / 1000000) by (split; [apply Rmult_le_pos|apply Rmult_le_compat]; lra). assert (LU : 0 <= l * u <= 100 * / 1000000) by (split; [apply Rmult_le_pos|apply Rmult_le_compat]; lra).
  assert (k * u * S <= 100 * / 1000000 * S) by (apply Rmult_le_compat_r; lra). assert (l * u * S <= 100 * / 1000000 * S) by (apply Rmult_le_compat_r; lra).
  assert (A : Rabs (B2R x - B2R y) <= S * (1 + / 1000)). { replace (B2R x - B2R y) with ((B2R x - B2R y - (r - s)) + (r - s)) by ring. eapply Rle_trans; [apply Rabs_triang|]. lra. }
  destruct (big_fin _ _ (fsub_Rnd x y Fx Fy)) as [F E]. { apply Rle_trans with (S * 2); [lra|]. apply big100. exact HI. }
  split; [exact F|]. split; [|exact H].
  replace (B2R (fsub x y) - (r - s)) with ((B2R (fsub x y) - (B2R x - B2R y)) + (B2R x - B2R y - (r - s))) by ring. eapply Rle_trans; [apply Rabs_triang|].
  assert (E3 : u * Rabs (B2R x - B2R y) <= u * (S * (1 + / 1000))) by (apply Rmult_le_compat_l; lra).
  assert (E4 : / 1000000000000000000000000000000 * u <= S * u) by (apply Rmult_le_compat_r; lra). lra.
Qed.
(** ** library calls *)
Lemma wulp4 (z : FT) r B : within_ulp z r -> Rabs r <= B -> 1 <= B <= 4 -> finite z /\ Rabs (B2R z - r) <= (2 * B + / 50) * u.
Proof.
  intros (F & D & V) R HB. split; [exact F|].
  assert (SB : forall r, Rabs r <= B -> exists y : FT, finite y /\ r - (2 * B + / 50) * u <= B2R y < r).
  { clear - m HB. intros r R. assert (U := uu (f := f)). assert (ET := eta_tiny (f := f)). set (d := (B + / 100) * u).
    assert (D : 0 < d <= 5 * u) by (unfold d; split; nra). apply Rabs_le_inv in R.
    destruct (small_err (nearest f (r - d)) (r - d)) as [F Y]; [apply nearest_Rnd|apply Rabs_le; lra|]. exists (nearest f (r - d)). split; [exact F|].
    assert (S : Rabs (r - d) <= B + / 1000) by (apply Rabs_le; lra).
    assert (u * Rabs (r - d) <= u * (B + / 1000)) by (apply Rmult_le_compat_l; lra). apply Rabs_le_inv in Y. unfold d in *. split; lra. }
  apply Rabs_le. split.
  - destruct (SB r R) as (y & FY & Y). destruct (Rle_or_lt (B2R y) (B2R z)) as [K|K]; [lra|exfalso].
    assert (A := V y (flt_R _ _ F FY K)). apply (above_finite _ _ FY) in A. lra.
  - destruct (SB (- r)) as (y' & FY' & Y'); [rewrite Rabs_Ropp; exact R|]. assert (FY := proj2 (fneg_finite y') FY'). assert (Y := fneg_B2R y').
    destruct (Rle_or_lt (B2R z) (B2R (fneg y'))) as [K|K]; [lra|exfalso].
    assert (A := D (fneg y') (flt_R _ _ FY F K)). apply (below_finite _ _ FY) in A. lra.
Qed.
Lemma cos_lib (a : FT) t k : good_sin_cos m -> finite a -> Rabs (B2R a - t) <= k * u -> sc (k + 2 + / 50) 1 (m_cos m a) (cos t) /\ sc (k + 2 + / 50) 1 (m_sin m a) (sin t).
Proof.
  intros G F H. destruct (G a F) as (WS & _ & WC & _). assert (BC := COS_bound (B2R a)). assert (BS := SIN_bound (B2R a)). assert (BC' := COS_bound t). assert (BS' := SIN_bound t).
  destruct (wulp4 _ _ 1 WC) as [FC EC]; [apply Rabs_le; lra|lra|]. destruct (wulp4 _ _ 1 WS) as [FS ES]; [apply Rabs_le; lra|lra|].
  assert (LC := cos_lip (B2R a) t). assert (LS := sin_lip (B2R a) t). split; (split; [assumption|split; [|apply Rabs_le; lra]]).
  - replace (B2R (m_cos m a) - cos t) with ((B2R (m_cos m a) - cos (B2R a)) + (cos (B2R a) - cos t)) by ring. eapply Rle_trans; [apply Rabs_triang|]. lra.
  - replace (B2R (m_sin m a) - sin t) with ((B2R (m_sin m a) - sin (B2R a)) + (sin (B2R a) - sin t)) by ring. eapply Rle_trans; [apply Rabs_triang|]. lra.
Qed.
(** the angle around the axis *)
Lemma angle_lib (px py : FT) : good_sin_cos m -> good_atan2 m -> finite px -> finite py -> let x := B2R px in let y := B2R py in let rho := sqrt (x * x + y * y) in
  0 < rho -> let phi := m_atan2 m py px in finite phi /\ sc 9 1 (m_cos m phi) (x / rho) /\ sc 9 1 (m_sin m phi) (y / rho).
Proof.
  intros G GA Fx Fy x y rho P phi. destruct (GA py px Fy Fx) as (t & r & T & R & X & Y & W).
  { destruct (Req_dec y 0) as [E|E]; [right|left; exact E]. intros E'. fold x in E'. unfold rho in P. rewrite E, E' in P. replace (0 * 0 + 0 * 0) with 0 in P by ring. rewrite sqrt_0 in P. lra. }
  fold x in X. fold y in Y. assert (RR : rho = r). { unfold rho. rewrite X, Y. replace (r * cos t * (r * cos t) + r * sin t * (r * sin t)) with (r * r * (Rsqr (sin t) + Rsqr (cos t))) by (unfold Rsqr; ring). rewrite sin2_cos2, Rmult_1_r. apply sqrt_square. lra. }
  assert (PB : PI <= 315 / 100). { assert (Q := PI_upper_bound). lra. }
  destruct (wulp4 _ _ (315 / 100) W) as [F E]; [apply Rabs_le; lra|lra|]. fold phi in F, E. split; [exact F|].
  destruct (cos_lib phi t _ G F E) as [C S]. rewrite RR, X, Y.
  split; (eapply sc_eq; [eapply sc_le; [eassumption|lra]|field; lra]).
Qed.
Lemma clamp_val (x : FT) : finite x -> finite (native_clamp x szero sone) /\ B2R (native_clamp x szero sone : FT) = Rmin (Rmax (B2R x) 0) 1.
Proof.
  intros F. assert (F0 : finite (szero : FT)) by (destruct f; reflexivity). assert (V0 : B2R (szero : FT) = 0) by (destruct f; reflexivity).
  assert (V1 : finite (sone : FT) /\ B2R (sone : FT) = 1). { apply (f_of_Z_exact 1). assert (1000 <= 2 ^ prec f)%Z by (destruct f; vm_compute; discriminate). lia. } destruct V1 as [F1 V1].
  assert (L : forall a b : FT, finite a -> finite b -> (slt a b = true /\ B2R a < B2R b) \/ (slt a b = false /\ B2R b <= B2R a)).
  { intros a b Fa Fb. destruct (slt a b) eqn:E; [left|right]; split; auto.
    - apply slt_spec, flt_E in E as (_ & _ & E). rewrite !E_B2R in E by assumption. exact E.
    - destruct (Rle_or_lt (B2R b) (B2R a)) as [K|K]; [exact K|]. apply (flt_R _ _ Fa Fb), slt_spec in K. congruence. }
  unfold native_clamp. destruct (L x szero F F0) as [[-> A]|[-> A]].
  - assert (G : sgt (szero : FT) sone = slt (sone : FT) szero) by (destruct f; vm_compute; reflexivity). rewrite G. destruct (L sone szero F1 F0) as [[_ B]|[-> _]]; [lra|]. split; [exact F0|]. rewrite V0. rewrite Rmax_right by lra. rewrite Rmin_left; lra.
  - assert (G : sgt x sone = slt (sone : FT) x). { destruct (sgt x sone) eqn:E1, (slt (sone : FT) x) eqn:E2; try reflexivity; exfalso.
      + apply sgt_spec in E1. apply slt_spec in E1. congruence.
      + apply slt_spec in E2. apply sgt_spec in E2. congruence. }
    rewrite G. rewrite Rmax_left by lra. destruct (L sone x F1 F) as [[-> B]|[-> B]]; [split; [exact F1|]; rewrite Rmin_right; lra|split; [exact F|]; rewrite Rmin_left; lra].
Qed.

Definition clip (v : R) : R := Rmin (Rmax v 0) 1.
Lemma clip_range v : 0 <= clip v <= 1.
Proof. unfold clip. split; [apply Rmin_glb; [apply Rmax_r|lra]|apply Rmin_r]. Qed.
Lemma clip_id v : 0 <= v <= 1 -> clip v = v.
Proof. intros H. unfold clip. rewrite Rmax_left, Rmin_left; lra. Qed.
Lemma div_clip (z r : FT) : finite z -> finite r -> / 1024 <= B2R r <= 1048576 -> Rabs (B2R z) <= 4194304 ->
  let q := native_clamp (fdiv z r) szero sone in finite q /\ 0 <= B2R (q : FT) <= 1 /\ Rabs (B2R (q : FT) - clip (B2R z / B2R r)) <= 101 / 100 * u.
Proof.
  intros Fz Fr R Z q. assert (U := u_q (f := f)). assert (EU := eta_u (f := f)). cbn [pow] in EU.
  assert (V : Rabs (B2R z / B2R r) <= 4294967296). { unfold Rdiv. rewrite Rabs_mult. rewrite (Rabs_pos_eq (/ B2R r)) by (left; apply Rinv_0_lt_compat; lra). apply Rle_trans with (4194304 * 1024); [|lra]. apply Rmult_le_compat; try apply Rabs_pos; try assumption; [left; apply Rinv_0_lt_compat; lra|]. replace 1024 with (/ / 1024) by (rewrite Rinv_inv; reflexivity). apply Rinv_le_contravar; lra. }
  assert (RD := fdiv_Rnd z r Fz Fr ltac:(lra)). destruct (big_fin _ _ RD) as [F E]; [rewrite B120; lra|]. assert (RV := Rnd_finite _ _ RD F).
  destruct (clamp_val (fdiv z r) F) as [Fq Vq]. split; [exact Fq|]. unfold q. rewrite Vq. fold (clip (B2R (fdiv z r))). split; [apply clip_range|].
  set (v := B2R z / B2R r) in *. set (d := B2R (fdiv z r)) in *.
  assert (G : forall z, (Z.abs z <= 1)%Z -> rndf f (IZR z) = IZR z). { intros w W. apply (rnd_id (f := f)), generic_IZR. assert (1000 <= 2 ^ prec f)%Z by (destruct f; vm_compute; discriminate). lia. }
  destruct (Rle_or_lt v 0) as [V0|V0].
  { assert (d <= 0) by (rewrite RV, <- (G 0%Z) by (cbn; lia); apply (rnd_le (f := f)); exact V0). unfold clip. rewrite !(Rmax_right _ 0) by lra. replace (Rmin 0 1 - Rmin 0 1) with 0 by ring. rewrite Rabs_R0. lra. }
  assert (D0 : 0 <= d) by (rewrite RV, <- (G 0%Z) by (cbn; lia); apply (rnd_le (f := f)); lra).
  destruct (Rle_or_lt 1 v) as [V1|V1].
  { assert (1 <= d) by (rewrite RV, <- (G 1%Z) by (cbn; lia); apply (rnd_le (f := f)); exact V1). unfold clip. rewrite !Rmax_left by lra. rewrite !Rmin_right by lra. replace (1 - 1) with 0 by ring. rewrite Rabs_R0. lra. }
  assert (D1 : d <= 1) by (rewrite RV, <- (G 1%Z) by (cbn; lia); apply (rnd_le (f := f)); lra).
  rewrite !clip_id by lra. rewrite (Rabs_pos_eq v) in E by lra. assert (u * v <= u * 1) by (apply Rmult_le_compat_l; lra). lra.
Qed.
Lemma acos_lib (q : FT) : good_asin_acos m -> finite q -> 0 <= B2R q <= 1 -> finite (m_acos m q) /\ Rabs (B2R (m_acos m q) - acos (B2R q)) <= 633 / 100 * u.
Proof.
  intros G F B. destruct (G q F ltac:(lra)) as [_ W]. assert (A := acos_bound (B2R q)). assert (P := PI_upper_bound).
  destruct (wulp4 _ _ (315 / 100) W) as [FA E]; [apply Rabs_le; lra|lra|]. split; [exact FA|]. eapply Rle_trans; [exact E|]. apply Rmult_le_compat_r; [assert (U := u_q (f := f)); lra|lra].
Qed.
Lemma polar_lib (q : FT) : good_sin_cos m -> good_asin_acos m -> finite q -> 0 <= B2R q <= 1 -> sc 9 1 (m_sin m (m_acos m q)) (sqrt (1 - B2R q * B2R q)).
Proof.
  intros G GA F B. destruct (acos_lib q GA F B) as [FA E]. destruct (cos_lib _ _ _ G FA E) as [_ S].
  eapply sc_le; [eapply sc_eq; [exact S|]|lra]. rewrite sin_acos by lra. reflexivity.
Qed.
(** ** the real estimate *)
Lemma ring_dist u0 r rho z q N : 0 < r -> 0 < rho -> 0 <= z <= r -> 0 <= u0 -> r * r <= N -> 0 <= q <= 1 -> Rabs (q - z / r) <= 101 / 100 * u0 ->
  Rabs (rho * rho + z * z - r * r) <= 100 * u0 * N -> Rabs (r * sqrt (1 - q * q) - rho) * rho <= 103 * u0 * N.
Proof.
  intros R P Z U HN Q E H. assert (Q2 : 0 <= 1 - q * q). { assert (q * q <= 1 * 1) by (apply Rmult_le_compat; lra). lra. }
  set (s := sqrt (1 - q * q)). assert (S0 := sqrt_pos (1 - q * q)). fold s in S0. assert (SS : s * s = 1 - q * q) by (apply sqrt_sqrt; exact Q2).
  assert (D : Rabs (r * s * (r * s) - rho * rho) <= 103 * u0 * N).
  { replace (r * s * (r * s) - rho * rho) with (- (rho * rho + z * z - r * r) + r * r * ((z / r - q) * (z / r + q))).
    2:{ replace (r * s * (r * s)) with (r * r * (s * s)) by ring. rewrite SS. field. lra. }
    eapply Rle_trans; [apply Rabs_triang|]. rewrite Rabs_Ropp, (Rabs_mult (r * r)), (Rabs_pos_eq (r * r)) by (apply Rmult_le_pos; lra). rewrite Rabs_mult, (Rabs_minus_sym (z / r)).
    assert (V : 0 <= z / r <= 1). { split; [apply Rmult_le_pos; [lra|left; apply Rinv_0_lt_compat; lra]|]. apply Rmult_le_reg_r with r; [lra|]. unfold Rdiv. rewrite Rmult_assoc, Rinv_l by lra. lra. }
    assert (A : Rabs (q - z / r) * Rabs (z / r + q) <= 101 / 100 * u0 * 2) by (apply Rmult_le_compat; try apply Rabs_pos; [exact E|rewrite Rabs_pos_eq; lra]).
    assert (B : r * r * (Rabs (q - z / r) * Rabs (z / r + q)) <= N * (101 / 100 * u0 * 2)). { apply Rmult_le_compat; try assumption; [apply Rmult_le_pos; lra|apply Rmult_le_pos; apply Rabs_pos]. }
    assert (0 <= u0 * N) by (apply Rmult_le_pos; [lra|assert (0 <= r * r) by (apply Rmult_le_pos; lra); lra]). lra. }
  replace (r * s * (r * s) - rho * rho) with ((r * s - rho) * (r * s + rho)) in D by ring. rewrite Rabs_mult in D.
  assert (T : 0 <= r * s) by (apply Rmult_le_pos; lra). rewrite (Rabs_pos_eq (r * s + rho)) in D by lra.
  eapply Rle_trans; [|exact D]. apply Rmult_le_compat_l; [apply Rabs_pos|lra].
Qed.
(** ** the cross product of the two derivatives *)
Lemma frame_cross_gen (px py pz r kp kt : FT) q P Q : good_sin_cos m -> good_asin_acos m -> good_atan2 m ->
  finite px -> finite py -> finite pz -> finite r -> finite q -> val kp P -> val kt (- Q) ->
  let x := B2R px in let y := B2R py in let z := B2R pz in let rad := B2R r in let rho := sqrt (x * x + y * y) in
  / 1024 <= rho -> / 1024 <= rad <= 1048576 -> / 512 <= P <= 16 -> / 1024 <= Q <= 16 -> Rabs z <= rad -> rho <= 2 * rad -> 0 <= B2R q <= 1 ->
  let phi := m_atan2 m py px in let s := m_sin m (m_acos m q) in
  let a := vec3 (fmul (fneg py) kp) (fmul px kp) (fmul (fzero false) kp) in
  let b := vec3 (fmul (fmul pz (m_cos m phi)) kt) (fmul (fmul pz (m_sin m phi)) kt) (fmul (fmul (fneg r) s) kt) in
  fall finite (cross a b) /\ (let sg := sqrt (1 - B2R q * B2R q) in near3 (P * Q * (28 * u * (rho * rad))) (f3 (cross a b)) (scl3 (P * Q) (mk3 (rad * sg * x) (rad * sg * y) (rho * z)))).
Proof.
  intros G GA GT Fx Fy Fz Fr Fq [Fkp Vkp] [Fkt Vkt] x y z rad rho R0 RAD HP HQ Z RR Q01 phi s a b. assert (U := u_q (f := f)).
  destruct (angle_lib px py G GT Fx Fy ltac:(fold x y rho; lra)) as (_ & SC & SS). fold x y rho phi in SC, SS.
  assert (SP := polar_lib q G GA Fq Q01). fold s in SP. set (sg := sqrt (1 - B2R q * B2R q)) in *.
  assert (XX : rho * rho = x * x + y * y). { apply sqrt_sqrt. assert (A := Rle_0_sqr x). assert (B := Rle_0_sqr y). unfold Rsqr in *. lra. }
  assert (AX : Rabs x <= rho) by (rewrite <- (Rabs_pos_eq rho) by lra; apply Rsqr_le_abs_0; unfold Rsqr; assert (B := Rle_0_sqr y); unfold Rsqr in B; lra).
  assert (AY : Rabs y <= rho) by (rewrite <- (Rabs_pos_eq rho) by lra; apply Rsqr_le_abs_0; unfold Rsqr; assert (B := Rle_0_sqr x); unfold Rsqr in B; lra).
  assert (SX := sc_self px rho Fx AX). assert (SY := sc_neg _ _ _ _ (sc_self py rho Fy AY)). fold x in SX. fold y in SY.
  assert (SZ := sc_self pz rad Fz ltac:(exact Z)). fold z in SZ.
  assert (SR := sc_neg _ _ _ _ (sc_self r rad Fr ltac:(fold rad; rewrite Rabs_pos_eq; lra))). fold rad in SR.
  assert (SKP : sc 0 P kp P) by (rewrite <- Vkp at 2; apply sc_self; [exact Fkp|rewrite Vkp, Rabs_pos_eq; lra]).
  assert (SKT : sc 0 Q kt (- Q)) by (rewrite <- Vkt; apply sc_self; [exact Fkt|rewrite Vkt, Rabs_Ropp, Rabs_pos_eq; lra]).
  assert (RP : / 524288 <= rho * P <= 33554432). { split; [replace (/ 524288) with (/ 1024 * / 512) by field; apply Rmult_le_compat; lra|apply Rle_trans with (2097152 * 16); [apply Rmult_le_compat; lra|lra]]. }
  assert (RQ : / 1048576 <= rad * Q <= 16777216). { split; [replace (/ 1048576) with (/ 1024 * / 1024) by field; apply Rmult_le_compat; lra|apply Rle_trans with (1048576 * 16); [apply Rmult_le_compat; lra|lra]]. }
  set (S := rho * P * (rad * Q)).
  assert (HS2 : / 549755813888 <= S <= 562949953421312). { unfold S. split; [replace (/ 549755813888) with (/ 524288 * / 1048576) by field; apply Rmult_le_compat; lra|apply Rle_trans with (33554432 * 16777216); [apply Rmult_le_compat; lra|lra]]. }
  assert (T30 : / 10 ^ 30 <= / 549755813888) by (apply Rinv_le_contravar; [lra|cbn [pow]; lra]).
  assert (KX := sc_mul _ _ _ _ _ _ _ _ SX SKP ltac:(lra) ltac:(lra) ltac:(lra) ltac:(lra)).
  assert (KY := sc_mul _ _ _ _ _ _ _ _ SY SKP ltac:(lra) ltac:(lra) ltac:(lra) ltac:(lra)).
  assert (MC := sc_mul _ _ _ _ _ _ _ _ SZ SC ltac:(lra) ltac:(lra) ltac:(lra) ltac:(lra)). apply sc_scale with (T := rad) in MC; [|ring].
  assert (MS := sc_mul _ _ _ _ _ _ _ _ SZ SS ltac:(lra) ltac:(lra) ltac:(lra) ltac:(lra)). apply sc_scale with (T := rad) in MS; [|ring].
  assert (MP := sc_mul _ _ _ _ _ _ _ _ SR SP ltac:(lra) ltac:(lra) ltac:(lra) ltac:(lra)). apply sc_scale with (T := rad) in MP; [|ring].
  assert (LC := sc_mul _ _ _ _ _ _ _ _ MC SKT ltac:(lra) ltac:(lra) ltac:(lra) ltac:(lra)).
  assert (LS := sc_mul _ _ _ _ _ _ _ _ MS SKT ltac:(lra) ltac:(lra) ltac:(lra) ltac:(lra)).
  assert (LP := sc_mul _ _ _ _ _ _ _ _ MP SKT ltac:(lra) ltac:(lra) ltac:(lra) ltac:(lra)).
  assert (V0 : val (fmul (fzero false) kp) 0) by (apply val_zero_mul; [split; reflexivity|exact Fkp]).
  assert (C0 := sc_mul _ _ _ _ _ _ _ _ KX LP ltac:(lra) ltac:(lra) ltac:(fold S; lra) ltac:(fold S; lra)).
  assert (C1 := sc_mul _ _ _ _ _ _ _ _ KY LP ltac:(lra) ltac:(lra) ltac:(fold S; lra) ltac:(fold S; lra)).
  assert (C2 := sc_mul _ _ _ _ _ _ _ _ KY LS ltac:(lra) ltac:(lra) ltac:(fold S; lra) ltac:(fold S; lra)).
  assert (C3 := sc_mul _ _ _ _ _ _ _ _ KX LC ltac:(lra) ltac:(lra) ltac:(fold S; lra) ltac:(fold S; lra)).
  fold S in C0, C1, C2, C3.
  assert (PQ : 0 < P * Q) by (apply Rmult_lt_0_compat; lra).
  assert (CZ : - y * P * (z * (y / rho) * - Q) - x * P * (z * (x / rho) * - Q) = P * Q * rho * z).
  { replace (- y * P * (z * (y / rho) * - Q) - x * P * (z * (x / rho) * - Q)) with (P * Q * z * ((x * x + y * y) / rho)) by (field; lra). rewrite <- XX. field. lra. }
  assert (C4 := sc_sub _ _ _ _ _ _ _ C2 C3 ltac:(lra) ltac:(lra)).
  assert (C4' : sc 28 S (fsub (fmul (fmul (fneg py) kp) (fmul (fmul pz (m_sin m phi)) kt)) (fmul (fmul px kp) (fmul (fmul pz (m_cos m phi)) kt))) (P * Q * rho * z)).
  { eapply sc_le; [eapply sc_eq; [apply C4; [|lra|lra]|exact CZ]|lra]. rewrite CZ. rewrite Rabs_mult, (Rabs_pos_eq (P * Q * rho)) by (apply Rmult_le_pos; lra). unfold S.
    replace (rho * P * (rad * Q)) with (P * Q * rho * rad) by ring. apply Rmult_le_compat_l; [apply Rmult_le_pos; lra|exact Z]. }
  clear C4. destruct C0 as (F0 & E0 & _). destruct C1 as (F1 & E1 & _). destruct C4' as (F2 & E2 & _).
  assert (W1 : val (fsub (fmul (fmul px kp) (fmul (fmul (fneg r) s) kt)) (fmul (fmul (fzero false) kp) (fmul (fmul pz (m_sin m phi)) kt))) (B2R (fmul (fmul px kp) (fmul (fmul (fneg r) s) kt)))).
  { apply val_sub_zero; [split; [exact F0|reflexivity]|]. apply val_zero_mul; [exact V0|apply LS]. }
  assert (W2 : val (fsub (fmul (fmul (fzero false) kp) (fmul (fmul pz (m_cos m phi)) kt)) (fmul (fmul (fneg py) kp) (fmul (fmul (fneg r) s) kt))) (- B2R (fmul (fmul (fneg py) kp) (fmul (fmul (fneg r) s) kt)))).
  { apply val_zero_sub; [|split; [exact F1|reflexivity]]. apply val_zero_mul; [exact V0|apply LC]. }
  unfold val in W1, W2. destruct W1 as [G1 W1]. destruct W2 as [G2 W2].
  unfold a, b. rewrite cross_eq. cbn [vx vy vz vget Vector.nth vec3 Vector.caseS].
  split. { intros i. revert i. apply (fin3_case (fun i => finite (Vector.nth _ i))); assumption. }
  assert (SU : S * u = P * Q * (u * (rho * rad))) by (unfold S; ring).
  assert (SU0 : 0 <= S * u) by (apply Rmult_le_pos; lra).
  cbv zeta. fold sg. split; [|split]; cbn [cX cY cZ f3 scl3].
  - change (Rabs (B2R (fsub (fmul (fmul px kp) (fmul (fmul (fneg r) s) kt)) (fmul (fmul (fzero false) kp) (fmul (fmul pz (m_sin m phi)) kt))) - P * Q * (rad * sg * x)) <= P * Q * (28 * u * (rho * rad))).
    rewrite W1. match type of E0 with Rabs (?v - ?t) <= _ => replace (v - P * Q * (rad * sg * x)) with (v - t) by ring end. lra.
  - change (Rabs (B2R (fsub (fmul (fmul (fzero false) kp) (fmul (fmul pz (m_cos m phi)) kt)) (fmul (fmul (fneg py) kp) (fmul (fmul (fneg r) s) kt))) - P * Q * (rad * sg * y)) <= P * Q * (28 * u * (rho * rad))).
    rewrite W2. match type of E1 with Rabs (?v - ?t) <= _ => replace (- v - P * Q * (rad * sg * y)) with (- (v - t)) by ring end. rewrite Rabs_Ropp. lra.
  - change (Rabs (B2R (fsub (fmul (fmul (fneg py) kp) (fmul (fmul pz (m_sin m phi)) kt)) (fmul (fmul px kp) (fmul (fmul pz (m_cos m phi)) kt))) - P * Q * (rho * z)) <= P * Q * (28 * u * (rho * rad))).
    match type of E2 with Rabs (?v - ?t) <= _ => replace (v - P * Q * (rho * z)) with (v - t) by ring end. lra.
Qed.
Lemma frame_cross (px py pz r kp kt : FT) q P Q N : good_sin_cos m -> good_asin_acos m -> good_atan2 m ->
  finite px -> finite py -> finite pz -> finite r -> finite q -> val kp P -> val kt (- Q) ->
  let x := B2R px in let y := B2R py in let z := B2R pz in let rad := B2R r in let rho := sqrt (x * x + y * y) in
  / 1024 <= rho -> / 1024 <= rad <= 1048576 -> / 512 <= P <= 16 -> / 1024 <= Q <= 16 -> 0 <= z <= rad -> rho <= 2 * rad -> rad * rad <= N -> 0 <= B2R q <= 1 -> Rabs (B2R q - z / rad) <= 101 / 100 * u ->
  Rabs (rho * rho + z * z - rad * rad) <= 100 * u * N ->
  let phi := m_atan2 m py px in let s := m_sin m (m_acos m q) in
  let a := vec3 (fmul (fneg py) kp) (fmul px kp) (fmul (fzero false) kp) in
  let b := vec3 (fmul (fmul pz (m_cos m phi)) kt) (fmul (fmul pz (m_sin m phi)) kt) (fmul (fmul (fneg r) s) kt) in
  fall finite (cross a b) /\ near3 (P * Q * (28 * u * (rho * rad) + 103 * u * N)) (f3 (cross a b)) (scl3 (P * Q * rho) (mk3 x y z)).
Proof.
  intros G GA GT Fx Fy Fz Fr Fq VP VQ x y z rad rho R0 RAD HP HQ Z RR HN Q01 EQ HS phi s a b. assert (U := u_q (f := f)).
  destruct (frame_cross_gen px py pz r kp kt q P Q G GA GT Fx Fy Fz Fr Fq VP VQ R0 RAD HP HQ ltac:(fold z rad; rewrite Rabs_pos_eq; lra) RR Q01) as [FC NC]. cbv zeta in NC. fold x y z rad rho phi s a b in FC, NC.
  split; [exact FC|]. set (sg := sqrt (1 - B2R q * B2R q)) in *.
  assert (RD := ring_dist u rad rho z (B2R q) N ltac:(lra) ltac:(lra) Z ltac:(lra) HN Q01 EQ HS). fold sg in RD.
  assert (XX : rho * rho = x * x + y * y). { apply sqrt_sqrt. assert (A := Rle_0_sqr x). assert (B := Rle_0_sqr y). unfold Rsqr in *. lra. }
  assert (AX : Rabs x <= rho) by (rewrite <- (Rabs_pos_eq rho) by lra; apply Rsqr_le_abs_0; unfold Rsqr; assert (B := Rle_0_sqr y); unfold Rsqr in B; lra).
  assert (AY : Rabs y <= rho) by (rewrite <- (Rabs_pos_eq rho) by lra; apply Rsqr_le_abs_0; unfold Rsqr; assert (B := Rle_0_sqr x); unfold Rsqr in B; lra).
  assert (PQ : 0 < P * Q) by (apply Rmult_lt_0_compat; lra).
  assert (PQE : 0 <= P * Q * (103 * u * N)). { apply Rmult_le_pos; [lra|]. apply Rmult_le_pos; [lra|]. assert (0 <= rad * rad) by (apply Rmult_le_pos; lra). lra. }
  assert (X : forall w, Rabs w <= rho -> Rabs (P * Q * (rad * sg * w) - P * Q * rho * w) <= P * Q * (103 * u * N)).
  { intros w W. replace (P * Q * (rad * sg * w) - P * Q * rho * w) with (P * Q * ((rad * sg - rho) * w)) by ring. rewrite Rabs_mult, (Rabs_pos_eq (P * Q)) by lra. apply Rmult_le_compat_l; [lra|].
    rewrite Rabs_mult. eapply Rle_trans; [|exact RD]. apply Rmult_le_compat_l; [apply Rabs_pos|exact W]. }
  assert (DX := X x AX). assert (DY := X y AY). destruct NC as (N1 & N2 & N3). cbn [cX cY cZ scl3] in N1, N2, N3. apply Rabs_le_inv in DX, DY, N1, N2, N3.
  split; [|split]; cbn [cX cY cZ scl3]; apply Rabs_le; lra.
Qed.
End F.
