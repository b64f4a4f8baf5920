(** Spheres in exact arithmetic. *)
From Coq Require Import ZArith Reals Bool List Lra Lia Nsatz.
From Coq Require Vector Fin.
From Flocq Require Import Core.
From Verif.Model Require Import FloatBase Scalar Interval Outcome Vec Transform XReal Geometry.
From Verif Require Import Spec SpecGeom SpecShape SpecSphere.
From Verif.Proofs Require Import XRealLemmas MatrixProofs TransformProofs TransformThms TransformCases.
Open Scope R_scope.

(** ** The quadratic solver *)
(** the terms of the model, with the instances they have there *)
Definition nonneg {T} {G : GFloat T} (x : T) : bool := is_nonnegative x.
Definition disc {T} {G : GFloat T} (a b c : T) : T := ssub (ssquare b) (smul (smul a c) (from_i64 4)).
Definition mm {T} {G : GFloat T} (x y : T) : T * T := min_max x y.
Lemma quad_eq {T} {G : GFloat T} {N : Native T} (a b c : T) : solve_quadratic a b c =
  if nonneg (disc a b c) then
    if nonneg b then Some (mm (sdiv (smul (sneg (sadd b (gsqrt (disc a b c)))) half) a) (sdiv (sneg (sadd c c)) (sadd b (gsqrt (disc a b c)))))
    else Some (mm (sdiv (smul (sadd (sneg b) (gsqrt (disc a b c))) half) a) (sdiv (sadd c c) (sadd (sneg b) (gsqrt (disc a b c)))))
  else None.
Proof. reflexivity. Qed.
Lemma nonneg_R (x : xr) a : isR x a -> reflect (0 <= a) (nonneg x).
Proof. intros H. exact (sge_R x szero a 0 H isR_zero). Qed.
Lemma min_max_R (x y : xr) a b : isR x a -> isR y b -> isR (fst (mm x y)) (Rmin a b) /\ isR (snd (mm x y)) (Rmax a b).
Proof.
  intros Hx Hy. unfold mm, min_max. change (@slt xr _ x y) with (slt x y). destruct (slt_R x y a b Hx Hy) as [L|L]; cbn [fst snd].
  - rewrite Rmin_left, Rmax_right by lra. auto.
  - rewrite Rmin_right, Rmax_left by lra. auto.
Qed.
Lemma disc_R (a' b' c' : xr) a b c : isR a' a -> isR b' b -> isR c' c ->
  isR (disc a' b' c') (b * b - 4 * a * c).
Proof. intros Ha Hb Hc. unfold disc. isr. ring. Qed.
Lemma quad_none (a' b' c' : xr) a b c : isR a' a -> isR b' b -> isR c' c -> b * b - 4 * a * c < 0 -> solve_quadratic a' b' c' = None.
Proof.
  intros Ha Hb Hc D. rewrite quad_eq. assert (HD := disc_R _ _ _ _ _ _ Ha Hb Hc).
  destruct (nonneg_R _ _ HD) as [L|L]; [lra|reflexivity].
Qed.
Lemma vieta a b c q r0 r1 t : q <> 0 -> 2 * a * r0 = - q -> q * r1 = - (c + c) -> (q - b) * (q - b) = b * b - 4 * a * c ->
  a * t * t + b * t + c = a * (t - r0) * (t - r1).
Proof.
  intros Q E0 E1 E2.
  assert (K1 : a * r0 * r1 = c) by nsatz.
  assert (K2 : a * (r0 + r1) = - b). { apply Rmult_eq_reg_r with q; [nsatz|exact Q]. }
  nsatz.
Qed.
Lemma quad_some (a' b' c' : xr) a b c : isR a' a -> isR b' b -> isR c' c -> a <> 0 -> 0 <= b * b - 4 * a * c -> ~ (b = 0 /\ c = 0) ->
  exists x y t0 t1, solve_quadratic a' b' c' = Some (x, y) /\ isR x t0 /\ isR y t1 /\ t0 <= t1 /\
    (forall t, a * t * t + b * t + c = a * (t - t0) * (t - t1)).
Proof.
  intros Ha Hb Hc A D NZ. rewrite quad_eq. assert (HD := disc_R _ _ _ _ _ _ Ha Hb Hc).
  destruct (nonneg_R _ _ HD) as [_|L]; [|lra]. assert (HS := isR_sqrt _ _ HD D).
  set (s := sqrt (b * b - 4 * a * c)) in *. assert (S0 : 0 <= s) by apply sqrt_pos. assert (S2 : s * s = b * b - 4 * a * c) by (apply sqrt_sqrt; exact D).
  clearbody s.
  assert (G : forall x y r0 r1, isR x r0 -> isR y r1 -> (forall t, a * t * t + b * t + c = a * (t - r0) * (t - r1)) ->
    exists x' y' t0 t1, Some (mm x y) = Some (x', y') /\ isR x' t0 /\ isR y' t1 /\ t0 <= t1 /\ forall t, a * t * t + b * t + c = a * (t - t0) * (t - t1)).
  { intros x y r0 r1 Hx Hy Q. destruct (min_max_R x y r0 r1 Hx Hy) as [M1 M2]. destruct (mm x y) as [x' y']. cbn [fst snd] in *.
    exists x', y', (Rmin r0 r1), (Rmax r0 r1). split; [reflexivity|split; [exact M1|split; [exact M2|split]]].
    - apply Rle_trans with (1 := Rmin_l _ _). apply Rmax_l.
    - intros t. rewrite Q. unfold Rmin, Rmax. destruct (Rle_dec r0 r1); ring. }
  destruct (nonneg_R _ _ Hb) as [B|B].
  - assert (P : b + s <> 0). { intros K. assert (b = 0) by lra. assert (s = 0) by lra. subst b s. apply NZ. split; [reflexivity|]. assert (a * c = 0) by lra. apply Rmult_integral in H. tauto. }
    apply (G _ _ (- (b + s) * (1 / 2) / a) (- (c + c) / (b + s))).
    + isr; [..|reflexivity]; try exact A.
    + isr; [..|reflexivity]; try exact P.
    + intros t. apply (vieta a b c (b + s)); [exact P|field; exact A|field; exact P|rewrite <- S2; ring].
  - assert (P : - b + s <> 0) by lra.
    apply (G _ _ ((- b + s) * (1 / 2) / a) ((c + c) / (- b + s))).
    + isr; [..|reflexivity]; try exact A.
    + isr; [..|reflexivity]; try exact P.
    + intros t. apply (vieta a b c (- (- b + s))); [lra|field; exact A|field; exact P|rewrite <- S2; ring].
Qed.
Lemma xdiv_zero (x y : xr) : isR x 0 -> isR y 0 -> sdiv x y = XNaN.
Proof.
  intros (s & ->) (s' & ->). cbn [sdiv xr_scalar]. unfold xdiv_. destruct (Reqb_spec 0 0); [reflexivity|lra].
Qed.
Lemma quad_degenerate (a' b' c' : xr) a : isR a' a -> isR b' 0 -> isR c' 0 -> a <> 0 ->
  exists y, solve_quadratic a' b' c' = Some (XNaN, y) /\ isR y 0.
Proof.
  intros Ha Hb Hc A. rewrite quad_eq. assert (HD := disc_R _ _ _ _ _ _ Ha Hb Hc).
  destruct (nonneg_R _ _ HD) as [L|L]; [|lra]. assert (HS := isR_sqrt _ _ HD L).
  assert (S0 : sqrt (0 * 0 - 4 * a * 0) = 0). { replace (0 * 0 - 4 * a * 0) with 0 by ring. apply sqrt_0. } rewrite S0 in HS.
  destruct (nonneg_R _ _ Hb) as [_|]; [|lra].
  set (x := sdiv (smul (sneg (sadd b' (gsqrt (disc a' b' c')))) half) a').
  assert (X : isR x 0). { unfold x. isr; [..|field; exact A]; exact A. }
  assert (Y : sdiv (sneg (sadd c' c')) (sadd b' (gsqrt (disc a' b' c'))) = XNaN).
  { apply xdiv_zero; isr; ring. }
  exists x. split; [|exact X]. f_equal.
  change (mm x (sdiv (sneg (sadd c' c')) (sadd b' (gsqrt (disc a' b' c')))) = (XNaN, x)). rewrite Y.
  destruct X as (s & ->). reflexivity.
Qed.

(** ** The polar angle *)
Lemma Rlt_neq_pos x y : x <> 0 -> 0 < x * x + y * y.
Proof. intros. assert (0 < x * x) by nra. nra. Qed.
Lemma sqrt_scale x y : x <> 0 -> sqrt (x * x + y * y) = Rabs x * sqrt (1 + (y / x) * (y / x)).
Proof.
  intros H. rewrite <- sqrt_Rsqr_abs, <- sqrt_mult; unfold Rsqr; [f_equal; field; exact H|nra|].
  assert (0 <= y / x * (y / x)) by nra. lra.
Qed.
Lemma polar_atan x y : x <> 0 ->
  Rabs x = sqrt (x * x + y * y) * cos (atan (y / x)) /\ (y / x) * Rabs x = sqrt (x * x + y * y) * sin (atan (y / x)).
Proof.
  intros H. rewrite (sqrt_scale x y H), cos_atan, sin_atan. unfold Rsqr.
  assert (P : 0 < sqrt (1 + y / x * (y / x))). { apply sqrt_lt_R0. assert (0 <= y / x * (y / x)) by nra. lra. }
  set (q := sqrt (1 + y / x * (y / x))) in *. clearbody q. split; field; repeat split; first [exact H | lra].
Qed.
Lemma ratan2_angle x y z sx sy : angle_of (mk3 x y z) (ratan2 y sy x sx).
Proof.
  unfold angle_of, ratan2. cbn [cX cY]. assert (PI0 := PI_RGT_0).
  destruct (Reqb_spec y 0) as [->|Y].
  - rewrite Rmult_0_l, Rplus_0_r. assert (A : sqrt (x * x) = Rabs x) by apply (sqrt_Rsqr_abs x). rewrite A.
    unfold fsign. destruct (Reqb_spec x 0) as [->|X].
    + rewrite Rabs_R0, !Rmult_0_l. split; [|split; reflexivity]. destruct sx; [destruct (Reqb_spec 0 0); [destruct sy; lra|lra]|lra].
    + destruct (Rltb_spec x 0) as [L|L].
      * rewrite Rabs_left by exact L. destruct (Reqb_spec 0 0); [|lra]. destruct sy.
        -- rewrite cos_neg, sin_neg, cos_PI, sin_PI. split; lra.
        -- rewrite cos_PI, sin_PI. split; lra.
      * rewrite Rabs_pos_eq by lra. rewrite cos_0, sin_0. split; lra.
  - destruct (Reqb_spec x 0) as [->|X].
    + rewrite Rmult_0_l, Rplus_0_l. assert (A : sqrt (y * y) = Rabs y) by apply (sqrt_Rsqr_abs y). rewrite A.
      destruct (Rltb_spec y 0) as [L|L].
      * rewrite Rabs_left by exact L. rewrite cos_neg, sin_neg, cos_PI2, sin_PI2. split; lra.
      * rewrite Rabs_pos_eq by lra. rewrite cos_PI2, sin_PI2. split; lra.
    + destruct (polar_atan x y X) as [P1 P2]. assert (B := atan_bound (y / x)).
      assert (D : y / x * x = y) by (field; exact X).
      destruct (Rltb_spec 0 x) as [L|L].
      * rewrite Rabs_pos_eq in P1, P2 by lra. split; [lra|]. split; lra.
      * assert (x < 0) by lra. rewrite Rabs_left in P1, P2 by lra.
        assert (S : y / x * (- x) = - y) by (rewrite <- D at 2; ring).
        destruct (Rltb_spec y 0) as [M|M].
        -- assert (0 < y / x) by (unfold Rdiv; assert (/ x < 0) by (apply Rinv_lt_0_compat; lra); nra).
           assert (AA := atan_increasing 0 (y / x) ltac:(lra)). rewrite atan_0 in AA.
           replace (atan (y / x) - PI) with (- (PI - atan (y / x))) by ring. rewrite cos_neg, sin_neg, Rtrigo_facts.cos_pi_minus, Rtrigo_facts.sin_pi_minus.
           split; [lra|]. split; lra.
        -- assert (y / x < 0) by (unfold Rdiv; assert (/ x < 0) by (apply Rinv_lt_0_compat; lra); nra).
           assert (AA := atan_increasing (y / x) 0 ltac:(lra)). rewrite atan_0 in AA.
           replace (atan (y / x) + PI) with (atan (y / x) - - PI) by ring. rewrite cos_minus, sin_minus, cos_neg, sin_neg, cos_PI, sin_PI.
           split; [lra|]. split; lra.
Qed.
Lemma isR_atan2 (x' y' : xr) x y z : isR x' x -> isR y' y -> exists phi, isR (gatan2 y' x') phi /\ angle_of (mk3 x y z) phi.
Proof. intros (sx & ->) (sy & ->). eexists. split; [apply isR_fin|]. apply ratan2_angle. Qed.

(** ** Ray against sphere *)
Definition isS (s : sphere xr) (rad z0 z1 p1 : R) : Prop :=
  isR (radius s) rad /\ isR (z_min s) z0 /\ isR (z_max s) z1 /\ isR (phi_max s) p1.
Definition inr {T} {G : GFloat T} (x lo hi : T) : bool := in_range x lo hi.
Definition gz {T} {G : GFloat T} : T := szero.
Lemma gz_R : isR (gz : xr) 0. Proof. exact isR_zero. Qed.
Definition ggt {T} {G : GFloat T} (x y : T) : bool := sgt x y.
Lemma inr_R (x lo hi : xr) a l h : isR x a -> isR lo l -> isR hi h -> reflect (l <= a <= h) (inr x lo hi).
Proof.
  intros Hx Hl Hh. assert (A := sge_R x lo a l Hx Hl). assert (B := sle_R x hi a h Hx Hh).
  unfold inr, in_range. change (@sge xr _ x lo) with (sge x lo). change (@sle xr _ x hi) with (sle x hi).
  destruct A, B; constructor; lra.
Qed.
Lemma ggt_R (x y : xr) a b : isR x a -> isR y b -> reflect (b < a) (ggt x y).
Proof. intros Hx Hy. exact (sgt_R x y a b Hx Hy). Qed.
Definition reval {T} {G : GFloat T} (r : ray T) (t : T) : vec T 3 := ray_eval r t.
Lemma is3_reval (r : ray xr) o d tm s q : isRay r o d tm -> isR s q -> is3 (reval r s) (at_ray o d q).
Proof. exact (is3_eval r o d tm s q). Qed.
Lemma get_eq {T} {G : GFloat T} {N : Native T} (s : sphere T) (r : ray T) t : s_get_intersection s r t =
  if negb (inr t gz (tmax r)) then None
  else if negb (inr (vz (reval r t)) (z_min s) (z_max s)) then None
  else if ggt (gatan2 (vy (reval r t)) (vx (reval r t))) (phi_max s) then None
  else Some (mkSP t (reval r t) (gatan2 (vy (reval r t)) (vx (reval r t)))).
Proof. reflexivity. Qed.

Lemma get_ok s r rad z0 z1 p1 o d tm t' t : isS s rad z0 z1 p1 -> isRay r o d tm -> isR t' t ->
  match s_get_intersection s r t' with
  | Some ip => exists phi, isR (sp_t ip) t /\ is3 (sp_p ip) (at_ray o d t) /\ isR (sp_phi ip) phi /\ angle_of (at_ray o d t) phi /\ phi <= p1 /\
      0 <= t <= tm /\ z0 <= cZ (at_ray o d t) <= z1
  | None => 0 <= t <= tm -> z0 <= cZ (at_ray o d t) <= z1 -> exists phi, angle_of (at_ray o d t) phi /\ p1 < phi
  end.
Proof.
  intros (_ & H0 & H1 & HP) Hr Ht. rewrite get_eq. assert (E := is3_reval _ _ _ _ _ _ Hr Ht).
  assert (EZ : isR (vz (reval r t')) (cZ (at_ray o d t))) by exact (proj2 (proj2 E)).
  destruct (inr_R _ _ _ _ _ _ Ht gz_R (proj2 (proj2 Hr))) as [A|A]; [|cbn [negb]; tauto]. cbn [negb].
  destruct (inr_R _ _ _ _ _ _ EZ H0 H1) as [B|B]; [|cbn [negb]; tauto]. cbn [negb].
  destruct (isR_atan2 (vx (reval r t')) (vy (reval r t')) _ _ (cZ (at_ray o d t)) (proj1 E) (proj1 (proj2 E))) as (phi & P1 & P2).
  assert (P3 : angle_of (at_ray o d t) phi) by exact P2.
  destruct (ggt_R _ _ _ _ P1 HP) as [C|C].
  - intros _ _. exists phi. auto.
  - exists phi. cbn [sp_t sp_p sp_phi]. split; [exact Ht|split; [exact E|split; [exact P1|split; [exact P3|split; [lra|tauto]]]]].
Qed.
Lemma get_nan s r : s_get_intersection s r XNaN = None.
Proof. reflexivity. Qed.

Lemma sphere_ok s r rad z0 z1 p1 o d tm : isS s rad z0 z1 p1 -> isRay r o d tm -> d <> zero3 ->
  match s_intersect_ray s r with
  | Some ip => exists t phi, isR (sp_t ip) t /\ is3 (sp_p ip) (at_ray o d t) /\ isR (sp_phi ip) phi /\ angle_of (at_ray o d t) phi /\ phi <= p1 /\
      meets rad z0 z1 o d tm t /\
      (forall u, meets rad z0 z1 o d tm u -> u < t -> outside_wedge (at_ray o d u) p1)
  | None => forall u, meets rad z0 z1 o d tm u -> outside_wedge (at_ray o d u) p1
  end.
Proof.
  intros HS Hr Hd. assert (Hr' := Hr). destruct Hr' as (Ho & Hdir & Htm).
  unfold s_intersect_ray.
  set (a' := square_norm (direction r)). set (b' := smul (dot (origin r) (direction r)) (from_i64 2)). set (c' := ssub (square_norm (origin r)) (ssquare (radius s))).
  assert (Ha : isR a' (dot3 d d)) by exact (isR_sqnorm3 _ _ Hdir).
  assert (Hb : isR b' (2 * dot3 o d)). { eapply isR_eq; [exact (isR_mul _ _ _ _ (isR_dot3 _ _ _ _ Ho Hdir) (isR_from_i64 2))|ring]. }
  assert (Hc : isR c' (dot3 o o - rad * rad)). { exact (isR_sub _ _ _ _ (isR_sqnorm3 _ _ Ho) (isR_square _ _ (proj1 HS))). }
  clearbody a' b' c'.
  assert (A : dot3 d d <> 0). { intros K. apply Hd, dot3_zero, K. }
  set (a := dot3 d d) in *. set (b := 2 * dot3 o d) in *. set (c := dot3 o o - rad * rad) in *.
  assert (Q : forall t, dot3 (at_ray o d t) (at_ray o d t) - rad * rad = a * t * t + b * t + c).
  { intros t. unfold a, b, c, at_ray, dot3, add3, scl3. cbn [cX cY cZ]. ring. }
  clearbody a b c.
  assert (QM : forall t, dot3 (at_ray o d t) (at_ray o d t) = rad * rad <-> a * t * t + b * t + c = 0).
  { intros t. rewrite <- Q. lra. }
  destruct (Rlt_le_dec (b * b - 4 * a * c) 0) as [D|D].
  - rewrite (quad_none _ _ _ _ _ _ Ha Hb Hc D). intros u (_ & (Hu & _)). exfalso. apply QM in Hu.
    assert (0 <= (2 * a * u + b) * (2 * a * u + b)) by apply Rle_0_sqr. assert ((2 * a * u + b) * (2 * a * u + b) = 4 * a * (a * u * u + b * u + c) + (b * b - 4 * a * c)) by ring.
    rewrite Hu in H0. lra.
  - destruct (Classical_Prop.classic (b = 0 /\ c = 0)) as [[B C]|B].
    + rewrite B in Hb. rewrite C in Hc. destruct (quad_degenerate _ _ _ _ Ha Hb Hc A) as (y & -> & Hy). rewrite get_nan.
      assert (G := get_ok s r rad z0 z1 p1 o d tm y 0 HS Hr Hy).
      assert (U : forall u, dot3 (at_ray o d u) (at_ray o d u) = rad * rad <-> u = 0).
      { intros u. rewrite QM, B, C. split; [intros K|intros ->; ring]. assert (u * u = 0). { apply Rmult_eq_reg_l with a; [lra|exact A]. } nra. }
      destruct (s_get_intersection s r y) as [ip|].
      * destruct G as (phi & G1 & G2 & G3 & G4 & G5 & G6 & G7). exists 0, phi.
        split; [exact G1|split; [exact G2|split; [exact G3|split; [exact G4|split; [exact G5|split]]]]].
        -- split; [exact G6|split; [apply U; reflexivity|exact G7]].
        -- intros u (_ & (K & _)) L. apply U in K. lra.
      * intros u (K1 & K2 & K3). apply U in K2. subst u. exact (G K1 K3).
    + destruct (quad_some _ _ _ _ _ _ Ha Hb Hc A D B) as (x & y & t0 & t1 & -> & X & Y & L & F).
      assert (G0 := get_ok s r rad z0 z1 p1 o d tm x t0 HS Hr X). assert (G1 := get_ok s r rad z0 z1 p1 o d tm y t1 HS Hr Y).
      assert (U : forall u, dot3 (at_ray o d u) (at_ray o d u) = rad * rad <-> u = t0 \/ u = t1).
      { intros u. rewrite QM, F. split; [intros K|intros [->| ->]; ring]. apply Rmult_integral in K. destruct K as [K|K]; [apply Rmult_integral in K; destruct K; [tauto|left; lra]|right; lra]. }
      destruct (s_get_intersection s r x) as [ip|].
      * destruct G0 as (phi & E1 & E2 & E3 & E4 & E5 & E6 & E7). exists t0, phi.
        split; [exact E1|split; [exact E2|split; [exact E3|split; [exact E4|split; [exact E5|split]]]]].
        -- split; [exact E6|split; [apply U; left; reflexivity|exact E7]].
        -- intros u (_ & (K & _)) M. apply U in K. lra.
      * destruct (s_get_intersection s r y) as [ip|].
        -- destruct G1 as (phi & E1 & E2 & E3 & E4 & E5 & E6 & E7). exists t1, phi.
           split; [exact E1|split; [exact E2|split; [exact E3|split; [exact E4|split; [exact E5|split]]]]].
           ++ split; [exact E6|split; [apply U; right; reflexivity|exact E7]].
           ++ intros u (K0 & (K & K')) M. apply U in K. destruct K as [->| ->]; [|lra]. exact (G0 K0 K').
        -- intros u (K0 & (K & K')). apply U in K. destruct K as [->| ->]; [exact (G0 K0 K')|exact (G1 K0 K')].
Qed.
