(** perspective in f32/f64. *)
From Coq Require Import ZArith Reals Bool Lra Lia.
From Coq Require Vector Fin.
From Flocq Require Import Core BinarySingleNaN.
From Verif.Model Require Import FloatBase Scalar Float Interval Outcome Vec Transform XReal.
From Verif Require Import Spec SpecGeom SpecShape SpecTrig SpecError SpecQuad SpecPersp.
From Verif.Proofs Require Import BitsLemmas FloatLemmas ScalarProofs XRealLemmas VectorFloat MatrixProofs TransformProofs RotationProofs VectorExact MatrixThms TransformFloat SlabFloat VectorErr MapErr IntervalTrig IntervalTrig2 TrigTight IntervalTraits DiskFloat CameraFloat QuadFloat SphereNear RotFloat.
Open Scope R_scope.
Notation "v @ i" := (Vector.nth v i) (at level 20, only parsing).

(** ** sizes as powers of two *)
Definition mg (l h : Z) (r : R) : Prop := bpow radix2 (- l) <= Rabs r <= bpow radix2 h.
Lemma mg_nz l h r : mg l h r -> r <> 0.
Proof. intros [A _] ->. rewrite Rabs_R0 in A. assert (T := bpow_gt_0 radix2 (- l)). lra. Qed.
Lemma mg_mul l h l' h' r s : mg l h r -> mg l' h' s -> mg (l + l') (h + h') (r * s).
Proof.
  intros [A B] [C D]. unfold mg. replace (- (l + l'))%Z with (- l + - l')%Z by ring. rewrite !bpow_plus, Rabs_mult.
  split; apply Rmult_le_compat; try assumption; try apply bpow_ge_0; apply Rabs_pos.
Qed.
Lemma mg_inv l h r : mg l h r -> mg h l (/ r).
Proof.
  intros H. assert (N := mg_nz _ _ _ H). destruct H as [A B]. unfold mg. rewrite Rabs_inv, bpow_opp.
  assert (P := bpow_gt_0 radix2 (- l)). replace (bpow radix2 l) with (/ bpow radix2 (- l)) by (rewrite <- bpow_opp; f_equal; ring). split; apply Rinv_le; try assumption. apply Rabs_pos_lt, N.
Qed.
Lemma mg_div l h l' h' r s : mg l h r -> mg l' h' s -> mg (l + h') (h + l') (r / s).
Proof. intros A B. apply mg_mul; [exact A|apply mg_inv; exact B]. Qed.
Lemma mg_opp l h r : mg l h r -> mg l h (- r).
Proof. unfold mg. rewrite Rabs_Ropp. auto. Qed.
Lemma mg_le l h l' h' r : mg l h r -> (l <= l')%Z -> (h <= h')%Z -> mg l' h' r.
Proof. intros [A B] L H. split; [apply Rle_trans with (2 := A), bpow_le; lia|apply Rle_trans with (1 := B), bpow_le; lia]. Qed.
Lemma mg_one : mg 0 0 1.
Proof. unfold mg. rewrite Rabs_R1. cbn; lra. Qed.

Section P.
Context {f : fmt} {m : libm f}.
Notation FT := (float f).
Notation u := (unit_roundoff f).
Notation eta := (smallest_float f / 2).

(** ** relative errors in units of u *)
Definition ap (k : R) (x : FT) (r : R) : Prop := finite x /\ exists e, Rabs e <= k * u /\ B2R x = r * (1 + e).
Definition ok (r : R) : Prop := exists l h, mg l h r /\ (l <= 119)%Z /\ (h <= 119)%Z.
Lemma ap_val (x : FT) r : val x r -> ap 0 x r.
Proof. intros [F E]. split; [exact F|]. exists 0. rewrite Rabs_R0. split; [lra|]. rewrite E. ring. Qed.
Lemma ap_self (x : FT) : finite x -> ap 0 x (B2R x).
Proof. intros F. apply ap_val. split; [exact F|reflexivity]. Qed.
Lemma ap_le k l x r : ap k x r -> k <= l -> ap l x r.
Proof. intros (F & e & E & V) L. split; [exact F|]. exists e. split; [|exact V]. assert (U := u_q (f := f)). apply Rle_trans with (1 := E). apply Rmult_le_compat_r; lra. Qed.
Lemma ap_neg k x r : ap k x r -> ap k (fneg x) (- r).
Proof. intros (F & e & E & V). split; [apply fneg_finite; exact F|]. exists e. split; [exact E|]. rewrite fneg_B2R, V. ring. Qed.
Lemma ap_same k (x z : FT) r : ap k x r -> val z (B2R x) -> ap k z r.
Proof. intros (F & e & E & V) [Fz Vz]. split; [exact Fz|]. exists e. split; [exact E|]. rewrite Vz. exact V. Qed.
Lemma ap_eq k x r s : ap k x r -> r = s -> ap k x s. Proof. intros H <-. exact H. Qed.
Lemma ku k : 0 <= k <= 40 -> 0 <= k * u <= 40 * / 1000000.
Proof. intros K. assert (U := u_q (f := f)). split; [apply Rmult_le_pos|apply Rmult_le_compat]; lra. Qed.
Lemma comb d e g p q : 0 <= p <= 40 -> 0 <= q <= 40 -> Rabs d <= p * u -> Rabs e <= q * u -> Rabs g <= u -> exists h, Rabs h <= (p + q + 1 + / 200) * u /\ (1 + d) * (1 + e) * (1 + g) = 1 + h.
Proof.
  intros P Q D E G. exists (d + e + g + d * e + (d + e + d * e) * g). split; [|ring]. assert (U := u_q (f := f)). assert (KP := ku p P). assert (KQ := ku q Q).
  assert (DE : Rabs (d * e) <= / 500 * u). { rewrite Rabs_mult. apply Rle_trans with (p * u * (q * u)); [apply Rmult_le_compat; try apply Rabs_pos; assumption|]. replace (p * u * (q * u)) with (p * (q * u) * u) by ring. apply Rmult_le_compat_r; [lra|]. apply Rle_trans with (40 * (40 * / 1000000)); [apply Rmult_le_compat; lra|lra]. }
  assert (S : Rabs (d + e + d * e) <= / 1000). { eapply Rle_trans; [apply Rabs_triang|]. eapply Rle_trans; [apply Rplus_le_compat_r, Rabs_triang|]. lra. }
  assert (SG : Rabs ((d + e + d * e) * g) <= / 1000 * u) by (rewrite Rabs_mult; apply Rmult_le_compat; try apply Rabs_pos; assumption).
  eapply Rle_trans; [apply Rabs_triang|]. eapply Rle_trans; [apply Rplus_le_compat_r, Rabs_triang|]. eapply Rle_trans; [apply Rplus_le_compat_r, Rplus_le_compat_r, Rabs_triang|].
  eapply Rle_trans; [apply Rplus_le_compat_r, Rplus_le_compat_r, Rplus_le_compat_r, Rabs_triang|]. lra.
Qed.
Lemma invd d p : 0 <= p <= 40 -> Rabs d <= p * u -> exists g, Rabs g <= (p + / 200) * u /\ / (1 + d) = 1 + g.
Proof.
  intros P D. assert (U := u_q (f := f)). assert (KP := ku p P). assert (D0 := D). apply Rabs_le_inv in D. exists (- d / (1 + d)). split; [|field; lra].
  unfold Rdiv. rewrite Rabs_mult, Rabs_Ropp, Rabs_inv, (Rabs_pos_eq (1 + d)) by lra.
  apply (Rmult_le_reg_r (1 + d)); [lra|]. rewrite Rmult_assoc, Rinv_l by lra. rewrite Rmult_1_r. apply Rle_trans with (1 := D0).
  assert (A : (p + / 200) * u * (1 - 40 * / 1000000) <= (p + / 200) * u * (1 + d)) by (apply Rmult_le_compat_l; [apply Rmult_le_pos|]; lra).
  assert (B : 0 <= u * (/ 200 - (p + / 200) * (40 * / 1000000))) by (apply Rmult_le_pos; lra). lra.
Qed.
Lemma ok_size r e : ok r -> Rabs e <= / 2 -> bpow radix2 (-120) <= Rabs (r * (1 + e)) <= bpow radix2 120.
Proof.
  intros (l & h & [A B] & L & H) E. apply Rabs_le_inv in E. rewrite Rabs_mult, (Rabs_pos_eq (1 + e)) by lra.
  assert (C1 : 2 * bpow radix2 (-120) <= bpow radix2 (- l)) by (change 2 with (bpow radix2 1) at 1; rewrite <- bpow_plus; apply bpow_le; lia).
  assert (C2 : 2 * bpow radix2 h <= bpow radix2 120) by (change 2 with (bpow radix2 1) at 1; rewrite <- bpow_plus; apply bpow_le; lia).
  assert (P := Rabs_pos r). split.
  - apply Rle_trans with (Rabs r * / 2); [lra|apply Rmult_le_compat_l; lra].
  - apply Rle_trans with (Rabs r * 2); [apply Rmult_le_compat_l; lra|lra].
Qed.
Lemma half_ok d e p q : 0 <= p <= 40 -> 0 <= q <= 40 -> Rabs d <= p * u -> Rabs e <= q * u -> exists h, Rabs h <= / 2 /\ (1 + d) * (1 + e) = 1 + h.
Proof.
  intros P Q D E. assert (U := u_q (f := f)). destruct (comb d e 0 p q P Q D E) as (h & H & V); [rewrite Rabs_R0; lra|]. exists h. split; [|rewrite <- V; ring].
  apply Rle_trans with (1 := H). assert ((p + q + 1 + / 200) * u <= 82 * / 1000000) by (apply Rmult_le_compat; lra). lra.
Qed.
Lemma ap_mul k l x y r s : ap k x r -> ap l y s -> 0 <= k <= 40 -> 0 <= l <= 40 -> r * s = 0 \/ ok (r * s) -> ap (k + l + 1 + / 100) (fmul x y) (r * s).
Proof.
  intros (Fx & d & D & Vx) (Fy & e & E & Vy) K L O. assert (U := u_q (f := f)).
  destruct (half_ok d e k l K L D E) as (h & H & V).
  assert (P : B2R x * B2R y = r * s * (1 + h)) by (rewrite Vx, Vy, <- V; ring).
  assert (Rn := fmul_Rnd x y Fx Fy). rewrite P in Rn.
  assert (Z : exists g, Rabs g <= u /\ finite (fmul x y) /\ B2R (fmul x y) = r * s * (1 + h) * (1 + g)).
  { destruct O as [O|O].
    - rewrite O, Rmult_0_l in Rn. destruct (rel_fin _ _ Rn) as [F (g & G & Vg)]; [auto|rewrite Rabs_R0; apply bpow_ge_0|]. exists g. rewrite Vg, O. repeat split; try assumption; ring.
    - destruct (ok_size _ _ O H) as [S1 S2]. destruct (rel_fin _ _ Rn) as [F (g & G & Vg)]; [auto|exact S2|]. exists g. auto. }
  destruct Z as (g & G & F & Vg). split; [exact F|]. destruct (comb d e g k l K L D E G) as (j & J & Vj). exists j. split; [apply Rle_trans with (1 := J); apply Rmult_le_compat_r; lra|].
  rewrite Vg, <- V, Rmult_assoc, Vj. reflexivity.
Qed.
Lemma ap_div k l x y r s : ap k x r -> ap l y s -> 0 <= k <= 40 -> 0 <= l <= 39 -> s <> 0 -> r = 0 \/ ok (r / s) -> ap (k + l + 1 + / 100) (fdiv x y) (r / s).
Proof.
  intros (Fx & d & D & Vx) (Fy & e & E & Vy) K L S0 O. assert (U := u_q (f := f)). assert (KL := ku l ltac:(lra)). assert (E0 := E). apply Rabs_le_inv in E0.
  destruct (invd e l ltac:(lra) E) as (i & I & Vi).
  destruct (half_ok d i k (l + / 200) K ltac:(lra) D I) as (h & H & V).
  assert (N : B2R y <> 0) by (rewrite Vy; intros Z; apply Rmult_integral in Z; lra).
  assert (P : B2R x / B2R y = r / s * (1 + h)) by (rewrite Vx, Vy, <- V, <- Vi; field; lra).
  assert (Rn := fdiv_Rnd x y Fx Fy N). rewrite P in Rn.
  assert (Z : exists g, Rabs g <= u /\ finite (fdiv x y) /\ B2R (fdiv x y) = r / s * (1 + h) * (1 + g)).
  { destruct O as [O|O].
    - assert (O2 : r / s = 0) by (rewrite O; unfold Rdiv; ring). rewrite O2, Rmult_0_l in Rn. destruct (rel_fin _ _ Rn) as [F (g & G & Vg)]; [auto|rewrite Rabs_R0; apply bpow_ge_0|]. exists g. rewrite Vg, O2. repeat split; try assumption; ring.
    - destruct (ok_size _ _ O H) as [S1 S2]. destruct (rel_fin _ _ Rn) as [F (g & G & Vg)]; [auto|exact S2|]. exists g. auto. }
  destruct Z as (g & G & F & Vg). split; [exact F|]. destruct (comb d i g k (l + / 200) K ltac:(lra) D I G) as (j & J & Vj). exists j. split; [apply Rle_trans with (1 := J); apply Rmult_le_compat_r; lra|].
  rewrite Vg, <- V, Rmult_assoc, Vj. reflexivity.
Qed.
Lemma ap_sub (x y : FT) : finite x -> finite y -> Rabs (B2R x - B2R y) <= bpow radix2 120 -> ap 1 (fsub x y) (B2R x - B2R y).
Proof.
  intros Fx Fy B. destruct (big_fin _ _ (fsub_Rnd x y Fx Fy) B) as [F _]. split; [exact F|]. destruct (rel_form u _ _ (proj1 (u_q (f := f))) (sub_rel x y Fx Fy F)) as (e & E & V). exists e. rewrite Rmult_1_l. auto.
Qed.
Lemma ap_rel k x r : ap k x r -> within_rel (k * u) (B2R x) r.
Proof. intros (F & e & E & V). apply (form_rel _ _ _ e E V). Qed.
(** one library call *)
Lemma near_below r : 0 < r -> ok r -> exists y : FT, finite y /\ r * (1 - (2 + / 10) * u) <= B2R y < r.
Proof.
  intros P O. assert (U := uu (f := f)). set (s := r * (1 - (1 + / 20) * u)).
  assert (S0 : 0 < s) by (apply Rmult_lt_0_compat; lra).
  destruct (ok_size r (- ((1 + / 20) * u)) O) as [S1 S2]; [rewrite Rabs_Ropp, Rabs_pos_eq; lra|].
  replace (r * (1 + - ((1 + / 20) * u))) with s in S1, S2 by (unfold s; ring).
  destruct (rel_fin _ _ (nearest_Rnd f s)) as [F (e & E & V)]; [auto|exact S2|]. exists (nearest f s). split; [exact F|]. rewrite V. apply Rabs_le_inv in E. unfold s in *. rewrite !Rmult_assoc.
  split; [apply Rmult_le_compat_l; [lra|]|rewrite <- (Rmult_1_r r) at 2; apply Rmult_lt_compat_l; [lra|]].
  - assert (0 <= (1 - (1 + / 20) * u) * (e + u)) by (apply Rmult_le_pos; lra). assert (0 <= u * u) by (apply Rmult_le_pos; lra). lra.
  - assert ((1 - (1 + / 20) * u) * (1 + e) <= (1 - (1 + / 20) * u) * (1 + u)) by (apply Rmult_le_compat_l; lra). assert (0 <= u * u) by (apply Rmult_le_pos; lra). lra.
Qed.
Lemma near_above r : 0 < r -> ok r -> exists y : FT, finite y /\ r < B2R y <= r * (1 + (2 + / 10) * u).
Proof.
  intros P O. assert (U := uu (f := f)). set (s := r * (1 + (1 + / 20) * u)).
  assert (S0 : 0 < s) by (apply Rmult_lt_0_compat; lra).
  destruct (ok_size r ((1 + / 20) * u) O) as [S1 S2]; [rewrite Rabs_pos_eq; lra|]. fold s in S1, S2.
  destruct (rel_fin _ _ (nearest_Rnd f s)) as [F (e & E & V)]; [auto|exact S2|]. exists (nearest f s). split; [exact F|]. rewrite V. apply Rabs_le_inv in E. unfold s in *. rewrite !Rmult_assoc.
  assert (UU : u * u <= u * / 1000000) by (apply Rmult_le_compat_l; lra). assert (0 <= u * u) by (apply Rmult_le_pos; lra).
  split; [rewrite <- (Rmult_1_r r) at 1; apply Rmult_lt_compat_l; [lra|]|apply Rmult_le_compat_l; [lra|]].
  - assert ((1 + (1 + / 20) * u) * (1 - u) <= (1 + (1 + / 20) * u) * (1 + e)) by (apply Rmult_le_compat_l; lra). lra.
  - assert ((1 + (1 + / 20) * u) * (1 + e) <= (1 + (1 + / 20) * u) * (1 + u)) by (apply Rmult_le_compat_l; lra). lra.
Qed.
Lemma ap_lib (z : FT) r : within_ulp z r -> 0 < r -> ok r -> ap (2 + / 10) z r.
Proof.
  intros (F & D & V) P O. split; [exact F|]. assert (U := u_q (f := f)).
  apply rel_form; [apply Rmult_le_pos; lra|]. rewrite (Rabs_pos_eq r) by lra. apply Rabs_le. split.
  - destruct (near_below r P O) as (y & FY & Y). destruct (Rle_or_lt (B2R y) (B2R z)) as [K|K]; [lra|exfalso].
    assert (A := V y (flt_R _ _ F FY K)). apply (above_finite _ _ FY) in A. lra.
  - destruct (near_above r P O) as (y & FY & Y). destruct (Rle_or_lt (B2R z) (B2R y)) as [K|K]; [lra|exfalso].
    assert (A := D y (flt_R _ _ FY F K)). apply (below_finite _ _ FY) in A. lra.
Qed.

(** ** maps by matrices of the shape of a projection *)
Definition shape (M : matrix FT) : Prop :=
  val (mget M i0 i1) 0 /\ val (mget M i0 i2) 0 /\ val (mget M i0 i3) 0 /\ val (mget M i1 i0) 0 /\ val (mget M i1 i2) 0 /\ val (mget M i1 i3) 0 /\
  val (mget M i2 i0) 0 /\ val (mget M i2 i1) 0 /\ val (mget M i3 i0) 0 /\ val (mget M i3 i1) 0.
Lemma sum_x (x y z c0 c1 c2 c3 : FT) : finite x -> finite y -> finite z -> val c1 0 -> val c2 0 -> val c3 0 -> finite (fmul x c0) ->
  val (fadd (fadd (fadd (fmul x c0) (fmul y c1)) (fmul z c2)) c3) (B2R (fmul x c0)).
Proof. intros. apply val_add_zero; [|assumption]. apply sum3_x; assumption. Qed.
Lemma sum_y (x y z c0 c1 c2 c3 : FT) : finite x -> finite y -> finite z -> val c0 0 -> val c2 0 -> val c3 0 -> finite (fmul y c1) ->
  val (fadd (fadd (fadd (fmul x c0) (fmul y c1)) (fmul z c2)) c3) (B2R (fmul y c1)).
Proof. intros. apply val_add_zero; [|assumption]. apply sum3_y; assumption. Qed.
Lemma sum_z (x y z c0 c1 c2 c3 : FT) : finite x -> finite y -> finite z -> val c0 0 -> val c1 0 -> finite c3 -> finite (fmul z c2) -> finite (fadd (fmul z c2) c3) ->
  val (fadd (fadd (fadd (fmul x c0) (fmul y c1)) (fmul z c2)) c3) (B2R (fadd (fmul z c2) c3)).
Proof.
  intros Fx Fy Fz V0 V1 F3 Fm Fa. destruct (sum3_z x y z c0 c1 c2 Fx Fy Fz Fm V0 V1) as [F V].
  assert (R1 := fadd_Rnd _ _ F F3). rewrite V in R1. destruct R1 as [N1 E1]. destruct (fadd_Rnd _ _ Fm F3) as [_ E2]. rewrite <- E2 in E1.
  assert (FZ : finite (fadd (fadd (fadd (fmul x c0) (fmul y c1)) (fmul z c2)) c3)) by (apply finite_of_range; [exact N1|rewrite E1; apply finite_E_range, Fa]).
  split; [exact FZ|]. rewrite <- (E_B2R _ FZ), <- (E_B2R _ Fa). exact E1.
Qed.
Lemma shape_map (M : matrix FT) (p : vec FT 3) : shape M -> fall finite p ->
  let x := vx p in let y := vy p in let z := vz p in
  finite (fmul x (mget M i0 i0)) -> finite (fmul y (mget M i1 i1)) ->
  finite (fmul z (mget M i2 i2)) -> finite (mget M i2 i3) -> finite (fadd (fmul z (mget M i2 i2)) (mget M i2 i3)) ->
  finite (fmul z (mget M i3 i2)) -> finite (mget M i3 i3) -> finite (fadd (fmul z (mget M i3 i2)) (mget M i3 i3)) ->
  B2R (fadd (fmul z (mget M i3 i2)) (mget M i3 i3)) <> 0 ->
  exists nx ny nz w, map_point M p = Ret (vec3 (fdiv nx w) (fdiv ny w) (fdiv nz w)) /\
    val nx (B2R (fmul x (mget M i0 i0))) /\ val ny (B2R (fmul y (mget M i1 i1))) /\
    val nz (B2R (fadd (fmul z (mget M i2 i2)) (mget M i2 i3))) /\ val w (B2R (fadd (fmul z (mget M i3 i2)) (mget M i3 i3))).
Proof.
  intros (Z01 & Z02 & Z03 & Z10 & Z12 & Z13 & Z20 & Z21 & Z30 & Z31) Fp x y z. apply fall3 in Fp as (Fx & Fy & Fz). fold x in Fx. fold y in Fy. fold z in Fz.
  intros F00 F11 F22 F23 Fn F32 F33 Fw W.
  assert (VX := sum_x x y z _ _ _ _ Fx Fy Fz Z01 Z02 Z03 F00). assert (VY := sum_y x y z _ _ _ _ Fx Fy Fz Z10 Z12 Z13 F11).
  assert (VZ := sum_z x y z _ _ _ _ Fx Fy Fz Z20 Z21 F23 F22 Fn). assert (VW := sum_z x y z _ _ _ _ Fx Fy Fz Z30 Z31 F33 F32 Fw).
  do 4 eexists. split; [|split; [exact VX|split; [exact VY|split; [exact VZ|exact VW]]]].
  unfold map_point, oassert. cbv zeta. fold x y z.
  match goal with |- (if ?c then _ else _) = _ => replace c with true; [reflexivity|] end. symmetry.
  match type of VW with val ?w _ => change (negb (feqb w (fzero false : FT)) = true) end.
  rewrite (eqb_val _ _ _ 0 VW (val_zero false)). rewrite Req_bool_false by exact W. reflexivity.
Qed.

(** ** the entries *)
Lemma tan_ge x : 0 < x < PI / 2 -> x <= tan x.
Proof.
  intros X. assert (C : 0 < cos x) by (apply cos_gt_0; lra).
  assert (G : x * cos x <= sin x).
  { destruct (MVT_cor2 (fun y => sin y - y * cos y)%R (fun y => cos y - (1 * cos y + y * - sin y)) 0 x) as (c & E & Y); [lra| |].
    - intros c _. apply (derivable_pt_lim_minus sin (fun y => y * cos y)); [apply derivable_pt_lim_sin|]. apply (derivable_pt_lim_mult (fun y => y) cos); [apply derivable_pt_lim_id|apply derivable_pt_lim_cos].
    - assert (S : 0 < sin c) by (apply sin_gt_0; assert (Q := PI_RGT_0); lra). assert (0 <= c * sin c * x) by (apply Rmult_le_pos; [apply Rmult_le_pos|]; lra). cbv beta in E. rewrite sin_0 in E. lra. }
  unfold tan. apply (Rmult_le_reg_r (cos x)); [exact C|]. unfold Rdiv. rewrite Rmult_assoc, Rinv_l by lra. lra.
Qed.
Lemma mul_half (x : FT) : finite x -> / 1024 <= B2R x -> val (fmul x half) (B2R x / 2).
Proof.
  intros F L. destruct (half_val (f := f)) as [Fh Vh]. assert (P := fmul_Rnd x half F Fh). rewrite Vh in P. replace (B2R x * (1 / 2)) with (B2R x / 2) in P by field.
  assert (G : rndf f (B2R x / 2) = B2R x / 2).
  { rewrite rnd_half_big; [rewrite (rnd_id (f := f)) by apply (generic_format_B2R (prec f) (emax f)); reflexivity|]. rewrite Rabs_pos_eq by lra. apply Rle_trans with (2 := L). change (/ 1024) with (bpow radix2 (-10)). apply bpow_le. destruct f; vm_compute; discriminate. }
  assert (R1 := finite_E_range x F). rewrite (E_B2R x F) in R1.
  destruct P as [N E0]. rewrite G, clampE_range in E0 by lra. assert (FZ : finite (fmul x half)) by (apply finite_of_range; [exact N|rewrite E0; lra]).
  split; [exact FZ|]. rewrite <- (E_B2R _ FZ). exact E0.
Qed.
Lemma gap (x y : FT) : finite x -> finite y -> 0 <= B2R x < B2R y -> B2R x * bpow radix2 (-53) <= B2R y - B2R x.
Proof.
  intros Fx Fy [P L]. assert (S := succ_le_lt radix2 (SpecFloat.fexp (prec f) (emax f)) (B2R x) (B2R y) (generic_format_B2R (prec f) (emax f) x) (generic_format_B2R (prec f) (emax f) y) L).
  rewrite succ_eq_pos in S by exact P. assert (G := ulp_FLT_gt radix2 (3 - emax f - prec f) (prec f) (B2R x)). rewrite Rabs_pos_eq in G by exact P.
  change (ulp radix2 (FLT_exp (3 - emax f - prec f) (prec f)) (B2R x)) with (ulp radix2 (SpecFloat.fexp (prec f) (emax f)) (B2R x)) in G.
  assert (Q : bpow radix2 (-53) <= bpow radix2 (- prec f)) by (apply bpow_le; destruct f; vm_compute; discriminate).
  assert (B2R x * bpow radix2 (-53) <= B2R x * bpow radix2 (- prec f)) by (apply Rmult_le_compat_l; [exact P|exact Q]). lra.
Qed.
Lemma mg_ap k l h x r : ap k x r -> 0 <= k <= 40 -> mg l h r -> mg (l + 1) (h + 1) (B2R x).
Proof.
  intros (F & e & E & V) K [A B]. assert (KU := ku k K). apply Rabs_le_inv in E. unfold mg. rewrite V, Rabs_mult, (Rabs_pos_eq (1 + e)) by lra.
  replace (- (l + 1))%Z with (- l + -1)%Z by ring. rewrite !bpow_plus. change (bpow radix2 (-1)) with (/ 2). change (bpow radix2 1) with 2. split; apply Rmult_le_compat; try apply bpow_ge_0; try apply Rabs_pos; lra.
Qed.
Lemma mg_ok l h r : mg l h r -> (l <= 119)%Z -> (h <= 119)%Z -> ok r. Proof. intros. exists l, h. auto. Qed.
Definition pe (fov : FT) : FT := fneg (fdiv (sone : FT) (m_tan m (fmul fov half))).
Definition pa (near far : FT) : FT := fdiv far (fsub far near).
Definition pb (near far : FT) : FT := fdiv (fmul far near) (fsub far near).
Lemma entry_e (fov : FT) : good_tan m -> usual_fov fov -> let t := tan (B2R fov / 2) in
  ap (32 / 10) (pe fov) (- / t) /\ mg 11 10 t /\ 0 < t.
Proof.
  intros GT (F & A & T) t. assert (Q := PI_RGT_0). assert (TG := tan_ge (B2R fov / 2) ltac:(lra)). fold t in TG, T.
  assert (MT : mg 11 10 t). { unfold mg. rewrite Rabs_pos_eq by lra. change (bpow radix2 (-(11))) with (/ 2048). change (bpow radix2 10) with 1024. lra. }
  destruct (mul_half fov F ltac:(lra)) as [Fh Vh].
  assert (W : within_ulp (m_tan m (fmul fov half)) t). { unfold t. rewrite <- Vh. apply GT; [exact Fh|]. rewrite Vh. fold t. rewrite Rabs_pos_eq by lra. apply Rle_trans with (1 := T). change 1024 with (bpow radix2 10). apply bpow_le. lia. }
  assert (AT := ap_lib _ _ W ltac:(lra) (mg_ok _ _ _ MT ltac:(lia) ltac:(lia))).
  assert (AI := ap_div 0 (2 + / 10) (sone : FT) _ 1 t (ap_val _ _ val_one) AT ltac:(lra) ltac:(lra) ltac:(lra) (or_intror (mg_ok _ _ _ (mg_div _ _ _ _ _ _ mg_one MT) ltac:(lia) ltac:(lia)))).
  split; [|split; [exact MT|lra]]. apply ap_neg. eapply ap_le; [eapply ap_eq; [exact AI|unfold Rdiv; ring]|lra].
Qed.
Lemma entry_ab (near far : FT) : usual_planes near far -> let N := B2R near in let F := B2R far in
  ap (21 / 10) (pa near far) (F / (F - N)) /\ ap (31 / 10) (pb near far) (F * N / (F - N)) /\ mg 0 79 (F / (F - N)) /\ mg 10 69 (F * N / (F - N)).
Proof.
  intros (FN & FF & LN & LF & HF) N F. fold N F in LN, LF, HF. assert (GP := gap near far FN FF ltac:(fold N; fold F; lra)). fold N F in GP.
  assert (P53 := bpow_gt_0 radix2 (-53)).
  assert (E53 : bpow radix2 53 * bpow radix2 (-53) = 1) by (rewrite <- bpow_plus; reflexivity).
  assert (I : 0 < / (F - N)) by (apply Rinv_0_lt_compat; lra).
  assert (MF : mg 10 16 F). { unfold mg. rewrite Rabs_pos_eq by lra. change (bpow radix2 (-(10))) with (/ 1024). change (bpow radix2 16) with 65536. lra. }
  assert (MN : mg 10 16 N). { unfold mg. rewrite Rabs_pos_eq by lra. change (bpow radix2 (-(10))) with (/ 1024). change (bpow radix2 16) with 65536. lra. }
  assert (MD : mg 63 16 (F - N)). { unfold mg. rewrite Rabs_pos_eq by lra. change (-(63))%Z with (-10 + -53)%Z. rewrite bpow_plus. change (bpow radix2 (-10)) with (/ 1024). change (bpow radix2 16) with 65536. split; [|lra]. apply Rle_trans with (2 := GP). apply Rmult_le_compat_r; lra. }
  assert (A1 : 1 <= F / (F - N)). { apply (Rmult_le_reg_r (F - N)); [lra|]. unfold Rdiv. rewrite Rmult_assoc, Rinv_l by lra. lra. }
  assert (MA : mg 0 79 (F / (F - N))). { assert (H := mg_div _ _ _ _ _ _ MF MD). destruct H as [_ H]. split; [rewrite Rabs_pos_eq by lra; cbn; lra|exact H]. }
  assert (EB : F * N / (F - N) = N * (F / (F - N))) by (unfold Rdiv; ring).
  assert (B0 : N <= F * N / (F - N)). { rewrite EB. rewrite <- (Rmult_1_r N) at 1. apply Rmult_le_compat_l; lra. }
  assert (B1 : F * N / (F - N) <= F * bpow radix2 53). { unfold Rdiv. rewrite Rmult_assoc. apply Rmult_le_compat_l; [lra|]. apply (Rmult_le_reg_r (F - N)); [lra|]. rewrite Rmult_assoc, Rinv_l by lra. apply Rle_trans with (bpow radix2 53 * (N * bpow radix2 (-53))); [replace (bpow radix2 53 * (N * bpow radix2 (-53))) with (N * (bpow radix2 53 * bpow radix2 (-53))) by ring; rewrite E53; lra|]. apply Rmult_le_compat_l; [apply bpow_ge_0|exact GP]. }
  assert (MB : mg 10 69 (F * N / (F - N))). { unfold mg. rewrite Rabs_pos_eq by lra. change (bpow radix2 (-(10))) with (/ 1024). split; [lra|]. apply Rle_trans with (1 := B1). change 69%Z with (16 + 53)%Z. rewrite bpow_plus. apply Rmult_le_compat_r; [apply bpow_ge_0|]. change (bpow radix2 16) with 65536. lra. }
  assert (AD : ap 1 (fsub far near) (F - N)). { apply ap_sub; [exact FF|exact FN|]. apply Rle_trans with (1 := proj2 MD). apply bpow_le. lia. }
  assert (AF := ap_self far FF). assert (AN := ap_self near FN). fold F in AF. fold N in AN.
  assert (AM := ap_mul _ _ _ _ _ _ AF AN ltac:(lra) ltac:(lra) (or_intror (mg_ok _ _ _ (mg_mul _ _ _ _ _ _ MF MN) ltac:(lia) ltac:(lia)))).
  assert (AA := ap_div _ _ _ _ _ _ AF AD ltac:(lra) ltac:(lra) ltac:(lra) (or_intror (mg_ok _ _ _ MA ltac:(lia) ltac:(lia)))).
  assert (AB := ap_div _ _ _ _ _ _ AM AD ltac:(lra) ltac:(lra) ltac:(lra) (or_intror (mg_ok _ _ _ MB ltac:(lia) ltac:(lia)))).
  split; [eapply ap_le; [exact AA|lra]|]. split; [eapply ap_le; [exact AB|lra]|]. auto.
Qed.

(** ** the matrix and its inverse *)
Local Notation zz := (fzero false : FT).
Local Notation on := (sone : FT).
Definition mrow (a b c d : FT) : vec FT 4 := Vector.cons _ a _ (Vector.cons _ b _ (Vector.cons _ c _ (Vector.cons _ d _ (Vector.nil _)))).
Definition m4 (a b c d : vec FT 4) : matrix FT := Vector.cons _ a _ (Vector.cons _ b _ (Vector.cons _ c _ (Vector.cons _ d _ (Vector.nil _)))).
Definition pm (e a b : FT) : matrix FT := m4 (mrow e zz zz zz) (mrow zz e zz zz) (mrow zz zz a b) (mrow zz zz on zz).
Lemma persp_eq (fov near far : FT) : perspective fov near far = mkT (pm (pe fov) (pa near far) (pb near far)) (m_inverse (pm (pe fov) (pa near far) (pb near far))).
Proof. reflexivity. Qed.
Definition m33 (p11 p12 p13 p21 p22 p23 p31 p32 p33 : FT) : FT :=
  fadd (fsub (fmul p11 (fsub (fmul p22 p33) (fmul p23 p32))) (fmul p12 (fsub (fmul p21 p33) (fmul p23 p31)))) (fmul p13 (fsub (fmul p21 p32) (fmul p22 p31))).
Definition pdet (e a b : FT) : FT :=
  fsub (fadd (fsub (fmul e (m33 e zz zz zz a b zz on zz)) (fmul zz (m33 zz zz zz zz a b zz on zz))) (fmul zz (m33 zz e zz zz zz b zz zz zz))) (fmul zz (m33 zz e zz zz zz a zz zz on)).
Lemma inv_gen (x00 x01 x02 x03 x10 x11 x12 x13 x20 x21 x22 x23 x30 x31 x32 x33 : FT) : let di := fdiv on (fsub (fadd (fsub (fmul x00 (m33 x11 x12 x13 x21 x22 x23 x31 x32 x33)) (fmul x01 (m33 x10 x12 x13 x20 x22 x23 x30 x32 x33))) (fmul x02 (m33 x10 x11 x13 x20 x21 x23 x30 x31 x33))) (fmul x03 (m33 x10 x11 x12 x20 x21 x22 x30 x31 x32))) in
  m_inverse (m4 (mrow x00 x01 x02 x03) (mrow x10 x11 x12 x13) (mrow x20 x21 x22 x23) (mrow x30 x31 x32 x33)) =
  m4 (mrow (fmul (m33 x11 x12 x13 x21 x22 x23 x31 x32 x33) di) (fmul (fneg (m33 x01 x02 x03 x21 x22 x23 x31 x32 x33)) di) (fmul (m33 x01 x02 x03 x11 x12 x13 x31 x32 x33) di) (fmul (fneg (m33 x01 x02 x03 x11 x12 x13 x21 x22 x23)) di))
     (mrow (fmul (fneg (m33 x10 x12 x13 x20 x22 x23 x30 x32 x33)) di) (fmul (m33 x00 x02 x03 x20 x22 x23 x30 x32 x33) di) (fmul (fneg (m33 x00 x02 x03 x10 x12 x13 x30 x32 x33)) di) (fmul (m33 x00 x02 x03 x10 x12 x13 x20 x22 x23) di))
     (mrow (fmul (m33 x10 x11 x13 x20 x21 x23 x30 x31 x33) di) (fmul (fneg (m33 x00 x01 x03 x20 x21 x23 x30 x31 x33)) di) (fmul (m33 x00 x01 x03 x10 x11 x13 x30 x31 x33) di) (fmul (fneg (m33 x00 x01 x03 x10 x11 x13 x20 x21 x23)) di))
     (mrow (fmul (fneg (m33 x10 x11 x12 x20 x21 x22 x30 x31 x32)) di) (fmul (m33 x00 x01 x02 x20 x21 x22 x30 x31 x32) di) (fmul (fneg (m33 x00 x01 x02 x10 x11 x12 x30 x31 x32)) di) (fmul (m33 x00 x01 x02 x10 x11 x12 x20 x21 x22) di)).
Proof.
  intros di. unfold m_inverse. cbv beta iota zeta delta [mget m4 mrow Vector.nth Vector.caseS i0 i1 i2 i3].
  unfold di, m33. change (@smul FT _) with (@fmul f). change (@ssub FT _) with (@fsub f). change (@sadd FT _) with (@fadd f). change (@sneg FT _) with (@fneg f). change (@sdiv FT _) with (@fdiv f). reflexivity.
Qed.
Lemma inv_eq (e a b : FT) : let di := fdiv on (pdet e a b) in
  m_inverse (pm e a b) =
  m4 (mrow (fmul (m33 e zz zz zz a b zz on zz) di) (fmul (fneg (m33 zz zz zz zz a b zz on zz)) di) (fmul (m33 zz zz zz e zz zz zz on zz) di) (fmul (fneg (m33 zz zz zz e zz zz zz a b)) di))
     (mrow (fmul (fneg (m33 zz zz zz zz a b zz on zz)) di) (fmul (m33 e zz zz zz a b zz on zz) di) (fmul (fneg (m33 e zz zz zz zz zz zz on zz)) di) (fmul (m33 e zz zz zz zz zz zz a b) di))
     (mrow (fmul (m33 zz e zz zz zz b zz zz zz) di) (fmul (fneg (m33 e zz zz zz zz b zz zz zz)) di) (fmul (m33 e zz zz zz e zz zz zz zz) di) (fmul (fneg (m33 e zz zz zz e zz zz zz b)) di))
     (mrow (fmul (fneg (m33 zz e zz zz zz a zz zz on)) di) (fmul (m33 e zz zz zz zz a zz zz on) di) (fmul (fneg (m33 e zz zz zz e zz zz zz on)) di) (fmul (m33 e zz zz zz e zz zz zz a) di)).
Proof. exact (inv_gen e zz zz zz zz e zz zz zz zz a b zz zz on zz). Qed.

(** bounds by powers of two, for finiteness only *)
Definition bnd (h : Z) (x : FT) : Prop := finite x /\ Rabs (B2R x) <= bpow radix2 h.
Lemma bnd_fin h x : bnd h x -> finite x. Proof. intros [F _]; exact F. Qed.
Lemma bnd_rnd (z : FT) r h : Rnd z r -> Rabs r <= bpow radix2 h -> (0 <= h <= 119)%Z -> bnd (h + 1) z.
Proof.
  intros R B H. destruct (big_fin z r R) as [F E]; [apply Rle_trans with (1 := B), bpow_le; lia|]. split; [exact F|].
  assert (U := u_q (f := f)). assert (EU := eta_u (f := f)). assert (ET : eta <= / 10). { apply Rle_trans with (1 := proj2 EU). assert (T36 : 0 < / 10 ^ 36 <= 1) by lra. apply Rle_trans with (1 * u); [apply Rmult_le_compat_r; lra|lra]. }
  assert (B1 : 1 <= bpow radix2 h) by (change 1 with (bpow radix2 0); apply bpow_le; lia).
  rewrite bpow_plus. change (bpow radix2 1) with 2. replace (B2R z) with ((B2R z - r) + r) by ring. eapply Rle_trans; [apply Rabs_triang|].
  assert (u * Rabs r <= / 1000000 * bpow radix2 h) by (apply Rmult_le_compat; try apply Rabs_pos; lra). lra.
Qed.
Lemma bnd_mul h k x y : bnd h x -> bnd k y -> (0 <= h + k <= 119)%Z -> bnd (h + k + 1) (fmul x y).
Proof. intros [Fx Bx] [Fy By] H. apply (bnd_rnd _ _ _ (fmul_Rnd x y Fx Fy)); [|exact H]. rewrite bpow_plus, Rabs_mult. apply Rmult_le_compat; try apply Rabs_pos; assumption. Qed.
Lemma bnd_max h k x y (sg : R) : Rabs sg = 1 -> bnd h x -> bnd k y -> Rabs (B2R x + sg * B2R y) <= bpow radix2 (Z.max h k + 1).
Proof.
  intros S [Fx Bx] [Fy By]. rewrite bpow_plus. change (bpow radix2 1) with 2. eapply Rle_trans; [apply Rabs_triang|]. rewrite Rabs_mult, S.
  assert (bpow radix2 h <= bpow radix2 (Z.max h k)) by (apply bpow_le; lia). assert (bpow radix2 k <= bpow radix2 (Z.max h k)) by (apply bpow_le; lia). lra.
Qed.
Lemma bnd_add h k x y : bnd h x -> bnd k y -> (0 <= Z.max h k + 1 <= 119)%Z -> bnd (Z.max h k + 1 + 1) (fadd x y).
Proof. intros Bx By H. apply (bnd_rnd _ _ _ (fadd_Rnd x y (bnd_fin _ _ Bx) (bnd_fin _ _ By))); [|exact H]. rewrite <- (Rmult_1_l (B2R y)). apply bnd_max; [apply Rabs_R1|exact Bx|exact By]. Qed.
Lemma bnd_sub h k x y : bnd h x -> bnd k y -> (0 <= Z.max h k + 1 <= 119)%Z -> bnd (Z.max h k + 1 + 1) (fsub x y).
Proof. intros Bx By H. apply (bnd_rnd _ _ _ (fsub_Rnd x y (bnd_fin _ _ Bx) (bnd_fin _ _ By))); [|exact H]. replace (B2R x - B2R y) with (B2R x + (-1) * B2R y) by ring. apply bnd_max; [rewrite Rabs_left; lra|exact Bx|exact By]. Qed.
Lemma z_sub (x y : FT) : val x 0 -> val y 0 -> val (fsub x y) 0.
Proof. apply val_sub_zero. Qed.
Lemma z_neg (x : FT) : val x 0 -> val (fneg x) 0.
Proof. intros [F V]. split; [apply fneg_finite, F|rewrite fneg_B2R, V; ring]. Qed.
Lemma ap_add0r k x y r : ap k x r -> val y 0 -> ap k (fadd x y) r.
Proof. intros A V. apply (ap_same k x); [exact A|]. apply val_add_zero; [split; [apply A|reflexivity]|exact V]. Qed.
Lemma ap_add0l k x y r : val x 0 -> ap k y r -> ap k (fadd x y) r.
Proof. intros V A. apply (ap_same k y); [exact A|]. apply val_zero_add; [exact V|split; [apply A|reflexivity]]. Qed.
Lemma ap_sub0r k x y r : ap k x r -> val y 0 -> ap k (fsub x y) r.
Proof. intros A V. apply (ap_same k x); [exact A|]. apply val_sub_zero; [split; [apply A|reflexivity]|exact V]. Qed.
Lemma ap_sub0l k x y r : val x 0 -> ap k y r -> ap k (fsub x y) (- r).
Proof. intros V A. apply (ap_same k (fneg y)); [apply ap_neg, A|]. rewrite fneg_B2R. apply val_zero_sub; [exact V|split; [apply A|reflexivity]]. Qed.
Lemma ap_mul1 k x y r : ap k x r -> val y 1 -> ap k (fmul x y) r.
Proof. intros A V. apply (ap_same k x); [exact A|]. apply val_mul_one; [split; [apply A|reflexivity]|exact V]. Qed.
Ltac bb := first [eassumption | eapply bnd_mul; [bb|bb|split; vm_compute; discriminate] | eapply bnd_add; [bb|bb|split; vm_compute; discriminate] | eapply bnd_sub; [bb|bb|split; vm_compute; discriminate]].
Ltac fi := first [assumption | eapply bnd_fin; bb].
Ltac zr := first [assumption | apply val_zero | apply val_zero_mul; [zr|fi] | apply val_mul_zero; [fi|zr] | apply z_sub; [zr|zr] | apply val_add_zero; [zr|zr] | apply z_neg; zr].
Ltac mm := first [eassumption | eapply mg_mul; [mm|mm] | eapply mg_opp; mm].
Ltac aa := first [eassumption | eapply ap_add0r; [aa|zr] | eapply ap_add0l; [zr|aa] | eapply ap_sub0r; [aa|zr] | eapply ap_sub0l; [zr|aa] | eapply ap_mul1; [aa|apply val_one]
  | eapply ap_mul; [aa|aa|lra|lra|right; eapply mg_ok; [mm|vm_compute; discriminate|vm_compute; discriminate]]].
Lemma inv_entries (e a b : FT) : let E := B2R e in let A := B2R a in let B := B2R b in
  finite e -> finite a -> finite b -> mg 11 12 E -> mg 1 80 A -> mg 11 70 B ->
  let J := m_inverse (pm e a b) in
  shape J /\ val (mget J i2 i2) 0 /\ ap (52 / 10) (mget J i0 i0) (/ E) /\ ap (52 / 10) (mget J i1 i1) (/ E) /\
  ap (62 / 10) (mget J i2 i3) 1 /\ ap (52 / 10) (mget J i3 i2) (/ B) /\ ap (62 / 10) (mget J i3 i3) (- (A / B)).
Proof.
  intros E A B Fe Fa Fb ME MA MB J. unfold J. rewrite inv_eq. clear J.
  assert (NE := mg_nz _ _ _ ME). assert (NA := mg_nz _ _ _ MA). assert (NB := mg_nz _ _ _ MB).
  assert (Be : bnd 12 e) by (split; [exact Fe|apply ME]). assert (Ba : bnd 80 a) by (split; [exact Fa|apply MA]). assert (Bb : bnd 70 b) by (split; [exact Fb|apply MB]).
  assert (B1 : bnd 0 on) by (split; [apply val_one|rewrite (proj2 val_one), Rabs_R1; cbn; lra]). assert (B0 : bnd 0 zz) by (split; [reflexivity|cbn; rewrite Rabs_R0; lra]).
  assert (Ae := ap_self e Fe). assert (Aa := ap_self a Fa). assert (Ab := ap_self b Fb). fold E in Ae. fold A in Aa. fold B in Ab.
  assert (D00 : ap (0 + 0 + 1 + / 100) (m33 e zz zz zz a b zz on zz) (E * - B)) by (unfold m33; aa).
  assert (DT : ap (0 + (0 + 0 + 1 + / 100) + 1 + / 100) (pdet e a b) (E * (E * - B))).
  { unfold pdet. eapply ap_sub0r; [eapply ap_add0r; [eapply ap_sub0r; [aa|unfold m33; zr]|unfold m33; zr]|unfold m33; zr]. }
  assert (MDT : mg 33 94 (E * (E * - B))) by (eapply mg_le; [mm|vm_compute; discriminate|vm_compute; discriminate]).
  assert (DI := ap_div _ _ _ _ _ _ (ap_val _ _ val_one) DT ltac:(lra) ltac:(lra) (mg_nz _ _ _ MDT) (or_intror (mg_ok _ _ _ (mg_div _ _ _ _ _ _ mg_one MDT) ltac:(lia) ltac:(lia)))).
  set (di := fdiv on (pdet e a b)) in *. assert (Fd : finite di) by apply DI.
  assert (D23 : ap (0 + 0 + 1 + / 100) (m33 e zz zz zz e zz zz zz on) (E * E)) by (unfold m33; aa).
  assert (D32 : ap (0 + (0 + 0 + 1 + / 100) + 1 + / 100) (m33 e zz zz zz e zz zz zz b) (E * (E * B))) by (unfold m33; aa).
  assert (D33 : ap (0 + (0 + 0 + 1 + / 100) + 1 + / 100) (m33 e zz zz zz e zz zz zz a) (E * (E * A))) by (unfold m33; aa).
  assert (Ok : forall r s l h, r = s -> mg l h s -> (l <= 119)%Z -> (h <= 119)%Z -> r = 0 \/ ok r) by (intros r s l h -> M L H; right; eapply mg_ok; eassumption).
  assert (J00 : ap (52 / 10) (fmul (m33 e zz zz zz a b zz on zz) di) (/ E)).
  { eapply ap_le; [eapply ap_eq; [eapply ap_mul; [exact D00|exact DI|lra|lra|]|]|]; [eapply Ok; [|exact (mg_inv _ _ _ ME)|lia|lia]; field; auto|field; auto|lra]. }
  assert (J32 : ap (52 / 10) (fmul (fneg (m33 e zz zz zz e zz zz zz on)) di) (/ B)).
  { eapply ap_le; [eapply ap_eq; [eapply ap_mul; [exact (ap_neg _ _ _ D23)|exact DI|lra|lra|]|]|]; [eapply Ok; [|exact (mg_inv _ _ _ MB)|lia|lia]; field; auto|field; auto|lra]. }
  assert (J23 : ap (62 / 10) (fmul (fneg (m33 e zz zz zz e zz zz zz b)) di) 1).
  { eapply ap_le; [eapply ap_eq; [eapply ap_mul; [exact (ap_neg _ _ _ D32)|exact DI|lra|lra|]|]|]; [eapply Ok; [|exact mg_one|lia|lia]; field; auto|field; auto|lra]. }
  assert (J33 : ap (62 / 10) (fmul (m33 e zz zz zz e zz zz zz a) di) (- (A / B))).
  { eapply ap_le; [eapply ap_eq; [eapply ap_mul; [exact D33|exact DI|lra|lra|]|]|]; [eapply Ok; [|exact (mg_opp _ _ _ (mg_div _ _ _ _ _ _ MA MB))|lia|lia]; field; auto|field; auto|lra]. }
  assert (ZM : forall x : FT, val x 0 -> val (fmul x di) 0) by (intros x V; apply val_zero_mul; assumption).
  split; [|split; [apply ZM; unfold m33; zr|]; split; [exact J00|]; split; [exact J00|]; split; [exact J23|]; split; [exact J32|exact J33]].
  unfold shape. repeat apply conj; apply ZM; unfold m33; zr.
Qed.

(** ** mapping points *)
Definition size_ok (x : FT) : Prop := finite x /\ (B2R x = 0 \/ mg 50 50 (B2R x)).
Lemma zm_size (x : FT) : zero_or_moderate x -> size_ok x.
Proof. intros [[F M]|[F Z]]; split; auto. Qed.
Lemma ok_or l h x r s : x = 0 \/ mg l h x -> r = x * s -> forall l' h', mg l' h' s -> (l + l' <= 119)%Z -> (h + h' <= 119)%Z -> r = 0 \/ ok r.
Proof.
  intros [->|M] E l' h' M' L H; [left; rewrite E; ring|]. right. rewrite E. eapply mg_ok; [exact (mg_mul _ _ _ _ _ _ M M')|exact L|exact H].
Qed.
Lemma fall_3 (P : FT -> Prop) (v : vec FT 3) : P (vx v) -> P (vy v) -> P (vz v) -> fall P v.
Proof. intros X Y Z i. apply (Fin.caseS' i); [exact X|]. intros j. apply (Fin.caseS' j); [exact Y|]. intros k. apply (Fin.caseS' k); [exact Z|]. intros l. inversion l. Qed.
Lemma fwd (e a b : FT) (p : vec FT 3) : let E := B2R e in let A := B2R a in let B := B2R b in
  let x := B2R (vx p) in let y := B2R (vy p) in let z := B2R (vz p) in
  finite e -> finite a -> finite b -> mg 11 12 E -> mg 1 80 A -> mg 11 70 B -> size_ok (vx p) -> size_ok (vy p) -> finite (vz p) -> mg 10 16 z ->
  exists q, map_point (pm e a b) p = Ret q /\ ap (21 / 10) (vx q) (x * E / z) /\ ap (21 / 10) (vy q) (y * E / z) /\
    finite (vz q) /\ Rabs (B2R (vz q) - (A + B / z)) <= 32 / 10 * u * (Rabs A + Rabs B / Rabs z).
Proof.
  intros E A B x y z Fe Fa Fb ME MA MB [Fx Sx] [Fy Sy] Fz MZ. fold x in Sx. fold y in Sy.
  assert (NE := mg_nz _ _ _ ME). assert (NA := mg_nz _ _ _ MA). assert (NB := mg_nz _ _ _ MB). assert (NZ := mg_nz _ _ _ MZ).
  assert (U := u_q (f := f)). assert (EU := eta_u (f := f)).
  assert (PX := ap_mul _ _ _ _ _ _ (ap_self _ Fx) (ap_self _ Fe) ltac:(lra) ltac:(lra) (ok_or _ _ _ _ _ Sx eq_refl _ _ ME ltac:(lia) ltac:(lia))).
  assert (PY := ap_mul _ _ _ _ _ _ (ap_self _ Fy) (ap_self _ Fe) ltac:(lra) ltac:(lra) (ok_or _ _ _ _ _ Sy eq_refl _ _ ME ltac:(lia) ltac:(lia))).
  fold x E in PX. fold y E in PY.
  assert (PZ := ap_mul _ _ _ _ _ _ (ap_self _ Fz) (ap_self _ Fa) ltac:(lra) ltac:(lra) (or_intror (mg_ok _ _ _ (mg_mul _ _ _ _ _ _ MZ MA) ltac:(lia) ltac:(lia)))). fold z A in PZ.
  assert (MZA := mg_mul _ _ _ _ _ _ MZ MA).
  destruct (rel_fin _ _ (fmul_Rnd _ _ Fz Fa)) as [Fza (e1 & E1 & Vza)]; [right; fold z A; eapply Rle_trans; [|apply MZA]; apply bpow_le; lia|fold z A; apply Rle_trans with (1 := proj2 MZA), bpow_le; lia|]. fold z A in Vza.
  assert (AB : Rabs (B2R (fmul (vz p) a) + B2R b) <= bpow radix2 120).
  { rewrite Vza. fold B. eapply Rle_trans; [apply Rabs_triang|]. assert (L1 : Rabs (z * A * (1 + e1)) <= bpow radix2 97).
    { rewrite Rabs_mult. apply Rle_trans with (bpow radix2 96 * 2); [|change 2 with (bpow radix2 1); rewrite <- bpow_plus; apply bpow_le; lia]. apply Rmult_le_compat; try apply Rabs_pos; [exact (proj2 MZA)|apply Rabs_le_inv in E1; apply Rabs_le; lra]. }
    assert (L2 : bpow radix2 97 <= bpow radix2 119) by (apply bpow_le; lia). assert (L3 : bpow radix2 70 <= bpow radix2 119) by (apply bpow_le; lia). assert (Q := proj2 MB). change 120%Z with (119 + 1)%Z. rewrite bpow_plus. change (bpow radix2 1) with 2. lra. }
  destruct (add_rel _ _ Fza Fb AB) as [Fn (e2 & E2 & Vn)]. rewrite Vza in Vn. fold B in Vn.
  assert (VZ1 := val_mul_one (vz p) on z ltac:(split; [exact Fz|reflexivity]) val_one). assert (VZ2 := val_add_zero _ _ _ VZ1 (val_zero false)).
  assert (SH : shape (pm e a b)) by (repeat apply conj; exact (val_zero false) || reflexivity).
  destruct (shape_map (pm e a b) p SH) as (nx & ny & nz & w & EQ & Vx & Vy & Vz & Vw).
  { apply fall_3; assumption. }
  { exact (proj1 PX). } { exact (proj1 PY). } { exact Fza. } { exact Fb. } { exact Fn. } { exact (proj1 VZ1). } { reflexivity. } { exact (proj1 VZ2). }
  { change (B2R (fadd (fmul (vz p) on) (fzero false)) <> 0). rewrite (proj2 VZ2). exact NZ. }
  change (mget (pm e a b) i0 i0) with e in Vx. change (mget (pm e a b) i1 i1) with e in Vy. change (mget (pm e a b) i2 i2) with a in Vz. change (mget (pm e a b) i2 i3) with b in Vz.
  change (mget (pm e a b) i3 i2) with on in Vw. change (mget (pm e a b) i3 i3) with zz in Vw. rewrite (proj2 VZ2) in Vw.
  exists (vec3 (fdiv nx w) (fdiv ny w) (fdiv nz w)). split; [exact EQ|]. change (vx (vec3 (fdiv nx w) (fdiv ny w) (fdiv nz w))) with (fdiv nx w). change (vy (vec3 (fdiv nx w) (fdiv ny w) (fdiv nz w))) with (fdiv ny w). change (vz (vec3 (fdiv nx w) (fdiv ny w) (fdiv nz w))) with (fdiv nz w).
  assert (MEZ := mg_div _ _ _ _ _ _ ME MZ). assert (AW := ap_val _ _ Vw).
  split.
  { eapply ap_le; [apply (ap_div _ _ _ _ _ _ (ap_same _ _ _ _ PX Vx) AW); try lra|lra]. destruct Sx as [S|S]; [left; rewrite S; ring|right]. eapply mg_ok; [exact (mg_div _ _ _ _ _ _ (mg_mul _ _ _ _ _ _ S ME) MZ)|lia|lia]. }
  split.
  { eapply ap_le; [apply (ap_div _ _ _ _ _ _ (ap_same _ _ _ _ PY Vy) AW); try lra|lra]. destruct Sy as [S|S]; [left; rewrite S; ring|right]. eapply mg_ok; [exact (mg_div _ _ _ _ _ _ (mg_mul _ _ _ _ _ _ S ME) MZ)|lia|lia]. }
  destruct Vz as [Fnz Vnz]. destruct Vw as [Fw Vw]. rewrite Vn in Vnz.
  assert (RD := fdiv_Rnd nz w Fnz Fw ltac:(rewrite Vw; exact NZ)). rewrite Vnz, Vw in RD.
  set (S := Rabs A + Rabs B / Rabs z).
  replace ((z * A * (1 + e1) + B) * (1 + e2) / z) with ((A * (1 + e1) + B / z) * (1 + e2)) in RD by (field; exact NZ).
  assert (BZ : Rabs (B / z) = Rabs B / Rabs z) by (unfold Rdiv; rewrite Rabs_mult, Rabs_inv; reflexivity).
  assert (A0 := Rabs_pos A). assert (B0 : 0 <= Rabs B / Rabs z) by (rewrite <- BZ; apply Rabs_pos).
  assert (SA : / 2 <= S). { unfold S. assert (Q := proj1 MA). change (bpow radix2 (-(1))) with (/ 2) in Q. lra. }
  assert (D1 : Rabs ((A * (1 + e1) + B / z) * (1 + e2) - (A + B / z)) <= (2 + / 1000) * u * S).
  { replace ((A * (1 + e1) + B / z) * (1 + e2) - (A + B / z)) with (A * e1 * (1 + e2) + (A + B / z) * e2) by ring. eapply Rle_trans; [apply Rabs_triang|]. rewrite !Rabs_mult.
    assert (T1 : Rabs A * Rabs e1 * Rabs (1 + e2) <= S * u * (1 + / 1000)). { apply Rmult_le_compat; [apply Rmult_le_pos; apply Rabs_pos|apply Rabs_pos|apply Rmult_le_compat; try apply Rabs_pos; [unfold S; lra|exact E1]|]. apply Rabs_le_inv in E2. apply Rabs_le. lra. }
    assert (T2 : Rabs (A + B / z) * Rabs e2 <= S * u). { apply Rmult_le_compat; try apply Rabs_pos; [|exact E2]. unfold S. rewrite <- BZ. apply Rabs_triang. } lra. }
  assert (S1 : S <= bpow radix2 90).
  { unfold S. assert (Q1 := proj2 MA). assert (Q2 := mg_div _ _ _ _ _ _ MB MZ). destruct Q2 as [_ Q2]. rewrite BZ in Q2. assert (bpow radix2 80 <= bpow radix2 89) by (apply bpow_le; lia). assert (bpow radix2 (70 + 10) <= bpow radix2 89) by (apply bpow_le; lia). change 90%Z with (89 + 1)%Z. rewrite bpow_plus. change (bpow radix2 1) with 2. lra. }
  assert (D2 : Rabs ((A * (1 + e1) + B / z) * (1 + e2)) <= (1 + / 1000) * S).
  { replace ((A * (1 + e1) + B / z) * (1 + e2)) with (((A * (1 + e1) + B / z) * (1 + e2) - (A + B / z)) + (A + B / z)) by ring. eapply Rle_trans; [apply Rabs_triang|]. assert (T := Rabs_triang A (B / z)). rewrite BZ in T. fold S in T.
    assert ((2 + / 1000) * u * S <= / 1000 * S) by (apply Rmult_le_compat_r; lra). lra. }
  destruct (big_fin _ _ RD) as [Fq Eq]. { apply Rle_trans with (1 := D2). apply Rle_trans with (2 * bpow radix2 90); [lra|]. change 2 with (bpow radix2 1) at 1. rewrite <- bpow_plus. apply bpow_le. lia. }
  split; [exact Fq|]. replace (B2R (fdiv nz w) - (A + B / z)) with ((B2R (fdiv nz w) - (A * (1 + e1) + B / z) * (1 + e2)) + ((A * (1 + e1) + B / z) * (1 + e2) - (A + B / z))) by ring.
  eapply Rle_trans; [apply Rabs_triang|]. assert (T1 : u * Rabs ((A * (1 + e1) + B / z) * (1 + e2)) <= u * ((1 + / 1000) * S)) by (apply Rmult_le_compat_l; lra).
  assert (T2 : eta <= / 100 * u * S). { apply Rle_trans with (1 := proj2 EU). assert (T36 : 0 < / 10 ^ 36 <= / 1000) by lra. apply Rle_trans with (/ 1000 * u); [apply Rmult_le_compat_r; lra|]. replace (/ 100 * u * S) with (/ 100 * S * u) by ring. apply Rmult_le_compat_r; lra. }
  assert (0 <= u * S) by (apply Rmult_le_pos; lra). lra.
Qed.

Lemma final_div (n w : FT) x z om k : ap k n (x / z) -> 0 <= k <= 39 -> finite w -> z <> 0 -> B2R w = / z * (1 + om) -> Rabs om <= / 3 -> x = 0 \/ mg 50 50 x ->
  finite (fdiv n w) /\ Rabs (B2R (fdiv n w) - x) <= 3 / 2 * ((k + 1 + / 100) * u + Rabs om) * Rabs x.
Proof.
  intros (Fn & d & D & Vn) K Fw NZ Vw O X. assert (U := u_q (f := f)). assert (KU := ku k ltac:(lra)). assert (D0 := D). apply Rabs_le_inv in D0. assert (O0 := O). apply Rabs_le_inv in O0.
  assert (IZ : / z <> 0) by (apply Rinv_neq_0_compat; exact NZ). assert (NW : B2R w <> 0) by (rewrite Vw; intros Q; apply Rmult_integral in Q; lra).
  assert (RD := fdiv_Rnd n w Fn Fw NW). replace (B2R n / B2R w) with (x * ((1 + d) / (1 + om))) in RD by (rewrite Vn, Vw; field; split; lra).
  assert (I : / 2 <= / (1 + om) <= 3 / 2). { split; [apply Rmult_le_reg_r with (1 + om); [lra|]; rewrite Rinv_l by lra; lra|apply Rmult_le_reg_r with (1 + om); [lra|]; rewrite Rinv_l by lra; lra]. }
  assert (C : / 4 <= (1 + d) / (1 + om) <= 2). { unfold Rdiv. split; [apply Rle_trans with (/ 2 * / 2); [lra|apply Rmult_le_compat; lra]|apply Rle_trans with ((4 / 3) * (3 / 2)); [apply Rmult_le_compat; lra|lra]]. }
  assert (S : x * ((1 + d) / (1 + om)) = 0 \/ bpow radix2 (-120) <= Rabs (x * ((1 + d) / (1 + om)))).
  { destruct X as [->|[X1 X2]]; [left; ring|right]. rewrite Rabs_mult, (Rabs_pos_eq ((1 + d) / (1 + om))) by lra. apply Rle_trans with (bpow radix2 (-(50)) * / 4); [change (/ 4) with (bpow radix2 (-2)); rewrite <- bpow_plus; apply bpow_le; lia|]. apply Rmult_le_compat; try lra. apply bpow_ge_0. }
  assert (S2 : Rabs (x * ((1 + d) / (1 + om))) <= bpow radix2 120).
  { rewrite Rabs_mult, (Rabs_pos_eq ((1 + d) / (1 + om))) by lra. destruct X as [->|[X1 X2]]; [rewrite Rabs_R0, Rmult_0_l; apply bpow_ge_0|]. apply Rle_trans with (bpow radix2 50 * 2); [apply Rmult_le_compat; try lra; apply Rabs_pos|]. change 2 with (bpow radix2 1). rewrite <- bpow_plus. apply bpow_le. lia. }
  destruct (rel_fin _ _ RD S S2) as [F (g & G & V)]. split; [exact F|]. rewrite V.
  destruct (comb d 0 g k 0 ltac:(lra) ltac:(lra) D ltac:(rewrite Rabs_R0; lra) G) as (h & H & Vh).
  replace (x * ((1 + d) / (1 + om)) * (1 + g) - x) with (x * ((h - om) * / (1 + om))).
  2: { assert (EH : h = (1 + d) * (1 + g) - 1) by lra. rewrite EH. field. lra. }
  rewrite Rabs_mult, Rmult_comm. apply Rmult_le_compat_r; [apply Rabs_pos|]. rewrite Rabs_mult, Rmult_comm, (Rabs_pos_eq (/ (1 + om))) by lra. apply Rmult_le_compat; try apply Rabs_pos; try lra.
  unfold Rminus. eapply Rle_trans; [apply Rabs_triang|]. rewrite Rabs_Ropp. lra.
Qed.
Lemma bwd (e a b : FT) (q : vec FT 3) x y z : let E := B2R e in let A := B2R a in let B := B2R b in let K := 1 + Rabs z * (Rabs A / Rabs B) in
  finite e -> finite a -> finite b -> mg 11 12 E -> mg 1 80 A -> mg 11 70 B -> x = 0 \/ mg 50 50 x -> y = 0 \/ mg 50 50 y -> mg 10 16 z ->
  ap (21 / 10) (vx q) (x * E / z) -> ap (21 / 10) (vy q) (y * E / z) -> finite (vz q) -> Rabs (B2R (vz q) - (A + B / z)) <= 32 / 10 * u * (Rabs A + Rabs B / Rabs z) ->
  60 * u * K <= 1 ->
  exists r, map_point (m_inverse (pm e a b)) q = Ret r /\ fall finite r /\
    within_rel (40 * u * K) (B2R (vx r)) x /\ within_rel (40 * u * K) (B2R (vy r)) y /\ within_rel (40 * u * K) (B2R (vz r)) z.
Proof.
  intros E A B K Fe Fa Fb ME MA MB SX SY MZ QX QY Fq QZ HK.
  destruct (inv_entries e a b Fe Fa Fb ME MA MB) as (SH & V22 & J00 & J11 & J23 & J32 & J33). set (J := m_inverse (pm e a b)) in *. clearbody J. fold E A B in J00, J11, J32, J33.
  assert (NE := mg_nz _ _ _ ME). assert (NA := mg_nz _ _ _ MA). assert (NB := mg_nz _ _ _ MB). assert (NZ := mg_nz _ _ _ MZ).
  assert (U := u_q (f := f)). assert (EU := eta_u (f := f)).
  assert (PA := Rabs_pos A). assert (PB := Rabs_pos_lt _ NB). assert (PZ := Rabs_pos_lt _ NZ). assert (IB : 0 < / Rabs B) by (apply Rinv_0_lt_compat, PB). assert (IZ : 0 < / Rabs z) by (apply Rinv_0_lt_compat, PZ).
  set (S := Rabs A / Rabs B + / Rabs z).
  assert (AB0 : 0 <= Rabs A / Rabs B) by (apply Rmult_le_pos; lra).
  assert (S0 : 0 < S) by (unfold S; lra).
  assert (KS : K = Rabs z * S) by (unfold K, S; rewrite Rmult_plus_distr_l, Rinv_r by lra; ring).
  assert (K1 : 1 <= K) by (unfold K; assert (0 <= Rabs z * (Rabs A / Rabs B)) by (apply Rmult_le_pos; lra); lra).
  set (t := Rabs A + Rabs B / Rabs z) in QZ.
  assert (TS : t = Rabs B * S) by (unfold t, S; field; split; lra).
  destruct J32 as (Fg & e1 & E1 & Vg). destruct J33 as (Fh & e2 & E2 & Vh).
  set (D := A + B / z) in *.
  assert (BZ : Rabs (B / z) = Rabs B / Rabs z) by (unfold Rdiv; rewrite Rabs_mult, Rabs_inv; reflexivity).
  assert (DT : Rabs D <= t) by (unfold D, t; rewrite <- BZ; apply Rabs_triang).
  assert (T0 : 0 < t) by (rewrite TS; apply Rmult_lt_0_compat; lra).
  assert (QB : Rabs (B2R (vz q)) <= (1 + / 1000) * t). { replace (B2R (vz q)) with ((B2R (vz q) - D) + D) by ring. eapply Rle_trans; [apply Rabs_triang|]. assert (32 / 10 * u * t <= / 1000 * t) by (apply Rmult_le_compat_r; lra). lra. }
  assert (GB : Rabs (1 + e1) <= 1 + / 1000) by (apply Rabs_le_inv in E1; apply Rabs_le; lra).
  assert (P1 : Rabs (B2R (vz q) * B2R (mget J i3 i2)) <= (1 + / 400) * S).
  { rewrite Vg, !Rabs_mult, Rabs_inv. apply Rle_trans with ((1 + / 1000) * t * (/ Rabs B * (1 + / 1000))).
    - apply Rmult_le_compat; [apply Rabs_pos|apply Rmult_le_pos; [lra|apply Rabs_pos]|exact QB|apply Rmult_le_compat_l; lra].
    - rewrite TS. replace ((1 + / 1000) * (Rabs B * S) * (/ Rabs B * (1 + / 1000))) with ((1 + / 1000) * (1 + / 1000) * S) by (field; lra). apply Rmult_le_compat_r; lra. }
  assert (P2 : Rabs (B2R (vz q) * B2R (mget J i3 i2) - D / B) <= (842 / 100) * u * S).
  { rewrite Vg. replace (B2R (vz q) * (/ B * (1 + e1)) - D / B) with ((B2R (vz q) - D) * / B * (1 + e1) + D * / B * e1) by (field; exact NB).
    eapply Rle_trans; [apply Rabs_triang|]. rewrite !Rabs_mult, Rabs_inv.
    assert (T1 : Rabs (B2R (vz q) - D) * / Rabs B <= 32 / 10 * u * S). { apply Rle_trans with (32 / 10 * u * t * / Rabs B); [apply Rmult_le_compat_r; [lra|exact QZ]|]. rewrite TS. right. field. lra. }
    assert (T2 : Rabs D * / Rabs B <= S). { apply Rle_trans with (t * / Rabs B); [apply Rmult_le_compat_r; lra|]. rewrite TS. right. field. lra. }
    assert (T3 : Rabs (B2R (vz q) - D) * / Rabs B * Rabs (1 + e1) <= 32 / 10 * u * S * (1 + / 1000)). { apply Rmult_le_compat; [apply Rmult_le_pos; [apply Rabs_pos|lra]|apply Rabs_pos|exact T1|exact GB]. }
    assert (T4 : Rabs D * / Rabs B * Rabs e1 <= S * (52 / 10 * u)). { apply Rmult_le_compat; [apply Rmult_le_pos; [apply Rabs_pos|lra]|apply Rabs_pos|exact T2|exact E1]. }
    assert (0 <= u * S) by (apply Rmult_le_pos; lra). lra. }
  assert (MS : S <= bpow radix2 100).
  { unfold S. assert (Q1 := mg_div _ _ _ _ _ _ MA MB). destruct Q1 as [_ Q1]. unfold Rdiv in Q1. rewrite Rabs_mult, Rabs_inv in Q1. fold (Rabs A / Rabs B) in Q1. assert (Q2 := mg_inv _ _ _ MZ). destruct Q2 as [_ Q2]. rewrite Rabs_inv in Q2.
    assert (bpow radix2 (80 + 11) <= bpow radix2 99) by (apply bpow_le; lia). assert (bpow radix2 10 <= bpow radix2 99) by (apply bpow_le; lia). change 100%Z with (99 + 1)%Z. rewrite bpow_plus. change (bpow radix2 1) with 2. lra. }
  assert (MS2 : 4 * bpow radix2 100 <= bpow radix2 120) by (change 4 with (bpow radix2 2); rewrite <- bpow_plus; apply bpow_le; lia).
  assert (SL : / 65536 <= S). { unfold S. assert (Q2 := mg_inv _ _ _ MZ). destruct Q2 as [Q2 _]. rewrite Rabs_inv in Q2. change (bpow radix2 (-(16))) with (/ 65536) in Q2. lra. }
  destruct (big_fin _ _ (fmul_Rnd _ _ Fq Fg)) as [FP EP]; [lra|].
  assert (ET : eta <= / 100 * u * S). { apply Rle_trans with (1 := proj2 EU). assert (T36 : 0 < / 10 ^ 36 <= / 10000000) by lra. apply Rle_trans with (/ 10000000 * u); [apply Rmult_le_compat_r; lra|]. replace (/ 100 * u * S) with (/ 100 * S * u) by ring. apply Rmult_le_compat_r; lra. }
  assert (US : 0 <= u * S) by (apply Rmult_le_pos; lra).
  assert (P3 : Rabs (B2R (fmul (vz q) (mget J i3 i2)) - D / B) <= 945 / 100 * u * S).
  { replace (B2R (fmul (vz q) (mget J i3 i2)) - D / B) with ((B2R (fmul (vz q) (mget J i3 i2)) - B2R (vz q) * B2R (mget J i3 i2)) + (B2R (vz q) * B2R (mget J i3 i2) - D / B)) by ring. eapply Rle_trans; [apply Rabs_triang|].
    assert (u * Rabs (B2R (vz q) * B2R (mget J i3 i2)) <= u * ((1 + / 400) * S)) by (apply Rmult_le_compat_l; lra). lra. }
  assert (P4 : Rabs (B2R (fmul (vz q) (mget J i3 i2)) + B2R (mget J i3 i3) - / z) <= 1565 / 100 * u * S).
  { replace (/ z) with (D / B + - (A / B)) by (unfold D; field; auto). rewrite Vh.
    replace (B2R (fmul (vz q) (mget J i3 i2)) + - (A / B) * (1 + e2) - (D / B + - (A / B))) with ((B2R (fmul (vz q) (mget J i3 i2)) - D / B) + - (A / B) * e2) by ring. eapply Rle_trans; [apply Rabs_triang|].
    rewrite Rabs_mult, Rabs_Ropp. assert (Rabs (A / B) * Rabs e2 <= S * (62 / 10 * u)). { apply Rmult_le_compat; try apply Rabs_pos; [|exact E2]. unfold Rdiv. rewrite Rabs_mult, Rabs_inv. fold (Rabs A / Rabs B). unfold S. lra. } lra. }
  assert (P5 : Rabs (B2R (fmul (vz q) (mget J i3 i2)) + B2R (mget J i3 i3)) <= (1 + / 1000) * S).
  { replace (B2R (fmul (vz q) (mget J i3 i2)) + B2R (mget J i3 i3)) with ((B2R (fmul (vz q) (mget J i3 i2)) + B2R (mget J i3 i3) - / z) + / z) by ring. eapply Rle_trans; [apply Rabs_triang|]. rewrite Rabs_inv. assert (1565 / 100 * u * S <= / 1000 * S) by (apply Rmult_le_compat_r; lra). assert (/ Rabs z <= S) by (unfold S; lra). lra. }
  destruct (add_rel _ _ FP Fh) as [Fw (e3 & E3 & Vw)]; [lra|].
  set (w := fadd (fmul (vz q) (mget J i3 i2)) (mget J i3 i3)) in *.
  assert (P6 : Rabs (B2R w - / z) <= 17 * u * S).
  { rewrite Vw. set (s := B2R (fmul (vz q) (mget J i3 i2)) + B2R (mget J i3 i3)) in *. replace (s * (1 + e3) - / z) with ((s - / z) + s * e3) by ring. eapply Rle_trans; [apply Rabs_triang|]. rewrite Rabs_mult. assert (Rabs s * Rabs e3 <= (1 + / 1000) * S * u) by (apply Rmult_le_compat; try apply Rabs_pos; assumption). lra. }
  set (om := z * B2R w - 1).
  assert (VW : B2R w = / z * (1 + om)) by (unfold om; field; exact NZ).
  assert (OM : Rabs om <= 17 * u * K). { replace om with (z * (B2R w - / z)) by (unfold om; field; exact NZ). rewrite Rabs_mult, KS. replace (17 * u * (Rabs z * S)) with (Rabs z * (17 * u * S)) by ring. apply Rmult_le_compat_l; lra. }
  assert (O3 : Rabs om <= / 3) by lra.
  assert (NW : B2R w <> 0). { rewrite VW. apply Rabs_le_inv in O3. assert (/ z <> 0) by (apply Rinv_neq_0_compat; exact NZ). intros Q. apply Rmult_integral in Q. lra. }
  assert (MZI := mg_inv _ _ _ MZ).
  assert (NX : ap (84 / 10) (fmul (vx q) (mget J i0 i0)) (x / z)).
  { eapply ap_le; [eapply ap_eq; [eapply ap_mul; [exact QX|exact J00|lra|lra|]|]|]; [|field; auto|lra].
    eapply (ok_or _ _ _ _ _ SX); [|exact MZI|lia|lia]. field; auto. }
  assert (NY : ap (84 / 10) (fmul (vy q) (mget J i1 i1)) (y / z)).
  { eapply ap_le; [eapply ap_eq; [eapply ap_mul; [exact QY|exact J11|lra|lra|]|]|]; [|field; auto|lra].
    eapply (ok_or _ _ _ _ _ SY); [|exact MZI|lia|lia]. field; auto. }
  assert (Z22 := val_mul_zero (vz q) _ Fq V22). assert (F23 := proj1 J23).
  assert (NZ3 : ap (62 / 10) (fadd (fmul (vz q) (mget J i2 i2)) (mget J i2 i3)) (z / z)).
  { apply ap_add0l; [exact Z22|]. eapply ap_eq; [exact J23|field; exact NZ]. }
  destruct (shape_map J q SH) as (nx & ny & nz & w' & EQ & Vx & Vy & Vz & Vw').
  { apply fall_3; [apply QX|apply QY|exact Fq]. } { apply NX. } { apply NY. } { apply Z22. } { exact F23. } { apply NZ3. } { exact FP. } { exact Fh. } { exact Fw. } { exact NW. }
  fold w in Vw'. destruct Vw' as [Fw' Vw']. rewrite VW in Vw'.
  destruct (final_div nx w' x z om _ (ap_same _ _ _ _ NX Vx) ltac:(lra) Fw' NZ Vw' O3 SX) as [FX RX].
  destruct (final_div ny w' y z om _ (ap_same _ _ _ _ NY Vy) ltac:(lra) Fw' NZ Vw' O3 SY) as [FY RY].
  assert (SZ : z = 0 \/ mg 50 50 z) by (right; eapply mg_le; [exact MZ|lia|lia]).
  destruct (final_div nz w' z z om _ (ap_same _ _ _ _ NZ3 Vz) ltac:(lra) Fw' NZ Vw' O3 SZ) as [FZ RZ].
  exists (vec3 (fdiv nx w') (fdiv ny w') (fdiv nz w')). split; [exact EQ|]. split; [apply fall_3; assumption|].
  assert (UK : u <= u * K) by (rewrite <- (Rmult_1_r u) at 1; apply Rmult_le_compat_l; lra).
  assert (W : forall k r s, k <= 84 / 10 -> Rabs (r - s) <= 3 / 2 * ((k + 1 + / 100) * u + Rabs om) * Rabs s -> within_rel (40 * u * K) r s).
  { intros k r s Hk R. unfold within_rel. apply Rle_trans with (1 := R). apply Rmult_le_compat_r; [apply Rabs_pos|]. assert ((k + 1 + / 100) * u <= (95 / 10) * u) by (apply Rmult_le_compat_r; lra). lra. }
  split; [eapply W; [|exact RX]; lra|]. split; [eapply W; [|exact RY]; lra|eapply W; [|exact RZ]; lra].
Qed.
End P.
