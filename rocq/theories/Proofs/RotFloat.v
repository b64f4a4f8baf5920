(** Rotations in f32/f64. *)
From Coq Require Import ZArith Reals Bool Lra Lia.
From Coq Require Vector Fin.
From Flocq Require Import Core BinarySingleNaN.
From Verif.Model Require Import FloatBase Scalar Float Interval Outcome Vec Transform XReal.
From Verif Require Import Spec SpecGeom SpecShape SpecTrig SpecError SpecRot.
From Verif.Proofs Require Import BitsLemmas FloatLemmas ScalarProofs XRealLemmas VectorFloat MatrixProofs TransformProofs RotationProofs VectorExact MatrixThms TransformFloat SlabFloat VectorErr MapErr DiskFloat CameraFloat QuadFloat SphereNear.
Open Scope R_scope.
Notation "v @ i" := (Vector.nth v i) (at level 20, only parsing).

Section R.
Context {f : fmt} {m : libm f}.
Notation FT := (float f).
Notation u := (unit_roundoff f).
Notation eta := (smallest_float f / 2).

Definition nr (k : R) (x : FT) (r : R) : Prop := finite x /\ Rabs (B2R x - r) <= k * u.
Lemma nr_val (x : FT) r : val x r -> nr 0 x r.
Proof. intros [F E]. split; [exact F|]. rewrite E. replace (r - r) with 0 by ring. rewrite Rabs_R0. lra. Qed.
Lemma nr_le k l x r : nr k x r -> k <= l -> nr l x r.
Proof. intros [F B] L. split; [exact F|]. eapply Rle_trans; [exact B|]. assert (U := u_q (f := f)). apply Rmult_le_compat_r; lra. Qed.
Lemma nr_abs k x r A : nr k x r -> 0 <= k <= 1000 -> Rabs r <= A -> Rabs (B2R x) <= A + k * u.
Proof. intros [F B] K H. replace (B2R x) with ((B2R x - r) + r) by ring. eapply Rle_trans; [apply Rabs_triang|]. lra. Qed.
Lemma small_120 : 100 <= bpow radix2 120.
Proof. apply Rle_trans with (bpow radix2 7); [cbn; lra|apply bpow_le; lia]. Qed.
Lemma nr_mul k l x y r s A B : nr k x r -> nr l y s -> 0 <= k <= 100 -> 0 <= l <= 100 -> Rabs r <= A -> Rabs s <= B -> A <= 4 -> B <= 4 ->
  nr (k * B + l * A + A * B + / 16) (fmul x y) (r * s).
Proof.
  intros N1 N2 K L HA HB A4 B4. assert (U := u_q (f := f)). assert (EU := eta_u (f := f)). cbn [pow] in EU. assert (T := small_120).
  assert (AX := nr_abs k x r A N1 ltac:(lra) HA). assert (AY := nr_abs l y s B N2 ltac:(lra) HB). destruct N1 as [Fx Bx]. destruct N2 as [Fy By].
  assert (A0 := Rabs_pos r). assert (B0 := Rabs_pos s).
  assert (KU : 0 <= k * u <= 100 * / 1000000) by (split; [apply Rmult_le_pos|apply Rmult_le_compat]; lra). assert (LU : 0 <= l * u <= 100 * / 1000000) by (split; [apply Rmult_le_pos|apply Rmult_le_compat]; lra).
  assert (XY : Rabs (B2R x * B2R y) <= A * B + / 100).
  { rewrite Rabs_mult. apply Rle_trans with ((A + k * u) * (B + l * u)); [apply Rmult_le_compat; try apply Rabs_pos; assumption|].
    assert (A * (l * u) <= 4 * (100 * / 1000000)) by (apply Rmult_le_compat; lra). assert (k * u * B <= (100 * / 1000000) * 4) by (apply Rmult_le_compat; lra). assert (k * u * (l * u) <= (100 * / 1000000) * (100 * / 1000000)) by (apply Rmult_le_compat; lra). lra. }
  assert (AB : A * B <= 16) by (replace 16 with (4 * 4) by ring; apply Rmult_le_compat; lra).
  destruct (big_fin _ _ (fmul_Rnd x y Fx Fy)) as [F E]; [lra|]. split; [exact F|].
  replace (B2R (fmul x y) - r * s) with ((B2R (fmul x y) - B2R x * B2R y) + (B2R x - r) * B2R y + r * (B2R y - s)) by ring.
  eapply Rle_trans; [apply Rabs_triang|]. eapply Rle_trans; [apply Rplus_le_compat_r, Rabs_triang|]. rewrite !Rabs_mult.
  assert (E1 : Rabs (B2R x - r) * Rabs (B2R y) <= k * u * (B + l * u)) by (apply Rmult_le_compat; try apply Rabs_pos; assumption).
  assert (E2 : Rabs r * Rabs (B2R y - s) <= A * (l * u)) by (apply Rmult_le_compat; try apply Rabs_pos; assumption).
  assert (E3 : u * Rabs (B2R x * B2R y) <= u * (A * B + / 100)) by (apply Rmult_le_compat_l; lra).
  assert (E4 : k * u * (l * u) <= u * / 100). { replace (k * u * (l * u)) with (u * (k * l * u)) by ring. apply Rmult_le_compat_l; [lra|]. apply Rle_trans with (100 * 100 * / 1000000); [|lra]. apply Rmult_le_compat; [apply Rmult_le_pos; lra|lra|apply Rmult_le_compat; lra|lra]. }
  rewrite Rabs_mult in E. rewrite Rabs_mult in E3. lra.
Qed.
Lemma nr_add k l x y r s C : nr k x r -> nr l y s -> 0 <= k <= 100 -> 0 <= l <= 100 -> Rabs (r + s) <= C -> C <= 8 -> nr (k + l + C + / 16) (fadd x y) (r + s).
Proof.
  intros [Fx Bx] [Fy By] K L HC C8. assert (U := u_q (f := f)). assert (EU := eta_u (f := f)). cbn [pow] in EU. assert (T := small_120).
  assert (D : Rabs (B2R x + B2R y - (r + s)) <= (k + l) * u). { replace (B2R x + B2R y - (r + s)) with ((B2R x - r) + (B2R y - s)) by ring. eapply Rle_trans; [apply Rabs_triang|]. lra. }
  assert (KL : (k + l) * u <= 200 * / 1000000) by (apply Rmult_le_compat; lra).
  assert (S : Rabs (B2R x + B2R y) <= C + / 1000). { replace (B2R x + B2R y) with ((B2R x + B2R y - (r + s)) + (r + s)) by ring. eapply Rle_trans; [apply Rabs_triang|]. lra. }
  destruct (big_fin _ _ (fadd_Rnd x y Fx Fy)) as [F E]; [lra|]. split; [exact F|].
  replace (B2R (fadd x y) - (r + s)) with ((B2R (fadd x y) - (B2R x + B2R y)) + (B2R x + B2R y - (r + s))) by ring. eapply Rle_trans; [apply Rabs_triang|].
  assert (u * Rabs (B2R x + B2R y) <= u * (C + / 1000)) by (apply Rmult_le_compat_l; lra). lra.
Qed.
Lemma nr_sub k l x y r s C : nr k x r -> nr l y s -> 0 <= k <= 100 -> 0 <= l <= 100 -> Rabs (r - s) <= C -> C <= 8 -> nr (k + l + C + / 16) (fsub x y) (r - s).
Proof.
  intros [Fx Bx] [Fy By] K L HC C8. assert (U := u_q (f := f)). assert (EU := eta_u (f := f)). cbn [pow] in EU. assert (T := small_120).
  assert (D : Rabs (B2R x - B2R y - (r - s)) <= (k + l) * u). { replace (B2R x - B2R y - (r - s)) with ((B2R x - r) + - (B2R y - s)) by ring. eapply Rle_trans; [apply Rabs_triang|]. rewrite Rabs_Ropp. lra. }
  assert (KL : (k + l) * u <= 200 * / 1000000) by (apply Rmult_le_compat; lra).
  assert (S : Rabs (B2R x - B2R y) <= C + / 1000). { replace (B2R x - B2R y) with ((B2R x - B2R y - (r - s)) + (r - s)) by ring. eapply Rle_trans; [apply Rabs_triang|]. lra. }
  destruct (big_fin _ _ (fsub_Rnd x y Fx Fy)) as [F E]; [lra|]. split; [exact F|].
  replace (B2R (fsub x y) - (r - s)) with ((B2R (fsub x y) - (B2R x - B2R y)) + (B2R x - B2R y - (r - s))) by ring. eapply Rle_trans; [apply Rabs_triang|].
  assert (u * Rabs (B2R x - B2R y) <= u * (C + / 1000)) by (apply Rmult_le_compat_l; lra). lra.
Qed.

(** one entry: a*c + b + d*s where [ec] is the scaled unit vector's entry, [ui], [uj] entries of the
    axis and [x] the entry of the cross product *)
Lemma entry (ec ui uj x c s one : FT) kc ki kj kx C S : nr 3 ec kc -> nr 6 ui ki -> nr 6 uj kj -> nr 6 x kx -> nr 3 c C -> nr 3 s S -> val one 1 ->
  Rabs kc <= 1 -> Rabs ki <= 1 -> Rabs kj <= 1 -> Rabs kx <= 1 -> Rabs C <= 1 -> Rabs S <= 1 ->
  nr 54 (fadd (fadd ec (fmul (fmul ui (fsub one c)) uj)) (fmul x s)) (kc + ki * (1 - C) * kj + kx * S).
Proof.
  intros Nc Ni Nj Nx NC NS V1 Hc Hi Hj Hx HC HS.
  assert (W : nr (0 + 3 + 2 + / 16) (fsub one c) (1 - C)). { apply nr_sub; try lra; [apply nr_val; exact V1|exact NC|]. apply Rabs_le. apply Rabs_le_inv in HC. lra. }
  assert (HW : Rabs (1 - C) <= 2) by (apply Rabs_le; apply Rabs_le_inv in HC; lra).
  assert (P1 := nr_mul _ _ _ _ _ _ 1 2 Ni W ltac:(lra) ltac:(lra) Hi HW ltac:(lra) ltac:(lra)).
  assert (H1 : Rabs (ki * (1 - C)) <= 2) by (rewrite Rabs_mult; replace 2 with (1 * 2) by ring; apply Rmult_le_compat; try apply Rabs_pos; assumption).
  assert (P2 := nr_mul _ _ _ _ _ _ 2 1 P1 Nj ltac:(lra) ltac:(lra) H1 Hj ltac:(lra) ltac:(lra)).
  assert (H2 : Rabs (ki * (1 - C) * kj) <= 2) by (rewrite Rabs_mult; replace 2 with (2 * 1) by ring; apply Rmult_le_compat; try apply Rabs_pos; assumption).
  assert (H3 : Rabs (kc + ki * (1 - C) * kj) <= 3) by (eapply Rle_trans; [apply Rabs_triang|]; lra).
  assert (P3 := nr_add _ _ _ _ _ _ 3 Nc P2 ltac:(lra) ltac:(lra) H3 ltac:(lra)).
  assert (P4 := nr_mul _ _ _ _ _ _ 1 1 Nx NS ltac:(lra) ltac:(lra) Hx HS ltac:(lra) ltac:(lra)).
  assert (H4 : Rabs (kx * S) <= 1) by (rewrite Rabs_mult; replace 1 with (1 * 1) by ring; apply Rmult_le_compat; try apply Rabs_pos; assumption).
  assert (H5 : Rabs (kc + ki * (1 - C) * kj + kx * S) <= 4) by (eapply Rle_trans; [apply Rabs_triang|]; lra).
  assert (P5 := nr_add _ _ _ _ _ _ 4 P3 P4 ltac:(lra) ltac:(lra) H5 ltac:(lra)).
  eapply nr_le; [exact P5|lra].
Qed.

Lemma nr_same k (x z : FT) r : nr k x r -> val z (B2R x) -> nr k z r.
Proof. intros [F B] [Fz V]. split; [exact Fz|]. rewrite V. exact B. Qed.
Lemma nr_opp k (x z : FT) r : nr k x r -> val z (- B2R x) -> nr k z (- r).
Proof. intros [F B] [Fz V]. split; [exact Fz|]. rewrite V. replace (- B2R x - - r) with (- (B2R x - r)) by ring. rewrite Rabs_Ropp. exact B. Qed.
Lemma val_one_mul (x y : FT) r : val x 1 -> val y r -> val (fmul x y) r.
Proof. intros [F1 V1] [F2 V2]. apply (val_Rnd y); [exact F2|exact V2|]. rewrite <- V2, <- (Rmult_1_l (B2R y)), <- V1. apply fmul_Rnd; assumption. Qed.
Lemma val_zero_mul (x y : FT) : val x 0 -> finite y -> val (fmul x y) 0.
Proof. intros [F1 V1] F2. apply (val_Rnd x); [exact F1|exact V1|]. rewrite <- (Rmult_0_l (B2R y)), <- V1. apply fmul_Rnd; assumption. Qed.
Lemma val_sub_zero (x y : FT) r : val x r -> val y 0 -> val (fsub x y) r.
Proof. intros [F1 V1] [F2 V2]. apply (val_Rnd x); [exact F1|exact V1|]. replace r with (B2R x - B2R y) by (rewrite V1, V2; ring). apply fsub_Rnd; assumption. Qed.
Lemma val_zero_sub (x y : FT) r : val x 0 -> val y r -> val (fsub x y) (- r).
Proof.
  intros [F1 V1] [F2 V2]. apply (val_Rnd (fneg y)); [rewrite fneg_finite; exact F2|rewrite fneg_B2R, V2; reflexivity|]. replace (- r) with (B2R x - B2R y) by (rewrite V1, V2; ring). apply fsub_Rnd; assumption.
Qed.
Lemma val_self (x : FT) : finite x -> val x (B2R x). Proof. split; [assumption|reflexivity]. Qed.

Definition rcol (w e : vec FT 3) (s c : FT) : vec FT 3 :=
  v_add (v_add (v_scale e c) (v_scale (v_scale w (fsub sone c)) (dot w e))) (v_scale (cross w e) s).
Definition rmx (w : vec FT 3) (s c : FT) : matrix FT :=
  let X := rcol w (vec3 sone (fzero false) (fzero false)) s c in let Y := rcol w (vec3 (fzero false) sone (fzero false)) s c in let Z := rcol w (vec3 (fzero false) (fzero false) sone) s c in
  Vector.cons _ (Vector.cons _ (vx X) _ (Vector.cons _ (vx Y) _ (Vector.cons _ (vx Z) _ (Vector.cons _ (fzero false) _ (Vector.nil _))))) _
  (Vector.cons _ (Vector.cons _ (vy X) _ (Vector.cons _ (vy Y) _ (Vector.cons _ (vy Z) _ (Vector.cons _ (fzero false) _ (Vector.nil _))))) _
  (Vector.cons _ (Vector.cons _ (vz X) _ (Vector.cons _ (vz Y) _ (Vector.cons _ (vz Z) _ (Vector.cons _ (fzero false) _ (Vector.nil _))))) _
  (Vector.cons _ (Vector.cons _ (fzero false) _ (Vector.cons _ (fzero false) _ (Vector.cons _ (fzero false) _ (Vector.cons _ sone _ (Vector.nil _))))) _ (Vector.nil _)))).
Lemma rotate_eq (v : vec FT 3) (a : FT) : rotate v a = mkT (rmx (normalize v) (m_sin m a) (m_cos m a)) (transpose (rmx (normalize v) (m_sin m a) (m_cos m a))).
Proof. reflexivity. Qed.

Lemma col_err (w : vec FT 3) (s c : FT) (k : R3) C S j : fall finite w -> nr 6 (vx w) (cX k) -> nr 6 (vy w) (cY k) -> nr 6 (vz w) (cZ k) -> nr 3 c C -> nr 3 s S ->
  Rabs (cX k) <= 1 -> Rabs (cY k) <= 1 -> Rabs (cZ k) <= 1 -> Rabs C <= 1 -> Rabs S <= 1 ->
  let e := match j with O => vec3 sone (fzero false) (fzero false) | 1%nat => vec3 (fzero false) sone (fzero false) | _ => vec3 (fzero false) (fzero false) sone end in
  let b := match j with O => mk3 1 0 0 | 1%nat => mk3 0 1 0 | _ => mk3 0 0 1 end in
  let t := add3 (add3 (scl3 C b) (scl3 ((1 - C) * dot3 k b) k)) (scl3 S (cross3 k b)) in
  nr 54 (vx (rcol w e s c)) (cX t) /\ nr 54 (vy (rcol w e s c)) (cY t) /\ nr 54 (vz (rcol w e s c)) (cZ t).
Proof.
  intros Fw NX NY NZ NC NS KX KY KZ HC HS. assert (V1 := val_one (f := f)). assert (V0 := val_zero (f := f) false).
  assert (F0 := proj1 NX). assert (F1 := proj1 NY). assert (F2 := proj1 NZ). assert (Fc := proj1 NC).
  assert (R0 : Rabs 0 <= 1) by (rewrite Rabs_R0; lra). assert (NG : forall r, Rabs r <= 1 -> Rabs (- r) <= 1) by (intros r; rewrite Rabs_Ropp; auto).
  assert (C1 : nr 3 (fmul sone c) C) by (apply (nr_same 3 c); [exact NC|]; apply val_one_mul; [exact V1|apply val_self, Fc]).
  assert (C0 : nr 3 (fmul (fzero false) c) 0) by (apply (nr_le 0); [apply nr_val, val_zero_mul; assumption|lra]).
  assert (M1 : forall x : FT, finite x -> val (fmul x sone) (B2R x)) by (intros x Fx; apply val_mul_one; [apply val_self, Fx|exact V1]).
  assert (M0 : forall x : FT, finite x -> val (fmul x (fzero false)) 0) by (intros x Fx; apply val_mul_zero; assumption).
  assert (Z6 : forall z : FT, val z 0 -> nr 6 z 0) by (intros z Vz; apply (nr_le 0); [apply nr_val, Vz|lra]).
  revert Fw NX NY NZ F0 F1 F2. rewrite (vec3_eta w). generalize (vx w) (vy w) (vz w). clear w. intros X Y Z. change (vx (vec3 X Y Z)) with X. change (vy (vec3 X Y Z)) with Y. change (vz (vec3 X Y Z)) with Z. intros _ NX NY NZ F0 F1 F2.
  assert (D0 : nr 6 (fadd (fadd (fadd (fzero false) (fmul X sone)) (fmul Y (fzero false))) (fmul Z (fzero false))) (cX k)).
  { apply (nr_same 6 X); [exact NX|]. repeat (apply val_add_zero; [|apply M0; assumption]). apply val_zero_add; [exact V0|apply M1; exact F0]. }
  assert (D1 : nr 6 (fadd (fadd (fadd (fzero false) (fmul X (fzero false))) (fmul Y sone)) (fmul Z (fzero false))) (cY k)).
  { apply (nr_same 6 Y); [exact NY|]. apply val_add_zero; [|apply M0; assumption]. apply val_zero_add; [apply val_zero_add; [exact V0|apply M0; assumption]|apply M1; exact F1]. }
  assert (D2 : nr 6 (fadd (fadd (fadd (fzero false) (fmul X (fzero false))) (fmul Y (fzero false))) (fmul Z sone)) (cZ k)).
  { apply (nr_same 6 Z); [exact NZ|]. apply val_zero_add; [apply val_zero_add; [apply val_zero_add; [exact V0|apply M0; assumption]|apply M0; assumption]|apply M1; exact F2]. }
  assert (XZ : forall p q : FT, finite p -> finite q -> nr 6 (fsub (fmul p (fzero false)) (fmul q (fzero false))) 0) by (intros p q Fp Fq; apply Z6, val_sub_zero; apply M0; assumption).
  assert (XP : forall (p q : FT) r, finite p -> nr 6 q r -> nr 6 (fsub (fmul q sone) (fmul p (fzero false))) r) by (intros p q r Fp Nq; apply (nr_same 6 q); [exact Nq|]; apply val_sub_zero; [apply M1, (proj1 Nq)|apply M0, Fp]).
  assert (XN : forall (p q : FT) r, finite p -> nr 6 q r -> nr 6 (fsub (fmul p (fzero false)) (fmul q sone)) (- r)) by (intros p q r Fp Nq; apply (nr_opp 6 q); [exact Nq|]; apply val_zero_sub; [apply M0, Fp|apply M1, (proj1 Nq)]).
  intros e b t.
  assert (EQ : forall (x : FT) r r', nr 54 x r' -> r = r' -> nr 54 x r) by (intros; subst; assumption).
  destruct j as [|[|j]]; unfold t, e, b; (split; [|split]).
  - eapply EQ; [apply (entry (fmul sone c) X _ _ c s sone C (cX k) (cX k) 0 C S C1 NX D0 (XZ Y Z F1 F2) NC NS V1); auto|]. unfold dot3, cross3, add3, scl3; cbn [cX cY cZ]; ring.
  - eapply EQ; [apply (entry (fmul (fzero false) c) Y _ _ c s sone 0 (cY k) (cX k) (cZ k) C S C0 NY D0 (XP X Z _ F0 NZ) NC NS V1); auto|]. unfold dot3, cross3, add3, scl3; cbn [cX cY cZ]; ring.
  - eapply EQ; [apply (entry (fmul (fzero false) c) Z _ _ c s sone 0 (cZ k) (cX k) (- cY k) C S C0 NZ D0 (XN X Y _ F0 NY) NC NS V1); auto|]. unfold dot3, cross3, add3, scl3; cbn [cX cY cZ]; ring.
  - eapply EQ; [apply (entry (fmul (fzero false) c) X _ _ c s sone 0 (cX k) (cY k) (- cZ k) C S C0 NX D1 (XN Y Z _ F1 NZ) NC NS V1); auto|]. unfold dot3, cross3, add3, scl3; cbn [cX cY cZ]; ring.
  - eapply EQ; [apply (entry (fmul sone c) Y _ _ c s sone C (cY k) (cY k) 0 C S C1 NY D1 (XZ Z X F2 F0) NC NS V1); auto|]. unfold dot3, cross3, add3, scl3; cbn [cX cY cZ]; ring.
  - eapply EQ; [apply (entry (fmul (fzero false) c) Z _ _ c s sone 0 (cZ k) (cY k) (cX k) C S C0 NZ D1 (XP Y X _ F1 NX) NC NS V1); auto|]. unfold dot3, cross3, add3, scl3; cbn [cX cY cZ]; ring.
  - eapply EQ; [apply (entry (fmul (fzero false) c) X _ _ c s sone 0 (cX k) (cZ k) (cY k) C S C0 NX D2 (XP Z Y _ F2 NY) NC NS V1); auto|]. unfold dot3, cross3, add3, scl3; cbn [cX cY cZ]; ring.
  - eapply EQ; [apply (entry (fmul (fzero false) c) Y _ _ c s sone 0 (cY k) (cZ k) (- cX k) C S C0 NY D2 (XN Z X _ F2 NX) NC NS V1); auto|]. unfold dot3, cross3, add3, scl3; cbn [cX cY cZ]; ring.
  - eapply EQ; [apply (entry (fmul sone c) Z _ _ c s sone C (cZ k) (cZ k) 0 C S C1 NZ D2 (XZ X Y F0 F1) NC NS V1); auto|]. unfold dot3, cross3, add3, scl3; cbn [cX cY cZ]; ring.
Qed.

(** ** the whole matrix *)
Lemma turned_rodr k a b : turned k a b = rodr k a b.
Proof. unfold turned, rodr. apply R3_eq; cbn; ring. Qed.
Definition near_mat (k : R) (A : rmat) (X Y Z : R3) : Prop :=
  (Rabs (A i0 i0 - cX X) <= k * u /\ Rabs (A i1 i0 - cY X) <= k * u /\ Rabs (A i2 i0 - cZ X) <= k * u) /\
  (Rabs (A i0 i1 - cX Y) <= k * u /\ Rabs (A i1 i1 - cY Y) <= k * u /\ Rabs (A i2 i1 - cZ Y) <= k * u) /\
  (Rabs (A i0 i2 - cX Z) <= k * u /\ Rabs (A i1 i2 - cY Z) <= k * u /\ Rabs (A i2 i2 - cZ Z) <= k * u).
Lemma lin3 e a a' b b' c c' x y z : Rabs (a - a') <= e -> Rabs (b - b') <= e -> Rabs (c - c') <= e ->
  Rabs (a * x + b * y + c * z - (a' * x + b' * y + c' * z)) <= e * (Rabs x + Rabs y + Rabs z).
Proof.
  intros A B C. replace (a * x + b * y + c * z - (a' * x + b' * y + c' * z)) with ((a - a') * x + (b - b') * y + (c - c') * z) by ring.
  eapply Rle_trans; [apply Rabs_triang|]. eapply Rle_trans; [apply Rplus_le_compat_r, Rabs_triang|]. rewrite !Rabs_mult.
  assert (P := Rabs_pos x). assert (Q := Rabs_pos y). assert (S := Rabs_pos z).
  assert (Rabs (a - a') * Rabs x <= e * Rabs x) by (apply Rmult_le_compat_r; assumption).
  assert (Rabs (b - b') * Rabs y <= e * Rabs y) by (apply Rmult_le_compat_r; assumption).
  assert (Rabs (c - c') * Rabs z <= e * Rabs z) by (apply Rmult_le_compat_r; assumption). lra.
Qed.
Lemma near_app k A ax a b : near_mat k A (turned ax a (mk3 1 0 0)) (turned ax a (mk3 0 1 0)) (turned ax a (mk3 0 0 1)) ->
  near3 (k * u * size3 b) (app_vec A b) (turned ax a b).
Proof.
  intros ((X0 & X1 & X2) & (Y0 & Y1 & Y2) & (Z0 & Z1 & Z2)).
  assert (E : forall p : R3 -> R, (forall v w, p (add3 v w) = p v + p w) -> (forall s v, p (scl3 s v) = s * p v) ->
    p (turned ax a b) = p (turned ax a (mk3 1 0 0)) * cX b + p (turned ax a (mk3 0 1 0)) * cY b + p (turned ax a (mk3 0 0 1)) * cZ b).
  { intros p PA PS. rewrite (Rmult_comm (p _) (cX b)), (Rmult_comm (p _) (cY b)), (Rmult_comm (p _) (cZ b)). rewrite <- !PS, <- !PA. f_equal.
    destruct b as [bx by' bz]. unfold turned, dot3, cross3, add3, scl3; cbn [cX cY cZ]. f_equal; ring. }
  unfold near3, size3. unfold app_vec; cbn [cX cY cZ].
  rewrite (E cX), (E cY), (E cZ) by reflexivity.
  split; [|split]; apply lin3; assumption.
Qed.

Lemma rlen_f3 (v : vec FT 3) : rlen (fvals v) = len3 (f3 v).
Proof. unfold rlen, len3. f_equal. unfold rdot, fvals, f3, dot3; cbn [cX cY cZ rsum]. ring. Qed.
Lemma nr_abs1 k (x : FT) r : nr k x r -> Rabs (B2R x - r) <= k * u. Proof. intros [_ H]; exact H. Qed.

Lemma dir3_unit v : 0 < len3 v -> dot3 (dir3 v) (dir3 v) = 1.
Proof. intros L. apply (dot3_unit v). intros E. rewrite E in L. unfold len3, dot3, zero3 in L; cbn in L. replace (0 * 0 + 0 * 0 + 0 * 0) with 0 in L by ring. rewrite sqrt_0 in L. lra. Qed.
Lemma unit_comp k : dot3 k k = 1 -> Rabs (cX k) <= 1 /\ Rabs (cY k) <= 1 /\ Rabs (cZ k) <= 1.
Proof. unfold dot3. intros H. repeat split; apply Rabs_le; split; nra. Qed.

Lemma rotate_rot (v : vec FT 3) (a : FT) : good_sin_cos m -> finite a -> finite (norm v) -> bpow radix2 (-40) <= len3 (f3 v) ->
  exists A, fM (t_matrix (rotate v a)) A /\ fM (t_inverse_matrix (rotate v a)) (rtransp A) /\ linear4 A /\
  near_mat 54 A (turned (dir3 (f3 v)) (B2R a) (mk3 1 0 0)) (turned (dir3 (f3 v)) (B2R a) (mk3 0 1 0)) (turned (dir3 (f3 v)) (B2R a) (mk3 0 0 1)).
Proof.
  intros G Fa Fn L. rewrite rotate_eq. unfold t_matrix, t_inverse_matrix. cbn [tm tminv].
  destruct (normalize_err v Fn) as (Fw & _ & N); [rewrite rlen_f3; exact L|].
  destruct (G a Fa) as (WS & _ & WC & _). apply wulp_err in WS; [|apply SIN_bound]. apply wulp_err in WC; [|apply COS_bound].
  assert (L0 : 0 < len3 (f3 v)) by (eapply Rlt_le_trans; [apply bpow_gt_0|exact L]).
  set (k := dir3 (f3 v)) in *. assert (K1 : dot3 k k = 1) by (apply dir3_unit, L0). destruct (unit_comp k K1) as (KX & KY & KZ).
  set (w := normalize v) in *. set (s := m_sin m a) in *. set (c := m_cos m a) in *.
  assert (NX : nr 6 (vx w) (cX k)). { split; [apply (Fw Fin.F1)|]. replace (cX k) with (fvals v Fin.F1 / rlen (fvals v)); [exact (N Fin.F1)|]. rewrite rlen_f3. unfold k, dir3, Rdiv; cbn. apply Rmult_comm. }
  assert (NY : nr 6 (vy w) (cY k)). { split; [apply (Fw (Fin.FS Fin.F1))|]. replace (cY k) with (fvals v (Fin.FS Fin.F1) / rlen (fvals v)); [exact (N (Fin.FS Fin.F1))|]. rewrite rlen_f3. unfold k, dir3, Rdiv; cbn. apply Rmult_comm. }
  assert (NZ : nr 6 (vz w) (cZ k)). { split; [apply (Fw (Fin.FS (Fin.FS Fin.F1)))|]. replace (cZ k) with (fvals v (Fin.FS (Fin.FS Fin.F1)) / rlen (fvals v)); [exact (N (Fin.FS (Fin.FS Fin.F1)))|]. rewrite rlen_f3. unfold k, dir3, Rdiv; cbn. apply Rmult_comm. }
  assert (CB : Rabs (cos (B2R a)) <= 1) by (apply Rabs_le, COS_bound). assert (SB : Rabs (sin (B2R a)) <= 1) by (apply Rabs_le, SIN_bound).
  assert (T := fun j => col_err w s c k (cos (B2R a)) (sin (B2R a)) j Fw NX NY NZ WC WS KX KY KZ CB SB).
  assert (T0 := T 0%nat). assert (T1 := T 1%nat). assert (T2 := T 2%nat). clear T. cbv zeta in T0, T1, T2.
  destruct T0 as (X0 & X1 & X2). destruct T1 as (Y0 & Y1 & Y2). destruct T2 as (Z0 & Z1 & Z2).
  exists (fun i j => B2R (mget (rmx w s c) i j)).
  assert (FM : forall i j, finite (mget (rmx w s c) i j)).
  { assert (V1 := proj1 (val_one (f := f))). assert (V0 := proj1 (val_zero (f := f) false)).
    intros i j. fin4 i; fin4 j; first [exact V0|exact V1|exact (proj1 X0)|exact (proj1 X1)|exact (proj1 X2)|exact (proj1 Y0)|exact (proj1 Y1)|exact (proj1 Y2)|exact (proj1 Z0)|exact (proj1 Z1)|exact (proj1 Z2)]. }
  split; [intros i j; split; [apply FM|reflexivity]|]. split; [intros i j; assert (E : get (transpose (rmx w s c)) i j = get (rmx w s c) j i) by apply transpose_entry; split; [rewrite E; apply FM|rewrite E; reflexivity]|].
  split.
  - repeat split; first [exact (proj2 (val_zero (f := f) false))|exact (proj2 (val_one (f := f)))].
  - repeat split; apply nr_abs1; assumption.
Qed.
Lemma rotate_float (v : vec FT 3) (a : FT) : good_sin_cos m -> finite a -> finite (norm v) -> bpow radix2 (-40) <= len3 (f3 v) ->
  float_rotation 54 (rotate v a) (dir3 (f3 v)) (B2R a).
Proof. intros G Fa Fn L. destruct (rotate_rot v a G Fa Fn L) as (A & H1 & H2 & H3 & H4). exists A. repeat split; try assumption; try apply H1; try apply H2; try apply H3; apply (near_app 54), H4. Qed.

Lemma axes_float (a : FT) : good_sin_cos m -> finite a ->
  float_rotation 3 (rotate_x a) (mk3 1 0 0) (B2R a) /\ float_rotation 3 (rotate_y a) (mk3 0 1 0) (B2R a) /\ float_rotation 3 (rotate_z a) (mk3 0 0 1) (B2R a).
Proof.
  intros G Fa. destruct (G a Fa) as (WS & _ & WC & _). apply wulp_err in WS; [|apply SIN_bound]. apply wulp_err in WC; [|apply COS_bound].
  assert (V1 := val_one (f := f)). assert (V0 := val_zero (f := f) false). destruct V1 as [F1 E1]. destruct V0 as [F0 E0]. destruct WS as [FS ES]. destruct WC as [FC EC].
  assert (FN : finite (fneg (m_sin m a))) by (rewrite fneg_finite; exact FS). assert (EN := fneg_B2R (m_sin m a)).
  assert (U := u_q (f := f)).
  assert (Z : forall r s, r = s -> Rabs (r - s) <= 3 * u) by (intros r s ->; replace (s - s) with 0 by ring; rewrite Rabs_R0; lra).
  assert (NG : forall r t, r = - B2R (m_sin m a) -> t = - sin (B2R a) -> Rabs (r - t) <= 3 * u).
  { intros r t -> ->. replace (- B2R (m_sin m a) - - sin (B2R a)) with (- (B2R (m_sin m a) - sin (B2R a))) by ring. rewrite Rabs_Ropp. exact ES. }
  assert (CC : forall t, t = cos (B2R a) -> Rabs (B2R (m_cos m a) - t) <= 3 * u) by (intros t ->; exact EC).
  assert (SS : forall t, t = sin (B2R a) -> Rabs (B2R (m_sin m a) - t) <= 3 * u) by (intros t ->; exact ES).
  assert (TX : forall ax b, turned ax (B2R a) b = mk3 (cos (B2R a) * cX b + (1 - cos (B2R a)) * dot3 ax b * cX ax + sin (B2R a) * (cY ax * cZ b - cZ ax * cY b))
    (cos (B2R a) * cY b + (1 - cos (B2R a)) * dot3 ax b * cY ax + sin (B2R a) * (cZ ax * cX b - cX ax * cZ b))
    (cos (B2R a) * cZ b + (1 - cos (B2R a)) * dot3 ax b * cZ ax + sin (B2R a) * (cX ax * cY b - cY ax * cX b))) by reflexivity.
  assert (K : forall (t : transform FT) ax, (forall i j, finite (mget (tm t) i j)) -> (forall i j, B2R (mget (tminv t) i j) = B2R (mget (tm t) j i)) -> (forall i j, finite (mget (tminv t) i j)) ->
    linear4 (fun i j => B2R (mget (tm t) i j)) ->
    near_mat 3 (fun i j => B2R (mget (tm t) i j)) (turned ax (B2R a) (mk3 1 0 0)) (turned ax (B2R a) (mk3 0 1 0)) (turned ax (B2R a) (mk3 0 0 1)) -> float_rotation 3 t ax (B2R a)).
  { intros t ax H1 H2 H3 H4 H5. exists (fun i j => B2R (mget (tm t) i j)). split; [intros i j; split; [apply H1|reflexivity]|]. split; [intros i j; split; [apply H3|apply H2]|]. split; [exact H4|]. intros b. apply (near_app 3), H5. }
  assert (fin : forall x : FT, x = sone \/ x = fzero false \/ x = m_cos m a \/ x = m_sin m a \/ x = fneg (m_sin m a) -> finite x) by (intros x [->|[->|[->|[->| ->]]]]; assumption).
  split; [|split]; apply K.
  all: try (intros i j; fin4 i; fin4 j; first [exact F0|exact F1|exact FC|exact FS|exact FN]).
  all: try (intros i j; fin4 i; fin4 j; reflexivity).
  all: try (unfold linear4, affine; repeat split; first [exact E0|exact E1]).
  all: unfold near_mat; rewrite !TX; unfold dot3; cbn [cX cY cZ]; repeat split.
  all: first [apply CC; ring | apply SS; ring | apply NG; [exact EN|ring] | apply Z; etransitivity; [first [exact E0|exact E1]|ring]].
Qed.

(** ** rigidity *)
Lemma dot_cs (x y : R3) : Rabs (dot3 x y) <= len3 x * len3 y.
Proof.
  apply Rsqr_incr_0_var; [|apply Rmult_le_pos; apply len3_nonneg]. rewrite <- Rsqr_abs. unfold Rsqr. replace (len3 x * len3 y * (len3 x * len3 y)) with ((len3 x * len3 x) * (len3 y * len3 y)) by ring. rewrite !len3_sq. unfold dot3.
  assert (H1 := Rle_0_sqr (cX x * cY y - cY x * cX y)). assert (H2 := Rle_0_sqr (cX x * cZ y - cZ x * cX y)). assert (H3 := Rle_0_sqr (cY x * cZ y - cZ x * cY y)). unfold Rsqr in *. lra.
Qed.
Lemma len_mono (x y : R3) : dot3 x x <= dot3 y y -> len3 x <= len3 y. Proof. apply sqrt_le_1_alt. Qed.
Lemma len_le (x : R3) r : 0 <= r -> dot3 x x <= r * r -> len3 x <= r.
Proof. intros R H. unfold len3. rewrite <- (sqrt_square r R). apply sqrt_le_1_alt, H. Qed.
Lemma dot_add_l (x y z : R3) : dot3 (add3 x y) z = dot3 x z + dot3 y z. Proof. unfold dot3, add3; cbn; ring. Qed.
Lemma dot_comm (x y : R3) : dot3 x y = dot3 y x. Proof. unfold dot3; ring. Qed.
Lemma len_tri (x y : R3) : len3 (add3 x y) <= len3 x + len3 y.
Proof.
  assert (X := len3_nonneg x). assert (Y := len3_nonneg y). apply len_le; [lra|]. assert (C := dot_cs x y). apply Rabs_le_inv in C.
  replace ((len3 x + len3 y) * (len3 x + len3 y)) with (len3 x * len3 x + len3 y * len3 y + 2 * (len3 x * len3 y)) by ring. rewrite !len3_sq.
  replace (dot3 (add3 x y) (add3 x y)) with (dot3 x x + dot3 y y + 2 * dot3 x y) by (unfold dot3, add3; cbn; ring). lra.
Qed.
Lemma sq_abs_le x e : Rabs x <= e -> x * x <= e * e.
Proof. intros H. assert (P := Rabs_pos x). replace (x * x) with (Rabs x * Rabs x) by (rewrite <- Rabs_mult; apply Rabs_pos_eq; nra). apply Rmult_le_compat; assumption. Qed.
Lemma near_len3 e p q : near3 e p q -> 0 <= e -> dot3 (sub3 p q) (sub3 p q) <= 3 * (e * e).
Proof. intros (H0 & H1 & H2) E. unfold dot3, sub3; cbn [cX cY cZ]. apply sq_abs_le in H0. apply sq_abs_le in H1. apply sq_abs_le in H2. lra. Qed.
Lemma size_len b : size3 b * size3 b <= 3 * dot3 b b.
Proof.
  unfold size3, dot3. set (x := Rabs (cX b)). set (y := Rabs (cY b)). set (z := Rabs (cZ b)).
  assert (SQ : forall r, r * r = Rabs r * Rabs r) by (intros r; rewrite <- Rabs_mult; symmetry; apply Rabs_pos_eq; nra).
  rewrite (SQ (cX b)), (SQ (cY b)), (SQ (cZ b)). fold x y z.
  assert (H1 := Rle_0_sqr (x - y)). assert (H2 := Rle_0_sqr (x - z)). assert (H3 := Rle_0_sqr (y - z)). unfold Rsqr in *. lra.
Qed.
Lemma near_size e p q b : 0 <= e -> near3 (e * size3 b) p q -> len3 (sub3 p q) <= 3 * e * len3 b.
Proof.
  intros E H. assert (S0 : 0 <= size3 b) by (unfold size3; assert (X := Rabs_pos (cX b)); assert (Y := Rabs_pos (cY b)); assert (Z := Rabs_pos (cZ b)); lra).
  assert (B := len3_nonneg b). apply near_len3 in H; [|apply Rmult_le_pos; assumption]. apply len_le; [apply Rmult_le_pos; lra|].
  eapply Rle_trans; [exact H|]. replace (3 * e * len3 b * (3 * e * len3 b)) with (9 * (e * e) * (len3 b * len3 b)) by ring. rewrite len3_sq.
  replace (3 * (e * size3 b * (e * size3 b))) with (3 * (e * e) * (size3 b * size3 b)) by ring. replace (9 * (e * e) * dot3 b b) with (3 * (e * e) * (3 * dot3 b b)) by ring.
  apply Rmult_le_compat_l; [|apply size_len]. assert (0 <= e * e) by (apply Rmult_le_pos; assumption). lra.
Qed.
Lemma rigid k ax a A b c : dot3 ax ax = 1 -> 0 <= k <= 54 -> (forall b, near3 (k * u * size3 b) (app_vec A b) (turned ax a b)) ->
  Rabs (dot3 (app_vec A b) (app_vec A c) - dot3 b c) <= (6 * k + 1) * u * (len3 b * len3 c).
Proof.
  intros H1 K H. assert (U := u_q (f := f)).
  assert (KU : 0 <= k * u) by (apply Rmult_le_pos; lra).
  assert (NB := near_size (k * u) _ _ b KU (H b)). assert (NC := near_size (k * u) _ _ c KU (H c)).
  set (db := sub3 (app_vec A b) (turned ax a b)) in *. set (dc := sub3 (app_vec A c) (turned ax a c)) in *.
  assert (LB : len3 (turned ax a b) = len3 b) by (unfold len3; rewrite turned_rodr, rodr_dot by exact H1; reflexivity).
  assert (LC : len3 (turned ax a c) = len3 c) by (unfold len3; rewrite turned_rodr, rodr_dot by exact H1; reflexivity).
  assert (D : dot3 (turned ax a b) (turned ax a c) = dot3 b c) by (rewrite !turned_rodr; apply rodr_dot, H1).
  replace (dot3 (app_vec A b) (app_vec A c) - dot3 b c) with (dot3 (turned ax a b) dc + dot3 db (turned ax a c) + dot3 db dc).
  2:{ rewrite <- D. unfold db, dc. generalize (app_vec A b) (app_vec A c) (turned ax a b) (turned ax a c). intros p q r s. unfold dot3, sub3; cbn; ring. }
  eapply Rle_trans; [apply Rabs_triang|]. eapply Rle_trans; [apply Rplus_le_compat_r, Rabs_triang|].
  assert (C1 := dot_cs (turned ax a b) dc). assert (C2 := dot_cs db (turned ax a c)). assert (C3 := dot_cs db dc). rewrite LB in C1. rewrite LC in C2.
  assert (PB := len3_nonneg b). assert (PC := len3_nonneg c). assert (PDB := len3_nonneg db). assert (PDC := len3_nonneg dc).
  assert (Q1 : len3 b * len3 dc <= len3 b * (3 * (k * u) * len3 c)) by (apply Rmult_le_compat_l; assumption).
  assert (Q2 : len3 db * len3 c <= 3 * (k * u) * len3 b * len3 c) by (apply Rmult_le_compat_r; assumption).
  assert (Q3 : len3 db * len3 dc <= 3 * (k * u) * len3 b * (3 * (k * u) * len3 c)) by (apply Rmult_le_compat; assumption).
  assert (PBC : 0 <= len3 b * len3 c) by (apply Rmult_le_pos; assumption). set (z := len3 b * len3 c) in *.
  assert (Q4 : 9 * ((k * u) * (k * u)) * z <= u * z).
  { apply Rmult_le_compat_r; [exact PBC|]. replace (9 * (k * u * (k * u))) with (9 * (k * k) * u * u) by ring. rewrite <- (Rmult_1_l u) at 3. apply Rmult_le_compat_r; [lra|].
    assert (k * k <= 54 * 54) by (apply Rmult_le_compat; lra). assert (9 * (k * k) * u <= 9 * (54 * 54) * u) by (apply Rmult_le_compat_r; lra). lra. }
  replace (len3 b * (3 * (k * u) * len3 c)) with (3 * k * u * z) in Q1 by (unfold z; ring).
  replace (3 * (k * u) * len3 b * len3 c) with (3 * k * u * z) in Q2 by (unfold z; ring).
  replace (3 * (k * u) * len3 b * (3 * (k * u) * len3 c)) with (9 * ((k * u) * (k * u)) * z) in Q3 by (unfold z; ring).
  lra.
Qed.

(** ** there and back *)
Lemma entry_bound k ax a A i j : dot3 ax ax = 1 -> 0 <= k <= 54 -> (forall b, near3 (k * u * size3 b) (app_vec A b) (turned ax a b)) -> linear4 A ->
  i <> i3 -> j <> i3 -> Rabs (A i j) <= 1 + / 1000.
Proof.
  intros H1 K H _ Ni Nj. assert (U := u_q (f := f)).
  assert (G : forall e, dot3 e e = 1 -> size3 e = 1 -> Rabs (cX (app_vec A e)) <= 1 + / 1000 /\ Rabs (cY (app_vec A e)) <= 1 + / 1000 /\ Rabs (cZ (app_vec A e)) <= 1 + / 1000).
  { intros e He Se. destruct (H e) as (N0 & N1 & N2). rewrite Se in *. destruct (unit_comp (turned ax a e)) as (T0 & T1 & T2); [rewrite turned_rodr, rodr_dot; assumption|].
    assert (KU : k * u <= 54 * / 1000000) by (apply Rmult_le_compat; lra). apply Rabs_le_inv in N0, N1, N2, T0, T1, T2. repeat split; apply Rabs_le; lra. }
  assert (S1 : forall x y z, size3 (mk3 x y z) = Rabs x + Rabs y + Rabs z) by reflexivity.
  destruct (G (mk3 1 0 0)) as (X0 & X1 & X2); [unfold dot3; cbn; ring|rewrite S1, Rabs_R0, Rabs_R1; ring|].
  destruct (G (mk3 0 1 0)) as (Y0 & Y1 & Y2); [unfold dot3; cbn; ring|rewrite S1, Rabs_R0, Rabs_R1; ring|].
  destruct (G (mk3 0 0 1)) as (Z0 & Z1 & Z2); [unfold dot3; cbn; ring|rewrite S1, Rabs_R0, Rabs_R1; ring|].
  unfold app_vec in *; cbn [cX cY cZ] in *. rewrite ?Rmult_0_r, ?Rmult_1_r, ?Rplus_0_l, ?Rplus_0_r in *.
  revert Ni Nj. refine (fin4_case (fun i => i <> i3 -> j <> i3 -> Rabs (A i j) <= 1 + / 1000) _ _ _ _ i); refine (fin4_case (fun j => _ -> j <> i3 -> Rabs (A _ j) <= 1 + / 1000) _ _ _ _ j); intros Ni Nj; first [assumption | exfalso; apply Ni; reflexivity | exfalso; apply Nj; reflexivity].
Qed.
Lemma gl : rel_err f 3 <= 301 / 100 * u.
Proof.
  assert (U := u_q (f := f)). unfold rel_err. replace ((1 + u) ^ 3 - 1) with (3 * u + 3 * (u * u) + u * u * u) by ring.
  assert (u * u <= / 1000000 * u) by (apply Rmult_le_compat_r; lra). assert (0 <= u * u) by (apply Rmult_le_pos; lra). assert (u * u * u <= u * u * 1) by (apply Rmult_le_compat_l; lra). lra.
Qed.
Lemma cl : 3 * (1 + u) ^ 2 * eta <= 301 / 100 * eta.
Proof.
  assert (U := u_q (f := f)). assert (E := eta_pos (f := f)). apply Rmult_le_compat_r; [lra|]. replace ((1 + u) ^ 2) with (1 + 2 * u + u * u) by ring.
  assert (u * u <= / 1000000 * u) by (apply Rmult_le_compat_r; lra). lra.
Qed.
Lemma close_near (p : vec FT 3) (a : R3) (A : rmat) (b : R3) : (forall i j, i <> i3 -> j <> i3 -> Rabs (A i j) <= 1 + / 1000) ->
  close3 p a (app_vec (absM A) (abs3 b)) (rel_err f 3) (3 * (1 + u) ^ 2 * eta) ->
  len3 (sub3 (f3 p) a) <= 91 / 10 * u * len3 b + 61 / 10 * eta.
Proof.
  intros HA (C0 & C1 & C2). assert (U := u_q (f := f)). assert (E := eta_pos (f := f)). assert (GL := gl). assert (CL := cl).
  assert (G0 : 0 <= rel_err f 3). { unfold rel_err. replace ((1 + u) ^ 3 - 1) with (3 * u + 3 * (u * u) + u * u * u) by ring. assert (0 <= u * u) by (apply Rmult_le_pos; lra). assert (0 <= u * u * u) by (apply Rmult_le_pos; lra). lra. }
  assert (SB : 0 <= size3 b) by (unfold size3; assert (X := Rabs_pos (cX b)); assert (Y := Rabs_pos (cY b)); assert (Z := Rabs_pos (cZ b)); lra).
  assert (R : forall i x, i <> i3 -> Rabs x <= rel_err f 3 * (absM A i i0 * Rabs (cX b) + absM A i i1 * Rabs (cY b) + absM A i i2 * Rabs (cZ b)) + 3 * (1 + u) ^ 2 * eta -> Rabs x <= 302 / 100 * u * size3 b + 301 / 100 * eta).
  { intros i x Ni Hx. eapply Rle_trans; [exact Hx|]. apply Rplus_le_compat; [|exact CL].
    assert (B : absM A i i0 * Rabs (cX b) + absM A i i1 * Rabs (cY b) + absM A i i2 * Rabs (cZ b) <= (1 + / 1000) * size3 b).
    { unfold size3. rewrite !Rmult_plus_distr_l. repeat apply Rplus_le_compat; apply Rmult_le_compat_r; try apply Rabs_pos; apply HA; [exact Ni|discriminate|exact Ni|discriminate|exact Ni|discriminate]. }
    eapply Rle_trans; [apply Rmult_le_compat_l; [exact G0|exact B]|]. rewrite <- Rmult_assoc. apply Rmult_le_compat_r; [exact SB|].
    eapply Rle_trans; [apply Rmult_le_compat_r; [lra|exact GL]|]. lra. }
  set (d := 301 / 100 * eta) in *. set (e := 302 / 100 * u) in *. assert (D0 : 0 <= d) by (unfold d; lra). assert (E0 : 0 <= e) by (unfold e; lra).
  assert (N : near3 (e * size3 b + d) (f3 p) a) by (split; [|split]; [apply (R i0)|apply (R i1)|apply (R i2)]; try discriminate; assumption).
  assert (ES : 0 <= e * size3 b) by (apply Rmult_le_pos; assumption).
  apply near_len3 in N; [|lra]. assert (LB := len3_nonneg b). apply Rle_trans with (3 * e * len3 b + 2 * d); [|unfold e, d; assert (0 <= u * len3 b) by (apply Rmult_le_pos; lra); lra].
  assert (EL : 0 <= e * len3 b) by (apply Rmult_le_pos; assumption).
  apply len_le; [lra|]. eapply Rle_trans; [exact N|].
  assert (SL := size_len b). rewrite <- len3_sq in SL.
  assert (S2 : size3 b <= 7 / 4 * len3 b). { apply Rsqr_incr_0_var; [unfold Rsqr; assert (0 <= len3 b * len3 b) by (apply Rmult_le_pos; assumption); lra|lra]. }
  assert (E1 : e * size3 b * (e * size3 b) <= 3 * (e * len3 b * (e * len3 b))).
  { replace (e * size3 b * (e * size3 b)) with (e * e * (size3 b * size3 b)) by ring. replace (3 * (e * len3 b * (e * len3 b))) with (e * e * (3 * (len3 b * len3 b))) by ring. apply Rmult_le_compat_l; [apply Rmult_le_pos; assumption|exact SL]. }
  assert (E2 : e * size3 b * d <= 7 / 4 * (e * len3 b) * d). { apply Rmult_le_compat_r; [exact D0|]. replace (7 / 4 * (e * len3 b)) with (e * (7 / 4 * len3 b)) by field. apply Rmult_le_compat_l; assumption. }
  assert (DD : 0 <= d * d) by (apply Rmult_le_pos; assumption). assert (ED : 0 <= e * len3 b * d) by (apply Rmult_le_pos; assumption).
  replace ((e * size3 b + d) * (e * size3 b + d)) with (e * size3 b * (e * size3 b) + 2 * (e * size3 b * d) + d * d) by ring.
  replace ((3 * e * len3 b + 2 * d) * (3 * e * len3 b + 2 * d)) with (9 * (e * len3 b * (e * len3 b)) + 12 * (e * len3 b * d) + 4 * (d * d)) by ring. lra.
Qed.
Lemma app_transp A x c : dot3 (app_vec (rtransp A) x) c = dot3 x (app_vec A c).
Proof. unfold app_vec, rtransp, dot3; cbn [cX cY cZ]. ring. Qed.
Lemma app_add A x y : app_vec A (add3 x y) = add3 (app_vec A x) (app_vec A y).
Proof. unfold app_vec, add3; cbn [cX cY cZ]. f_equal; ring. Qed.
Lemma len_by_dot x r : 0 <= r -> Rabs (dot3 x x) <= r * len3 x -> len3 x <= r.
Proof.
  intros R H. destruct (Req_dec (len3 x) 0) as [Z|Z]; [lra|]. assert (P : 0 < len3 x) by (assert (N := len3_nonneg x); lra).
  rewrite <- len3_sq, Rabs_pos_eq in H by (apply Rmult_le_pos; lra). apply Rmult_le_reg_r with (len3 x); lra.
Qed.
Lemma sub_add (x y : R3) : x = add3 y (sub3 x y). Proof. apply R3_eq; cbn; ring. Qed.
Lemma back_forth k ax a A b : dot3 ax ax = 1 -> 0 <= k <= 54 -> (forall b, near3 (k * u * size3 b) (app_vec A b) (turned ax a b)) ->
  len3 (sub3 (app_vec (rtransp A) (app_vec A b)) b) <= (6 * k + 1) * u * len3 b.
Proof.
  intros H1 K H. assert (U := u_q (f := f)). assert (LB := len3_nonneg b). set (x := sub3 (app_vec (rtransp A) (app_vec A b)) b).
  apply len_by_dot. { apply Rmult_le_pos; [apply Rmult_le_pos; lra|exact LB]. }
  replace (dot3 x x) with (dot3 (app_vec A b) (app_vec A x) - dot3 b x).
  { eapply Rle_trans; [apply (rigid k ax a A b x H1 K H)|]. lra. }
  rewrite <- app_transp. unfold x at 4. generalize (app_vec (rtransp A) (app_vec A b)). intros y. unfold dot3, sub3; cbn [cX cY cZ]. ring.
Qed.
Lemma app_len k ax a A b : dot3 ax ax = 1 -> 0 <= k <= 54 -> (forall b, near3 (k * u * size3 b) (app_vec A b) (turned ax a b)) -> len3 (app_vec A b) <= (1 + / 1000) * len3 b.
Proof.
  intros H1 K H. assert (U := u_q (f := f)). assert (LB := len3_nonneg b). assert (KU : 0 <= k * u) by (apply Rmult_le_pos; lra).
  assert (KU2 : k * u <= 54 * / 1000000) by (apply Rmult_le_compat; lra).
  assert (N := near_size (k * u) _ _ b KU (H b)). rewrite (sub_add (app_vec A b) (turned ax a b)). eapply Rle_trans; [apply len_tri|].
  replace (len3 (turned ax a b)) with (len3 b) by (unfold len3; rewrite turned_rodr, rodr_dot by exact H1; reflexivity).
  assert (3 * (k * u) * len3 b <= / 1000 * len3 b) by (apply Rmult_le_compat_r; lra). lra.
Qed.
Lemma transp_len k ax a A x : dot3 ax ax = 1 -> 0 <= k <= 54 -> (forall b, near3 (k * u * size3 b) (app_vec A b) (turned ax a b)) -> len3 (app_vec (rtransp A) x) <= (1 + / 1000) * len3 x.
Proof.
  intros H1 K H. assert (LX := len3_nonneg x). set (y := app_vec (rtransp A) x). apply len_by_dot; [lra|].
  unfold y at 1. rewrite app_transp. eapply Rle_trans; [apply dot_cs|]. assert (L := app_len k ax a A y H1 K H).
  replace ((1 + / 1000) * len3 x * len3 y) with (len3 x * ((1 + / 1000) * len3 y)) by ring. apply Rmult_le_compat_l; assumption.
Qed.
Lemma round_trip k (t : transform FT) ax a (b q w : vec FT 3) : dot3 ax ax = 1 -> 0 <= k <= 54 -> float_rotation k t ax a ->
  t_map_vector t b = Ret q -> fall finite q -> t_map_vector_inverse t q = Ret w -> fall finite w ->
  len3 (sub3 (f3 w) (f3 b)) <= (6 * k + 20) * u * len3 (f3 b) + 7 * smallest_float f.
Proof.
  intros H1 K (A & HM & HI & HL & H) MQ FQ MW FW. assert (U := u_q (f := f)). assert (E := eta_pos (f := f)).
  assert (HA := entry_bound k ax a A). assert (HA' : forall i j, i <> i3 -> j <> i3 -> Rabs (A i j) <= 1 + / 1000) by (intros; apply HA; assumption).
  assert (HT : forall i j, i <> i3 -> j <> i3 -> Rabs (rtransp A i j) <= 1 + / 1000) by (intros; apply HA'; assumption).
  assert (E1 := close_near _ _ _ _ HA' (vector_err t A b q HM (proj1 HL) MQ FQ)).
  assert (AT : affine (rtransp A)). { destruct HL as ((_ & _ & _ & L3) & L0 & L1 & L2). repeat split; assumption. }
  assert (E2 := close_near _ _ _ _ HT (vector_err (t_inverse t) (rtransp A) q w HI AT MW FW)).
  set (e1 := sub3 (f3 q) (app_vec A (f3 b))) in *. set (e2 := sub3 (f3 w) (app_vec (rtransp A) (f3 q))) in *.
  assert (LQ : len3 (f3 q) <= (1 + / 500) * len3 (f3 b) + 61 / 10 * eta).
  { rewrite (sub_add (f3 q) (app_vec A (f3 b))). eapply Rle_trans; [apply len_tri|]. fold e1. assert (L := app_len k ax a A (f3 b) H1 K H). assert (LB := len3_nonneg (f3 b)).
    assert (u * len3 (f3 b) <= / 1000000 * len3 (f3 b)) by (apply Rmult_le_compat_r; lra). lra. }
  assert (BF := back_forth k ax a A (f3 b) H1 K H). assert (TL := transp_len k ax a A e1 H1 K H). assert (LB := len3_nonneg (f3 b)). assert (LQ0 := len3_nonneg (f3 q)).
  replace (sub3 (f3 w) (f3 b)) with (add3 (add3 (sub3 (app_vec (rtransp A) (app_vec A (f3 b))) (f3 b)) (app_vec (rtransp A) e1)) e2).
  2:{ unfold e2. rewrite (sub_add (f3 q) (app_vec A (f3 b))). rewrite app_add. fold e1. apply R3_eq; cbn; ring. }
  eapply Rle_trans; [apply len_tri|]. eapply Rle_trans; [apply Rplus_le_compat_r, len_tri|].
  assert (UQ : u * len3 (f3 q) <= (1 + / 500) * (u * len3 (f3 b)) + / 1000 * eta).
  { apply Rle_trans with (u * ((1 + / 500) * len3 (f3 b) + 61 / 10 * eta)); [apply Rmult_le_compat_l; lra|]. assert (u * eta <= / 1000000 * eta) by (apply Rmult_le_compat_r; lra). lra. }
  assert (UB : 0 <= u * len3 (f3 b)) by (apply Rmult_le_pos; lra).
  replace (smallest_float f) with (2 * eta) by field. 
  replace ((6 * k + 1) * u * len3 (f3 b)) with ((6 * k + 1) * (u * len3 (f3 b))) in BF by ring. replace ((6 * k + 20) * u * len3 (f3 b)) with ((6 * k + 1) * (u * len3 (f3 b)) + 19 * (u * len3 (f3 b))) by ring. lra.
Qed.

(** no overflow for vectors of moderate length *)
Lemma row_fin (x y z a b c : FT) M : finite x -> finite y -> finite z -> finite a -> finite b -> finite c -> 1 <= M -> 64 * M <= bpow radix2 120 ->
  Rabs (B2R x) <= M -> Rabs (B2R y) <= M -> Rabs (B2R z) <= M -> Rabs (B2R a) <= 2 -> Rabs (B2R b) <= 2 -> Rabs (B2R c) <= 2 ->
  finite (fadd (fadd (fmul x a) (fmul y b)) (fmul z c)).
Proof.
  intros Fx Fy Fz Fa Fb Fc M1 MB Hx Hy Hz Ha Hb Hc. assert (U := u_q (f := f)). assert (ET := eta_tiny2 (f := f)).
  assert (P : forall p q : FT, finite p -> finite q -> Rabs (B2R p) <= M -> Rabs (B2R q) <= 2 -> finite (fmul p q) /\ Rabs (B2R (fmul p q)) <= 3 * M).
  { intros p q Fp Fq Hp Hq. assert (K : Rabs (B2R p * B2R q) <= M * 2) by (rewrite Rabs_mult; apply Rmult_le_compat; try apply Rabs_pos; assumption).
    destruct (big_fin _ _ (fmul_Rnd p q Fp Fq)) as [F E]; [lra|]. split; [exact F|].
    assert (u * Rabs (B2R p * B2R q) <= / 1000000 * (M * 2)) by (apply Rmult_le_compat; try lra; apply Rabs_pos).
    replace (B2R (fmul p q)) with ((B2R (fmul p q) - B2R p * B2R q) + B2R p * B2R q) by ring. eapply Rle_trans; [apply Rabs_triang|]. lra. }
  destruct (P x a) as [F1 E1]; try assumption. destruct (P y b) as [F2 E2]; try assumption. destruct (P z c) as [F3 E3]; try assumption.
  assert (K : Rabs (B2R (fmul x a) + B2R (fmul y b)) <= 6 * M) by (eapply Rle_trans; [apply Rabs_triang|]; lra).
  destruct (big_fin _ _ (fadd_Rnd _ _ F1 F2)) as [F4 E4]; [lra|].
  assert (K2 : Rabs (B2R (fadd (fmul x a) (fmul y b))) <= 7 * M).
  { assert (u * Rabs (B2R (fmul x a) + B2R (fmul y b)) <= / 1000000 * (6 * M)) by (apply Rmult_le_compat; try lra; apply Rabs_pos).
    replace (B2R (fadd (fmul x a) (fmul y b))) with ((B2R (fadd (fmul x a) (fmul y b)) - (B2R (fmul x a) + B2R (fmul y b))) + (B2R (fmul x a) + B2R (fmul y b))) by ring. eapply Rle_trans; [apply Rabs_triang|]. lra. }
  apply (big_fin _ _ (fadd_Rnd _ _ F4 F3)). eapply Rle_trans; [apply Rabs_triang|]. lra.
Qed.
Lemma comp_len (b : R3) : Rabs (cX b) <= len3 b /\ Rabs (cY b) <= len3 b /\ Rabs (cZ b) <= len3 b.
Proof.
  assert (L := len3_nonneg b). assert (S := len3_sq b). unfold dot3 in S.
  repeat split; apply Rsqr_incr_0_var; try exact L; rewrite <- Rsqr_abs; unfold Rsqr; nra.
Qed.
Lemma map_fin (t : transform FT) A (v : vec FT 3) M : fM (t_matrix t) A -> affine A -> (forall i j, i <> i3 -> j <> i3 -> Rabs (A i j) <= 1 + / 1000) -> fall finite v ->
  1 <= M -> len3 (f3 v) <= M -> 64 * M <= bpow radix2 120 -> exists q, t_map_vector t v = Ret q /\ fall finite q.
Proof.
  intros HM HA HB Fv M1 L MB. destruct (map_vector_no_panic t A v HM HA Fv) as (q & Q & _). exists q. split; [exact Q|].
  unfold t_map_vector, map_vector, oassert in Q. destruct (seqb _ _); [|discriminate]. injection Q as <-.
  destruct (comp_len (f3 v)) as (B0 & B1 & B2).
  assert (R : forall i, i <> i3 -> finite (fadd (fadd (fmul (vx v) (mget (tm t) i i0)) (fmul (vy v) (mget (tm t) i i1))) (fmul (vz v) (mget (tm t) i i2)))).
  { intros i Ni. apply (row_fin _ _ _ _ _ _ M); try assumption; try (apply HM); try apply Fv; try (eapply Rle_trans; [|exact L]; first [exact B0|exact B1|exact B2]).
    all: match goal with |- Rabs (B2R (mget _ _ ?j)) <= 2 => replace (B2R (mget (tm t) i j)) with (A i j) by (symmetry; apply HM); assert (KK := HB i j Ni ltac:(discriminate)); lra end. }
  intros i. revert i. apply (fin3_case (fun i => finite (Vector.nth _ i))); [exact (R i0 ltac:(discriminate))|exact (R i1 ltac:(discriminate))|exact (R i2 ltac:(discriminate))].
Qed.
Lemma there_back k (t : transform FT) ax a (b : vec FT 3) : dot3 ax ax = 1 -> 0 <= k <= 54 -> float_rotation k t ax a ->
  fall finite b -> len3 (f3 b) <= bpow radix2 100 ->
  exists q w, t_map_vector t b = Ret q /\ fall finite q /\ t_map_vector_inverse t q = Ret w /\ fall finite w /\
  len3 (sub3 (f3 q) (turned ax a (f3 b))) <= (3 * k + 10) * u * len3 (f3 b) + 4 * smallest_float f /\
  len3 (sub3 (f3 w) (f3 b)) <= (6 * k + 20) * u * len3 (f3 b) + 7 * smallest_float f.
Proof.
  intros H1 K FR Fb LB. assert (FR' := FR). destruct FR' as (A & HM & HI & HL & H). assert (U := u_q (f := f)). assert (ET := eta_tiny2 (f := f)). assert (E := eta_pos (f := f)).
  assert (HA : forall i j, i <> i3 -> j <> i3 -> Rabs (A i j) <= 1 + / 1000) by (intros; apply (entry_bound k ax a A); assumption).
  assert (HT : forall i j, i <> i3 -> j <> i3 -> Rabs (rtransp A i j) <= 1 + / 1000) by (intros; apply HA; assumption).
  assert (AT : affine (rtransp A)). { destruct HL as ((_ & _ & _ & L3) & L0 & L1 & L2). repeat split; assumption. }
  assert (B100 : 1 <= bpow radix2 100) by (change 1 with (bpow radix2 0); apply bpow_le; discriminate).
  assert (B120 : 1048576 * bpow radix2 100 = bpow radix2 120) by (change 1048576 with (bpow radix2 20); rewrite <- bpow_plus; reflexivity).
  destruct (map_fin t A b (bpow radix2 100) HM (proj1 HL) HA Fb B100 LB) as (q & Q & FQ); [lra|].
  assert (E1 := close_near _ _ _ _ HA (vector_err t A b q HM (proj1 HL) Q FQ)). assert (AL := app_len k ax a A (f3 b) H1 K H). assert (L0 := len3_nonneg (f3 b)).
  assert (UL : u * len3 (f3 b) <= / 1000000 * len3 (f3 b)) by (apply Rmult_le_compat_r; lra).
  assert (LQ : len3 (f3 q) <= 2 * bpow radix2 100).
  { rewrite (sub_add (f3 q) (app_vec A (f3 b))). eapply Rle_trans; [apply len_tri|]. lra. }
  destruct (map_fin (t_inverse t) (rtransp A) q (2 * bpow radix2 100) HI AT HT FQ) as (w & W & FW); [lra|exact LQ|lra|].
  exists q, w. split; [exact Q|]. split; [exact FQ|]. split; [exact W|]. split; [exact FW|]. split; [|exact (round_trip k t ax a b q w H1 K FR Q FQ W FW)].
  replace (sub3 (f3 q) (turned ax a (f3 b))) with (add3 (sub3 (f3 q) (app_vec A (f3 b))) (sub3 (app_vec A (f3 b)) (turned ax a (f3 b)))) by (apply R3_eq; cbn; ring).
  eapply Rle_trans; [apply len_tri|]. assert (KU : 0 <= k * u) by (apply Rmult_le_pos; lra). assert (N := near_size (k * u) _ _ (f3 b) KU (H (f3 b))).
  assert (0 <= u * len3 (f3 b)) by (apply Rmult_le_pos; lra).
  replace (3 * (k * u) * len3 (f3 b)) with (3 * k * (u * len3 (f3 b))) in N by ring. replace ((3 * k + 10) * u * len3 (f3 b)) with (3 * k * (u * len3 (f3 b)) + 10 * (u * len3 (f3 b))) by ring. lra.
Qed.
Lemma rigid_t k (t : transform FT) ax a A b c : dot3 ax ax = 1 -> 0 <= k <= 54 -> float_rotation k t ax a -> fM (t_matrix t) A ->
  Rabs (dot3 (app_vec A b) (app_vec A c) - dot3 b c) <= (6 * k + 1) * u * (len3 b * len3 c).
Proof.
  intros H1 K (A' & HM & _ & _ & H) HA. assert (E : forall x, app_vec A x = app_vec A' x).
  { intros x. assert (M : forall i j, A i j = A' i j) by (intros i j; rewrite <- (proj2 (HM i j)); symmetry; apply HA). unfold app_vec. rewrite !M. reflexivity. }
  rewrite !E. exact (rigid k ax a A' b c H1 K H).
Qed.
End R.
