(** Transforms over floats and intervals (C36, C40, C41). *)
From Coq Require Import ZArith Reals Bool Lia Lra.
From Coq Require Vector Fin.
From Flocq Require Import Core BinarySingleNaN.
From Verif.Model Require Import FloatBase Scalar Float Interval Outcome Vec Transform XReal.
From Verif Require Import Spec SpecGeom.
From Verif.Proofs Require Import BitsLemmas FloatLemmas ScalarProofs IntervalBase IntervalProofs IntervalProofs2 XRealLemmas.
Import Vector.VectorNotations.
Open Scope R_scope.

Section F.
Context {f : fmt} {m : libm f}.
Notation FT := (float f).
Notation IT := (interval (float f)).

Definition val (x : FT) (r : R) := finite x /\ B2R x = r.
Lemma val_Rnd (x z : FT) r : finite x -> B2R x = r -> Rnd z r -> val z r.
Proof.
  intros Fx <- [N He]. rewrite <- E_B2R in * by assumption. rewrite rnd_E, clampE_E in He.
  assert (Fz : finite z). { apply finite_of_range; auto. rewrite He. now apply finite_E_range. }
  split; auto. now rewrite <- E_B2R.
Qed.
Lemma val_one : val (sone : FT) 1. Proof. exact one_B2R. Qed.
Lemma val_zero s : val (fzero s : FT) 0. Proof. split; reflexivity. Qed.
Lemma val_mul_one (x y : FT) r : val x r -> val y 1 -> val (fmul x y) r.
Proof.
  intros [Fx Hx] [Fy Hy]. apply (val_Rnd x); auto. pose proof (fmul_Rnd x y Fx Fy) as H.
  now rewrite Hx, Hy, Rmult_1_r in H.
Qed.
Lemma val_mul_zero (x y : FT) : finite x -> val y 0 -> val (fmul x y) 0.
Proof.
  intros Fx [Fy Hy]. apply (val_Rnd (fzero false)); [reflexivity|reflexivity|]. pose proof (fmul_Rnd x y Fx Fy) as H.
  now rewrite Hy, Rmult_0_r in H.
Qed.
Lemma val_add_zero (x y : FT) r : val x r -> val y 0 -> val (fadd x y) r.
Proof.
  intros [Fx Hx] [Fy Hy]. apply (val_Rnd x); auto. pose proof (fadd_Rnd x y Fx Fy) as H.
  now rewrite Hx, Hy, Rplus_0_r in H.
Qed.
Lemma val_zero_add (x y : FT) r : val x 0 -> val y r -> val (fadd x y) r.
Proof.
  intros [Fx Hx] [Fy Hy]. apply (val_Rnd y); auto. pose proof (fadd_Rnd x y Fx Fy) as H.
  now rewrite Hx, Hy, Rplus_0_l in H.
Qed.
Lemma val_feq (x y : FT) r : val x r -> val y r -> feq x y.
Proof. intros [Fx Hx] [Fy Hy]. apply feq_E. rewrite !E_B2R by assumption. repeat split; try (apply nonnan_of_finite; assumption). congruence. Qed.
Lemma Rnd_feq (x y : FT) r : Rnd x r -> Rnd y r -> feq x y.
Proof. intros [N H] [N' H']. apply feq_E. repeat split; auto. congruence. Qed.

(** dividing by one changes nothing *)
Lemma div_one (z y : FT) r : Rnd z r -> val y 1 -> Rnd (fdiv z y) r.
Proof.
  intros [N H] [Fy Hy]. destruct (BinarySingleNaN.is_finite z) eqn:Fz.
  - assert (V : val (fdiv z y) (B2R z)).
    { apply (val_Rnd z); auto. replace (B2R z) with (B2R z / B2R y) by (rewrite Hy; field). apply fdiv_Rnd; auto. rewrite Hy; lra. }
    destruct V as [F V]. split; [now apply nonnan_of_finite|]. rewrite <- H. now rewrite !E_B2R by assumption.
  - destruct z as [|s| |]; try easy. 
    change (fdiv (B754_infinity s) y) with (fdiv (finf s) y). rewrite fdiv_inf_fin; auto.
    2: { rewrite E_B2R by assumption. lra. }
    replace (Bsign y) with false. 2: { symmetry. apply (finite_sign y Fy). lra. }
    rewrite xorb_false_r. split; auto.
Qed.

(** sums of three terms where two are zero *)
Ltac vals := first
  [ solve [apply val_zero | apply val_one | assumption | split; [assumption|reflexivity]]
  | solve [apply val_mul_zero; [assumption | first [assumption | apply val_zero]]]
  | solve [apply val_mul_one; [vals | first [assumption | apply val_one]]]
  | solve [apply val_add_zero; [vals | vals]]
  | solve [apply val_zero_add; [vals | vals]] ].

Lemma eqb_val (x y : FT) r s : val x r -> val y s -> feqb x y = Req_bool r s.
Proof.
  intros [Fx Hx] [Fy Hy]. rewrite eq_b by (apply nonnan_of_finite; assumption).
  rewrite !E_B2R by assumption. congruence.
Qed.

Lemma sum3_zero (x y z a b c : FT) : finite x -> finite y -> finite z -> val a 0 -> val b 0 -> val c 0 ->
  val (fadd (fadd (fmul x a) (fmul y b)) (fmul z c)) 0.
Proof. intros. vals. Qed.
Lemma sum3_x (x y z a b c : FT) : finite y -> finite z -> finite x -> finite (fmul x a) -> val b 0 -> val c 0 ->
  val (fadd (fadd (fmul x a) (fmul y b)) (fmul z c)) (B2R (fmul x a)).
Proof. intros. apply val_add_zero; [apply val_add_zero|]; try now apply val_mul_zero. split; auto. Qed.
Lemma sum3_y (x y z a b c : FT) : finite x -> finite z -> finite y -> finite (fmul y b) -> val a 0 -> val c 0 ->
  val (fadd (fadd (fmul x a) (fmul y b)) (fmul z c)) (B2R (fmul y b)).
Proof. intros. apply val_add_zero; [apply val_zero_add|]; try now apply val_mul_zero. split; auto. Qed.
Lemma sum3_z (x y z a b c : FT) : finite x -> finite y -> finite z -> finite (fmul z c) -> val a 0 -> val b 0 ->
  val (fadd (fadd (fmul x a) (fmul y b)) (fmul z c)) (B2R (fmul z c)).
Proof. intros. apply val_zero_add; [apply val_add_zero|]; try now apply val_mul_zero. split; auto. Qed.

(** adding something zero-valued on the right of anything non-NaN *)
Lemma Rnd_add_zero (x y : FT) r : Rnd x r -> val y 0 -> Rnd (fadd x y) r.
Proof.
  intros [N H] [Fy Hy]. destruct (BinarySingleNaN.is_finite x) eqn:Fx.
  - destruct (val_add_zero x y (B2R x)) as [F V]; [split; auto|split; auto|].
    split; [now apply nonnan_of_finite|]. rewrite <- H. now rewrite !E_B2R by assumption.
  - destruct x as [|s| |]; try easy. destruct y as [t|t| |t]; try easy; split; auto.
Qed.
Lemma Rnd_zero_add (x y : FT) r : val x 0 -> Rnd y r -> Rnd (fadd x y) r.
Proof.
  intros [Fy Hy] [N H]. destruct (BinarySingleNaN.is_finite y) eqn:Fx.
  - destruct (val_zero_add x y (B2R y)) as [F V]; [split; auto|split; auto|].
    split; [now apply nonnan_of_finite|]. rewrite <- H. now rewrite !E_B2R by assumption.
  - destruct y as [|s| |]; try easy. destruct x as [t|t| |t]; try easy; split; auto.
Qed.

Lemma fall3 (P : FT -> Prop) (v : vec FT 3) : fall P v -> P (vx v) /\ P (vy v) /\ P (vz v).
Proof. intros H. repeat split; apply H. Qed.
Lemma feqv3 (v w : vec FT 3) : feq (vx v) (vx w) -> feq (vy v) (vy w) -> feq (vz v) (vz w) -> feqv v w.
Proof. intros H1 H2 H3 i. apply (Fin.caseS' i); [exact H1|]. intros j. apply (Fin.caseS' j); [exact H2|].
  intros k. apply (Fin.caseS' k); [exact H3|]. intros l. inversion l. Qed.

(** literal matrices *)
Definition lt3 (a b c d e g h k l p q r : FT) : matrix FT :=
  [[a; b; c; d]; [e; g; h; k]; [l; p; q; r]; [szero; szero; szero; sone]].

Lemma map_point_lit (p : vec FT 3) (a b c d e g h k l u q r : FT) : fall finite p ->
  map_point (T := FT) (lt3 a b c d e g h k l u q r) p =
  let w := (fadd (fadd (fadd (fmul (vx p) szero) (fmul (vy p) szero)) (fmul (vz p) szero)) sone) in
  Ret (vec3 (fdiv (fadd (fadd (fadd (fmul (vx p) a) (fmul (vy p) b)) (fmul (vz p) c)) d) w)
            (fdiv (fadd (fadd (fadd (fmul (vx p) e) (fmul (vy p) g)) (fmul (vz p) h)) k) w)
            (fdiv (fadd (fadd (fadd (fmul (vx p) l) (fmul (vy p) u)) (fmul (vz p) q)) r) w)).
Proof.
  intros F. apply fall3 in F. destruct F as (F1 & F2 & F3). unfold map_point, oassert. cbv zeta.
  replace (sne _ _) with true; [reflexivity|]. symmetry.
  change (negb (feqb (fadd (fadd (fadd (fmul (vx p) (fzero false)) (fmul (vy p) (fzero false))) (fmul (vz p) (fzero false))) (sone : FT)) (fzero false)) = true).
  rewrite (eqb_val _ _ 1 0). { rewrite Req_bool_false by lra. reflexivity. }
  - vals.
  - vals.
Qed.
Lemma w_one (p : vec FT 3) : fall finite p ->
  val (fadd (fadd (fadd (fmul (vx p) szero) (fmul (vy p) szero)) (fmul (vz p) szero)) (sone : FT)) 1.
Proof. intros F. apply fall3 in F. destruct F as (F1 & F2 & F3). vals. Qed.
Lemma map_vector_lit (p : vec FT 3) (a b c d e g h k l u q r : FT) : fall finite p ->
  map_vector (T := FT) (lt3 a b c d e g h k l u q r) p =
  Ret (vec3 (fadd (fadd (fmul (vx p) a) (fmul (vy p) b)) (fmul (vz p) c))
            (fadd (fadd (fmul (vx p) e) (fmul (vy p) g)) (fmul (vz p) h))
            (fadd (fadd (fmul (vx p) l) (fmul (vy p) u)) (fmul (vz p) q))).
Proof.
  intros F. apply fall3 in F. destruct F as (F1 & F2 & F3). unfold map_vector, oassert. cbv zeta.
  replace (seqb _ _) with true; [reflexivity|]. symmetry.
  change ((feqb (fadd (fadd (fmul (vx p) (fzero false)) (fmul (vy p) (fzero false))) (fmul (vz p) (fzero false))) (fzero false : FT)) = true).
  rewrite (eqb_val _ _ 0 0). { now apply Req_bool_true. }
  - vals.
  - vals.
Qed.
Lemma v3_add (p v : vec FT 3) : v_add p v = vec3 (fadd (vx p) (vx v)) (fadd (vy p) (vy v)) (fadd (vz p) (vz v)).
Proof. rewrite (vec3_eta p), (vec3_eta v). reflexivity. Qed.
Lemma v3_sub (p v : vec FT 3) : v_sub p v = vec3 (fsub (vx p) (vx v)) (fsub (vy p) (vy v)) (fsub (vz p) (vz v)).
Proof. rewrite (vec3_eta p), (vec3_eta v). reflexivity. Qed.
Lemma v3_mul (p v : vec FT 3) : v_mul p v = vec3 (fmul (vx p) (vx v)) (fmul (vy p) (vy v)) (fmul (vz p) (vz v)).
Proof. rewrite (vec3_eta p), (vec3_eta v). reflexivity. Qed.

Lemma add_val_Rnd (X x v : FT) : val X (B2R x) -> finite x -> finite v -> Rnd (fadd X v) (B2R x + B2R v).
Proof. intros [F H] Fx Fv. rewrite <- H. now apply fadd_Rnd. Qed.

Ltac fin3 := repeat match goal with H : fall _ ?p |- _ => apply fall3 in H; destruct H as (? & ? & ?) end.
Lemma translate_point (v p : vec FT 3) : fall finite v -> fall finite p ->
  returns (t_map_point (translate v) p) (fun q => feqv q (v_add p v)).
Proof.
  intros Fv Fp. eexists. split. { unfold t_map_point, translate, t_new, tm. apply map_point_lit. assumption. }
  pose proof (w_one p Fp) as W. cbv zeta. rewrite v3_add. fin3. apply feqv3.
  - apply (Rnd_feq _ _ (B2R (vx p) + B2R (vx v))); [|now apply fadd_Rnd]. apply div_one; [|assumption]. apply add_val_Rnd; auto. vals.
  - apply (Rnd_feq _ _ (B2R (vy p) + B2R (vy v))); [|now apply fadd_Rnd]. apply div_one; [|assumption]. apply add_val_Rnd; auto. vals.
  - apply (Rnd_feq _ _ (B2R (vz p) + B2R (vz v))); [|now apply fadd_Rnd]. apply div_one; [|assumption]. apply add_val_Rnd; auto. vals.
Qed.
Lemma add_neg_Rnd (X x v : FT) : val X (B2R x) -> finite x -> finite v -> Rnd (fadd X (fneg v)) (B2R x - B2R v).
Proof. intros [F H] Fx Fv. rewrite <- H. unfold Rminus. rewrite <- fneg_B2R. apply fadd_Rnd; auto. now apply fneg_finite. Qed.
Lemma translate_point_inv (v p : vec FT 3) : fall finite v -> fall finite p ->
  returns (t_map_point_inverse (translate v) p) (fun q => feqv q (v_sub p v)).
Proof.
  intros Fv Fp. eexists. split. { unfold t_map_point_inverse, translate, t_new, tminv. apply map_point_lit. assumption. }
  pose proof (w_one p Fp) as W. cbv zeta. rewrite v3_sub. fin3. apply feqv3.
  - apply (Rnd_feq _ _ (B2R (vx p) - B2R (vx v))); [|now apply fsub_fadd]. apply div_one; [|assumption]. apply add_neg_Rnd; auto. vals.
  - apply (Rnd_feq _ _ (B2R (vy p) - B2R (vy v))); [|now apply fsub_fadd]. apply div_one; [|assumption]. apply add_neg_Rnd; auto. vals.
  - apply (Rnd_feq _ _ (B2R (vz p) - B2R (vz v))); [|now apply fsub_fadd]. apply div_one; [|assumption]. apply add_neg_Rnd; auto. vals.
Qed.
Lemma translate_vector (v p : vec FT 3) : fall finite p ->
  returns (t_map_vector (translate v) p) (fun q => feqv q p) /\
  returns (t_map_vector_inverse (translate v) p) (fun q => feqv q p).
Proof.
  intros Fp. split; (eexists; split; [unfold t_map_vector, t_map_vector_inverse, translate, t_new, tm, tminv; apply map_vector_lit; assumption|]);
  fin3; (apply feqv3; [apply (val_feq _ _ (B2R (vx p)))|apply (val_feq _ _ (B2R (vy p)))|apply (val_feq _ _ (B2R (vz p)))]);
  try (split; [assumption|reflexivity]); unfold vx, vy, vz, vget; cbn [Vector.nth vec3]; vals.
Qed.
Lemma Rnd_mul (x y : FT) : finite x -> finite y -> Rnd (fmul x y) (B2R x * B2R y). Proof. apply fmul_Rnd. Qed.

(** a term x*s (possibly overflowing) plus zeros, divided by one *)
Lemma sc_x (x y z s : FT) : finite x -> finite y -> finite z -> finite s ->
  Rnd (fadd (fadd (fmul x s) (fmul y szero)) (fmul z szero)) (B2R x * B2R s).
Proof. intros. apply Rnd_add_zero; [apply Rnd_add_zero|]; [now apply fmul_Rnd| |]; (apply val_mul_zero; [assumption|apply val_zero]). Qed.
Lemma sc_y (x y z s : FT) : finite x -> finite y -> finite z -> finite s ->
  Rnd (fadd (fadd (fmul x szero) (fmul y s)) (fmul z szero)) (B2R y * B2R s).
Proof. intros. apply Rnd_add_zero; [apply Rnd_zero_add|]; [|now apply fmul_Rnd|]; (apply val_mul_zero; [assumption|apply val_zero]). Qed.
Lemma sc_z (x y z s : FT) : finite x -> finite y -> finite z -> finite s ->
  Rnd (fadd (fadd (fmul x szero) (fmul y szero)) (fmul z s)) (B2R z * B2R s).
Proof. intros. apply Rnd_zero_add; [apply val_add_zero|now apply fmul_Rnd]; (apply val_mul_zero; [assumption|apply val_zero]). Qed.

Definition diag (s : vec FT 3) : matrix FT := lt3 (vx s) szero szero szero szero (vy s) szero szero szero szero (vz s) szero.
Lemma diag_point (s p : vec FT 3) : fall finite s -> fall finite p ->
  returns (map_point (T := FT) (diag s) p) (fun q => feqv q (v_mul p s)).
Proof.
  intros Fv Fp. eexists. split. { apply map_point_lit. assumption. }
  pose proof (w_one p Fp) as W. cbv zeta. rewrite v3_mul. fin3. apply feqv3.
  - apply (Rnd_feq _ _ (B2R (vx p) * B2R (vx s))); [|now apply fmul_Rnd]. apply div_one; [|assumption]. apply Rnd_add_zero; [|apply val_zero]. now apply sc_x.
  - apply (Rnd_feq _ _ (B2R (vy p) * B2R (vy s))); [|now apply fmul_Rnd]. apply div_one; [|assumption]. apply Rnd_add_zero; [|apply val_zero]. now apply sc_y.
  - apply (Rnd_feq _ _ (B2R (vz p) * B2R (vz s))); [|now apply fmul_Rnd]. apply div_one; [|assumption]. apply Rnd_add_zero; [|apply val_zero]. now apply sc_z.
Qed.
Lemma diag_vector (s p : vec FT 3) : fall finite s -> fall finite p ->
  returns (map_vector (T := FT) (diag s) p) (fun q => feqv q (v_mul p s)).
Proof.
  intros Fv Fp. eexists. split. { apply map_vector_lit. assumption. }
  rewrite v3_mul. fin3. apply feqv3.
  - apply (Rnd_feq _ _ (B2R (vx p) * B2R (vx s))); [|now apply fmul_Rnd]. now apply sc_x.
  - apply (Rnd_feq _ _ (B2R (vy p) * B2R (vy s))); [|now apply fmul_Rnd]. now apply sc_y.
  - apply (Rnd_feq _ _ (B2R (vz p) * B2R (vz s))); [|now apply fmul_Rnd]. now apply sc_z.
Qed.
Lemma scale_map (s p : vec FT 3) : fall finite s -> fall finite p ->
  returns (t_map_point (scale s) p) (fun q => feqv q (v_mul p s)) /\
  returns (t_map_vector (scale s) p) (fun q => feqv q (v_mul p s)).
Proof. split; [apply diag_point|apply diag_vector]; assumption. Qed.
Definition frecip3 (s : vec FT 3) : vec FT 3 := vec3 (fdiv sone (vx s)) (fdiv sone (vy s)) (fdiv sone (vz s)).
Lemma scale_map_inv (s r p : vec FT 3) : fall finite r -> fall finite p ->
  r = v_div (vec3 sone sone sone) s ->
  returns (t_map_point_inverse (scale s) p) (fun q => feqv q (v_mul p r)) /\
  returns (t_map_vector_inverse (scale s) p) (fun q => feqv q (v_mul p r)).
Proof.
  intros Fr Fp ->. 
  assert (H : tminv (scale s) = diag (v_div (vec3 sone sone sone) s)) by (rewrite (vec3_eta s); reflexivity).
  unfold t_map_point_inverse, t_map_vector_inverse. rewrite H. split; [apply diag_point|apply diag_vector]; assumption.
Qed.
Lemma identity_map (p : vec FT 3) : fall finite p ->
  returns (t_map_point t_identity p) (fun q => feqv q p) /\
  returns (t_map_vector t_identity p) (fun q => feqv q p).
Proof.
  intros Fp. split; (eexists; split; [unfold t_map_point, t_map_vector, t_identity, tm; (apply map_vector_lit || apply map_point_lit); assumption|]).
  - pose proof (w_one p Fp) as W. cbv zeta. fin3. apply feqv3; unfold vx at 1, vy at 1, vz at 1, vget; cbn [Vector.nth vec3].
    + apply (Rnd_feq _ _ (E (vx p))); [|now apply Rnd_E, nonnan_of_finite]. apply div_one; [|assumption]. rewrite E_B2R by assumption.
      match goal with |- Rnd ?z _ => assert (V : val z (B2R (vx p))) by vals end. destruct V as [F <-]. rewrite <- E_B2R by assumption. now apply Rnd_E, nonnan_of_finite.
    + apply (Rnd_feq _ _ (E (vy p))); [|now apply Rnd_E, nonnan_of_finite]. apply div_one; [|assumption]. rewrite E_B2R by assumption.
      match goal with |- Rnd ?z _ => assert (V : val z (B2R (vy p))) by vals end. destruct V as [F <-]. rewrite <- E_B2R by assumption. now apply Rnd_E, nonnan_of_finite.
    + apply (Rnd_feq _ _ (E (vz p))); [|now apply Rnd_E, nonnan_of_finite]. apply div_one; [|assumption]. rewrite E_B2R by assumption.
      match goal with |- Rnd ?z _ => assert (V : val z (B2R (vz p))) by vals end. destruct V as [F <-]. rewrite <- E_B2R by assumption. now apply Rnd_E, nonnan_of_finite.
  - fin3; (apply feqv3; [apply (val_feq _ _ (B2R (vx p)))|apply (val_feq _ _ (B2R (vy p)))|apply (val_feq _ _ (B2R (vz p)))]);
    try (split; [assumption|reflexivity]); unfold vx, vy, vz, vget; cbn [Vector.nth vec3]; vals.
Qed.

(** C40 in floats *)
Lemma fM_get (d : matrix FT) A i j : fM d A -> val (mget d i j) (A i j).
Proof. intros H. apply H. Qed.
Lemma map_vector_no_panic (t : transform FT) A (v : vec FT 3) :
  fM (t_matrix t) A -> affine A -> fall finite v -> returns (t_map_vector t v) (fun _ => True).
Proof.
  intros HM (A0 & A1 & A2 & _) Fv. fin3. unfold t_map_vector, map_vector, oassert.
  replace (seqb _ _) with true; [eexists; split; reflexivity|]. symmetry.
  change (feqb (fadd (fadd (fmul (vx v) (mget (tm t) i3 i0)) (fmul (vy v) (mget (tm t) i3 i1))) (fmul (vz v) (mget (tm t) i3 i2))) (fzero false : FT) = true).
  rewrite (eqb_val _ _ 0 0). { now apply Req_bool_true. }
  - apply sum3_zero; auto; [rewrite <- A0|rewrite <- A1|rewrite <- A2]; now apply fM_get.
  - vals.
Qed.
Lemma map_point_no_panic (t : transform FT) A (v : vec FT 3) :
  fM (t_matrix t) A -> affine A -> fall finite v -> returns (t_map_point t v) (fun _ => True).
Proof.
  intros HM (A0 & A1 & A2 & A3) Fv. fin3. unfold t_map_point, map_point, oassert. cbv zeta.
  replace (sne _ _) with true; [eexists; split; reflexivity|]. symmetry.
  change (negb (feqb (fadd (fadd (fadd (fmul (vx v) (mget (tm t) i3 i0)) (fmul (vy v) (mget (tm t) i3 i1))) (fmul (vz v) (mget (tm t) i3 i2))) (mget (tm t) i3 i3)) (fzero false : FT)) = true).
  rewrite (eqb_val _ _ 1 0). { rewrite Req_bool_false by lra. reflexivity. }
  - apply val_zero_add; [|rewrite <- A3; now apply fM_get].
    apply sum3_zero; auto; [rewrite <- A0|rewrite <- A1|rewrite <- A2]; now apply fM_get.
  - vals.
Qed.
Lemma persp_vector_panics (fov near far : FT) (v : vec FT 3) : fall finite v ->
  (t_map_vector (perspective fov near far) v = Panic <-> B2R (vz v) <> 0).
Proof.
  intros Fv. fin3. unfold t_map_vector, map_vector, oassert.
  assert (H2 : seqb (fadd (fadd (fmul (vx v) (mget (tm (perspective fov near far)) i3 i0)) (fmul (vy v) (mget (tm (perspective fov near far)) i3 i1))) (fmul (vz v) (mget (tm (perspective fov near far)) i3 i2))) (szero : FT) = Req_bool (B2R (vz v)) 0).
  { change (feqb (fadd (fadd (fmul (vx v) (fzero false)) (fmul (vy v) (fzero false))) (fmul (vz v) (sone : FT))) (fzero false : FT) = Req_bool (B2R (vz v)) 0).
    apply eqb_val; vals. }
  cbn [xmul mixed_same]. change (@smul FT _) with (@fmul f). change (@sadd FT _) with (@fadd f). rewrite H2.
  case Req_bool_spec; intros H3; split; intros; try easy.
Qed.

(** ** Intervals *)
Lemma add_bounds_le (a b : IT) r s : mem r a -> mem s b ->
  nonnan (fadd (inf a) (inf b)) /\ nonnan (fadd (sup a) (sup b)) /\ E (fadd (inf a) (inf b)) <= E (fadd (sup a) (sup b)).
Proof.
  intros [La Ua] [Lb Ub].
  pose proof (E_range (fadd (inf a) (inf b))) as R1. pose proof (E_range (fadd (sup a) (sup b))) as R2.
  apply below_inv in La, Lb. apply above_inv in Ua, Ub.
  destruct La as (_ & _ & [La|[La La']]), Lb as (_ & _ & [Lb|[Lb Lb']]), Ua as (_ & _ & [Ua|[Ua Ua']]), Ub as (_ & _ & [Ub|[Ub Ub']]);
  try rewrite La; try rewrite Lb; try rewrite Ua; try rewrite Ub;
  try (match goal with |- context [fadd (finf true) (inf b)] => replace (fadd (finf true) (inf b)) with (finf true : FT) by (destruct (inf b) as [| | |]; easy) end);
  try (match goal with |- context [fadd (inf a) (finf true)] => replace (fadd (inf a) (finf true)) with (finf true : FT) by (destruct (inf a) as [| | |]; easy) end);
  try (match goal with |- context [fadd (finf false) (sup b)] => replace (fadd (finf false) (sup b)) with (finf false : FT) by (destruct (sup b) as [| | |]; easy) end);
  try (match goal with |- context [fadd (sup a) (finf false)] => replace (fadd (sup a) (finf false)) with (finf false : FT) by (destruct (sup a) as [| | |]; easy) end);
  change (fadd (finf true) (finf true) : FT) with (finf true : FT); change (fadd (finf false) (finf false) : FT) with (finf false : FT);
  repeat split; try reflexivity; try (apply fadd_Rnd; assumption);
  try (change (E (finf true : FT)) with (- bpow radix2 (emax f)));
  try (change (E (finf false : FT)) with (bpow radix2 (emax f))); try (pose proof (@top_pos f); lra).
  apply (Rnd_mono _ _ (B2R (inf a) + B2R (inf b)) (B2R (sup a) + B2R (sup b))); [now apply fadd_Rnd|now apply fadd_Rnd|].
  rewrite !E_B2R in * by assumption. lra.
Qed.
Lemma add_not_point (a b : IT) r s : mem r a -> mem s b -> i_is_exact (i_add a b) = false.
Proof.
  intros Ha Hb. destruct (add_bounds_le a b r s Ha Hb) as (N1 & N2 & L).
  apply not_true_false. intros H. unfold i_is_exact, i_add, i_new in H. cbn [inf sup] in H.
  change (feqb (f_next_down f (fadd (inf a) (inf b))) (f_next_up f (fadd (sup a) (sup b))) = true) in H.
  apply eqb_true in H. destruct H as (_ & _ & H).
  pose proof (next_down_le _ N1). pose proof (next_up_ge _ N2). pose proof (@top_pos f) as HT.
  destruct (Req_dec (E (fadd (inf a) (inf b))) (- bpow radix2 (emax f))) as [He|He].
  - assert (H3 : fadd (sup a) (sup b) = finf true). { apply is_inf_neg; auto. rewrite (is_inf_neg _ N1 He), next_down_inf in H. simpl in H. pose proof (E_range (fadd (sup a) (sup b))). lra. }
    pose proof (next_up_not_ninf _ N2) as H4. apply H4. apply is_inf_neg; [now apply next_up_nonnan|]. rewrite <- H. 
    rewrite (is_inf_neg _ N1 He), next_down_inf. reflexivity.
  - assert (Hn : fadd (inf a) (inf b) <> finf true). { intros Hq. apply He. rewrite Hq. reflexivity. }
    pose proof (next_down_E _ N1 Hn) as H5.
    destruct (Req_dec (E (fadd (inf a) (inf b))) 0) as [Z|Z].
    + rewrite Z in H5. assert (pred radix2 (SpecFloat.fexp (prec f) (emax f)) 0 < 0).
      { rewrite pred_0. pose proof (ulp_ge_0 radix2 (SpecFloat.fexp (prec f) (emax f)) 0).
        destruct (Req_dec (ulp radix2 (SpecFloat.fexp (prec f) (emax f)) 0) 0) as [Hu|Hu]; [|lra]. exfalso.
        pose proof (ulp_FLT_0 radix2 (SpecFloat.emin (prec f) (emax f)) (prec f)) as U.
        change (SpecFloat.fexp (prec f) (emax f)) with (FLT_exp (SpecFloat.emin (prec f) (emax f)) (prec f)) in Hu.
        rewrite U in Hu. pose proof (bpow_gt_0 radix2 (SpecFloat.emin (prec f) (emax f))). lra. }
      lra.
    + pose proof (pred_lt_id radix2 (SpecFloat.fexp (prec f) (emax f)) _ Z). lra.
Qed.
Lemma mul_s_mem (a : IT) (t : FT) r : bounded a -> mem r a -> finite t -> mem (r * B2R t) (i_mul_s a t).
Proof. intros B M F. apply mul_s_incl; auto. now apply mul_s_proper. Qed.

Lemma interval_vector_panics (t : transform FT) (v : vec IT 3) : (forall i j, finite (Vector.nth (Vector.nth (t_matrix t) i) j)) ->
  bounded3 v -> ordered3 v -> t_map_vector t v = Panic.
Proof.
  intros HM B O. unfold t_map_vector, map_vector, oassert.
  replace (seqb _ _) with false; [reflexivity|]. symmetry.
  assert (P : forall i j, mem (B2R (inf (Vector.nth v i)) * B2R (mget (tm t) i3 j)) (i_mul_s (Vector.nth v i) (mget (tm t) i3 j))).
  { intros i j. apply mul_s_mem; [apply B|apply bounded_nonempty; [apply B|apply O]|apply HM]. }
  pose proof (P Fin.F1 i0) as P0. pose proof (P (Fin.FS Fin.F1) i1) as P1. pose proof (P (Fin.FS (Fin.FS Fin.F1)) i2) as P2.
  pose proof (add_incl _ _ _ _ P0 P1) as P3. pose proof (add_not_point _ _ _ _ P3 P2) as Q.
  match goal with |- ?s = false => assert (Q' : s = (i_is_exact (i_add (i_add (i_mul_s (vx v) (mget (tm t) i3 i0)) (i_mul_s (vy v) (mget (tm t) i3 i1))) (i_mul_s (vz v) (mget (tm t) i3 i2)))
    && i_is_exact (szero : IT) && (feqb (inf (i_add (i_add (i_mul_s (vx v) (mget (tm t) i3 i0)) (i_mul_s (vy v) (mget (tm t) i3 i1))) (i_mul_s (vz v) (mget (tm t) i3 i2)))) (inf (szero : IT))))) by reflexivity; rewrite Q' end.
  unfold vx, vy, vz, vget. rewrite Q. reflexivity.
Qed.

Lemma sne_zero (w : IT) r : mem r w -> r <> 0 -> sne w szero = true.
Proof.
  intros [Pl Pu] W. unfold sne. apply negb_true_iff. apply not_true_false. intros H. apply ieqb_E in H. destruct H as (H1 & _ & H3).
  apply W. apply feq_E in H1, H3. destruct H1 as (N1 & N2 & H1), H3 as (_ & _ & H3). change (E (inf (szero : IT))) with 0 in H3.
  assert (F1 : finite (inf w)). { apply finite_of_range; auto. rewrite H3. pose proof (@top_pos f). lra. }
  assert (F2 : finite (sup w)). { apply finite_of_range; auto. rewrite <- H1, H3. pose proof (@top_pos f). lra. }
  apply (below_finite _ _ F1) in Pl. apply (above_finite _ _ F2) in Pu.
  rewrite <- E_B2R in Pl, Pu by assumption. rewrite <- H1 in Pu. rewrite H3 in Pl, Pu.
  lra.
Qed.
Definition irow (p : vec IT 3) (a b c d : FT) : IT :=
  xadd (sadd (sadd (xmul (vx p) a) (xmul (vy p) b)) (xmul (vz p) c)) d.
Lemma irow_mem (p : vec IT 3) (v : R3) a b c d ra rb rc rd : bounded3 p -> mem3 v p ->
  val a ra -> val b rb -> val c rc -> val d rd -> mem (ra * cX v + rb * cY v + rc * cZ v + rd) (irow p a b c d).
Proof.
  intros B (M0 & M1 & M2) [F0 <-] [F1 <-] [F2 <-] [F3 <-].
  rewrite (Rmult_comm _ (cX v)), (Rmult_comm _ (cY v)), (Rmult_comm _ (cZ v)).
  pose proof (mul_s_mem _ a _ (B Fin.F1) M0 F0) as H0.
  pose proof (mul_s_mem _ b _ (B (Fin.FS Fin.F1)) M1 F1) as H1.
  pose proof (mul_s_mem _ c _ (B (Fin.FS (Fin.FS Fin.F1))) M2 F2) as H2.
  exact (add_s_incl _ _ _ (add_incl _ _ _ _ (add_incl _ _ _ _ H0 H1) H2) F3).
Qed.
Lemma map_point_irow (d : matrix FT) (p : vec IT 3) r : 
  mem r (irow p (mget d i3 i0) (mget d i3 i1) (mget d i3 i2) (mget d i3 i3)) -> r <> 0 ->
  map_point d p = Ret (vec3
    (i_div (irow p (mget d i0 i0) (mget d i0 i1) (mget d i0 i2) (mget d i0 i3)) (irow p (mget d i3 i0) (mget d i3 i1) (mget d i3 i2) (mget d i3 i3)))
    (i_div (irow p (mget d i1 i0) (mget d i1 i1) (mget d i1 i2) (mget d i1 i3)) (irow p (mget d i3 i0) (mget d i3 i1) (mget d i3 i2) (mget d i3 i3)))
    (i_div (irow p (mget d i2 i0) (mget d i2 i1) (mget d i2 i2) (mget d i2 i3)) (irow p (mget d i3 i0) (mget d i3 i1) (mget d i3 i2) (mget d i3 i3)))).
Proof.
  intros M W. pose proof (sne_zero _ _ M W) as S. unfold map_point, oassert. cbv zeta. fold (irow p (mget d i3 i0) (mget d i3 i1) (mget d i3 i2) (mget d i3 i3)).
  rewrite S. reflexivity.
Qed.
Lemma interval_point (t : transform FT) A (p : vec IT 3) (a : R3) : fM (t_matrix t) A ->
  bounded3 p -> mem3 a p -> wcoord A a <> 0 -> returns (t_map_point t p) (fun q => mem3 (app_pt A a) q).
Proof.
  intros HM B M W.
  assert (P : forall k : Fin.t 4, mem (A k i0 * cX a + A k i1 * cY a + A k i2 * cZ a + A k i3)
    (irow p (mget (tm t) k i0) (mget (tm t) k i1) (mget (tm t) k i2) (mget (tm t) k i3))).
  { intros k. exact (irow_mem p a _ _ _ _ _ _ _ _ B M (fM_get _ _ k i0 HM) (fM_get _ _ k i1 HM) (fM_get _ _ k i2 HM) (fM_get _ _ k i3 HM)). }
  eexists. split. { exact (map_point_irow (tm t) p _ (P i3) W). }
  unfold app_pt, app_vec, scl3, add3. cbn [cX cY cZ]. unfold mem3. cbn [cX cY cZ].
  rewrite !(Rmult_comm (/ wcoord A a)).
  unfold wcoord in *. generalize (P i0) (P i1) (P i2) (P i3).
  generalize (A i0 i0 * cX a + A i0 i1 * cY a + A i0 i2 * cZ a + A i0 i3) (A i1 i0 * cX a + A i1 i1 * cY a + A i1 i2 * cZ a + A i1 i3)
    (A i2 i0 * cX a + A i2 i1 * cY a + A i2 i2 * cZ a + A i2 i3).
  revert W. generalize (A i3 i0 * cX a + A i3 i1 * cY a + A i3 i2 * cZ a + A i3 i3).
  match goal with |- context [vec3 (i_div ?a ?w) (i_div ?b _) (i_div ?c _)] => generalize a b c w end.
  intros x y z w r W r0 r1 r2 H0 H1 H2 H3.
  split; [exact (div_incl x w r0 r H0 H3 W)|]. split; [exact (div_incl y w r1 r H1 H3 W)|exact (div_incl z w r2 r H2 H3 W)].
Qed.
End F.
