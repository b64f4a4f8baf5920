(** Float tracing through nested transforms: where reported hits really are. *)
From Coq Require Import ZArith Reals Bool List Lra Lia.
From Coq Require Vector Fin.
From Flocq Require Import Core BinarySingleNaN.
From Verif.Model Require Import FloatBase Scalar Float Interval Outcome Vec Transform XReal Geometry.
From Verif Require Import Spec SpecGeom SpecShape SpecError SpecQuad SpecMaps SpecPanic SpecTrace.
From Verif.Proofs Require Import BitsLemmas FloatLemmas ScalarProofs XRealLemmas VectorFloat TransformFloat TransformCases SlabFloat SlabCases VectorErr MapErr MapComp PrimProofs BoxFloat ScenePanic SphereSeen RotFloat LookFloat ExactCond.
Open Scope R_scope.

Section S.
Context {f : fmt} {m : libm f}.
Notation FT := (float f).
Notation u := (unit_roundoff f).
Notation eta := (smallest_float f / 2).
Notation g k := (rel_err f k).

(** ** finiteness runs backwards *)
Lemma add_nan (x y : FT) : nonnan (fadd x y) -> nonnan x /\ nonnan y.
Proof. destruct x as [s|s| |s mm e H], y as [s'|s'| |s' mm' e' H']; try (split; reflexivity); intros K; try (split; exact I || reflexivity || (discriminate K)); (split; try reflexivity; destruct s, s'; discriminate K). Qed.
Lemma mul_zero_nan (x a : FT) : val a 0 -> nonnan (fmul x a) -> finite x.
Proof.
  intros [Fa Va] K. destruct x as [s|s| |s mm e H]; try reflexivity; [|discriminate K].
  destruct a as [s'|s'| |s' mm' e' H']; try discriminate Fa; [discriminate K|]. exfalso. simpl in Va. apply eq_0_F2R in Va. destruct s'; discriminate Va.
Qed.
Lemma div_nan (z w : FT) : finite (fdiv z w) -> nonnan w.
Proof. destruct w; try reflexivity. destruct z; discriminate. Qed.
Lemma add_fin (x y : FT) : finite (fadd x y) -> finite x /\ finite y.
Proof. destruct x as [s|s| |s mm e H], y as [s'|s'| |s' mm' e' H']; try (split; reflexivity); intros K; try discriminate K. destruct s, s'; discriminate K. Qed.
Lemma mul_fin (x y : FT) : finite (fmul x y) -> finite x /\ finite y.
Proof. destruct x as [s|s| |s mm e H], y as [s'|s'| |s' mm' e' H']; try (split; reflexivity); intros K; discriminate K. Qed.
Lemma point_back (M : matrix FT) A (p q : vec FT 3) : fM M A -> affine A -> map_point M p = Ret q -> fall finite q -> fall finite p.
Proof.
  intros HM (A0 & A1 & A2 & A3) H F. unfold map_point, oassert in H. cbv zeta in H. destruct (sne _ _); [|discriminate]. injection H as <-. specialize (F Fin.F1).
  apply div_nan in F. apply add_nan in F. destruct F as [F _]. apply add_nan in F. destruct F as [F Fz]. apply add_nan in F. destruct F as [Fx Fy].
  apply mul_zero_nan in Fx; [|rewrite <- A0; now apply fM_get]. apply mul_zero_nan in Fy; [|rewrite <- A1; now apply fM_get]. apply mul_zero_nan in Fz; [|rewrite <- A2; now apply fM_get].
  unfold fall; apply TransformCases.all3; assumption.
Qed.
Lemma vector_back (M : matrix FT) (p q : vec FT 3) : map_vector M p = Ret q -> fall finite q -> fall finite p.
Proof.
  intros H F. unfold map_vector, oassert in H. destruct (seqb _ _); [|discriminate]. injection H as <-. specialize (F Fin.F1).
  apply add_fin in F. destruct F as [F Fz]. apply add_fin in F. destruct F as [Fx Fy]. apply mul_fin in Fx, Fy, Fz. unfold fall; apply TransformCases.all3; tauto.
Qed.
Lemma ray_inv (t : transform FT) (r r1 : ray FT) : t_map_ray_inverse t r = Ret r1 -> map_point (tminv t) (origin r) = Ret (origin r1) /\ map_vector (tminv t) (direction r) = Ret (direction r1) /\ tmax r1 = tmax r.
Proof.
  unfold t_map_ray_inverse, t_map_point_inverse, t_map_vector_inverse. intros H.
  change (obind (map_point (tminv t) (origin r)) (fun o0 => obind (map_vector (tminv t) (direction r)) (fun d0 => Ret (mkRay o0 d0 (tmax r)))) = Ret r1) in H.
  destruct (map_point _ _) as [o|]; [|discriminate]. cbn [obind] in H. destruct (map_vector _ _) as [d|]; [|discriminate]. injection H as <-. auto.
Qed.
Lemma reach_back p r As q r' : reaches p r As q r' -> fall finite (origin r') -> fall finite (direction r') -> fall finite (origin r) /\ fall finite (direction r).
Proof.
  induction 1 as [p r|p t r r1 A As q r' HM HA E H IH|ps p r As q r' I H IH]; intros FO FD; [auto| |auto].
  destruct (IH FO FD) as [F1 F2]. destruct (ray_inv _ _ _ E) as (E1 & E2 & _). split; [exact (point_back _ A _ _ HM HA E1 F1)|exact (vector_back _ _ _ E2 F2)].
Qed.
Lemma reach_tmax p r As q r' : reaches p r As q r' -> tmax r' = tmax r.
Proof. induction 1 as [p r|p t r r1 A As q r' HM HA E H IH|ps p r As q r' I H IH]; [reflexivity| |exact IH]. destruct (ray_inv _ _ _ E) as (_ & _ & T). congruence. Qed.

(** ** the chain of maps *)
Definition under (y Y : R3) : Prop := Rabs (cX y) <= cX Y /\ Rabs (cY y) <= cY Y /\ Rabs (cZ y) <= cZ Y.
Lemma abs_app A y Y : under y Y -> under (app_vec A y) (app_vec (absM A) Y).
Proof.
  intros (H1 & H2 & H3). unfold under, app_vec, absM. cbn [cX cY cZ].
  assert (G : forall a b c, Rabs (a * cX y + b * cY y + c * cZ y) <= Rabs a * cX Y + Rabs b * cY Y + Rabs c * cZ Y).
  { intros a b c. eapply Rle_trans; [apply Rabs_triang|]. eapply Rle_trans; [apply Rplus_le_compat_r, Rabs_triang|]. rewrite !Rabs_mult.
    apply Rplus_le_compat; [apply Rplus_le_compat|]; (apply Rmult_le_compat_l; [apply Rabs_pos|assumption]). }
  split; [|split]; apply G.
Qed.
Lemma abs_aff A y Y : under y Y -> under (aff A y) (aff (absM A) Y).
Proof.
  intros H. destruct (abs_app A y Y H) as (X & Y' & Z). unfold under, aff, add3. cbn [cX cY cZ]. unfold absM at 2 4 6.
  split; [|split]; (eapply Rle_trans; [apply Rabs_triang|]); now apply Rplus_le_compat_r.
Qed.
(** the direction carried by the linear parts *)
Fixpoint carryv (As : list rmat) (p : R3) : R3 := match As with nil => p | A :: As' => carryv As' (app_vec A p) end.
Lemma carry_line As o d t : carry As (add3 o (scl3 t d)) = add3 (carry As o) (scl3 t (carryv As d)).
Proof.
  revert o d. induction As as [|A As IH]; intros o d; [reflexivity|]. cbn [carry carryv]. rewrite <- IH. f_equal.
  unfold aff, app_vec, add3, scl3. cbn [cX cY cZ]. f_equal; ring.
Qed.
Lemma slack_step A e k c : affine A -> (k <= 4)%nat -> 0 <= e -> 0 <= c <= 33 / 10 * eta -> (1 + g k) * e * mass A + c <= 2 * mass A * e + 2 * smallest_float f.
Proof.
  intros HA K E C. destruct (mass_rows A HA) as [M _]. assert (EE := eta_ok (f := f)). destruct (pow_small (f := f) k) as [L H]; [lia|]. unfold rel_err. set (x := (1 + u) ^ k) in *. clearbody x.
  assert (0 <= mass A * e) by (apply Rmult_le_pos; lra). assert (x * (mass A * e) <= 2 * (mass A * e)) by (apply Rmult_le_compat_r; lra). replace ((1 + (x - 1)) * e * mass A) with (x * (mass A * e)) by ring. lra.
Qed.
Lemma nonneg_under y Y : under y Y -> 0 <= cX Y /\ 0 <= cY Y /\ 0 <= cZ Y.
Proof. intros (H1 & H2 & H3). assert (a := Rabs_pos (cX y)). assert (b := Rabs_pos (cY y)). assert (c := Rabs_pos (cZ y)). lra. Qed.
Lemma g_mono j k : (j <= k)%nat -> g j <= g k.
Proof. intros H. unfold rel_err. destruct (u_small (f := f)) as [U _]. assert ((1 + u) ^ j <= (1 + u) ^ k) by (apply Rle_pow; [lra|exact H]). lra. Qed.
Lemma chain p r As q r' : reaches p r As q r' -> fall finite (origin r') -> fall finite (direction r') ->
  forall k e yo Yo yd Yd, 0 <= e -> close3 (origin r) yo Yo (g k) e -> under yo Yo -> close3 (direction r) yd Yd (g k) e -> under yd Yd ->
  let n := (k + 4 * length As)%nat in
  close3 (origin r') (carry As yo) (carry (map absM As) Yo) (g n) (underflow f As e) /\ close3 (direction r') (carryv As yd) (carryv (map absM As) Yd) (g n) (underflow f As e) /\
  0 <= underflow f As e.
Proof.
  induction 1 as [p r|p t r r1 A As q r' HM HA E H IH|ps p r As q r' I H IH]; intros FO FD k e yo Yo yd Yd E0 CO UO CD UD; [|specialize (IH FO FD)|exact (IH FO FD _ _ _ _ _ _ E0 CO UO CD UD)].
  - cbv zeta. cbn [length carry carryv map underflow]. rewrite Nat.mul_0_r, Nat.add_0_r. auto.
  - destruct (ray_inv _ _ _ E) as (E1 & E2 & _). destruct (reach_back _ _ _ _ _ H FO FD) as [F1 F2].
    assert (F0 := point_back _ A _ _ HM HA E1 F1). assert (P := mass_rows A HA). destruct P as [M1 _]. assert (EP := eta_ok (f := f)).
    destruct UO as (UO1 & UO2 & UO3). destruct UD as (UD1 & UD2 & UD3).
    assert (S1 := point_step (t_inverse t) A (origin r) (origin r1) yo Yo (g k) e HM HA F0 E1 F1 (g_pos k) E0 CO UO1 UO2 UO3).
    assert (S2 := MapComp.vec_step (t_inverse t) A (direction r) (direction r1) yd Yd (g k) e HM HA E2 F2 (g_pos k) E0 CD UD1 UD2 UD3).
    rewrite gg in S1, S2. assert (VO := abs_aff A yo Yo (conj UO1 (conj UO2 UO3))). assert (VD := abs_app A yd Yd (conj UD1 (conj UD2 UD3))).
    destruct (nonneg_under _ _ VO) as (N1 & N2 & N3). destruct (nonneg_under _ _ VD) as (N4 & N5 & N6).
    assert (E' : 0 <= 2 * mass A * e + 2 * smallest_float f) by (assert (0 <= mass A * e) by (apply Rmult_le_pos; lra); lra).
    apply (close_weaken _ _ _ _ _ (g (k + 4)) (2 * mass A * e + 2 * smallest_float f) N1 N2 N3) in S1; [|apply g_mono; lia|apply (slack_step A e 4); [exact HA|lia|exact E0|apply c4_bound]].
    apply (close_weaken _ _ _ _ _ (g (k + 4)) (2 * mass A * e + 2 * smallest_float f) N4 N5 N6) in S2; [|apply g_mono; lia|apply (slack_step A e 3); [exact HA|lia|exact E0|apply c3_bound]].
    specialize (IH (k + 4)%nat _ _ _ _ _ E' S1 VO S2 VD). cbv zeta in *. cbn [length carry carryv map underflow].
    replace (k + 4 * S (length As))%nat with (k + 4 + 4 * length As)%nat by lia. exact IH.
Qed.
Lemma close_self (v : vec FT 3) : fall finite v -> close3 v (f3 v) (abs3 (f3 v)) (g 0) 0.
Proof. intros _. unfold close3, rel_err. rewrite !Rminus_diag_eq by reflexivity. rewrite Rabs_R0. simpl. lra. Qed.
Lemma under_self y : under y (abs3 y). Proof. unfold under, abs3. cbn. lra. Qed.
Lemma line_drift p r As q r' t : reaches p r As q r' -> fall finite (origin r') -> fall finite (direction r') ->
  off_by (at_ray (f3 (origin r')) (f3 (direction r')) t) (carry As (at_ray (f3 (origin r)) (f3 (direction r)) t)) (drift f As (f3 (origin r)) (f3 (direction r)) t).
Proof.
  intros H FO FD. destruct (reach_back _ _ _ _ _ H FO FD) as [F1 F2].
  destruct (chain _ _ _ _ _ H FO FD 0 0 _ _ _ _ (Rle_refl 0) (close_self _ F1) (under_self _) (close_self _ F2) (under_self _)) as ((O1 & O2 & O3) & (D1 & D2 & D3) & N).
  cbn [Nat.add] in *. unfold at_ray, drift. rewrite !carry_line. set (U := underflow f As 0) in *. set (k := g (4 * length As)) in *. unfold off_by, add3, scl3. cbn [cX cY cZ].
  assert (K : forall a b c d A B, Rabs (a - b) <= k * A + U -> Rabs (c - d) <= k * B + U -> Rabs (a + t * c - (b + t * d)) <= k * (A + Rabs t * B) + (1 + Rabs t) * U).
  { intros a b c d A B H1 H2. replace (a + t * c - (b + t * d)) with ((a - b) + t * (c - d)) by ring. eapply Rle_trans; [apply Rabs_triang|]. rewrite Rabs_mult.
    assert (Rabs t * Rabs (c - d) <= Rabs t * (k * B + U)) by (apply Rmult_le_compat_l; [apply Rabs_pos|exact H2]). lra. }
  split; [|split]; apply K; assumption.
Qed.

(** ** which shape is hit *)
Lemma down_eq (q : prim FT) t r : p_intersect (PTransformed q t) r = obind (t_map_ray_inverse t r) (fun r' => p_intersect q r') /\
  p_do_intersect (PTransformed q t) r = obind (t_map_ray_inverse t r) (fun r' => p_do_intersect q r').
Proof. split; reflexivity. Qed.
Lemma leaf_hit (p : prim FT) : forall r h, affine_scene p -> p_intersect p r = Ret (Some h) ->
  exists As q r', reaches p r As q r' /\ is_leaf q /\ p_intersect q r' = Ret (Some h).
Proof.
  induction p as [b|s|q t IH|ps IH|b d c] using prim_ind'; intros r h HA HI; try (exists nil; eexists; exists r; split; [apply reach_here|split; [exact I|exact HI]]).
  - rewrite (proj1 (down_eq q t r)) in HI. destruct (t_map_ray_inverse t r) as [r1|] eqn:E; [|discriminate]. cbn [obind] in HI. destruct HA as [(A & HM & AA) HA].
    destruct (IH r1 h HA HI) as (As & q' & r' & R & L & H). exists (A :: As), q', r'. split; [exact (reach_down q t r r1 A As q' r' HM AA E R)|auto].
  - destruct (proj1 (list_hit ps r) _ HI) as (_ & X & _). destruct (X h eq_refl) as (q & I & HQ).
    assert (HQA : affine_scene q). { cbn [affine_scene] in HA. clear - HA I. induction ps as [|a ps IHp]; [destruct I|]. cbn [fold_right] in HA. destruct I as [<-|I]; [apply HA|]. apply IHp; [apply HA|exact I]. }
    destruct (proj1 (Forall_forall _ _) IH q I r h HQA HQ) as (As & q' & r' & R & L & H). exists As, q', r'. split; [exact (reach_member ps q r As q' r' I R)|auto].
Qed.
(** a shape that is hit makes the scene hit *)
Lemma leaf_do p r As q r' d : reaches p r As q r' -> p_do_intersect q r' = Ret true -> p_do_intersect p r = Ret d -> d = true.
Proof.
  intros R. revert d. induction R as [p r|p t r r1 A As q r' HM HA E H IH|ps p r As q r' I H IH]; intros d D N; [congruence| |].
  - rewrite (proj2 (down_eq p t r)), E in N. exact (IH d D N).
  - destruct d; [reflexivity|]. apply (proj1 (list_do ps r)) with (q := p) in N; [|exact I]. exact (IH false D N).
Qed.

(** ** where the hit is *)
Lemma slab_reported (b : bbox FT) (r : ray FT) x y : box_finite b -> box_ordered b -> ray_finite r -> ray_no_graze b r ->
  (forall i, finite (fsub (pmin b @ i) (origin r @ i)) /\ finite (fsub (pmax b @ i) (origin r @ i))) -> 0 <= B2R (tmax r) -> b_intersect_ray b r = Some (x, y) ->
  finite x /\ 0 <= B2R x <= B2R (tmax r) /\
  forall i, exists s, Rabs (s - B2R x) <= (2 * u + u * u) * Rabs s + eta /\ B2R (pmin b @ i) <= B2R (origin r @ i) + s * B2R (direction r @ i) <= B2R (pmax b @ i).
Proof.
  intros BF BO RF NG NO TM HX. destruct (tm_E r RF) as (ET & N & TT). assert (S := slab_float b r N). rewrite HX in S. destruct S as (S & (NX & X0 & X1 & X2) & _).
  assert (XT : E x <= E (tmax r)). { destruct X2 as [->|[j ->]]; [lra|apply (S j j)]. }
  assert (TP := bpow_gt_0 radix2 (emax f)).
  assert (FX : finite x). { apply finite_of_range; [exact NX|]. lra. }
  rewrite <- (E_B2R x FX). split; [exact FX|]. split; [rewrite <- ET; lra|]. intros i. destruct (ax_sound _ _ _ _ _ _ _ (E x) (axes b r BF BO RF NG NO i)) as (s & A & B); [lra| |exists s; auto].
  split; [apply X1|]. destruct X2 as [->|[j ->]]; [apply (S i i)|apply (S j i)].
Qed.
Lemma param_gap s t : 0 <= t -> Rabs (s - t) <= (2 * u + u * u) * Rabs s + eta -> Rabs (s - t) <= 3 * u * t + smallest_float f.
Proof.
  intros T H. destruct (u_small (f := f)) as [U V]. assert (EP := eta_ok (f := f)).
  assert (S : Rabs s <= t + Rabs (s - t)). { replace s with (t + (s - t)) at 1 by ring. eapply Rle_trans; [apply Rabs_triang|]. rewrite (Rabs_pos_eq t T). lra. }
  assert (D := Rabs_pos (s - t)). set (z := Rabs (s - t)) in *. set (k := 2 * u + u * u) in *. assert (K : 0 <= k <= 21 / 10 * u) by (unfold k; nra).
  assert (k * Rabs s <= k * (t + z)) by (apply Rmult_le_compat_l; lra). assert (Z : z * (1 - k) <= k * t + eta) by lra.
  assert (KT : k * t <= 21 / 10 * u * t) by (apply Rmult_le_compat_r; lra). assert (0 <= u * t) by (apply Rmult_le_pos; lra).
  assert (z * (999 / 1000) <= z * (1 - k)) by (apply Rmult_le_compat_l; lra). lra.
Qed.
Lemma shift_bounds l h o d s t e : Rabs (s - t) <= e -> l <= o + s * d <= h -> l - e * Rabs d <= o + t * d <= h + e * Rabs d.
Proof.
  intros H C. assert (K : Rabs ((s - t) * d) <= e * Rabs d) by (rewrite Rabs_mult; apply Rmult_le_compat_r; [apply Rabs_pos|exact H]). apply Rabs_le_inv in K. lra.
Qed.
Lemma box_reported (b : bbox FT) (r : ray FT) h : box_finite b -> box_ordered b -> ray_finite r -> ray_no_graze b r ->
  (forall i, finite (fsub (pmin b @ i) (origin r @ i)) /\ finite (fsub (pmax b @ i) (origin r @ i))) -> 0 <= B2R (tmax r) -> b_hit b r = Ret (Some h) ->
  let t := B2R (t_ray h) in finite (t_ray h) /\ 0 <= t <= B2R (tmax r) /\
  in_grown_box (f3 (pmin b)) (f3 (pmax b)) (scl3 (3 * u * t + smallest_float f) (abs3 (f3 (direction r)))) (at_ray (f3 (origin r)) (f3 (direction r)) t).
Proof.
  intros BF BO RF NG NO TM H t. assert (HX : exists y, b_intersect_ray b r = Some (t_ray h, y)).
  { unfold b_hit in H. destruct (b_intersect_ray b r) as [[x y]|]; [|discriminate]. exists y. cbv zeta in H. destruct (match closest_face _ with O => _ | _ => _ end) as [si|]; [|discriminate]. cbn [obind] in H. injection H as <-. reflexivity. }
  destruct HX as [y HX]. destruct (slab_reported b r _ _ BF BO RF NG NO TM HX) as (F & T & Q). fold t in T, Q. split; [exact F|]. split; [exact T|].
  assert (G : forall i, B2R (pmin b @ i) - (3 * u * t + smallest_float f) * Rabs (B2R (direction r @ i)) <= B2R (origin r @ i) + t * B2R (direction r @ i) <= B2R (pmax b @ i) + (3 * u * t + smallest_float f) * Rabs (B2R (direction r @ i))).
  { intros i. destruct (Q i) as (s & A & B). exact (shift_bounds _ _ _ _ _ _ _ (param_gap s t (proj1 T) A) B). }
  assert (G0 := G Fin.F1). assert (G1 := G (Fin.FS Fin.F1)). assert (G2 := G (Fin.FS (Fin.FS Fin.F1))).
  unfold in_grown_box, in_box, le3, sub3, add3, scl3, abs3, at_ray, f3. cbn [cX cY cZ]. unfold add3, scl3. cbn [cX cY cZ]. tauto.
Qed.
Lemma grown_off lo hi e e' p q : in_grown_box lo hi e p -> off_by p q e' -> in_grown_box lo hi (add3 e e') q.
Proof.
  unfold in_grown_box, in_box, le3, off_by, sub3, add3. cbn [cX cY cZ]. intros ((A1 & A2 & A3) & (B1 & B2 & B3)) (C1 & C2 & C3).
  apply Rabs_le_inv in C1. apply Rabs_le_inv in C2. apply Rabs_le_inv in C3. lra.
Qed.
Lemma len_off p q e : off_by p q e -> Rabs (len3 p - len3 q) <= cX e + cY e + cZ e.
Proof.
  intros (H1 & H2 & H3). eapply Rle_trans; [apply len_diff|]. assert (P1 := Rle_trans _ _ _ (Rabs_pos _) H1). assert (P2 := Rle_trans _ _ _ (Rabs_pos _) H2). assert (P3 := Rle_trans _ _ _ (Rabs_pos _) H3).
  apply len_le; [lra|]. unfold dot3, sub3. cbn [cX cY cZ].
  assert (Q : forall a b, Rabs a <= b -> a * a <= b * b) by (intros a b K; assert (Z := Rabs_pos a); replace (a * a) with (Rabs a * Rabs a) by (rewrite <- Rabs_mult; apply Rabs_pos_eq; nra); apply Rmult_le_compat; assumption).
  apply Q in H1. apply Q in H2. apply Q in H3. assert (0 <= cX e * cY e) by (apply Rmult_le_pos; assumption). assert (0 <= cX e * cZ e) by (apply Rmult_le_pos; assumption). assert (0 <= cY e * cZ e) by (apply Rmult_le_pos; assumption). lra.
Qed.
Lemma len_near p rad c : 0 < rad -> Rabs (dot3 p p - rad * rad) <= c -> Rabs (len3 p - rad) <= c / rad.
Proof.
  intros R H. rewrite <- len3_sq in H. assert (L := len3_nonneg p). set (l := len3 p) in *. replace (l * l - rad * rad) with ((l - rad) * (l + rad)) in H by ring. rewrite Rabs_mult, (Rabs_pos_eq (l + rad)) in H by lra.
  apply Rmult_le_reg_r with rad; [exact R|]. unfold Rdiv. rewrite Rmult_assoc, Rinv_l, Rmult_1_r by lra. eapply Rle_trans; [|exact H]. apply Rmult_le_compat_l; [apply Rabs_pos|lra].
Qed.
Lemma scene_hit (p : prim FT) (r : ray FT) h : affine_scene p -> p_intersect p r = Ret (Some h) ->
  exists As q r', reaches p r As q r' /\ tmax r' = tmax r /\
  let t := B2R (t_ray h) in let o := f3 (origin r) in let d := f3 (direction r) in
  let P := carry As (at_ray o d t) in let e := drift f As o d t in
  match q with
  | PSphere s => usual_ray (origin r') (direction r') -> usual_radius (radius s) ->
      let o' := f3 (origin r') in let rad := B2R (radius s) in
      finite (t_ray h) /\ Rabs (len3 P - rad) <= (cX e + cY e + cZ e) + 72 * u * (dot3 o' o' + rad * rad) / rad
  | PBox b => box_finite b -> box_ordered b -> ray_finite r' -> ray_no_graze b r' ->
      (forall i, finite (ssub (pmin b @ i) (origin r' @ i)) /\ finite (ssub (pmax b @ i) (origin r' @ i))) -> 0 <= B2R (tmax r) ->
      finite (t_ray h) /\ 0 <= t <= B2R (tmax r) /\
      in_grown_box (f3 (pmin b)) (f3 (pmax b)) (add3 (scl3 (3 * u * t + smallest_float f) (abs3 (f3 (direction r')))) e) P
  | PCustom _ _ c => c r' = Ret (Some h)
  | _ => False
  end.
Proof.
  intros HA HI. destruct (leaf_hit p r h HA HI) as (As & q & r' & R & L & H). exists As, q, r'. split; [exact R|]. assert (T := reach_tmax _ _ _ _ _ R). split; [exact T|]. cbv zeta.
  destruct q as [b|s|q t|ps|b d c]; try destruct L.
  - intros BF BO RF NG NO TM. rewrite <- T in TM |- *. destruct (box_reported b r' h BF BO RF NG NO TM H) as (F & T0 & G). split; [exact F|]. split; [exact T0|].
    apply (grown_off _ _ _ _ _ _ G). apply (line_drift _ _ _ _ _ _ R); apply RF.
  - intros UR US. injection H as H. destruct (hit_near f m s r' h UR US H) as (F & _ & N & _). split; [exact F|].
    assert (FO : fall finite (origin r')) by (intros i; apply UR). assert (FD : fall finite (direction r')) by (intros i; apply UR).
    assert (D := len_off _ _ _ (line_drift _ _ _ _ _ (B2R (t_ray h)) R FO FD)). destruct US as [_ US].
    apply len_near in N; [|lra]. set (P := carry _ _) in *. set (P' := at_ray (f3 (origin r')) _ _) in *.
    replace (len3 P - B2R (radius s)) with ((len3 P' - B2R (radius s)) + - (len3 P' - len3 P)) by ring. eapply Rle_trans; [apply Rabs_triang|]. rewrite Rabs_Ropp. lra.
  - exact H.
Qed.
End S.
