(** Translations and scalings there and back in floats. *)
From Coq Require Import ZArith Reals Bool List Lra Lia.
From Coq Require Vector Fin.
From Flocq Require Import Core BinarySingleNaN.
From Verif.Model Require Import FloatBase Scalar Float Interval Outcome Vec Transform XReal Geometry.
From Verif Require Import Spec SpecGeom SpecShape SpecError SpecRot SpecMaps.
From Verif.Proofs Require Import BitsLemmas FloatLemmas ScalarProofs XRealLemmas VectorFloat VectorCases TransformFloat TransformCases SlabFloat SlabCases VectorErr MapErr QuadFloat ErrCases MapComp.
Open Scope R_scope.

Section S.
Context {f : fmt} {m : libm f}.
Notation FT := (float f).
Notation u := (unit_roundoff f).
Notation eta := (smallest_float f / 2).
Lemma feq_val (x y : FT) : feq x y -> finite x -> finite y /\ B2R x = B2R y.
Proof.
  intros H F. apply feq_E in H. destruct H as (_ & N & H). assert (R := finite_E_range x F). rewrite H in R. assert (Fy : finite y) by (apply finite_of_range; [exact N|exact R]).
  split; [exact Fy|]. now rewrite <- !E_B2R.
Qed.
Lemma back_add (p v q w : FT) : feq q (fadd p v) -> finite q -> feq w (fsub q v) -> finite w -> Rabs (B2R w - B2R p) <= 3 * u * (Rabs (B2R p) + Rabs (B2R v)).
Proof.
  intros Q Fq W Fw. destruct (feq_val _ _ Q Fq) as [F1 E1]. destruct (feq_val _ _ W Fw) as [F2 E2]. rewrite E2. assert (A := add_err _ _ F1). rewrite <- E1 in A.
  destruct (sub_fin _ _ F2) as [_ Fv]. assert (B : Rabs (B2R (fsub q v) - (B2R q - B2R v)) <= u * Rabs (B2R q - B2R v)).
  { assert (K := add_err q (fneg v)). rewrite fneg_B2R in K. rewrite (Rnd_finite _ _ (fsub_Rnd q v Fq Fv) F2).
    assert (R0 := fadd_Rnd q (fneg v) Fq (proj2 (fneg_finite v) Fv)). rewrite fneg_B2R in R0.
    assert (F3 : finite (fadd q (fneg v))). { destruct R0 as [N0 E0]. apply finite_of_range; [exact N0|]. rewrite E0. destruct (fsub_Rnd q v Fq Fv) as [_ E3]. unfold Rminus in E3. rewrite <- E3. now apply finite_E_range. }
    specialize (K F3). rewrite (Rnd_finite _ _ R0 F3) in K. exact K. }
  destruct (u_small (f := f)) as [U1 U2]. set (pp := B2R p) in *. set (vv := B2R v) in *. set (qq := B2R q) in *. set (ww := B2R (fsub q v)) in *. clearbody pp vv qq ww.
  assert (T : Rabs (pp + vv) <= Rabs pp + Rabs vv) by apply Rabs_triang.
  assert (T2 : Rabs (qq - vv) <= Rabs pp + u * Rabs (pp + vv)). { replace (qq - vv) with (pp + (qq - (pp + vv))) by ring. eapply Rle_trans; [apply Rabs_triang|]. lra. }
  replace (ww - pp) with ((ww - (qq - vv)) + (qq - (pp + vv))) by ring. eapply Rle_trans; [apply Rabs_triang|].
  assert (P1 := Rabs_pos pp). assert (P2 := Rabs_pos vv). assert (P3 := Rabs_pos (pp + vv)).
  assert (u * Rabs (qq - vv) <= u * (Rabs pp + u * Rabs (pp + vv))) by (apply Rmult_le_compat_l; lra).
  assert (u * Rabs (pp + vv) <= u * (Rabs pp + Rabs vv)) by (apply Rmult_le_compat_l; lra).
  assert (u * (u * Rabs (pp + vv)) <= 1 * (u * (Rabs pp + Rabs vv))) by (apply Rmult_le_compat; try lra; apply Rmult_le_pos; lra).
  assert (0 <= u * Rabs vv) by (apply Rmult_le_pos; lra). lra.
Qed.
Lemma translate_back (v p : vec FT 3) : fall finite v -> fall finite p -> exists q, t_map_point (translate v) p = Ret q /\
  (fall finite q -> exists w, t_map_point_inverse (translate v) q = Ret w /\ (fall finite w -> close3 w (f3 p) (add3 (abs3 (f3 p)) (abs3 (f3 v))) (3 * u) 0)).
Proof.
  intros Fv Fp. destruct (translate_point v p Fv Fp) as (q & E & Q). exists q. split; [exact E|]. intros Fq. destruct (translate_point_inv v q Fv Fq) as (w & E2 & W). exists w. split; [exact E2|]. intros Fw.
  rewrite v3_add in Q. rewrite v3_sub in W.
  assert (Q0 := Q Fin.F1). assert (Q1 := Q (Fin.FS Fin.F1)). assert (Q2 := Q (Fin.FS (Fin.FS Fin.F1))). assert (W0 := W Fin.F1). assert (W1 := W (Fin.FS Fin.F1)). assert (W2 := W (Fin.FS (Fin.FS Fin.F1))).
  unfold close3. rewrite !Rplus_0_r. split; [|split]; [exact (back_add _ _ _ _ Q0 (Fq _) W0 (Fw _))|exact (back_add _ _ _ _ Q1 (Fq _) W1 (Fw _))|exact (back_add _ _ _ _ Q2 (Fq _) W2 (Fw _))].
Qed.
Lemma back_mul (p s q w : FT) : finite s -> B2R s <> 0 -> Rabs (B2R s) <= bpow radix2 (emax f - 2) -> feq q (fmul p s) -> finite q -> feq w (fmul q (fdiv sone s)) -> finite w ->
  Rabs (B2R w - B2R p) <= 4 * u * Rabs (B2R p) + smallest_float f * (1 + / Rabs (B2R s)).
Proof.
  intros Fs Ns Ls Q Fq W Fw. destruct (feq_val _ _ Q Fq) as [F1 E1]. destruct (feq_val _ _ W Fw) as [F2 E2]. rewrite E2. assert (A := mul_err _ _ F1). rewrite <- E1 in A. assert (B := mul_err _ _ F2).
  destruct (fmul_fin _ _ F2) as [_ Fr]. assert (O := one_B2R (f := f)). assert (D : Rabs (B2R (fdiv sone s) - / B2R s) <= u * / Rabs (B2R s)).
  { assert (R0 := fdiv_Rnd (sone : FT) s (proj1 O) Fs Ns). rewrite (Rnd_finite _ _ R0 Fr). rewrite (proj2 O). unfold Rdiv. rewrite Rmult_1_l. rewrite <- Rabs_inv. apply normal_err. rewrite Rabs_inv. replace (2 - emax f)%Z with (- (emax f - 2))%Z by ring. rewrite bpow_opp. apply Rinv_le_contravar; [now apply Rabs_pos_lt|exact Ls]. }
  destruct (u_small (f := f)) as [U1 U2]. assert (EE := eta_ok (f := f)). assert (PS : 0 < / Rabs (B2R s)) by (apply Rinv_0_lt_compat; now apply Rabs_pos_lt).
  set (pp := B2R p) in *. set (ss := B2R s) in *. set (qq := B2R q) in *. set (rr := B2R (fdiv sone s)) in *. set (ww := B2R (fmul q _)) in *. clearbody pp ss qq rr ww.
  assert (P0 := Rabs_pos pp). set (is := / Rabs ss) in *. assert (IS : Rabs ss * is = 1) by (unfold is; field; now apply Rabs_no_R0).
  (* q * r against p *)
  assert (RB : Rabs rr <= (1 + u) * is). { replace rr with (/ ss + (rr - / ss)) by ring. eapply Rle_trans; [apply Rabs_triang|]. rewrite Rabs_inv. fold is. lra. }
  assert (QR : Rabs (qq * rr - pp) <= (2 * u + u * u) * Rabs pp + (1 + u) * is * eta).
  { replace (qq * rr - pp) with ((qq - pp * ss) * rr + pp * ss * (rr - / ss)) by (field; assumption). eapply Rle_trans; [apply Rabs_triang|]. rewrite !Rabs_mult. rewrite Rabs_mult in A.
    assert (Rabs (qq - pp * ss) * Rabs rr <= (u * (Rabs pp * Rabs ss) + eta) * ((1 + u) * is)) by (apply Rmult_le_compat; try assumption; apply Rabs_pos).
    assert (Rabs pp * Rabs ss * Rabs (rr - / ss) <= Rabs pp * Rabs ss * (u * is)) by (apply Rmult_le_compat_l; [apply Rmult_le_pos; apply Rabs_pos|exact D]).
    replace ((u * (Rabs pp * Rabs ss) + eta) * ((1 + u) * is)) with (u * (1 + u) * Rabs pp * (Rabs ss * is) + (1 + u) * is * eta) in * by ring. replace (Rabs pp * Rabs ss * (u * is)) with (u * Rabs pp * (Rabs ss * is)) in * by ring. rewrite IS in *. lra. }
  set (e := (2 * u + u * u) * Rabs pp + (1 + u) * is * eta) in *.
  assert (AB : Rabs (qq * rr) <= Rabs pp + e). { replace (qq * rr) with (pp + (qq * rr - pp)) by ring. eapply Rle_trans; [apply Rabs_triang|]. lra. }
  replace (ww - pp) with ((ww - qq * rr) + (qq * rr - pp)) by ring. eapply Rle_trans; [apply Rabs_triang|].
  assert (u * Rabs (qq * rr) <= u * (Rabs pp + e)) by (apply Rmult_le_compat_l; lra). 
  assert (L : (1 + u) * e + u * Rabs pp <= 4 * u * Rabs pp + smallest_float f * is).
  { unfold e. assert (0 <= u * Rabs pp) by (apply Rmult_le_pos; lra). assert (0 <= is * eta) by (apply Rmult_le_pos; lra).
    assert (u * (u * Rabs pp) <= / 16 * (u * Rabs pp)) by (apply Rmult_le_compat_r; lra). assert (u * (u * (u * Rabs pp)) <= / 16 * (u * Rabs pp)) by (eapply Rle_trans; [|eassumption]; apply Rmult_le_compat_l; [lra|]; rewrite <- (Rmult_1_l (u * Rabs pp)) at 2; apply Rmult_le_compat_r; lra).
    assert (u * (is * eta) <= / 16 * (is * eta)) by (apply Rmult_le_compat_r; lra). assert (u * (u * (is * eta)) <= / 16 * (is * eta)) by (eapply Rle_trans; [|eassumption]; apply Rmult_le_compat_l; [lra|]; rewrite <- (Rmult_1_l (is * eta)) at 2; apply Rmult_le_compat_r; lra). lra. }
  lra.
Qed.
Lemma scale_back (s p : vec FT 3) : usable_scale s -> fall finite p ->
  (exists q, t_map_point (scale s) p = Ret q /\ (fall finite q -> exists w, t_map_point_inverse (scale s) q = Ret w /\
    (fall finite w -> forall i, Rabs (B2R (Vector.nth w i) - B2R (Vector.nth p i)) <= 4 * u * Rabs (B2R (Vector.nth p i)) + smallest_float f * (1 + / Rabs (B2R (Vector.nth s i)))))) /\
  (exists q, t_map_vector (scale s) p = Ret q /\ (fall finite q -> exists w, t_map_vector_inverse (scale s) q = Ret w /\
    (fall finite w -> forall i, Rabs (B2R (Vector.nth w i) - B2R (Vector.nth p i)) <= 4 * u * Rabs (B2R (Vector.nth p i)) + smallest_float f * (1 + / Rabs (B2R (Vector.nth s i)))))).
Proof.
  intros Us Fp. assert (Fs : fall finite s) by (intros i; apply (Us i)). set (r := v_div (vec3 sone sone sone) s).
  assert (R : forall i, r @ i = fdiv sone (s @ i)). { intros i. unfold r. transitivity (fdiv (Vector.nth (vec3 sone sone sone : vec FT 3) i) (s @ i)); [exact (Vector.nth_map2 _ _ s i i i eq_refl eq_refl)|]. f_equal. apply (Fin.caseS' i); [reflexivity|]. intros i'. apply (Fin.caseS' i'); [reflexivity|]. intros i''. apply (Fin.caseS' i''); [reflexivity|]. intros x. inversion x. }
  assert (Fr : fall finite r) by (intros i; rewrite R; apply (Us i)).
  destruct (scale_map s p Fs Fp) as [(q & E & Q) (q' & E' & Q')].
  assert (M : forall a b : vec FT 3, forall i, v_mul a b @ i = fmul (a @ i) (b @ i)) by (intros a b i; exact (Vector.nth_map2 _ a b i i i eq_refl eq_refl)).
  split; [exists q|exists q']; (split; [assumption|]); intros Fq.
  - destruct (scale_map_inv s r q Fr Fq eq_refl) as [(w & E2 & W) _]. exists w. split; [exact E2|]. intros Fw i. assert (Qi := Q i). assert (Wi := W i). rewrite M in Qi, Wi. rewrite R in Wi. destruct (Us i) as (A & B & _ & D). exact (back_mul _ _ _ _ A B D Qi (Fq i) Wi (Fw i)).
  - destruct (scale_map_inv s r q' Fr Fq eq_refl) as [_ (w & E2 & W)]. exists w. split; [exact E2|]. intros Fw i. assert (Qi := Q' i). assert (Wi := W i). rewrite M in Qi, Wi. rewrite R in Wi. destruct (Us i) as (A & B & _ & D). exact (back_mul _ _ _ _ A B D Qi (Fq i) Wi (Fw i)).
Qed.
End S.

(** 1 + MAX - MAX = 0 *)
Lemma not_exact f (m : libm f) : exists (v p q w : vec (float f) 3), fall finite v /\ fall finite p /\ t_map_point (translate v) p = Ret q /\ fall finite q /\ t_map_point_inverse (translate v) q = Ret w /\ fall finite w /\ f3 w <> f3 p.
Proof.
  set (mx := fmax_value : float f). set (v := vec3 mx mx mx). set (p := fv f 1 1 1). exists v, p.
  assert (Fm : finite mx) by (unfold mx; destruct f; reflexivity). assert (Fv : fall finite v) by (unfold v; intros i; apply (Fin.caseS' i); [exact Fm|]; intros i'; apply (Fin.caseS' i'); [exact Fm|]; intros i''; apply (Fin.caseS' i''); [exact Fm|]; intros x; inversion x).
  assert (Fp : fall finite p) by (apply fv_finite; lia).
  assert (A : fadd (f_of_Z 1) mx = mx) by (unfold mx; destruct f; apply B2SF_inj; vm_compute; reflexivity).
  destruct (translate_point v p Fv Fp) as (q & E & Q). rewrite v3_add in Q. change (feqv q (vec3 (fadd (f_of_Z 1) mx) (fadd (f_of_Z 1) mx) (fadd (f_of_Z 1) mx))) in Q. rewrite A in Q.
  assert (Q3 : forall i, finite (Vector.nth q i) /\ B2R (Vector.nth q i) = B2R mx).
  { assert (G : forall x : float f, feq x mx -> finite x /\ B2R x = B2R mx). { intros x H. apply feq_E in H. destruct H as (Nx & _ & H). assert (R := finite_E_range mx Fm). rewrite <- H in R. assert (Fx : finite x) by (apply finite_of_range; assumption). split; [exact Fx|]. now rewrite <- !E_B2R. }
    intros i. apply G. assert (Qi := Q i). revert Qi. apply (Fin.caseS' i); [intros H; exact H|]. intros i'. apply (Fin.caseS' i'); [intros H; exact H|]. intros i''. apply (Fin.caseS' i''); [intros H; exact H|]. intros x. inversion x. }
  assert (Fq : fall finite q) by (intros i; apply Q3). destruct (translate_point_inv v q Fv Fq) as (w & E2 & W). exists q, w.
  assert (SZ : forall x : float f, finite x -> B2R x = B2R mx -> finite (fsub x mx) /\ B2R (fsub x mx) = 0).
  { intros x Fx Vx. assert (R0 := fsub_Rnd x mx Fx Fm). rewrite Vx, Rminus_diag_eq in R0 by reflexivity. exact (val_Rnd (fzero false) _ 0 eq_refl eq_refl R0). }
  assert (W3 : forall i, finite (Vector.nth w i) /\ B2R (Vector.nth w i) = 0).
  { assert (G : forall x y : float f, feq y (fsub x mx) -> finite x -> B2R x = B2R mx -> finite y /\ B2R y = 0). { intros x y H Fx Vx. destruct (SZ x Fx Vx) as [F0 V0]. apply feq_E in H. destruct H as (Ny & _ & H). assert (R := finite_E_range _ F0). rewrite <- H in R. assert (Fy : finite y) by (apply finite_of_range; assumption). split; [exact Fy|]. rewrite <- V0. now rewrite <- !E_B2R. }
    rewrite v3_sub in W. intros i. assert (Wi := W i). revert Wi. apply (Fin.caseS' i); [intros H; exact (G _ _ H (proj1 (Q3 _)) (proj2 (Q3 _)))|]. intros i'. apply (Fin.caseS' i'); [intros H; exact (G _ _ H (proj1 (Q3 _)) (proj2 (Q3 _)))|]. intros i''. apply (Fin.caseS' i''); [intros H; exact (G _ _ H (proj1 (Q3 _)) (proj2 (Q3 _)))|]. intros x. inversion x. }
  repeat (split; [first [assumption|intros i; apply W3]|]). intros H. assert (X : cX (f3 w) = cX (f3 p)) by now rewrite H. change (B2R (Vector.nth w Fin.F1) = B2R (f_of_Z 1 : float f)) in X. rewrite (proj2 (W3 _)), (small_Z f) in X by lia. lra.
Qed.
(** ** samples *)
Definition get {A} (o : outcome A) (d : A) : A := match o with Ret q => q | Panic => d end.
Lemma get_ok {A} (o : outcome A) d P : returns o P -> o = Ret (get o d).
Proof. intros (q & -> & _). reflexivity. Qed.
Ltac fins f := unfold fall; a3; destruct f; vm_compute; reflexivity.
Lemma maps_sample f (m : libm f) : let t := t_mul (translate (fv f 1 (-2) 3)) (scale (fv f 2 3 4)) in let p := fv f 4 0 7 in let r := mkRay p (fv f 1 1 1) (f_of_Z 9) in
  (exists A, fM (t_matrix t) A /\ affine A) /\ (forall i j, finite (t_matrix (t_mul t t) @ i @ j)) /\ fall finite p /\
  (exists q1 q2 q, t_map_point t p = Ret q1 /\ fall finite q1 /\ t_map_point t q1 = Ret q2 /\ fall finite q2 /\ t_map_point (t_mul t t) p = Ret q /\ fall finite q) /\
  (exists q1 q2 q, t_map_vector t p = Ret q1 /\ fall finite q1 /\ t_map_vector t q1 = Ret q2 /\ fall finite q2 /\ t_map_vector (t_mul t t) p = Ret q /\ fall finite q) /\
  (exists r' q, t_map_ray t r = Ret r' /\ fall finite (origin r') /\ fall finite (direction r') /\ fall finite (ray_eval r' (f_of_Z 2)) /\ fall finite (ray_eval r (f_of_Z 2)) /\ t_map_point t (ray_eval r (f_of_Z 2)) = Ret q /\ fall finite q) /\
  usable_scale (fv f 2 (-3) 7).
Proof.
  intros t p r. destruct (C77_sample f m) as (_ & _ & _ & (A & HA & AA) & _ & _ & FM). change (fM (t_matrix t) A) in HA. change (forall i j, finite (t_matrix (t_mul t t) @ i @ j)) in FM.
  destruct (mul_affine _ _ A A HA AA HA AA FM) as (M & HM & AM & _). change (fM (t_matrix (t_mul t t)) M) in HM.
  split; [exists A; split; assumption|]. split; [exact FM|]. assert (Fp : fall finite p) by (apply fv_finite; lia). split; [exact Fp|].
  set (q1 := get (t_map_point t p) p). assert (F1 : fall finite q1) by (unfold q1, p, t; fins f). set (q2 := get (t_map_point t q1) p). set (q3 := get (t_map_point (t_mul t t) p) p).
  set (d1 := get (t_map_vector t p) p). assert (D1 : fall finite d1) by (unfold d1, p, t; fins f). set (d2 := get (t_map_vector t d1) p). set (d3 := get (t_map_vector (t_mul t t) p) p).
  split. { exists q1, q2, q3. split; [exact (get_ok _ _ _ (map_point_no_panic t A p HA AA Fp))|]. split; [exact F1|]. split; [exact (get_ok _ _ _ (map_point_no_panic t A q1 HA AA F1))|]. split; [unfold q2, q1, p, t; fins f|].
    split; [exact (get_ok _ _ _ (map_point_no_panic _ M p HM AM Fp))|unfold q3, p, t; fins f]. }
  split. { exists d1, d2, d3. split; [exact (get_ok _ _ _ (map_vector_no_panic t A p HA AA Fp))|]. split; [exact D1|]. split; [exact (get_ok _ _ _ (map_vector_no_panic t A d1 HA AA D1))|]. split; [unfold d2, d1, p, t; fins f|].
    split; [exact (get_ok _ _ _ (map_vector_no_panic _ M p HM AM Fp))|unfold d3, p, t; fins f]. }
  split. { assert (Fe : fall finite (ray_eval r (f_of_Z 2))) by (unfold r, p; fins f). assert (Fd : fall finite (fv f 1 1 1)) by (apply fv_finite; lia). set (d := get (t_map_vector t (fv f 1 1 1)) p).
    exists (mkRay q1 d (f_of_Z 9)), (get (t_map_point t (ray_eval r (f_of_Z 2))) p). cbn [origin direction].
    split. { unfold t_map_ray. cbn [origin direction r tmax]. rewrite (get_ok _ p _ (map_point_no_panic t A p HA AA Fp)), (get_ok _ p _ (map_vector_no_panic t A (fv f 1 1 1) HA AA Fd)). reflexivity. }
    split; [exact F1|]. split; [unfold d, p, t; fins f|]. split; [unfold d, q1, p, t; fins f|]. split; [exact Fe|]. split; [exact (get_ok _ _ _ (map_point_no_panic t A _ HA AA Fe))|unfold r, p, t; fins f]. }
  assert (B : forall z, (Z.abs z <= 8)%Z -> z <> 0%Z -> finite (f_of_Z z : float f) -> finite (fdiv (f_of_Z 1) (f_of_Z z) : float f) ->
    finite (f_of_Z z : float f) /\ B2R (f_of_Z z : float f) <> 0 /\ finite (fdiv (f_of_Z 1) (f_of_Z z) : float f) /\ Rabs (B2R (f_of_Z z : float f)) <= bpow radix2 (emax f - 2)).
  { intros z Hz Nz F1' F2'. split; [exact F1'|]. rewrite (small_Z f) by lia. split; [now apply not_0_IZR|]. split; [exact F2'|]. rewrite <- abs_IZR. apply Rle_trans with (IZR 8); [now apply IZR_le|]. change (IZR 8) with (bpow radix2 3). apply bpow_le. destruct f; vm_compute; discriminate. }
  unfold usable_scale. intros i. cbv zeta. revert i. a3; apply B; try lia; destruct f; vm_compute; reflexivity.
Qed.
