(** The float area of sphere parts: accuracy and monotonicity. *)
From Coq Require Import ZArith Reals Bool List Lra Lia Psatz.
From Coq Require Vector Fin.
From Flocq Require Import Core BinarySingleNaN.
From Verif.Model Require Import FloatBase Scalar Float Interval Outcome Vec Transform XReal Geometry.
From Verif Require Import Spec SpecGeom SpecShape SpecSphere.
From Verif.Proofs Require Import BitsLemmas FloatLemmas ScalarProofs VectorFloat VectorErr SlabFloat SlabCases SphereCases.
Open Scope R_scope.
Section F.
Context {f : fmt} {m : libm f}.
Notation FT := (float f).
Notation u := (unit_roundoff f).
Notation eta := (smallest_float f / 2).
Lemma u_256 : u <= / 256. Proof. unfold unit_roundoff. change (/ 256) with (bpow radix2 (-8)). apply bpow_le. destruct f; cbn; lia. Qed.
Lemma area_eq (s : sphere FT) : s_area s = fmul (fmul (phi_max s) (radius s)) (fsub (z_max s) (z_min s)). Proof. reflexivity. Qed.
Lemma area_parts (s : sphere FT) : finite (s_area s) -> finite (phi_max s) /\ finite (radius s) /\ finite (z_max s) /\ finite (z_min s) /\ finite (fmul (phi_max s) (radius s)) /\ finite (fsub (z_max s) (z_min s)).
Proof. rewrite area_eq. intros F. destruct (fmul_fin _ _ F) as [F1 F2]. destruct (fmul_fin _ _ F1) as [F3 F4]. destruct (sub_fin _ _ F2) as [F5 F6]. auto 10. Qed.
Lemma area_close (s : sphere FT) : finite (s_area s) ->
  let D := B2R (z_max s) - B2R (z_min s) in let A := B2R (phi_max s) * B2R (radius s) * D in
  Rabs (B2R (s_area s) - A) <= 4 * u * Rabs A + smallest_float f * (Rabs D + 1).
Proof.
  intros F D A. destruct (area_parts s F) as (F1 & F2 & F3 & F4 & F5 & F6). rewrite area_eq in *.
  assert (E1 := mul_err _ _ F5). assert (E2 := sub_rel _ _ F3 F4 F6). assert (E3 := mul_err _ _ F). fold D in E2.
  set (P := B2R (phi_max s) * B2R (radius s)) in *. set (p := B2R (fmul (phi_max s) (radius s))) in *. set (d := B2R (fsub (z_max s) (z_min s))) in *. set (a := B2R (fmul (fmul (phi_max s) (radius s)) (fsub (z_max s) (z_min s)))) in *.
  assert (U0 := u_pos (f := f)). assert (U1 := u_256). assert (T0 := eta_pos (f := f)). set (e := eta) in *. assert (HE : smallest_float f = 2 * e) by (unfold e; field). rewrite HE.
  unfold A. rewrite Rabs_mult. set (x := Rabs P) in *. set (y := Rabs D) in *. assert (X0 : 0 <= x) by apply Rabs_pos. assert (Y0 : 0 <= y) by apply Rabs_pos.
  assert (Hd : Rabs d <= (1 + u) * y). { replace d with (D + (d - D)) by ring. eapply Rle_trans; [apply Rabs_triang|]. fold y. lra. }
  assert (K1 : Rabs (p * d - P * D) <= (u * x + e) * ((1 + u) * y) + x * (u * y)).
  { replace (p * d - P * D) with ((p - P) * d + P * (d - D)) by ring. eapply Rle_trans; [apply Rabs_triang|]. rewrite !Rabs_mult. fold x. apply Rplus_le_compat; apply Rmult_le_compat; first [apply Rabs_pos | assumption | apply Rle_refl]. }
  assert (K2 : Rabs (p * d) <= x * y + ((u * x + e) * ((1 + u) * y) + x * (u * y))).
  { replace (p * d) with (P * D + (p * d - P * D)) by ring. eapply Rle_trans; [apply Rabs_triang|]. rewrite Rabs_mult. fold x y. lra. }
  assert (K3 : Rabs (a - P * D) <= u * Rabs (p * d) + e + ((u * x + e) * ((1 + u) * y) + x * (u * y))).
  { replace (a - P * D) with ((a - p * d) + (p * d - P * D)) by ring. eapply Rle_trans; [apply Rabs_triang|]. lra. }
  eapply Rle_trans; [exact K3|]. assert (XY : 0 <= x * y) by (apply Rmult_le_pos; assumption). assert (EY : 0 <= e * y) by (apply Rmult_le_pos; lra).
  apply Rle_trans with (u * (x * y + ((u * x + e) * ((1 + u) * y) + x * (u * y))) + e + ((u * x + e) * ((1 + u) * y) + x * (u * y))); [assert (u * Rabs (p * d) <= u * (x * y + ((u * x + e) * ((1 + u) * y) + x * (u * y)))) by (apply Rmult_le_compat_l; lra); lra|].
  assert (Q1 : u * u <= u / 256) by nra. assert (Q2 : u * u * u <= u / 256) by nra.
  replace (u * (x * y + ((u * x + e) * ((1 + u) * y) + x * (u * y))) + e + ((u * x + e) * ((1 + u) * y) + x * (u * y))) with ((x * y) * (3 * u + 3 * (u * u) + u * u * u) + (e * y) * (1 + 2 * u + u * u) + e) by ring.
  assert (R1 : (x * y) * (3 * u + 3 * (u * u) + u * u * u) <= (x * y) * (4 * u)) by (apply Rmult_le_compat_l; [exact XY|lra]).
  assert (R2 : (e * y) * (1 + 2 * u + u * u) <= (e * y) * 2) by (apply Rmult_le_compat_l; [exact EY|lra]). lra.
Qed.
(** the float area is close to the area of the surface [0 <= phi <= phi_max] *)
Theorem area_accurate (rd z0 z1 p1 : FT) (s : sphere FT) : s_new rd z0 z1 p1 = Ret s -> 0 < B2R rd -> - B2R rd <= B2R z0 -> B2R z1 <= B2R rd -> finite (s_area s) ->
  exists A, area_of (spherical (B2R rd)) 0 (B2R p1) (acos (B2R z1 / B2R rd)) (acos (B2R z0 / B2R rd)) A /\
   Rabs (B2R (s_area s) - A) <= 4 * u * Rabs A + smallest_float f * (B2R z1 - B2R z0 + 1).
Proof.
  intros HS HR H0 H1 F. unfold s_new, oassert in HS. destruct (slt z0 z1) eqn:L; [|discriminate]. injection HS as <-. destruct (area_parts _ F) as (F1 & F2 & F3 & F4 & F5 & F6). cbn [phi_max radius z_max z_min] in *.
  change (lt_of fcmp z0 z1 = true) in L. apply lt_true in L. destruct L as (_ & _ & L). rewrite !E_B2R in L by assumption.
  exists (B2R p1 * B2R rd * (B2R z1 - B2R z0)). split.
  - replace (B2R p1 * B2R rd * (B2R z1 - B2R z0)) with ((B2R p1 - 0) * (B2R rd * (B2R z1 - B2R z0))) by ring. apply spherical_area; lra.
  - assert (K := area_close _ F). cbv zeta in K. cbn [phi_max radius z_max z_min] in K. rewrite (Rabs_pos_eq (B2R z1 - B2R z0)) in K by lra. exact K.
Qed.
(** a larger part has no smaller area *)
Theorem area_monotone (s s' : sphere FT) : finite (s_area s') -> fle (fzero false) (phi_max s) -> fle (phi_max s) (phi_max s') -> fle (fzero false) (radius s) -> fle (radius s) (radius s') ->
  fle (z_min s') (z_min s) -> fle (z_min s) (z_max s) -> fle (z_max s) (z_max s') -> finite (s_area s) /\ fle (fzero false) (s_area s) /\ fle (s_area s) (s_area s').
Proof.
  intros F P0 P1 R0 R1 Z0 Z1 Z2. destruct (area_parts s' F) as (G1 & G2 & G3 & G4 & G5 & G6). rewrite fle_E in *. rewrite !area_eq in *. assert (HT := top_pos (f := f)).
  destruct P0 as (_ & N1 & P0). destruct P1 as (_ & _ & P1). destruct R0 as (_ & N2 & R0). destruct R1 as (_ & _ & R1). destruct Z0 as (_ & N3 & Z0). destruct Z1 as (_ & N4 & Z1). destruct Z2 as (_ & _ & Z2). change (E (fzero false : FT)) with 0 in *.
  assert (B1 := finite_E_range _ G1). assert (B2 := finite_E_range _ G2). assert (B3 := finite_E_range _ G3). assert (B4 := finite_E_range _ G4).
  assert (F1 : finite (phi_max s)) by (apply finite_of_range; [assumption|lra]). assert (F2 : finite (radius s)) by (apply finite_of_range; [assumption|lra]). assert (F3 : finite (z_max s)) by (apply finite_of_range; [assumption|lra]). assert (F4 : finite (z_min s)) by (apply finite_of_range; [assumption|lra]).
  rewrite (E_B2R (phi_max s) F1) in P0, P1. rewrite (E_B2R (phi_max s') G1) in P1. rewrite (E_B2R (radius s) F2) in R0, R1. rewrite (E_B2R (radius s') G2) in R1. rewrite (E_B2R (z_max s) F3) in Z1, Z2. rewrite (E_B2R (z_max s') G3) in Z2. rewrite (E_B2R (z_min s) F4) in Z0, Z1. rewrite (E_B2R (z_min s') G4) in Z0.
  assert (ZR : Rnd (fzero false : FT) 0) by (apply Rnd_of_finite; [reflexivity|symmetry; apply rnd_0]).
  assert (S1 := fmul_Rnd _ _ F1 F2). assert (S1' := fmul_Rnd _ _ G1 G2). assert (S2 := fsub_fadd _ _ F3 F4). assert (S2' := fsub_fadd _ _ G3 G4).
  assert (L1 := Rnd_mono _ _ _ _ ZR S1 ltac:(nra)). assert (M1 := Rnd_mono _ _ _ _ S1 S1' ltac:(nra)). assert (L2 := Rnd_mono _ _ _ _ ZR S2 ltac:(lra)). assert (M2 := Rnd_mono _ _ _ _ S2 S2' ltac:(lra)). change (E (fzero false : FT)) with 0 in *.
  assert (B5 := finite_E_range _ G5). assert (B6 := finite_E_range _ G6).
  assert (F5 : finite (fmul (phi_max s) (radius s))) by (apply finite_of_range; [apply S1|lra]). assert (F6 : finite (fsub (z_max s) (z_min s))) by (apply finite_of_range; [apply S2|lra]).
  rewrite (E_B2R _ F5) in L1, M1. rewrite (E_B2R _ F6) in L2, M2. rewrite (E_B2R _ G5) in M1. rewrite (E_B2R _ G6) in M2.
  assert (S3 := fmul_Rnd _ _ F5 F6). assert (S3' := fmul_Rnd _ _ G5 G6). assert (L3 := Rnd_mono _ _ _ _ ZR S3 ltac:(nra)). assert (M3 := Rnd_mono _ _ _ _ S3 S3' ltac:(nra)). change (E (fzero false : FT)) with 0 in *.
  assert (B7 := finite_E_range _ F). split; [apply finite_of_range; [apply S3|lra]|]. rewrite !fle_E. change (E (fzero false : FT)) with 0. split; (split; [reflexivity || apply S3|split; [apply S3 || apply S3'|assumption]]).
Qed.
End F.
Lemma new_ret {f} {m : libm f} (rd z0 z1 p1 : float f) : lt_of fcmp z0 z1 = true ->
  s_new rd z0 z1 p1 = Ret (mkS rd z0 z1 (gacos (native_clamp (sdiv z0 rd) szero sone)) (gacos (native_clamp (sdiv z1 rd) szero sone)) p1).
Proof. intros H. unfold s_new, oassert. match goal with |- (if ?c then _ else _) = _ => replace c with true by (symmetry; exact H) end. reflexivity. Qed.
Lemma area_sample f (m : libm f) : exists s s', s_new (f_of_Z 2) (f_of_Z (-1)) (f_of_Z 1) (f_of_Z 3) = Ret s /\ s_new (f_of_Z 5) (f_of_Z (-2)) (f_of_Z 4) (f_of_Z 6) = Ret s' /\
  finite (s_area s) /\ finite (s_area s') /\ 0 < B2R (f_of_Z 2 : float f) /\ - B2R (f_of_Z 2 : float f) <= B2R (f_of_Z (-1) : float f) /\ B2R (f_of_Z 1 : float f) <= B2R (f_of_Z 2 : float f) /\
  fle (fzero false) (phi_max s) /\ fle (phi_max s) (phi_max s') /\ fle (fzero false) (radius s) /\ fle (radius s) (radius s') /\ fle (z_min s') (z_min s) /\ fle (z_min s) (z_max s) /\ fle (z_max s) (z_max s').
Proof.
  assert (L : forall a b : float f, lt_of fcmp a b = true -> fle a b). { intros a b H. apply lt_true in H. apply fle_E. split; [tauto|]. split; [tauto|lra]. }
  assert (V : forall k, (Z.abs k <= 10)%Z -> B2R (f_of_Z k : float f) = IZR k). { intros k K. apply small_Z. lia. }
  assert (S1 : lt_of fcmp (f_of_Z (-1) : float f) (f_of_Z 1) = true) by (destruct f; vm_compute; reflexivity). assert (S2 : lt_of fcmp (f_of_Z (-2) : float f) (f_of_Z 4) = true) by (destruct f; vm_compute; reflexivity).
  rewrite (new_ret (m := m) (f_of_Z 2) _ _ (f_of_Z 3) S1), (new_ret (m := m) (f_of_Z 5) _ _ (f_of_Z 6) S2).
  eexists. eexists. split; [reflexivity|]. split; [reflexivity|]. rewrite !area_eq. cbn [phi_max radius z_min z_max]. rewrite !V by lia.
  split; [destruct f; vm_compute; reflexivity|]. split; [destruct f; vm_compute; reflexivity|]. split; [lra|]. split; [lra|]. split; [lra|].
  repeat (apply conj; [apply L; destruct f; vm_compute; reflexivity|]). apply L; destruct f; vm_compute; reflexivity.
Qed.
