(** The film of the thin lens camera in f32/f64. *)
From Coq Require Import ZArith Reals Bool Lra Lia.
From Coq Require Vector Fin.
From Flocq Require Import Core BinarySingleNaN.
From Verif.Model Require Import FloatBase Scalar Float Interval Outcome Vec Transform XReal Camera.
From Verif Require Import Spec SpecGeom SpecShape SpecTrig SpecError SpecQuad SpecPersp SpecLens.
From Verif.Proofs Require Import BitsLemmas FloatLemmas ScalarProofs XRealLemmas TransformCases VectorErr MapErr IntervalTrig2 DiskFloat CameraFloat QuadFloat SphereNear PerspFloat PerspThms LensCases.
Open Scope R_scope.
Section F.
Context {f : fmt} {m : libm f}.
Notation FT := (float f).
Notation u := (unit_roundoff f).
Lemma us_mg (x : FT) : usual_size x -> mg 10 20 (B2R x).
Proof. intros [_ H]. exact H. Qed.
Lemma film_parts (fd fov fl ar : FT) : good_tan m -> usual_fov fov -> usual_size fd -> usual_size fl -> usual_size ar -> / 1024 <= Rabs (B2R fd - B2R fl) ->
  let t := tan (B2R fov / 2) in let D := B2R fd * B2R fl / (B2R fd - B2R fl) in
  let d := fdiv (fmul fd fl) (fsub fd fl) in let w := fmul (fmul half (m_tan m (fmul fov half))) d in let h := fdiv w ar in
  ap (33 / 10) d D /\ ap (8 - 4 / 10) w (1 / 2 * t * D) /\ ap (9 - / 10) h (1 / 2 * t * D / B2R ar) /\
  ap (5 - / 10) w (t / 2 * B2R d) /\ ap (1 + / 10) h (B2R w / B2R ar) /\ B2R d <> 0 /\ B2R w <> 0 /\ 0 < t.
Proof.
  intros GT UF US UL UA SEP t D d w h.
  assert (Mfd := us_mg fd US). assert (Mfl := us_mg fl UL). assert (Mar := us_mg ar UA). destruct US as [Ffd Bfd]. destruct UL as [Ffl Bfl]. destruct UA as [Far Bar].
  assert (Ms : mg 10 21 (B2R fd - B2R fl)). { split; [exact SEP|]. change (bpow radix2 21) with 2097152. eapply Rle_trans; [apply Rabs_triang|]. rewrite Rabs_Ropp. lra. }
  assert (Mp := mg_mul _ _ _ _ _ _ Mfd Mfl). assert (MD := mg_div _ _ _ _ _ _ Mp Ms). fold D in MD.
  assert (Ap := ap_mul _ _ _ _ _ _ (ap_self fd Ffd) (ap_self fl Ffl) ltac:(lra) ltac:(lra) (or_intror (mg_ok _ _ _ Mp ltac:(lia) ltac:(lia)))).
  assert (As : ap 1 (fsub fd fl) (B2R fd - B2R fl)). { apply ap_sub; [exact Ffd|exact Ffl|]. apply Rle_trans with (1 := proj2 Ms). apply bpow_le. lia. }
  assert (Ad : ap (33 / 10) d D). { eapply ap_le; [exact (ap_div _ _ _ _ _ _ Ap As ltac:(lra) ltac:(lra) (mg_nz _ _ _ Ms) (or_intror (mg_ok _ _ _ MD ltac:(lia) ltac:(lia))))|lra]. }
  assert (Md := mg_ap _ _ _ _ _ Ad ltac:(lra) MD). assert (Fd := proj1 Ad).
  destruct (entry_e fov GT UF) as (_ & Mt & T0). fold t in Mt, T0.
  assert (At : ap (2 + / 10) (m_tan m (fmul fov half)) t).
  { destruct UF as (F & A & T). fold t in T. assert (Q := PI_RGT_0). destruct (mul_half fov F ltac:(lra)) as [Fh Vh].
    apply ap_lib; [|exact T0|exact (mg_ok _ _ _ Mt ltac:(lia) ltac:(lia))]. unfold t. rewrite <- Vh. apply GT; [exact Fh|]. rewrite Vh. fold t. rewrite Rabs_pos_eq by lra. apply Rle_trans with (1 := T). change 1024 with (bpow radix2 10). apply bpow_le. lia. }
  assert (Mh : mg 1 0 (1 / 2)) by (unfold mg; rewrite Rabs_pos_eq by lra; cbn; lra).
  assert (Mx := mg_mul _ _ _ _ _ _ Mh Mt).
  assert (Ax := ap_mul _ _ _ _ _ _ (ap_val _ _ (half_val (f := f))) At ltac:(lra) ltac:(lra) (or_intror (mg_ok _ _ _ Mx ltac:(lia) ltac:(lia)))).
  assert (MW := mg_mul _ _ _ _ _ _ Mx MD).
  assert (Aw := ap_mul _ _ _ _ _ _ Ax Ad ltac:(lra) ltac:(lra) (or_intror (mg_ok _ _ _ MW ltac:(lia) ltac:(lia)))). apply ap_le with (l := 8 - 4 / 10) in Aw; [|lra].
  change (ap (8 - 4 / 10) w (1 / 2 * t * D)) in Aw.
  assert (Mw := mg_ap _ _ _ _ _ Aw ltac:(lra) MW). assert (Fw := proj1 Aw).
  assert (MH := mg_div _ _ _ _ _ _ MW Mar). assert (Nar := mg_nz _ _ _ Mar).
  split; [exact Ad|]. split; [exact Aw|]. split; [|split; [|split; [|split; [exact (mg_nz _ _ _ Md)|split; [exact (mg_nz _ _ _ Mw)|exact T0]]]]].
  - eapply ap_le; [exact (ap_div _ _ _ _ _ _ Aw (ap_self ar Far) ltac:(lra) ltac:(lra) Nar (or_intror (mg_ok _ _ _ MH ltac:(lia) ltac:(lia))))|lra].
  - eapply ap_le; [eapply ap_eq; [exact (ap_mul _ _ _ _ _ _ Ax (ap_self d Fd) ltac:(lra) ltac:(lra) (or_intror (mg_ok _ _ _ (mg_mul _ _ _ _ _ _ Mx Md) ltac:(lia) ltac:(lia))))|field]|lra].
  - eapply ap_le; [exact (ap_div _ _ _ _ _ _ (ap_self w Fw) (ap_self ar Far) ltac:(lra) ltac:(lra) Nar (or_intror (mg_ok _ _ _ (mg_div _ _ _ _ _ _ Mw Mar) ltac:(lia) ltac:(lia))))|lra].
Qed.
Lemma ap_ratio k (x : FT) r s : ap k x (r * s) -> s <> 0 -> within_rel (k * u) (B2R x / s) r.
Proof. intros (_ & e & E & V) S. unfold within_rel. rewrite V. replace (r * s * (1 + e) / s - r) with (e * r) by (field; exact S). rewrite Rabs_mult. apply Rmult_le_compat_r; [apply Rabs_pos|exact E]. Qed.
Lemma ap_ratio2 k (x : FT) w a : ap k x (w / a) -> 0 <= k <= 40 -> w <> 0 -> a <> 0 -> within_rel ((k + / 200) * u) (w / B2R x) a.
Proof.
  intros (_ & e & E & V) K W A. destruct (invd (f := f) e k K E) as (g & G & I). assert (N : 1 + e <> 0). { intros Z. rewrite Z in I. rewrite Rinv_0 in I. assert (KU := DiskFloat.uu (f := f)). apply Rabs_le_inv in G. assert ((k + / 200) * u <= 41 * / 1000000) by (apply Rmult_le_compat; lra). lra. }
  unfold within_rel. rewrite V. replace (w / (w / a * (1 + e)) - a) with ((/ (1 + e) - 1) * a) by (field; auto). rewrite I, Rabs_mult. apply Rmult_le_compat_r; [apply Rabs_pos|]. replace (1 + g - 1) with g by ring. exact G.
Qed.
Lemma film_size view_ (fd fov fl lr ar : FT) : good_tan m -> usual_fov fov -> usual_size fd -> usual_size fl -> usual_size ar -> / 1024 <= Rabs (B2R fd - B2R fl) ->
  let c := thin_lens_new view_ fd fov fl lr ar in
  let t := tan (B2R fov / 2) in let D := B2R fd * B2R fl / (B2R fd - B2R fl) in let W := 1 / 2 * t * D in
  finite (film_width c) /\ within_rel (8 * u) (B2R (film_width c)) W /\
  finite (film_height c) /\ within_rel (9 * u) (B2R (film_height c)) (W / B2R ar) /\
  within_rel (5 * u) (B2R (film_width c) / B2R (film_distance c)) (t / 2) /\
  within_rel (2 * u) (B2R (film_width c) / B2R (film_height c)) (B2R ar).
Proof.
  intros GT UF US UL UA SEP c t D W. destruct (film_parts fd fov fl ar GT UF US UL UA SEP) as (Ad & Aw & Ah & Aq & Aa & Nd & Nw & T0).
  assert (U := DiskFloat.uu (f := f)). assert (Nar := mg_nz _ _ _ (us_mg ar UA)).
  assert (K : forall k l z r, k <= l -> within_rel (k * u) z r -> within_rel (l * u) z r).
  { intros k l z r L H. unfold within_rel in *. apply Rle_trans with (1 := H). apply Rmult_le_compat_r; [apply Rabs_pos|]. apply Rmult_le_compat_r; lra. }
  split; [exact (proj1 Aw)|]. split; [exact (K (8 - 4 / 10) 8 _ _ ltac:(lra) (ap_rel _ _ _ Aw))|]. split; [exact (proj1 Ah)|]. split; [exact (K (9 - / 10) 9 _ _ ltac:(lra) (ap_rel _ _ _ Ah))|].
  split; [exact (K (5 - / 10) 5 _ _ ltac:(lra) (ap_ratio _ _ _ _ Aq Nd))|].
  exact (K (1 + / 10 + / 200) 2 _ _ ltac:(lra) (ap_ratio2 _ _ _ _ Aa ltac:(lra) Nw Nar)).
Qed.
Lemma rel_range k z r l h : within_rel (k * u) z r -> 0 <= k <= 10 -> l <= Rabs r <= h -> 0 <= l -> l * (1 - / 100000) <= Rabs z <= h * (1 + / 100000).
Proof.
  intros H K R L. unfold within_rel in H. assert (U := DiskFloat.uu (f := f)). assert (KU : 0 <= k * u <= 10 * / 1000000) by (split; [apply Rmult_le_pos; lra|apply Rmult_le_compat; lra]).
  assert (P := Rabs_pos r). assert (k * u * Rabs r <= / 100000 * Rabs r) by (apply Rmult_le_compat_r; lra).
  assert (Rabs z <= Rabs r + Rabs (z - r)) by (replace z with (r + (z - r)) at 1 by ring; apply Rabs_triang).
  assert (Rabs r <= Rabs z + Rabs (z - r)) by (replace r with (z + - (z - r)) at 1 by ring; rewrite <- (Rabs_Ropp (z - r)); apply Rabs_triang). lra.
Qed.
Lemma built_usual view_ (fd fov fl lr ar : FT) : good_tan m -> usual_fov fov -> usual_size fd -> usual_size fl -> usual_size ar -> / 1024 <= Rabs (B2R fd - B2R fl) ->
  finite lr -> Rabs (B2R lr) <= 1048576 ->
  let t := tan (B2R fov / 2) in let D := B2R fd * B2R fl / (B2R fd - B2R fl) in let W := 1 / 2 * t * D in
  / 1000 <= Rabs D <= 1000000 -> / 1000 <= Rabs W <= 1000000 -> / 1000 <= Rabs (W / B2R ar) <= 1000000 -> / 500000 * (Rabs D + Rabs (B2R fd)) <= Rabs (D - B2R fd) ->
  usual_lens (thin_lens_new view_ fd fov fl lr ar).
Proof.
  intros GT UF US UL UA SEP FL BL t D W RD RW RH S. assert (Q := film_size view_ fd fov fl lr ar GT UF US UL UA SEP). cbv zeta in Q. fold t in Q. fold D in Q. fold W in Q. destruct Q as (Fw & Ww & Fh & Wh & _).
  destruct (film_distance_err view_ fd fov fl lr ar US UL SEP) as (_ & E1 & E2 & FD & WD). fold D in WD. set (c := thin_lens_new view_ fd fov fl lr ar) in *.
  assert (K0 : 0 <= / 1000) by lra. assert (U := DiskFloat.uu (f := f)).
  destruct (rel_range _ _ _ _ _ Ww ltac:(lra) RW K0). destruct (rel_range _ _ _ _ _ Wh ltac:(lra) RH K0). destruct (rel_range 4 _ _ _ _ WD ltac:(lra) RD K0).
  split; [split; [exact Fw|lra]|]. split; [split; [exact Fh|lra]|]. split; [split; [exact FD|lra]|]. rewrite E1, E2. destruct US as [Ffd Bfd]. split; [split; [exact Ffd|lra]|]. split; [split; [exact FL|exact BL]|].
  assert (PD := Rabs_pos D). assert (Pf := Rabs_pos (B2R fd)).
  assert (KU : 4 * u * Rabs D <= 4 * / 16000000 * Rabs D) by (apply Rmult_le_compat_r; [exact PD|]; destruct (u_small (f := f)); lra).
  assert (Rabs (B2R (film_distance c)) <= Rabs D + Rabs (B2R (film_distance c) - D)) by (replace (B2R (film_distance c)) with (D + (B2R (film_distance c) - D)) at 1 by ring; apply Rabs_triang).
  assert (Rabs (D - B2R fd) <= Rabs (B2R (film_distance c) - B2R fd) + Rabs (B2R (film_distance c) - D)).
  { replace (D - B2R fd) with ((B2R (film_distance c) - B2R fd) + - (B2R (film_distance c) - D)) by ring. rewrite <- (Rabs_Ropp (B2R (film_distance c) - D)). apply Rabs_triang. }
  lra.
Qed.
End F.
Lemma tan_half : / 2 <= tan (1 / 2) <= 1.
Proof.
  assert (P := PI_4). assert (Q := PI2_1). split.
  - replace (/ 2) with (1 / 2) by field. apply tan_ge. lra.
  - assert (T := tan_increasing (1 / 2) (PI / 4) ltac:(lra) ltac:(lra) ltac:(lra)). rewrite tan_PI4 in T. lra.
Qed.
Lemma film_sample f : let m := exact_libm f in good_tan m /\
  exists fd fov fl lr ar : float f, B2R fd = 3 /\ B2R fov = 1 /\ B2R fl = 2 /\ B2R lr = 1 /\ B2R ar = 2 /\
  usual_fov fov /\ usual_size fd /\ usual_size fl /\ usual_size ar /\ / 1024 <= Rabs (B2R fd - B2R fl) /\
  finite lr /\ Rabs (B2R lr) <= 1048576 /\
  let D := B2R fd * B2R fl / (B2R fd - B2R fl) in let W := 1 / 2 * tan (B2R fov / 2) * D in
  / 1000 <= Rabs D <= 1000000 /\ / 1000 <= Rabs W <= 1000000 /\ / 1000 <= Rabs (W / B2R ar) <= 1000000 /\ / 500000 * (Rabs D + Rabs (B2R fd)) <= Rabs (D - B2R fd).
Proof.
  intros m. split; [apply exact_tan|].
  assert (S : forall z, (Z.abs z <= 5)%Z -> finite (f_of_Z z : float f) /\ B2R (f_of_Z z : float f) = IZR z) by (intros z Hz; apply f_of_Z_exact; assert (1000 <= 2 ^ prec f)%Z by (destruct f; vm_compute; discriminate); lia).
  exists (f_of_Z 3), (f_of_Z 1), (f_of_Z 2), (f_of_Z 1), (f_of_Z 2).
  destruct (S 3%Z) as [f3 e3]; [lia|]. destruct (S 1%Z) as [f1 e1]; [lia|]. destruct (S 2%Z) as [f2 e2]; [lia|].
  unfold usual_fov, usual_size. rewrite e1, e2, e3. destruct tan_half as [T1 T2]. assert (P := PI2_1).
  cbv zeta. replace (3 * 2 / (3 - 2)) with 6 by field.
  assert (R6 : Rabs 6 = 6) by (apply Rabs_pos_eq; lra). assert (R3' : Rabs 3 = 3) by (apply Rabs_pos_eq; lra). assert (R2' : Rabs 2 = 2) by (apply Rabs_pos_eq; lra). assert (R1' : Rabs 1 = 1) by (apply Rabs_pos_eq; lra).
  replace (3 - 2) with 1 by ring. replace (6 - 3) with 3 by ring. rewrite R6, R3', R2', R1'. rewrite (Rabs_pos_eq (1 / 2 * tan (1 / 2) * 6)) by lra. rewrite (Rabs_pos_eq (1 / 2 * tan (1 / 2) * 6 / 2)) by lra.
  repeat split; try assumption; lra.
Qed.
