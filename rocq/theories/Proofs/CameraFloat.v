(** Thin lens rays in f32/f64. *)
From Coq Require Import ZArith Reals Bool List Lra Lia.
From Coq Require Vector Fin.
From Flocq Require Import Core BinarySingleNaN.
From Verif.Model Require Import FloatBase Scalar Float Interval Outcome Vec Transform XReal Geometry Camera.
From Verif Require Import Spec SpecGeom SpecShape SpecCamera SpecTrig SpecError SpecLens.
From Verif.Proofs Require Import BitsLemmas FloatLemmas ScalarProofs IntervalProofs2 XRealLemmas TransformFloat TransformCases VectorFloat SlabFloat VectorErr MapErr DiskFloat DiskCases.
Open Scope R_scope.
Notation "v @ i" := (Vector.nth v i) (at level 20, only parsing).
Local Arguments finite {f} x : simpl never.

Section CF.
Context {f : fmt} {m : libm f}.
Notation FT := (float f).
Notation u := (unit_roundoff f).
Notation eta := (smallest_float f / 2).

Lemma big_fin (z : FT) r : Rnd z r -> Rabs r <= bpow radix2 120 -> finite z /\ Rabs (B2R z - r) <= u * Rabs r + eta.
Proof.
  intros R K. assert (F : finite z).
  { destruct R as [NN E0]. apply finite_of_range; [exact NN|]. rewrite E0.
    assert (T : bpow radix2 120 < bpow radix2 (emax f)) by (apply bpow_lt; destruct f; vm_compute; reflexivity).
    assert (G : Rabs (rndf f r) <= bpow radix2 120).
    { apply abs_round_le_generic; [apply valid_fx|apply valid_rnd_N| |exact K]. apply generic_format_bpow. destruct f; vm_compute; discriminate. }
    apply Rabs_le_inv in G. rewrite clampE_range; lra. }
  split; [exact F|]. rewrite (Rnd_finite _ _ R F). apply round_err.
Qed.
Lemma eta_tiny2 : 0 < eta <= / 1000000000000 * u.
Proof.
  split; [apply eta_pos|]. unfold smallest_float, unit_roundoff.
  assert (bpow radix2 (3 - emax f - prec f) <= bpow radix2 (-40) * bpow radix2 (- prec f)). { rewrite <- bpow_plus. apply bpow_le. destruct f; vm_compute; discriminate. }
  change (bpow radix2 (-40)) with (/ 1099511627776) in H. assert (P := bpow_gt_0 radix2 (- prec f)). lra.
Qed.
Lemma half_val : finite (half : FT) /\ B2R (half : FT) = 1 / 2.
Proof. split; [destruct f; vm_compute; reflexivity|]. destruct f; vm_compute B2R; unfold F2R; cbn; lra. Qed.

Lemma B120 : bpow radix2 120 = 1329227995784915872903807060280344576. Proof. reflexivity. Qed.
(** the film point *)
Lemma film_err (w s : FT) : usual_size w -> finite s -> 0 <= B2R s <= 1 ->
  let p := fsub (fmul half w) (fmul s w) in
  finite p /\ Rabs (B2R p - (1 / 2 - B2R s) * B2R w) <= 21 / 10 * u * Rabs (B2R w).
Proof.
  intros [Fw W] Fs S p. destruct half_val as [Fh Vh]. assert (U := uu (f := f)). assert (ET := eta_tiny2). assert (T := B120).
  set (x := B2R w) in *. set (y := B2R s) in *.
  assert (UX : u * / 1024 <= u * Rabs x) by (apply Rmult_le_compat_l; lra).
  assert (Y1 : Rabs (y * x) <= Rabs x) by (rewrite Rabs_mult, (Rabs_pos_eq y) by lra; assert (K := Rabs_pos x); nra).
  assert (X1 : Rabs (1 / 2 * x) = 1 / 2 * Rabs x) by (rewrite Rabs_mult, (Rabs_pos_eq (1 / 2)) by lra; ring).
  destruct (big_fin (fmul half w) (1 / 2 * x)) as [F1 E1]; [rewrite <- Vh; apply fmul_Rnd; assumption|lra|].
  destruct (big_fin (fmul s w) (y * x)) as [F2 E2]; [apply fmul_Rnd; assumption|lra|].
  set (a := B2R (fmul half w)) in *. set (b := B2R (fmul s w)) in *. rewrite X1 in E1.
  assert (E2' : u * Rabs (y * x) <= u * Rabs x) by (apply Rmult_le_compat_l; lra).
  assert (UX2 : u * Rabs x <= / 1000000 * Rabs x) by (apply Rmult_le_compat_r; [apply Rabs_pos|lra]).
  assert (PB : Rabs ((1 / 2 - y) * x) <= 1 / 2 * Rabs x) by (rewrite Rabs_mult; apply Rmult_le_compat_r; [apply Rabs_pos|apply Rabs_le; lra]).
  assert (D : Rabs ((a - b) - (1 / 2 - y) * x) <= 151 / 100 * (u * Rabs x)).
  { replace (a - b - (1 / 2 - y) * x) with ((a - 1 / 2 * x) - (b - y * x)) by ring. eapply Rle_trans; [apply Rabs_triang|]. rewrite Rabs_Ropp. lra. }
  assert (AB : Rabs (a - b) <= 51 / 100 * Rabs x).
  { replace (a - b) with ((a - b - (1 / 2 - y) * x) + (1 / 2 - y) * x) by ring. eapply Rle_trans; [apply Rabs_triang|]. lra. }
  destruct (big_fin p (a - b)) as [F3 _]; [apply fsub_fadd; assumption|lra|].
  split; [exact F3|]. assert (E3 := sub_rel _ _ F1 F2 F3). fold p a b in E3.
  assert (u * Rabs (a - b) <= u * (51 / 100 * Rabs x)) by (apply Rmult_le_compat_l; lra).
  replace (B2R p - (1 / 2 - y) * x) with ((B2R p - (a - b)) + (a - b - (1 / 2 - y) * x)) by ring. eapply Rle_trans; [apply Rabs_triang|]. lra.
Qed.
Lemma fneg_fin (x : FT) : finite x -> finite (fneg x). Proof. unfold finite. now destruct x. Qed.
Lemma zsub (x : FT) : finite x -> finite (fsub (fzero false) x) /\ B2R (fsub (fzero false) x) = - B2R x.
Proof.
  intros F. assert (R := fsub_fadd (fzero false) x eq_refl F). replace (B2R (fzero false : FT) - B2R x) with (B2R (fneg x)) in R by (rewrite fneg_B2R; cbn [B2R fzero]; ring).
  rewrite <- fneg_B2R. exact (val_Rnd _ _ _ (fneg_fin x F) eq_refl R).
Qed.
Lemma subz (x : FT) : finite x -> finite (fsub x (fzero false)) /\ B2R (fsub x (fzero false)) = B2R x.
Proof.
  intros F. assert (R := fsub_fadd x (fzero false) F eq_refl). replace (B2R x - B2R (fzero false : FT)) with (B2R x) in R by (cbn [B2R fzero]; ring).
  exact (val_Rnd _ _ _ F eq_refl R).
Qed.
(** the parameter of the plane of focus on the ray through the lens center *)
Lemma plane_err (D fd : FT) : usual_size D -> finite fd -> Rabs (B2R fd) <= 1048576 ->
  let t := fdiv (fneg fd) (fsub (fzero false) D) in
  finite t /\ Rabs (B2R t - B2R fd / B2R D) <= u * Rabs (B2R fd / B2R D) + eta /\ Rabs (B2R fd / B2R D) <= 1073741824.
Proof.
  intros [FD BD] FF BF t. destruct (zsub D FD) as [FN VN]. assert (DN : B2R D <> 0) by (intros Z; rewrite Z, Rabs_R0 in BD; lra).
  assert (TB : Rabs (B2R fd / B2R D) <= 1073741824).
  { unfold Rdiv. rewrite Rabs_mult, Rabs_inv. replace 1073741824 with (1048576 * 1024) by lra.
    apply Rmult_le_compat; try apply Rabs_pos; [apply Rlt_le, Rinv_0_lt_compat; lra|exact BF|]. replace 1024 with (/ / 1024) by (apply Rinv_inv). apply Rinv_le; lra. }
  assert (RD : Rnd t (B2R fd / B2R D)).
  { replace (B2R fd / B2R D) with (B2R (fneg fd) / B2R (fsub (fzero false) D)) by (rewrite VN, fneg_B2R; field; lra).
    apply fdiv_Rnd; [apply fneg_fin; exact FF|exact FN|rewrite VN; lra]. }
  destruct (big_fin t _ RD) as [F E]; [rewrite B120; lra|]. auto.
Qed.
Lemma focus_err (p t : FT) P T S : / 1024 <= S <= 1048576 -> finite p -> Rabs P <= S -> Rabs (B2R p - P) + 201 / 100 * u * Rabs (B2R p) + u * Rabs P <= 38 / 10 * u * S ->
  finite t -> Rabs (B2R t - T) <= u * Rabs T + eta -> Rabs T <= 1073741824 ->
  let q := fadd p (fmul (fsub (fzero false) p) t) in
  finite q /\ Rabs (B2R q - (1 - T) * P) <= 4 * u * (1 + Rabs T) * S.
Proof.
  intros HS Fp BP HP Ft HT BT q. destruct (zsub p Fp) as [Fd Vd]. assert (U := uu (f := f)). assert (ET := eta_tiny2). assert (B := B120).
  set (x := B2R p) in *. set (t' := B2R t) in *. assert (PX := Rabs_pos x). assert (PP := Rabs_pos P). assert (PT := Rabs_pos T). assert (PD := Rabs_pos (x - P)).
  assert (UX : 0 <= u * Rabs x) by (apply Rmult_le_pos; lra). assert (UP : 0 <= u * Rabs P) by (apply Rmult_le_pos; lra).
  assert (US : u * S <= / 1000000 * S) by (apply Rmult_le_compat_r; lra). assert (US2 : u * / 1024 <= u * S) by (apply Rmult_le_compat_l; lra).
  assert (X2 : Rabs x <= 2 * S).
  { replace x with ((x - P) + P) by ring. eapply Rle_trans; [apply Rabs_triang|]. lra. }
  assert (UT : u * Rabs T <= / 1000000 * Rabs T) by (apply Rmult_le_compat_r; lra).
  assert (UT0 : 0 <= u * Rabs T) by (apply Rmult_le_pos; lra).
  assert (T2 : Rabs t' <= Rabs T + (u * Rabs T + eta)).
  { replace t' with (T + (t' - T)) by ring. eapply Rle_trans; [apply Rabs_triang|]. lra. }
  assert (XT : Rabs (- x * t') <= 2 * S * (Rabs T + (u * Rabs T + eta))).
  { rewrite Rabs_mult, Rabs_Ropp. apply Rmult_le_compat; try apply Rabs_pos; assumption. }
  assert (XT2 : 2 * S * (Rabs T + (u * Rabs T + eta)) <= 2097152 * 2000000000) by (apply Rmult_le_compat; lra).
  destruct (big_fin (fmul (fsub (fzero false) p) t) (- x * t')) as [F1 E1]; [rewrite <- Vd; apply fmul_Rnd; assumption|lra|].
  set (y := B2R (fmul (fsub (fzero false) p) t)) in *.
  assert (Y : Rabs y <= 2 * (2097152 * 2000000000)).
  { replace y with ((y - - x * t') + - x * t') by ring. eapply Rle_trans; [apply Rabs_triang|].
    assert (u * Rabs (- x * t') <= / 1000000 * Rabs (- x * t')) by (apply Rmult_le_compat_r; [apply Rabs_pos|lra]). lra. }
  destruct (big_fin q (x + y)) as [F2 _]; [apply fadd_Rnd; assumption|eapply Rle_trans; [apply Rabs_triang|]; lra|].
  split; [exact F2|]. assert (Q := ray_comp p (fsub (fzero false) p) t F2). fold q x t' in Q. rewrite Vd in Q.
  assert (G2 : rel_err f 2 <= 201 / 100 * u) by (unfold rel_err; nra).
  set (K := Rabs T + (u * Rabs T + eta)) in *.
  assert (Q1 : Rabs x + Rabs (t' * - x) <= Rabs x * (1 + K)).
  { rewrite Rabs_mult, Rabs_Ropp. assert (Rabs t' * Rabs x <= K * Rabs x) by (apply Rmult_le_compat_r; lra). lra. }
  assert (Q2 : rel_err f 2 * (Rabs x + Rabs (t' * - x)) <= 201 / 100 * u * (Rabs x * (1 + K))).
  { apply Rmult_le_compat; [apply g_pos| |exact G2|exact Q1]. apply Rplus_le_le_0_compat; apply Rabs_pos. }
  assert (Q3 : Rabs ((1 - t') * (x - P)) <= (1 + K) * Rabs (x - P)).
  { rewrite Rabs_mult. apply Rmult_le_compat_r; [exact PD|]. eapply Rle_trans; [apply Rabs_triang|]. rewrite Rabs_R1, Rabs_Ropp. lra. }
  assert (Q4 : Rabs ((T - t') * P) <= (u * Rabs T + eta) * Rabs P).
  { rewrite Rabs_mult, Rabs_minus_sym. apply Rmult_le_compat_r; assumption. }
  replace (B2R q - (1 - T) * P) with ((B2R q - (x + t' * - x)) + ((1 - t') * (x - P) + (T - t') * P)) by ring.
  eapply Rle_trans; [apply Rabs_triang|]. eapply Rle_trans; [apply Rplus_le_compat_l, Rabs_triang|].
  set (W := Rabs (x - P) + 201 / 100 * u * Rabs x) in *.
  assert (W1 : 201 / 100 * u * (Rabs x * (1 + K)) + (1 + K) * Rabs (x - P) = W * (1 + K)) by (unfold W; ring).
  assert (W0 : 0 <= W <= 38 / 10 * u * S) by (split; [unfold W; lra|lra]).
  assert (WK : W * (1 + K) = W * (1 + Rabs T) + W * (u * Rabs T + eta)) by (unfold K; ring).
  assert (WE : W * (u * Rabs T + eta) <= 38 / 10 * u * S * (/ 1000000 * (1 + Rabs T))) by (apply Rmult_le_compat; lra).
  assert (PE : (u * Rabs T + eta) * Rabs P <= u * Rabs P * (1 + Rabs T) + / 1000000 * (u * S)).
  { assert (eta * Rabs P <= / 1000000000000 * u * S) by (apply Rmult_le_compat; lra). lra. }
  assert (WP : (W + u * Rabs P) * (1 + Rabs T) <= 38 / 10 * u * S * (1 + Rabs T)) by (apply Rmult_le_compat_r; lra).
  assert (UST : 0 <= u * S * Rabs T) by (apply Rmult_le_pos; lra).
  assert (EE : (1 + u) * eta <= / 1000000 * (u * S)) by (assert (u * eta <= eta) by nra; lra).
  lra.
Qed.
Lemma norm_fin (a b c : FT) : finite a -> finite b -> finite c -> Rabs (B2R a) <= bpow radix2 55 -> Rabs (B2R b) <= bpow radix2 55 -> Rabs (B2R c) <= bpow radix2 55 ->
  finite (norm (vec3 a b c)).
Proof.
  intros Fa Fb Fc Ba Bb Bc. assert (U := uu (f := f)). assert (ET := eta_tiny2). assert (T := B120). change (bpow radix2 55) with 36028797018963968 in *.
  assert (SQ : forall x : FT, finite x -> Rabs (B2R x) <= 36028797018963968 -> finite (fmul x x) /\ 0 <= B2R (fmul x x) <= 2 * (36028797018963968 * 36028797018963968)).
  { intros x Fx Bx. assert (P : 0 <= B2R x * B2R x) by apply Rle_0_sqr.
    assert (Q : B2R x * B2R x <= 36028797018963968 * 36028797018963968).
    { rewrite <- (Rabs_pos_eq _ P), Rabs_mult. apply Rmult_le_compat; try apply Rabs_pos; assumption. }
    destruct (big_fin (fmul x x) (B2R x * B2R x)) as [F E]; [apply fmul_Rnd; assumption|rewrite (Rabs_pos_eq _ P); lra|]. split; [exact F|].
    split; [rewrite (Rnd_finite _ _ (fmul_Rnd x x Fx Fx) F); rewrite <- (rnd_id (f := f) 0) by apply generic_format_0; apply rnd_le, P|].
    rewrite (Rabs_pos_eq _ P) in E. apply Rabs_le_inv in E. assert (u * (B2R x * B2R x) <= / 1000000 * (B2R x * B2R x)) by (apply Rmult_le_compat_r; lra). lra. }
  assert (AD : forall x y : FT, finite x -> finite y -> 0 <= B2R x -> 0 <= B2R y -> B2R x + B2R y <= bpow radix2 119 ->
    finite (fadd x y) /\ 0 <= B2R (fadd x y) <= 2 * (B2R x + B2R y) + 1).
  { intros x y Fx Fy Px Py B. change (bpow radix2 119) with 664613997892457936451903530140172288 in B. destruct (big_fin (fadd x y) (B2R x + B2R y)) as [F E]; [apply fadd_Rnd; assumption|rewrite Rabs_pos_eq by lra; lra|].
    split; [exact F|]. split; [rewrite (Rnd_finite _ _ (fadd_Rnd x y Fx Fy) F); rewrite <- (rnd_id (f := f) 0) by apply generic_format_0; apply rnd_le; lra|].
    rewrite (Rabs_pos_eq (B2R x + B2R y)) in E by lra. apply Rabs_le_inv in E. assert (u * (B2R x + B2R y) <= / 1000000 * (B2R x + B2R y)) by (apply Rmult_le_compat_r; lra). lra. }
  destruct (SQ a Fa Ba) as [Fa2 Ha], (SQ b Fb Bb) as [Fb2 Hb], (SQ c Fc Bc) as [Fc2 Hc]. change (bpow radix2 119) with 664613997892457936451903530140172288 in AD.
  destruct (AD (fzero false) (fmul a a) eq_refl Fa2) as [F1 H1]; [cbn [B2R fzero]; lra..|]. replace (B2R (fzero false : FT)) with 0 in H1 by reflexivity.
  destruct (AD _ _ F1 Fb2) as [F2 H2]; [lra..|]. destruct (AD _ _ F2 Fc2) as [F3 H3]; [lra..|].
  change (norm (vec3 a b c)) with (fsqrt (fadd (fadd (fadd (fzero false) (fmul a a)) (fmul b b)) (fmul c c))). apply fsqrt_Rnd; [exact F3|lra].
Qed.
(** a component of the lens point *)
Lemma lens_err (c lr : FT) X : finite c -> finite lr -> Rabs (B2R lr) <= 1048576 -> Rabs (B2R c) <= 2 -> Rabs (B2R c - X) <= 16 * u ->
  finite (fmul c lr) /\ Rabs (B2R (fmul c lr) - B2R c * B2R lr) <= u * (Rabs (B2R c) * Rabs (B2R lr)) + eta /\
  Rabs (B2R (fmul c lr) - B2R lr * X) <= 18 * u * Rabs (B2R lr) + eta.
Proof.
  intros Fc Fl Bl Bc E. assert (U := uu (f := f)). assert (T := B120). assert (PL := Rabs_pos (B2R lr)).
  assert (CL : Rabs (B2R c * B2R lr) <= 2 * 1048576) by (rewrite Rabs_mult; apply Rmult_le_compat; try apply Rabs_pos; assumption).
  destruct (big_fin (fmul c lr) (B2R c * B2R lr)) as [F K]; [apply fmul_Rnd; assumption|lra|]. split; [exact F|]. rewrite Rabs_mult in K. split; [exact K|].
  replace (B2R (fmul c lr) - B2R lr * X) with ((B2R (fmul c lr) - B2R c * B2R lr) + (B2R c - X) * B2R lr) by ring. eapply Rle_trans; [apply Rabs_triang|]. rewrite Rabs_mult.
  assert (Rabs (B2R c - X) * Rabs (B2R lr) <= 16 * u * Rabs (B2R lr)) by (apply Rmult_le_compat_r; assumption).
  assert (u * (Rabs (B2R c) * Rabs (B2R lr)) <= u * (2 * Rabs (B2R lr))) by (apply Rmult_le_compat_l; [lra|apply Rmult_le_compat_r; assumption]). lra.
Qed.
Lemma unit_err (v : vec FT 3) (w : rvec 3) : finite (norm v) -> bpow radix2 (-40) <= rlen (fvals v) -> (forall i, Rabs (fvals v i - w i) <= u * Rabs (w i)) ->
  forall i, Rabs (fvals (normalize v) i - w i / rlen w) <= 8 * u.
Proof.
  intros F L H i. destruct (normalize_err v F L) as (_ & _ & N). specialize (N i). assert (U := uu (f := f)). assert (B := bpow_gt_0 radix2 (-40)).
  assert (C := rlen_close (fvals v) w u 0 ltac:(lra) ltac:(lra) ltac:(intros j; specialize (H j); lra)). rewrite Rmult_0_r, Rplus_0_r in C.
  set (l := rlen (fvals v)) in *. set (k := rlen w) in *. assert (KP := rlen_pos w). fold k in KP.
  assert (K0 : 0 < k). { apply Rabs_le_inv in C. nra. }
  assert (V := comp_le_len (fvals v) i). fold l in V. assert (WK := comp_le_len w i). fold k in WK. specialize (H i).
  replace (fvals (normalize v) i - w i / k) with ((fvals (normalize v) i - fvals v i / l) + (fvals v i / l * ((k - l) * / k) + (fvals v i - w i) * / k)) by (field; lra).
  eapply Rle_trans; [apply Rabs_triang|]. eapply Rle_trans; [apply Rplus_le_compat_l, Rabs_triang|]. unfold Rdiv. rewrite !Rabs_mult, (Rabs_pos_eq (/ k)), (Rabs_pos_eq (/ l)) by (apply Rlt_le, Rinv_0_lt_compat; lra).
  assert (A1 : Rabs (fvals v i) * / l <= 1). { apply Rmult_le_reg_r with l; [lra|]. rewrite Rmult_assoc, Rinv_l by lra. lra. }
  assert (A2 : Rabs (k - l) * / k <= u). { apply Rmult_le_reg_r with k; [lra|]. rewrite Rmult_assoc, Rinv_l, Rmult_1_r by lra. rewrite Rabs_minus_sym. exact C. }
  assert (A3 : Rabs (fvals v i - w i) * / k <= u). { apply Rmult_le_reg_r with k; [lra|]. rewrite Rmult_assoc, Rinv_l, Rmult_1_r by lra. eapply Rle_trans; [exact H|]. apply Rmult_le_compat_l; lra. }
  assert (A4 : Rabs (fvals v i) * / l * (Rabs (k - l) * / k) <= 1 * u).
  { apply Rmult_le_compat; [|apply Rmult_le_pos; [apply Rabs_pos|apply Rlt_le, Rinv_0_lt_compat; lra]|exact A1|exact A2]. apply Rmult_le_pos; [apply Rabs_pos|apply Rlt_le, Rinv_0_lt_compat; lra]. }
  unfold Rdiv in N. lra.
Qed.

Lemma all3 (P : Fin.t 3 -> Prop) : P Fin.F1 -> P (Fin.FS Fin.F1) -> P (Fin.FS (Fin.FS Fin.F1)) -> forall i, P i.
Proof. intros A B C i. apply (Fin.caseS' i); [exact A|]. clear i. intros i. apply (Fin.caseS' i); [exact B|]. clear i. intros i. apply (Fin.caseS' i); [exact C|]. intros k. inversion k. Qed.
Lemma fin_vec3 (a b c : FT) : finite a -> finite b -> finite c -> fall finite (vec3 a b c).
Proof. intros A B C. exact (all3 (fun i => finite (vec3 a b c @ i)) A B C). Qed.
Lemma gen_ray_eq (c : thin_lens FT) (film lens : vec FT 2) (a b : FT) : concentric_sample_disk lens = vec2 a b ->
  let px := fsub (fmul half (film_width c)) (fmul (vx film) (film_width c)) in let py := fsub (fmul half (film_height c)) (fmul (vy film) (film_height c)) in
  let t := fdiv (fneg (focal_distance c)) (fsub (fzero false) (film_distance c)) in
  let q p := fadd p (fmul (fsub (fzero false) p) t) in
  let ox := fmul a (lens_radius c) in let oy := fmul b (lens_radius c) in
  generate_ray c (mkCS film lens) =
    (let! o := t_map_point (t_inverse (view c)) (vec3 ox oy (fzero false)) in
     let! d := t_map_vector (t_inverse (view c)) (normalize (vec3 (fsub (q px) ox) (fsub (q py) oy) (fsub (q (film_distance c)) (fzero false)))) in
     Ret (mkRay o d shighest)).
Proof.
  intros HC px py t q ox oy. unfold generate_ray. cbn [p_lens p_film].
  match goal with |- context [v_scale ?x _] => replace x with (vec2 a b) by (symmetry; exact HC) end.
  cbv beta iota zeta delta [t_map_ray_inverse t_map_point_inverse t_map_vector_inverse t_map_point t_map_vector t_inverse t_new tm tminv ray_eval p_add_v p_sub_p v_add v_sub v_scale vec2 vec3 vx vy vz vget Vector.nth Vector.map Vector.map2 Vector.caseS Vector.caseS' Vector.rect2 Vector.case0 Vector.hd Vector.tl origin direction tmax gfloat_signed signed_scalar sadd ssub smul sdiv sneg szero float_scalar float_signed float_gfloat px py t q ox oy].
  reflexivity.
Qed.
Lemma lens_rays (c : thin_lens FT) (film : vec FT 2) A : good_sin_cos m -> usual_lens c -> unit_sample film -> fM (t_inverse_matrix (view c)) A -> affine A ->
  let D := B2R (film_distance c) in let fd := B2R (focal_distance c) in let w := B2R (film_width c) in let h := B2R (film_height c) in let lr := B2R (lens_radius c) in
  exists Q : vec FT 3, fall finite Q /\
    Rabs (B2R (vx Q) - (1 - fd / D) * ((1 / 2 - B2R (vx film)) * w)) <= 4 * u * (1 + Rabs (fd / D)) * Rabs w /\
    Rabs (B2R (vy Q) - (1 - fd / D) * ((1 / 2 - B2R (vy film)) * h)) <= 4 * u * (1 + Rabs (fd / D)) * Rabs h /\
    Rabs (B2R (vz Q) - (D - fd)) <= 4 * u * (Rabs D + Rabs fd) /\
    forall (lens : vec FT 2) (lens' : vec xr 2) X Y, unit_sample lens -> is2 lens' (B2R (vx lens)) (B2R (vy lens)) -> is2 (concentric_sample_disk lens') X Y ->
    exists (o d : vec FT 3) r, generate_ray c (mkCS film lens) = Ret r /\ tmax r = shighest /\ fall finite o /\ fall finite d /\
      Rabs (B2R (vx o) - lr * X) <= 18 * u * Rabs lr + smallest_float f /\ Rabs (B2R (vy o) - lr * Y) <= 18 * u * Rabs lr + smallest_float f /\ B2R (vz o) = 0 /\
      rlen (fvals o) <= (1 + 11 * u) * Rabs lr + smallest_float f /\
      Rabs (rlen (fvals d) - 1) <= 6 * u /\
      (forall i, Rabs (fvals d i - (fvals Q i - fvals o i) / rlen (fun i => fvals Q i - fvals o i)) <= 8 * u) /\
      (fall finite (origin r) -> close3 (origin r) (add3 (app_vec A (f3 o)) (mk3 (A i0 i3) (A i1 i3) (A i2 i3)))
         (add3 (app_vec (absM A) (abs3 (f3 o))) (mk3 (Rabs (A i0 i3)) (Rabs (A i1 i3)) (Rabs (A i2 i3)))) (rel_err f 4) (3 * (1 + u) ^ 3 * eta)) /\
      (fall finite (direction r) -> close3 (direction r) (app_vec A (f3 d)) (app_vec (absM A) (abs3 (f3 d))) (rel_err f 3) (3 * (1 + u) ^ 2 * eta)).
Proof.
  intros GM (W & Hh & DD & (FF & BF) & (FL & BL) & SEP) (FS & SX & SY) HM HA D fd w h lr.
  assert (U := uu (f := f)). assert (US := u_small (f := f)). assert (ET := eta_tiny2).
  assert (U0 : forall x, 0 <= u * Rabs x) by (intros x; apply Rmult_le_pos; [lra|apply Rabs_pos]).
  destruct (film_err (film_width c) (vx film) W (FS Fin.F1) SX) as [F1 E1]. destruct (film_err (film_height c) (vy film) Hh (FS (Fin.FS Fin.F1)) SY) as [F2 E2].
  destruct (plane_err (film_distance c) (focal_distance c) DD FF BF) as (Ft & Et & Bt).
  set (px := fsub (fmul half (film_width c)) (fmul (vx film) (film_width c))) in *. set (py := fsub (fmul half (film_height c)) (fmul (vy film) (film_height c))) in *.
  set (t := fdiv (fneg (focal_distance c)) (fsub (fzero false) (film_distance c))) in *. fold D fd w h in E1, E2, Et, Bt.
  destruct W as [Fw Bw], Hh as [Fh Bh], DD as [FD BD]. fold w in Bw. fold h in Bh. fold D in BD. fold fd in BF. fold lr in BL. fold D fd in SEP.
  assert (FE : forall (p s : FT) z, finite s -> 0 <= B2R s <= 1 -> / 1024 <= Rabs z <= 1048576 -> finite p -> Rabs (B2R p - (1 / 2 - B2R s) * z) <= 21 / 10 * u * Rabs z ->
    let q := fadd p (fmul (fsub (fzero false) p) t) in finite q /\ Rabs (B2R q - (1 - fd / D) * ((1 / 2 - B2R s) * z)) <= 4 * u * (1 + Rabs (fd / D)) * Rabs z).
  { intros p s z Fs Bs Bz Fp Ep. assert (PB : Rabs ((1 / 2 - B2R s) * z) <= 1 / 2 * Rabs z) by (rewrite Rabs_mult; apply Rmult_le_compat_r; [apply Rabs_pos|apply Rabs_le; lra]).
    assert (PB' : Rabs (B2R p) <= 51 / 100 * Rabs z).
    { replace (B2R p) with ((B2R p - (1 / 2 - B2R s) * z) + (1 / 2 - B2R s) * z) by ring. eapply Rle_trans; [apply Rabs_triang|].
      assert (u * Rabs z <= / 1000000 * Rabs z) by (apply Rmult_le_compat_r; lra). lra. }
    apply focus_err; try assumption; [lra|].
    set (e := Rabs (B2R p - (1 / 2 - B2R s) * z)) in *. set (a := Rabs (B2R p)) in *. set (b := Rabs ((1 / 2 - B2R s) * z)) in *. set (k := Rabs z) in *. clear - Ep PB PB' U Bz. nra. }
  destruct (FE px (vx film) w (FS Fin.F1) SX Bw F1 E1) as [G1 H1]. destruct (FE py (vy film) h (FS (Fin.FS Fin.F1)) SY Bh F2 E2) as [G2 H2].
  destruct (focus_err (film_distance c) t D (fd / D) (Rabs D)) as [G3 H3]; try assumption; [lra| |].
  { fold D. unfold Rminus. rewrite Rplus_opp_r, Rabs_R0. assert (K := U0 D). lra. }
  set (qx := fadd px (fmul (fsub (fzero false) px) t)) in *. set (qy := fadd py (fmul (fsub (fzero false) py) t)) in *.
  set (qz := fadd (film_distance c) (fmul (fsub (fzero false) (film_distance c)) t)) in *.
  assert (DN : D <> 0) by (intros Z; rewrite Z, Rabs_R0 in BD; lra).
  assert (TD : (1 + Rabs (fd / D)) * Rabs D = Rabs D + Rabs fd).
  { unfold Rdiv. rewrite Rabs_mult, Rabs_inv. assert (Rabs D <> 0) by (apply Rabs_no_R0, DN). field. assumption. }
  assert (H3' : Rabs (B2R qz - (D - fd)) <= 4 * u * (Rabs D + Rabs fd)).
  { rewrite <- TD. replace (D - fd) with ((1 - fd / D) * D) by (field; exact DN). lra. }
  assert (QB : forall (q : FT) P z, Rabs z <= 1048576 -> Rabs P <= Rabs z -> Rabs (B2R q - (1 - fd / D) * P) <= 4 * u * (1 + Rabs (fd / D)) * Rabs z -> Rabs (B2R q) <= 4503599627370496).
  { intros q P z Bz Pz K. replace (B2R q) with ((B2R q - (1 - fd / D) * P) + (1 - fd / D) * P) by ring. eapply Rle_trans; [apply Rabs_triang|].
    assert (A1 : Rabs ((1 - fd / D) * P) <= (1 + Rabs (fd / D)) * Rabs z).
    { rewrite Rabs_mult. apply Rmult_le_compat; try apply Rabs_pos; [|exact Pz]. eapply Rle_trans; [apply Rabs_triang|]. rewrite Rabs_R1, Rabs_Ropp. lra. }
    assert (A2 : (1 + Rabs (fd / D)) * Rabs z <= 1073741825 * 1048576) by (apply Rmult_le_compat; try apply Rabs_pos; try assumption; [assert (T := Rabs_pos (fd / D)); lra|lra]).
    assert (A0 : 0 <= (1 + Rabs (fd / D)) * Rabs z) by (apply Rmult_le_pos; [assert (T := Rabs_pos (fd / D)); lra|apply Rabs_pos]).
    assert (A3 : u * ((1 + Rabs (fd / D)) * Rabs z) <= / 1000000 * ((1 + Rabs (fd / D)) * Rabs z)) by (apply Rmult_le_compat_r; lra).
    replace (4 * u * (1 + Rabs (fd / D)) * Rabs z) with (4 * (u * ((1 + Rabs (fd / D)) * Rabs z))) in K by ring. lra. }
  assert (HP : forall s z, 0 <= s <= 1 -> Rabs ((1 / 2 - s) * z) <= Rabs z).
  { intros s z S. rewrite Rabs_mult. rewrite <- (Rmult_1_l (Rabs z)) at 2. apply Rmult_le_compat_r; [apply Rabs_pos|apply Rabs_le; lra]. }
  assert (B1 := QB qx _ w (proj2 Bw) (HP _ w SX) H1). assert (B2 := QB qy _ h (proj2 Bh) (HP _ h SY) H2). assert (B3 := QB qz D D (proj2 BD) (Rle_refl _) H3).
  assert (BZ : bpow radix2 (-40) <= Rabs (B2R qz)).
  { change (bpow radix2 (-40)) with (/ 1099511627776).
    assert (K : Rabs (D - fd) <= Rabs (B2R qz) + Rabs (B2R qz - (D - fd))).
    { replace (D - fd) with (B2R qz + - (B2R qz - (D - fd))) at 1 by ring. eapply Rle_trans; [apply Rabs_triang|]. rewrite Rabs_Ropp. lra. }
    assert (P := Rabs_pos fd). assert (u * (Rabs D + Rabs fd) <= / 16777216 * (Rabs D + Rabs fd)) by (apply Rmult_le_compat_r; lra). lra. }
  exists (vec3 qx qy qz). split; [apply fin_vec3; assumption|]. split; [exact H1|]. split; [exact H2|]. split; [exact H3'|].
  intros lens lens' X Y (FLn & LX & LY) L1 L2.
  destruct (concentric_accurate f m GM lens lens' X Y FLn LX LY L1 L2) as (C1 & C2 & C3 & C4). destruct (in_disk_close f m GM lens FLn LX LY) as [C5 _]. cbv zeta in C5.
  set (cs := concentric_sample_disk lens) in *. set (cx := B2R (vx cs)) in *. set (cy := B2R (vy cs)) in *.
  assert (N5 : 0 <= cx * cx + cy * cy) by (assert (0 <= cx * cx) by apply Rle_0_sqr; assert (0 <= cy * cy) by apply Rle_0_sqr; lra).
  assert (C6 : cx * cx + cy * cy <= (1 + 9 * u) * (1 + 9 * u)).
  { rewrite <- (sqrt_sqrt _ N5). apply Rmult_le_compat; try apply sqrt_pos; exact C5. }
  assert (CX : Rabs cx <= 2) by (apply Rabs_le; assert (0 <= cy * cy) by apply Rle_0_sqr; nra).
  assert (CY : Rabs cy <= 2) by (apply Rabs_le; assert (0 <= cx * cx) by apply Rle_0_sqr; nra).
  destruct (lens_err (vx cs) (lens_radius c) X C1 FL BL CX C3) as (O1 & O2 & O3). destruct (lens_err (vy cs) (lens_radius c) Y C2 FL BL CY C4) as (P1 & P2 & P3).
  fold lr cx in O2, O3. fold lr cy in P2, P3.
  set (ox := fmul (vx cs) (lens_radius c)) in *. set (oy := fmul (vy cs) (lens_radius c)) in *.
  set (o := vec3 ox oy (fzero false)). assert (Fo : fall finite o) by (apply fin_vec3; [assumption|assumption|reflexivity]).
  assert (OB : forall (x k : R), Rabs k <= 2 -> Rabs (x - k * lr) <= u * (Rabs k * Rabs lr) + eta -> Rabs x <= 4000000).
  { intros x k Kk K. replace x with ((x - k * lr) + k * lr) by ring. eapply Rle_trans; [apply Rabs_triang|]. rewrite Rabs_mult.
    assert (Rabs k * Rabs lr <= 2 * 1048576) by (apply Rmult_le_compat; try apply Rabs_pos; assumption). assert (0 <= Rabs k * Rabs lr) by (apply Rmult_le_pos; apply Rabs_pos).
    assert (u * (Rabs k * Rabs lr) <= / 1000000 * (Rabs k * Rabs lr)) by (apply Rmult_le_compat_r; lra). lra. }
  assert (OB1 := OB _ _ CX O2). assert (OB2 := OB _ _ CY P2). clear OB.
  (* the direction before normalization *)
  assert (SB : forall x y : FT, finite x -> finite y -> Rabs (B2R x) <= 4503599627370496 -> Rabs (B2R y) <= 4000000 ->
    finite (fsub x y) /\ Rabs (B2R (fsub x y) - (B2R x - B2R y)) <= u * Rabs (B2R x - B2R y) /\ Rabs (B2R (fsub x y)) <= bpow radix2 55).
  { intros x y Fx Fy Bx By. assert (S1 : Rabs (B2R x - B2R y) <= 4503599627370496 + 4000000) by (eapply Rle_trans; [apply Rabs_triang|]; rewrite Rabs_Ropp; lra).
    destruct (big_fin (fsub x y) (B2R x - B2R y)) as [F _]; [apply fsub_fadd; assumption|rewrite B120; lra|]. split; [exact F|].
    assert (K := sub_rel x y Fx Fy F). split; [exact K|]. change (bpow radix2 55) with 36028797018963968.
    replace (B2R (fsub x y)) with ((B2R (fsub x y) - (B2R x - B2R y)) + (B2R x - B2R y)) by ring. eapply Rle_trans; [apply Rabs_triang|].
    assert (u * Rabs (B2R x - B2R y) <= / 1000000 * Rabs (B2R x - B2R y)) by (apply Rmult_le_compat_r; [apply Rabs_pos|lra]). lra. }
  destruct (SB qx ox G1 O1 B1 OB1) as (V1 & V1' & V1''). destruct (SB qy oy G2 P1 B2 OB2) as (V2 & V2' & V2'').
  destruct (SB qz (fzero false) G3 eq_refl B3) as (V3 & V3' & V3''); [cbn [B2R fzero]; rewrite Rabs_R0; lra|].
  destruct (subz qz G3) as [_ VZ].
  set (v := vec3 (fsub qx ox) (fsub qy oy) (fsub qz (fzero false))).
  assert (NF : finite (norm v)) by (apply norm_fin; assumption).
  assert (LV : bpow radix2 (-40) <= rlen (fvals v)).
  { eapply Rle_trans; [exact BZ|]. rewrite <- VZ. exact (comp_le_len (fvals v) (Fin.FS (Fin.FS Fin.F1))). }
  destruct (normalize_err v NF LV) as (FN & LN & _).
  assert (DE := unit_err v (fun i => fvals (vec3 qx qy qz) i - fvals o i) NF LV (all3 _ V1' V2' V3')).
  set (d := normalize v) in *.
  destruct (map_point_no_panic (t_inverse (view c)) A o HM HA Fo) as (ro & RO & _). destruct (map_vector_no_panic (t_inverse (view c)) A d HM HA FN) as (rd & RD & _).
  exists o, d, (mkRay ro rd shighest).
  assert (GR : generate_ray c (mkCS film lens) = Ret (mkRay ro rd shighest)).
  { rewrite (gen_ray_eq c film lens (vx cs) (vy cs)); [|fold cs; clear; apply (Vector.caseS' cs); intros a v; apply (Vector.caseS' v); intros b w; apply (Vector.case0 (fun w => Vector.cons _ a _ (Vector.cons _ b _ w) = vec2 _ _)); reflexivity].
    fold px py t. cbv zeta. fold qx qy qz ox oy. fold o v d. rewrite RO. cbn [obind]. fold d. rewrite RD. reflexivity. }
  split; [exact GR|]. split; [reflexivity|]. split; [exact Fo|]. split; [exact FN|].
  split; [change (vx o) with ox; lra|]. split; [change (vy o) with oy; lra|]. split; [reflexivity|].
  split.
  { (* length of the lens point *)
    assert (RC := rlen_close (fvals o) (fun i => lr * fvals (vec3 (vx cs) (vy cs) (fzero false)) i) u eta ltac:(lra) ltac:(lra)).
    assert (RC' : Rabs (rlen (fvals o) - rlen (fun i => lr * fvals (vec3 (vx cs) (vy cs) (fzero false)) i)) <= u * rlen (fun i => lr * fvals (vec3 (vx cs) (vy cs) (fzero false)) i) + sqrt (INR 3) * eta).
    { apply RC. apply all3.
      - change (Rabs (B2R ox - lr * cx) <= u * Rabs (lr * cx) + eta). rewrite Rabs_mult, !(Rmult_comm lr), (Rmult_comm (Rabs lr)). exact O2.
      - change (Rabs (B2R oy - lr * cy) <= u * Rabs (lr * cy) + eta). rewrite Rabs_mult, !(Rmult_comm lr), (Rmult_comm (Rabs lr)). exact P2.
      - change (Rabs (0 - lr * 0) <= u * Rabs (lr * 0) + eta). rewrite Rmult_0_r, Rminus_0_r, Rabs_R0. lra. }
    clear RC. rewrite rlen_scale in RC'. set (lc := rlen (fvals (vec3 (vx cs) (vy cs) (fzero false)))) in *.
    assert (LC : 0 <= lc <= 1 + 9 * u).
    { split; [apply rlen_pos|]. eapply Rle_trans; [|exact C5]. unfold lc, rlen. apply sqrt_le_1_alt. unfold rdot. cbn [rsum]. change (cx * cx + (cy * cy + (0 * 0 + 0)) <= cx * cx + cy * cy). lra. }
    assert (S3 : sqrt (INR 3) <= 2). { replace 2 with (sqrt 4) by (replace 4 with (2 * 2) by ring; apply sqrt_square; lra). apply sqrt_le_1_alt. simpl INR. lra. }
    assert (S3' : sqrt (INR 3) * eta <= 2 * eta) by (apply Rmult_le_compat_r; lra).
    apply Rabs_le_inv in RC'. assert (PL := Rabs_pos lr).
    assert (K : (1 + u) * lc <= 1 + 11 * u) by nra.
    assert (Rabs lr * ((1 + u) * lc) <= Rabs lr * (1 + 11 * u)) by (apply Rmult_le_compat_l; assumption). lra. }
  split; [exact LN|]. split; [exact DE|].
  split; intros FR; cbn [origin direction] in *.
  - exact (point_err (t_inverse (view c)) A o ro HM HA Fo RO FR).
  - exact (vector_err (t_inverse (view c)) A d rd HM HA RD FR).
Qed.

(** ** the constructor *)
Lemma eta_tiny3 : eta <= bpow radix2 (-100) * u.
Proof.
  unfold smallest_float, unit_roundoff. rewrite <- bpow_plus.
  assert (bpow radix2 (3 - emax f - prec f) <= bpow radix2 (-100 + - prec f)) by (apply bpow_le; destruct f; vm_compute; discriminate).
  assert (P := bpow_gt_0 radix2 (-100 + - prec f)). lra.
Qed.
Lemma inv_bounds x a b : 0 < a -> a <= Rabs x <= b -> x <> 0 /\ / b <= Rabs (/ x) <= / a.
Proof.
  intros A [L H]. assert (x <> 0) by (intros ->; rewrite Rabs_R0 in L; lra). split; [assumption|]. rewrite Rabs_inv. split; apply Rinv_le; lra.
Qed.
Lemma film_distance_err view_ (fd fov fl lr ar : FT) : usual_size fd -> usual_size fl -> / 1024 <= Rabs (B2R fd - B2R fl) ->
  let c := thin_lens_new view_ fd fov fl lr ar in let D := B2R fd * B2R fl / (B2R fd - B2R fl) in
  view c = view_ /\ focal_distance c = fd /\ lens_radius c = lr /\ finite (film_distance c) /\ Rabs (B2R (film_distance c) - D) <= 4 * u * Rabs D.
Proof.
  intros [Fd Bd] [Fl Bl] SEP c D. split; [reflexivity|]. split; [reflexivity|]. split; [reflexivity|].
  change (film_distance c) with (fdiv (fmul fd fl) (fsub fd fl)). assert (U := uu (f := f)). assert (ET := eta_pos (f := f)). assert (E3 := eta_tiny3). assert (T := B120).
  assert (S2 : Rabs (B2R fd - B2R fl) <= 2097152) by (eapply Rle_trans; [apply Rabs_triang|]; rewrite Rabs_Ropp; lra).
  destruct (big_fin (fsub fd fl) (B2R fd - B2R fl)) as [Fs _]; [apply fsub_fadd; assumption|lra|]. assert (Es := sub_rel fd fl Fd Fl Fs).
  assert (M1 : / 1024 * / 1024 <= Rabs (B2R fd * B2R fl)) by (rewrite Rabs_mult; apply Rmult_le_compat; lra).
  assert (M2 : Rabs (B2R fd * B2R fl) <= 1048576 * 1048576) by (rewrite Rabs_mult; apply Rmult_le_compat; try apply Rabs_pos; lra).
  destruct (big_fin (fmul fd fl) (B2R fd * B2R fl)) as [Fm Em]; [apply fmul_Rnd; assumption|lra|].
  set (s := B2R fd - B2R fl) in *. set (p := B2R fd * B2R fl) in *. set (s' := B2R (fsub fd fl)) in *. set (p' := B2R (fmul fd fl)) in *.
  assert (B100 : bpow radix2 (-100) <= / 1000000000000000000000) by (cbn; lra).
  assert (B100u : bpow radix2 (-100) * u <= / 1000000000000000000000 * u) by (apply Rmult_le_compat_r; lra).
  assert (Em' : Rabs (p' - p) <= 101 / 100 * u * Rabs p).
  { eapply Rle_trans; [exact Em|]. assert (u * (/ 1024 * / 1024) <= u * Rabs p) by (apply Rmult_le_compat_l; lra). lra. }
  assert (C0 : 0 < / 1024) by lra. destruct (inv_bounds s (/ 1024) 2097152 C0 (conj SEP S2)) as [S0 SI]. assert (Ps := Rabs_pos s). assert (Pp := Rabs_pos p).
  assert (S'0 : s' <> 0). { intros Z. rewrite Z in Es. unfold Rminus in Es. rewrite Rplus_0_l, Rabs_Ropp in Es. assert (u * Rabs s <= / 1000000 * Rabs s) by (apply Rmult_le_compat_r; lra). lra. }
  assert (KB : Rabs (s / s' - 1) <= 101 / 100 * u).
  { replace (s / s' - 1) with (- (s' - s) * / s') by (field; exact S'0). rewrite Rabs_mult, Rabs_Ropp, Rabs_inv.
    assert (Rabs s <= Rabs s' + Rabs (s' - s)). { replace s with (s' + - (s' - s)) at 1 by ring. eapply Rle_trans; [apply Rabs_triang|]. rewrite Rabs_Ropp. lra. }
    assert (u * Rabs s <= / 1000000 * Rabs s) by (apply Rmult_le_compat_r; lra). assert (Ps' : 0 < Rabs s') by lra.
    apply Rmult_le_reg_r with (Rabs s'); [exact Ps'|]. rewrite Rmult_assoc, Rinv_l, Rmult_1_r by lra. eapply Rle_trans; [exact Es|].
    assert (u * Rabs s <= u * (1001 / 1000 * Rabs s')) by (apply Rmult_le_compat_l; lra). assert (0 <= u * Rabs s') by (apply Rmult_le_pos; lra). lra. }
  assert (JB : Rabs (p' / p - 1) <= 101 / 100 * u).
  { assert (p <> 0) by (intros Z; rewrite Z, Rabs_R0 in M1; lra). replace (p' / p - 1) with ((p' - p) * / p) by (field; assumption). rewrite Rabs_mult, Rabs_inv.
    apply Rmult_le_reg_r with (Rabs p); [apply Rabs_pos_lt; assumption|]. rewrite Rmult_assoc, Rinv_l, Rmult_1_r by (apply Rabs_no_R0; assumption). exact Em'. }
  assert (P0 : p <> 0) by (intros Z; rewrite Z, Rabs_R0 in M1; lra).
  set (j := p' / p) in *. set (k := s / s') in *. assert (DE : p' / s' = D * (j * k)) by (unfold D, j, k; field; auto).
  apply Rabs_le_inv in KB, JB. assert (JK : Rabs (j * k - 1) <= 203 / 100 * u) by (apply Rabs_le; nra).
  assert (DB : / 1024 * / 1024 * / 2097152 <= Rabs D <= 1048576 * 1048576 * 1024).
  { unfold D, Rdiv. rewrite Rabs_mult. replace 1024 with (/ / 1024) at 3 by apply Rinv_inv. split; apply Rmult_le_compat; try apply Rabs_pos; try tauto; lra. }
  assert (DK : Rabs (D * (j * k)) <= 101 / 100 * Rabs D).
  { rewrite Rabs_mult, (Rmult_comm (Rabs D)). apply Rmult_le_compat_r; [apply Rabs_pos|]. apply Rabs_le_inv in JK. apply Rabs_le; lra. }
  destruct (big_fin (fdiv (fmul fd fl) (fsub fd fl)) (D * (j * k))) as [F E]; [rewrite <- DE; apply fdiv_Rnd; assumption|lra|]. split; [exact F|].
  replace (B2R (fdiv (fmul fd fl) (fsub fd fl)) - D) with ((B2R (fdiv (fmul fd fl) (fsub fd fl)) - D * (j * k)) + D * (j * k - 1)) by ring.
  eapply Rle_trans; [apply Rabs_triang|]. rewrite (Rabs_mult D). assert (Rabs D * Rabs (j * k - 1) <= Rabs D * (203 / 100 * u)) by (apply Rmult_le_compat_l; [apply Rabs_pos|exact JK]).
  assert (u * Rabs (D * (j * k)) <= u * (101 / 100 * Rabs D)) by (apply Rmult_le_compat_l; lra).
  assert (u * (/ 1024 * / 1024 * / 2097152) <= u * Rabs D) by (apply Rmult_le_compat_l; lra). lra.
Qed.
End CF.
