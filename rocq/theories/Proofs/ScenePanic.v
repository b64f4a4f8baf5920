(** When does tracing a float ray through a scene panic? *)
From Coq Require Import ZArith Reals Bool List Lra Lia.
From Coq Require Vector Fin SpecFloat.
From Flocq Require Import Core BinarySingleNaN.
From Verif.Model Require Import FloatBase Scalar Float Interval Outcome Vec Transform XReal Geometry.
From Verif Require Import Spec SpecGeom SpecShape SpecPanic.
From Verif.Proofs Require Import BitsLemmas FloatLemmas ScalarProofs XRealLemmas VectorFloat VectorCases TransformFloat TransformCases SlabFloat SlabCases VectorErr MapErr CameraFloat BoxFloat PrimProofs PerspFloat BoxExact.
Open Scope R_scope.

Lemma fexp_ok f h : (0 <= h)%Z -> (SpecFloat.fexp (prec f) (emax f) (h + 1) <= h)%Z.
Proof. unfold SpecFloat.fexp, SpecFloat.emin. destruct f; [change (prec F32) with 24%Z; change (emax F32) with 128%Z|change (prec F64) with 53%Z; change (emax F64) with 1024%Z]; lia. Qed.
Section S.
Context {f : fmt} {m : libm f}.
Notation FT := (float f).
Notation bd := (bnd (f := f)).
Lemma tight (z : FT) r h : Rnd z r -> Rabs r <= bpow radix2 h -> (0 <= h < emax f)%Z -> bd h z.
Proof.
  intros R K H. assert (G : Rabs (rndf f r) <= bpow radix2 h).
  { apply abs_round_le_generic; [apply valid_fx|apply valid_rnd_N| |exact K]. apply generic_format_bpow. now apply fexp_ok. }
  assert (F : finite z). { destruct R as [NN E0]. apply finite_of_range; [exact NN|]. rewrite E0. assert (T : bpow radix2 h < bpow radix2 (emax f)) by (apply bpow_lt; lia). apply Rabs_le_inv in G. rewrite clampE_range; lra. }
  split; [exact F|]. rewrite (Rnd_finite _ _ R F). exact G.
Qed.
Lemma bd_mul h k x y : bd h x -> bd k y -> (0 <= h + k < emax f)%Z -> bd (h + k) (fmul x y).
Proof. intros [Fx Bx] [Fy By] H. apply (tight _ _ _ (fmul_Rnd x y Fx Fy)); [|exact H]. rewrite bpow_plus, Rabs_mult. apply Rmult_le_compat; try apply Rabs_pos; assumption. Qed.
Lemma bd_add h x y : bd h x -> bd h y -> (0 <= h + 1 < emax f)%Z -> bd (h + 1) (fadd x y).
Proof. intros [Fx Bx] [Fy By] H. apply (tight _ _ _ (fadd_Rnd x y Fx Fy)); [|exact H]. rewrite bpow_plus. change (bpow radix2 1) with 2. eapply Rle_trans; [apply Rabs_triang|]. lra. Qed.
Lemma bd_le h k x : bd h x -> (h <= k)%Z -> bd k x.
Proof. intros [F B] H. split; [exact F|]. apply Rle_trans with (1 := B), bpow_le, H. Qed.
Lemma bd_sum x y z a b c j k : bd j x -> bd j y -> bd j z -> bd k a -> bd k b -> bd k c -> (0 <= j + k)%Z -> (j + k + 2 < emax f)%Z -> bd (j + k + 2) (fadd (fadd (fmul x a) (fmul y b)) (fmul z c)).
Proof.
  intros. replace (j + k + 2)%Z with (j + k + 1 + 1)%Z by ring. apply bd_add; [|apply bd_le with (j + k)%Z; [apply bd_mul; try assumption; lia|lia]|lia]. apply bd_add; [apply bd_mul; try assumption; lia|apply bd_mul; try assumption; lia|lia].
Qed.
Lemma bd_one_div h x w : bd h x -> val w 1 -> (0 <= h < emax f)%Z -> bd h (fdiv x w).
Proof. intros [F B] [Fw Vw] H. assert (NW : B2R w <> 0) by lra. apply (tight _ _ _ (fdiv_Rnd x w F Fw NW)); [|exact H]. rewrite Vw. unfold Rdiv. rewrite Rinv_1, Rmult_1_r. exact B. Qed.
Lemma vec_step (M : matrix FT) A (v : vec FT 3) j k : fM M A -> affine A -> (forall p q, Rabs (A p q) <= bpow radix2 k) -> (forall i, bd j (Vector.nth v i)) -> (0 <= j)%Z -> (0 <= k)%Z -> (j + (k + 3) < emax f)%Z ->
  (exists q, map_vector M v = Ret q /\ forall i, bd (j + (k + 3)) (Vector.nth q i)) /\ (exists q, map_point M v = Ret q /\ forall i, bd (j + (k + 3)) (Vector.nth q i)).
Proof.
  intros HM AF HK HV J K L.
  assert (E : forall p q, bd k (mget M p q)) by (intros p q; destruct (HM p q) as [F V]; split; [exact F|]; unfold mget; rewrite V; apply HK).
  assert (BX : bd j (vx v)) by apply HV. assert (BY : bd j (vy v)) by apply HV. assert (BZ : bd j (vz v)) by apply HV.
  assert (S : forall p, bd (j + k + 2) (fadd (fadd (fmul (vx v) (mget M p i0)) (fmul (vy v) (mget M p i1))) (fmul (vz v) (mget M p i2)))) by (intros p; apply bd_sum; auto; lia).
  assert (FV : fall finite v) by (intros i; apply (HV i)).
  destruct AF as (A0 & A1 & A2 & A3).
  assert (W0 : val (fadd (fadd (fmul (vx v) (mget M i3 i0)) (fmul (vy v) (mget M i3 i1))) (fmul (vz v) (mget M i3 i2))) 0).
  { apply sum3_zero; [apply BX|apply BY|apply BZ|..]; [rewrite <- A0|rewrite <- A1|rewrite <- A2]; now apply fM_get. }
  split.
  - unfold map_vector, oassert. replace (seqb _ _) with true.
    + eexists. split; [reflexivity|]. intros i. apply bd_le with (j + k + 2)%Z; [|lia]. apply (Fin.caseS' i); [exact (S i0)|]. intros i'. apply (Fin.caseS' i'); [exact (S i1)|]. intros i''. apply (Fin.caseS' i''); [exact (S i2)|]. intros x. inversion x.
    + symmetry. match type of W0 with val ?w _ => change (feqb w (fzero false : FT) = true) end. rewrite (eqb_val _ _ 0 0 W0 (val_zero false)). now apply Req_bool_true.
  - assert (W1 : val (fadd (fadd (fadd (fmul (vx v) (mget M i3 i0)) (fmul (vy v) (mget M i3 i1))) (fmul (vz v) (mget M i3 i2))) (mget M i3 i3)) 1).
    { apply val_zero_add; [exact W0|rewrite <- A3; now apply fM_get]. }
    assert (P : forall p, bd (j + (k + 3)) (fdiv (fadd (fadd (fadd (fmul (vx v) (mget M p i0)) (fmul (vy v) (mget M p i1))) (fmul (vz v) (mget M p i2))) (mget M p i3)) (fadd (fadd (fadd (fmul (vx v) (mget M i3 i0)) (fmul (vy v) (mget M i3 i1))) (fmul (vz v) (mget M i3 i2))) (mget M i3 i3)))).
    { intros p. apply bd_one_div; [|exact W1|lia]. replace (j + (k + 3))%Z with (j + k + 2 + 1)%Z by ring. apply bd_add; [apply S|apply bd_le with k; [apply E|lia]|lia]. }
    unfold map_point, oassert. cbv zeta. replace (sne _ _) with true.
    + eexists. split; [reflexivity|]. intros i. apply (Fin.caseS' i); [exact (P i0)|]. intros i'. apply (Fin.caseS' i'); [exact (P i1)|]. intros i''. apply (Fin.caseS' i''); [exact (P i2)|]. intros x. inversion x.
    + symmetry. match type of W1 with val ?w _ => change (negb (feqb w (fzero false : FT)) = true) end. rewrite (eqb_val _ _ 1 0 W1 (val_zero false)). rewrite Req_bool_false by lra. reflexivity.
Qed.
Lemma nest_pos (p : prim FT) : (0 <= nesting p)%Z.
Proof. induction p as [b|s|q t IH|ps IH|b d h] using prim_ind'; cbn [nesting]; try lia. induction IH; cbn [fold_right]; lia. Qed.
Lemma no_panic (p : prim FT) : forall k j r, affine_scene p -> entries_within k p -> ray_within j r -> (0 <= j)%Z -> (0 <= k)%Z -> (j + nesting p * (k + 3) < emax f)%Z ->
  (exists h, p_intersect p r = Ret h) /\ (exists d, p_do_intersect p r = Ret d).
Proof.
  induction p as [b|s|q t IH|ps IH|b d h] using prim_ind'; intros k j r HA HE [HO HD] J K L.
  - cbn [p_intersect p_do_intersect]. split; [apply hit_never_panics|eexists; reflexivity].
  - cbn [p_intersect p_do_intersect]. split; eexists; reflexivity.
  - cbn [affine_scene entries_within nesting] in *. destruct HA as [(B & HB & AB) HA]. destruct HE as [HE HE']. assert (N := nest_pos q).
    assert (LL : (j + (k + 3) < emax f)%Z) by nia.
    assert (HK : forall p q, Rabs (B p q) <= bpow radix2 k) by (intros p' q'; destruct (HB p' q') as [_ V]; rewrite <- V; apply HE).
    destruct (vec_step (tminv t) B (origin r) j k HB AB HK HO J K LL) as [_ (o & EO & BO)]. destruct (vec_step (tminv t) B (direction r) j k HB AB HK HD J K LL) as [(d & ED & BD) _].
    cbn [p_intersect p_do_intersect]. match goal with |- context [obind ?x _] => assert (ER : x = Ret (mkRay o d (tmax r))) by (unfold t_map_ray_inverse, t_map_point_inverse, t_map_vector_inverse; change (obind (map_point (tminv t) (origin r)) (fun o0 => obind (map_vector (tminv t) (direction r)) (fun d0 => Ret (mkRay o0 d0 (tmax r)))) = Ret (mkRay o d (tmax r))); rewrite EO, ED; reflexivity) end.
    rewrite ER. cbn [obind]. apply (IH k (j + (k + 3))%Z); auto; [split; cbn [origin direction]; assumption|lia|nia].
  - assert (A : forall q, In q ps -> (exists h, p_intersect q r = Ret h) /\ (exists d, p_do_intersect q r = Ret d)).
    { cbn [affine_scene entries_within nesting] in *. revert IH HA HE L. induction ps as [|q0 ps IHps]; intros IH HA HE L q I; [destruct I|]. cbn [fold_right] in *. inversion IH as [|? ? I1 I2]; subst.
      destruct I as [<-|I]; [apply (I1 k j r); [apply HA|apply HE|split; assumption|exact J|exact K|nia]|]. apply IHps; [exact I2|apply HA|apply HE|nia|exact I]. }
    rewrite list_eq, list_do_eq. split; [apply fold_ret; intros q I; apply (A q I)|].
    clear IH HA HE L. induction ps as [|q ps IHps]; [eexists; reflexivity|]. cbn [go]. destruct (A q (or_introl eq_refl)) as [_ [d ->]]. cbn [obind]. destruct d; [eexists; reflexivity|]. apply IHps. intros q' I. apply A. right. exact I.
  - cbn [affine_scene p_intersect p_do_intersect] in *. destruct HA as [H1 H2]. split; auto.
Qed.
End S.

(** under at most one level of transforms there is nothing to overflow *)
Section One.
Context {f : fmt} {m : libm f}.
Notation FT := (float f).
Lemma one_level (p : prim FT) : forall r, affine_scene p -> fall finite (origin r) -> fall finite (direction r) -> (nesting p <= 1)%Z ->
  (exists h, p_intersect p r = Ret h) /\ (exists d, p_do_intersect p r = Ret d).
Proof.
  assert (G : forall q : prim FT, forall r, affine_scene q -> (nesting q <= 0)%Z -> (exists h, p_intersect q r = Ret h) /\ (exists d, p_do_intersect q r = Ret d)).
  { intros q. induction q as [b|s|q t IH|ps IH|b d h] using prim_ind'; intros r HA L.
    - cbn [p_intersect p_do_intersect]. split; [apply hit_never_panics|eexists; reflexivity].
    - cbn [p_intersect p_do_intersect]. split; eexists; reflexivity.
    - cbn [nesting] in L. assert (N := nest_pos q). lia.
    - assert (A : forall q, In q ps -> (exists h, p_intersect q r = Ret h) /\ (exists d, p_do_intersect q r = Ret d)).
      { cbn [affine_scene nesting] in *. revert IH HA L. induction ps as [|q0 ps IHps]; intros IH HA L q I; [destruct I|]. cbn [fold_right] in *. inversion IH as [|? ? I1 I2]; subst.
        destruct I as [<-|I]; [apply I1; [apply HA|lia]|]. apply IHps; [exact I2|apply HA|lia|exact I]. }
      rewrite list_eq, list_do_eq. split; [apply fold_ret; intros q I; apply (A q I)|].
      clear IH HA L. induction ps as [|q ps IHps]; [eexists; reflexivity|]. cbn [go]. destruct (A q (or_introl eq_refl)) as [_ [d ->]]. cbn [obind]. destruct d; [eexists; reflexivity|]. apply IHps. intros q' I. apply A. right. exact I.
    - cbn [affine_scene p_intersect p_do_intersect] in *. destruct HA as [H1 H2]. split; auto. }
  induction p as [b|s|q t IH|ps IH|b d h] using prim_ind'; intros r HA FO FD L.
  - apply G; [exact HA|cbn [nesting]; lia].
  - apply G; [exact HA|cbn [nesting]; lia].
  - cbn [affine_scene nesting] in *. destruct HA as [(B & HB & AB) HA].
    destruct (map_point_no_panic (t_inverse t) B (origin r) HB AB FO) as (o & EO & _). destruct (map_vector_no_panic (t_inverse t) B (direction r) HB AB FD) as (d & ED & _).
    cbn [p_intersect p_do_intersect]. match goal with |- context [obind ?x _] => assert (ER : x = Ret (mkRay o d (tmax r))) by (unfold t_map_ray_inverse, t_map_point_inverse, t_map_vector_inverse; change (obind (map_point (tm (t_inverse t)) (origin r)) (fun o0 => obind (map_vector (tm (t_inverse t)) (direction r)) (fun d0 => Ret (mkRay o0 d0 (tmax r)))) = Ret (mkRay o d (tmax r))); unfold t_map_point, t_map_vector in EO, ED; rewrite EO, ED; reflexivity) end.
    rewrite ER. cbn [obind]. apply G; [exact HA|lia].
  - assert (A : forall q, In q ps -> (exists h, p_intersect q r = Ret h) /\ (exists d, p_do_intersect q r = Ret d)).
    { cbn [affine_scene nesting] in *. revert IH HA L. induction ps as [|q0 ps IHps]; intros IH HA L q I; [destruct I|]. cbn [fold_right] in *. inversion IH as [|? ? I1 I2]; subst.
      destruct I as [<-|I]; [apply I1; [apply HA|exact FO|exact FD|lia]|]. apply IHps; [exact I2|apply HA|lia|exact I]. }
    rewrite list_eq, list_do_eq. split; [apply fold_ret; intros q I; apply (A q I)|].
    clear IH HA L. induction ps as [|q ps IHps]; [eexists; reflexivity|]. cbn [go]. destruct (A q (or_introl eq_refl)) as [_ [d ->]]. cbn [obind]. destruct d; [eexists; reflexivity|]. apply IHps. intros q' I. apply A. right. exact I.
  - apply G; [exact HA|cbn [nesting]; lia].
Qed.
End One.

(** two nested scalings by the smallest normal number *)
Definition tiny f : float f := fdiv (f_of_Z 1) (f_of_Z (2 ^ (emax f - 2))).
Definition shrink f (m : libm f) : transform (float f) := scale (vec3 (tiny f) (tiny f) (tiny f)).
Definition twice f (m : libm f) (s : prim (float f)) : prim (float f) := PTransformed (PTransformed s (shrink f m)) (shrink f m).
Definition four_ray f : ray (float f) := mkRay (fv f 0 0 0) (fv f 4 0 0) (f_of_Z 1).
Lemma shrink_affine f (m : libm f) : exists B, fM (tminv (shrink f m)) B /\ affine B.
Proof.
  exists (fun i j => B2R (Vector.nth (Vector.nth (tminv (shrink f m)) i) j)). split.
  - intros i j. split; [|reflexivity]. unfold shrink, scale, tminv, t_new.
    revert i j. refine (fin4_case _ _ _ _ _); refine (fin4_case _ _ _ _ _); destruct f; vm_compute; reflexivity.
  - assert (O : B2R (sone : float f) = 1) by (change (B2R (f_of_Z 1 : float f) = 1); rewrite (small_Z f) by lia; reflexivity). repeat split; try exact O; reflexivity.
Qed.
Lemma twice_panics f (m : libm f) s : p_intersect (twice f m s) (four_ray f) = Panic /\ p_do_intersect (twice f m s) (four_ray f) = Panic.
Proof.
  assert (E : obind (t_map_ray_inverse (shrink f m) (four_ray f)) (t_map_ray_inverse (shrink f m)) = Panic) by (revert m; destruct f; intros m; vm_compute; reflexivity).
  unfold twice. cbn [p_intersect p_do_intersect].
  match goal with |- obind ?x _ = _ /\ _ => change x with (t_map_ray_inverse (shrink f m) (four_ray f)) end.
  destruct (t_map_ray_inverse (shrink f m) (four_ray f)) as [r'|]; [|split; reflexivity]. cbn [obind] in E |- *.
  match goal with |- obind ?x _ = _ /\ _ => change x with (t_map_ray_inverse (shrink f m) r') end. rewrite E. split; reflexivity.
Qed.

(** a list with a box and a ball that is moved, then doubled *)
Definition nested_scene f (m : libm f) (b : bbox (float f)) (s : sphere (float f)) : prim (float f) :=
  PList (PBox b :: PTransformed (PTransformed (PSphere s) (translate (fv f 1 (-2) 3))) (scale (fv f 2 2 2)) :: nil).
Lemma sample_bounds f (m : libm f) : (forall i j, bnd 2 (Vector.nth (Vector.nth (tminv (scale (fv f 2 2 2))) i) j)) /\ (forall i j, bnd 2 (Vector.nth (Vector.nth (tminv (translate (fv f 1 (-2) 3))) i) j)).
Proof.
  assert (V : forall z, (Z.abs z <= 100)%Z -> B2R (f_of_Z z : float f) = IZR z) by (intros; now apply (small_Z f)).
  assert (B0 : bnd 2 (szero : float f)) by (split; [reflexivity|change (Rabs 0 <= 4); rewrite Rabs_R0; lra]).
  assert (B1 : bnd 2 (sone : float f)).
  { split; [destruct f; reflexivity|]. change (Rabs (B2R (f_of_Z 1 : float f)) <= 4). rewrite V by lia. rewrite Rabs_pos_eq; lra. }
  assert (BH : bnd 2 (fdiv (f_of_Z 1) (f_of_Z 2) : float f)).
  { assert (N2 : B2R (f_of_Z 2 : float f) <> 0) by (rewrite V by lia; lra). assert (F1 : finite (f_of_Z 1 : float f)) by (destruct f; reflexivity). assert (F2 : finite (f_of_Z 2 : float f)) by (destruct f; reflexivity). refine (tight _ _ 2 (fdiv_Rnd _ _ F1 F2 N2) _ _); [|destruct f; vm_compute; (split; [discriminate|reflexivity])].
    rewrite !V by lia. change (bpow radix2 2) with 4. apply Rabs_le. lra. }
  assert (N : forall z, (Z.abs z <= 4)%Z -> finite (f_of_Z z : float f) -> bnd 2 (fneg (f_of_Z z : float f))).
  { intros z Hz F. split; [now apply fneg_finite|]. rewrite fneg_B2R, Rabs_Ropp, V by lia. change (bpow radix2 2) with (IZR 4). rewrite <- abs_IZR. now apply IZR_le. }
  split; refine (fin4_case _ _ _ _ _); refine (fin4_case _ _ _ _ _); first [exact B0|exact B1|exact BH|apply N; [lia|destruct f; reflexivity]].
Qed.
Lemma C90_sample f (m : libm f) b s : let scn := nested_scene f m b s in affine_scene scn /\ entries_within 2 scn /\ ray_within 3 (mkRay (fv f 5 0 (-7)) (fv f 1 (-1) 2) (f_of_Z 9)) /\ nesting scn = 2%Z /\ (3 + nesting scn * (2 + 3) < emax f)%Z.
Proof.
  intros scn. destruct (sample_bounds f m) as [S1 S2].
  assert (O : B2R (sone : float f) = 1) by (change (B2R (f_of_Z 1 : float f) = 1); rewrite (small_Z f) by lia; reflexivity).
  assert (A1 : exists B, fM (tminv (scale (fv f 2 2 2))) B /\ affine B).
  { exists (fun i j => B2R (Vector.nth (Vector.nth (tminv (scale (fv f 2 2 2))) i) j)). split; [intros i j; split; [apply S1|reflexivity]|]. repeat split; try exact O; reflexivity. }
  assert (A2 : exists B, fM (tminv (translate (fv f 1 (-2) 3))) B /\ affine B).
  { exists (fun i j => B2R (Vector.nth (Vector.nth (tminv (translate (fv f 1 (-2) 3))) i) j)). split; [intros i j; split; [apply S2|reflexivity]|]. repeat split; try exact O; reflexivity. }
  assert (Z3 : forall z, (Z.abs z <= 8)%Z -> finite (f_of_Z z : float f) -> finite (f_of_Z z : float f) /\ Rabs (B2R (f_of_Z z : float f)) <= bpow radix2 3).
  { intros z Hz F. split; [exact F|]. rewrite (small_Z f) by lia. change (bpow radix2 3) with (IZR 8). rewrite <- abs_IZR. now apply IZR_le. }
  split; [cbn [affine_scene scn nested_scene fold_right]; auto|]. split.
  { unfold scn, nested_scene. cbn [entries_within fold_right]. split; [exact I|]. split; [|exact I]. split; [intros i j; apply S1|]. split; [intros i j; apply S2|exact I]. }
  split; [|split; [reflexivity|destruct f; reflexivity]].
  split; intros i; apply (Fin.caseS' i); try (apply Z3; [lia|destruct f; reflexivity]); intros i'; apply (Fin.caseS' i'); try (apply Z3; [lia|destruct f; reflexivity]); intros i''; apply (Fin.caseS' i''); try (apply Z3; [lia|destruct f; reflexivity]); intros x; inversion x.
Qed.
Lemma nested_panic f (m : libm f) (q : prim (float f)) : affine_scene q -> affine_scene (twice f m q) /\ fall finite (origin (four_ray f)) /\ fall finite (direction (four_ray f)) /\
  p_intersect (twice f m q) (four_ray f) = Panic /\ p_do_intersect (twice f m q) (four_ray f) = Panic.
Proof.
  intros Q. split; [split; [apply shrink_affine|split; [apply shrink_affine|exact Q]]|]. split; [apply fv_finite; lia|]. split; [apply fv_finite; lia|apply twice_panics].
Qed.
Lemma refuted_panic f (m : libm f) : ~ forall (p : prim (float f)) (r : ray (float f)),
  affine_scene p -> fall finite (origin r) -> fall finite (direction r) ->
  (exists h, p_intersect p r = Ret h) /\ (exists d, p_do_intersect p r = Ret d).
Proof. intros H. destruct (nested_panic f m (PBox (mkB (fv f 0 0 0) (fv f 1 1 1))) I) as (A & O & D & P & _). destruct (H _ _ A O D) as [[h E] _]. rewrite P in E. discriminate. Qed.
