(** Disk sampling in floats: a math library within one ulp for which a sample leaves the disk; cases. *)
From Coq Require Import ZArith Reals Bool List Lra Lia.
From Coq Require Vector Fin.
From Flocq Require Import Core BinarySingleNaN.
From Verif.Model Require Import FloatBase Scalar Float Interval Outcome Vec Transform XReal Geometry Camera.
From Verif Require Import Spec SpecGeom SpecShape SpecCamera SpecTrig.
From Verif.Proofs Require Import BitsLemmas FloatLemmas ScalarProofs IntervalBase XRealLemmas PiBounds IntervalTrig IntervalTrig2 CameraProofs CameraThms DiskFloat.
Open Scope R_scope.

Definition th32 : float F32 := fsub (f_frac_pi_2 F32) (fmul (fdiv (f_of_Z 1) (f_of_Z 1)) (f_frac_pi_4 F32)).
(** 0.70710683 and 0.70710677, the floats around sqrt(1/2) *)
Definition s32 : float F32 := of_bits 0x3f3504f4.
Definition c32 : float F32 := of_bits 0x3f3504f3.
Definition lib32 : libm F32 := {|
  m_sin := fun x => if feqb x th32 then s32 else nearest0 F32 (sin (B2R x)); m_cos := fun x => if feqb x th32 then c32 else nearest0 F32 (cos (B2R x));
  m_tan := m_tan (exact_libm F32); m_asin := m_asin (exact_libm F32); m_acos := m_acos (exact_libm F32); m_atan := m_atan (exact_libm F32); m_atan2 := m_atan2 (exact_libm F32) |}.
Ltac bv := match goal with |- B2R ?x <= _ => b2r_eval x | |- _ <= B2R ?x => b2r_eval x | |- _ < B2R ?x => b2r_eval x | |- _ <= B2R ?x <= _ => b2r_eval x end; simpl bpow.
Lemma th32_val : PI / 4 <= B2R th32 <= PI / 4 + / 40000000.
Proof. assert (L := PI_lower_bound). assert (H := PI_upper_bound). unfold th32. bv. lra. Qed.
Lemma root2 : 7071067811 / 10000000000 <= 1 / sqrt 2 <= 7071067812 / 10000000000.
Proof.
  assert (P : 0 < sqrt 2) by (apply sqrt_lt_R0; lra). assert (S : sqrt 2 * sqrt 2 = 2) by (apply sqrt_sqrt; lra).
  replace (1 / sqrt 2) with (sqrt 2 / 2) by (rewrite <- S at 2; field; lra). split; nra.
Qed.
Lemma lib32_good : good_sin_cos lib32.
Proof.
  intros x F. cbn [m_sin m_cos lib32]. destruct (feqb x th32) eqn:Q.
  2: { destruct (exact_libm_good F32) as [G _]. exact (G x F). }
  assert (FT : finite th32) by (vm_compute; reflexivity). rewrite eq_b in Q by (apply nonnan_of_finite; assumption). rewrite !E_B2R in Q by assumption.
  revert Q. case Req_bool_spec; [|discriminate]. intros -> _. assert (T := th32_val). assert (R := root2). assert (L := PI_lower_bound). assert (H := PI_upper_bound).
  assert (SL := sin_lip (B2R th32) (PI / 4)). assert (CL := cos_lip (B2R th32) (PI / 4)). rewrite sin_PI4 in SL. rewrite cos_PI4 in CL. rewrite (Rabs_pos_eq (B2R th32 - PI / 4)) in SL by lra. rewrite (Rabs_pos_eq (B2R th32 - PI / 4)) in CL by lra.
  apply Rabs_le_inv in SL. apply Rabs_le_inv in CL.
  assert (S0 : 1 / sqrt 2 <= sin (B2R th32)). { rewrite <- sin_PI4. apply sin_incr_1; lra. }
  assert (W : forall (z : float F32) a b r, finite z -> finite (f_next_down F32 z) -> finite (f_next_up F32 z) -> B2R (f_next_down F32 z) <= r -> r <= B2R (f_next_up F32 z) -> a < r -> b < B2R z -> 0 <= a -> 0 <= b -> within_ulp z r /\ same_sign z r).
  { intros z a b r F0 F1 F2 B1 B2 A1 A2 A3 A4. split; [apply ulp_intro; [exact F0|now apply below_finite|now apply above_finite]|]. split; split; intros; lra. }
  assert (WS : within_ulp s32 (sin (B2R th32)) /\ same_sign s32 (sin (B2R th32))).
  { apply (W s32 0 0); try (vm_compute; reflexivity); try lra; try (bv; lra). }
  assert (WC : within_ulp c32 (cos (B2R th32)) /\ same_sign c32 (cos (B2R th32))).
  { apply (W c32 0 0); try (vm_compute; reflexivity); try lra; try (bv; lra). }
  tauto.
Qed.
Lemma leaves_disk : exists p : vec (float F32) 2, fall finite p /\ B2R (vx p) = 0 /\ B2R (vy p) = 0 /\
  let q := concentric_sample_disk (G := float_gfloat F32 lib32) p in 1 < B2R (vx q) * B2R (vx q) + B2R (vy q) * B2R (vy q).
Proof.
  exists (vec2 (fzero false) (fzero false)). split; [|split; [reflexivity|split; [reflexivity|]]].
  { intros i. apply (Fin.caseS' i); [reflexivity|]. intros j. apply (Fin.caseS' j); [reflexivity|]. intros k. inversion k. }
  cbv zeta. rewrite conc_eq. change (vx (vec2 (fzero false : float F32) (fzero false))) with (fzero false : float F32). change (vy (vec2 (fzero false : float F32) (fzero false))) with (fzero false : float F32).
  assert (C : cx (G := float_gfloat F32 lib32) (fzero false) = f_of_Z 1) by (apply B2SF_inj; vm_compute; reflexivity). rewrite C.
  match goal with |- context [if ?b then _ else _] => replace b with false by (symmetry; vm_compute; reflexivity) end.
  match goal with |- context [if ?b then _ else _] => replace b with false by (symmetry; vm_compute; reflexivity) end.
  change (1 < B2R (fmul (f_of_Z 1) (m_cos lib32 th32)) * B2R (fmul (f_of_Z 1) (m_cos lib32 th32)) + B2R (fmul (f_of_Z 1) (m_sin lib32 th32)) * B2R (fmul (f_of_Z 1) (m_sin lib32 th32))).
  cbn [m_sin m_cos lib32]. replace (feqb th32 th32) with true by (symmetry; vm_compute; reflexivity).
  replace (fmul (f_of_Z 1) c32) with c32 by (apply B2SF_inj; vm_compute; reflexivity). replace (fmul (f_of_Z 1) s32) with s32 by (apply B2SF_inj; vm_compute; reflexivity).
  assert (VC : 70710676 / 100000000 <= B2R c32) by (unfold c32; bv; lra). assert (VS : 70710682 / 100000000 <= B2R s32) by (unfold s32; bv; lra). nra.
Qed.
Lemma is2_unique v a b c d : is2 v a b -> is2 v c d -> a = c /\ b = d.
Proof. intros [A B] [C D]. split; eapply isR_inj; eassumption. Qed.
Lemma concentric_accurate f (m : libm f) : good_sin_cos m ->
  forall (p : vec (float f) 2) (p' : vec xr 2) X Y, fall finite p -> 0 <= B2R (vx p) <= 1 -> 0 <= B2R (vy p) <= 1 ->
  is2 p' (B2R (vx p)) (B2R (vy p)) -> is2 (concentric_sample_disk p') X Y ->
  let q := concentric_sample_disk p in finite (vx q) /\ finite (vy q) /\
    Rabs (B2R (vx q) - X) <= 16 * unit_roundoff f /\ Rabs (B2R (vy q) - Y) <= 16 * unit_roundoff f.
Proof.
  intros G p p' X Y FP HX HY HP HQ q. destruct (is2_unique _ _ _ _ _ HQ (conc_value _ _ _ HP)) as [-> ->].
  destruct (concentric_err p G FP HX HY) as ((A & B) & (C & D) & _). auto.
Qed.
Lemma uniform_accurate f (m : libm f) : good_sin_cos m ->
  forall (p : vec (float f) 2) (p' : vec xr 2) X Y, fall finite p -> 0 <= B2R (vx p) <= 1 -> 0 <= B2R (vy p) <= 1 ->
  is2 p' (B2R (vx p)) (B2R (vy p)) -> is2 (uniform_sample_disk p') X Y ->
  let q := uniform_sample_disk p in finite (vx q) /\ finite (vy q) /\
    Rabs (B2R (vx q) - X) <= 16 * unit_roundoff f /\ Rabs (B2R (vy q) - Y) <= 16 * unit_roundoff f.
Proof.
  intros G p p' X Y FP HX HY HP HQ q. destruct (is2_unique _ _ _ _ _ HQ (uni_value _ _ _ HP (proj1 HY))) as [-> ->].
  destruct (uniform_err p G FP HX HY) as ((A & B) & (C & D) & _). auto.
Qed.
Lemma in_disk_close f (m : libm f) : good_sin_cos m ->
  forall p : vec (float f) 2, fall finite p -> 0 <= B2R (vx p) <= 1 -> 0 <= B2R (vy p) <= 1 ->
  let q := concentric_sample_disk p in let s := uniform_sample_disk p in
  sqrt (B2R (vx q) * B2R (vx q) + B2R (vy q) * B2R (vy q)) <= 1 + 9 * unit_roundoff f /\
  sqrt (B2R (vx s) * B2R (vx s) + B2R (vy s) * B2R (vy s)) <= 1 + 9 * unit_roundoff f.
Proof.
  intros G p FP HX HY q s. assert (U := uu (f := f)). destruct (concentric_err p G FP HX HY) as (_ & _ & A). destruct (uniform_err p G FP HX HY) as (_ & _ & B).
  split; rewrite <- (sqrt_square (1 + 9 * unit_roundoff f)) by lra; apply sqrt_le_1_alt; assumption.
Qed.
Lemma in_disk_refuted : ~ (forall (f : fmt) (m : libm f), good_sin_cos m ->
  forall p : vec (float f) 2, fall finite p -> 0 <= B2R (vx p) <= 1 -> 0 <= B2R (vy p) <= 1 ->
  let q := concentric_sample_disk p in B2R (vx q) * B2R (vx q) + B2R (vy q) * B2R (vy q) <= 1).
Proof.
  intros K. destruct leaves_disk as (p & F & X & Y & L). assert (Q := K F32 lib32 lib32_good p F ltac:(lra) ltac:(lra)). cbv zeta in Q, L. exact (Rlt_not_le _ _ L Q).
Qed.
Lemma C78_sample f : good_sin_cos (exact_libm f) /\ (exists p : vec (float f) 2, fall finite p /\ B2R (vx p) = 1 / 4 /\ B2R (vy p) = 3 / 4) /\
  is2 (vec2 (XFin (1 / 4) false) (XFin (3 / 4) false)) (1 / 4) (3 / 4).
Proof.
  split; [apply exact_libm_good|]. split.
  - exists (vec2 (fdiv (f_of_Z 1) (f_of_Z 4)) (fdiv (f_of_Z 3) (f_of_Z 4))). split; [|split].
    + intros i. apply (Fin.caseS' i); [destruct f; vm_compute; reflexivity|]. intros j. apply (Fin.caseS' j); [destruct f; vm_compute; reflexivity|]. intros k. inversion k.
    + change (B2R (fdiv (f_of_Z 1) (f_of_Z 4) : float f) = 1 / 4). destruct f; match goal with |- B2R ?x = _ => b2r_eval x end; simpl bpow; lra.
    + change (B2R (fdiv (f_of_Z 3) (f_of_Z 4) : float f) = 3 / 4). destruct f; match goal with |- B2R ?x = _ => b2r_eval x end; simpl bpow; lra.
  - exact (is2_x2 (1 / 4) (3 / 4)).
Qed.
