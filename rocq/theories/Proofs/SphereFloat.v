(** Spheres in float arithmetic. *)
From Coq Require Import ZArith Reals Bool Lra Lia.
From Coq Require Vector Fin.
From Flocq Require Import Core BinarySingleNaN.
From Verif.Model Require Import FloatBase Scalar Float Interval Outcome Vec Transform XReal Geometry.
From Verif Require Import Spec SpecGeom SpecShape.
From Verif.Proofs Require Import BitsLemmas FloatLemmas ScalarProofs TransformCases BoxFloat.
Open Scope R_scope.
Notation "v @ i" := (Vector.nth v i) (at level 20, only parsing).
Local Arguments finite {f} x : simpl never.

Section S.
Context {f : fmt} {m : libm f}.
Notation FT := (float f).

Lemma gi_float (s : sphere FT) r t ip : s_get_intersection s r t = Some ip ->
  sp_t ip = t /\ sp_p ip = ray_eval r t /\ fle (fzero false) t /\ fle t (tmax r) /\ fle (z_min s) (vz (sp_p ip)) /\ fle (vz (sp_p ip)) (z_max s) /\
  ~ flt (phi_max s) (gatan2 (vy (sp_p ip)) (vx (sp_p ip))).
Proof.
  unfold s_get_intersection. destruct (in_range t szero (tmax r)) eqn:E1; [|discriminate]. cbn [negb].
  destruct (in_range (vz (ray_eval r t)) (z_min s) (z_max s)) eqn:E2; [|discriminate]. cbn [negb].
  destruct (sgt (gatan2 (vy (ray_eval r t)) (vx (ray_eval r t))) (phi_max s)) eqn:E3; [discriminate|].
  injection 1 as <-. cbn [sp_t sp_p]. apply in_range_spec in E1. apply in_range_spec in E2.
  repeat split; try tauto. intros K. apply sgt_spec in K. exact (diff_true_false (eq_trans (eq_sym K) E3)).
Qed.
Lemma ir_float (s : sphere FT) r ip : s_intersect_ray s r = Some ip -> exists t, s_get_intersection s r t = Some ip.
Proof.
  unfold s_intersect_ray. destruct (solve_quadratic _ _ _) as [[t0 t1]|]; [|discriminate].
  destruct (s_get_intersection s r t0) eqn:E0.
  - injection 1 as <-. eauto.
  - eauto.
Qed.
Lemma s_hit_ip (s : sphere FT) r h : s_hit s r = Some h -> exists ip, s_intersect_ray s r = Some ip /\ t_ray h = sp_t ip /\ si_p (h_si h) = sp_p ip.
Proof.
  unfold s_hit. destruct (s_intersect_ray s r) as [ip|]; [|discriminate]. destruct (gsin_cos _). injection 1 as <-. eexists; repeat split.
Qed.
Lemma hit_float_sphere (s : sphere FT) r h : s_hit s r = Some h ->
  fle (fzero false) (t_ray h) /\ fle (t_ray h) (tmax r) /\ si_p (h_si h) = ray_eval r (t_ray h) /\
  fle (z_min s) (vz (si_p (h_si h))) /\ fle (vz (si_p (h_si h))) (z_max s) /\
  ~ flt (phi_max s) (gatan2 (vy (si_p (h_si h))) (vx (si_p (h_si h)))).
Proof.
  intros H. destruct (s_hit_ip _ _ _ H) as (ip & A & -> & ->). destruct (ir_float _ _ _ A) as (t & B).
  destruct (gi_float _ _ _ _ B) as (-> & C & D). rewrite <- C. tauto.
Qed.
Lemma s_do_float (s : sphere FT) r : s_do_intersect s r = true <-> exists h, s_hit s r = Some h.
Proof.
  unfold s_do_intersect, s_hit. destruct (s_intersect_ray s r); [destruct (gsin_cos _)|]; split; try discriminate; eauto.
  intros (h & K). discriminate.
Qed.
Lemma s_new_float (rd z0 z1 p1 : FT) :
  (flt z0 z1 -> exists s, s_new rd z0 z1 p1 = Ret s /\ radius s = rd /\ z_min s = z0 /\ z_max s = z1 /\ phi_max s = p1) /\
  (~ flt z0 z1 -> s_new rd z0 z1 p1 = Panic).
Proof.
  unfold s_new, oassert. pose proof (slt_spec z0 z1) as K.
  destruct (slt z0 z1) eqn:E1.
  - split; [|intros Q; exfalso; apply Q, K; reflexivity]. intros _. eexists; repeat split.
  - split; [|reflexivity]. intros Q. apply K in Q. discriminate.
Qed.
Lemma quad_ordered (a b c t0 t1 : FT) : solve_quadratic a b c = Some (t0, t1) -> nonnan t0 -> nonnan t1 -> fle t0 t1.
Proof.
  assert (G : forall x y : FT, min_max x y = (t0, t1) -> nonnan t0 -> nonnan t1 -> fle t0 t1).
  { intros x y H N0 N1. assert (K : nonnan x /\ nonnan y).
    { unfold min_max in H. destruct (slt x y); injection H as -> ->; auto. }
    destruct K as [Nx Ny]. destruct (min_max_spec x y Nx Ny) as [_ L]. rewrite H in L. exact L. }
  unfold solve_quadratic. destruct (is_nonnegative _); [|discriminate].
  destruct (is_nonnegative b); intros H; injection H as H; eauto.
Qed.
End S.

(** ** a ball of radius 7/4 seen from afar: the reported point has x = -2 *)
Definition far (f : fmt) : Z := match f with F32 => (-8192)%Z | F64 => (-5 * 2 ^ 25)%Z end.
Definition rd175 (f : fmt) : float f := fdiv (f_of_Z 7) (f_of_Z 4).
Definition far_ray (f : fmt) : ray (float f) := mkRay (fv f (far f) 0 0) (fv f 1 0 0) (f_of_Z (2 ^ 40)).
Definition far_root (f : fmt) {m : libm f} : float f :=
  match solve_quadratic (square_norm (direction (far_ray f))) (smul (dot (origin (far_ray f)) (direction (far_ray f))) (from_i64 2))
          (ssub (square_norm (origin (far_ray f))) (ssquare (rd175 f))) with Some (t0, _) => t0 | None => fnan end.
Definition far_ball (f : fmt) {m : libm f} : outcome (sphere (float f)) := s_new (rd175 f) (sneg (rd175 f)) (rd175 f) (finf false).
Lemma no_gt_inf f (x : float f) : sgt x (finf false) = false.
Proof. destruct x as [[]|[]| |[]]; reflexivity. Qed.
Lemma gi_inf f (m : libm f) (s : sphere (float f)) r t : phi_max s = finf false ->
  in_range t (fzero false) (tmax r) = true -> in_range (vz (ray_eval r t)) (z_min s) (z_max s) = true ->
  exists ip, s_get_intersection s r t = Some ip.
Proof.
  intros P A B. unfold s_get_intersection.
  match goal with |- context [negb ?b] => replace b with true by (symmetry; exact A) end. cbn [negb].
  match goal with |- context [negb ?b] => replace b with true by (symmetry; exact B) end. cbn [negb].
  rewrite P. match goal with |- context [if ?b then None else _] => replace b with false by (symmetry; apply no_gt_inf) end.
  eexists; reflexivity.
Qed.
Lemma hit_first_root f (m : libm f) (s : sphere (float f)) r t0 t1 : phi_max s = finf false ->
  solve_quadratic (square_norm (direction r)) (smul (dot (origin r) (direction r)) (from_i64 2)) (ssub (square_norm (origin r)) (ssquare (radius s))) = Some (t0, t1) ->
  in_range t0 (fzero false) (tmax r) = true -> in_range (vz (ray_eval r t0)) (z_min s) (z_max s) = true ->
  exists h, s_hit s r = Some h /\ t_ray h = t0.
Proof.
  intros P Q A B. destruct (gi_inf f m s r t0 P A B) as [ip G].
  assert (I : s_intersect_ray s r = Some ip).
  { unfold s_intersect_ray. match goal with |- match ?q with _ => _ end = _ => replace q with (Some (t0, t1)) by (symmetry; exact Q) end. now rewrite G. }
  unfold s_hit. rewrite I. destruct (gsin_cos _). eexists. split; [reflexivity|]. cbn [t_ray]. now apply gi_float in G.
Qed.
Lemma far_in f (m : libm f) : in_range (far_root f) (fzero false) (tmax (far_ray f)) = true.
Proof. destruct f; vm_compute; reflexivity. Qed.
Lemma far_z f (m : libm f) : in_range (vz (ray_eval (far_ray f) (far_root f))) (sneg (rd175 f)) (rd175 f) = true.
Proof. destruct f; vm_compute; reflexivity. Qed.
Lemma far_x f (m : libm f) : sle (sneg (rd175 f)) (vx (ray_eval (far_ray f) (far_root f))) = false.
Proof. destruct f; vm_compute; reflexivity. Qed.
Lemma far_hit f (m : libm f) : exists s h, far_ball f = Ret s /\ s_hit s (far_ray f) = Some h /\ t_ray h = far_root f /\ radius s = rd175 f.
Proof.
  assert (L : flt (sneg (rd175 f)) (rd175 f)) by (apply slt_spec; destruct f; vm_compute; reflexivity).
  destruct (proj1 (s_new_float (rd175 f) (sneg (rd175 f)) (rd175 f) (finf false)) L) as (s & S0 & S1 & S2 & S3 & S4).
  exists s. assert (K := far_in f m). assert (Kz := far_z f m). unfold far_root in *.
  destruct (solve_quadratic _ _ _) as [[t0 t1]|] eqn:Q; [|discriminate K].
  destruct (hit_first_root f m s (far_ray f) t0 t1 S4) as (h & H1 & H2); [rewrite S1; exact Q|exact K|rewrite S2, S3; exact Kz|].
  exists h. auto.
Qed.
Lemma sphere_box_refuted f (m : libm f) :
  ~ (forall (rd z0 z1 p1 : float f) s r h, s_new rd z0 z1 p1 = Ret s -> flt (fzero false) rd -> s_hit s r = Some h -> in_fbox (s_bbox s) (si_p (h_si h))).
Proof.
  intros C. destruct (far_hit f m) as (s & h & A & B & D & R1). unfold far_ball in A.
  specialize (C _ _ _ _ _ _ _ A ltac:(apply slt_spec; destruct f; vm_compute; reflexivity) B).
  specialize (C Fin.F1). destruct C as [C _].
  destruct (hit_float_sphere _ _ _ B) as (_ & _ & E & _). rewrite E, D in C.
  apply sle_spec in C. 
  assert (X : sle (sneg (rd175 f)) (vx (ray_eval (far_ray f) (far_root f))) = true).
  { replace (sneg (rd175 f)) with (Vector.nth (pmin (s_bbox s)) Fin.F1); [exact C|].
    unfold s_bbox. rewrite R1. clear. destruct f; apply B2SF_inj; vm_compute; reflexivity. }
  rewrite far_x in X. discriminate.
Qed.
