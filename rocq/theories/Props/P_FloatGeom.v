(** * C73-C75: computing in floats compared with intervals and with exact geometry.

    [feval]/[ieval]/[reval] (SpecExpr.v): an expression computed with the crate's float operations,
    with its interval operations, and exactly.  [ray_in_box b r t] (SpecShape.v): the exact point of
    the ray [r] at the real parameter [t] lies in the box [b].  [unit_roundoff] is 2^-24 or 2^-53. *)
From Coq Require Import ZArith Reals Bool Lra.
From Coq Require Vector Fin.
From Flocq Require Import Core BinarySingleNaN.
From Verif.Model Require Import FloatBase Scalar Float Interval Outcome Vec Transform XReal Geometry.
From Verif Require Import Spec SpecExpr SpecGeom SpecShape.
From Verif.Proofs Require Import ScalarProofs IntervalRefute TransformCases IntervalFloat SlabFloat SlabCases SphereFloat.
From Verif Require Import SpecQuad.
From Verif.Proofs Require Import SpherePole ExactCond.
Open Scope R_scope.
Notation FI f := (interval (float f)).
Notation "v @ i" := (Vector.nth v i) (at level 20, only parsing).

(** ** C73 *)
Theorem C73_float_in_interval : forall (f : fmt) (m : libm f) (e : expr f) (env : nat -> FI f) (fenv : nat -> float f),
  (forall n, mem (B2R (fenv n)) (env n)) -> all_finite fenv e -> everywhere proper env e -> no_double_straddle env e ->
  mem (B2R (feval fenv e)) (ieval env e).
Proof. intros f m. exact float_in_interval. Qed.
Print Assumptions C73_float_in_interval.
(** so the width of the interval result bounds the rounding error of the float result *)
Theorem C73_error_bound : forall (f : fmt) (m : libm f) (e : expr f) (env : nat -> FI f) (fenv : nat -> float f) r,
  (forall n, mem (B2R (fenv n)) (env n)) -> reval (fun n => B2R (fenv n)) e r -> all_finite fenv e ->
  everywhere proper env e -> no_double_straddle env e -> bounded (ieval env e) ->
  Rabs (B2R (feval fenv e) - r) <= B2R (sup (ieval env e)) - B2R (inf (ieval env e)).
Proof. exact float_error. Qed.
Print Assumptions C73_error_bound.
(** (x^2 + 1) / |y| with x = 2 in [-1,2], y = 3 in [3,4] *)
Example C73_case : forall m : libm F32,
  let env := fun n => match n with O => ZI F32 (-1) 2 | _ => ZI F32 3 4 end in
  let fenv := fun n => match n with O => f_of_Z 2 | _ => f_of_Z 3 end : float F32 in
  let e := EDiv (EAddS (ESquare (EVar 0)) (f_of_Z 1)) (EAbs (EVar 1)) : expr F32 in
  (forall n, mem (B2R (fenv n)) (env n)) /\ all_finite fenv e /\ everywhere proper env e /\ no_double_straddle env e /\ bounded (ieval env e) /\
  reval (fun n => B2R (fenv n)) e ((B2R (f_of_Z 2 : float F32) * B2R (f_of_Z 2 : float F32) + B2R (f_of_Z 1 : float F32)) / Rabs (B2R (f_of_Z 3 : float F32))).
Proof.
  intros m env fenv e.
  assert (V : forall z, (Z.abs z <= 100)%Z -> B2R (f_of_Z z : float F32) = IZR z) by (intros; now apply small_Z).
  split; [intros []; unfold env, fenv; rewrite V by easy; zi|].
  split; [repeat split|]. split; [repeat split; vm_compute; reflexivity|]. split; [repeat split|]. split; [split; vm_compute; reflexivity|].
  apply RDiv; [|apply RAbs; exact (RVar (fun n => B2R (fenv n)) 1)|apply Rabs_no_R0; rewrite V by easy; lra].
  apply RAddS; [apply RSquare; exact (RVar (fun n => B2R (fenv n)) 0)|reflexivity].
Qed.

(** ** C74: spheres in floats *)
Theorem C74_hit_record : forall (f : fmt) (m : libm f) (s : sphere (float f)) r h, s_hit s r = Some h ->
  fle (fzero false) (t_ray h) /\ fle (t_ray h) (tmax r) /\ si_p (h_si h) = ray_eval r (t_ray h) /\
  fle (z_min s) (vz (si_p (h_si h))) /\ fle (vz (si_p (h_si h))) (z_max s) /\
  ~ flt (phi_max s) (gatan2 (vy (si_p (h_si h))) (vx (si_p (h_si h)))).
Proof. intros f m. exact hit_float_sphere. Qed.
Print Assumptions C74_hit_record.
Theorem C74_do_intersect : forall (f : fmt) (m : libm f) (s : sphere (float f)) r, s_do_intersect s r = true <-> exists h, s_hit s r = Some h.
Proof. intros f m. exact s_do_float. Qed.
Print Assumptions C74_do_intersect.
Theorem C74_new : forall (f : fmt) (m : libm f) (rd z0 z1 p1 : float f),
  (flt z0 z1 -> exists s, s_new rd z0 z1 p1 = Ret s /\ radius s = rd /\ z_min s = z0 /\ z_max s = z1 /\ phi_max s = p1) /\
  (~ flt z0 z1 -> s_new rd z0 z1 p1 = Panic).
Proof. intros f m. exact s_new_float. Qed.
Print Assumptions C74_new.
Theorem C74_roots_ordered : forall (f : fmt) (m : libm f) (a b c t0 t1 : float f),
  solve_quadratic a b c = Some (t0, t1) -> nonnan t0 -> nonnan t1 -> fle t0 t1.
Proof. intros f m. exact quad_ordered. Qed.
Print Assumptions C74_roots_ordered.
(** hit points lie in the sphere's own bounding box *)
Definition C74_hit_in_bbox (f : fmt) (m : libm f) : Prop := forall (rd z0 z1 p1 : float f) s r h,
  s_new rd z0 z1 p1 = Ret s -> flt (fzero false) rd -> s_hit s r = Some h -> in_fbox (s_bbox s) (si_p (h_si h)).
(** false in floats: a ball of radius 7/4 seen from a distance of 8192 (f32) is hit at x = -2 *)
Theorem C74_hit_in_bbox_refuted : forall (f : fmt) (m : libm f), ~ C74_hit_in_bbox f m.
Proof. exact sphere_box_refuted. Qed.
Print Assumptions C74_hit_in_bbox_refuted.
(** what holds for sizes far from the ends of the float range: the hit point is in the box grown
    sideways by 100 roundings of (|origin|^2 + radius^2) / radius *)
Theorem C74_hit_in_bbox_partial : forall (f : fmt) (m : libm f) (s : sphere (float f)) (r : ray (float f)) h,
  usual_ray (origin r) (direction r) -> usual_radius (radius s) -> s_hit s r = Some h ->
  let rad := B2R (radius s) in
  let grow := 100 * unit_roundoff f * (dot3 (f3 (origin r)) (f3 (origin r)) + rad * rad) / rad in
  let q := f3 (si_p (h_si h)) in
  - (rad + grow) <= cX q <= rad + grow /\ - (rad + grow) <= cY q <= rad + grow /\
  fle (z_min s) (vz (si_p (h_si h))) /\ fle (vz (si_p (h_si h))) (z_max s).
Proof. intros f m. exact hit_bbox. Qed.
Print Assumptions C74_hit_in_bbox_partial.
(** ** C52 in floats: at the poles every component of the reported normal is NaN *)
Theorem C52_pole_normal : forall (f : fmt) (m : libm f) (s : sphere (float f)) (r : ray (float f)) h, s_hit s r = Some h ->
  finite (vx (si_p (h_si h))) -> B2R (vx (si_p (h_si h))) = 0 ->
  finite (vy (si_p (h_si h))) -> B2R (vy (si_p (h_si h))) = 0 ->
  forall i, Vector.nth (si_n (h_si h)) i = B754_nan.
Proof. intros f m. exact pole_normal. Qed.
Print Assumptions C52_pole_normal.
Example C52_case_pole : forall (f : fmt) (m : libm f), exists s h, ball2 f = Ret s /\ s_hit s (axis_ray f) = Some h /\
  finite (vx (si_p (h_si h))) /\ B2R (vx (si_p (h_si h))) = 0 /\ finite (vy (si_p (h_si h))) /\ B2R (vy (si_p (h_si h))) = 0.
Proof. exact axis_hit. Qed.
Example C74_case : forall (f : fmt) (m : libm f), exists s h, far_ball f = Ret s /\ s_hit s (far_ray f) = Some h /\ t_ray h = far_root f /\ radius s = rd175 f.
Proof. exact far_hit. Qed.
Example C74_case_usual : forall (f : fmt) (m : libm f), exists s h, ball43 f = Ret s /\ s_hit s (side_ray f) = Some h /\
  usual_ray (origin (side_ray f)) (direction (side_ray f)) /\ usual_radius (radius s).
Proof. exact side_hit. Qed.

(** ** C75: the slab test in floats *)
(** the corner differences the test computes do not overflow *)
Definition no_overflow {f} (b : bbox (float f)) (r : ray (float f)) : Prop :=
  forall i, finite (ssub (pmin b @ i) (origin r @ i)) /\ finite (ssub (pmax b @ i) (origin r @ i)).
(** the ray meets the box within its extent *)
Definition meets_box {f} (b : bbox (float f)) (r : ray (float f)) : Prop := exists t, 0 <= t <= B2R (tmax r) /\ ray_in_box b r t.
Definition C75_no_false_miss (f : fmt) (m : libm f) : Prop := forall (b : bbox (float f)) (r : ray (float f)),
  box_finite b -> box_ordered b -> ray_finite r -> ray_no_graze b r -> no_overflow b r ->
  meets_box b r -> b_do_intersect b r = true.
Theorem C75_no_false_miss_refuted : forall (f : fmt) (m : libm f), ~ C75_no_false_miss f m.
Proof. exact false_miss. Qed.
Print Assumptions C75_no_false_miss_refuted.
Definition C75_no_false_hit (f : fmt) (m : libm f) : Prop := forall (b : bbox (float f)) (r : ray (float f)),
  box_finite b -> box_ordered b -> ray_finite r -> ray_no_graze b r -> no_overflow b r -> 0 <= B2R (tmax r) ->
  b_do_intersect b r = true -> meets_box b r.
Theorem C75_no_false_hit_refuted : forall (f : fmt) (m : libm f), ~ C75_no_false_hit f m.
Proof. exact false_hit. Qed.
Print Assumptions C75_no_false_hit_refuted.
(** Missing: chords shorter than one rounding of the parameter.  A ray that is in the box on a
    whole relative neighbourhood of some parameter is never missed ... *)
Theorem C75_no_false_miss_partial : forall (f : fmt) (m : libm f) (b : bbox (float f)) (r : ray (float f)),
  box_finite b -> box_ordered b -> ray_finite r -> ray_no_graze b r -> no_overflow b r -> forall t, 0 <= t <= B2R (tmax r) ->
  (forall s, t / (1 + unit_roundoff f) <= s <= t / (1 - unit_roundoff f) -> ray_in_box b r s) -> b_do_intersect b r = true.
Proof. intros f m. exact slab_complete. Qed.
Print Assumptions C75_no_false_miss_partial.
(** ... nor is any ray whose corner differences are exact (origin 0, or integer coordinates below 2^prec, say) *)
Theorem C75_exact_differences_partial : forall (f : fmt) (m : libm f) (b : bbox (float f)) (r : ray (float f)),
  box_finite b -> box_ordered b -> ray_finite r -> ray_no_graze b r -> no_overflow b r ->
  (forall i, B2R (ssub (pmin b @ i) (origin r @ i)) = B2R (pmin b @ i) - B2R (origin r @ i) /\
             B2R (ssub (pmax b @ i) (origin r @ i)) = B2R (pmax b @ i) - B2R (origin r @ i)) ->
  meets_box b r -> b_do_intersect b r = true.
Proof. exact exact_diffs. Qed.
Print Assumptions C75_exact_differences_partial.
(** A reported hit is a near hit: for some parameter in range every coordinate is inside its slab
    at a parameter that differs from it by a few roundings only. *)
Theorem C75_no_false_hit_partial : forall (f : fmt) (m : libm f) (b : bbox (float f)) (r : ray (float f)),
  box_finite b -> box_ordered b -> ray_finite r -> ray_no_graze b r -> no_overflow b r -> 0 <= B2R (tmax r) ->
  b_do_intersect b r = true -> exists t, 0 <= t <= B2R (tmax r) /\
  forall i, exists s, Rabs (s - t) <= (2 * unit_roundoff f + unit_roundoff f * unit_roundoff f) * Rabs s + smallest_float f / 2 /\
    B2R (pmin b @ i) <= B2R (origin r @ i) + s * B2R (direction r @ i) <= B2R (pmax b @ i).
Proof. intros f m. exact slab_sound. Qed.
Print Assumptions C75_no_false_hit_partial.
(** the least / greatest parameter in range at which the ray is in the box *)
Definition first_in_box {f} (b : bbox (float f)) (r : ray (float f)) (t : R) : Prop :=
  0 <= t <= B2R (tmax r) /\ ray_in_box b r t /\ forall s, 0 <= s <= B2R (tmax r) -> ray_in_box b r s -> t <= s.
Definition last_in_box {f} (b : bbox (float f)) (r : ray (float f)) (t : R) : Prop :=
  0 <= t <= B2R (tmax r) /\ ray_in_box b r t /\ forall s, 0 <= s <= B2R (tmax r) -> ray_in_box b r s -> s <= t.
(** the reported parameter range is accurate to a few roundings *)
Theorem C75_accuracy : forall (f : fmt) (m : libm f) (b : bbox (float f)) (r : ray (float f)),
  box_finite b -> box_ordered b -> ray_finite r -> ray_no_graze b r -> no_overflow b r -> 0 <= B2R (tmax r) ->
  forall x y t0 t1, b_intersect_ray b r = Some (x, y) -> first_in_box b r t0 -> last_in_box b r t1 ->
  let bound t := (2 * unit_roundoff f + unit_roundoff f * unit_roundoff f) * t + smallest_float f / 2 in
  (finite x /\ Rabs (B2R x - t0) <= bound t0) /\ (finite y /\ Rabs (B2R y - t1) <= bound t1).
Proof. intros f m. exact slab_accuracy. Qed.
Print Assumptions C75_accuracy.
Example C75_case : forall (f : fmt) (m : libm f), box_finite (ghost_box f) /\ box_ordered (ghost_box f) /\ ray_finite (ghost_ray f) /\
  ray_no_graze (ghost_box f) (ghost_ray f) /\ no_overflow (ghost_box f) (ghost_ray f) /\ 0 <= B2R (tmax (ghost_ray f)) /\
  b_do_intersect (ghost_box f) (ghost_ray f) = true.
Proof. intros f m. exact (conj (ghost_bf f) (conj (ghost_bo f) (conj (ghost_rf f) (conj (ghost_ng f) (conj (ghost_sf f) (conj (ghost_tm f) (ghost_true f (m := m)))))))). Qed.
(** the unit cube seen along x from -1: all hypotheses of the accuracy theorems, first contact at 1, last at 2 *)
Example C75_case_accuracy : forall (f : fmt) (m : libm f), let b := mkB (fv f 0 (-1) (-1)) (fv f 1 1 1) in let r := mkRay (fv f (-1) 0 0) (fv f 1 0 0) (f_of_Z 10) in
  box_finite b /\ box_ordered b /\ ray_finite r /\ ray_no_graze b r /\ no_overflow b r /\ 0 <= B2R (tmax r) /\
  first_in_box b r 1 /\ last_in_box b r 2 /\ (forall s, (3/2) / (1 + unit_roundoff f) <= s <= (3/2) / (1 - unit_roundoff f) -> ray_in_box b r s) /\
  (forall i, B2R (ssub (pmin b @ i) (origin r @ i)) = B2R (pmin b @ i) - B2R (origin r @ i) /\
             B2R (ssub (pmax b @ i) (origin r @ i)) = B2R (pmax b @ i) - B2R (origin r @ i)) /\
  exists x y, b_intersect_ray b r = Some (x, y).
Proof. exact cube_case. Qed.
