(** * C49-C53 and the sphere part of C64.
    Exact arithmetic: [isR x a] says the scalar [x] is the real number [a]; a sphere is whatever
    [Sphere::new] returns.  Vocabulary: Spec*.v. *)
From Coq Require Import ZArith Reals Bool.
From Coq Require Vector Fin.
From Verif.Model Require Import FloatBase Scalar Interval Outcome Vec Transform XReal Geometry.
From Verif Require Import Spec SpecGeom SpecShape SpecSphere.
From Verif.Proofs Require Import XRealLemmas TransformCases BoxCases SphereExact SphereThms SphereCases.
Open Scope R_scope.

(** ** C49 *)
(** The reported hit is the ray's first point that is on the clipped sphere.  Points whose polar
    angle is ambiguous (see SpecSphere.v) may be classified either way. *)
Theorem C49_first_hit : forall rd' z0' z1' p1' rad z0 z1 p1 s r o d tm,
  isR rd' rad -> isR z0' z0 -> isR z1' z1 -> isR p1' p1 -> s_new rd' z0' z1' p1' = Ret s -> isRay r o d tm -> d <> zero3 ->
  match s_hit s r with
  | Some h => exists t, isR (t_ray h) t /\ is3 (si_p (h_si h)) (at_ray o d t) /\
      meets rad z0 z1 o d tm t /\ inside_wedge (at_ray o d t) p1 /\
      (forall u, meets rad z0 z1 o d tm u -> u < t -> outside_wedge (at_ray o d u) p1)
  | None => forall u, meets rad z0 z1 o d tm u -> outside_wedge (at_ray o d u) p1
  end.
Proof. exact hit_first. Qed.
Print Assumptions C49_first_hit.
(** without a wedge cut: hit exactly when the ray meets the surface, and the least t *)
Theorem C49_full_turn : forall rd' z0' z1' p1' rad z0 z1 p1 s r o d tm,
  isR rd' rad -> isR z0' z0 -> isR z1' z1 -> isR p1' p1 -> s_new rd' z0' z1' p1' = Ret s -> isRay r o d tm -> d <> zero3 -> PI <= p1 ->
  (s_do_intersect s r = true <-> exists t, meets rad z0 z1 o d tm t) /\
  (forall h, s_hit s r = Some h -> exists t, isR (t_ray h) t /\ is3 (si_p (h_si h)) (at_ray o d t) /\ meets rad z0 z1 o d tm t /\
     forall u, meets rad z0 z1 o d tm u -> t <= u).
Proof. exact hit_full. Qed.
Print Assumptions C49_full_turn.
Theorem C49_do_intersect : forall (s : sphere xr) (r : ray xr), s_do_intersect s r = true <-> exists h, s_hit s r = Some h.
Proof. exact s_do_eq. Qed.
Print Assumptions C49_do_intersect.
Theorem C49_new_total : forall rd z0 z1 p1 rad a b p, isR rd rad -> isR z0 a -> isR z1 b -> isR p1 p ->
  (a < b -> exists s, s_new rd z0 z1 p1 = Ret s) /\ (~ a < b -> s_new rd z0 z1 p1 = Panic).
Proof. exact new_total. Qed.
Print Assumptions C49_new_total.
Example C49_case : exists s h, xsphere 1 (-1) 1 pi = Ret s /\ s_hit s (xray 2 0 (-4/5) (-1) 0 0 10) = Some h.
Proof. exact C49_sample. Qed.
Example C49_case_wedge : exists s h, xsphere 1 (-1) 1 (xn 0) = Ret s /\ s_hit s (xray 0 2 0 0 (-1) 0 10) = Some h /\ isR (t_ray h) 3.
Proof. exact C49_sample_wedge. Qed.

(** ** C50 *)
Definition C50_roots : Prop := forall (a' b' c' : xr) a b c, isR a' a -> isR b' b -> isR c' c -> a <> 0 ->
  (b * b - 4 * a * c < 0 -> solve_quadratic a' b' c' = None) /\
  (0 <= b * b - 4 * a * c ->
     exists x y t0 t1, solve_quadratic a' b' c' = Some (x, y) /\ isR x t0 /\ isR y t1 /\ t0 <= t1 /\
       forall t, a * t * t + b * t + c = 0 <-> t = t0 \/ t = t1).
(** The double root at 0 (b = c = 0) is returned as (NaN, 0): -(c + c) / (b + sqrt d) is 0 / 0. *)
Theorem C50_roots_refuted : ~ C50_roots.
Proof. exact quad_refuted. Qed.
Print Assumptions C50_roots_refuted.
(** Missing: b = c = 0, for which see the next theorem. *)
Theorem C50_roots_partial : forall (a' b' c' : xr) a b c, isR a' a -> isR b' b -> isR c' c -> a <> 0 ->
  (b * b - 4 * a * c < 0 -> solve_quadratic a' b' c' = None) /\
  (0 <= b * b - 4 * a * c -> ~ (b = 0 /\ c = 0) ->
     exists x y t0 t1, solve_quadratic a' b' c' = Some (x, y) /\ isR x t0 /\ isR y t1 /\ t0 <= t1 /\
       forall t, a * t * t + b * t + c = 0 <-> t = t0 \/ t = t1).
Proof. exact quad_total. Qed.
Print Assumptions C50_roots_partial.
(** the degenerate double root at 0: the first result is not a number, the second is the root *)
Theorem C50_double_root_at_zero : forall (a' b' c' : xr) a, isR a' a -> isR b' 0 -> isR c' 0 -> a <> 0 ->
  exists x y, solve_quadratic a' b' c' = Some (x, y) /\ (forall t, ~ isR x t) /\ isR y 0.
Proof. exact quad_double. Qed.
Print Assumptions C50_double_root_at_zero.
Example C50_case : isR (xn 2) 2 /\ isR (xn (-3)) (-3) /\ isR (xn 1) 1 /\ 0 <= (-3) * (-3) - 4 * 2 * 1 /\ ~ (-3 = 0 /\ 1 = 0).
Proof. exact C50_sample. Qed.

(** ** C51 *)
Theorem C51_hit_in_bbox : forall rd' z0' z1' p1' rad z0 z1 p1 s r o d tm h,
  isR rd' rad -> isR z0' z0 -> isR z1' z1 -> isR p1' p1 -> s_new rd' z0' z1' p1' = Ret s -> isRay r o d tm -> d <> zero3 -> s_hit s r = Some h ->
  exists lo hi p, isB (s_bbox s) lo hi /\ is3 (si_p (h_si h)) p /\ in_box lo hi p.
Proof. exact hit_in_bbox. Qed.
Print Assumptions C51_hit_in_bbox.
Theorem C51_bbox_value : forall rd' z0' z1' p1' rad z0 z1 p1 s,
  isR rd' rad -> isR z0' z0 -> isR z1' z1 -> isR p1' p1 -> s_new rd' z0' z1' p1' = Ret s ->
  isB (s_bbox s) (mk3 (- Rabs rad) (- Rabs rad) z0) (mk3 (Rabs rad) (Rabs rad) z1).
Proof. exact bbox_value. Qed.
Print Assumptions C51_bbox_value.
Example C51_case : exists s h, xsphere 1 (-1) 1 pi = Ret s /\ s_hit s (xray 2 0 (-4/5) (-1) 0 0 10) = Some h.
Proof. exact C49_sample. Qed.

(** ** C52 *)
Definition C52_uv : Prop := forall rd' z0' z1' p1' rad z0 z1 p1 s r o d tm h,
  isR rd' rad -> isR z0' z0 -> isR z1' z1 -> isR p1' p1 -> s_new rd' z0' z1' p1' = Ret s ->
  0 < rad -> - rad <= z0 -> z1 <= rad -> - PI < p1 -> isRay r o d tm -> d <> zero3 -> s_hit s r = Some h ->
  exists p u v, is3 (si_p (h_si h)) p /\
    isR (Vector.nth (si_uv (h_si h)) Fin.F1) u /\ isR (Vector.nth (si_uv (h_si h)) (Fin.FS Fin.F1)) v /\
    0 <= u <= 1 /\ 0 <= v <= 1 /\ p = sphere_uv rad z0 z1 p1 u v.
Theorem C52_uv_refuted : ~ C52_uv.
Proof. exact uv_refuted. Qed.
Print Assumptions C52_uv_refuted.
Definition C52_normal : Prop := forall rd' z0' z1' p1' rad z0 z1 p1 s r o d tm h,
  isR rd' rad -> isR z0' z0 -> isR z1' z1 -> isR p1' p1 -> s_new rd' z0' z1' p1' = Ret s ->
  0 < rad -> - rad <= z0 -> z1 <= rad -> - PI < p1 -> isRay r o d tm -> d <> zero3 -> s_hit s r = Some h ->
  exists p, is3 (si_p (h_si h)) p /\ (cX p <> 0 \/ cY p <> 0 -> is3 (si_n (h_si h)) (scl3 (/ rad) p)).
Theorem C52_normal_refuted : ~ C52_normal.
Proof. exact normal_refuted. Qed.
Print Assumptions C52_normal_refuted.
(** everything holds for spheres clipped to z >= 0 (missing: spheres reaching below z = 0, for
    which the two refutations above apply; and the normal at the poles, where dpdu = 0) *)
Theorem C52_surface_partial : forall rd' z0' z1' p1' rad z0 z1 p1 s r o d tm h,
  isR rd' rad -> isR z0' z0 -> isR z1' z1 -> isR p1' p1 -> s_new rd' z0' z1' p1' = Ret s ->
  0 < rad -> 0 <= z0 -> z1 <= rad -> - PI < p1 -> isRay r o d tm -> d <> zero3 -> s_hit s r = Some h ->
  exists p u v pu pv, is3 (si_p (h_si h)) p /\
    isR (Vector.nth (si_uv (h_si h)) Fin.F1) u /\ isR (Vector.nth (si_uv (h_si h)) (Fin.FS Fin.F1)) v /\
    0 <= u <= 1 /\ 0 <= v <= 1 /\ p = sphere_uv rad z0 z1 p1 u v /\
    is3 (si_dpdu (h_si h)) pu /\ deriv3 (fun u => sphere_uv rad z0 z1 p1 u v) u pu /\
    is3 (si_dpdv (h_si h)) pv /\ deriv3 (fun v => sphere_uv rad z0 z1 p1 u v) v pv /\
    (cX p <> 0 \/ cY p <> 0 -> is3 (si_n (h_si h)) (scl3 (/ rad) p) /\ scl3 (/ rad) p = unit3 (cross3 pu pv)).
Proof. exact sphere_frame. Qed.
Print Assumptions C52_surface_partial.
(** on any sphere reaching above z = 0: the hits with z >= 0 have the right normal, and the parameters
    and derivatives of the part above max(zmin, 0) *)
Theorem C52_upper_partial : forall rd' z0' z1' p1' rad z0 z1 p1 s r o d tm h,
  isR rd' rad -> isR z0' z0 -> isR z1' z1 -> isR p1' p1 -> s_new rd' z0' z1' p1' = Ret s ->
  0 < rad -> 0 < z1 -> z1 <= rad -> - PI < p1 -> isRay r o d tm -> d <> zero3 -> s_hit s r = Some h ->
  forall p, is3 (si_p (h_si h)) p -> 0 <= cZ p ->
  exists u v pu pv,
    isR (Vector.nth (si_uv (h_si h)) Fin.F1) u /\ isR (Vector.nth (si_uv (h_si h)) (Fin.FS Fin.F1)) v /\
    0 <= u <= 1 /\ 0 <= v <= 1 /\ p = sphere_uv rad (Rmax z0 0) z1 p1 u v /\
    is3 (si_dpdu (h_si h)) pu /\ deriv3 (fun u => sphere_uv rad (Rmax z0 0) z1 p1 u v) u pu /\
    is3 (si_dpdv (h_si h)) pv /\ deriv3 (fun v => sphere_uv rad (Rmax z0 0) z1 p1 u v) v pv /\
    (cX p <> 0 \/ cY p <> 0 -> is3 (si_n (h_si h)) (scl3 (/ rad) p) /\ scl3 (/ rad) p = unit3 (cross3 pu pv)).
Proof. exact sphere_frame_upper. Qed.
Print Assumptions C52_upper_partial.
(** every hit with z < 0 off the axis has v = 0 and a wrong normal, whose value is given *)
Theorem C52_lower_half : forall rd' z0' z1' p1' rad z0 z1 p1 s r o d tm h,
  isR rd' rad -> isR z0' z0 -> isR z1' z1 -> isR p1' p1 -> s_new rd' z0' z1' p1' = Ret s ->
  0 < rad -> 0 < z1 -> z1 <= rad -> - PI < p1 -> isRay r o d tm -> d <> zero3 -> s_hit s r = Some h ->
  forall p, is3 (si_p (h_si h)) p -> cZ p < 0 -> (cX p <> 0 \/ cY p <> 0) ->
  isR (Vector.nth (si_uv (h_si h)) (Fin.FS Fin.F1)) 0 /\
  is3 (si_n (h_si h)) (unit3 (mk3 (rad * cX p) (rad * cY p) (sqrt (cX p * cX p + cY p * cY p) * cZ p))) /\
  ~ is3 (si_n (h_si h)) (scl3 (/ rad) p).
Proof. exact sphere_lower. Qed.
Print Assumptions C52_lower_half.
Example C52_case_lower : exists s h, xsphere 1 (-1) 1 pi = Ret s /\ s_hit s (xray 2 0 (-4/5) (-1) 0 0 10) = Some h.
Proof. exact C49_sample. Qed.
Example C52_case : exists s h, xsphere 2 0 2 pi = Ret s /\ s_hit s (xray 5 0 1 (-1) 0 0 10) = Some h.
Proof. exact C52_sample. Qed.

(** ** C53 *)
(** the surface rays can hit is  -PI <= phi <= phi_max *)
Definition C53_area : Prop := forall rd' z0' z1' p1' rad z0 z1 p1 s,
  isR rd' rad -> isR z0' z0 -> isR z1' z1 -> isR p1' p1 -> s_new rd' z0' z1' p1' = Ret s ->
  0 < rad -> - rad <= z0 -> z1 <= rad -> - PI < p1 <= PI ->
  exists A, isR (s_area s) A /\ area_of (spherical rad) (- PI) p1 (acos (z1 / rad)) (acos (z0 / rad)) A.
Theorem C53_area_refuted : ~ C53_area.
Proof. exact area_refuted. Qed.
Print Assumptions C53_area_refuted.
(** area() is the area of the part 0 <= phi <= phi_max, which is the surface rays can hit only
    for phi_max = 2 PI (a sphere without a wedge cut) *)
Theorem C53_area_partial : forall rd' z0' z1' p1' rad z0 z1 p1 s,
  isR rd' rad -> isR z0' z0 -> isR z1' z1 -> isR p1' p1 -> s_new rd' z0' z1' p1' = Ret s ->
  0 < rad -> - rad <= z0 -> z1 <= rad ->
  exists A, isR (s_area s) A /\ area_of (spherical rad) 0 p1 (acos (z1 / rad)) (acos (z0 / rad)) A /\
    (p1 = 2 * PI -> area_of (spherical rad) (- PI) PI (acos (z1 / rad)) (acos (z0 / rad)) A).
Proof. exact area_partial. Qed.
Print Assumptions C53_area_partial.
(** for every cut sphere the returned area is too small by that of a half turn *)
Theorem C53_area_gap : forall rd' z0' z1' p1' rad z0 z1 p1 s,
  isR rd' rad -> isR z0' z0 -> isR z1' z1 -> isR p1' p1 -> s_new rd' z0' z1' p1' = Ret s ->
  0 < rad -> - rad <= z0 -> z1 <= rad -> - PI < p1 <= PI ->
  exists A, isR (s_area s) A /\ area_of (spherical rad) (- PI) p1 (acos (z1 / rad)) (acos (z0 / rad)) (A + PI * rad * (z1 - z0)) /\
    0 < PI * rad * (z1 - z0).
Proof. exact area_gap. Qed.
Print Assumptions C53_area_gap.
(** the specification determines the area *)
Theorem C53_spec_unique : forall P a b c d A A', area_of P a b c d A -> area_of P a b c d A' -> A = A'.
Proof. exact area_unique. Qed.
Print Assumptions C53_spec_unique.
Example C53_case : exists s, xsphere 1 (-1) 1 pi = Ret s.
Proof. exact full_ball. Qed.

(** ** C64, spheres *)
Theorem C64_sphere_normal : forall rd' z0' z1' p1' rad z0 z1 p1 s r o d tm h,
  isR rd' rad -> isR z0' z0 -> isR z1' z1 -> isR p1' p1 -> s_new rd' z0' z1' p1' = Ret s -> isRay r o d tm -> d <> zero3 -> rad <> 0 -> s_hit s r = Some h ->
  exists pu pv, is3 (si_dpdu (h_si h)) pu /\ is3 (si_dpdv (h_si h)) pv /\
    (cross3 pu pv <> zero3 -> is3 (si_n (h_si h)) (unit3 (cross3 pu pv))).
Proof. exact record_normal. Qed.
Print Assumptions C64_sphere_normal.
Example C64_case_sphere : exists s h, xsphere 2 0 2 pi = Ret s /\ s_hit s (xray 5 0 1 (-1) 0 0 10) = Some h.
Proof. exact C52_sample. Qed.
