(** * C54-C58: primitives - trees of boxes, spheres, user-defined shapes, transforms and lists.
    [Ret x] is a normal return, [Panic] a panic.  C54-C56 hold for every scalar semantics. *)
From Coq Require Import ZArith Reals Bool List Permutation.
From Coq Require Vector Fin.
From Verif.Model Require Import FloatBase Scalar Float Interval Outcome Vec Transform XReal Geometry.
From Verif Require Import Spec SpecGeom SpecShape SpecSphere SpecPrim.
From Verif.Proofs Require Import XRealLemmas TransformCases BoxCases SphereCases PrimProofs PrimThms.
Open Scope R_scope.
Notation "v @ i" := (Vector.nth v i) (at level 20, only parsing).

(** ** C54 *)
(** [do_intersect] may answer [true] where [intersect] panics (in a later list member), never
    the other way round *)
Theorem C54_do_intersect_agrees : forall (T : Type) (G : GFloat T) (N : Native T) (p : prim T), customs_agree p -> forall r,
  (forall h, p_intersect p r = Ret h -> p_do_intersect p r = Ret (is_some h)) /\
  (p_do_intersect p r = Ret false -> p_intersect p r = Ret None) /\
  (p_do_intersect p r = Panic -> p_intersect p r = Panic).
Proof. intros T G N. exact do_agrees. Qed.
Print Assumptions C54_do_intersect_agrees.
Example C54_case : exists s : sphere xr, xsphere 1 (-1) 1 pi = Ret s /\
  customs_agree (PList (PTransformed (PList (PBox (xbox 0 0 0 1 1 1) :: PSphere s :: nil)) sampleTA ::
    PCustom (xbox 0 0 0 1 1 1) (fun _ => Ret false) (fun _ => Ret None) :: nil)).
Proof. exact C54_sample. Qed.

(** ** C55 *)
Definition C55_closest (f : fmt) (m : libm f) : Prop :=
  forall (ps : list (prim (float f))) r h, p_intersect (PList ps) r = Ret (Some h) ->
  forall q h', In q ps -> p_intersect q r = Ret (Some h') -> fle (t_ray h) (t_ray h').
Theorem C55_closest_refuted : forall f m, ~ C55_closest f m.
Proof. exact closest_refuted. Qed.
Print Assumptions C55_closest_refuted.
(** The list returns the hit of the *last* member that is hit; that is the closest one when no
    member hits farther than an earlier one. *)
Theorem C55_last_hit_partial : forall (T : Type) (G : GFloat T) (N : Native T) (l1 : list (prim T)) q l2 r h,
  (forall q', In q' l1 -> exists x, p_intersect q' r = Ret x) -> p_intersect q r = Ret (Some h) ->
  (forall q', In q' l2 -> p_intersect q' r = Ret None) -> p_intersect (PList (l1 ++ q :: l2)) r = Ret (Some h).
Proof. intros T G N. exact list_last. Qed.
Print Assumptions C55_last_hit_partial.
Theorem C55_closest_partial : forall (f : fmt) (m : libm f) (ps : list (prim (float f))) r h,
  p_intersect (PList ps) r = Ret (Some h) ->
  (forall l1 q1 l2 q2 l3 h1 h2, ps = l1 ++ q1 :: l2 ++ q2 :: l3 ->
     p_intersect q1 r = Ret (Some h1) -> p_intersect q2 r = Ret (Some h2) -> fle (t_ray h2) (t_ray h1)) ->
  forall q h', In q ps -> p_intersect q r = Ret (Some h') -> h' = h \/ fle (t_ray h) (t_ray h').
Proof. intros f m ps r h. exact (list_closest_sorted fle ps r h). Qed.
Print Assumptions C55_closest_partial.
Example C55_case : forall f (m : libm f), exists h, p_intersect (PList (farP f :: nearP f :: nil)) (rayP f) = Ret (Some h) /\
  (forall l1 q1 l2 q2 l3 h1 h2, (farP f :: nearP f :: nil)%list = l1 ++ q1 :: l2 ++ q2 :: l3 ->
     p_intersect q1 (rayP f) = Ret (Some h1) -> p_intersect q2 (rayP f) = Ret (Some h2) -> fle (t_ray h2) (t_ray h1)).
Proof. exact C55_sample. Qed.

(** ** C56 *)
Theorem C56_list_hits_iff_member_hits : forall (T : Type) (G : GFloat T) (N : Native T) (ps : list (prim T)) r,
  (forall o, p_intersect (PList ps) r = Ret o ->
     (o = None <-> forall q, In q ps -> p_intersect q r = Ret None) /\
     (forall h, o = Some h -> exists q, In q ps /\ p_intersect q r = Ret (Some h)) /\
     (forall q, In q ps -> exists x, p_intersect q r = Ret x)) /\
  ((forall q, In q ps -> exists x, p_intersect q r = Ret x) -> exists o, p_intersect (PList ps) r = Ret o) /\
  p_intersect (PList nil) r = Ret None.
Proof. intros T G N. exact list_hit. Qed.
Print Assumptions C56_list_hits_iff_member_hits.
Theorem C56_list_do_intersect : forall (T : Type) (G : GFloat T) (N : Native T) (ps : list (prim T)) r,
  (p_do_intersect (PList ps) r = Ret false <-> forall q, In q ps -> p_do_intersect q r = Ret false) /\
  (p_do_intersect (PList ps) r = Ret true <-> exists l1 q l2, ps = l1 ++ q :: l2 /\
     (forall q', In q' l1 -> p_do_intersect q' r = Ret false) /\ p_do_intersect q r = Ret true) /\
  ((forall q, In q ps -> exists b, p_do_intersect q r = Ret b) ->
     (p_do_intersect (PList ps) r = Ret true <-> exists q, In q ps /\ p_do_intersect q r = Ret true)) /\
  p_do_intersect (PList nil) r = Ret false.
Proof. intros T G N. exact list_do. Qed.
Print Assumptions C56_list_do_intersect.
Example C56_case : forall f (m : libm f), exists h1 h2, p_intersect (nearP f) (rayP f) = Ret (Some h1) /\ p_intersect (farP f) (rayP f) = Ret (Some h2) /\
  flt (t_ray h1) (t_ray h2).
Proof. exact near_far. Qed.

(** ** C57 *)
Theorem C57_contains_members : forall (f : fmt) (m : libm f) (ps : list (prim (float f))),
  (forall q, In q ps -> box_nonnan (p_bbox q)) -> forall q, In q ps ->
  box_within (p_bbox q) (p_bbox (PList ps)) /\ forall x, b_inside (p_bbox q) x = true -> b_inside (p_bbox (PList ps)) x = true.
Proof. intros f m. exact list_box_contains. Qed.
Print Assumptions C57_contains_members.
Theorem C57_is_least : forall (f : fmt) (m : libm f) (ps : list (prim (float f))) c,
  (forall q, In q ps -> box_nonnan (p_bbox q)) -> ps <> nil ->
  (forall q i, In q ps -> pmin (p_bbox q) @ i <> finf false /\ pmax (p_bbox q) @ i <> finf true) ->
  (forall q, In q ps -> box_within (p_bbox q) c) -> box_within (p_bbox (PList ps)) c.
Proof. intros f m. exact list_box_least. Qed.
Print Assumptions C57_is_least.
Theorem C57_order_irrelevant : forall (f : fmt) (m : libm f) (ps qs : list (prim (float f))),
  Permutation ps qs -> (forall q, In q ps -> box_nonnan (p_bbox q)) -> box_same (p_bbox (PList ps)) (p_bbox (PList qs)).
Proof. intros f m. exact list_box_order. Qed.
Print Assumptions C57_order_irrelevant.
Theorem C57_empty_list : forall (f : fmt) (m : libm f) (p : vec (float f) 3), b_inside (p_bbox (PList (nil : list (prim (float f))))) p = false.
Proof. intros f m. exact list_box_empty. Qed.
Print Assumptions C57_empty_list.
Example C57_case : forall f (m : libm f), let ps := (PBox (boxA f) :: PList (PBox (boxB f) :: nil) :: nil)%list in
  forall q, In q ps -> box_nonnan (p_bbox q) /\ forall i, pmin (p_bbox q) @ i <> finf false /\ pmax (p_bbox q) @ i <> finf true.
Proof. exact C57_sample. Qed.

(** ** C58 *)
Definition C58_world_point : Prop := forall rd' z0' z1' p1' rad z0 z1 p1 s t r o d tm h,
  isR rd' rad -> isR z0' z0 -> isR z1' z1 -> isR p1' p1 -> s_new rd' z0' z1' p1' = Ret s -> built_affine t -> isRay r o d tm -> d <> zero3 ->
  p_intersect (PTransformed (PSphere s) t) r = Ret (Some h) ->
  exists u, isR (t_ray h) u /\ is3 (si_p (h_si h)) (at_ray o d u).
Theorem C58_world_point_refuted : ~ C58_world_point.
Proof. exact world_refuted. Qed.
Print Assumptions C58_world_point_refuted.
(** The interaction is reported in object space.  For any inner primitive: the hit is that of the
    inner primitive for the ray mapped back, and a reported point that is on that ray at t_ray is
    carried by the transform to the point of the original ray at the same t_ray. *)
Theorem C58_t_preserved_partial : forall q t r o d tm h, built_affine t -> isRay r o d tm -> p_intersect (PTransformed q t) r = Ret (Some h) ->
  exists A B r', isT t A B /\ t_map_ray_inverse t r = Ret r' /\ isRay r' (app_pt B o) (app_vec B d) tm /\ p_intersect q r' = Ret (Some h) /\
    forall u, isR (t_ray h) u -> is3 (si_p (h_si h)) (at_ray (app_pt B o) (app_vec B d) u) ->
      returns (t_map_point t (si_p (h_si h))) (fun w => is3 w (at_ray o d u)).
Proof. exact transformed_hit. Qed.
Print Assumptions C58_t_preserved_partial.
(** a transformed sphere is hit exactly at the world points that the inverse transform carries
    onto the sphere, at the least such t *)
Theorem C58_transformed_sphere_partial : forall rd' z0' z1' p1' rad z0 z1 p1 s t r o d tm,
  isR rd' rad -> isR z0' z0 -> isR z1' z1 -> isR p1' p1 -> s_new rd' z0' z1' p1' = Ret s -> built_affine t -> isRay r o d tm -> d <> zero3 -> PI <= p1 ->
  exists (F : R3 -> R3), (forall a, unmaps_pt t a (F a)) /\
    (p_do_intersect (PTransformed (PSphere s) t) r = Ret true <-> exists u, 0 <= u <= tm /\ on_sphere rad z0 z1 (F (at_ray o d u))) /\
    forall h, p_intersect (PTransformed (PSphere s) t) r = Ret (Some h) ->
      exists u, isR (t_ray h) u /\ 0 <= u <= tm /\ on_sphere rad z0 z1 (F (at_ray o d u)) /\
        (forall v, 0 <= v <= tm -> on_sphere rad z0 z1 (F (at_ray o d v)) -> u <= v) /\
        is3 (si_p (h_si h)) (F (at_ray o d u)) /\ returns (t_map_point t (si_p (h_si h))) (fun w => is3 w (at_ray o d u)).
Proof. exact transformed_sphere. Qed.
Print Assumptions C58_transformed_sphere_partial.
Example C58_case : exists s h, xsphere 1 (-1) 1 pi = Ret s /\ p_intersect (PTransformed (PSphere s) (translate (xv 10 0 0))) (xray 15 0 0 (-1) 0 0 100) = Ret (Some h).
Proof. exact c58_hit. Qed.
