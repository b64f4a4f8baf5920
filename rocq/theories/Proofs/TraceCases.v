(** A nested scene and its hits, for TraceFloat. *)
From Coq Require Import ZArith Reals Bool List Lra Lia.
From Coq Require Vector Fin.
From Flocq Require Import Core BinarySingleNaN.
From Verif.Model Require Import FloatBase Scalar Float Interval Outcome Vec Transform XReal Geometry.
From Verif Require Import Spec SpecGeom SpecShape SpecError SpecQuad SpecMaps SpecPanic SpecTrace.
From Verif.Proofs Require Import FloatLemmas TransformCases SlabFloat SlabCases BoxFloat BoxExact PrimProofs ScenePanic SpherePole TraceFloat.
Open Scope R_scope.

Lemma mp_ok {f} {m : libm f} (M : matrix (float f)) (p q : vec (float f) 3) :
  sne (sadd (sadd (sadd (smul (vx p) (mget M i3 i0)) (smul (vy p) (mget M i3 i1))) (smul (vz p) (mget M i3 i2))) (mget M i3 i3)) szero = true ->
  vec3 (sdiv (sadd (sadd (sadd (smul (vx p) (mget M i0 i0)) (smul (vy p) (mget M i0 i1))) (smul (vz p) (mget M i0 i2))) (mget M i0 i3)) (sadd (sadd (sadd (smul (vx p) (mget M i3 i0)) (smul (vy p) (mget M i3 i1))) (smul (vz p) (mget M i3 i2))) (mget M i3 i3)))
       (sdiv (sadd (sadd (sadd (smul (vx p) (mget M i1 i0)) (smul (vy p) (mget M i1 i1))) (smul (vz p) (mget M i1 i2))) (mget M i1 i3)) (sadd (sadd (sadd (smul (vx p) (mget M i3 i0)) (smul (vy p) (mget M i3 i1))) (smul (vz p) (mget M i3 i2))) (mget M i3 i3)))
       (sdiv (sadd (sadd (sadd (smul (vx p) (mget M i2 i0)) (smul (vy p) (mget M i2 i1))) (smul (vz p) (mget M i2 i2))) (mget M i2 i3)) (sadd (sadd (sadd (smul (vx p) (mget M i3 i0)) (smul (vy p) (mget M i3 i1))) (smul (vz p) (mget M i3 i2))) (mget M i3 i3))) = q ->
  map_point M p = Ret q.
Proof. intros H <-. unfold map_point, oassert. cbv zeta. match goal with |- (if ?c then _ else _) = _ => change c with (sne (sadd (sadd (sadd (smul (vx p) (mget M i3 i0)) (smul (vy p) (mget M i3 i1))) (smul (vz p) (mget M i3 i2))) (mget M i3 i3)) szero) end. rewrite H. reflexivity. Qed.
Lemma mv_ok {f} {m : libm f} (M : matrix (float f)) (p q : vec (float f) 3) :
  seqb (sadd (sadd (smul (vx p) (mget M i3 i0)) (smul (vy p) (mget M i3 i1))) (smul (vz p) (mget M i3 i2))) szero = true ->
  vec3 (sadd (sadd (smul (vx p) (mget M i0 i0)) (smul (vy p) (mget M i0 i1))) (smul (vz p) (mget M i0 i2)))
       (sadd (sadd (smul (vx p) (mget M i1 i0)) (smul (vy p) (mget M i1 i1))) (smul (vz p) (mget M i1 i2)))
       (sadd (sadd (smul (vx p) (mget M i2 i0)) (smul (vy p) (mget M i2 i1))) (smul (vz p) (mget M i2 i2))) = q ->
  map_vector M p = Ret q.
Proof. intros H <-. unfold map_vector, oassert. match goal with |- (if ?c then _ else _) = _ => change c with (seqb (sadd (sadd (smul (vx p) (mget M i3 i0)) (smul (vy p) (mget M i3 i1))) (smul (vz p) (mget M i3 i2))) szero) end. rewrite H. reflexivity. Qed.
Lemma ray_ok {f} {m : libm f} (t : transform (float f)) (r r1 : ray (float f)) : map_point (tminv t) (origin r) = Ret (origin r1) -> map_vector (tminv t) (direction r) = Ret (direction r1) -> tmax r1 = tmax r -> t_map_ray_inverse t r = Ret r1.
Proof.
  intros H1 H2 H3. unfold t_map_ray_inverse, t_map_point_inverse, t_map_vector_inverse.
  change (obind (map_point (tminv t) (origin r)) (fun o0 => obind (map_vector (tminv t) (direction r)) (fun d0 => Ret (mkRay o0 d0 (tmax r)))) = Ret r1). rewrite H1, H2. cbn [obind]. rewrite <- H3. destruct r1; reflexivity.
Qed.
Lemma vec3_eq {f} (a b c a' b' c' : float f) : B2SF a = B2SF a' -> B2SF b = B2SF b' -> B2SF c = B2SF c' -> vec3 a b c = vec3 a' b' c'.
Proof. intros A B C. apply B2SF_inj in A, B, C. subst. reflexivity. Qed.
Ltac byval f := unfold fv; apply vec3_eq; destruct f; vm_compute; reflexivity.
Lemma steps f (m : libm f) :
  t_map_ray_inverse (scale (fv f 2 2 2)) (mkRay (fv f (-8) (-4) 6) (fv f 2 0 0) (f_of_Z 10)) = Ret (mkRay (fv f (-4) (-2) 3) (fv f 1 0 0) (f_of_Z 10)) /\
  t_map_ray_inverse (translate (fv f 1 (-2) 3)) (mkRay (fv f (-4) (-2) 3) (fv f 1 0 0) (f_of_Z 10)) = Ret (side_ray f) /\
  t_map_ray_inverse (translate (fv f 1 (-2) 3)) (mkRay (fv f 0 (-2) 3) (fv f 1 0 0) (f_of_Z 10)) = Ret (cuber f).
Proof.
  split; [|split]; (apply ray_ok; [apply mp_ok; [destruct f; vm_compute; reflexivity|byval f]|apply mv_ok; [destruct f; vm_compute; reflexivity|byval f]|reflexivity]).
Qed.
Lemma trace_sample f (m : libm f) :
  (exists s, ball43 f = Ret s /\
    let p := PList (PBox (cubeb f) :: PTransformed (PTransformed (PSphere s) (translate (fv f 1 (-2) 3))) (scale (fv f 2 2 2)) :: nil) in
    let r := mkRay (fv f (-8) (-4) 6) (fv f 2 0 0) (f_of_Z 10) in
    affine_scene p /\ (exists h, p_intersect p r = Ret (Some h)) /\
    exists A B r', reaches p r (A :: B :: nil) (PSphere s) r' /\ usual_ray (origin r') (direction r') /\ usual_radius (radius s)) /\
  (let b := cubeb f in let p := PTransformed (PBox b) (translate (fv f 1 (-2) 3)) in let r := mkRay (fv f 0 (-2) 3) (fv f 1 0 0) (f_of_Z 10) in
    affine_scene p /\ (exists h, p_intersect p r = Ret (Some h)) /\
    exists A r', reaches p r (A :: nil) (PBox b) r' /\ box_finite b /\ box_ordered b /\ ray_finite r' /\ ray_no_graze b r' /\
      (forall i, finite (ssub (pmin b @ i) (origin r' @ i)) /\ finite (ssub (pmax b @ i) (origin r' @ i))) /\ 0 <= B2R (tmax r)).
Proof.
  destruct (steps f m) as (E1 & E2 & E3). destruct (side_hit f m) as (s & h & S0 & S1 & S2 & S3).
  assert (C := proj1 (C90_sample f m (cubeb f) s)). assert (C' := C). destruct C' as (_ & ((B1 & M1 & A1) & (B2 & M2 & A2) & _) & _).
  split.
  - exists s. split; [exact S0|]. cbv zeta. split; [exact C|].
    assert (H : p_intersect (PTransformed (PTransformed (PSphere s) (translate (fv f 1 (-2) 3))) (scale (fv f 2 2 2))) (mkRay (fv f (-8) (-4) 6) (fv f 2 0 0) (f_of_Z 10)) = Ret (Some h)).
    { rewrite (proj1 (down_eq _ _ _)), E1. cbn [obind]. rewrite (proj1 (down_eq _ _ _)), E2. cbn [obind p_intersect]. rewrite S1. reflexivity. }
    split.
    + exists h. apply (list_last (PBox (cubeb f) :: nil) _ nil); [|exact H|intros ? []]. intros q' [<-|[]]. apply hit_never_panics.
    + exists B1, B2, (side_ray f). split; [|auto]. eapply reach_member; [right; left; reflexivity|]. eapply reach_down; [exact M1|exact A1|exact E1|]. eapply reach_down; [exact M2|exact A2|exact E2|]. apply reach_here.
  - cbv zeta. destruct (cube_case f m) as (c1 & c2 & c3 & c4 & c5 & c6 & _ & _ & _ & _ & x & y & c7).
    split; [split; [exists B2; auto|exact I]|]. split.
    + rewrite (proj1 (down_eq _ _ _)), E3. cbn [obind]. apply (proj1 (do_iff_hit (cubeb f) (cuber f))). unfold b_do_intersect. rewrite c7. reflexivity.
    + exists B2, (cuber f). split; [eapply reach_down; [exact M2|exact A2|exact E3|]; apply reach_here|]. repeat (split; [assumption|]). exact c6.
Qed.
