(** Boxes in exact arithmetic: the slab test, hit records, transformed boxes. *)
From Coq Require Import ZArith Reals Bool List Lra Lia.
From Coq Require Vector Fin.
From Flocq Require Import Core.
From Verif.Model Require Import FloatBase Scalar Interval Outcome Vec Transform XReal Geometry.
From Verif Require Import Spec SpecGeom SpecShape.
From Verif.Proofs Require Import XRealLemmas MatrixProofs TransformProofs TransformThms.
Open Scope R_scope.

(** lower / upper bounds of a set of parameters; NaN means "no bound" *)
Definition lbx (x : xr) (t : R) : Prop := match x with XFin r _ => r <= t | XInf s => s = true | XNaN => True end.
Definition ubx (x : xr) (t : R) : Prop := match x with XFin r _ => t <= r | XInf s => s = false | XNaN => True end.

Lemma Rcmp_cases a b : (a < b /\ Rcmp a b = Lt) \/ (a = b /\ Rcmp a b = Eq) \/ (b < a /\ Rcmp a b = Gt).
Proof. unfold Rcmp. destruct (Rltb_spec a b); [auto|]. destruct (Reqb_spec a b); [auto|]. right; right. split; [lra|reflexivity]. Qed.
Lemma lbx_nmax x y t : lbx (nmax x y) t <-> lbx x t /\ lbx y t.
Proof.
  cbn [nmax xr_native]. unfold native_max, gt_of.
  destruct x as [a sa|sa|], y as [b sb|sb|]; cbn; try tauto; try (destruct sa; cbn; intuition (congruence || lra)); try (destruct sb; cbn; intuition (congruence || lra)).
  - destruct (Rcmp_cases a b) as [[H ->]|[[H ->]|[H ->]]]; cbn; intuition lra.
  - destruct sa, sb; cbn; intuition congruence.
Qed.
Lemma ubx_nmin x y t : ubx (nmin x y) t <-> ubx x t /\ ubx y t.
Proof.
  cbn [nmin xr_native]. unfold native_min, lt_of.
  destruct x as [a sa|sa|], y as [b sb|sb|]; cbn; try tauto; try (destruct sa; cbn; intuition (congruence || lra)); try (destruct sb; cbn; intuition (congruence || lra)).
  - destruct (Rcmp_cases a b) as [[H ->]|[[H ->]|[H ->]]]; cbn; intuition lra.
  - destruct sa, sb; cbn; intuition congruence.
Qed.

(** one axis *)
Lemma axis (l' h' o' d' : xr) l h o d : isR l' l -> isR h' h -> isR o' o -> isR d' d -> l <= h -> ~ grazes l h o d ->
  forall t, (l <= o + t * d <= h) <->
    lbx (smin (sdiv (ssub l' o') d') (sdiv (ssub h' o') d')) t /\ ubx (smax (sdiv (ssub l' o') d') (sdiv (ssub h' o') d')) t.
Proof.
  intros Hl Hh Ho Hd L NG t. assert (A := isR_sub _ _ _ _ Hl Ho). assert (B := isR_sub _ _ _ _ Hh Ho).
  destruct (Req_dec d 0) as [->|D].
  - rewrite Rmult_0_r, Rplus_0_r. destruct A as (sa & ->), B as (sb & ->), Hd as (sd & ->). cbn [sdiv smin smax xr_scalar]. unfold xdiv_.
    destruct (Reqb_spec 0 0) as [_|]; [|lra]. unfold default_min, default_max, lt_of, gt_of.
    assert (FS : forall r s, r <> 0 -> fsign r s = Rltb r 0). { intros r s Hr. unfold fsign. destruct (Reqb_spec r 0); [lra|reflexivity]. }
    destruct (Reqb_spec (l - o) 0), (Reqb_spec (h - o) 0); cbn.
    + intuition lra.
    + exfalso. apply NG. repeat split; lra.
    + intuition lra.
    + rewrite (FS (l - o) sa), (FS (h - o) sb) by assumption. assert (F0 : fsign 0 sd = sd) by (unfold fsign; destruct (Reqb_spec 0 0); [reflexivity|lra]). rewrite !F0.
      assert (D1 := Rdichotomy _ _ n). assert (D2 := Rdichotomy _ _ n0). clear n n0 FS F0 NG.
      destruct D1, D2, (Rltb_spec (l - o) 0), (Rltb_spec (h - o) 0); destruct sd; cbn;
      (split; [intros [? ?]; split; first [reflexivity | exfalso; lra]|intros [? ?]; first [discriminate | split; lra]]).
  - assert (A' := isR_div _ _ _ _ A Hd D). assert (B' := isR_div _ _ _ _ B Hd D).
    destruct (isR_smin _ _ _ _ A' B') as (s1 & ->). destruct (isR_smax _ _ _ _ A' B') as (s2 & ->). cbn [lbx ubx].
    assert (E1 : (l - o) / d * d = l - o) by (field; exact D). assert (E2 : (h - o) / d * d = h - o) by (field; exact D).
    set (p := (l - o) / d) in *. set (q := (h - o) / d) in *.
    destruct (Rdichotomy _ _ D) as [N|P].
    + assert (q <= p) by nra. rewrite Rmin_right, Rmax_left by assumption. split; [intros; split; nra|intros [? ?]; split; nra].
    + assert (p <= q) by nra. rewrite Rmin_left, Rmax_right by assumption. split; [intros; split; nra|intros [? ?]; split; nra].
Qed.

(** the decision and the clipping at the end of the slab test *)
Lemma near_ok (near tm' : xr) tm : isR tm' tm -> 0 <= tm -> sgt near tm' = false ->
  exists t0, isR (nmax near szero) t0 /\ 0 <= t0 <= tm /\ (forall t, 0 <= t -> (lbx near t <-> t0 <= t)) /\
    (t0 = 0 \/ exists s, near = XFin t0 s).
Proof.
  intros (st & ->) H. unfold sgt, gt_of. cbn [scmp xr_scalar nmax xr_native szero]. unfold native_max, gt_of.
  destruct near as [a sa|[]|]; cbn; try discriminate; intros K.
  - destruct (Rcmp_cases a tm) as [[? E]|[[? E]|[? E]]]; rewrite E in K; try discriminate;
    destruct (Rcmp_cases a 0) as [[? ->]|[[? ->]|[? ->]]]; [exists 0|exists 0|exists a|exists 0|exists 0|exists a];
    (split; [apply isR_fin|split; [lra|split; [intros; split; lra|]]]); first [left; lra | right; eexists; reflexivity].
  - exists 0. split; [apply isR_fin|split; [lra|split; [intros; tauto|left; reflexivity]]].
  - exists 0. split; [apply isR_fin|split; [lra|split; [intros; tauto|left; reflexivity]]].
Qed.
Lemma far_ok (far tm' : xr) tm : isR tm' tm -> 0 <= tm -> slt far szero = false ->
  exists t1, isR (nmin far tm') t1 /\ 0 <= t1 <= tm /\ (forall t, t <= tm -> (ubx far t <-> t <= t1)) /\
    (t1 = tm \/ exists s, far = XFin t1 s).
Proof.
  intros (st & ->) H. unfold slt, lt_of. cbn [scmp xr_scalar nmin xr_native szero]. unfold native_min, lt_of.
  destruct far as [a sa|[]|]; cbn; try discriminate; intros K.
  - destruct (Rcmp_cases a 0) as [[? E]|[[? E]|[? E]]]; rewrite E in K; try discriminate;
    destruct (Rcmp_cases a tm) as [[? ->]|[[? ->]|[? ->]]]; [exists a|exists tm|exists tm|exists a|exists tm|exists tm];
    (split; [apply isR_fin|split; [lra|split; [intros; split; lra|]]]); first [left; lra | right; eexists; reflexivity].
  - exists tm. split; [apply isR_fin|split; [lra|split; [intros; tauto|left; reflexivity]]].
  - exists tm. split; [apply isR_fin|split; [lra|split; [intros; tauto|left; reflexivity]]].
Qed.
Lemma slab_finish (near far tm' : xr) tm : isR tm' tm -> 0 <= tm ->
  match (if sgt near tm' || slt far szero || sgt near far then None else Some (nmax near szero, nmin far tm')) with
  | None => forall t, 0 <= t <= tm -> ~ (lbx near t /\ ubx far t)
  | Some (x, y) => exists t0 t1, isR x t0 /\ isR y t1 /\ t0 <= t1 /\
      forall t, (0 <= t <= tm /\ lbx near t /\ ubx far t) <-> t0 <= t <= t1
  end.
Proof.
  intros Ht H. destruct (sgt near tm') eqn:E1; cbn [orb].
  - destruct Ht as (st & ->). intros t Ht [K _]. revert E1. unfold sgt, gt_of. cbn [scmp xr_scalar].
    destruct near as [a sa|[]|]; cbn in *; try discriminate.
    destruct (Rcmp_cases a tm) as [[? ->]|[[? ->]|[? ->]]]; try discriminate. lra.
  - destruct (slt far szero) eqn:E2; cbn [orb].
    + intros t Ht' [_ K]. revert E2. unfold slt, lt_of. cbn [scmp xr_scalar szero].
      destruct far as [a sa|[]|]; cbn in *; try discriminate.
      destruct (Rcmp_cases a 0) as [[? ->]|[[? ->]|[? ->]]]; try discriminate. lra.
    + destruct (near_ok near tm' tm Ht H E1) as (t0 & N1 & N2 & N3 & N4). destruct (far_ok far tm' tm Ht H E2) as (t1 & F1 & F2 & F3 & F4).
      destruct (sgt near far) eqn:E3.
      * intros t Ht' [K1 K2]. revert E3. unfold sgt, gt_of. cbn [scmp xr_scalar].
        destruct near as [a sa|[]|], far as [b sb|[]|]; cbn in *; try discriminate.
        destruct (Rcmp_cases a b) as [[? ->]|[[? ->]|[? ->]]]; try discriminate. lra.
      * exists t0, t1. split; [exact N1|split; [exact F1|split]].
        -- destruct N4 as [->|(s & ->)]; [lra|]. destruct F4 as [->|(s' & ->)]; [lra|].
           revert E3. unfold sgt, gt_of. cbn. destruct (Rcmp_cases t0 t1) as [[? ->]|[[? ->]|[? ->]]]; try discriminate; lra.
        -- intros t. split.
           ++ intros (? & K1 & K2). split; [apply N3; tauto || lra|apply F3; tauto || lra].
           ++ intros [K1 K2]. split; [lra|split; [apply N3; lra|apply F3; lra]].
Qed.

(** ** The slab test *)

(** the entry / exit parameter of one axis *)
Definition t1ax {T} {G : GFloat T} (l h o d : T) : T := smin (sdiv (ssub l o) d) (sdiv (ssub h o) d).
Definition t2ax {T} {G : GFloat T} (l h o d : T) : T := smax (sdiv (ssub l o) d) (sdiv (ssub h o) d).
Lemma slab_eq {T} {G : GFloat T} {N : Native T} (b : bbox T) (r : ray T) :
  let A := fun g => g (vx (pmin b)) (vx (pmax b)) (vx (origin r)) (vx (direction r)) in
  let B := fun g => g (vy (pmin b)) (vy (pmax b)) (vy (origin r)) (vy (direction r)) in
  let C := fun g => g (vz (pmin b)) (vz (pmax b)) (vz (origin r)) (vz (direction r)) in
  let near := nmax (nmax (A t1ax) (B t1ax)) (C t1ax) in
  let far := nmin (nmin (A t2ax) (B t2ax)) (C t2ax) in
  b_intersect_ray b r = if sgt near (tmax r) || slt far szero || sgt near far then None else Some (nmax near szero, nmin far (tmax r)).
Proof.
  destruct b as [lo' hi'], r as [o' d' t']. cbn [pmin pmax origin direction tmax].
  rewrite (vec3_eta lo'), (vec3_eta hi'), (vec3_eta o'), (vec3_eta d'). reflexivity.
Qed.

Lemma slab_ok b r lo hi o d tm : isB b lo hi -> le3 lo hi -> isRay r o d tm -> 0 <= tm -> no_graze lo hi o d ->
  match b_intersect_ray b r with
  | None => forall t, 0 <= t <= tm -> ~ in_box lo hi (at_ray o d t)
  | Some (x, y) => exists t0 t1, isR x t0 /\ isR y t1 /\ t0 <= t1 /\
      forall t, (0 <= t <= tm /\ in_box lo hi (at_ray o d t)) <-> t0 <= t <= t1
  end.
Proof.
  intros [[L0 [L1 L2]] [H0 [H1 H2]]] [O0 [O1 O2]] [[R0 [R1 R2]] [[D0 [D1 D2]] Ht]] T (G0 & G1 & G2).
  assert (A0 := axis _ _ _ _ _ _ _ _ L0 H0 R0 D0 O0 G0).
  assert (A1 := axis _ _ _ _ _ _ _ _ L1 H1 R1 D1 O1 G1).
  assert (A2 := axis _ _ _ _ _ _ _ _ L2 H2 R2 D2 O2 G2).
  assert (E := slab_eq b r). cbv zeta beta in E. rewrite E. clear E.
  match goal with |- context [nmax ?n szero] => set (near := n) in * end.
  match goal with |- context [nmin ?n (tmax r)] => set (far := n) in * end.
  assert (K : forall t, in_box lo hi (at_ray o d t) <-> lbx near t /\ ubx far t).
  { intros t. specialize (A0 t). specialize (A1 t). specialize (A2 t).
    assert (Q1 := lbx_nmax (nmax (t1ax (vx (pmin b)) (vx (pmax b)) (vx (origin r)) (vx (direction r))) (t1ax (vy (pmin b)) (vy (pmax b)) (vy (origin r)) (vy (direction r))))
      (t1ax (vz (pmin b)) (vz (pmax b)) (vz (origin r)) (vz (direction r))) t).
    assert (Q2 := lbx_nmax (t1ax (vx (pmin b)) (vx (pmax b)) (vx (origin r)) (vx (direction r))) (t1ax (vy (pmin b)) (vy (pmax b)) (vy (origin r)) (vy (direction r))) t).
    assert (Q3 := ubx_nmin (nmin (t2ax (vx (pmin b)) (vx (pmax b)) (vx (origin r)) (vx (direction r))) (t2ax (vy (pmin b)) (vy (pmax b)) (vy (origin r)) (vy (direction r))))
      (t2ax (vz (pmin b)) (vz (pmax b)) (vz (origin r)) (vz (direction r))) t).
    assert (Q4 := ubx_nmin (t2ax (vx (pmin b)) (vx (pmax b)) (vx (origin r)) (vx (direction r))) (t2ax (vy (pmin b)) (vy (pmax b)) (vy (origin r)) (vy (direction r))) t).
    fold near in Q1. fold far in Q3.
    change (smin ((Vector.nth (pmin b) Fin.F1 - Vector.nth (origin r) Fin.F1) / Vector.nth (direction r) Fin.F1)%S
             ((Vector.nth (pmax b) Fin.F1 - Vector.nth (origin r) Fin.F1) / Vector.nth (direction r) Fin.F1)%S)
      with (t1ax (vx (pmin b)) (vx (pmax b)) (vx (origin r)) (vx (direction r))) in A0.
    unfold in_box, le3, at_ray, add3, scl3. cbn [cX cY cZ].
    cbv [t1ax t2ax] in *. cbv [vx vy vz vget] in *.
    tauto. }
  assert (F := slab_finish near far (tmax r) tm Ht T).
  destruct (sgt near (tmax r) || slt far szero || sgt near far).
  - intros t Hr Hb. apply (F t Hr). apply K, Hb.
  - destruct F as (t0 & t1 & F1 & F2 & F3 & F4). exists t0, t1. split; [exact F1|split; [exact F2|split; [exact F3|]]].
    intros t. rewrite <- F4. rewrite K. tauto.
Qed.

(** A ray that runs inside the lower face plane of some axis is always reported as a miss. *)
Lemma graze_inf (l' h' o' d' : xr) l h o d : isR l' l -> isR h' h -> isR o' o -> isR d' d -> grazes l h o d ->
  exists s, t1ax l' h' o' d' = XInf s /\ t2ax l' h' o' d' = XInf s.
Proof.
  intros Hl Hh Ho Hd (-> & -> & L). assert (A := isR_sub _ _ _ _ Hl Ho). assert (B := isR_sub _ _ _ _ Hh Ho).
  destruct A as (sa & A), B as (sb & B), Hd as (sd & ->). unfold t1ax, t2ax.
  change (@ssub xr _ l' o') with (ssub l' o'). 
  assert (E1 : sdiv (ssub l' o') (XFin 0 sd) = XNaN).
  { rewrite A. cbn [sdiv xr_scalar]. unfold xdiv_. destruct (Reqb_spec 0 0); [|lra]. destruct (Reqb_spec (l - l) 0); [reflexivity|lra]. }
  assert (E2 : exists s, sdiv (ssub h' o') (XFin 0 sd) = XInf s).
  { rewrite B. cbn [sdiv xr_scalar]. unfold xdiv_. destruct (Reqb_spec 0 0); [|lra]. destruct (Reqb_spec (h - l) 0); [lra|eauto]. }
  destruct E2 as (s & E2). exists s. 
  split.
  - change (smin (sdiv (ssub l' o') (XFin 0 sd)) (sdiv (ssub h' o') (XFin 0 sd)) = XInf s). rewrite E1, E2. reflexivity.
  - change (smax (sdiv (ssub l' o') (XFin 0 sd)) (sdiv (ssub h' o') (XFin 0 sd)) = XInf s). rewrite E1, E2. reflexivity.
Qed.

Lemma slab_graze b r lo hi o d tm : isB b lo hi -> isRay r o d tm -> 0 <= tm -> ~ no_graze lo hi o d -> b_intersect_ray b r = None.
Proof.
  intros [[L0 [L1 L2]] [H0 [H1 H2]]] [[R0 [R1 R2]] [[D0 [D1 D2]] Ht]] T NG.
  assert (E := slab_eq b r). cbv zeta beta in E. rewrite E. clear E.
  match goal with |- context [nmax ?n szero] => set (near := n) in * end.
  match goal with |- context [nmin ?n (tmax r)] => set (far := n) in * end.
  assert (F := slab_finish near far (tmax r) tm Ht T).
  destruct (sgt near (tmax r) || slt far szero || sgt near far) eqn:E; [reflexivity|exfalso].
  destruct F as (t0 & t1 & F1 & F2 & F3 & F4). specialize (F4 t0). destruct F4 as [_ F4]. specialize (F4 (conj (Rle_refl _) F3)).
  destruct F4 as (_ & KN & KF).
  assert (Q1 := lbx_nmax (nmax (t1ax (vx (pmin b)) (vx (pmax b)) (vx (origin r)) (vx (direction r))) (t1ax (vy (pmin b)) (vy (pmax b)) (vy (origin r)) (vy (direction r))))
      (t1ax (vz (pmin b)) (vz (pmax b)) (vz (origin r)) (vz (direction r))) t0).
  assert (Q2 := lbx_nmax (t1ax (vx (pmin b)) (vx (pmax b)) (vx (origin r)) (vx (direction r))) (t1ax (vy (pmin b)) (vy (pmax b)) (vy (origin r)) (vy (direction r))) t0).
  assert (Q3 := ubx_nmin (nmin (t2ax (vx (pmin b)) (vx (pmax b)) (vx (origin r)) (vx (direction r))) (t2ax (vy (pmin b)) (vy (pmax b)) (vy (origin r)) (vy (direction r))))
      (t2ax (vz (pmin b)) (vz (pmax b)) (vz (origin r)) (vz (direction r))) t0).
  assert (Q4 := ubx_nmin (t2ax (vx (pmin b)) (vx (pmax b)) (vx (origin r)) (vx (direction r))) (t2ax (vy (pmin b)) (vy (pmax b)) (vy (origin r)) (vy (direction r))) t0).
  fold near in Q1. fold far in Q3.
  assert (X : forall s x y, x = XInf s -> y = XInf s -> lbx x t0 -> ubx y t0 -> False).
  { intros s x y -> ->; cbn. destruct s; discriminate. }
  apply NG. repeat split; intros Gz.
  - destruct (graze_inf _ _ _ _ _ _ _ _ L0 H0 R0 D0 Gz) as (s & U & V). apply (X s _ _ U V); cbv [vx vy vz vget] in *; tauto.
  - destruct (graze_inf _ _ _ _ _ _ _ _ L1 H1 R1 D1 Gz) as (s & U & V). apply (X s _ _ U V); cbv [vx vy vz vget] in *; tauto.
  - destruct (graze_inf _ _ _ _ _ _ _ _ L2 H2 R2 D2 Gz) as (s & U & V). apply (X s _ _ U V); cbv [vx vy vz vget] in *; tauto.
Qed.

(** ** Hit records: any arithmetic *)
Lemma closest_lt {T} {G : GFloat T} {N : Native T} (ds : list T) : (closest_face ds < 6)%nat.
Proof.
  unfold closest_face. assert (H : forall l k, (k < 6)%nat -> (forall i, In i l -> (i < 6)%nat) ->
    (fold_left (fun best i => if slt (nth i ds szero) (nth best ds szero) then i else best) l k < 6)%nat).
  { induction l as [|a l IH]; cbn; intros k Hk Hl; [exact Hk|]. apply IH; [|intros; apply Hl; right; assumption].
    destruct slt; [apply Hl; left; reflexivity|exact Hk]. }
  apply H; [lia|]. intros i Hi. apply in_seq in Hi. lia.
Qed.

(** the six possible records *)
Definition face_si {T} {G : GFloat T} (b : bbox T) (p : vec T 3) (k : nat) : surface_interaction T :=
  let uv := vec2 szero szero in
  match k with
  | 0%nat => mkSI (vec3 (vx (pmin b)) (vy p) (vz p)) (vec3 (sneg sone) szero szero) uv (vec3 szero szero (sneg sone)) (vec3 szero sone szero)
  | 1%nat => mkSI (vec3 (vx (pmax b)) (vy p) (vz p)) (vec3 sone szero szero) uv (vec3 szero szero sone) (vec3 szero sone szero)
  | 2%nat => mkSI (vec3 (vx p) (vy (pmin b)) (vz p)) (vec3 szero (sneg sone) szero) uv (vec3 sone szero szero) (vec3 szero szero (sneg sone))
  | 3%nat => mkSI (vec3 (vx p) (vy (pmax b)) (vz p)) (vec3 szero sone szero) uv (vec3 sone szero szero) (vec3 szero szero sone)
  | 4%nat => mkSI (vec3 (vx p) (vy p) (vz (pmin b))) (vec3 szero szero (sneg sone)) uv (vec3 sone szero szero) (vec3 szero sone szero)
  | _ => mkSI (vec3 (vx p) (vy p) (vz (pmax b))) (vec3 szero szero sone) uv (vec3 (sneg sone) szero szero) (vec3 szero sone szero)
  end.
Definition face_ds {T} {G : GFloat T} {N : Native T} (b : bbox T) (p : vec T 3) : list T :=
  (nabs (ssub (vx p) (vx (pmin b))) :: nabs (ssub (vx p) (vx (pmax b))) ::
   nabs (ssub (vy p) (vy (pmin b))) :: nabs (ssub (vy p) (vy (pmax b))) ::
   nabs (ssub (vz p) (vz (pmin b))) :: nabs (ssub (vz p) (vz (pmax b))) :: nil)%list.
Lemma hit_eq {T} {G : GFloat T} {N : Native T} (b : bbox T) (r : ray T) :
  b_hit b r = match b_intersect_ray b r with
              | None => Ret None
              | Some (t, _) => let p := ray_eval r t in Ret (Some (mkHit (face_si b p (closest_face (face_ds b p))) t))
              end.
Proof.
  unfold b_hit. destruct (b_intersect_ray b r) as [[t u]|]; [|reflexivity]. cbv zeta.
  fold (xmin b) (ymin b) (zmin b) (xmax b) (ymax b) (zmax b).
  change (nabs (ssub (vx (ray_eval r t)) (xmin b)) :: nabs (ssub (vx (ray_eval r t)) (xmax b)) ::
   nabs (ssub (vy (ray_eval r t)) (ymin b)) :: nabs (ssub (vy (ray_eval r t)) (ymax b)) ::
   nabs (ssub (vz (ray_eval r t)) (zmin b)) :: nabs (ssub (vz (ray_eval r t)) (zmax b)) :: nil)%list with (face_ds b (ray_eval r t)).
  assert (K := closest_lt (face_ds b (ray_eval r t))).
  destruct (closest_face (face_ds b (ray_eval r t))) as [|[|[|[|[|[|k]]]]]]; try reflexivity. lia.
Qed.
Lemma hit_never_panics {T} {G : GFloat T} {N : Native T} (b : bbox T) (r : ray T) : exists h, b_hit b r = Ret h.
Proof. rewrite hit_eq. destruct (b_intersect_ray b r) as [[t u]|]; eexists; reflexivity. Qed.
Lemma do_iff_hit {T} {G : GFloat T} {N : Native T} (b : bbox T) (r : ray T) :
  b_do_intersect b r = true <-> exists h, b_hit b r = Ret (Some h).
Proof.
  rewrite hit_eq. unfold b_do_intersect. destruct (b_intersect_ray b r) as [[t u]|]; split; try discriminate; intros H.
  - eexists; reflexivity.
  - reflexivity.
  - destruct H as (h & H); discriminate.
Qed.

(** ** Hit records: exact arithmetic *)
Lemma closest_min (ds : list xr) (v : nat -> R) : (forall i, (i < 6)%nat -> isR (nth i ds szero) (v i)) ->
  forall i, (i < 6)%nat -> v (closest_face ds) <= v i.
Proof.
  intros H. unfold closest_face.
  assert (K : forall l k, (k < 6)%nat -> (forall i, In i l -> (i < 6)%nat) ->
    let k' := fold_left (fun best i => if slt (nth i ds szero) (nth best ds szero) then i else best) l k in
    v k' <= v k /\ forall i, In i l -> v k' <= v i).
  { induction l as [|a l IH]; cbn [fold_left]; intros k Hk Hl.
    - cbn. split; [lra|tauto].
    - assert (Ha : (a < 6)%nat) by (apply Hl; left; reflexivity).
      destruct (slt_R _ _ _ _ (H a Ha) (H k Hk)) as [L|L].
      + destruct (IH a Ha (fun i Hi => Hl i (or_intror Hi))) as [I1 I2]. cbv zeta. split; [lra|]. intros i [<-|Hi]; [lra|auto].
      + destruct (IH k Hk (fun i Hi => Hl i (or_intror Hi))) as [I1 I2]. cbv zeta. split; [lra|]. intros i [<-|Hi]; [lra|auto]. }
  intros i Hi. destruct (K (seq 1 5) 0%nat) as [K1 K2]; [lia|intros j Hj; apply in_seq in Hj; lia|]. cbv zeta in K1, K2.
  destruct i as [|i]; [exact K1|]. apply K2, in_seq. lia.
Qed.


Lemma inner_back lo hi o d t0 : 0 < t0 -> inner lo hi (at_ray o d t0) -> exists t, 0 <= t < t0 /\ in_box lo hi (at_ray o d t).
Proof.
  intros Ht ((X1 & X2) & (Y1 & Y2) & (Z1 & Z2)). unfold at_ray, add3, scl3, in_box, le3 in *. cbn [cX cY cZ] in *.
  assert (A : forall l h x v, l < x + t0 * v < h -> exists e, 0 < e /\ forall s, t0 - e <= s <= t0 -> l <= x + s * v <= h).
  { intros l h x v [A1 A2]. set (m := Rmin (x + t0 * v - l) (h - (x + t0 * v))).
    assert (M1 : m <= x + t0 * v - l) by apply Rmin_l. assert (M2 : m <= h - (x + t0 * v)) by apply Rmin_r.
    assert (M0 : 0 < m) by (apply Rmin_glb_lt; lra). assert (V := Rabs_pos v).
    exists (m / (Rabs v + 1)). split; [apply Rdiv_lt_0_compat; lra|]. intros s [S1 S2].
    assert (E : m / (Rabs v + 1) * (Rabs v + 1) = m) by (field; lra).
    assert (B : Rabs ((t0 - s) * v) <= m). { rewrite Rabs_mult, (Rabs_pos_eq (t0 - s)) by lra. set (q := m / (Rabs v + 1)) in *. nra. }
    apply Rabs_le_inv in B. lra. }
  destruct (A _ _ _ _ (conj X1 X2)) as (ex & E1 & F1). destruct (A _ _ _ _ (conj Y1 Y2)) as (ey & E2 & F2). destruct (A _ _ _ _ (conj Z1 Z2)) as (ez & E3 & F3).
  set (e := Rmin (Rmin ex ey) (Rmin ez t0)).
  assert (Q1 : e <= Rmin ex ey) by apply Rmin_l. assert (Q2 : e <= Rmin ez t0) by apply Rmin_r.
  assert (Q3 := Rmin_l ex ey). assert (Q4 := Rmin_r ex ey). assert (Q5 := Rmin_l ez t0). assert (Q6 := Rmin_r ez t0).
  assert (Q0 : 0 < e) by (repeat apply Rmin_glb_lt; assumption).
  exists (t0 - e). split; [lra|]. specialize (F1 (t0 - e)). specialize (F2 (t0 - e)). specialize (F3 (t0 - e)). 
  destruct F1; [lra|]. destruct F2; [lra|]. destruct F3; [lra|]. tauto.
Qed.

Definition fdist (lo hi p : R3) (k : nat) : R :=
  match k with
  | 0%nat => Rabs (cX p - cX lo) | 1%nat => Rabs (cX p - cX hi) | 2%nat => Rabs (cY p - cY lo)
  | 3%nat => Rabs (cY p - cY hi) | 4%nat => Rabs (cZ p - cZ lo) | _ => Rabs (cZ p - cZ hi) end.
Definition fproj (lo hi p : R3) (k : nat) : R3 :=
  match k with
  | 0%nat => mk3 (cX lo) (cY p) (cZ p) | 1%nat => mk3 (cX hi) (cY p) (cZ p) | 2%nat => mk3 (cX p) (cY lo) (cZ p)
  | 3%nat => mk3 (cX p) (cY hi) (cZ p) | 4%nat => mk3 (cX p) (cY p) (cZ lo) | _ => mk3 (cX p) (cY p) (cZ hi) end.
Definition fnorm (k : nat) : R3 :=
  match k with
  | 0%nat => mk3 (-1) 0 0 | 1%nat => mk3 1 0 0 | 2%nat => mk3 0 (-1) 0
  | 3%nat => mk3 0 1 0 | 4%nat => mk3 0 0 (-1) | _ => mk3 0 0 1 end.
Lemma face_si_ok b lo hi p' p k : isB b lo hi -> is3 p' p ->
  is3 (si_p (face_si b p' k)) (fproj lo hi p k) /\ is3 (si_n (face_si b p' k)) (fnorm k).
Proof.
  intros [[L0 [L1 L2]] [H0 [H1 H2]]] [P0 [P1 P2]].
  destruct k as [|[|[|[|[|k]]]]]; cbn [face_si fproj fnorm si_p si_n];
  (split; [apply is3_vec3; cbn [cX cY cZ]; assumption|apply is3_vec3; cbn [cX cY cZ]; isr; lra]).
Qed.
Lemma face_ds_ok b lo hi p' p : isB b lo hi -> is3 p' p -> forall i, (i < 6)%nat -> isR (nth i (face_ds b p') szero) (fdist lo hi p i).
Proof.
  intros [[L0 [L1 L2]] [H0 [H1 H2]]] [P0 [P1 P2]] i Hi. unfold face_ds.
  destruct i as [|[|[|[|[|[|k]]]]]]; [| | | | | |lia]; cbn [nth fdist]; apply isR_nabs, isR_sub; assumption.
Qed.
Lemma fproj_normal lo hi p k : face_normal lo hi (fproj lo hi p k) (fnorm k).
Proof. unfold face_normal. destruct k as [|[|[|[|[|k]]]]]; cbn; tauto. Qed.
Lemma fproj_in lo hi p k : le3 lo hi -> in_box lo hi p -> in_box lo hi (fproj lo hi p k).
Proof. unfold in_box, le3. destruct k as [|[|[|[|[|k]]]]]; cbn; intuition lra. Qed.
Lemma fproj_near lo hi p k : (forall i, (i < 6)%nat -> fdist lo hi p k <= fdist lo hi p i) -> in_box lo hi p ->
  forall q, on_surface lo hi q -> len3 (sub3 (fproj lo hi p k) p) <= len3 (sub3 q p).
Proof.
  intros M Hp q [Hq Nq].
  assert (D : len3 (sub3 (fproj lo hi p k) p) = fdist lo hi p k).
  { unfold len3, dot3. destruct k as [|[|[|[|[|k]]]]]; cbn [fproj fdist sub3 cX cY cZ];
    match goal with |- _ = Rabs (?a - ?b) => rewrite (Rabs_minus_sym a b); rewrite <- (sqrt_Rsqr_abs (b - a)); unfold Rsqr end; f_equal; ring. }
  rewrite D. clear D.
  assert (S : exists i, (i < 6)%nat /\ fdist lo hi p i <= len3 (sub3 q p)).
  { assert (B : forall g : R3 -> R, (forall v, g v * g v <= dot3 v v) -> Rabs (g (sub3 q p)) <= len3 (sub3 q p)).
    { intros g Hg. unfold len3. rewrite <- sqrt_Rsqr_abs. apply sqrt_le_1_alt, Hg. }
    assert (BX := B cX). assert (BY := B cY). assert (BZ := B cZ). clear B.
    assert (BX' := BX ltac:(intros [a b c]; unfold dot3; cbn; nra)). assert (BY' := BY ltac:(intros [a b c]; unfold dot3; cbn; nra)).
    assert (BZ' := BZ ltac:(intros [a b c]; unfold dot3; cbn; nra)). clear BX BY BZ. cbn [sub3 cX cY cZ] in BX', BY', BZ'.
    destruct Hq as [(X1 & Y1 & Z1) (X2 & Y2 & Z2)].
    destruct (Rle_lt_or_eq_dec _ _ X1) as [X1'|E]; [|exists 0%nat; cbn; rewrite E, Rabs_minus_sym; split; [lia|exact BX']].
    destruct (Rle_lt_or_eq_dec _ _ X2) as [X2'|E]; [|exists 1%nat; cbn; rewrite <- E, Rabs_minus_sym; split; [lia|exact BX']].
    destruct (Rle_lt_or_eq_dec _ _ Y1) as [Y1'|E]; [|exists 2%nat; cbn; rewrite E, Rabs_minus_sym; split; [lia|exact BY']].
    destruct (Rle_lt_or_eq_dec _ _ Y2) as [Y2'|E]; [|exists 3%nat; cbn; rewrite <- E, Rabs_minus_sym; split; [lia|exact BY']].
    destruct (Rle_lt_or_eq_dec _ _ Z1) as [Z1'|E]; [|exists 4%nat; cbn; rewrite E, Rabs_minus_sym; split; [lia|exact BZ']].
    destruct (Rle_lt_or_eq_dec _ _ Z2) as [Z2'|E]; [|exists 5%nat; cbn; rewrite <- E, Rabs_minus_sym; split; [lia|exact BZ']].
    exfalso. apply Nq. unfold inner. tauto. }
  destruct S as (i & Hi & S). specialize (M i Hi). lra.
Qed.
Lemma fproj_id lo hi p k : (k < 6)%nat -> (forall i, (i < 6)%nat -> fdist lo hi p k <= fdist lo hi p i) -> in_box lo hi p -> ~ inner lo hi p -> fproj lo hi p k = p.
Proof.
  intros Hk M Hp Np. assert (H := fproj_near lo hi p k M Hp p (conj Hp Np)).
  assert (E : len3 (sub3 p p) = 0). { unfold len3, sub3, dot3; cbn. rewrite <- sqrt_0. f_equal. ring. }
  rewrite E in H. assert (P := len3_nonneg (sub3 (fproj lo hi p k) p)).
  assert (Z : len3 (sub3 (fproj lo hi p k) p) = 0) by lra. apply len3_zero in Z.
  unfold sub3, zero3 in Z. injection Z as Z1 Z2 Z3. apply R3_eq; lra.
Qed.

Lemma hit_exact b r lo hi o d tm h : isB b lo hi -> le3 lo hi -> isRay r o d tm -> 0 <= tm -> b_hit b r = Ret (Some h) ->
  exists t p n, isR (t_ray h) t /\ 0 <= t <= tm /\ is3 (si_p (h_si h)) p /\ is3 (si_n (h_si h)) n /\
    in_box lo hi (at_ray o d t) /\ (forall s, 0 <= s <= tm -> in_box lo hi (at_ray o d s) -> t <= s) /\
    in_box lo hi p /\ face_normal lo hi p n /\
    (forall q, on_surface lo hi q -> len3 (sub3 p (at_ray o d t)) <= len3 (sub3 q (at_ray o d t))) /\
    (~ inner lo hi o -> p = at_ray o d t) /\ (inner lo hi o -> t = 0).
Proof.
  intros Hb Hl Hr Ht Hh. rewrite hit_eq in Hh.
  assert (S := slab_ok b r lo hi o d tm Hb Hl Hr Ht). assert (NG : b_intersect_ray b r <> None -> no_graze lo hi o d).
  { intros K. destruct (Classical_Prop.classic (no_graze lo hi o d)) as [N|N]; [exact N|].
    contradiction (K (slab_graze b r lo hi o d tm Hb Hr Ht N)). }
  destruct (b_intersect_ray b r) as [[x y]|]; [|discriminate]. specialize (S (NG ltac:(discriminate))).
  destruct S as (t0 & t1 & X & Y & L & S). cbv zeta in Hh.
  set (k := closest_face (face_ds b (ray_eval r x))) in *. injection Hh as <-. cbn [t_ray h_si].
  assert (S0 : 0 <= t0 <= tm /\ in_box lo hi (at_ray o d t0)) by (apply S; lra).
  assert (EV : is3 (ray_eval r x) (at_ray o d t0)) by exact (is3_eval _ _ _ _ _ _ Hr X).
  set (p := at_ray o d t0) in *.
  assert (M : forall i, (i < 6)%nat -> fdist lo hi p k <= fdist lo hi p i).
  { intros i Hi. apply (closest_min (face_ds b (ray_eval r x)) (fdist lo hi p)); [|exact Hi]. apply face_ds_ok; assumption. }
  assert (Kk : (k < 6)%nat) by apply closest_lt.
  exists t0, (fproj lo hi p k), (fnorm k). destruct (face_si_ok b lo hi (ray_eval r x) p k Hb EV) as [P1 P2].
  split; [exact X|split; [tauto|split; [exact P1|split; [exact P2|split; [tauto|split]]]]].
  - intros s Hs Hs'. assert (t0 <= s <= t1) by (apply S; tauto). lra.
  - split; [apply fproj_in; tauto|split; [apply fproj_normal|split; [apply fproj_near; tauto|split]]].
    + intros No. apply fproj_id; try tauto. intros Ni. destruct (Rle_lt_or_eq_dec _ _ (proj1 (proj1 S0))) as [P|E].
      * destruct (inner_back lo hi o d t0 P Ni) as (t & T1 & T2). assert (t0 <= t <= t1) by (apply S; split; [lra|exact T2]). lra.
      * apply No. assert (Eo : at_ray o d t0 = o) by (rewrite <- E; apply R3_eq; cbn; ring). unfold p in Ni. rewrite Eo in Ni. exact Ni.
    + intros In. assert (t0 <= 0 <= t1); [|lra]. apply S. split; [lra|]. unfold inner, in_box, le3, at_ray in *. cbn. lra.
Qed.

(** ** Transformed boxes *)
Definition r4 (a b c e : R) : rvec 4 := fun i =>
  match proj1_sig (Fin.to_nat i) with 0%nat => a | 1%nat => b | 2%nat => c | _ => e end.
Definition bump (F : rvec 4) (k : Fin.t 4) (x : R) : rvec 4 := fun i => if Fin.eqb i k then F i + x else F i.
Lemma upd_ok (v : Vector.t xr 4) F k (a : xr) ra : isV v F -> isR a ra -> isV (upd v k (fun x => sadd x a)) (bump F k ra).
Proof.
  intros H A i. assert (H0 := H i0). assert (H1 := H i1). assert (H2 := H i2). assert (H3 := H i3). clear H.
  destruct (vec_S v) as (x & v1 & ->). destruct (vec_S v1) as (y & v2 & ->). destruct (vec_S v2) as (z & v3 & ->). destruct (vec_S v3) as (w & v4 & ->).
  cbn in H0, H1, H2, H3. revert i. refine (fin4_case _ _ _ _ _); revert k; refine (fin4_case _ _ _ _ _); cbn [upd Vector.nth Vector.replace Vector.caseS bump Fin.eqb];
  first [apply isR_add; assumption | assumption].
Qed.
Definition bstep (m : matrix xr) (b : bbox xr) (acc : Vector.t xr 4 * Vector.t xr 4) (ij : Fin.t 3 * Fin.t 3) :=
    let (i, j) := ij in
    let a := smul (mget m (lift34 i) (lift34 j)) (vget (pmin b) j) in
    let b' := smul (mget m (lift34 i) (lift34 j)) (vget (pmax b) j) in
    if slt a b'
    then (upd (fst acc) (lift34 j) (fun x => sadd x a), upd (snd acc) (lift34 j) (fun x => sadd x b'))
    else (upd (fst acc) (lift34 j) (fun x => sadd x b'), upd (snd acc) (lift34 j) (fun x => sadd x a)).
Lemma bstep_ok m A b acc F G i j l h : isM m A -> isV (fst acc) F -> isV (snd acc) G ->
  isR (vget (pmin b) j) l -> isR (vget (pmax b) j) h ->
  let c := A (lift34 i) (lift34 j) in
  isV (fst (bstep m b acc (i, j))) (bump F (lift34 j) (Rmin (c * l) (c * h))) /\
  isV (snd (bstep m b acc (i, j))) (bump G (lift34 j) (Rmax (c * l) (c * h))).
Proof.
  intros HM HF HG Hl Hh c. unfold bstep.
  assert (Ha := isR_mul _ _ _ _ (isM_get m A (lift34 i) (lift34 j) HM) Hl). assert (Hb := isR_mul _ _ _ _ (isM_get m A (lift34 i) (lift34 j) HM) Hh).
  fold c in Ha, Hb. cbv zeta. destruct (slt_R _ _ _ _ Ha Hb) as [L|L]; cbn [fst snd].
  - rewrite Rmin_left, Rmax_right by lra. split; apply upd_ok; assumption.
  - rewrite Rmin_right, Rmax_left by lra. split; apply upd_ok; assumption.
Qed.
Lemma isV_ext (v : vec xr 4) F G : isV v F -> (forall i, F i = G i) -> isV v G.
Proof. intros H E i. rewrite <- E. apply H. Qed.

(** what map_bbox really computes: column sums *)
Definition colmin (A : rmat) (j : Fin.t 4) (l h : R) : R :=
  Rmin (A i0 j * l) (A i0 j * h) + Rmin (A i1 j * l) (A i1 j * h) + Rmin (A i2 j * l) (A i2 j * h).
Definition colmax (A : rmat) (j : Fin.t 4) (l h : R) : R :=
  Rmax (A i0 j * l) (A i0 j * h) + Rmax (A i1 j * l) (A i1 j * h) + Rmax (A i2 j * l) (A i2 j * h).
Lemma map_bbox_value m A b lo hi : isM m A -> isB b lo hi ->
  isB (map_bbox m b)
    (mk3 (A i0 i3 + colmin A i0 (cX lo) (cX hi)) (A i1 i3 + colmin A i1 (cY lo) (cY hi)) (A i2 i3 + colmin A i2 (cZ lo) (cZ hi)))
    (mk3 (A i0 i3 + colmax A i0 (cX lo) (cX hi)) (A i1 i3 + colmax A i1 (cY lo) (cY hi)) (A i2 i3 + colmax A i2 (cZ lo) (cZ hi))).
Proof.
  intros HM [[L0 [L1 L2]] [H0 [H1 H2]]].
  set (F0 := fun i => A i i3).
  assert (S0 : isV (m_col m i3) F0). { refine (fin4_case _ _ _ _ _); exact (isM_get m A _ i3 HM). }
  assert (E : exists u v : vec xr 4, map_bbox m b = b_new (vec3 (vx u) (vy u) (vz u)) (vec3 (vx v) (vy v) (vz v)) /\
     isR (vx u) (A i0 i3 + colmin A i0 (cX lo) (cX hi)) /\ isR (vy u) (A i1 i3 + colmin A i1 (cY lo) (cY hi)) /\ isR (vz u) (A i2 i3 + colmin A i2 (cZ lo) (cZ hi)) /\
     isR (vx v) (A i0 i3 + colmax A i0 (cX lo) (cX hi)) /\ isR (vy v) (A i1 i3 + colmax A i1 (cY lo) (cY hi)) /\ isR (vz v) (A i2 i3 + colmax A i2 (cZ lo) (cZ hi))).
  { pose (st := (m_col m i3, m_col m i3)).
    exists (fst (fold_left (bstep m b) (list_prod fin3 fin3) st)), (snd (fold_left (bstep m b) (list_prod fin3 fin3) st)).
    split; [reflexivity|].
    change (list_prod fin3 fin3) with ((Fin.F1,Fin.F1)::(Fin.F1,Fin.FS Fin.F1)::(Fin.F1,Fin.FS (Fin.FS Fin.F1))::
      (Fin.FS Fin.F1,Fin.F1)::(Fin.FS Fin.F1,Fin.FS Fin.F1)::(Fin.FS Fin.F1,Fin.FS (Fin.FS Fin.F1))::
      (Fin.FS (Fin.FS Fin.F1),Fin.F1)::(Fin.FS (Fin.FS Fin.F1),Fin.FS Fin.F1)::(Fin.FS (Fin.FS Fin.F1),Fin.FS (Fin.FS Fin.F1))::nil :
        list (Fin.t 3 * Fin.t 3)).
    cbn [fold_left].
    assert (K0 : isV (fst st) F0 /\ isV (snd st) F0) by (split; exact S0). clearbody st. destruct K0 as [Ka Kb].
    do 9 (match goal with |- context [bstep m b st ?ij] =>
      match ij with (?i, ?j) =>
        let K := fresh in
        first [ assert (K := bstep_ok m A b st _ _ i j _ _ HM Ka Kb L0 H0)
              | assert (K := bstep_ok m A b st _ _ i j _ _ HM Ka Kb L1 H1)
              | assert (K := bstep_ok m A b st _ _ i j _ _ HM Ka Kb L2 H2) ];
        cbv zeta in K; clear Ka Kb; destruct K as [Ka Kb]; generalize dependent (bstep m b st ij); clear st; intros st Ka Kb
      end end).
    unfold colmin, colmax. change (lift34 Fin.F1) with i0 in *. change (lift34 (Fin.FS Fin.F1)) with i1 in *. change (lift34 (Fin.FS (Fin.FS Fin.F1))) with i2 in *.
    repeat split; (eapply isR_eq; [first [exact (Ka i0)|exact (Ka i1)|exact (Ka i2)|exact (Kb i0)|exact (Kb i1)|exact (Kb i2)]|unfold bump, F0; cbn; ring]). }
  destruct E as (u & v & -> & U0 & U1 & U2 & V0 & V1 & V2).
  assert (LE : forall j l h, colmin A j l h <= colmax A j l h).
  { intros. unfold colmin, colmax. repeat apply Rplus_le_compat; apply Rle_trans with (1 := Rmin_l _ _); apply Rmax_l. }
  unfold b_new. split; cbn [pmin pmax]; apply is3_vec3; cbn [cX cY cZ].
  - eapply isR_eq; [exact (isR_nmin _ _ _ _ U0 V0)|]. apply Rmin_left. apply Rplus_le_compat_l, LE.
  - eapply isR_eq; [exact (isR_nmin _ _ _ _ U1 V1)|]. apply Rmin_left. apply Rplus_le_compat_l, LE.
  - eapply isR_eq; [exact (isR_nmin _ _ _ _ U2 V2)|]. apply Rmin_left. apply Rplus_le_compat_l, LE.
  - eapply isR_eq; [exact (isR_nmax _ _ _ _ U0 V0)|]. apply Rmax_right. apply Rplus_le_compat_l, LE.
  - eapply isR_eq; [exact (isR_nmax _ _ _ _ U1 V1)|]. apply Rmax_right. apply Rplus_le_compat_l, LE.
  - eapply isR_eq; [exact (isR_nmax _ _ _ _ U2 V2)|]. apply Rmax_right. apply Rplus_le_compat_l, LE.
Qed.

Lemma map_bbox_diag m A b lo hi : isM m A -> affine A -> diagonal A -> isB b lo hi -> le3 lo hi ->
  exists lo' hi', isB (map_bbox m b) lo' hi' /\ (forall p, in_box lo hi p -> in_box lo' hi' (app_pt A p)) /\
    (forall l h, (forall p, in_box lo hi p -> in_box l h (app_pt A p)) -> le3 l lo' /\ le3 hi' h).
Proof.
  intros HM (W0 & W1 & W2 & W3) (D1 & D2 & D3 & D4 & D5 & D6) HB HL. do 2 eexists. split; [exact (map_bbox_value m A b lo hi HM HB)|].
  unfold colmin, colmax. rewrite D1, D2, D3, D4, D5, D6.
  assert (APP : forall p, app_pt A p = mk3 (A i0 i0 * cX p + A i0 i3) (A i1 i1 * cY p + A i1 i3) (A i2 i2 * cZ p + A i2 i3)).
  { intros p. unfold app_pt, wcoord, app_vec, scl3, add3. rewrite W0, W1, W2, W3, D1, D2, D3, D4, D5, D6. apply R3_eq; cbn; field. }
  assert (Z1 : Rmin 0 0 = 0) by (apply Rmin_left; lra). assert (Z2 : Rmax 0 0 = 0) by (apply Rmax_left; lra).
  rewrite !Rmult_0_l, Z1, Z2.
  assert (M : forall a l h x, l <= x <= h -> Rmin (a * l) (a * h) <= a * x <= Rmax (a * l) (a * h)).
  { intros a l h x Hx. destruct (Rle_lt_dec 0 a).
    - rewrite Rmin_left, Rmax_right by nra. nra.
    - rewrite Rmin_right, Rmax_left by nra. nra. }
  destruct HL as (HL0 & HL1 & HL2).
  split.
  - intros p [(P1 & P2 & P3) (Q1 & Q2 & Q3)]. rewrite APP. unfold in_box, le3. cbn [cX cY cZ].
    assert (M1 := M (A i0 i0) _ _ _ (conj P1 Q1)). assert (M2 := M (A i1 i1) _ _ _ (conj P2 Q2)). assert (M3 := M (A i2 i2) _ _ _ (conj P3 Q3)). lra.
  - intros l h H.
    assert (Ha := H lo ltac:(unfold in_box, le3; lra)). assert (Hb := H hi ltac:(unfold in_box, le3; lra)). rewrite APP in Ha, Hb.
    unfold in_box, le3 in *. cbn [cX cY cZ] in *.
    assert (Mm : forall x y z, z <= x -> z <= y -> z <= Rmin x y) by (intros; apply Rmin_glb; assumption).
    assert (MM : forall x y z, x <= z -> y <= z -> Rmax x y <= z) by (intros; apply Rmax_lub; assumption).
    assert (N : forall T x y z, z <= x + T -> z <= y + T -> z <= T + Rmin x y). { intros T x y z ? ?. assert (z - T <= Rmin x y) by (apply Mm; lra). lra. }
    assert (N' : forall T x y z, x + T <= z -> y + T <= z -> T + Rmax x y <= z). { intros T x y z ? ?. assert (Rmax x y <= z - T) by (apply MM; lra). lra. }
    destruct Ha as [(a1 & a2 & a3) (a4 & a5 & a6)], Hb as [(b1 & b2 & b3) (b4 & b5 & b6)].
    assert (Y1 := N _ _ _ _ a1 b1). assert (Y2 := N _ _ _ _ a2 b2). assert (Y3 := N _ _ _ _ a3 b3).
    assert (Y4 := N' _ _ _ _ a4 b4). assert (Y5 := N' _ _ _ _ a5 b5). assert (Y6 := N' _ _ _ _ a6 b6).
    repeat split; lra.
Qed.
