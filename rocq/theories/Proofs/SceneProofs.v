(** Scenes: primitive trees compared with point sets, in exact arithmetic. *)
From Coq Require Import ZArith Reals Bool List Lra Lia.
From Coq Require Vector Fin.
From Flocq Require Import Core BinarySingleNaN.
From Verif.Model Require Import FloatBase Scalar Float Interval Outcome Vec Transform XReal Geometry.
From Verif Require Import Spec SpecGeom SpecShape SpecSphere SpecPrim SpecScene.
From Verif.Proofs Require Import XRealLemmas MatrixProofs TransformProofs TransformThms TransformCases
  BoxFloat BoxExact BoxCases SphereExact SphereThms SphereCases PrimProofs PrimThms.
Import ListNotations.
Open Scope R_scope.

Scheme describes_mut := Minimality for describes Sort Prop with describe_all_mut := Minimality for describe_all Sort Prop.
Lemma describes_ind' (P : prim xr -> shape -> Prop) :
  (forall b lo hi, isB b lo hi -> le3 lo hi -> P (PBox b) (SBox lo hi)) ->
  (forall rd' z0' z1' p1' rad z0 z1 phi1 s, isR rd' rad -> isR z0' z0 -> isR z1' z1 -> isR p1' phi1 -> s_new rd' z0' z1' p1' = Ret s -> P (PSphere s) (SBall rad z0 z1 phi1)) ->
  (forall q s t A B, describes q s -> P q s -> built_affine t -> isT t A B -> P (PTransformed q t) (SImage A B s)) ->
  (forall ps l, Forall2 (fun q s => describes q s /\ P q s) ps l -> P (PList ps) (SUnion l)) ->
  forall q s, describes q s -> P q s.
Proof.
  intros HB HS HI HU. apply (describes_mut P (Forall2 (fun q s => describes q s /\ P q s))); eauto.
Qed.

Lemma image_pair t A B : built_affine t -> isT t A B -> mutually_inverse A B /\ affine A /\ affine B.
Proof.
  intros Ht HT. split; [exact (built_isT_inv t A B (built_affine_built t Ht) HT)|].
  destruct (built_affine_pair t Ht) as (C & D & (T1 & T2) & _ & HC & HD). destruct HT as [H1 H2].
  assert (E1 := isM_inj _ _ _ H1 T1). assert (E2 := isM_inj _ _ _ H2 T2). unfold affine in *. rewrite !E1, !E2. auto.
Qed.
Lemma image_pts A B s p : mutually_inverse A B -> affine A -> affine B -> (pts (SImage A B s) p <-> pts s (app_pt B p)).
Proof.
  intros (I & J) HA HB. cbn [pts].
  assert (R1 : forall x, app_pt A (app_pt B x) = x) by (intros x; rewrite <- app_pt_mul; [apply app_pt_id; exact I| |]; rewrite wcoord_affine by assumption; lra).
  assert (R2 : forall x, app_pt B (app_pt A x) = x) by (intros x; rewrite <- app_pt_mul; [apply app_pt_id; exact J| |]; rewrite wcoord_affine by assumption; lra).
  split; [intros (q & Q & ->); rewrite R2; exact Q|]. intros H. exists (app_pt B p). rewrite R1. auto.
Qed.
Lemma union_pts l p : pts (SUnion l) p <-> exists s, In s l /\ pts s p.
Proof.
  cbn [pts]. induction l as [|s l IH]; cbn [fold_right]; [split; [intros []|intros (s & [] & _)]|]. rewrite IH. split.
  - intros [H|(s' & I & H)]; [exists s; cbn; auto|exists s'; cbn; auto].
  - intros (s' & [<-|I] & H); [left; exact H|right; exists s'; auto].
Qed.
Lemma fold_all (Q : shape -> Prop) l : fold_right (fun s acc => Q s /\ acc) True l <-> forall s, In s l -> Q s.
Proof.
  induction l as [|s l IH]; cbn [fold_right]; [split; [intros _ s []|auto]|]. rewrite IH. split; [intros [H1 H2] s' [<-|I]; auto|intros H; split; [apply H; left; reflexivity|intros; apply H; right; assumption]].
Qed.
Lemma F2_left {A B} (P : A -> B -> Prop) l m x : Forall2 P l m -> In x l -> exists y, In y m /\ P x y.
Proof. induction 1; intros []; [subst; eexists; split; [left; reflexivity|assumption]|]. destruct IHForall2 as (y' & I & Py); [assumption|]. exists y'. split; [right|]; assumption. Qed.
Lemma F2_right {A B} (P : A -> B -> Prop) l m y : Forall2 P l m -> In y m -> exists x, In x l /\ P x y.
Proof. induction 1; intros []; [subst; eexists; split; [left; reflexivity|assumption]|]. destruct IHForall2 as (y' & I & Py); [assumption|]. exists y'. split; [right|]; assumption. Qed.

(** the reported hit is a point of the shape *)
Lemma scene_sound q s : describes q s -> forall r o d tm, isRay r o d tm -> 0 <= tm -> d <> zero3 ->
  (exists x, p_intersect q r = Ret x) /\
  forall h, p_intersect q r = Ret (Some h) -> exists u, isR (t_ray h) u /\ 0 <= u <= tm /\ pts s (at_ray o d u).
Proof.
  intros H. induction H as [b lo hi Hb Hl|rd' z0' z1' p1' rad z0 z1 phi1 s H1 H2 H3 H4 HN|q s t A B Hq IH Ht HT|ps l HF] using describes_ind'; intros r o d tm Hr Htm Hd.
  - cbn [p_intersect]. split; [apply hit_never_panics|]. intros h Hh. destruct (hit_exact b r lo hi o d tm h Hb Hl Hr Htm Hh) as (t & p & n & T & Bt & _ & _ & IB & _).
    exists t. auto.
  - cbn [p_intersect]. split; [eauto|]. intros h Hh. injection Hh as Hh. assert (K := hit_first _ _ _ _ _ _ _ _ _ _ _ _ _ H1 H2 H3 H4 HN Hr Hd). rewrite Hh in K.
    destruct K as (t & T & _ & (Bt & M) & W & _). exists t. cbn [pts]. auto.
  - destruct (image_pair t A B Ht HT) as (I & HA & HB). destruct (transformed q t A B r o d tm HT I HA HB Hr) as (r' & E & Hr' & P & _ & RT & RB & Z).
    destruct (IH r' _ _ tm Hr' Htm (Z Hd)) as [X Y]. rewrite P. split; [exact X|]. intros h Hh. destruct (Y h Hh) as (u & U & Bu & Q). exists u. split; [exact U|split; [exact Bu|]].
    apply image_pts; auto. rewrite <- RB. exact Q.
  - assert (A : forall q, In q ps -> exists x, p_intersect q r = Ret x).
    { intros q I. destruct (F2_left _ _ _ _ HF I) as (s & _ & _ & K). destruct (K r o d tm Hr Htm Hd) as [X _]. exact X. }
    split; [destruct (fold_ret r ps None A) as [x E]; exists x; rewrite list_eq; exact E|].
    intros h Hh. rewrite list_eq in Hh. destruct (fold_run _ _ _ _ Hh) as [_ [[K _]|(l1 & q & l2 & h0 & -> & Q & K & _)]]; [discriminate|]. injection K as <-.
    assert (I : In q (l1 ++ q :: l2)) by (apply in_or_app; right; left; reflexivity).
    destruct (F2_left _ _ _ _ HF I) as (s & Is & _ & K). destruct (K r o d tm Hr Htm Hd) as [_ X]. destruct (X h Q) as (u & U & Bu & P). exists u. split; [exact U|split; [exact Bu|]].
    apply union_pts. exists s. auto.
Qed.

(** custom-free trees *)
Lemma described_agree q s : describes q s -> customs_agree q.
Proof.
  intros H. induction H as [| |q s t A B Hq IH Ht HT|ps l HF] using describes_ind'; cbn [customs_agree]; auto.
  induction HF as [|q s ps l [_ Hq] HF IH]; cbn [fold_right]; auto.
Qed.
Lemma do_iff q s r : describes q s -> (exists x, p_intersect q r = Ret x) ->
  (p_do_intersect q r = Ret true <-> exists h, p_intersect q r = Ret (Some h)) /\ (p_do_intersect q r = Ret false <-> p_intersect q r = Ret None).
Proof.
  intros H [x E]. destruct (do_agrees q (described_agree q s H) r) as (D & _). specialize (D x E). rewrite D, E.
  destruct x as [h|]; cbn [is_some]; split; split; intros K; try discriminate; eauto. destruct K as [h K]. discriminate.
Qed.

(** nothing is missed *)
Lemma scene_complete q s : describes q s -> plain s -> forall r o d tm, isRay r o d tm -> 0 <= tm -> d <> zero3 -> clear_of s o d ->
  forall u, 0 <= u <= tm -> pts s (at_ray o d u) -> exists h, p_intersect q r = Ret (Some h).
Proof.
  intros H. induction H as [b lo hi Hb Hl|rd' z0' z1' p1' rad z0 z1 phi1 s H1 H2 H3 H4 HN|q s t A B Hq IH Ht HT|ps l HF] using describes_ind'; intros PL r o d tm Hr Htm Hd CL u Bu Pu.
  - cbn [p_intersect]. apply do_iff_hit. apply (hit_exists b r lo hi o d tm); auto. exists u. auto.
  - cbn [p_intersect plain pts] in *. destruct (hit_full _ _ _ _ _ _ _ _ _ _ _ _ _ H1 H2 H3 H4 HN Hr Hd PL) as [D _].
    assert (K : s_do_intersect s r = true) by (apply D; exists u; split; tauto). apply s_do_eq in K. destruct K as [h ->]. eauto.
  - destruct (image_pair t A B Ht HT) as (I & HA & HB). destruct (transformed q t A B r o d tm HT I HA HB Hr) as (r' & E & Hr' & P & _ & RT & RB & Z).
    rewrite P. apply (IH PL r' _ _ tm Hr' Htm (Z Hd) CL u Bu). rewrite RB. apply image_pts in Pu; auto.
  - apply union_pts in Pu. destruct Pu as (s & Is & Ps). cbn [plain clear_of] in *. rewrite fold_all in PL. rewrite (fold_all (fun s => clear_of s o d)) in CL.
    destruct (F2_right _ _ _ _ HF Is) as (q & Iq & _ & X). destruct (X (PL s Is) r o d tm Hr Htm Hd (CL s Is) u Bu Ps) as [h Q].
    assert (A : forall q, In q ps -> exists x, p_intersect q r = Ret x).
    { intros q' I. destruct (F2_left _ _ _ _ HF I) as (s' & _ & D & _). destruct (scene_sound _ _ D r o d tm Hr Htm Hd) as [Y _]. exact Y. }
    rewrite list_eq. destruct (fold_ret r ps None A) as [x E]. rewrite E. destruct (fold_run _ _ _ _ E) as [_ [[K N]|(l1 & q' & l2 & h0 & _ & _ & -> & _)]]; [|eauto].
    rewrite (N q Iq) in Q. discriminate.
Qed.
Lemma scene_first q s : describes q s -> plain s -> unbranched s -> forall r o d tm, isRay r o d tm -> 0 <= tm -> d <> zero3 ->
  forall h, p_intersect q r = Ret (Some h) -> exists u, isR (t_ray h) u /\ 0 <= u <= tm /\ pts s (at_ray o d u) /\ forall v, 0 <= v <= tm -> pts s (at_ray o d v) -> u <= v.
Proof.
  intros H. induction H as [b lo hi Hb Hl|rd' z0' z1' p1' rad z0 z1 phi1 s H1 H2 H3 H4 HN|q s t A B Hq IH Ht HT|ps l HF] using describes_ind'; intros PL UB r o d tm Hr Htm Hd h Hh.
  - cbn [p_intersect] in Hh. destruct (hit_exact b r lo hi o d tm h Hb Hl Hr Htm Hh) as (t & p & n & T & Bt & _ & _ & IB & F & _). exists t. auto.
  - cbn [p_intersect] in Hh. injection Hh as Hh. assert (K := hit_first _ _ _ _ _ _ _ _ _ _ _ _ _ H1 H2 H3 H4 HN Hr Hd). rewrite Hh in K.
    destruct K as (t & T & _ & (Bt & M) & W & _). exists t. cbn [pts]. split; [exact T|split; [exact Bt|split; [auto|]]].
    destruct (hit_full _ _ _ _ _ _ _ _ _ _ _ _ _ H1 H2 H3 H4 HN Hr Hd PL) as [_ D]. destruct (D h Hh) as (t' & T' & _ & _ & F). rewrite (isR_inj _ _ _ T T').
    intros v Bv [Pv _]. apply F. split; assumption.
  - destruct (image_pair t A B Ht HT) as (I & HA & HB). destruct (transformed q t A B r o d tm HT I HA HB Hr) as (r' & E & Hr' & P & _ & RT & RB & Z).
    rewrite P in Hh. destruct (IH PL UB r' _ _ tm Hr' Htm (Z Hd) h Hh) as (u & U & Bu & Q & F). exists u. split; [exact U|split; [exact Bu|]].
    split; [apply image_pts; auto; rewrite <- RB; exact Q|]. intros v Bv Pv. apply F; [exact Bv|]. rewrite RB. apply image_pts in Pv; auto.
  - destruct HF as [|q s ps l [D X] HF]; [discriminate|]. destruct HF as [|q' s' ps l _ HF]; [|destruct UB]. cbn [plain fold_right] in PL.
    assert (Q : p_intersect q r = Ret (Some h)).
    { rewrite list_eq in Hh. cbn [fold_left] in Hh. unfold lstep in Hh. cbn [obind] in Hh. destruct (p_intersect q r) as [[x|]|]; cbn [obind] in Hh; try discriminate. exact Hh. }
    destruct (X (proj1 PL) UB r o d tm Hr Htm Hd h Q) as (u & U & Bu & P & F). exists u. split; [exact U|split; [exact Bu|]]. split; [apply union_pts; exists s; split; [left; reflexivity|exact P]|].
    intros v Bv Pv. apply union_pts in Pv. destruct Pv as (s' & [<-|[]] & Pv). auto.
Qed.

(** the same with wedge cuts *)
Lemma image_surely A B s p : mutually_inverse A B -> affine A -> affine B -> (surely (SImage A B s) p <-> surely s (app_pt B p)).
Proof.
  intros (I & J) HA HB. cbn [surely].
  assert (R1 : forall x, app_pt A (app_pt B x) = x) by (intros x; rewrite <- app_pt_mul; [apply app_pt_id; exact I| |]; rewrite wcoord_affine by assumption; lra).
  assert (R2 : forall x, app_pt B (app_pt A x) = x) by (intros x; rewrite <- app_pt_mul; [apply app_pt_id; exact J| |]; rewrite wcoord_affine by assumption; lra).
  split; [intros (q & Q & ->); rewrite R2; exact Q|]. intros H. exists (app_pt B p). rewrite R1. auto.
Qed.
Lemma union_surely l p : surely (SUnion l) p <-> exists s, In s l /\ surely s p.
Proof.
  cbn [surely]. induction l as [|s l IH]; cbn [fold_right]; [split; [intros []|intros (s & [] & _)]|]. rewrite IH. split.
  - intros [H|(s' & I & H)]; [exists s; cbn; auto|exists s'; cbn; auto].
  - intros (s' & [<-|I] & H); [left; exact H|right; exists s'; auto].
Qed.
Lemma scene_complete_cut q s : describes q s -> forall r o d tm, isRay r o d tm -> 0 <= tm -> d <> zero3 -> clear_of s o d ->
  met s o d tm -> exists h, p_intersect q r = Ret (Some h).
Proof.
  intros H. induction H as [b lo hi Hb Hl|rd' z0' z1' p1' rad z0 z1 phi1 s H1 H2 H3 H4 HN|q s t A B Hq IH Ht HT|ps l HF] using describes_ind'; intros r o d tm Hr Htm Hd CL (u & Bu & Pu).
  - cbn [p_intersect]. apply do_iff_hit. apply (hit_exists b r lo hi o d tm); auto. exists u. auto.
  - cbn [p_intersect surely] in *. assert (K := hit_first _ _ _ _ _ _ _ _ _ _ _ _ _ H1 H2 H3 H4 HN Hr Hd).
    destruct (s_hit s r) as [h|]; [eauto|]. exfalso. apply Pu, K. split; tauto.
  - destruct (image_pair t A B Ht HT) as (I & HA & HB). destruct (transformed q t A B r o d tm HT I HA HB Hr) as (r' & E & Hr' & P & _ & RT & RB & Z).
    rewrite P. apply (IH r' _ _ tm Hr' Htm (Z Hd) CL). exists u. split; [exact Bu|]. rewrite RB. apply image_surely in Pu; auto.
  - apply union_surely in Pu. destruct Pu as (s & Is & Ps). cbn [clear_of] in *. rewrite (fold_all (fun s => clear_of s o d)) in CL.
    destruct (F2_right _ _ _ _ HF Is) as (q & Iq & _ & X). destruct (X r o d tm Hr Htm Hd (CL s Is) (ex_intro _ u (conj Bu Ps))) as [h Q].
    assert (A : forall q, In q ps -> exists x, p_intersect q r = Ret x).
    { intros q' I. destruct (F2_left _ _ _ _ HF I) as (s' & _ & D & _). destruct (scene_sound _ _ D r o d tm Hr Htm Hd) as [Y _]. exact Y. }
    rewrite list_eq. destruct (fold_ret r ps None A) as [x E]. rewrite E. destruct (fold_run _ _ _ _ E) as [_ [[K N]|(l1 & q' & l2 & h0 & _ & _ & -> & _)]]; [|eauto].
    rewrite (N q Iq) in Q. discriminate.
Qed.
Lemma last_cons s l o d tm u : reported (SUnion (s :: l)) o d tm u <-> reported (SUnion l) o d tm u \/ (reported s o d tm u /\ forall s2, In s2 l -> ~ met s2 o d tm).
Proof. reflexivity. Qed.
Lemma last_at l1 s l2 o d tm u : reported s o d tm u -> (forall s2, In s2 l2 -> ~ met s2 o d tm) -> reported (SUnion (l1 ++ s :: l2)) o d tm u.
Proof. intros H N. induction l1 as [|a l1 IH]; cbn [app]; apply last_cons; [right|left]; auto. Qed.
Lemma F2_split {A B} (P : A -> B -> Prop) l1 x l2 m : Forall2 P (l1 ++ x :: l2) m -> exists m1 y m2, m = m1 ++ y :: m2 /\ P x y /\ Forall2 P l2 m2.
Proof.
  revert m. induction l1 as [|a l1 IH]; cbn [app]; intros m H; inversion H; subst.
  - exists [], y, l'. auto.
  - match goal with K : Forall2 P (l1 ++ _) _ |- _ => destruct (IH _ K) as (m1 & z & m2 & -> & Pz & F) end. exists (y :: m1), z, m2. auto.
Qed.
Lemma scene_reported q s : describes q s -> forall r o d tm, isRay r o d tm -> 0 <= tm -> d <> zero3 -> clear_of s o d ->
  forall h, p_intersect q r = Ret (Some h) -> exists u, isR (t_ray h) u /\ reported s o d tm u.
Proof.
  intros H. induction H as [b lo hi Hb Hl|rd' z0' z1' p1' rad z0 z1 phi1 s H1 H2 H3 H4 HN|q s t A B Hq IH Ht HT|ps l HF] using describes_ind'; intros r o d tm Hr Htm Hd CL h Hh.
  - cbn [p_intersect] in Hh. destruct (hit_exact b r lo hi o d tm h Hb Hl Hr Htm Hh) as (t & p & n & T & Bt & _ & _ & IB & F & _). exists t. cbn [reported pts surely]. auto.
  - cbn [p_intersect] in Hh. injection Hh as Hh. assert (K := hit_first _ _ _ _ _ _ _ _ _ _ _ _ _ H1 H2 H3 H4 HN Hr Hd). rewrite Hh in K.
    destruct K as (t & T & _ & (Bt & M) & W & F). exists t. cbn [reported pts surely]. split; [exact T|split; [exact Bt|split; [auto|]]].
    intros v Bv [Pv Nv]. destruct (Rle_or_lt t v) as [L|L]; [exact L|]. exfalso. apply Nv, F; [split; assumption|exact L].
  - destruct (image_pair t A B Ht HT) as (I & HA & HB). destruct (transformed q t A B r o d tm HT I HA HB Hr) as (r' & E & Hr' & P & _ & RT & RB & Z).
    rewrite P in Hh. exact (IH r' _ _ tm Hr' Htm (Z Hd) CL h Hh).
  - cbn [clear_of] in CL. rewrite (fold_all (fun s => clear_of s o d)) in CL. rewrite list_eq in Hh.
    destruct (fold_run _ _ _ _ Hh) as [_ [[K _]|(l1 & q & l2 & h0 & -> & Q & K & N)]]; [discriminate|]. injection K as <-.
    destruct (F2_split _ _ _ _ _ HF) as (m1 & s & m2 & -> & [D X] & F2).
    destruct (X r o d tm Hr Htm Hd (CL s ltac:(apply in_or_app; right; left; reflexivity)) h Q) as (u & U & R). exists u. split; [exact U|]. apply last_at; [exact R|].
    intros s2 I2 M. destruct (F2_right _ _ _ _ F2 I2) as (q2 & J2 & D2 & _).
    destruct (scene_complete_cut _ _ D2 r o d tm Hr Htm Hd (CL s2 ltac:(apply in_or_app; right; right; exact I2)) M) as [h2 Q2].
    rewrite (N q2 J2) in Q2. discriminate.
Qed.
(** the vocabulary is coherent *)
Lemma plain_surely s : plain s -> forall p, pts s p -> surely s p.
Proof.
  revert s. fix IH 1. intros [lo hi|rad z0 z1 phi1|A B s|l] P p; cbn [plain pts surely] in *.
  - auto.
  - intros [S W]. split; [exact S|]. intros (phi & (B & _) & L). lra.
  - intros (q & Q & ->). exists q. split; [exact (IH s P q Q)|reflexivity].
  - induction l as [|s l IHl]; cbn [fold_right] in *; [auto|]. destruct P as [P1 P2]. intros [H|H]; [left; exact (IH s P1 p H)|right; exact (IHl P2 H)].
Qed.
Lemma surely_pts s : forall p, surely s p -> pts s p.
Proof.
  revert s. fix IH 1. intros [lo hi|rad z0 z1 phi1|A B s|l] p; cbn [pts surely].
  - auto.
  - intros [S W]. split; [exact S|]. destruct p as [x y z]. assert (K := ratan2_angle x y z false false). exists (ratan2 y false x false). split; [exact K|].
    destruct (Rle_or_lt (ratan2 y false x false) phi1) as [L|L]; [exact L|]. exfalso. apply W. exists (ratan2 y false x false). split; assumption.
  - intros (q & Q & ->). exists q. split; [exact (IH s q Q)|reflexivity].
  - induction l as [|s l IHl]; cbn [fold_right]; [auto|]. intros [H|H]; [left; exact (IH s p H)|right; exact (IHl H)].
Qed.
Lemma surely_spec s p : (surely s p -> pts s p) /\ (plain s -> pts s p -> surely s p).
Proof. split; [apply surely_pts|intros P; apply plain_surely; exact P]. Qed.

Lemma scene_do q s r o d tm : describes q s -> isRay r o d tm -> 0 <= tm -> d <> zero3 ->
  (p_do_intersect q r = Ret true <-> exists h, p_intersect q r = Ret (Some h)) /\ (p_do_intersect q r = Ret false <-> p_intersect q r = Ret None) /\ exists b, p_do_intersect q r = Ret b.
Proof.
  intros H Hr Htm Hd. destruct (scene_sound q s H r o d tm Hr Htm Hd) as [X _]. destruct (do_iff q s r H X) as [A B]. split; [exact A|split; [exact B|]].
  destruct X as [[h|] E]; [exists true; apply A; eauto|exists false; apply B; exact E].
Qed.

(** ** bounding boxes *)
Lemma union_isB a b lo hi lo' hi' : isB a lo hi -> isB b lo' hi' ->
  isB (b_union a b) (mk3 (Rmin (cX lo) (cX lo')) (Rmin (cY lo) (cY lo')) (Rmin (cZ lo) (cZ lo'))) (mk3 (Rmax (cX hi) (cX hi')) (Rmax (cY hi) (cY hi')) (Rmax (cZ hi) (cZ hi'))).
Proof.
  intros [(A1 & A2 & A3) (A4 & A5 & A6)] [(B1 & B2 & B3) (B4 & B5 & B6)].
  split; (split; [|split]); first [apply isR_nmin|apply isR_nmax]; assumption.
Qed.
Lemma default_isB : exists lo hi, isB (b_default : bbox xr) lo hi.
Proof. exists (mk3 x_max x_max x_max), (mk3 (- x_max) (- x_max) (- x_max)). split; (split; [|split]); first [apply isR_highest|apply isR_fin]. Qed.
Lemma list_isB (ps : list (prim xr)) acc lo hi : isB acc lo hi -> (forall q, In q ps -> exists l h, isB (p_bbox q) l h) ->
  exists lo' hi', isB (fold_left (fun acc q => b_union acc (p_bbox q)) ps acc) lo' hi' /\ le3 lo' lo /\ le3 hi hi' /\
    forall q l h, In q ps -> isB (p_bbox q) l h -> le3 lo' l /\ le3 h hi'.
Proof.
  revert acc lo hi. induction ps as [|q ps IH]; intros acc lo hi Ha H.
  - exists lo, hi. split; [exact Ha|]. unfold le3. split; [lra|split; [lra|]]. intros q l h [].
  - destruct (H q (or_introl eq_refl)) as (l & h & Hq). cbn [fold_left]. assert (U := union_isB _ _ _ _ _ _ Ha Hq).
    destruct (IH _ _ _ U (fun q I => H q (or_intror I))) as (lo' & hi' & K & (L1 & L2 & L3) & (U1 & U2 & U3) & F). exists lo', hi'. cbn in L1, L2, L3, U1, U2, U3.
    assert (M : forall a b, Rmin a b <= a /\ Rmin a b <= b /\ a <= Rmax a b /\ b <= Rmax a b) by (intros; auto using Rmin_l, Rmin_r, Rmax_l, Rmax_r).
    assert (Mx := M (cX lo) (cX l)). assert (My := M (cY lo) (cY l)). assert (Mz := M (cZ lo) (cZ l)). assert (Nx := M (cX hi) (cX h)). assert (Ny := M (cY hi) (cY h)). assert (Nz := M (cZ hi) (cZ h)).
    split; [exact K|]. unfold le3. split; [lra|split; [lra|]]. intros q' l' h' [<-|I] Hq'.
    + destruct Hq as [Q1 Q2], Hq' as [Q1' Q2']. rewrite (is3_inj _ _ _ Q1' Q1), (is3_inj _ _ _ Q2' Q2). lra.
    + exact (F q' l' h' I Hq').
Qed.
Lemma scene_isB q s : describes q s -> exists lo hi, isB (p_bbox q) lo hi.
Proof.
  intros H. induction H as [b lo hi Hb Hl|rd' z0' z1' p1' rad z0 z1 phi1 s H1 H2 H3 H4 HN|q s t A B Hq IH Ht HT|ps l HF] using describes_ind'; cbn [p_bbox].
  - eauto.
  - do 2 eexists. exact (bbox_value _ _ _ _ _ _ _ _ _ H1 H2 H3 H4 HN).
  - destruct IH as (lo & hi & K). do 2 eexists. exact (map_bbox_value (tm t) A _ lo hi (proj1 HT) K).
  - destruct default_isB as (lo & hi & D). destruct (list_isB ps b_default lo hi D) as (lo' & hi' & K & _).
    { intros q I. destruct (F2_left _ _ _ _ HF I) as (s & _ & _ & X). exact X. }
    eauto.
Qed.
Lemma scene_box q s : describes q s -> upright s -> forall lo hi p, isB (p_bbox q) lo hi -> pts s p -> in_box lo hi p.
Proof.
  assert (UQ : forall b l h l' h', isB b l h -> isB b l' h' -> l = l' /\ h = h') by (intros b l h l' h' [A1 A2] [B1 B2]; split; eapply is3_inj; eauto).
  intros H. induction H as [b lo0 hi0 Hb Hl|rd' z0' z1' p1' rad z0 z1 phi1 s H1 H2 H3 H4 HN|q s t A B Hq IH Ht HT|ps l HF] using describes_ind'; cbn [p_bbox]; intros UP lo hi p HB HP.
  - destruct (UQ _ _ _ _ _ Hb HB) as [<- <-]. exact HP.
  - destruct (UQ _ _ _ _ _ HB (bbox_value _ _ _ _ _ _ _ _ _ H1 H2 H3 H4 HN)) as [-> ->]. exact (on_sphere_box _ _ _ _ (proj1 HP)).
  - destruct (image_pair t A B Ht HT) as (I & HA & HB'). destruct UP as [DG UP]. destruct HP as (p' & P' & ->).
    destruct (scene_isB q s Hq) as (l0 & h0 & K). assert (IB := IH UP l0 h0 p' K P'). assert (L : le3 l0 h0) by (destruct IB as [L1 L2]; unfold le3 in *; lra).
    destruct (map_bbox_partial t A B _ l0 h0 HT HA DG K L) as (l1 & h1 & K1 & F & _). destruct (UQ _ _ _ _ _ HB K1) as [-> ->]. apply F, IB.
  - cbn [upright] in UP. rewrite fold_all in UP. apply union_pts in HP. destruct HP as (s & Is & Ps). destruct (F2_right _ _ _ _ HF Is) as (q & Iq & D & X).
    destruct (scene_isB q s D) as (l0 & h0 & K). destruct default_isB as (dl & dh & DB).
    destruct (list_isB ps b_default dl dh DB) as (lo' & hi' & K' & _ & _ & F). { intros q' I. destruct (F2_left _ _ _ _ HF I) as (s' & _ & D' & _). exact (scene_isB _ _ D'). }
    destruct (UQ _ _ _ _ _ HB K') as [-> ->]. destruct (F q l0 h0 Iq K) as [F1 F2]. destruct (X (UP s Is) l0 h0 p K Ps) as [G1 G2]. unfold in_box, le3 in *. lra.
Qed.
Lemma scene_cull q s r o d tm h lo hi : describes q s -> upright s -> isRay r o d tm -> 0 <= tm -> d <> zero3 -> p_intersect q r = Ret (Some h) ->
  isB (p_bbox q) lo hi -> no_graze lo hi o d -> b_do_intersect (p_bbox q) r = true.
Proof.
  intros H UP Hr Htm Hd Hh HB NG. destruct (scene_sound q s H r o d tm Hr Htm Hd) as [_ X]. destruct (X h Hh) as (u & _ & Bu & P).
  assert (IB := scene_box q s H UP lo hi _ HB P). assert (L : le3 lo hi) by (destruct IB as [L1 L2]; unfold le3 in *; lra).
  apply (hit_exists _ r lo hi o d tm HB L Hr Htm NG). exists u. auto.
Qed.

(** ** a rotated box: its bounding box misses it *)
Ltac app_lit := unfold app_pt; rewrite wcoord_affine by (repeat split); apply R3_eq; cbn; try field; try lra.
Definition turned : prim xr := PTransformed (PBox (xbox 0 0 0 1 1 1)) (rotate_z (xn (PI / 2))).
Definition RA : rmat := lit (cos (PI / 2)) (- sin (PI / 2)) 0 0 (sin (PI / 2)) (cos (PI / 2)) 0 0 0 0 1 0 0 0 0 1.
Definition RB : rmat := lit (cos (PI / 2)) (sin (PI / 2)) 0 0 (- sin (PI / 2)) (cos (PI / 2)) 0 0 0 0 1 0 0 0 0 1.
Definition turned_s : shape := SImage RA RB (SBox (mk3 0 0 0) (mk3 1 1 1)).
Lemma turned_d : describes turned turned_s.
Proof.
  apply d_image; [apply d_box; [apply isB_xbox|unfold le3; cbn; lra]|exact (ba_rotate_z _ _ (isR_xn (PI / 2)))|exact (isT_rotate_z (xn (PI / 2)) (PI / 2) (isR_xn _))].
Qed.
Lemma turned_B p : app_pt RB p = mk3 (cY p) (- cX p) (cZ p).
Proof. unfold app_pt. rewrite wcoord_affine by (repeat split). unfold RB. apply R3_eq; cbn; rewrite ?cos_PI2, ?sin_PI2; field. Qed.
Lemma turned_Bv p : app_vec RB p = mk3 (cY p) (- cX p) (cZ p).
Proof. unfold RB. apply R3_eq; cbn; rewrite ?cos_PI2, ?sin_PI2; ring. Qed.
Lemma turned_box : isB (p_bbox turned) (mk3 0 (-1) 0) (mk3 1 0 1).
Proof.
  assert (V := map_bbox_value _ RA _ _ _ (proj1 (isT_rotate_z (xn (PI / 2)) (PI / 2) (isR_xn _))) (isB_xbox 0 0 0 1 1 1)).
  match type of V with isB _ ?l ?h => replace (mk3 0 (-1) 0) with l; [replace (mk3 1 0 1) with h; [exact V|]|] end;
    unfold colmin, colmax, RA; apply R3_eq; cbn; rewrite ?cos_PI2, ?sin_PI2;
    repeat first [rewrite Rmax_left by lra | rewrite Rmax_right by lra | rewrite Rmin_left by lra | rewrite Rmin_right by lra]; lra.
Qed.
Lemma turned_hit : exists h, p_intersect turned (xray (-1/2) (1/2) (-5) 0 0 1 10) = Ret (Some h).
Proof.
  apply (scene_complete _ _ turned_d I _ _ _ _ (isRay_xray (-1/2) (1/2) (-5) 0 0 1 10)) with (u := 5); try lra.
  - intros K. injection K. lra.
  - cbn [clear_of turned_s]. rewrite turned_B, turned_Bv. unfold no_graze, grazes; cbn. lra.
  - destruct (image_pair _ _ _ (ba_rotate_z _ _ (isR_xn (PI / 2))) (isT_rotate_z (xn (PI / 2)) (PI / 2) (isR_xn _))) as (J & HA & HB).
    apply image_pts; [exact J|exact HA|exact HB|]. rewrite turned_B. unfold pts, in_box, le3, at_ray; cbn. lra.
Qed.
Lemma cull_refuted : ~ (forall q s r o d tm h lo hi, describes q s -> isRay r o d tm -> 0 <= tm -> d <> zero3 -> p_intersect q r = Ret (Some h) ->
  isB (p_bbox q) lo hi -> no_graze lo hi o d -> b_do_intersect (p_bbox q) r = true).
Proof.
  intros C. destruct turned_hit as [h Hh].
  assert (ND : mk3 0 0 1 <> zero3) by (intros K; injection K; lra).
  assert (NG : no_graze (mk3 0 (-1) 0) (mk3 1 0 1) (mk3 (-1/2) (1/2) (-5)) (mk3 0 0 1)) by (unfold no_graze, grazes; cbn; lra).
  assert (D := C _ _ _ _ _ _ h _ _ turned_d (isRay_xray (-1/2) (1/2) (-5) 0 0 1 10) ltac:(lra) ND Hh turned_box NG).
  apply (hit_exists _ _ _ _ _ _ _ turned_box ltac:(unfold le3; cbn; lra) (isRay_xray (-1/2) (1/2) (-5) 0 0 1 10) ltac:(lra) NG) in D.
  destruct D as (t & _ & K). unfold in_box, le3, at_ray in K; cbn in K. lra.
Qed.
Lemma contains_refuted : ~ (forall q s lo hi p, describes q s -> isB (p_bbox q) lo hi -> pts s p -> in_box lo hi p).
Proof.
  intros C. apply cull_refuted. intros q s r o d tm h lo hi H Hr Htm Hd Hh HB NG.
  destruct (scene_sound q s H r o d tm Hr Htm Hd) as [_ X]. destruct (X h Hh) as (u & _ & Bu & P).
  assert (IB := C q s lo hi _ H HB P). assert (L : le3 lo hi) by (destruct IB as [L1 L2]; unfold le3 in *; lra).
  apply (hit_exists _ r lo hi o d tm HB L Hr Htm NG). exists u. auto.
Qed.

(** ** a sample scene: a box beside a translated pair of a ball and a box *)
Definition scene (s : sphere xr) : prim xr := PList [PBox (xbox 0 0 0 1 1 1); PTransformed (PList [PSphere s; PBox (xbox 2 (-1) (-1) 3 1 1)]) (translate (xv 10 0 0))].
Definition scene_shape : shape :=
  SUnion [SBox (mk3 0 0 0) (mk3 1 1 1);
    SImage (lit 1 0 0 10 0 1 0 0 0 0 1 0 0 0 0 1) (lit 1 0 0 (- (10)) 0 1 0 (- 0) 0 0 1 (- 0) 0 0 0 1) (SUnion [SBall 1 (-1) 1 PI; SBox (mk3 2 (-1) (-1)) (mk3 3 1 1)])].
Lemma scene_d s : xsphere 1 (-1) 1 pi = Ret s -> describes (scene s) scene_shape.
Proof.
  intros Hs. apply d_union. apply d_cons; [apply d_box; [apply isB_xbox|unfold le3; cbn; lra]|]. apply d_cons; [|apply d_nil].
  apply d_image; [|exact (ba_translate _ _ (is3_xv 10 0 0))|exact (isT_translate _ _ (is3_xv 10 0 0))].
  apply d_union. apply d_cons; [exact (d_sphere _ _ _ _ _ _ _ _ _ (isR_xn 1) (isR_xn (-1)) (isR_xn 1) isR_pi Hs)|].
  apply d_cons; [|apply d_nil]. apply d_box; [apply isB_xbox|unfold le3; cbn; lra].
Qed.
Lemma scene_case : exists s, xsphere 1 (-1) 1 pi = Ret s /\ describes (scene s) scene_shape /\ plain scene_shape /\ upright scene_shape /\
  clear_of scene_shape (mk3 20 (1/2) (1/2)) (mk3 (-1) 0 0) /\ pts scene_shape (at_ray (mk3 20 (1/2) (1/2)) (mk3 (-1) 0 0) 7).
Proof.
  destruct full_ball as [s Hs]. exists s. split; [exact Hs|]. split; [exact (scene_d s Hs)|]. split; [cbn; lra|]. split; [cbn; repeat split|]. split.
  - cbn [clear_of scene_shape fold_right]. split; [unfold no_graze, grazes; cbn; lra|]. split; [|exact I]. split; [exact I|]. split; [|exact I].
    match goal with |- context [app_pt ?B ?p] => replace (app_pt B p) with (mk3 10 (1 / 2) (1 / 2)) by app_lit end. unfold no_graze, grazes, app_vec; cbn. lra.
  - apply union_pts. eexists. split; [right; left; reflexivity|].
    destruct (image_pair _ _ _ (ba_translate _ _ (is3_xv 10 0 0)) (isT_translate _ _ (is3_xv 10 0 0))) as (J & HA & HB).
    apply image_pts; [exact J|exact HA|exact HB|]. apply union_pts. eexists. split; [right; left; reflexivity|].
    unfold app_pt. rewrite wcoord_affine by (repeat split). unfold pts, in_box, le3, at_ray; cbn. lra.
Qed.
Lemma first_case : exists s h, describes turned turned_s /\ plain turned_s /\ unbranched turned_s /\ s = xray (-1/2) (1/2) (-5) 0 0 1 10 /\ p_intersect turned s = Ret (Some h).
Proof. destruct turned_hit as [h H]. exists (xray (-1/2) (1/2) (-5) 0 0 1 10), h. split; [exact turned_d|]. cbn. auto. Qed.
Lemma no_miss_refuted : ~ (forall q s r o d tm u, describes q s -> isRay r o d tm -> 0 <= tm -> d <> zero3 -> 0 <= u <= tm -> pts s (at_ray o d u) ->
  exists h, p_intersect q r = Ret (Some h)).
Proof.
  intros C. assert (D : describes (PBox (xbox 0 0 0 1 1 1)) (SBox (mk3 0 0 0) (mk3 1 1 1))) by (apply d_box; [apply isB_xbox|unfold le3; cbn; lra]).
  destruct (C _ _ _ _ _ _ 5 D (isRay_xray 0 (1/2) (-5) 0 0 1 10)) as [h Hh]; try lra; [intros K; injection K; lra|unfold pts, in_box, le3, at_ray; cbn; lra|].
  cbn [p_intersect] in Hh. assert (K : b_do_intersect (xbox 0 0 0 1 1 1) (xray 0 (1/2) (-5) 0 0 1 10) = true) by (apply do_iff_hit; eauto).
  unfold b_do_intersect in K. rewrite (slab_graze _ _ _ _ _ _ _ (isB_xbox 0 0 0 1 1 1) (isRay_xray 0 (1/2) (-5) 0 0 1 10)) in K; [discriminate|lra|].
  unfold no_graze, grazes; cbn. intros (X & _). apply X. lra.
Qed.

(** a box behind a half sphere, hit from above: the half sphere phi <= 0 is reported, though the box is closer *)
Definition pair_shape : shape := SUnion [SBox (mk3 (-1) 1 (-1)) (mk3 1 (3/2) 1); SBall 1 (-1) 1 0].
Lemma cut_case : exists s, xsphere 1 (-1) 1 (xn 0) = Ret s /\ describes (PList [PBox (xbox (-1) 1 (-1) 1 (3/2) 1); PSphere s]) pair_shape /\ ~ plain pair_shape /\
  clear_of pair_shape (mk3 0 2 0) (mk3 0 (-1) 0) /\ met pair_shape (mk3 0 2 0) (mk3 0 (-1) 0) 10 /\
  reported pair_shape (mk3 0 2 0) (mk3 0 (-1) 0) 10 3 /\ pts pair_shape (at_ray (mk3 0 2 0) (mk3 0 (-1) 0) (1/2)).
Proof.
  assert (P0 := PI_RGT_0). destruct C49_sample_wedge as (s & h & Hs & Hh & T). exists s. split; [exact Hs|].
  assert (D : describes (PSphere s) (SBall 1 (-1) 1 0)) by exact (d_sphere _ _ _ _ _ _ _ _ _ (isR_xn 1) (isR_xn (-1)) (isR_xn 1) (isR_xn 0) Hs).
  assert (DP : describes (PList [PBox (xbox (-1) 1 (-1) 1 (3/2) 1); PSphere s]) pair_shape).
  { apply d_union. apply d_cons; [apply d_box; [apply isB_xbox|unfold le3; cbn; lra]|]. apply d_cons; [exact D|apply d_nil]. }
  split; [exact DP|]. split; [cbn; lra|].
  assert (CL : clear_of pair_shape (mk3 0 2 0) (mk3 0 (-1) 0)) by (cbn [clear_of pair_shape fold_right]; split; [unfold no_graze, grazes; cbn; lra|auto]).
  split; [exact CL|].
  assert (S3 : surely (SBall 1 (-1) 1 0) (at_ray (mk3 0 2 0) (mk3 0 (-1) 0) 3)).
  { cbn [surely]. unfold on_sphere, at_ray, dot3, add3, scl3; cbn. split; [lra|]. intros (phi & (B & _ & Y) & L). cbn in Y.
    assert (0 <= sin phi) by (apply sin_ge_0; lra). assert (0 <= sqrt ((0 + 3 * 0) * (0 + 3 * 0) + (2 + 3 * -1) * (2 + 3 * -1))) by apply sqrt_pos.
    assert (0 <= sqrt ((0 + 3 * 0) * (0 + 3 * 0) + (2 + 3 * -1) * (2 + 3 * -1)) * sin phi) by (apply Rmult_le_pos; assumption). lra. }
  split; [exists 3; split; [lra|]; apply union_surely; exists (SBall 1 (-1) 1 0); split; [right; left; reflexivity|exact S3]|].
  assert (ND : mk3 0 (-1) 0 <> zero3) by (intros K; injection K; lra).
  split; [|apply union_pts; exists (SBox (mk3 (-1) 1 (-1)) (mk3 1 (3/2) 1)); split; [left; reflexivity|unfold pts, in_box, le3, at_ray; cbn; lra]].
  destruct (scene_reported _ _ D _ _ _ _ (isRay_xray 0 2 0 0 (-1) 0 10) ltac:(lra) ND I h) as (u & U & R); [cbn [p_intersect]; rewrite Hh; reflexivity|].
  rewrite (isR_inj _ _ _ U T) in R. apply (last_at [_] _ []); [exact R|intros s2 []].
Qed.
