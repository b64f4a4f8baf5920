(** * Evaluation lemmas for the exact-arithmetic instance *)
From Coq Require Import ZArith Reals Bool List Lra.
From Coq Require Vector Fin.
From Flocq Require Import Core.
From Verif.Model Require Import FloatBase Scalar XReal Vec Transform Outcome.
From Verif Require Import SpecGeom.
Open Scope R_scope.

Lemma Rltb_spec : forall a b, reflect (a < b) (Rltb a b).
Proof. intros; unfold Rltb; destruct (Rlt_dec a b); constructor; auto. Qed.
Lemma Reqb_spec : forall a b, reflect (a = b) (Reqb a b).
Proof. intros; unfold Reqb; destruct (Req_EM_T a b); constructor; auto. Qed.

Lemma isR_inj : forall x a b, isR x a -> isR x b -> a = b.
Proof. intros x a b (s,->) (t,E). injection E; auto. Qed.
Lemma isR_eq : forall x a b, isR x a -> a = b -> isR x b.
Proof. intros; subst; auto. Qed.

Lemma isR_fin : forall r s, isR (XFin r s) r. Proof. intros; eexists; eauto. Qed.
Lemma isR_zero : isR (szero : xr) 0. Proof. apply isR_fin. Qed.
Lemma isR_one : isR (sone : xr) 1. Proof. apply isR_fin. Qed.
Lemma isR_half : isR (half : xr) (1/2). Proof. apply isR_fin. Qed.
Lemma isR_pi : isR (pi : xr) PI. Proof. apply isR_fin. Qed.
Lemma isR_pi2 : isR (frac_pi_2 : xr) (PI/2). Proof. apply isR_fin. Qed.
Lemma isR_pi4 : isR (frac_pi_4 : xr) (PI/4). Proof. apply isR_fin. Qed.
Lemma isR_highest : isR (shighest : xr) x_max. Proof. apply isR_fin. Qed.
Lemma isR_lowest : isR (slowest : xr) (- x_max). Proof. apply isR_fin. Qed.
Lemma isR_from_i64 : forall z, isR (from_i64 z : xr) (IZR z). Proof. intros; apply isR_fin. Qed.

Lemma isR_add : forall x y a b, isR x a -> isR y b -> isR (sadd x y) (a + b).
Proof. intros x y a b (s,->) (t,->); eexists; reflexivity. Qed.
Lemma isR_neg : forall x a, isR x a -> isR (sneg x) (- a).
Proof. intros x a (s,->); eexists; reflexivity. Qed.
Lemma isR_sub : forall x y a b, isR x a -> isR y b -> isR (ssub x y) (a - b).
Proof. intros x y a b (s,->) (t,->); eexists; reflexivity. Qed.
Lemma isR_mul : forall x y a b, isR x a -> isR y b -> isR (smul x y) (a * b).
Proof. intros x y a b (s,->) (t,->); eexists; reflexivity. Qed.
Lemma isR_square : forall x a, isR x a -> isR (ssquare x) (a * a).
Proof. intros x a (s,->); eexists; reflexivity. Qed.
Lemma isR_div : forall x y a b, isR x a -> isR y b -> b <> 0 -> isR (sdiv x y) (a / b).
Proof.
  intros x y a b (s,->) (t,->) H. cbn. destruct (Reqb_spec b 0); [easy|]. eexists; reflexivity.
Qed.
Lemma isR_recip : forall x a, isR x a -> a <> 0 -> isR (recip x) (1 / a).
Proof. intros; apply isR_div; auto using isR_one. Qed.
Lemma isR_sqrt : forall x a, isR x a -> 0 <= a -> isR (gsqrt x) (sqrt a).
Proof.
  intros x a (s,->) H. cbn. destruct (Rltb_spec a 0); [lra|]. eexists; reflexivity.
Qed.
Lemma isR_sin : forall x a, isR x a -> isR (gsin x) (sin a).
Proof. intros x a (s,->); eexists; reflexivity. Qed.
Lemma isR_cos : forall x a, isR x a -> isR (gcos x) (cos a).
Proof. intros x a (s,->); eexists; reflexivity. Qed.
Lemma isR_tan : forall x a, isR x a -> isR (gtan x) (tan a).
Proof. intros x a (s,->); eexists; reflexivity. Qed.
Lemma isR_sc1 : forall x a, isR x a -> isR (fst (gsin_cos x)) (sin a).
Proof. intros x a (s,->); eexists; reflexivity. Qed.
Lemma isR_sc2 : forall x a, isR x a -> isR (snd (gsin_cos x)) (cos a).
Proof. intros x a (s,->); eexists; reflexivity. Qed.
Lemma isR_acos : forall x a, isR x a -> -1 <= a <= 1 -> isR (gacos x) (acos a).
Proof.
  intros x a (s,->) H. cbn. destruct (Rltb_spec a (-1)); [lra|]. destruct (Rltb_spec 1 a); [lra|].
  eexists; reflexivity.
Qed.
Lemma isR_nabs : forall x a, isR x a -> isR (nabs x) (Rabs a).
Proof. intros x a (s,->); eexists; reflexivity. Qed.

(** comparisons *)
Lemma xcmp_R : forall x y a b, isR x a -> isR y b -> scmp x y = Some (Rcmp a b).
Proof. intros x y a b (s,->) (t,->). reflexivity. Qed.
Ltac cmp_tac x y a b H H0 :=
  rewrite (xcmp_R x y a b H H0); unfold Rcmp;
  destruct (Rltb_spec a b); [|destruct (Reqb_spec a b)]; constructor; lra.
Lemma slt_R : forall x y a b, isR x a -> isR y b -> reflect (a < b) (slt x y).
Proof. intros; unfold slt, lt_of; cmp_tac x y a b H H0. Qed.
Lemma sle_R : forall x y a b, isR x a -> isR y b -> reflect (a <= b) (sle x y).
Proof. intros; unfold sle, le_of; cmp_tac x y a b H H0. Qed.
Lemma sgt_R : forall x y a b, isR x a -> isR y b -> reflect (b < a) (sgt x y).
Proof. intros; unfold sgt, gt_of; cmp_tac x y a b H H0. Qed.
Lemma sge_R : forall x y a b, isR x a -> isR y b -> reflect (b <= a) (sge x y).
Proof. intros; unfold sge, ge_of; cmp_tac x y a b H H0. Qed.
Lemma seqb_Reqb : forall x y a b, isR x a -> isR y b -> seqb x y = Reqb a b.
Proof.
  intros x y a b (s,->) (t,->). cbn. unfold xeqb; cbn. unfold Rcmp.
  destruct (Rltb_spec a b); destruct (Reqb_spec a b); auto; lra.
Qed.
Lemma seqb_R : forall x y a b, isR x a -> isR y b -> reflect (a = b) (seqb x y).
Proof. intros. rewrite (seqb_Reqb _ _ _ _ H H0). apply Reqb_spec. Qed.

Lemma isR_nmin : forall x y a b, isR x a -> isR y b -> isR (nmin x y) (Rmin a b).
Proof.
  intros x y a b H K. destruct H as (s,->), K as (t,->). cbn. unfold native_min, lt_of. cbn. unfold Rcmp.
  destruct (Rltb_spec a b); [|destruct (Reqb_spec a b)]; eexists; f_equal;
  unfold Rmin; destruct (Rle_dec a b); auto; lra.
Qed.
Lemma isR_nmax : forall x y a b, isR x a -> isR y b -> isR (nmax x y) (Rmax a b).
Proof.
  intros x y a b H K. destruct H as (s,->), K as (t,->). cbn. unfold native_max, gt_of. cbn. unfold Rcmp.
  destruct (Rltb_spec a b); [|destruct (Reqb_spec a b)]; eexists; f_equal;
  unfold Rmax; destruct (Rle_dec a b); auto; lra.
Qed.
Lemma isR_smin : forall x y a b, isR x a -> isR y b -> isR (smin x y) (Rmin a b).
Proof.
  intros x y a b H K. destruct H as (s,->), K as (t,->). cbn. unfold default_min, lt_of. cbn. unfold Rcmp.
  destruct (Rltb_spec a b); [|destruct (Reqb_spec a b)]; eexists; f_equal;
  unfold Rmin; destruct (Rle_dec a b); auto; lra.
Qed.
Lemma isR_smax : forall x y a b, isR x a -> isR y b -> isR (smax x y) (Rmax a b).
Proof.
  intros x y a b H K. destruct H as (s,->), K as (t,->). cbn. unfold default_max, gt_of. cbn. unfold Rcmp.
  destruct (Rltb_spec a b); [|destruct (Reqb_spec a b)]; eexists; f_equal;
  unfold Rmax; destruct (Rle_dec a b); auto; lra.
Qed.

#[global] Arguments xadd_ : simpl never.
#[global] Arguments xsub_ : simpl never.
#[global] Arguments xmul_ : simpl never.
#[global] Arguments xdiv_ : simpl never.
#[global] Arguments xneg : simpl never.
#[global] Arguments xsqrt : simpl never.
#[global] Arguments default_square : simpl never.

Create HintDb isr discriminated.
#[export] Hint Resolve isR_zero isR_one isR_half isR_pi isR_pi2 isR_pi4 isR_highest isR_lowest isR_from_i64 isR_fin
  isR_add isR_neg isR_sub isR_mul isR_square isR_sin isR_cos isR_tan isR_sc1 isR_sc2 isR_nabs
  isR_nmin isR_nmax isR_smin isR_smax : isr.

(** compute the real value of an expression, then leave an equation *)
Ltac isr_step :=
  first [ eassumption
        | eapply isR_zero | eapply isR_one | eapply isR_half | eapply isR_pi | eapply isR_pi2 | eapply isR_pi4
        | eapply isR_highest | eapply isR_lowest | eapply isR_from_i64
        | eapply isR_add | eapply isR_sub | eapply isR_mul | eapply isR_neg | eapply isR_square
        | eapply isR_div | eapply isR_recip | eapply isR_sqrt
        | eapply isR_sin | eapply isR_cos | eapply isR_tan | eapply isR_sc1 | eapply isR_sc2
        | eapply isR_nabs | eapply isR_nmin | eapply isR_nmax | eapply isR_smin | eapply isR_smax
        | eapply isR_fin ].
Ltac isr := eapply isR_eq; [ repeat isr_step | ].

(** ** vectors *)
Lemma vec_S : forall {T n} (v : Vector.t T (S n)), exists x w, v = Vector.cons T x n w.
Proof. intros. exists (Vector.hd v), (Vector.tl v). apply Vector.eta. Qed.
Lemma vec_0 : forall {T} (v : Vector.t T 0), v = Vector.nil T.
Proof. intros; apply (Vector.case0 (fun v => v = Vector.nil T)); reflexivity. Qed.
Lemma vec3_eta : forall {T} (v : vec T 3), v = vec3 (vx v) (vy v) (vz v).
Proof.
  intros T v. destruct (vec_S v) as (x & w & ->). destruct (vec_S w) as (y & w' & ->).
  destruct (vec_S w') as (z & w'' & ->). rewrite (vec_0 w''). reflexivity.
Qed.
Lemma vec2_eta : forall {T} (v : vec T 2), v = vec2 (vx v) (vy v).
Proof.
  intros T v. destruct (vec_S v) as (x & w & ->). destruct (vec_S w) as (y & w' & ->).
  rewrite (vec_0 w'). reflexivity.
Qed.
Lemma vec4_eta : forall {T} (v : vec T 4), v = vec4 (vx v) (vy v) (vz v) (vw v).
Proof.
  intros T v. destruct (vec_S v) as (x & w & ->). destruct (vec_S w) as (y & w' & ->).
  destruct (vec_S w') as (z & w'' & ->). destruct (vec_S w'') as (u & u' & ->). rewrite (vec_0 u'). reflexivity.
Qed.

(** three-vectors with known components *)
Lemma is3_intro : forall v a, isR (vx v) (cX a) -> isR (vy v) (cY a) -> isR (vz v) (cZ a) -> is3 v a.
Proof. intros; repeat split; assumption. Qed.
Lemma is3_vec3 : forall x y z a, isR x (cX a) -> isR y (cY a) -> isR z (cZ a) -> is3 (vec3 x y z) a.
Proof. intros; repeat split; assumption. Qed.
Lemma is3_destruct : forall v a, is3 v a ->
  exists x y z, v = vec3 x y z /\ isR x (cX a) /\ isR y (cY a) /\ isR z (cZ a).
Proof. intros v a (H&K&L). exists (vx v), (vy v), (vz v). split; [apply vec3_eta | auto]. Qed.
Lemma is3_inj : forall v a b, is3 v a -> is3 v b -> a = b.
Proof.
  intros v [] [] (H&K&L) (H'&K'&L'). cbn in *. f_equal; eapply isR_inj; eauto.
Qed.
Lemma is3_eq : forall v a b, is3 v a -> a = b -> is3 v b.
Proof. intros; subst; auto. Qed.
Lemma R3_eq : forall a b, cX a = cX b -> cY a = cY b -> cZ a = cZ b -> a = b.
Proof. intros [] []; cbn; intros; subst; reflexivity. Qed.

Ltac un3 H v := let x := fresh "x" in let y := fresh "y" in let z := fresh "z" in
  let Hx := fresh "Hx" in let Hy := fresh "Hy" in let Hz := fresh "Hz" in
  destruct (is3_destruct _ _ H) as (x & y & z & -> & Hx & Hy & Hz); clear H.

Lemma is3_add : forall u v a b, is3 u a -> is3 v b -> is3 (v_add u v) (add3 a b).
Proof. intros u v a b H K. un3 H u. un3 K v. apply is3_vec3; cbn; isr; ring. Qed.
Lemma is3_sub : forall u v a b, is3 u a -> is3 v b -> is3 (v_sub u v) (sub3 a b).
Proof. intros u v a b H K. un3 H u. un3 K v. apply is3_vec3; cbn; isr; ring. Qed.
Lemma is3_neg : forall u a, is3 u a -> is3 (v_neg u) (scl3 (-1) a).
Proof. intros u a H. un3 H u. apply is3_vec3; cbn; isr; ring. Qed.
Lemma is3_scale : forall u a k r, is3 u a -> isR k r -> is3 (v_scale u k) (scl3 r a).
Proof. intros u a k r H K. un3 H u. apply is3_vec3; cbn; isr; ring. Qed.
Lemma is3_divs : forall u a k r, is3 u a -> isR k r -> r <> 0 -> is3 (v_divs u k) (scl3 (/ r) a).
Proof. intros u a k r H K Hr. un3 H u. apply is3_vec3; cbn; isr; try assumption; field; assumption. Qed.
Lemma is3_cross : forall u v a b, is3 u a -> is3 v b -> is3 (cross u v) (cross3 a b).
Proof. intros u v a b H K. un3 H u. un3 K v. apply is3_vec3; cbn; isr; ring. Qed.
Lemma isR_dot3 : forall u v a b, is3 u a -> is3 v b -> isR (dot u v) (dot3 a b).
Proof. intros u v a b H K. un3 H u. un3 K v. cbn. isr. unfold dot3; ring. Qed.
Lemma isR_sqnorm3 : forall u a, is3 u a -> isR (square_norm u) (dot3 a a).
Proof. intros u a H. un3 H u. cbn. isr. unfold dot3; ring. Qed.
Lemma dot3_pos : forall a, 0 <= dot3 a a.
Proof. intros []; unfold dot3; cbn. nra. Qed.
Lemma isR_norm3 : forall u a, is3 u a -> isR (norm u) (len3 a).
Proof. intros u a H. apply isR_sqrt; [apply isR_sqnorm3; auto | apply dot3_pos]. Qed.
Lemma len3_nonneg : forall a, 0 <= len3 a. Proof. intros; apply sqrt_pos. Qed.
Lemma len3_sq : forall a, len3 a * len3 a = dot3 a a.
Proof. intros; apply sqrt_sqrt, dot3_pos. Qed.
Lemma dot3_zero : forall a, dot3 a a = 0 -> a = zero3.
Proof. intros [x y z]; unfold dot3; cbn; intros; apply R3_eq; cbn; nra. Qed.
Lemma len3_zero : forall a, len3 a = 0 -> a = zero3.
Proof. intros a H. apply dot3_zero. rewrite <- len3_sq, H; ring. Qed.
Lemma len3_nz : forall a, a <> zero3 -> len3 a <> 0.
Proof. intros a H E; apply H, len3_zero, E. Qed.
Definition unit3 (a : R3) : R3 := scl3 (/ len3 a) a.
Lemma is3_normalize : forall u a, is3 u a -> a <> zero3 -> is3 (normalize u) (unit3 a).
Proof. intros. apply is3_divs; auto using isR_norm3, len3_nz. Qed.
Lemma dot3_unit : forall a, a <> zero3 -> dot3 (unit3 a) (unit3 a) = 1.
Proof.
  intros a H. assert (L := len3_nz a H). assert (E := len3_sq a).
  unfold unit3. transitivity (dot3 a a * (/ len3 a * / len3 a)). { unfold dot3, scl3; cbn; ring. }
  rewrite <- E. field; auto.
Qed.

(** ** matrices *)
Lemma fin4_case : forall (P : Fin.t 4 -> Prop), P i0 -> P i1 -> P i2 -> P i3 -> forall i, P i.
Proof.
  intros P H0 H1 H2 H3 i.
  apply (Fin.caseS' i); [exact H0|]. intros j. apply (Fin.caseS' j); [exact H1|].
  intros k. apply (Fin.caseS' k); [exact H2|]. intros l. apply (Fin.caseS' l); [exact H3|].
  intros m; apply (Fin.case0 (fun _ => _) m).
Qed.
Lemma fin3_case : forall (P : Fin.t 3 -> Prop),
  P Fin.F1 -> P (Fin.FS Fin.F1) -> P (Fin.FS (Fin.FS Fin.F1)) -> forall i, P i.
Proof.
  intros P H0 H1 H2 i.
  apply (Fin.caseS' i); [exact H0|]. intros j. apply (Fin.caseS' j); [exact H1|].
  intros k. apply (Fin.caseS' k); [exact H2|]. intros l; apply (Fin.case0 (fun _ => _) l).
Qed.
Ltac fin4 i := revert i; apply fin4_case.
Lemma isM_get : forall m A i j, isM m A -> isR (mget m i j) (A i j).
Proof. intros m A i j H; apply H. Qed.
Lemma rsum4 : forall g : Fin.t 4 -> R, rsum g = g i0 + g i1 + g i2 + g i3.
Proof. intros; cbn. unfold i0, i1, i2, i3. ring. Qed.
Lemma rmul4 : forall A B i j, rmul A B i j = A i i0 * B i0 j + A i i1 * B i1 j + A i i2 * B i2 j + A i i3 * B i3 j.
Proof. intros; unfold rmul; apply rsum4. Qed.
Lemma isM_eq : forall m A B, isM m A -> meq A B -> isM m B.
Proof. intros m A B H E i j. rewrite <- E; auto. Qed.
Lemma isM_inj : forall m A B, isM m A -> isM m B -> meq A B.
Proof. intros m A B H E i j. eapply isR_inj; eauto. Qed.
Lemma realm_isM : forall m, realm m -> exists A, isM m A.
Proof.
  intros m H.
  exists (fun i j => match Vector.nth (Vector.nth m i) j with XFin r _ => r | _ => 0 end).
  intros i j. destruct (H i j) as (r & s & E). cbn in *. rewrite E. apply isR_fin.
Qed.
Lemma isM_mul : forall m n A B, isM m A -> isM n B -> isM (m_mul m n) (rmul A B).
Proof.
  intros m n A B H K i j. fin4 i; fin4 j;
  (rewrite rmul4; cbn; isr; try apply (isM_get _ _ _ _ H); try apply (isM_get _ _ _ _ K); ring).
Qed.
Lemma isM_transpose : forall m A, isM m A -> isM (transpose m) (rtransp A).
Proof. intros m A H i j. fin4 i; fin4 j; apply H. Qed.
Lemma isM_id : isM m_identity rid.
Proof. intros i j. fin4 i; fin4 j; apply isR_fin. Qed.
Lemma isM_scale : forall m A c r, isM m A -> isR c r -> isM (m_scale m c) (rscale r A).
Proof.
  intros m A c r H K i j. unfold m_scale. rewrite (Vector.nth_map _ _ _ _ eq_refl), (Vector.nth_map _ _ _ _ eq_refl).
  apply isR_mul; [exact K | apply H].
Qed.
