(** Primitive trees: lists, transformed primitives, custom primitives. *)
From Coq Require Import ZArith Reals Bool List Lra Lia Permutation.
From Coq Require Vector Fin.
From Flocq Require Import Core BinarySingleNaN.
From Verif.Model Require Import FloatBase Scalar Float Interval Outcome Vec Transform XReal Geometry.
From Verif Require Import Spec SpecGeom SpecShape SpecSphere SpecPrim.
From Verif.Proofs Require Import FloatLemmas ScalarProofs IntervalRefute XRealLemmas MatrixProofs TransformProofs TransformThms TransformCases
  BoxFloat BoxExact BoxCases SphereExact SphereThms SphereCases.
Open Scope R_scope.

Section Generic.
Context {T : Type} {G : GFloat T} {N : Native T}.

Lemma prim_ind' (P : prim T -> Prop) :
  (forall b, P (PBox b)) -> (forall s, P (PSphere s)) -> (forall q t, P q -> P (PTransformed q t)) ->
  (forall ps, Forall P ps -> P (PList ps)) -> (forall b d h, P (PCustom b d h)) -> forall p, P p.
Proof.
  intros HB HS HT HL HC. fix IH 1. intros [b|s|q t|ps|b d h].
  - apply HB. - apply HS. - apply HT, IH.
  - apply HL. induction ps as [|q ps' IHps]; constructor; [apply IH|exact IHps].
  - apply HC.
Qed.

Definition lstep (r : ray T) (acc : outcome (option (hit T))) (q : prim T) : outcome (option (hit T)) :=
  let! result := acc in let! h := p_intersect q r in match h with Some x => Ret (Some x) | None => Ret result end.
Lemma list_eq ps r : p_intersect (PList ps) r = fold_left (lstep r) ps (Ret None).
Proof. reflexivity. Qed.
Fixpoint go (r : ray T) (l : list (prim T)) : outcome bool :=
  match l with nil => Ret false | (q :: l')%list => let! d := p_do_intersect q r in if d then Ret true else go r l' end.
Lemma list_do_eq ps r : p_do_intersect (PList ps) r = go r ps.
Proof. induction ps as [|q ps IH]; [reflexivity|]. cbn [go]. rewrite <- IH. reflexivity. Qed.
Lemma fold_panic r ps : fold_left (lstep r) ps Panic = Panic.
Proof. induction ps; [reflexivity|exact IHps]. Qed.

(** running the fold from any accumulator *)
Lemma fold_run r ps acc o : fold_left (lstep r) ps (Ret acc) = Ret o ->
  (forall q, In q ps -> exists x, p_intersect q r = Ret x) /\
  ((o = acc /\ forall q, In q ps -> p_intersect q r = Ret None) \/
   exists l1 q l2 h, ps = l1 ++ q :: l2 /\ p_intersect q r = Ret (Some h) /\ o = Some h /\ forall q', In q' l2 -> p_intersect q' r = Ret None).
Proof.
  revert acc. induction ps as [|q ps IH]; intros acc H.
  - injection H as <-. split; [intros q []|left; split; [reflexivity|intros q []]].
  - cbn [fold_left] in H. unfold lstep at 2 in H. cbn [obind] in H. destruct (p_intersect q r) as [x|] eqn:E; [|cbn [obind] in H; rewrite fold_panic in H; discriminate].
    cbn [obind] in H. 
    assert (H' : fold_left (lstep r) ps (Ret (match x with Some y => Some y | None => acc end)) = Ret o) by (destruct x; exact H). clear H.
    destruct (IH _ H') as [A B]. split.
    + intros q' [<-|I]; [exists x; exact E|exact (A q' I)].
    + destruct B as [[-> B]|(l1 & q' & l2 & h & -> & Q & -> & L)].
      * destruct x as [h|]; [right; exists nil, q, ps, h; repeat split; auto|left; split; [reflexivity|]]. intros q' [<-|I]; auto.
      * right. exists (q :: l1), q', l2, h. repeat split; auto.
Qed.
Lemma fold_ret r ps acc : (forall q, In q ps -> exists x, p_intersect q r = Ret x) -> exists o, fold_left (lstep r) ps (Ret acc) = Ret o.
Proof.
  revert acc. induction ps as [|q ps IH]; intros acc H; [eexists; reflexivity|]. cbn [fold_left]. unfold lstep at 2. cbn [obind].
  destruct (H q (or_introl eq_refl)) as [x ->]. cbn [obind]. destruct x; apply IH; intros q' I; apply H; right; exact I.
Qed.

(** ** C54 *)
Lemma do_agrees p : customs_agree p -> forall r,
  (forall h, p_intersect p r = Ret h -> p_do_intersect p r = Ret (is_some h)) /\
  (p_do_intersect p r = Ret false -> p_intersect p r = Ret None) /\
  (p_do_intersect p r = Panic -> p_intersect p r = Panic).
Proof.
  induction p as [b|s|q t IH|ps IH|b d h] using prim_ind'; intros C r.
  - cbn [p_intersect p_do_intersect]. destruct (hit_never_panics b r) as [x E]. rewrite E.
    assert (K := do_iff_hit b r). rewrite E in K. destruct x as [y|].
    + replace (b_do_intersect b r) with true by (symmetry; apply K; eauto). split; [|split]; intros; try discriminate. injection H as <-. reflexivity.
    + destruct (b_do_intersect b r); [destruct (proj1 K eq_refl) as (h & H); discriminate|]. split; [|split]; intros; try discriminate; [injection H as <-|]; reflexivity.
  - cbn [p_intersect p_do_intersect]. assert (K := s_do_eq s r). destruct (s_hit s r) as [y|].
    + replace (s_do_intersect s r) with true by (symmetry; apply K; eauto). split; [|split]; intros; try discriminate. injection H as <-. reflexivity.
    + destruct (s_do_intersect s r); [destruct (proj1 K eq_refl) as (h & H); discriminate|]. split; [|split]; intros; try discriminate; [injection H as <-|]; reflexivity.
  - cbn [p_intersect p_do_intersect]. destruct (t_map_ray_inverse t r) as [r'|]; cbn [obind]; [exact (IH C r')|]. split; [|split]; intros; try discriminate; reflexivity.
  - assert (A : forall q, In q ps -> forall r, (forall h, p_intersect q r = Ret h -> p_do_intersect q r = Ret (is_some h)) /\
        (p_do_intersect q r = Ret false -> p_intersect q r = Ret None) /\ (p_do_intersect q r = Panic -> p_intersect q r = Panic)).
    { clear r. cbn [customs_agree] in C. revert IH C. induction ps as [|q ps IHps]; intros IH C q' I; [destruct I|]. cbn [fold_right] in C. destruct C as [C1 C2]. inversion IH as [|? ? I1 I2]; subst.
      destruct I as [<-|I]; [exact (I1 C1)|exact (IHps I2 C2 q' I)]. }
    rewrite list_eq, list_do_eq. clear IH C. split; [|split].
    + intros h H. destruct (fold_run _ _ _ _ H) as [R B].
      assert (S : forall l, (forall q, In q l -> In q ps) -> (forall q, In q l -> p_intersect q r = Ret None) -> go r l = Ret false).
      { induction l as [|q l IH]; intros I H'; [reflexivity|]. cbn [go]. rewrite (proj1 (A q (I q (or_introl eq_refl)) r) None (H' q (or_introl eq_refl))). cbn.
        apply IH; intros; [apply I|apply H']; right; assumption. }
      destruct B as [[-> B]|(l1 & q & l2 & h' & -> & Q & -> & L)]; [apply S; auto|].
      cbn [is_some]. assert (R1 : forall q', In q' l1 -> In q' (l1 ++ q :: l2)) by (intros; apply in_or_app; auto).
      clear S L H. induction l1 as [|q1 l1 IH].
      * cbn [app go]. rewrite (proj1 (A q (or_introl eq_refl) r) _ Q). reflexivity.
      * cbn [app go]. destruct (R q1 (or_introl eq_refl)) as [x E]. rewrite (proj1 (A q1 (or_introl eq_refl) r) _ E). cbn.
        destruct x; [reflexivity|]. cbn. apply IH; intros; try (apply A; right; assumption); try (apply R; right; assumption). apply in_or_app; auto.
    + intros H. assert (S : forall l, (forall q, In q l -> In q ps) -> go r l = Ret false -> fold_left (lstep r) l (Ret None) = Ret None).
      { induction l as [|q l IH]; intros I H'; [reflexivity|]. cbn [go] in H'. destruct (p_do_intersect q r) as [[|]|] eqn:E; try discriminate.
        cbn [fold_left]. unfold lstep at 2. cbn [obind]. rewrite (proj1 (proj2 (A q (I q (or_introl eq_refl)) r)) E). cbn [obind]. apply IH; [intros; apply I; right; assumption|exact H']. }
      apply S; auto.
    + intros H. assert (S : forall l acc, (forall q, In q l -> In q ps) -> go r l = Panic -> fold_left (lstep r) l (Ret acc) = Panic).
      { induction l as [|q l IH]; intros acc I H'; [discriminate|]. cbn [go] in H'. cbn [fold_left]. unfold lstep at 2. cbn [obind].
        destruct (p_do_intersect q r) as [[|]|] eqn:E; try discriminate.
        - rewrite (proj1 (proj2 (A q (I q (or_introl eq_refl)) r)) E). cbn [obind]. apply IH; [intros; apply I; right; assumption|exact H'].
        - rewrite (proj2 (proj2 (A q (I q (or_introl eq_refl)) r)) E). cbn [obind]. apply fold_panic. }
      apply S; auto.
  - cbn [customs_agree p_intersect p_do_intersect] in *. specialize (C r). destruct (h r) as [x|]; rewrite C; split; [|split| |split]; intros; try discriminate.
    + injection H as <-. reflexivity.
    + injection H as H. destruct x; [discriminate|reflexivity].
    + reflexivity.
Qed.

(** ** C55, C56 *)
Lemma list_last l1 q l2 r h : (forall q', In q' l1 -> exists x, p_intersect q' r = Ret x) -> p_intersect q r = Ret (Some h) ->
  (forall q', In q' l2 -> p_intersect q' r = Ret None) -> p_intersect (PList (l1 ++ q :: l2)) r = Ret (Some h).
Proof.
  intros A B C. rewrite list_eq, fold_left_app. destruct (fold_ret r l1 None A) as [o ->]. cbn [fold_left]. unfold lstep at 2. cbn [obind]. rewrite B. cbn [obind].
  induction l2 as [|q' l2 IH]; [reflexivity|]. cbn [fold_left]. unfold lstep at 2. cbn [obind]. rewrite (C q' (or_introl eq_refl)). cbn [obind]. apply IH. intros; apply C; right; assumption.
Qed.
Lemma list_hit ps r :
  (forall o, p_intersect (PList ps) r = Ret o ->
     (o = None <-> forall q, In q ps -> p_intersect q r = Ret None) /\
     (forall h, o = Some h -> exists q, In q ps /\ p_intersect q r = Ret (Some h)) /\
     (forall q, In q ps -> exists x, p_intersect q r = Ret x)) /\
  ((forall q, In q ps -> exists x, p_intersect q r = Ret x) -> exists o, p_intersect (PList ps) r = Ret o) /\
  p_intersect (PList nil) r = Ret None.
Proof.
  split; [|split; [intros H; rewrite list_eq; apply fold_ret; exact H|reflexivity]].
  intros o H. rewrite list_eq in H. destruct (fold_run _ _ _ _ H) as [R B]. split; [|split; [|exact R]].
  - destruct B as [[-> B]|(l1 & q & l2 & h & -> & Q & -> & L)]; split; auto; try discriminate.
    intros K. rewrite (K q) in Q; [discriminate|]. apply in_or_app. right. left. reflexivity.
  - intros h ->. destruct B as [[K B]|(l1 & q & l2 & h' & -> & Q & K & L)]; [discriminate|]. injection K as ->. exists q. split; [|exact Q]. apply in_or_app. right. left. reflexivity.
Qed.
Lemma list_do ps r :
  (p_do_intersect (PList ps) r = Ret false <-> forall q, In q ps -> p_do_intersect q r = Ret false) /\
  (p_do_intersect (PList ps) r = Ret true <-> exists l1 q l2, ps = l1 ++ q :: l2 /\ (forall q', In q' l1 -> p_do_intersect q' r = Ret false) /\ p_do_intersect q r = Ret true) /\
  ((forall q, In q ps -> exists b, p_do_intersect q r = Ret b) ->
     (p_do_intersect (PList ps) r = Ret true <-> exists q, In q ps /\ p_do_intersect q r = Ret true)) /\
  p_do_intersect (PList nil) r = Ret false.
Proof.
  assert (F : p_do_intersect (PList ps) r = Ret false <-> forall q, In q ps -> p_do_intersect q r = Ret false).
  { rewrite list_do_eq. induction ps as [|q ps IH]; [split; [intros _ q []|reflexivity]|]. cbn [go]. split.
    - destruct (p_do_intersect q r) as [[|]|] eqn:E; try discriminate. cbn [obind]. intros H q' [<-|I]; [exact E|exact (proj1 IH H q' I)].
    - intros H. rewrite (H q (or_introl eq_refl)). cbn [obind]. apply IH. intros; apply H; right; assumption. }
  assert (B : p_do_intersect (PList ps) r = Ret true <-> exists l1 q l2, ps = l1 ++ q :: l2 /\ (forall q', In q' l1 -> p_do_intersect q' r = Ret false) /\ p_do_intersect q r = Ret true).
  { rewrite list_do_eq. clear F. induction ps as [|q ps IH]; [split; [discriminate|intros ([|] & q & l2 & K & _); discriminate]|]. cbn [go]. split.
    - destruct (p_do_intersect q r) as [[|]|] eqn:E; try discriminate; cbn [obind]; intros H.
      + exists nil, q, ps. repeat split; auto. intros q' [].
      + destruct (proj1 IH H) as (l1 & q' & l2 & -> & A & C). exists (q :: l1), q', l2. repeat split; auto. intros q0 [<-|I]; auto.
    - intros ([|q1 l1] & q' & l2 & K & A & C).
      + injection K as -> ->. rewrite C. reflexivity.
      + injection K as -> ->. rewrite (A q1 (or_introl eq_refl)). cbn [obind]. apply IH. exists l1, q', l2. repeat split; auto. intros; apply A; right; assumption. }
  split; [exact F|split; [exact B|split; [|reflexivity]]]. intros H. split.
  - intros K. apply B in K. destruct K as (l1 & q & l2 & -> & _ & Q). exists q. split; [apply in_or_app; right; left; reflexivity|exact Q].
  - intros (q & I & Q). rewrite list_do_eq. clear F B. induction ps as [|q0 ps IH]; [destruct I|]. cbn [go]. destruct (H q0 (or_introl eq_refl)) as [b E]. rewrite E. cbn [obind].
    destruct b; [reflexivity|]. apply IH; [intros; apply H; right; assumption|]. destruct I as [<-|I]; [congruence|exact I].
Qed.
End Generic.
