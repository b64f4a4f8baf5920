(** Facts about box hits: the chosen face is the nearest. *)
From Coq Require Import ZArith Reals Bool List Lra Lia.
From Coq Require Vector Fin.
From Flocq Require Import Core BinarySingleNaN.
From Verif.Model Require Import FloatBase Scalar Float Interval Outcome Vec Transform XReal Geometry.
From Verif Require Import Spec SpecGeom SpecShape.
From Verif.Proofs Require Import BitsLemmas FloatLemmas ScalarProofs XRealLemmas BoxFloat BoxExact BoxCases.
Import ListNotations.
Open Scope R_scope.
Notation "v @ i" := (Vector.nth v i) (at level 20, only parsing).

Section S.
Context {f : fmt} {m : libm f}.
Notation FT := (float f).

Lemma closest_min_f (ds : list FT) : (forall i, (i < 6)%nat -> finite (nth i ds (fzero false))) ->
  forall i, (i < 6)%nat -> B2R (nth (closest_face ds) ds (fzero false)) <= B2R (nth i ds (fzero false)).
Proof.
  intros H. unfold closest_face. change (@szero FT _) with (@fzero f false).
  assert (L : forall x y : FT, finite x -> finite y -> (slt x y = true /\ B2R x < B2R y) \/ (slt x y = false /\ B2R y <= B2R x)).
  { intros x y Fx Fy. unfold slt, lt_of. change (@scmp FT _) with (@fcmp f). pose proof (lt_b x y (nonnan_of_finite x Fx) (nonnan_of_finite y Fy)) as K.
    unfold lt_of in K. rewrite K. rewrite !E_B2R by assumption. destruct (Rlt_bool_spec (B2R x) (B2R y)); auto. }
  assert (K : forall l k, (k < 6)%nat -> (forall i, In i l -> (i < 6)%nat) ->
    let k' := fold_left (fun best i => if slt (nth i ds (fzero false)) (nth best ds (fzero false)) then i else best) l k in
    B2R (nth k' ds (fzero false)) <= B2R (nth k ds (fzero false)) /\ forall i, In i l -> B2R (nth k' ds (fzero false)) <= B2R (nth i ds (fzero false))).
  { induction l as [|a l IH]; cbn [fold_left]; intros k Hk Hl.
    - cbn. split; [lra|tauto].
    - assert (Ha : (a < 6)%nat) by (apply Hl; left; reflexivity).
      destruct (L _ _ (H a Ha) (H k Hk)) as [[-> Q]|[-> Q]].
      + destruct (IH a Ha (fun i Hi => Hl i (or_intror Hi))) as [I1 I2]. cbv zeta. split; [lra|]. intros i [<-|Hi]; [lra|auto].
      + destruct (IH k Hk (fun i Hi => Hl i (or_intror Hi))) as [I1 I2]. cbv zeta. split; [lra|]. intros i [<-|Hi]; [lra|auto]. }
  intros i Hi. destruct (K (seq 1 5) 0%nat) as [K1 K2]; [lia|intros j Hj; apply in_seq in Hj; lia|]. cbv zeta in K1, K2.
  destruct i as [|i]; [exact K1|]. apply K2, in_seq. lia.
Qed.

Definition gap (b : bbox FT) (p : vec FT 3) (k : Fin.t 3) (w : bool) : FT := ssub (p @ k) ((if w then pmax b else pmin b) @ k).
Lemma nabs_val (x : FT) : finite x -> finite (nabs x) /\ B2R (nabs x) = Rabs (B2R x).
Proof. intros K. split; [unfold finite in *; now destruct x|apply B2R_Babs]. Qed.
Lemma closest_float (b : bbox FT) (r : ray FT) h : b_hit b r = Ret (Some h) ->
  (forall k w, finite (gap b (ray_eval r (t_ray h)) k w)) ->
  exists i (upper : bool), si_p (h_si h) @ i = (if upper then pmax b else pmin b) @ i /\ B2R (si_n (h_si h) @ i) = (if upper then 1 else -1) /\
    forall j v, Rabs (B2R (gap b (ray_eval r (t_ray h)) i upper)) <= Rabs (B2R (gap b (ray_eval r (t_ray h)) j v)).
Proof.
  rewrite hit_eq. destruct (b_intersect_ray b r) as [[t u]|] eqn:E; [|discriminate]. cbv zeta. intros H.
  injection H as <-. cbn [h_si t_ray]. intros FN. destruct one_val as (V1 & V2 & V0).
  set (p := ray_eval r t) in *.
  set (x := Fin.F1 : Fin.t 3) in *. set (y := Fin.FS Fin.F1 : Fin.t 3) in *. set (z := Fin.FS (Fin.FS Fin.F1) : Fin.t 3) in *.
  assert (DS : face_ds b p = [nabs (gap b p x false); nabs (gap b p x true); nabs (gap b p y false); nabs (gap b p y true); nabs (gap b p z false); nabs (gap b p z true)]) by reflexivity.
  assert (C := closest_min_f (face_ds b p)). rewrite DS in C.
  assert (C' : forall i, (i < 6)%nat -> B2R (nth (closest_face (face_ds b p)) [nabs (gap b p x false); nabs (gap b p x true); nabs (gap b p y false); nabs (gap b p y true); nabs (gap b p z false); nabs (gap b p z true)] (fzero false)) <=
     B2R (nth i [nabs (gap b p x false); nabs (gap b p x true); nabs (gap b p y false); nabs (gap b p y true); nabs (gap b p z false); nabs (gap b p z true)] (fzero false))).
  { rewrite DS. apply C. intros i Hi. destruct i as [|[|[|[|[|[|i]]]]]]; try lia; cbn [nth]; apply nabs_val, FN. }
  clear C. assert (K := closest_lt (face_ds b p)). set (k := closest_face (face_ds b p)) in *. clearbody k.
  assert (A0 := C' 0%nat ltac:(lia)). assert (A1 := C' 1%nat ltac:(lia)). assert (A2 := C' 2%nat ltac:(lia)).
  assert (A3 := C' 3%nat ltac:(lia)). assert (A4 := C' 4%nat ltac:(lia)). assert (A5 := C' 5%nat ltac:(lia)). clear C'.
  assert (NV : forall k w, B2R (nabs (gap b p k w)) = Rabs (B2R (gap b p k w))) by (intros; apply nabs_val, FN).
  destruct k as [|[|[|[|[|[|k]]]]]]; [| | | | | |lia]; cbn [nth] in *; rewrite !NV in *;
  [exists x, false|exists x, true|exists y, false|exists y, true|exists z, false|exists z, true];
  (split; [reflexivity|split; [first [exact V1|exact V2]|]]);
  (refine (fin3_case _ _ _ _); intros [|]; fold x y z; assumption).
Qed.

End S.
