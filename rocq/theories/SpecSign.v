(** * Specification vocabulary: atan2 at signed zeros. *)
From Coq Require Import Reals List.
From Flocq Require Import Core BinarySingleNaN.
From Verif.Model Require Import FloatBase Scalar Float Interval Outcome Vec Transform Geometry.
From Verif Require Import Spec.
Open Scope R_scope.

(** IEEE 754 (and C99 F.10.1.4): atan2(-0, x) is -PI and atan2(+0, x) is PI for x < 0. Only the rough size is used *)
Definition signed_atan2 {f} (m : libm f) : Prop := forall x : float f, finite x -> B2R x < 0 ->
  (finite (m_atan2 m (fzero true) x) /\ B2R (m_atan2 m (fzero true) x) <= -3) /\
  (finite (m_atan2 m (fzero false) x) /\ 3 <= B2R (m_atan2 m (fzero false) x)).
(** no coordinate is the negative zero *)
Definition no_neg_zero {f} (v : vec (float f) 3) : Prop := forall i, Vector.nth v i <> fzero true.
(** scenes of boxes and spheres in which no wedge cuts off an azimuth that atan2 can return *)
Fixpoint full_scene {f} {m : libm f} (p : prim (float f)) : Prop :=
  match p with
  | PBox _ => True
  | PSphere s => forall y x, ~ flt (phi_max s) (m_atan2 m y x)
  | PTransformed q _ => full_scene q
  | PList ps => List.fold_right (fun q acc => full_scene q /\ acc) True ps
  | PCustom _ _ _ => False
  end.
