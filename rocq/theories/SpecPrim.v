(** * Specification vocabulary for primitives. *)
From Coq Require Import Bool List.
From Verif.Model Require Import Outcome Transform Geometry.

Section SpecPrim.
Context {T : Type}.
Definition is_some {A} (o : option A) : bool := match o with Some _ => true | None => false end.
(** user-supplied primitives inside the tree [p] answer [do_intersect] as [intersect] does *)
Fixpoint customs_agree (p : prim T) : Prop :=
  match p with
  | PBox _ | PSphere _ => True
  | PTransformed q _ => customs_agree q
  | PList ps => List.fold_right (fun q acc => customs_agree q /\ acc) True ps
  | PCustom _ d h => forall r,
      match h r with Ret x => d r = Ret (is_some x) | Panic => d r = Panic end
  end.
End SpecPrim.
