(** * Specification vocabulary: where the parts of a float scene lie. *)
From Coq Require Import ZArith Reals List.
From Coq Require Vector Fin.
From Flocq Require Import Core BinarySingleNaN.
From Verif.Model Require Import FloatBase Scalar Float Outcome Vec Transform Geometry.
From Verif Require Import Spec SpecGeom SpecShape.
Open Scope R_scope.

(** the float point [q] lies in the float scene [p]: in a box; no further out than the radius of a sphere
    and between its cuts; in the box a user-defined primitive declares; in a member of a list; or it is the
    computed image of a point of a transformed scene *)
Inductive sits {f} {m : libm f} : prim (float f) -> vec (float f) 3 -> Prop :=
| sits_box b q : in_fbox b q -> sits (PBox b) q
| sits_sphere s q : (fle (fneg (radius s)) (vx q) /\ fle (vx q) (radius s)) -> (fle (fneg (radius s)) (vy q) /\ fle (vy q) (radius s)) ->
    (fle (z_min s) (vz q) /\ fle (vz q) (z_max s)) -> sits (PSphere s) q
| sits_custom b d h q : in_fbox b q -> sits (PCustom b d h) q
| sits_list ps p q : In p ps -> sits p q -> sits (PList ps) q
| sits_moved p t q q' : sits p q -> t_map_point t q = Ret q' -> sits (PTransformed p t) q'.
(** no box or sphere of the scene has a NaN bound; every transform is finite and affine and only scales the axes
    and translates; and no bounding box to which a transform is applied is infinite *)
Fixpoint upright_scene {f} {m : libm f} (p : prim (float f)) : Prop :=
  match p with
  | PBox b => box_nonnan b
  | PSphere s => nonnan (radius s) /\ nonnan (z_min s) /\ nonnan (z_max s)
  | PCustom b _ _ => box_nonnan b
  | PTransformed q t => (exists A, fM (tm t) A /\ affine A /\ diagonal A) /\ box_finite (p_bbox q) /\ upright_scene q
  | PList ps => List.fold_right (fun q acc => upright_scene q /\ acc) True ps
  end.
(** lists of lists without any shape in them *)
Fixpoint hollow {T} (p : prim T) : Prop :=
  match p with
  | PList ps => List.fold_right (fun q acc => hollow q /\ acc) True ps
  | _ => False
  end.
(** nothing but lists and transforms *)
Fixpoint shapeless {T} (p : prim T) : Prop :=
  match p with
  | PTransformed q _ => shapeless q
  | PList ps => List.fold_right (fun q acc => shapeless q /\ acc) True ps
  | _ => False
  end.
