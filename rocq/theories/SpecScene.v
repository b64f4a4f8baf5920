(** * Specification vocabulary for scenes: point sets of real space built from boxes, sphere parts,
    images under affine maps, and unions; and which primitive describes which point set. *)
From Coq Require Import Reals List.
From Verif.Model Require Import XReal Vec Transform Outcome Geometry.
From Verif Require Import Spec SpecGeom SpecShape SpecSphere.
Open Scope R_scope.

Inductive shape :=
| SBox (lo hi : R3)                     (* the solid box *)
| SBall (rad z0 z1 phi1 : R)            (* the part z0 <= z <= z1, phi <= phi1 of a sphere surface *)
| SImage (A B : rmat) (s : shape)       (* the image of s under A, whose inverse is B *)
| SUnion (l : list shape).

(** the point [p] belongs to the shape *)
Fixpoint pts (s : shape) (p : R3) : Prop :=
  match s with
  | SBox lo hi => in_box lo hi p
  | SBall rad z0 z1 phi1 => on_sphere rad z0 z1 p /\ inside_wedge p phi1
  | SImage A _ s' => exists q, pts s' q /\ p = app_pt A q
  | SUnion l => List.fold_right (fun s' acc => pts s' p \/ acc) False l
  end.
(** the same without the points of wedge-cut spheres whose polar angle is ambiguous (SpecSphere.v) *)
Fixpoint surely (s : shape) (p : R3) : Prop :=
  match s with
  | SBox lo hi => in_box lo hi p
  | SBall rad z0 z1 phi1 => on_sphere rad z0 z1 p /\ ~ outside_wedge p phi1
  | SImage A _ s' => exists q, surely s' q /\ p = app_pt A q
  | SUnion l => List.fold_right (fun s' acc => surely s' p \/ acc) False l
  end.
(** the ray from [o] in direction [d] of extent [tm] meets the shape for sure *)
Definition met (s : shape) (o d : R3) (tm : R) : Prop := exists v, 0 <= v <= tm /\ surely s (at_ray o d v).
(** [u] is the parameter the code reports for that ray: the first one on a box or a sphere part, the
    one reported in the space of the shape before a map, and for a union the one reported for the
    last member that is met *)
Fixpoint reported (s : shape) (o d : R3) (tm u : R) : Prop :=
  match s with
  | SImage _ B s' => reported s' (app_pt B o) (app_vec B d) tm u
  | SUnion l =>
      (fix last l := match l with
       | nil => False
       | cons s' l' => last l' \/ (reported s' o d tm u /\ forall s2, List.In s2 l' -> ~ met s2 o d tm)
       end) l
  | _ => 0 <= u <= tm /\ pts s (at_ray o d u) /\ forall v, 0 <= v <= tm -> surely s (at_ray o d v) -> u <= v
  end.
(** no sphere of the shape is cut by a wedge *)
Fixpoint plain (s : shape) : Prop :=
  match s with
  | SBox _ _ => True
  | SBall _ _ _ phi1 => PI <= phi1
  | SImage _ _ s' => plain s'
  | SUnion l => List.fold_right (fun s' acc => plain s' /\ acc) True l
  end.
(** the line from [o] in direction [d], carried to the space of each box, does not run inside a
    lower face plane of that box *)
Fixpoint clear_of (s : shape) (o d : R3) : Prop :=
  match s with
  | SBox lo hi => no_graze lo hi o d
  | SBall _ _ _ _ => True
  | SImage _ B s' => clear_of s' (app_pt B o) (app_vec B d)
  | SUnion l => List.fold_right (fun s' acc => clear_of s' o d /\ acc) True l
  end.
(** all maps in the shape scale the axes and translate *)
Fixpoint upright (s : shape) : Prop :=
  match s with
  | SBox _ _ | SBall _ _ _ _ => True
  | SImage A _ s' => diagonal A /\ upright s'
  | SUnion l => List.fold_right (fun s' acc => upright s' /\ acc) True l
  end.
(** no union has two or more members *)
Fixpoint unbranched (s : shape) : Prop :=
  match s with
  | SBox _ _ | SBall _ _ _ _ => True
  | SImage _ _ s' => unbranched s'
  | SUnion nil => True
  | SUnion (s' :: nil) => unbranched s'
  | SUnion _ => False
  end.

(** the exact-arithmetic primitive describes the shape *)
Inductive describes : prim xr -> shape -> Prop :=
| d_box b lo hi : isB b lo hi -> le3 lo hi -> describes (PBox b) (SBox lo hi)
| d_sphere rd' z0' z1' p1' rad z0 z1 phi1 s : isR rd' rad -> isR z0' z0 -> isR z1' z1 -> isR p1' phi1 ->
    s_new rd' z0' z1' p1' = Ret s -> describes (PSphere s) (SBall rad z0 z1 phi1)
| d_image q s t A B : describes q s -> built_affine t -> isT t A B -> describes (PTransformed q t) (SImage A B s)
| d_union ps l : describe_all ps l -> describes (PList ps) (SUnion l)
with describe_all : list (prim xr) -> list shape -> Prop :=
| d_nil : describe_all nil nil
| d_cons q ps s l : describes q s -> describe_all ps l -> describe_all (q :: ps) (s :: l).
