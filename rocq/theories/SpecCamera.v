(** * Specification vocabulary for the camera code. *)
From Coq Require Import Reals.
From Coq Require Vector Fin.
From Verif.Model Require Import XReal Vec.
From Verif Require Import SpecGeom.
Open Scope R_scope.

(** the exact-arithmetic pair [v] is the real point (a, b) *)
Definition is2 (v : vec xr 2) (a b : R) : Prop :=
  isR (Vector.nth v Fin.F1) a /\ isR (Vector.nth v (Fin.FS Fin.F1)) b.
(** the map (x,y) -> (F x y, G x y) has partial derivatives at (x,y), with determinant [J] *)
Definition jacobian (F G : R -> R -> R) (x y J : R) : Prop :=
  exists a b c d,
    derivable_pt_lim (fun s => F s y) x a /\ derivable_pt_lim (fun s => F x s) y b /\
    derivable_pt_lim (fun s => G s y) x c /\ derivable_pt_lim (fun s => G x s) y d /\ a * d - b * c = J.
