(** * Specification vocabulary for partial spheres: plain real geometry. *)
From Coq Require Import Reals.
From Coquelicot Require Import Coquelicot.
From Verif Require Import SpecGeom.
Open Scope R_scope.

(** [phi] is a polar angle of the point [p] around the z axis *)
Definition angle_of (p : R3) (phi : R) : Prop :=
  - PI <= phi <= PI /\
  cX p = sqrt (cX p * cX p + cY p * cY p) * cos phi /\
  cY p = sqrt (cX p * cX p + cY p * cY p) * sin phi.
(** [p] has a polar angle at most, respectively above, [phi1]; the two overlap only in the
    points where the polar angle is ambiguous: the z axis and the half plane phi = PI = -PI *)
Definition inside_wedge (p : R3) (phi1 : R) : Prop := exists phi, angle_of p phi /\ phi <= phi1.
Definition outside_wedge (p : R3) (phi1 : R) : Prop := exists phi, angle_of p phi /\ phi1 < phi.
(** [p] is on the sphere of radius [r] around the origin, between the planes z = [z0], z = [z1] *)
Definition on_sphere (r z0 z1 : R) (p : R3) : Prop := dot3 p p = r * r /\ z0 <= cZ p <= z1.
(** the parameter [t] of the ray belongs to such a point *)
Definition meets (r z0 z1 : R) (o d : R3) (tm t : R) : Prop :=
  0 <= t <= tm /\ on_sphere r z0 z1 (at_ray o d t).
(** spherical coordinates *)
Definition spherical (r phi theta : R) : R3 :=
  mk3 (r * sin theta * cos phi) (r * sin theta * sin phi) (r * cos theta).
(** the parametrisation of the part  z0 <= z <= z1, -PI <= phi <= phi1  of the sphere by the
    unit square: u runs along phi, v along theta *)
Definition sphere_uv (r z0 z1 phi1 u v : R) : R3 :=
  spherical r (u * (phi1 + PI) - PI) (acos (z0 / r) + v * (acos (z1 / r) - acos (z0 / r))).
(** [g] has the derivative [w] at [x], componentwise *)
Definition deriv3 (g : R -> R3) (x : R) (w : R3) : Prop :=
  derivable_pt_lim (fun s => cX (g s)) x (cX w) /\
  derivable_pt_lim (fun s => cY (g s)) x (cY w) /\
  derivable_pt_lim (fun s => cZ (g s)) x (cZ w).

(** [A] is the area of the surface  P(u,v), a <= u <= b, c <= v <= d:  the double integral of the
    length of the cross product of the partial derivatives *)
Definition area_of (P : R -> R -> R3) (a b c d A : R) : Prop :=
  exists (Pu Pv : R -> R -> R3) (strip : R -> R),
    (forall u v, deriv3 (fun s => P s v) u (Pu u v) /\ deriv3 (fun s => P u s) v (Pv u v)) /\
    (forall u, is_RInt (fun v => len3 (cross3 (Pu u v) (Pv u v))) c d (strip u)) /\
    is_RInt strip a b A.
