(** * /repo/src/math/transform.rs and transform_inverse_impl.rs *)
From Coq Require Import ZArith Bool List.
From Coq Require Vector Fin.
From Verif.Model Require Import FloatBase Scalar Interval Vec Outcome.
Import Vector.VectorNotations.

(** Matrix4x4<T>, transform.rs:10-13: [data[row][col]].  Indices are [Fin.t 4]; an
    out-of-range index panics in Rust and is untypable here. *)
Definition matrix (T : Type) : Type := Vector.t (Vector.t T 4) 4.
Definition mget {T} (m : matrix T) (i j : Fin.t 4) : T := Vector.nth (Vector.nth m i) j.
Definition i0 : Fin.t 4 := Fin.F1.
Definition i1 : Fin.t 4 := Fin.FS Fin.F1.
Definition i2 : Fin.t 4 := Fin.FS (Fin.FS Fin.F1).
Definition i3 : Fin.t 4 := Fin.FS (Fin.FS (Fin.FS Fin.F1)).
(** [for i in 0..4 { r[i] = f(i) }] *)
Definition tab4 {A} (f : Fin.t 4 -> A) : Vector.t A 4 := [f i0; f i1; f i2; f i3].

Section Matrix.
Context {T : Type} {S : Scalar T}.
Local Open Scope scalar_scope.

(** transform.rs:15-35 ([default] and [new] are [identity]) *)
Definition m_identity : matrix T :=
  [[sone; szero; szero; szero];
   [szero; sone; szero; szero];
   [szero; szero; sone; szero];
   [szero; szero; szero; sone]].
(** transform.rs:37-46 *)
Definition m_zero : matrix T := Vector.const (Vector.const szero 4) 4.
(** transform.rs:48-58 *)
Definition transpose (d : matrix T) : matrix T :=
  [[mget d i0 i0; mget d i1 i0; mget d i2 i0; mget d i3 i0];
   [mget d i0 i1; mget d i1 i1; mget d i2 i1; mget d i3 i1];
   [mget d i0 i2; mget d i1 i2; mget d i2 i2; mget d i3 i2];
   [mget d i0 i3; mget d i1 i3; mget d i2 i3; mget d i3 i3]].
(** transform.rs:60-62 *)
Definition m_row (m : matrix T) (r : Fin.t 4) : Vector.t T 4 := Vector.nth m r.
(** transform.rs:64-71 *)
Definition m_col (m : matrix T) (c : Fin.t 4) : Vector.t T 4 :=
  [mget m i0 c; mget m i1 c; mget m i2 c; mget m i3 c].
(** transform.rs:72-79 *)
Definition m_row_vec (m : matrix T) (r : Fin.t 4) : vec T 4 :=
  vec4 (mget m r i0) (mget m r i1) (mget m r i2) (mget m r i3).
(** transform.rs:81-88 *)
Definition m_col_vec (m : matrix T) (c : Fin.t 4) : vec T 4 :=
  vec4 (mget m i0 c) (mget m i1 c) (mget m i2 c) (mget m i3 c).
(** transform.rs:139-152 *)
Definition m_scale (d : matrix T) (rhs : T) : matrix T :=
  Vector.map (Vector.map (fun x => rhs * x)) d.
(** transform.rs:154-167: [res] starts at zero and accumulates over [k] *)
Definition m_mul (self rhs : matrix T) : matrix T :=
  tab4 (fun i => tab4 (fun j =>
    List.fold_left (fun res k => res + mget self i k * mget rhs k j)
      (i0 :: i1 :: i2 :: i3 :: nil)%list (mget m_zero i j))).
(** derived PartialEq, transform.rs:10 *)
Definition m_eqb (self other : matrix T) : bool :=
  Vector.fold_left2 (fun acc a b => acc && v_eqb a b) true self other.
End Matrix.

(** transform.rs:91-102 *)
Definition m_almost_eq {T} `{AlmostEq T} (self other : matrix T) : bool :=
  Vector.fold_left2 (fun acc a b => acc && v_almost_eq a b) true self other.

(** transform_inverse_impl.rs:4-91 (adjugate over determinant) *)
Section Inverse.
Context {T : Type} {G : GFloat T}.
Local Open Scope scalar_scope.
Definition m_inverse (data : matrix T) : matrix T :=
  let d i j := mget data i j in
  let d00 := d i1 i1 * (d i2 i2 * d i3 i3 - d i2 i3 * d i3 i2)
           - d i1 i2 * (d i2 i1 * d i3 i3 - d i2 i3 * d i3 i1)
           + d i1 i3 * (d i2 i1 * d i3 i2 - d i2 i2 * d i3 i1) in
  let d01 := d i1 i0 * (d i2 i2 * d i3 i3 - d i2 i3 * d i3 i2)
           - d i1 i2 * (d i2 i0 * d i3 i3 - d i2 i3 * d i3 i0)
           + d i1 i3 * (d i2 i0 * d i3 i2 - d i2 i2 * d i3 i0) in
  let d02 := d i1 i0 * (d i2 i1 * d i3 i3 - d i2 i3 * d i3 i1)
           - d i1 i1 * (d i2 i0 * d i3 i3 - d i2 i3 * d i3 i0)
           + d i1 i3 * (d i2 i0 * d i3 i1 - d i2 i1 * d i3 i0) in
  let d03 := d i1 i0 * (d i2 i1 * d i3 i2 - d i2 i2 * d i3 i1)
           - d i1 i1 * (d i2 i0 * d i3 i2 - d i2 i2 * d i3 i0)
           + d i1 i2 * (d i2 i0 * d i3 i1 - d i2 i1 * d i3 i0) in
  let d10 := d i0 i1 * (d i2 i2 * d i3 i3 - d i2 i3 * d i3 i2)
           - d i0 i2 * (d i2 i1 * d i3 i3 - d i2 i3 * d i3 i1)
           + d i0 i3 * (d i2 i1 * d i3 i2 - d i2 i2 * d i3 i1) in
  let d11 := d i0 i0 * (d i2 i2 * d i3 i3 - d i2 i3 * d i3 i2)
           - d i0 i2 * (d i2 i0 * d i3 i3 - d i2 i3 * d i3 i0)
           + d i0 i3 * (d i2 i0 * d i3 i2 - d i2 i2 * d i3 i0) in
  let d12 := d i0 i0 * (d i2 i1 * d i3 i3 - d i2 i3 * d i3 i1)
           - d i0 i1 * (d i2 i0 * d i3 i3 - d i2 i3 * d i3 i0)
           + d i0 i3 * (d i2 i0 * d i3 i1 - d i2 i1 * d i3 i0) in
  let d13 := d i0 i0 * (d i2 i1 * d i3 i2 - d i2 i2 * d i3 i1)
           - d i0 i1 * (d i2 i0 * d i3 i2 - d i2 i2 * d i3 i0)
           + d i0 i2 * (d i2 i0 * d i3 i1 - d i2 i1 * d i3 i0) in
  let d20 := d i0 i1 * (d i1 i2 * d i3 i3 - d i1 i3 * d i3 i2)
           - d i0 i2 * (d i1 i1 * d i3 i3 - d i1 i3 * d i3 i1)
           + d i0 i3 * (d i1 i1 * d i3 i2 - d i1 i2 * d i3 i1) in
  let d21 := d i0 i0 * (d i1 i2 * d i3 i3 - d i1 i3 * d i3 i2)
           - d i0 i2 * (d i1 i0 * d i3 i3 - d i1 i3 * d i3 i0)
           + d i0 i3 * (d i1 i0 * d i3 i2 - d i1 i2 * d i3 i0) in
  let d22 := d i0 i0 * (d i1 i1 * d i3 i3 - d i1 i3 * d i3 i1)
           - d i0 i1 * (d i1 i0 * d i3 i3 - d i1 i3 * d i3 i0)
           + d i0 i3 * (d i1 i0 * d i3 i1 - d i1 i1 * d i3 i0) in
  let d23 := d i0 i0 * (d i1 i1 * d i3 i2 - d i1 i2 * d i3 i1)
           - d i0 i1 * (d i1 i0 * d i3 i2 - d i1 i2 * d i3 i0)
           + d i0 i2 * (d i1 i0 * d i3 i1 - d i1 i1 * d i3 i0) in
  let d30 := d i0 i1 * (d i1 i2 * d i2 i3 - d i1 i3 * d i2 i2)
           - d i0 i2 * (d i1 i1 * d i2 i3 - d i1 i3 * d i2 i1)
           + d i0 i3 * (d i1 i1 * d i2 i2 - d i1 i2 * d i2 i1) in
  let d31 := d i0 i0 * (d i1 i2 * d i2 i3 - d i1 i3 * d i2 i2)
           - d i0 i2 * (d i1 i0 * d i2 i3 - d i1 i3 * d i2 i0)
           + d i0 i3 * (d i1 i0 * d i2 i2 - d i1 i2 * d i2 i0) in
  let d32 := d i0 i0 * (d i1 i1 * d i2 i3 - d i1 i3 * d i2 i1)
           - d i0 i1 * (d i1 i0 * d i2 i3 - d i1 i3 * d i2 i0)
           + d i0 i3 * (d i1 i0 * d i2 i1 - d i1 i1 * d i2 i0) in
  let d33 := d i0 i0 * (d i1 i1 * d i2 i2 - d i1 i2 * d i2 i1)
           - d i0 i1 * (d i1 i0 * d i2 i2 - d i1 i2 * d i2 i0)
           + d i0 i2 * (d i1 i0 * d i2 i1 - d i1 i1 * d i2 i0) in
  let det := d i0 i0 * d00 - d i0 i1 * d01 + d i0 i2 * d02 - d i0 i3 * d03 in
  let det_inv := sone / det in
  [[d00 * det_inv; (- d10) * det_inv; d20 * det_inv; (- d30) * det_inv];
   [(- d01) * det_inv; d11 * det_inv; (- d21) * det_inv; d31 * det_inv];
   [d02 * det_inv; (- d12) * det_inv; d22 * det_inv; (- d32) * det_inv];
   [(- d03) * det_inv; d13 * det_inv; (- d23) * det_inv; d33 * det_inv]].
End Inverse.

(** Transform<T>, transform.rs:169-173 *)
Record transform (T : Type) := mkT { tm : matrix T; tminv : matrix T }.
Arguments mkT {T}. Arguments tm {T}. Arguments tminv {T}.

Section Transform.
Context {T : Type} {G : GFloat T}.
Local Open Scope scalar_scope.

(** transform.rs:176-178 *)
Definition t_new (m minv : matrix T) : transform T := mkT m minv.
(** transform.rs:180-185 *)
Definition t_identity : transform T := mkT m_identity m_identity.
(** transform.rs:187-211 *)
Definition init_from_orthogonal_basis (camera_pos : vec T 3) (x y z : vec T 3) : transform T :=
  mkT [[vx x; vy x; vz x; - dot x camera_pos];
       [vx y; vy y; vz y; - dot y camera_pos];
       [vx z; vy z; vz z; - dot z camera_pos];
       [szero; szero; szero; sone]]
      [[vx x; vx y; vx z; vx camera_pos];
       [vy x; vy y; vy z; vy camera_pos];
       [vz x; vz y; vz z; vz camera_pos];
       [szero; szero; szero; sone]].
(** transform.rs:213-232 *)
Definition translate (v : vec T 3) : transform T :=
  t_new [[sone; szero; szero; vx v];
         [szero; sone; szero; vy v];
         [szero; szero; sone; vz v];
         [szero; szero; szero; sone]]
        [[sone; szero; szero; - vx v];
         [szero; sone; szero; - vy v];
         [szero; szero; sone; - vz v];
         [szero; szero; szero; sone]].
(** transform.rs:234-253 *)
Definition scale (v : vec T 3) : transform T :=
  t_new [[vx v; szero; szero; szero];
         [szero; vy v; szero; szero];
         [szero; szero; vz v; szero];
         [szero; szero; szero; sone]]
        [[sone / vx v; szero; szero; szero];
         [szero; sone / vy v; szero; szero];
         [szero; szero; sone / vz v; szero];
         [szero; szero; szero; sone]].
(** transform.rs:257-277 *)
Definition rotate_x (angle : T) : transform T :=
  let (s, c) := gsin_cos angle in
  t_new [[sone; szero; szero; szero];
         [szero; c; - s; szero];
         [szero; s; c; szero];
         [szero; szero; szero; sone]]
        [[sone; szero; szero; szero];
         [szero; c; s; szero];
         [szero; - s; c; szero];
         [szero; szero; szero; sone]].
(** transform.rs:281-301 *)
Definition rotate_y (angle : T) : transform T :=
  let (s, c) := gsin_cos angle in
  t_new [[c; szero; s; szero];
         [szero; sone; szero; szero];
         [- s; szero; c; szero];
         [szero; szero; szero; sone]]
        [[c; szero; - s; szero];
         [szero; sone; szero; szero];
         [s; szero; c; szero];
         [szero; szero; szero; sone]].
(** transform.rs:305-325 *)
Definition rotate_z (angle : T) : transform T :=
  let (s, c) := gsin_cos angle in
  t_new [[c; - s; szero; szero];
         [s; c; szero; szero];
         [szero; szero; sone; szero];
         [szero; szero; szero; sone]]
        [[c; s; szero; szero];
         [- s; c; szero; szero];
         [szero; szero; sone; szero];
         [szero; szero; szero; sone]].
(** transform.rs:329-356 *)
Definition rotate (v : vec T 3) (angle : T) : transform T :=
  let u := normalize v in
  let x := vec3 sone szero szero in
  let y := vec3 szero sone szero in
  let z := vec3 szero szero sone in
  let (s, c) := gsin_cos angle in
  let rotated e := v_add (v_add (v_scale e c) (v_scale (v_scale u (sone - c)) (dot u e))) (v_scale (cross u e) s) in
  let x_rotated := rotated x in
  let y_rotated := rotated y in
  let z_rotated := rotated z in
  let mat :=
    [[vx x_rotated; vx y_rotated; vx z_rotated; szero];
     [vy x_rotated; vy y_rotated; vy z_rotated; szero];
     [vz x_rotated; vz y_rotated; vz z_rotated; szero];
     [szero; szero; szero; sone]] in
  t_new mat (transpose mat).
(** transform.rs:366-375 *)
Definition look_at (pos target up : vec T 3) : transform T :=
  let up_u := normalize up in
  let z_u := normalize (p_sub_p pos target) in
  let x_u := normalize (cross up_u z_u) in
  let y_u := cross z_u x_u in
  init_from_orthogonal_basis pos x_u y_u z_u.
(** transform.rs:397-413 *)
Definition perspective (fov near far : T) : transform T :=
  let e := recip (gtan (fov * half)) in
  let mat :=
    [[- e; szero; szero; szero];
     [szero; - e; szero; szero];
     [szero; szero; far / (far - near); far * near / (far - near)];
     [szero; szero; sone; szero]] in
  t_new mat (m_inverse mat).
(** transform.rs:415-421 *)
Definition t_matrix (t : transform T) : matrix T := tm t.
Definition t_inverse_matrix (t : transform T) : matrix T := tminv t.
(** transform.rs:446-452 *)
Definition t_mul (self rhs : transform T) : transform T :=
  t_new (m_mul (tm self) (tm rhs)) (m_mul (tminv rhs) (tminv self)).
(** transform.rs:464-468 *)
Definition t_inverse (t : transform T) : transform T := t_new (tminv t) (tm t).
(** transform.rs:440-444 *)
Definition t_almost_eq `{AlmostEq T} (self other : transform T) : bool :=
  m_almost_eq (tm self) (tm other) && m_almost_eq (tminv self) (tminv other).
(** derived PartialEq, transform.rs:169 *)
Definition t_eqb (self other : transform T) : bool :=
  m_eqb (tm self) (tm other) && m_eqb (tminv self) (tminv other).
End Transform.

(** [U: Scalar + Mul<T> + Div<T> + Add<T>]: the mixed operators used when mapping objects
    over [U] by a matrix over [T].  [U = T] (plain) or [U = Interval<T>]. *)
Class Mixed (T U : Type) := { xmul : U -> T -> U; xadd : U -> T -> U }.
#[global] Instance mixed_same {T} `{Scalar T} : Mixed T T := {| xmul := smul; xadd := sadd |}.
#[global] Instance mixed_interval {T} `{GFloat T} : Mixed T (interval T) := {| xmul := i_mul_s; xadd := i_add_s |}.

Section Mapping.
Context {T U : Type} {S : Scalar U} {X : Mixed T U}.
Local Open Scope scalar_scope.
Local Infix "*." := xmul (at level 40, left associativity).
Local Infix "+." := xadd (at level 50, left associativity).

(** transform.rs:499-513; [assert_eq!(e, 0)] panics unless [e == 0] *)
Definition map_vector (m : matrix T) (v : vec U 3) : outcome (vec U 3) :=
  oassert ((vx v *. mget m i3 i0 + vy v *. mget m i3 i1 + vz v *. mget m i3 i2) == szero)
  (Ret (vec3
    (vx v *. mget m i0 i0 + vy v *. mget m i0 i1 + vz v *. mget m i0 i2)
    (vx v *. mget m i1 i0 + vy v *. mget m i1 i1 + vz v *. mget m i1 i2)
    (vx v *. mget m i2 i0 + vy v *. mget m i2 i1 + vz v *. mget m i2 i2))).

(** transform.rs:531-543; [assert!(w != 0)] *)
Definition map_point (m : matrix T) (p : vec U 3) : outcome (vec U 3) :=
  let w := (vx p *. mget m i3 i0 + vy p *. mget m i3 i1 + vz p *. mget m i3 i2) +. mget m i3 i3 in
  oassert (sne w szero)
  (Ret (vec3
    (((vx p *. mget m i0 i0 + vy p *. mget m i0 i1 + vz p *. mget m i0 i2) +. mget m i0 i3) / w)
    (((vx p *. mget m i1 i0 + vy p *. mget m i1 i1 + vz p *. mget m i1 i2) +. mget m i1 i3) / w)
    (((vx p *. mget m i2 i0 + vy p *. mget m i2 i1 + vz p *. mget m i2 i2) +. mget m i2 i3) / w))).

(** transform.rs:560-572, including the extra factor [n.z()] in the last term of each line *)
Definition map_normal (minv : matrix T) (n : vec U 3) : vec U 3 :=
  vec3
    (vx n *. mget minv i0 i0 + vy n *. mget minv i1 i0 + vz n *. mget minv i2 i0 * vz n)
    (vx n *. mget minv i0 i1 + vy n *. mget minv i1 i1 + vz n *. mget minv i2 i1 * vz n)
    (vx n *. mget minv i0 i2 + vy n *. mget minv i1 i2 + vz n *. mget minv i2 i2 * vz n).

(** [impl TransformMap<..> for Transform<T>]: transform.rs:483-497, 515-529, 545-559 *)
Definition t_map_vector (t : transform T) (v : vec U 3) := map_vector (tm t) v.
Definition t_map_vector_inverse (t : transform T) (v : vec U 3) := map_vector (tminv t) v.
Definition t_map_point (t : transform T) (p : vec U 3) := map_point (tm t) p.
Definition t_map_point_inverse (t : transform T) (p : vec U 3) := map_point (tminv t) p.
Definition t_map_normal (t : transform T) (n : vec U 3) := map_normal (tminv t) n.
Definition t_map_normal_inverse (t : transform T) (n : vec U 3) := map_normal (tm t) n.


End Mapping.

(** Ray<T>, /repo/src/geometry/ray.rs:11-25 *)
Record ray (T : Type) := mkRay { origin : vec T 3; direction : vec T 3; tmax : T }.
Arguments mkRay {T}. Arguments origin {T}. Arguments direction {T}. Arguments tmax {T}.

(** ray.rs:28-31 *)
Definition ray_eval {T} `{Scalar T} (r : ray T) (t : T) : vec T 3 :=
  p_add_v (origin r) (v_scale (direction r) t).

Section RayMap.
Context {T U : Type} {S : Scalar U} {X : Mixed T U}.
(** ray.rs:44-47 *)
Definition t_map_ray (t : transform T) (r : ray U) : outcome (ray U) :=
  let! o := t_map_point t (origin r) in
  let! d := t_map_vector t (direction r) in
  Ret (mkRay o d (tmax r)).
(** ray.rs:49-56 *)
Definition t_map_ray_inverse (t : transform T) (r : ray U) : outcome (ray U) :=
  let! o := t_map_point_inverse t (origin r) in
  let! d := t_map_vector_inverse t (direction r) in
  Ret (mkRay o d (tmax r)).
End RayMap.
