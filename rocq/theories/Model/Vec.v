(** * /repo/src/math/vector.rs, vector_traits.rs, vectori.rs

    [GenericVector<T, N, U>] wraps [T; N] (vector.rs:49-53); the marker [U]
    (vector/point/normal) is a phantom type which only selects which operators exist, so it
    is erased here: vectors, points and normals are all [vec T n].  A loop
    [for i in 0..N { vec[i] = f(vec[i], rhs[i]) }] is [Vector.map2 f].
    The [*_assign] operators (vector.rs:256-298) have the same loop bodies as [+] and [-]. *)
From Coq Require Import ZArith Bool.
From Coq Require Vector Fin.
From Verif.Model Require Import FloatBase Scalar Interval.
Import Vector.VectorNotations.

Definition vec (T : Type) (n : nat) : Type := Vector.t T n.

(** [new], vector.rs:56-62, 65-68, 79-82 *)
Definition vec2 {T} (x y : T) : vec T 2 := [x; y].
Definition vec3 {T} (x y z : T) : vec T 3 := [x; y; z].
Definition vec4 {T} (x y z w : T) : vec T 4 := [x; y; z; w].

(** [Index], vector.rs:308-315 ([idx] out of range panics; the type rules it out here). *)
Definition vget {T n} (v : vec T n) (i : Fin.t n) : T := Vector.nth v i.
(** [x() .. w()], vector.rs:86-108.  The [debug_assert!(N > k)] are enforced by the types. *)
Definition vx {T n} (v : vec T (S n)) : T := vget v Fin.F1.
Definition vy {T n} (v : vec T (S (S n))) : T := vget v (Fin.FS Fin.F1).
Definition vz {T n} (v : vec T (S (S (S n)))) : T := vget v (Fin.FS (Fin.FS Fin.F1)).
Definition vw {T n} (v : vec T (S (S (S (S n))))) : T := vget v (Fin.FS (Fin.FS (Fin.FS Fin.F1))).

Section Vec.
Context {T : Type} {S : Scalar T}.
Local Open Scope scalar_scope.

(** vector.rs:134-144: the trait's [min] (T is a type parameter) *)
Definition v_min {n} (self rhs : vec T n) : vec T n := Vector.map2 smin self rhs.
(** vector.rs:146-156 *)
Definition v_max {n} (self rhs : vec T n) : vec T n := Vector.map2 smax self rhs.
(** vector.rs:159-165 *)
Definition v_default {n} : vec T n := Vector.const szero n.
(** vector.rs:174-178: equality of arrays is elementwise [==] *)
Definition v_eqb {n} (self other : vec T n) : bool :=
  Vector.fold_left2 (fun acc a b => acc && (a == b)) true self other.
(** vector.rs:202-218 *)
Definition v_add {n} (self rhs : vec T n) : vec T n := Vector.map2 sadd self rhs.
(** vector.rs:220-236 *)
Definition v_mul {n} (self rhs : vec T n) : vec T n := Vector.map2 smul self rhs.
(** vector.rs:238-254 *)
Definition v_div {n} (self rhs : vec T n) : vec T n := Vector.map2 sdiv self rhs.
(** vector.rs:267-287 *)
Definition v_sub {n} (self rhs : vec T n) : vec T n := Vector.map2 ssub self rhs.
(** vector.rs:324-340 *)
Definition v_scale {n} (self : vec T n) (rhs : T) : vec T n := Vector.map (fun x => x * rhs) self.
(** vector.rs:342-358 *)
Definition v_divs {n} (self : vec T n) (rhs : T) : vec T n := Vector.map (fun x => x / rhs) self.
(** vector.rs:70-76 *)
Definition cross (self v : vec T 3) : vec T 3 :=
  vec3 (vy self * vz v - vz self * vy v)
       (vz self * vx v - vx self * vz v)
       (vx self * vy v - vy self * vx v).

(** Point/vector operators, vector.rs:410-441; the [From] conversions only change the marker. *)
Definition p_sub_p {n} (self rhs : vec T n) : vec T n := v_sub self rhs.   (* :410-417 *)
Definition v_add_p {n} (self rhs : vec T n) : vec T n := v_add self rhs.   (* :418-425 *)
Definition p_add_v {n} (self rhs : vec T n) : vec T n := v_add self rhs.   (* :426-433 *)
Definition p_sub_v {n} (self rhs : vec T n) : vec T n := p_sub_p self rhs. (* :434-441 *)
End Vec.

(** vector.rs:180-189 (the early [return false] leaves the loop with the same answer) *)
Definition v_almost_eq {T} `{AlmostEq T} {n} (self other : vec T n) : bool :=
  Vector.fold_left2 (fun acc a b => acc && almost_eq a b) true self other.

Section SignedVec.
Context {T : Type} {S : SignedScalar T}.
Local Open Scope scalar_scope.

(** vector.rs:191-200 *)
Definition v_neg {n} (self : vec T n) : vec T n := Vector.map sneg self.
(** vector.rs:360-371 *)
Definition dot {n} (self rhs : vec T n) : T :=
  Vector.fold_left2 (fun res a b => res + a * b) szero self rhs.
(** vector.rs:443-452: [square()] of each component, not [x * x] (they differ on intervals) *)
Definition square_norm {n} (self : vec T n) : T :=
  Vector.fold_left (fun res a => res + ssquare a) szero self.
(** vector_traits.rs:55-61 *)
Definition square_distance {n} (self v : vec T n) : T := square_norm (v_sub self v).
End SignedVec.

Section GFloatVec.
Context {T : Type} {G : GFloat T}.
(** vector_traits.rs:47-53 *)
Definition norm {n} (self : vec T n) : T := gsqrt (square_norm self).
(** vector_traits.rs:63-70 *)
Definition distance {n} (self v : vec T n) : T := gsqrt (square_distance self v).
(** vector_traits.rs:72-79 *)
Definition normalize {n} (self : vec T n) : vec T n := v_divs self (norm self).

(** vectori.rs:11-39 *)
Definition vi_mul_s {n} (self : vec (interval T) n) (rhs : T) : vec (interval T) n :=
  Vector.map (fun x => i_mul_s x rhs) self.
Definition vi_div_s {n} (self : vec (interval T) n) (rhs : T) : vec (interval T) n :=
  Vector.map (fun x => i_div_s x rhs) self.
Definition vi_from {n} (rhs : vec T n) : vec (interval T) n := Vector.map i_from rhs.
Definition v_approx {n} (rhs : vec (interval T) n) : vec T n := Vector.map i_approx rhs.
End GFloatVec.
