(** * Specification vocabulary for vectors, matrices, boxes, spheres: plain real mathematics.

    Nothing here mentions the functions of the model; only the *data* of the model
    (numbers, vectors, matrices, rays, ...) is related to real mathematical objects. *)
From Coq Require Import ZArith Reals Bool List.
From Coq Require Vector Fin.
From Flocq Require Import Core BinarySingleNaN.
From Verif.Model Require Import FloatBase Interval XReal Vec Transform Outcome.
From Verif Require Import Spec.
Open Scope R_scope.

(** the exact-arithmetic number [x] is the real number [r] (not an infinity, not NaN) *)
Definition isR (x : xr) (r : R) : Prop := exists s, x = XFin r s.
(** the exact-arithmetic number [x] is some real number *)
Definition isreal (x : xr) : Prop := exists r, isR x r.

(** ** Real vectors of any dimension *)
Definition rvec (n : nat) := Fin.t n -> R.
Fixpoint rsum {n : nat} : (Fin.t n -> R) -> R :=
  match n with
  | O => fun _ => 0
  | S m => fun g => g Fin.F1 + rsum (fun i => g (Fin.FS i))
  end.
Definition rdot {n} (a b : rvec n) : R := rsum (fun i => a i * b i).
Definition rlen {n} (a : rvec n) : R := sqrt (rdot a a).
(** the vector [v] has the real components [a] *)
Definition isV {n} (v : vec xr n) (a : rvec n) : Prop := forall i, isR (Vector.nth v i) (a i).
(** all components of [v] are real numbers *)
Definition realv {n} (v : vec xr n) : Prop := forall i, isreal (Vector.nth v i).

(** ** Three-dimensional real vectors *)
Record R3 := mk3 { cX : R; cY : R; cZ : R }.
Definition is3 (v : vec xr 3) (a : R3) : Prop :=
  isR (Vector.nth v Fin.F1) (cX a) /\
  isR (Vector.nth v (Fin.FS Fin.F1)) (cY a) /\
  isR (Vector.nth v (Fin.FS (Fin.FS Fin.F1))) (cZ a).
Definition add3 (a b : R3) := mk3 (cX a + cX b) (cY a + cY b) (cZ a + cZ b).
Definition sub3 (a b : R3) := mk3 (cX a - cX b) (cY a - cY b) (cZ a - cZ b).
Definition scl3 (k : R) (a : R3) := mk3 (k * cX a) (k * cY a) (k * cZ a).
Definition dot3 (a b : R3) : R := cX a * cX b + cY a * cY b + cZ a * cZ b.
Definition cross3 (a b : R3) : R3 :=
  mk3 (cY a * cZ b - cZ a * cY b) (cZ a * cX b - cX a * cZ b) (cX a * cY b - cY a * cX b).
Definition len3 (a : R3) : R := sqrt (dot3 a a).
Definition zero3 : R3 := mk3 0 0 0.

(** ** Real 4x4 matrices *)
Definition rmat := Fin.t 4 -> Fin.t 4 -> R.
(** every entry of [m] is the real number given by [A] *)
Definition isM (m : matrix xr) (A : rmat) : Prop :=
  forall i j, isR (Vector.nth (Vector.nth m i) j) (A i j).
Definition realm (m : matrix xr) : Prop := forall i j, isreal (Vector.nth (Vector.nth m i) j).
(** the same real entries *)
Definition same_values (m n : matrix xr) : Prop := exists A, isM m A /\ isM n A.
Definition rid : rmat := fun i j => if Fin.eqb i j then 1 else 0.
Definition rmul (A B : rmat) : rmat := fun i j => rsum (fun k => A i k * B k j).
Definition rtransp (A : rmat) : rmat := fun i j => A j i.
Definition rscale (c : R) (A : rmat) : rmat := fun i j => c * A i j.
Definition meq (A B : rmat) : Prop := forall i j, A i j = B i j.

(** determinant, by Laplace expansion along the first row: [skip j k] is the [k]-th
    index different from [j] *)
Fixpoint skip {n : nat} : Fin.t (S n) -> Fin.t n -> Fin.t (S n) :=
  match n with
  | O => fun _ k => Fin.case0 (fun _ => Fin.t 1) k
  | S m => fun j k =>
      Fin.caseS' j (fun _ => Fin.t (S (S m))) (Fin.FS k)
        (fun j' => Fin.caseS' k (fun _ => Fin.t (S (S m))) Fin.F1 (fun k' => Fin.FS (skip j' k')))
  end.
Definition altsign {n} (j : Fin.t n) : R := if Nat.even (proj1_sig (Fin.to_nat j)) then 1 else -1.
Fixpoint rdet {n : nat} : (Fin.t n -> Fin.t n -> R) -> R :=
  match n with
  | O => fun _ => 1
  | S m => fun A => rsum (fun j => altsign j * A Fin.F1 j * rdet (fun i k => A (Fin.FS i) (skip j k)))
  end.

(** [t] carries mutually inverse matrices *)
Definition mutually_inverse (A B : rmat) : Prop := meq (rmul A B) rid /\ meq (rmul B A) rid.
(** bottom row (0, 0, 0, 1) *)
Definition affine (A : rmat) : Prop := A i3 i0 = 0 /\ A i3 i1 = 0 /\ A i3 i2 = 0 /\ A i3 i3 = 1.
(** the homogeneous coordinate of the image of the point [p] *)
Definition wcoord (A : rmat) (p : R3) : R := A i3 i0 * cX p + A i3 i1 * cY p + A i3 i2 * cZ p + A i3 i3.
(** the linear part applied to a vector, and the projective map applied to a point *)
Definition app_vec (A : rmat) (v : R3) : R3 :=
  mk3 (A i0 i0 * cX v + A i0 i1 * cY v + A i0 i2 * cZ v)
      (A i1 i0 * cX v + A i1 i1 * cY v + A i1 i2 * cZ v)
      (A i2 i0 * cX v + A i2 i1 * cY v + A i2 i2 * cZ v).
Definition app_pt (A : rmat) (p : R3) : R3 :=
  scl3 (/ wcoord A p) (add3 (app_vec A p) (mk3 (A i0 i3) (A i1 i3) (A i2 i3))).

(** ** Results of computations that may panic *)
Definition returns {A} (o : outcome A) (P : A -> Prop) : Prop := exists a, o = Ret a /\ P a.

(** ** Rays *)
Definition isRay (r : ray xr) (o d : R3) (tm : R) : Prop :=
  is3 (origin r) o /\ is3 (direction r) d /\ isR (tmax r) tm.
Definition at_ray (o d : R3) (t : R) : R3 := add3 o (scl3 t d).

(** ** What a transform does, observed through [map] / [map_inverse] *)
Definition maps_vec (t : transform xr) (a b : R3) : Prop :=
  forall v, is3 v a -> returns (t_map_vector t v) (fun w => is3 w b).
Definition maps_pt (t : transform xr) (a b : R3) : Prop :=
  forall v, is3 v a -> returns (t_map_point t v) (fun w => is3 w b).
Definition unmaps_vec (t : transform xr) (a b : R3) : Prop :=
  forall v, is3 v a -> returns (t_map_vector_inverse t v) (fun w => is3 w b).
Definition unmaps_pt (t : transform xr) (a b : R3) : Prop :=
  forall v, is3 v a -> returns (t_map_point_inverse t v) (fun w => is3 w b).
(** [t] holds the real matrices [A] (matrix()) and [B] (inverse_matrix()) *)
Definition isT (t : transform xr) (A B : rmat) : Prop := isM (t_matrix t) A /\ isM (t_inverse_matrix t) B.

(** The transforms a program can build from the public constructors, [*] and [inverse()],
    with valid arguments. *)
Inductive built : transform xr -> Prop :=
| built_identity : built t_identity
| built_translate : forall v a, is3 v a -> built (translate v)
| built_scale : forall v a, is3 v a -> cX a <> 0 -> cY a <> 0 -> cZ a <> 0 -> built (scale v)
| built_rotate_x : forall x a, isR x a -> built (rotate_x x)
| built_rotate_y : forall x a, isR x a -> built (rotate_y x)
| built_rotate_z : forall x a, isR x a -> built (rotate_z x)
| built_rotate : forall v k x a, is3 v k -> k <> zero3 -> isR x a -> built (rotate v x)
| built_look_at : forall p t u a b c, is3 p a -> is3 t b -> is3 u c ->
    cross3 c (sub3 a b) <> zero3 -> built (look_at p t u)
| built_perspective : forall fov near far a n f, isR fov a -> isR near n -> isR far f ->
    sin (a / 2) <> 0 -> cos (a / 2) <> 0 -> n <> 0 -> f <> 0 -> n <> f -> built (perspective fov near far)
| built_mul : forall t u, built t -> built u -> built (t_mul t u)
| built_inverse : forall t, built t -> built (t_inverse t).
(** ... without [perspective] *)
Inductive built_affine : transform xr -> Prop :=
| ba_identity : built_affine t_identity
| ba_translate : forall v a, is3 v a -> built_affine (translate v)
| ba_scale : forall v a, is3 v a -> cX a <> 0 -> cY a <> 0 -> cZ a <> 0 -> built_affine (scale v)
| ba_rotate_x : forall x a, isR x a -> built_affine (rotate_x x)
| ba_rotate_y : forall x a, isR x a -> built_affine (rotate_y x)
| ba_rotate_z : forall x a, isR x a -> built_affine (rotate_z x)
| ba_rotate : forall v k x a, is3 v k -> k <> zero3 -> isR x a -> built_affine (rotate v x)
| ba_look_at : forall p t u a b c, is3 p a -> is3 t b -> is3 u c ->
    cross3 c (sub3 a b) <> zero3 -> built_affine (look_at p t u)
| ba_mul : forall t u, built_affine t -> built_affine u -> built_affine (t_mul t u)
| ba_inverse : forall t, built_affine t -> built_affine (t_inverse t).

(** ** Floating-point and interval data *)
Section FloatData.
Context {f : fmt}.
(** every entry of the float matrix [m] is finite, with the real value given by [A] *)
Definition fM (m : matrix (float f)) (A : rmat) : Prop :=
  forall i j, finite (Vector.nth (Vector.nth m i) j) /\ B2R (Vector.nth (Vector.nth m i) j) = A i j.
Definition fall {n} (P : float f -> Prop) (v : vec (float f) n) : Prop := forall i, P (Vector.nth v i).
(** the same values in every component *)
Definition feqv {n} (v w : vec (float f) n) : Prop := forall i, feq (Vector.nth v i) (Vector.nth w i).
(** the same value, or both NaN *)
Definition fsame (x y : float f) : Prop := feq x y \/ (BinarySingleNaN.is_nan x = true /\ BinarySingleNaN.is_nan y = true).
(** the real values of a float vector *)
Definition fvals {n} (v : vec (float f) n) : rvec n := fun i => B2R (Vector.nth v i).
(** the real point [a] is enclosed by the interval point [p] *)
Definition mem3 (a : R3) (p : vec (interval (float f)) 3) : Prop :=
  mem (cX a) (Vector.nth p Fin.F1) /\
  mem (cY a) (Vector.nth p (Fin.FS Fin.F1)) /\
  mem (cZ a) (Vector.nth p (Fin.FS (Fin.FS Fin.F1))).
(** the real vector [a] is enclosed by the interval vector [v] *)
Definition memv {n} (a : rvec n) (v : vec (interval (float f)) n) : Prop := forall i, mem (a i) (Vector.nth v i).
Definition bounded3 (p : vec (interval (float f)) 3) : Prop := forall i, bounded (Vector.nth p i).
Definition ordered3 (p : vec (interval (float f)) 3) : Prop := forall i, ordered (Vector.nth p i).
End FloatData.

(** half the distance from 1 to the next float *)
Definition unit_roundoff (f : fmt) : R := bpow radix2 (- prec f).
(** the smallest positive float *)
Definition smallest_float (f : fmt) : R := bpow radix2 (3 - emax f - prec f).
