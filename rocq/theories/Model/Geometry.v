(** * /repo/src/geometry: bbox.rs, sphere.rs, primitive.rs

    This code is written for the concrete type [Float = f32]; here it is parameterised by
    the scalar type [T] so that it can be read at f32 ([float F32]), at f64 and in exact
    arithmetic ([xr]).  On a concrete float, [min], [max], [abs], [clamp] are the inherent std
    methods ([Native] class, [nmin] etc.); [square], [min_max], [in_range],
    [is_nonnegative], [highest], ... are the crate's trait methods. *)
From Coq Require Import ZArith Bool List.
From Coq Require Vector Fin.
From Verif.Model Require Import FloatBase Scalar Interval Vec Transform Outcome.
Import Vector.VectorNotations.

(** bbox.rs:13-17 *)
Record bbox (T : Type) := mkB { pmin : vec T 3; pmax : vec T 3 }.
Arguments mkB {T}. Arguments pmin {T}. Arguments pmax {T}.

(** primitive.rs:12-19 *)
Record surface_interaction (T : Type) := mkSI {
  si_p : vec T 3; si_n : vec T 3; si_uv : vec T 2; si_dpdu : vec T 3; si_dpdv : vec T 3 }.
Arguments mkSI {T}. Arguments si_p {T}. Arguments si_n {T}. Arguments si_uv {T}.
Arguments si_dpdu {T}. Arguments si_dpdv {T}.
(** primitive.rs:21-25 *)
Record hit (T : Type) := mkHit { h_si : surface_interaction T; t_ray : T }.
Arguments mkHit {T}. Arguments h_si {T}. Arguments t_ray {T}.

(** sphere.rs:22-30 *)
Record sphere (T : Type) := mkS {
  radius : T; z_min : T; z_max : T; theta_min : T; theta_max : T; phi_max : T }.
Arguments mkS {T}. Arguments radius {T}. Arguments z_min {T}. Arguments z_max {T}.
Arguments theta_min {T}. Arguments theta_max {T}. Arguments phi_max {T}.
(** sphere.rs:32-37 *)
Record sphere_params (T : Type) := mkSP { sp_t : T; sp_p : vec T 3; sp_phi : T }.
Arguments mkSP {T}. Arguments sp_t {T}. Arguments sp_p {T}. Arguments sp_phi {T}.

Section Geometry.
Context {T : Type} {G : GFloat T} {N : Native T}.
Local Open Scope scalar_scope.

(** ** bbox.rs *)
(** Bounded3 accessors of a box: primitive.rs:30-47 with bbox.rs:113-117 *)
Definition xmin (b : bbox T) : T := vx (pmin b).
Definition ymin (b : bbox T) : T := vy (pmin b).
Definition zmin (b : bbox T) : T := vz (pmin b).
Definition xmax (b : bbox T) : T := vx (pmax b).
Definition ymax (b : bbox T) : T := vy (pmax b).
Definition zmax (b : bbox T) : T := vz (pmax b).

(** bbox.rs:19-28 *)
Definition b_default : bbox T :=
  mkB (vec3 shighest shighest shighest) (vec3 slowest slowest slowest).
(** bbox.rs:31-36 *)
Definition b_new (p1 p2 : vec T 3) : bbox T :=
  mkB (vec3 (nmin (vx p1) (vx p2)) (nmin (vy p1) (vy p2)) (nmin (vz p1) (vz p2)))
      (vec3 (nmax (vx p1) (vx p2)) (nmax (vy p1) (vy p2)) (nmax (vz p1) (vz p2))).
(** bbox.rs:38-51 ([+] and [+=] on boxes call it, bbox.rs:119-131) *)
Definition b_union (self rhs : bbox T) : bbox T :=
  mkB (vec3 (nmin (xmin self) (xmin rhs)) (nmin (ymin self) (ymin rhs)) (nmin (zmin self) (zmin rhs)))
      (vec3 (nmax (xmax self) (xmax rhs)) (nmax (ymax self) (ymax rhs)) (nmax (zmax self) (zmax rhs))).
(** bbox.rs:53-66 *)
Definition b_intersect (self rhs : bbox T) : bbox T :=
  mkB (vec3 (nmax (xmin self) (xmin rhs)) (nmax (ymin self) (ymin rhs)) (nmax (zmin self) (zmin rhs)))
      (vec3 (nmin (xmax self) (xmax rhs)) (nmin (ymax self) (ymax rhs)) (nmin (zmax self) (zmax rhs))).
(** bbox.rs:68-75 *)
Definition b_overlaps (self rhs : bbox T) : bool :=
  (xmax self > xmin rhs) && (xmax rhs > xmin self) &&
  (ymax self > ymin rhs) && (ymax rhs > ymin self) &&
  (zmax self > zmin rhs) && (zmax rhs > zmin self).
(** bbox.rs:77-84 *)
Definition b_inside (self : bbox T) (p : vec T 3) : bool :=
  (vx p >= xmin self) && (vx p <= xmax self) &&
  (vy p >= ymin self) && (vy p <= ymax self) &&
  (vz p >= zmin self) && (vz p <= zmax self).
(** bbox.rs:86-88 *)
Definition b_diagonal (self : bbox T) : vec T 3 := p_sub_p (pmax self) (pmin self).
(** bbox.rs:90-92 *)
Definition b_center (self : bbox T) : vec T 3 := v_scale (v_add (pmax self) (pmin self)) half.
(** bbox.rs:94-110 *)
Definition b_max_extent (self : bbox T) : (T * T) * nat :=
  let x_extent := vx (pmax self) - vx (pmin self) in
  let y_extent := vy (pmax self) - vy (pmin self) in
  let z_extent := vz (pmax self) - vz (pmin self) in
  if x_extent > y_extent then
    if x_extent > z_extent then ((vx (pmin self), vx (pmax self)), 0%nat)
    else ((vz (pmin self), vz (pmax self)), 2%nat)
  else if y_extent > z_extent then ((vy (pmin self), vy (pmax self)), 1%nat)
  else ((vz (pmin self), vz (pmax self)), 2%nat).

(** bbox.rs:136-152.  [tmin.min(tmax)] is the componentwise trait min; the reductions
    over components are [f32::max]/[f32::min]. *)
Definition b_intersect_ray (self : bbox T) (r : ray T) : option (T * T) :=
  let tmin_ := v_div (p_sub_p (pmin self) (origin r)) (direction r) in
  let tmax_ := v_div (p_sub_p (pmax self) (origin r)) (direction r) in
  let t1 := v_min tmin_ tmax_ in
  let t2 := v_max tmin_ tmax_ in
  let tnear := nmax (nmax (vx t1) (vy t1)) (vz t1) in
  let tfar := nmin (nmin (vx t2) (vy t2)) (vz t2) in
  if (tnear > tmax r) || (tfar < szero) || (tnear > tfar) then None
  else Some (nmax tnear szero, nmin tfar (tmax r)).

(** bbox.rs:156-158 *)
Definition b_do_intersect (self : bbox T) (r : ray T) : bool :=
  match b_intersect_ray self r with Some _ => true | None => false end.

(** bbox.rs:175-180: index of the smallest distance ([min_distance_idx] starts at 0) *)
Definition closest_face (distances : list T) : nat :=
  List.fold_left (fun best i =>
    if nth i distances szero < nth best distances szero then i else best)
    (seq 1 5) 0%nat.

(** bbox.rs:160-270; the [match] has a panicking default arm *)
Definition b_hit (self : bbox T) (r : ray T) : outcome (option (hit T)) :=
  match b_intersect_ray self r with
  | None => Ret None
  | Some (t, _) =>
      let p := ray_eval r t in
      let distances :=
        (nabs (vx p - xmin self) :: nabs (vx p - xmax self) ::
         nabs (vy p - ymin self) :: nabs (vy p - ymax self) ::
         nabs (vz p - zmin self) :: nabs (vz p - zmax self) :: nil)%list in
      let uv := vec2 szero szero in
      let! si :=
        match closest_face distances with
        | 0%nat => Ret (mkSI (vec3 (xmin self) (vy p) (vz p)) (vec3 (- sone) szero szero) uv
                             (vec3 szero szero (- sone)) (vec3 szero sone szero))
        | 1%nat => Ret (mkSI (vec3 (xmax self) (vy p) (vz p)) (vec3 sone szero szero) uv
                             (vec3 szero szero sone) (vec3 szero sone szero))
        | 2%nat => Ret (mkSI (vec3 (vx p) (ymin self) (vz p)) (vec3 szero (- sone) szero) uv
                             (vec3 sone szero szero) (vec3 szero szero (- sone)))
        | 3%nat => Ret (mkSI (vec3 (vx p) (ymax self) (vz p)) (vec3 szero sone szero) uv
                             (vec3 sone szero szero) (vec3 szero szero sone))
        | 4%nat => Ret (mkSI (vec3 (vx p) (vy p) (zmin self)) (vec3 szero szero (- sone)) uv
                             (vec3 sone szero szero) (vec3 szero sone szero))
        | 5%nat => Ret (mkSI (vec3 (vx p) (vy p) (zmax self)) (vec3 szero szero sone) uv
                             (vec3 (- sone) szero szero) (vec3 szero sone szero))
        | _ => Panic
        end in
      Ret (Some (mkHit si t))
  end.

(** bbox.rs:286-314.  The inner statements accumulate into index [j] (not [i]); [pmin],
    [pmax] are arrays of length 4 of which the first three entries are used. *)
Definition upd {A n} (v : Vector.t A n) (i : Fin.t n) (f : A -> A) : Vector.t A n :=
  Vector.replace v i (f (Vector.nth v i)).
Definition lift34 (j : Fin.t 3) : Fin.t 4 := Fin.L_R 1 j.
Definition fin3 : list (Fin.t 3) := (Fin.F1 :: Fin.FS Fin.F1 :: Fin.FS (Fin.FS Fin.F1) :: nil)%list.
Definition map_bbox (m : matrix T) (b : bbox T) : bbox T :=
  let start := m_col m i3 in
  let step := fun (acc : Vector.t T 4 * Vector.t T 4) (ij : Fin.t 3 * Fin.t 3) =>
    let (i, j) := ij in
    let a := mget m (lift34 i) (lift34 j) * vget (pmin b) j in
    let b' := mget m (lift34 i) (lift34 j) * vget (pmax b) j in
    if a < b'
    then (upd (fst acc) (lift34 j) (fun x => x + a), upd (snd acc) (lift34 j) (fun x => x + b'))
    else (upd (fst acc) (lift34 j) (fun x => x + b'), upd (snd acc) (lift34 j) (fun x => x + a)) in
  let r := List.fold_left step (list_prod fin3 fin3) (start, start) in
  b_new (vec3 (vx (fst r)) (vy (fst r)) (vz (fst r))) (vec3 (vx (snd r)) (vy (snd r)) (vz (snd r))).
(** bbox.rs:273-283 *)
Definition t_map_bbox (t : transform T) (b : bbox T) : bbox T := map_bbox (tm t) b.
Definition t_map_bbox_inverse (t : transform T) (b : bbox T) : bbox T := map_bbox (tminv t) b.

(** ** sphere.rs *)
(** sphere.rs:39-46 *)
Definition s_bbox (self : sphere T) : bbox T :=
  b_new (vec3 (- radius self) (- radius self) (z_min self))
        (vec3 (radius self) (radius self) (z_max self)).
(** sphere.rs:49-63 *)
Definition s_new (radius_ zmin_ zmax_ phimax_ : T) : outcome (sphere T) :=
  oassert (zmin_ < zmax_)
  (Ret (mkS radius_ zmin_ zmax_
     (gacos (native_clamp (zmin_ / radius_) szero sone))
     (gacos (native_clamp (zmax_ / radius_) szero sone))
     phimax_)).

(** sphere.rs:171-191 *)
Definition solve_quadratic (a b c : T) : option (T * T) :=
  let d := ssquare b - a * c * from_i64 4 in
  if is_nonnegative d then
    let sqrt_d := gsqrt d in
    if is_nonnegative b then
      Some (min_max ((- (b + sqrt_d)) * half / a) ((- (c + c)) / (b + sqrt_d)))
    else
      Some (min_max ((- b + sqrt_d) * half / a) ((c + c) / (- b + sqrt_d)))
  else None.

(** sphere.rs:81-105, the closure [get_intersection] *)
Definition s_get_intersection (self : sphere T) (r : ray T) (t : T) : option (sphere_params T) :=
  if negb (in_range t szero (tmax r)) then None
  else
    let hit_point := ray_eval r t in
    if negb (in_range (vz hit_point) (z_min self) (z_max self)) then None
    else
      let phi := gatan2 (vy hit_point) (vx hit_point) in
      if phi > phi_max self then None
      else Some (mkSP t hit_point phi).

(** sphere.rs:68-111 *)
Definition s_intersect_ray (self : sphere T) (r : ray T) : option (sphere_params T) :=
  let a := square_norm (direction r) in
  let b := dot (origin r) (direction r) * from_i64 2 in
  let c := square_norm (origin r) - ssquare (radius self) in
  match solve_quadratic a b c with
  | None => None
  | Some (t0, t1) =>
      match s_get_intersection self r t0 with
      | None => s_get_intersection self r t1
      | Some i => Some i
      end
  end.
(** sphere.rs:112-115 *)
Definition s_area (self : sphere T) : T := phi_max self * radius self * (z_max self - z_min self).

(** primitive.rs:51-59 *)
Definition si_new (p : vec T 3) (uv : vec T 2) (dpdu dpdv : vec T 3) : surface_interaction T :=
  mkSI p (normalize (cross dpdu dpdv)) uv dpdu dpdv.

(** sphere.rs:119-121 *)
Definition s_do_intersect (self : sphere T) (r : ray T) : bool :=
  match s_intersect_ray self r with Some _ => true | None => false end.
(** sphere.rs:122-167 *)
Definition s_hit (self : sphere T) (r : ray T) : option (hit T) :=
  match s_intersect_ray self r with
  | None => None
  | Some ip =>
      let p := sp_p ip in
      let phi := sp_phi ip in
      let theta := gacos (native_clamp (vz p / radius self) szero sone) in
      let sin_theta := gsin theta in
      let (sin_phi, cos_phi) := gsin_cos phi in
      let phi_max_plus_pi := phi_max self + pi in
      let theta_max_minus_theta_min := theta_max self - theta_min self in
      let u := (phi + pi) / phi_max_plus_pi in
      let v := (theta - theta_min self) / theta_max_minus_theta_min in
      let dpdu := v_scale (vec3 (- vy p) (vx p) szero) phi_max_plus_pi in
      let dpdv := v_scale (vec3 (vz p * cos_phi) (vz p * sin_phi) ((- radius self) * sin_theta))
                          theta_max_minus_theta_min in
      Some (mkHit (si_new p (vec2 u v) dpdu dpdv) (sp_t ip))
  end.

(** ** primitive.rs *)
(** The implementors of [Primitive] in the crate, plus [PCustom]: any implementation a
    user of the crate may supply ([dyn Primitive] is open); it is given by its three
    trait methods, assumed deterministic. *)
Inductive prim : Type :=
| PBox (b : bbox T)
| PSphere (s : sphere T)
| PTransformed (p : prim) (otow : transform T)   (* primitive.rs:80-101 *)
| PList (ps : list prim)                         (* primitive.rs:122-137 *)
| PCustom (c_bbox : bbox T) (c_do : ray T -> outcome bool) (c_hit : ray T -> outcome (option (hit T))).

(** [bbox]: primitive.rs:103-107 (transformed), 139-147 (list) *)
Fixpoint p_bbox (p : prim) : bbox T :=
  match p with
  | PBox b => b
  | PSphere s => s_bbox s
  | PTransformed q otow => t_map_bbox otow (p_bbox q)
  | PList ps => List.fold_left (fun acc q => b_union acc (p_bbox q)) ps b_default
  | PCustom b _ _ => b
  end.

(** [intersect]: primitive.rs:110-114 (transformed: the object-space result is returned
    unchanged), 150-160 (list: each member is tested with the *original* [ray]; the
    shortened [ray_mut] is never read, so it does not appear here) *)
Fixpoint p_intersect (p : prim) (r : ray T) {struct p} : outcome (option (hit T)) :=
  match p with
  | PBox b => b_hit b r
  | PSphere s => Ret (s_hit s r)
  | PTransformed q otow =>
      let! r' := t_map_ray_inverse otow r in
      p_intersect q r'
  | PList ps =>
      List.fold_left (fun acc q =>
        let! result := acc in
        let! h := p_intersect q r in
        match h with
        | Some x => Ret (Some x)
        | None => Ret result
        end) ps (Ret None)
  | PCustom _ _ h => h r
  end.

(** [do_intersect]: primitive.rs:116-119, 161-168 (stops at the first member that hits) *)
Fixpoint p_do_intersect (p : prim) (r : ray T) {struct p} : outcome bool :=
  match p with
  | PBox b => Ret (b_do_intersect b r)
  | PSphere s => Ret (s_do_intersect s r)
  | PTransformed q otow =>
      let! r' := t_map_ray_inverse otow r in
      p_do_intersect q r'
  | PList ps =>
      (fix go (l : list prim) : outcome bool :=
         match l with
         | nil => Ret false
         | (q :: l')%list => let! d := p_do_intersect q r in if d then Ret true else go l'
         end) ps
  | PCustom _ d _ => d r
  end.
End Geometry.
Arguments prim T : clear implicits.
