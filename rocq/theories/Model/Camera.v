(** * /repo/src/cameras: camera.rs, thin_lens.rs  (Float generalised to [T], see Geometry.v) *)
From Coq Require Import ZArith Bool.
From Coq Require Vector Fin.
From Verif.Model Require Import FloatBase Scalar Interval Vec Transform Outcome.
Import Vector.VectorNotations.

(** camera.rs:9-14 *)
Record camera_sample (T : Type) := mkCS { p_film : vec T 2; p_lens : vec T 2 }.
Arguments mkCS {T}. Arguments p_film {T}. Arguments p_lens {T}.

(** thin_lens.rs:32-45 *)
Record thin_lens (T : Type) := mkTL {
  view : transform T; focal_distance : T; lens_radius : T; film_distance : T;
  film_width : T; film_height : T }.
Arguments mkTL {T}. Arguments view {T}. Arguments focal_distance {T}. Arguments lens_radius {T}.
Arguments film_distance {T}. Arguments film_width {T}. Arguments film_height {T}.

Section Camera.
Context {T : Type} {G : GFloat T} {N : Native T}.
Local Open Scope scalar_scope.

(** the literal 2.0 *)
Definition lit2_f64 : float F64 := f_of_Z 2.
Definition lit2_f32 : float F32 := f_of_Z 2.

(** camera.rs:70-75 *)
Definition uniform_sample_disk (p : vec T 2) : vec T 2 :=
  let r := gsqrt (vy p) in
  let theta := from_f64 lit2_f64 * pi * vx p in
  let (s, c) := gsin_cos theta in
  vec2 (r * c) (r * s).

(** camera.rs:101-116 *)
Definition concentric_sample_disk (p : vec T 2) : vec T 2 :=
  let x := sone - from_f32 lit2_f32 * vx p in
  let y := sone - from_f32 lit2_f32 * vy p in
  if is_zero x && is_zero y then vec2 szero szero
  else
    let (r, theta) :=
      if nabs x > nabs y then (x, frac_pi_4 * y / x)
      else (y, frac_pi_2 - (x / y) * frac_pi_4) in
    vec2 (r * gcos theta) (r * gsin theta).

(** thin_lens.rs:48-70 *)
Definition thin_lens_new (view_ : transform T) (focal_distance_ fov focal_length lens_radius_ aspect_ratio : T)
  : thin_lens T :=
  let film_distance_ := focal_distance_ * focal_length / (focal_distance_ - focal_length) in
  let film_width_ := half * gtan (fov * half) * film_distance_ in
  let film_height_ := film_width_ / aspect_ratio in
  mkTL view_ focal_distance_ lens_radius_ film_distance_ film_width_ film_height_.

(** thin_lens.rs:74-107 *)
Definition generate_ray (self : thin_lens T) (sample : camera_sample T) : outcome (ray T) :=
  let p_lens_xy := v_scale (concentric_sample_disk (p_lens sample)) (lens_radius self) in
  let p_lens_ := vec3 (vx p_lens_xy) (vy p_lens_xy) szero in
  let p_film_ := vec3
    (half * film_width self - vx (p_film sample) * film_width self)
    (half * film_height self - vy (p_film sample) * film_height self)
    (film_distance self) in
  let film_to_lens := mkRay p_film_ (p_sub_p (vec3 szero szero szero) p_film_) szero in
  let t := (- focal_distance self) / vz (direction film_to_lens) in
  let p_at_focal_plane := ray_eval film_to_lens t in
  t_map_ray_inverse (view self)
    (mkRay p_lens_ (normalize (p_sub_p p_at_focal_plane p_lens_)) shighest).
End Camera.
