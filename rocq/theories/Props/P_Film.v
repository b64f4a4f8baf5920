(** * C95: the film of the thin lens camera in f32/f64, from the constructor's arguments.

    [usual_size x] (SpecLens.v): 1/1024 <= |x| <= 2^20.  [usual_fov a] (SpecPersp.v): 1/1024 <= a < PI
    and tan (a/2) <= 1024.  [good_tan m]: the platform's tan is accurate to one unit in the last place.
    [within_rel k x r]: |x - r| <= k |r|. *)
From Coq Require Import ZArith Reals.
From Flocq Require Import Core BinarySingleNaN.
From Verif.Model Require Import FloatBase Float Vec Transform Camera.
From Verif Require Import Spec SpecGeom SpecShape SpecTrig SpecError SpecQuad SpecPersp SpecLens.
From Verif.Proofs Require Import PerspFloat FilmFloat IntervalTrig2.
Open Scope R_scope.

(** The film width and height are those of exact arithmetic, W = tan(fov/2) D / 2 and W / aspect with
    D = fd fl / (fd - fl), to within 8 and 9 roundings.  The stored sizes also keep the shape of the
    film: width over film distance is tan(fov/2)/2 to within 5 roundings, width over height the aspect
    ratio to within 2. *)
Theorem C95_film_size : forall (f : fmt) (m : libm f) (view_ : transform (float f)) (fd fov fl lr ar : float f),
  good_tan m -> usual_fov fov -> usual_size fd -> usual_size fl -> usual_size ar ->
  / 1024 <= Rabs (B2R fd - B2R fl) ->
  let u := unit_roundoff f in
  let c := thin_lens_new view_ fd fov fl lr ar in
  let t := tan (B2R fov / 2) in
  let D := B2R fd * B2R fl / (B2R fd - B2R fl) in
  let W := 1 / 2 * t * D in
  finite (film_width c) /\ within_rel (8 * u) (B2R (film_width c)) W /\
  finite (film_height c) /\ within_rel (9 * u) (B2R (film_height c)) (W / B2R ar) /\
  within_rel (5 * u) (B2R (film_width c) / B2R (film_distance c)) (t / 2) /\
  within_rel (2 * u) (B2R (film_width c) / B2R (film_height c)) (B2R ar).
Proof. exact @film_size. Qed.
Print Assumptions C95_film_size.
(** When those exact sizes are moderate and the film is not on the plane of focus, the camera built
    meets the conditions under which C81_rays describes every ray it generates. *)
Theorem C95_usual_lens : forall (f : fmt) (m : libm f) (view_ : transform (float f)) (fd fov fl lr ar : float f),
  good_tan m -> usual_fov fov -> usual_size fd -> usual_size fl -> usual_size ar ->
  / 1024 <= Rabs (B2R fd - B2R fl) -> finite lr -> Rabs (B2R lr) <= 1048576 ->
  let t := tan (B2R fov / 2) in
  let D := B2R fd * B2R fl / (B2R fd - B2R fl) in
  let W := 1 / 2 * t * D in
  / 1000 <= Rabs D <= 1000000 -> / 1000 <= Rabs W <= 1000000 -> / 1000 <= Rabs (W / B2R ar) <= 1000000 ->
  / 500000 * (Rabs D + Rabs (B2R fd)) <= Rabs (D - B2R fd) ->
  usual_lens (thin_lens_new view_ fd fov fl lr ar).
Proof. exact @built_usual. Qed.
Print Assumptions C95_usual_lens.
(** focus at 3, focal length 2, a field of view of one radian, lens radius 1, aspect ratio 2 *)
Example C95_case : forall f, let m := exact_libm f in good_tan m /\
  exists fd fov fl lr ar : float f, B2R fd = 3 /\ B2R fov = 1 /\ B2R fl = 2 /\ B2R lr = 1 /\ B2R ar = 2 /\
  usual_fov fov /\ usual_size fd /\ usual_size fl /\ usual_size ar /\ / 1024 <= Rabs (B2R fd - B2R fl) /\
  finite lr /\ Rabs (B2R lr) <= 1048576 /\
  let D := B2R fd * B2R fl / (B2R fd - B2R fl) in let W := 1 / 2 * tan (B2R fov / 2) * D in
  / 1000 <= Rabs D <= 1000000 /\ / 1000 <= Rabs W <= 1000000 /\ / 1000 <= Rabs (W / B2R ar) <= 1000000 /\
  / 500000 * (Rabs D + Rabs (B2R fd)) <= Rabs (D - B2R fd).
Proof. exact film_sample. Qed.
