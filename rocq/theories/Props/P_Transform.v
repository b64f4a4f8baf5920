(** * Properties C31-C42: matrices, transforms and rays.

    "In exact arithmetic" means: the code run on [xr], IEEE-754 arithmetic without rounding
    (Model/XReal.v), so divisions by zero and NaNs still happen.  [isR x r], [is3 v a],
    [isM m A], [isT t A B], [isRay] read data as real numbers, vectors, matrices (SpecGeom.v).
    [returns o P]: no panic, and the result satisfies [P]. *)
From Coq Require Import ZArith Reals Bool Lra Lia.
From Coq Require Vector Fin.
From Flocq Require Import Core BinarySingleNaN.
From Verif.Model Require Import FloatBase Scalar Float Interval Outcome Vec Transform XReal Ints.
From Verif Require Import Spec SpecGeom SpecInt.
From Verif.Proofs Require Import FloatLemmas ScalarProofs IntervalRefute XRealLemmas MatrixProofs TransformProofs RotationProofs
  TransformThms TransformThms2 IntProofs TransformFloat MatrixThms TransformCases NormalExact.
Open Scope R_scope.
Notation entry m i j := (Vector.nth (Vector.nth m i) j) (only parsing).

(** ** C31 matrix algebra *)
Theorem C31_transpose_involutive : forall (T : Type) (d : matrix T),
  transpose (transpose d) = d /\ (forall i j, entry (transpose d) i j = entry d j i).
Proof. intros T d. exact (conj (transpose_invol d) (transpose_entry d)). Qed.
Print Assumptions C31_transpose_involutive.
Theorem C31_row_col_index_agree : forall (T : Type) (d : matrix T) i j,
  Vector.nth (m_row d i) j = entry d i j /\ Vector.nth (m_col d j) i = entry d i j /\
  Vector.nth (m_row_vec d i) j = entry d i j /\ Vector.nth (m_col_vec d j) i = entry d i j.
Proof. exact @row_col. Qed.
Print Assumptions C31_row_col_index_agree.
Theorem C31_scale_entrywise : forall (T : Type) (S : Scalar T) (d : matrix T) c i j,
  entry (m_scale d c) i j = (c * entry d i j)%S.
Proof. exact @scale_entry. Qed.
Print Assumptions C31_scale_entrywise.
Theorem C31_identity_zero_entries : forall (T : Type) (S : Scalar T) i j,
  entry (m_identity (T := T)) i j = (if Fin.eqb i j then sone else szero) /\ entry (m_zero (T := T)) i j = szero.
Proof. exact @id_zero_entry. Qed.
Print Assumptions C31_identity_zero_entries.
(** exact arithmetic *)
Theorem C31_product_exact : forall m n A B, isM m A -> isM n B -> isM (m_mul m n) (rmul A B).
Proof. exact isM_mul. Qed.
Print Assumptions C31_product_exact.
Theorem C31_assoc_exact : forall a b c : matrix xr, realm a -> realm b -> realm c ->
  same_values (m_mul (m_mul a b) c) (m_mul a (m_mul b c)).
Proof. exact assoc_exact. Qed.
Print Assumptions C31_assoc_exact.
Theorem C31_identity_exact : forall a : matrix xr, realm a ->
  same_values (m_mul m_identity a) a /\ same_values (m_mul a m_identity) a.
Proof. exact id_exact. Qed.
Print Assumptions C31_identity_exact.
Theorem C31_transpose_product_exact : forall a b : matrix xr, realm a -> realm b ->
  same_values (transpose (m_mul a b)) (m_mul (transpose b) (transpose a)).
Proof. exact transp_exact. Qed.
Print Assumptions C31_transpose_product_exact.
(** floats: bit-exact *)
Theorem C31_transpose_product_float : forall (f : fmt) (a b : matrix (float f)),
  transpose (m_mul a b) = m_mul (transpose b) (transpose a).
Proof. intros f a b. exact (transpose_mul a b (fmul_comm f)). Qed.
Print Assumptions C31_transpose_product_float.
Theorem C31_identity_float : forall (f : fmt) (m : libm f) (d : matrix (float f)) A, fM d A ->
  fM (m_mul m_identity d) A /\ fM (m_mul d m_identity) A.
Proof. exact id_float. Qed.
Print Assumptions C31_identity_float.
(** wrapping machine integers (release builds): bit-exact *)
Theorem C31_assoc_int : forall (t : ity) (x y z : matrix (mint Release t)) a b c,
  zmat x a -> zmat y b -> zmat z c -> m_mul (m_mul x y) z = m_mul x (m_mul y z).
Proof. exact @rmul_assoc_int. Qed.
Print Assumptions C31_assoc_int.
Theorem C31_identity_int : forall (t : ity) (x : matrix (mint Release t)) a, zmat x a ->
  m_mul m_identity x = x /\ m_mul x m_identity = x.
Proof. exact @id_int. Qed.
Print Assumptions C31_identity_int.
Theorem C31_transpose_product_int : forall (t : ity) (md : mode) (a b : matrix (mint md t)),
  transpose (m_mul a b) = m_mul (transpose b) (transpose a).
Proof. intros t md a b. exact (transpose_mul a b (imul_comm t md)). Qed.
Print Assumptions C31_transpose_product_int.
Example C31_case : realm sampleM /\ (exists A, fM sampleFM A) /\
  (forall t, exists a, zmat (sampleIM t) a).
Proof. exact C31_sample. Qed.

(** ** C32 inverse() *)
Theorem C32_inverse_two_sided : forall m A, isM m A -> rdet A <> 0 ->
  isM (m_mul m (m_inverse m)) rid /\ isM (m_mul (m_inverse m) m) rid.
Proof. exact inverse_two_sided. Qed.
Print Assumptions C32_inverse_two_sided.
Theorem C32_inverse_involutive : forall m A, isM m A -> rdet A <> 0 -> isM (m_inverse (m_inverse m)) A.
Proof. exact inverse_invol. Qed.
Print Assumptions C32_inverse_involutive.
Theorem C32_inverse_singular : forall m A i j, isM m A -> rdet A = 0 -> ~ isreal (entry (m_inverse m) i j).
Proof. exact inverse_sing. Qed.
Print Assumptions C32_inverse_singular.
Example C32_case : exists A, isM sampleM A /\ rdet A = 6.
Proof. exact C32_sample. Qed.

(** ** C33 every constructible transform carries its true inverse *)
Theorem C33_inverse_carried : forall t, built t -> exists A B, isT t A B /\ mutually_inverse A B.
Proof. exact built_inverse_pair. Qed.
Print Assumptions C33_inverse_carried.
Theorem C33_product_is_identity : forall t, built t ->
  isM (m_mul (t_matrix t) (t_inverse_matrix t)) rid /\ isM (m_mul (t_inverse_matrix t) (t_matrix t)) rid.
Proof. exact built_products. Qed.
Print Assumptions C33_product_is_identity.
Theorem C33_affine_stays_affine : forall t, built_affine t ->
  exists A B, isT t A B /\ mutually_inverse A B /\ affine A /\ affine B.
Proof. exact built_affine_pair. Qed.
Print Assumptions C33_affine_stays_affine.
Example C33_case : built sampleT /\ built_affine sampleTA.
Proof. exact C33_sample. Qed.

(** ** C34 composition and inversion of maps *)
Theorem C34_compose_points : forall t u A B C D p a, isT t A B -> isT u C D -> is3 p a ->
  wcoord C a <> 0 -> wcoord A (app_pt C a) <> 0 ->
  exists q r s b, t_map_point u p = Ret q /\ t_map_point t q = Ret r /\
    t_map_point (t_mul t u) p = Ret s /\ is3 r b /\ is3 s b.
Proof. exact compose_points. Qed.
Print Assumptions C34_compose_points.
Theorem C34_compose_vectors : forall t u A B C D v a, isT t A B -> isT u C D -> is3 v a -> affine A -> affine C ->
  exists q r s b, t_map_vector u v = Ret q /\ t_map_vector t q = Ret r /\
    t_map_vector (t_mul t u) v = Ret s /\ is3 r b /\ is3 s b.
Proof. exact compose_vectors. Qed.
Print Assumptions C34_compose_vectors.
Theorem C34_compose_affine : forall t u, built_affine t -> built_affine u -> forall x a, is3 x a ->
  (exists q r s b, t_map_point u x = Ret q /\ t_map_point t q = Ret r /\ t_map_point (t_mul t u) x = Ret s /\ is3 r b /\ is3 s b) /\
  (exists q r s b, t_map_vector u x = Ret q /\ t_map_vector t q = Ret r /\ t_map_vector (t_mul t u) x = Ret s /\ is3 r b /\ is3 s b).
Proof. exact compose_affine. Qed.
Print Assumptions C34_compose_affine.
Theorem C34_roundtrip_point : forall t A B p a, isT t A B -> mutually_inverse A B -> is3 p a -> wcoord A a <> 0 ->
  exists q r, t_map_point t p = Ret q /\ t_map_point_inverse t q = Ret r /\ is3 r a.
Proof. exact roundtrip_point. Qed.
Print Assumptions C34_roundtrip_point.
Theorem C34_roundtrip_vector : forall t A B v a, isT t A B -> mutually_inverse A B -> affine A -> is3 v a ->
  exists q r, t_map_vector t v = Ret q /\ t_map_vector_inverse t q = Ret r /\ is3 r a.
Proof. exact roundtrip_vector. Qed.
Print Assumptions C34_roundtrip_vector.
Theorem C34_roundtrip_affine : forall t, built_affine t -> forall x a, is3 x a ->
  (exists q r, t_map_point t x = Ret q /\ t_map_point_inverse t q = Ret r /\ is3 r a) /\
  (exists q r, t_map_point_inverse t x = Ret q /\ t_map_point t q = Ret r /\ is3 r a) /\
  (exists q r, t_map_vector t x = Ret q /\ t_map_vector_inverse t q = Ret r /\ is3 r a) /\
  (exists q r, t_map_vector_inverse t x = Ret q /\ t_map_vector t q = Ret r /\ is3 r a).
Proof. exact roundtrip_affine. Qed.
Print Assumptions C34_roundtrip_affine.
(** in any arithmetic, on points, vectors, normals and rays *)
Theorem C34_inverse_maps_inverse : forall (T U : Type) (S : Scalar U) (X : Mixed T U) (t : transform T) (x : vec U 3) (r : ray U),
  t_map_point (t_inverse t) x = t_map_point_inverse t x /\ t_map_point_inverse (t_inverse t) x = t_map_point t x /\
  t_map_vector (t_inverse t) x = t_map_vector_inverse t x /\ t_map_vector_inverse (t_inverse t) x = t_map_vector t x /\
  t_map_normal (t_inverse t) x = t_map_normal_inverse t x /\ t_map_normal_inverse (t_inverse t) x = t_map_normal t x /\
  t_map_ray (t_inverse t) r = t_map_ray_inverse t r /\ t_map_ray_inverse (t_inverse t) r = t_map_ray t r /\
  t_inverse (t_inverse t) = t.
Proof. exact @inverse_maps. Qed.
Print Assumptions C34_inverse_maps_inverse.
Example C34_case : exists A B, isT sampleTA A B /\ mutually_inverse A B /\ affine A /\ wcoord A (mk3 1 2 3) <> 0.
Proof. exact C34_sample. Qed.

(** ** C35 rotations *)
Theorem C35_rotate_rigid : forall v k x a, is3 v k -> k <> zero3 -> isR x a ->
  exists F : R3 -> R3,
    (forall b, maps_vec (rotate v x) b (F b)) /\
    (forall b c, dot3 (F b) (F c) = dot3 b c) /\
    (forall b c, cross3 (F b) (F c) = F (cross3 b c)) /\
    F k = k /\
    (forall b, dot3 b k = 0 ->
       F b = add3 (scl3 (cos a) b) (scl3 (sin a) (scl3 (/ len3 k) (cross3 k b)))).
Proof. exact rotate_rigid. Qed.
Print Assumptions C35_rotate_rigid.
Theorem C35_rotate_additive : forall v k x y a b, is3 v k -> k <> zero3 -> isR x a -> isR y b ->
  forall c d e, maps_vec (rotate v y) c d -> maps_vec (rotate v x) d e -> maps_vec (rotate v (x + y)%S) c e.
Proof. exact rotate_additive. Qed.
Print Assumptions C35_rotate_additive.
Theorem C35_rotate_axes : forall x a, isR x a -> forall b c,
  (maps_vec (rotate (vec3 sone szero szero) x) b c <-> maps_vec (rotate_x x) b c) /\
  (maps_vec (rotate (vec3 szero sone szero) x) b c <-> maps_vec (rotate_y x) b c) /\
  (maps_vec (rotate (vec3 szero szero sone) x) b c <-> maps_vec (rotate_z x) b c).
Proof. exact rotate_coords. Qed.
Print Assumptions C35_rotate_axes.
Theorem C35_rotate_axis_turns : forall x a, isR x a ->
  maps_vec (rotate_x x) (mk3 0 1 0) (mk3 0 (cos a) (sin a)) /\
  maps_vec (rotate_y x) (mk3 0 0 1) (mk3 (sin a) 0 (cos a)) /\
  maps_vec (rotate_z x) (mk3 1 0 0) (mk3 (cos a) (sin a) 0).
Proof. exact rotate_axis_turns. Qed.
Print Assumptions C35_rotate_axis_turns.
Example C35_case : is3 (xv 1 2 2) (mk3 1 2 2) /\ mk3 1 2 2 <> zero3 /\ isR (xn (PI / 3)) (PI / 3).
Proof. exact C35_sample. Qed.

(** ** C36 translate / scale in floats *)
Theorem C36_translate_point : forall (f : fmt) (m : libm f) (v p : vec (float f) 3), fall finite v -> fall finite p ->
  returns (t_map_point (translate v) p) (fun q => feqv q (v_add p v)) /\
  returns (t_map_point_inverse (translate v) p) (fun q => feqv q (v_sub p v)).
Proof. intros f m v p H K. exact (conj (translate_point v p H K) (translate_point_inv v p H K)). Qed.
Print Assumptions C36_translate_point.
Theorem C36_translate_vector : forall (f : fmt) (m : libm f) (v w : vec (float f) 3), fall finite w ->
  returns (t_map_vector (translate v) w) (fun q => feqv q w) /\
  returns (t_map_vector_inverse (translate v) w) (fun q => feqv q w).
Proof. intros f m. exact translate_vector. Qed.
Print Assumptions C36_translate_vector.
Theorem C36_scale : forall (f : fmt) (m : libm f) (s p : vec (float f) 3), fall finite s -> fall finite p ->
  returns (t_map_point (scale s) p) (fun q => feqv q (v_mul p s)) /\
  returns (t_map_vector (scale s) p) (fun q => feqv q (v_mul p s)).
Proof. intros f m. exact scale_map. Qed.
Print Assumptions C36_scale.
(** [map_inverse] multiplies by the rounded reciprocals, whenever those are finite *)
Theorem C36_scale_inverse : forall (f : fmt) (m : libm f) (s r p : vec (float f) 3), fall finite r -> fall finite p ->
  r = v_div (vec3 sone sone sone) s ->
  returns (t_map_point_inverse (scale s) p) (fun q => feqv q (v_mul p r)) /\
  returns (t_map_vector_inverse (scale s) p) (fun q => feqv q (v_mul p r)).
Proof. intros f m. exact scale_map_inv. Qed.
Print Assumptions C36_scale_inverse.
Theorem C36_identity : forall (f : fmt) (m : libm f) (p : vec (float f) 3), fall finite p ->
  returns (t_map_point t_identity p) (fun q => feqv q p) /\
  returns (t_map_vector t_identity p) (fun q => feqv q p).
Proof. intros f m. exact identity_map. Qed.
Print Assumptions C36_identity.
Example C36_case : forall f, fall finite (fv f 1 (-2) 3) /\ (forall i, B2R (Vector.nth (fv f 1 (-2) 3) i) <> 0) /\
  fall finite (v_div (vec3 sone sone sone) (fv f 1 (-2) 3)).
Proof. exact C36_sample. Qed.

(** ** C37 look_at *)
Theorem C37_look_at_frame : forall p t u a b c, is3 p a -> is3 t b -> is3 u c -> cross3 c (sub3 a b) <> zero3 ->
  exists X Y Z : R3,
    dot3 X X = 1 /\ dot3 Y Y = 1 /\ dot3 Z Z = 1 /\ dot3 X Y = 0 /\ dot3 Y Z = 0 /\ dot3 X Z = 0 /\
    cross3 X Y = Z /\
    Z = scl3 (/ len3 (sub3 a b)) (sub3 a b) /\
    Y = (let w := sub3 c (scl3 (dot3 c Z) Z) in scl3 (/ len3 w) w) /\
    (forall v, maps_vec (look_at p t u) v (mk3 (dot3 X v) (dot3 Y v) (dot3 Z v))) /\
    (forall q, maps_pt (look_at p t u) q (mk3 (dot3 X (sub3 q a)) (dot3 Y (sub3 q a)) (dot3 Z (sub3 q a)))) /\
    (forall k, unmaps_pt (look_at p t u) k (add3 a (add3 (scl3 (cX k) X) (add3 (scl3 (cY k) Y) (scl3 (cZ k) Z))))).
Proof. exact look_at_frame. Qed.
Print Assumptions C37_look_at_frame.
Theorem C37_look_at_points : forall p t u a b c, is3 p a -> is3 t b -> is3 u c -> cross3 c (sub3 a b) <> zero3 ->
  maps_pt (look_at p t u) a zero3 /\
  maps_pt (look_at p t u) b (mk3 0 0 (- len3 (sub3 b a))) /\
  unmaps_pt (look_at p t u) zero3 a.
Proof. exact look_at_points. Qed.
Print Assumptions C37_look_at_points.
Example C37_case : is3 (xv 1 2 3) (mk3 1 2 3) /\ cross3 (mk3 0 1 0) (sub3 (mk3 1 2 3) (mk3 0 0 0)) <> zero3.
Proof. exact C37_sample. Qed.

(** ** C38 perspective *)
Theorem C38_perspective_point : forall fov near far a n f x y z, isR fov a -> isR near n -> isR far f ->
  0 < n -> n < f -> 0 < a < PI -> z <> 0 ->
  maps_pt (perspective fov near far) (mk3 x y z)
    (mk3 (- x / (z * tan (a / 2))) (- y / (z * tan (a / 2))) (f * (z + n) / ((f - n) * z))).
Proof. exact persp_point. Qed.
Print Assumptions C38_perspective_point.
Theorem C38_perspective_frustum : forall fov near far a n f p, isR fov a -> isR near n -> isR far f ->
  0 < n -> n < f -> 0 < a < PI -> cZ p <> 0 ->
  exists q, maps_pt (perspective fov near far) p q /\
    ((-1 <= cX q <= 1 /\ -1 <= cY q <= 1 /\ 0 <= cZ q <= 1) <->
     (n <= - cZ p <= f /\ Rabs (cX p) <= - cZ p * tan (a / 2) /\ Rabs (cY p) <= - cZ p * tan (a / 2))).
Proof. exact persp_cube. Qed.
Print Assumptions C38_perspective_frustum.
Theorem C38_perspective_depth : forall fov near far a n f, isR fov a -> isR near n -> isR far f ->
  0 < n -> n < f -> 0 < a < PI ->
  exists depth : R -> R,
    (forall x y z, z <> 0 -> exists x' y', maps_pt (perspective fov near far) (mk3 x y z) (mk3 x' y' (depth (- z)))) /\
    depth n = 0 /\ depth f = 1 /\ (forall d d', 0 < d -> d < d' -> depth d < depth d').
Proof. exact persp_depth. Qed.
Print Assumptions C38_perspective_depth.
(** on the camera plane the map panics *)
Theorem C38_perspective_plane_panics : forall fov near far a n f v x y, isR fov a -> isR near n -> isR far f ->
  0 < n -> n < f -> 0 < a < PI -> is3 v (mk3 x y 0) -> t_map_point (perspective fov near far) v = Panic.
Proof. exact persp_point_panics. Qed.
Print Assumptions C38_perspective_plane_panics.
Example C38_case : isR (xn (PI / 3)) (PI / 3) /\ 0 < PI / 3 < PI /\ isR (xn 1) 1 /\ isR (xn 100) 100.
Proof. exact C38_sample. Qed.

(** ** C39 normals *)
Definition C39_normals_perpendicular : Prop := forall t A B n c v a,
  isT t A B -> mutually_inverse A B -> affine A -> is3 n c -> is3 v a -> dot3 c a = 0 ->
  returns (t_map_vector t v) (fun v' => exists m b, is3 (t_map_normal t n) m /\ is3 v' b /\ dot3 m b = 0).
(** It fails: the last product of every line of the code has an extra factor n.z. *)
Theorem C39_normals_perpendicular_refuted : ~ C39_normals_perpendicular.
Proof. exact normals_refuted. Qed.
Print Assumptions C39_normals_perpendicular_refuted.
(** Missing: normals with n.z other than 0 or 1. *)
Theorem C39_normals_perpendicular_partial : forall t A B n c v a, isT t A B -> mutually_inverse A B -> affine A ->
  is3 n c -> is3 v a -> (cZ c = 0 \/ cZ c = 1) ->
  returns (t_map_vector t v) (fun v' => exists m b, is3 (t_map_normal t n) m /\ is3 v' b /\ dot3 m b = dot3 c a).
Proof. exact normal_perp_partial. Qed.
Print Assumptions C39_normals_perpendicular_partial.
(** what the code does: it maps (n.x, n.y, n.z^2) in place of n *)
Theorem C39_actual : forall t A B n c v a, isT t A B -> mutually_inverse A B -> affine A -> is3 n c -> is3 v a ->
  returns (t_map_vector t v) (fun v' => exists m b, is3 (t_map_normal t n) m /\ is3 v' b /\
    dot3 m b = dot3 (mk3 (cX c) (cY c) (cZ c * cZ c)) a).
Proof. exact normal_actual. Qed.
Print Assumptions C39_actual.
(** so exactly these normals stay perpendicular to all their tangent vectors *)
Theorem C39_exactly_when : forall t A B n c, isT t A B -> mutually_inverse A B -> affine A -> is3 n c ->
  ((forall v a, is3 v a -> dot3 c a = 0 ->
      returns (t_map_vector t v) (fun v' => exists m b, is3 (t_map_normal t n) m /\ is3 v' b /\ dot3 m b = 0)) <->
   cZ c = 0 \/ cZ c = 1 \/ (cX c = 0 /\ cY c = 0)).
Proof. exact normal_iff. Qed.
Print Assumptions C39_exactly_when.
Example C39_case : exists A B, isT sampleTA A B /\ mutually_inverse A B /\ affine A /\
  is3 (xv 1 2 0) (mk3 1 2 0) /\ is3 (xv (-2) 1 5) (mk3 (-2) 1 5) /\ dot3 (mk3 1 2 0) (mk3 (-2) 1 5) = 0.
Proof. exact C39_sample. Qed.

(** ** C40 when does mapping a vector panic *)
Theorem C40_vector_exact : forall t A B v a, isT t A B -> is3 v a ->
  let e := A i3 i0 * cX a + A i3 i1 * cY a + A i3 i2 * cZ a in
  (e = 0 -> returns (t_map_vector t v) (fun q => is3 q (app_vec A a))) /\
  (e <> 0 -> t_map_vector t v = Panic).
Proof. exact map_vector_char. Qed.
Print Assumptions C40_vector_exact.
Theorem C40_point_exact : forall t A B p a, isT t A B -> is3 p a ->
  (wcoord A a <> 0 -> returns (t_map_point t p) (fun q => is3 q (app_pt A a))) /\
  (wcoord A a = 0 -> t_map_point t p = Panic).
Proof. exact map_point_char. Qed.
Print Assumptions C40_point_exact.
Theorem C40_affine_float_no_panic : forall (f : fmt) (m : libm f) (t : transform (float f)) A (v : vec (float f) 3),
  fM (t_matrix t) A -> affine A -> fall finite v ->
  returns (t_map_vector t v) (fun _ => True) /\ returns (t_map_point t v) (fun _ => True).
Proof. intros f m t A v H K L. exact (conj (map_vector_no_panic t A v H K L) (map_point_no_panic t A v H K L)). Qed.
Print Assumptions C40_affine_float_no_panic.
Theorem C40_perspective_float_panics : forall (f : fmt) (m : libm f) (fov near far : float f) (v : vec (float f) 3), fall finite v ->
  (t_map_vector (perspective fov near far) v = Panic <-> B2R (Vector.nth v (Fin.FS (Fin.FS Fin.F1))) <> 0).
Proof. intros f m. exact persp_vector_panics. Qed.
Print Assumptions C40_perspective_float_panics.
(** On interval vectors the map should succeed for affine transforms ... *)
Definition C40_interval_affine (f : fmt) (m : libm f) : Prop :=
  forall (t : transform (float f)) A (v : vec (interval (float f)) 3),
  fM (t_matrix t) A -> affine A -> bounded3 v -> ordered3 v -> returns (t_map_vector t v) (fun _ => True).
(** ... it does not ... *)
Theorem C40_interval_affine_refuted : forall (f : fmt) (m : libm f), ~ C40_interval_affine f m.
Proof. exact interval_affine_refuted. Qed.
Print Assumptions C40_interval_affine_refuted.
(** ... in fact it panics on every input. *)
Theorem C40_interval_always_panics : forall (f : fmt) (m : libm f) (t : transform (float f)) (v : vec (interval (float f)) 3),
  (forall i j, finite (entry (t_matrix t) i j)) -> bounded3 v -> ordered3 v -> t_map_vector t v = Panic.
Proof. intros f m. exact interval_vector_panics. Qed.
Print Assumptions C40_interval_always_panics.
Example C40_case : forall f (m : libm f), (exists A, fM (t_matrix (translate (fv f 1 (-2) 3))) A /\ affine A) /\
  fall finite (fv f 4 5 6) /\ bounded3 (iv f) /\ ordered3 (iv f).
Proof. exact C40_sample. Qed.

(** ** C41 interval points *)
Theorem C41_interval_point_encloses : forall (f : fmt) (m : libm f) (t : transform (float f)) A (p : vec (interval (float f)) 3) (a : R3),
  fM (t_matrix t) A -> bounded3 p -> mem3 a p -> wcoord A a <> 0 ->
  returns (t_map_point t p) (fun q => mem3 (app_pt A a) q).
Proof. intros f m. exact interval_point. Qed.
Print Assumptions C41_interval_point_encloses.
Theorem C41_affine_interval_point : forall (f : fmt) (m : libm f) (t : transform (float f)) A (p : vec (interval (float f)) 3) (a : R3),
  fM (t_matrix t) A -> affine A -> bounded3 p -> mem3 a p ->
  returns (t_map_point t p) (fun q => mem3 (add3 (app_vec A a) (mk3 (A i0 i3) (A i1 i3) (A i2 i3))) q).
Proof. exact interval_point_affine. Qed.
Print Assumptions C41_affine_interval_point.
Example C41_case : forall f (m : libm f), (exists A, fM (t_matrix (translate (fv f 1 (-2) 3))) A /\ affine A) /\
  bounded3 (iv f) /\ mem3 (mk3 (1/3) 2 (-1/7)) (iv f).
Proof. exact C41_sample. Qed.

(** ** C42 rays *)
Theorem C42_ray_map_eval : forall t A B r o d tm s q, isT t A B -> affine A -> isRay r o d tm -> isR s q ->
  exists r' p' b, t_map_ray t r = Ret r' /\ t_map_point t (ray_eval r s) = Ret p' /\
    is3 (ray_eval r' s) b /\ is3 p' b /\ tmax r' = tmax r.
Proof. exact map_ray_eval. Qed.
Print Assumptions C42_ray_map_eval.
Theorem C42_ray_eval : forall r o d tm s q, isRay r o d tm -> isR s q -> is3 (ray_eval r s) (at_ray o d q).
Proof. exact is3_eval. Qed.
Print Assumptions C42_ray_eval.
Theorem C42_ray_tmax_kept : forall (T U : Type) (S : Scalar U) (X : Mixed T U) (t : transform T) (r r' : ray U),
  t_map_ray t r = Ret r' \/ t_map_ray_inverse t r = Ret r' -> tmax r' = tmax r.
Proof. exact @ray_tmax. Qed.
Print Assumptions C42_ray_tmax_kept.
Theorem C42_ray_roundtrip : forall t, built_affine t -> forall r o d tm, isRay r o d tm ->
  exists r' r'', t_map_ray t r = Ret r' /\ t_map_ray_inverse t r' = Ret r'' /\ isRay r'' o d tm.
Proof. exact ray_roundtrip. Qed.
Print Assumptions C42_ray_roundtrip.
Example C42_case : exists A B, isT sampleTA A B /\ affine A /\
  isRay (mkRay (xv 1 2 3) (xv 0 1 (-1)) (xn 10)) (mk3 1 2 3) (mk3 0 1 (-1)) 10.
Proof. exact C42_sample. Qed.
