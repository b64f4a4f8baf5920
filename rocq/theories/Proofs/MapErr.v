(** Rounding-error bounds for short sums of products: cross products, ray evaluation, matrix
    products and affine maps. *)
From Coq Require Import ZArith Reals Bool List Lra Lia.
From Coq Require Vector Fin.
From Flocq Require Import Core BinarySingleNaN.
From Verif.Model Require Import FloatBase Scalar Float Interval Outcome Vec Transform XReal Geometry.
From Verif Require Import Spec SpecGeom SpecShape SpecError.
From Verif.Proofs Require Import BitsLemmas FloatLemmas ScalarProofs XRealLemmas VectorFloat TransformFloat SlabFloat VectorErr.
Open Scope R_scope.
Notation "v @ i" := (Vector.nth v i) (at level 20, only parsing).
Local Arguments finite {f} x : simpl never.

Section ME.
Context {f : fmt} {m : libm f}.
Notation FT := (float f).
Notation u := (unit_roundoff f).
Notation eta := (smallest_float f / 2).
Notation g k := (rel_err f k).

Lemma g0 : g 0 = 0. Proof. unfold rel_err. simpl. ring. Qed.
Lemma g_S k : g (S k) = (1 + u) * g k + u. Proof. unfold rel_err. simpl. ring. Qed.
Lemma g_pos k : 0 <= g k.
Proof. assert (U := u_pos (f := f)). induction k; [rewrite g0; lra|]. rewrite g_S. assert (0 <= u * g k) by (apply Rmult_le_pos; lra). lra. Qed.

(** [x] is a float approximation of [r], whose terms have total magnitude at most [A] *)
Definition apx (k : nat) (A c : R) (x : FT) (r : R) : Prop := finite x /\ Rabs r <= A /\ Rabs (B2R x - r) <= g k * A + c.
Lemma apx_val (x : FT) : finite x -> apx 0 (Rabs (B2R x)) 0 x (B2R x).
Proof. intros F. split; [exact F|]. split; [lra|]. rewrite g0. replace (B2R x - B2R x) with 0 by ring. rewrite Rabs_R0. lra. Qed.
Lemma apx_mono k A c x r : 0 <= c -> apx k A c x r -> apx (S k) A ((1 + u) * c) x r.
Proof.
  intros Hc (F & H & K). split; [exact F|]. split; [exact H|]. rewrite g_S. assert (U := u_pos (f := f)). assert (G := g_pos k). assert (P := Rabs_pos r).
  assert (0 <= u * g k) by (apply Rmult_le_pos; lra). assert (g k * A <= ((1 + u) * g k + u) * A) by (apply Rmult_le_compat_r; lra). assert (0 <= u * c) by (apply Rmult_le_pos; lra). lra.
Qed.
Lemma apx_mul (x y : FT) : finite (fmul x y) -> apx 1 (Rabs (B2R x * B2R y)) eta (fmul x y) (B2R x * B2R y).
Proof. intros F. split; [exact F|]. split; [lra|]. rewrite g_S, g0. eapply Rle_trans; [apply mul_err, F|]. lra. Qed.
Lemma apx_add k A B c d x y r s : apx k A c x r -> apx k B d y s -> finite (fadd x y) -> apx (S k) (A + B) ((1 + u) * (c + d)) (fadd x y) (r + s).
Proof.
  intros (Fx & Hr & Kx) (Fy & Hs & Ky) F. split; [exact F|]. split; [eapply Rle_trans; [apply Rabs_triang|]; lra|].
  assert (D := add_err x y F). rewrite g_S. assert (U := u_pos (f := f)).
  replace (B2R (fadd x y) - (r + s)) with ((B2R (fadd x y) - (B2R x + B2R y)) + ((B2R x - r) + (B2R y - s))) by ring.
  eapply Rle_trans; [apply Rabs_triang|]. assert (T := Rabs_triang (B2R x - r) (B2R y - s)).
  assert (Q : Rabs (B2R x + B2R y) <= (A + B) + (g k * A + c + (g k * B + d))).
  { replace (B2R x + B2R y) with ((r + s) + ((B2R x - r) + (B2R y - s))) by ring. eapply Rle_trans; [apply Rabs_triang|].
    assert (T2 := Rabs_triang r s). lra. }
  assert (u * Rabs (B2R x + B2R y) <= u * ((A + B) + (g k * A + c + (g k * B + d)))) by (apply Rmult_le_compat_l; lra). lra.
Qed.
Lemma apx_neg k A c x r : apx k A c x r -> apx k A c (fneg x) (- r).
Proof.
  intros (F & H & K). split; [unfold finite in *; now destruct x|]. rewrite Rabs_Ropp. split; [exact H|].
  rewrite fneg_B2R. replace (- B2R x - - r) with (- (B2R x - r)) by ring. now rewrite Rabs_Ropp.
Qed.
Lemma apx_sub k A B c d x y r s : apx k A c x r -> apx k B d y s -> finite (fsub x y) -> apx (S k) (A + B) ((1 + u) * (c + d)) (fsub x y) (r - s).
Proof.
  intros Hx Hy F. destruct Hx as (Fx & Hr & Kx), Hy as (Fy & Hs & Ky). split; [exact F|].
  split. { unfold Rminus. eapply Rle_trans; [apply Rabs_triang|]. rewrite Rabs_Ropp. lra. }
  assert (D := sub_rel x y Fx Fy F). rewrite g_S. assert (U := u_pos (f := f)).
  replace (B2R (fsub x y) - (r - s)) with ((B2R (fsub x y) - (B2R x - B2R y)) + ((B2R x - r) + - (B2R y - s))) by ring.
  eapply Rle_trans; [apply Rabs_triang|]. assert (T := Rabs_triang (B2R x - r) (- (B2R y - s))). rewrite Rabs_Ropp in T.
  assert (Q : Rabs (B2R x - B2R y) <= (A + B) + (g k * A + c + (g k * B + d))).
  { replace (B2R x - B2R y) with ((r + - s) + ((B2R x - r) + - (B2R y - s))) by ring. eapply Rle_trans; [apply Rabs_triang|].
    assert (T2 := Rabs_triang r (- s)). rewrite Rabs_Ropp in T2. lra. }
  assert (u * Rabs (B2R x - B2R y) <= u * ((A + B) + (g k * A + c + (g k * B + d)))) by (apply Rmult_le_compat_l; lra). lra.
Qed.
Lemma eta0 : 0 <= eta. Proof. apply Rlt_le, (eta_pos (f := f)). Qed.

(** ** cross product *)
Lemma cross_comp (a b c d : FT) : finite (fsub (fmul a b) (fmul c d)) ->
  Rabs (B2R (fsub (fmul a b) (fmul c d)) - (B2R a * B2R b - B2R c * B2R d)) <= g 2 * (Rabs (B2R a * B2R b) + Rabs (B2R c * B2R d)) + (1 + u) * (eta + eta).
Proof. intros F. destruct (sub_fin _ _ F) as [F1 F2]. exact (proj2 (proj2 (apx_sub _ _ _ _ _ _ _ _ _ (apx_mul _ _ F1) (apx_mul _ _ F2) F))). Qed.
Lemma cross_err (a b : vec FT 3) : fall finite (cross a b) -> close3 (cross a b) (cross3 (f3 a) (f3 b)) (cross_abs (f3 a) (f3 b)) (g 2) ((1 + u) * smallest_float f).
Proof.
  intros F. replace ((1 + u) * smallest_float f) with ((1 + u) * (eta + eta)) by lra.
  split; [|split]; apply cross_comp; [exact (F Fin.F1)|exact (F (Fin.FS Fin.F1))|exact (F (Fin.FS (Fin.FS Fin.F1)))].
Qed.

(** ** ray evaluation *)
Lemma ray_comp (o d t : FT) : finite (fadd o (fmul d t)) ->
  Rabs (B2R (fadd o (fmul d t)) - (B2R o + B2R t * B2R d)) <= g 2 * (Rabs (B2R o) + Rabs (B2R t * B2R d)) + (1 + u) * eta.
Proof.
  intros F. destruct (fadd_fin _ _ F) as [F1 F2]. assert (K := apx_add _ _ _ _ _ _ _ _ _ (apx_mono _ _ _ _ _ (Rle_refl 0) (apx_val o F1)) (apx_mul d t F2) F).
  destruct K as (_ & _ & K). rewrite (Rmult_comm (B2R t)). replace ((1 + u) * eta) with ((1 + u) * ((1 + u) * 0 + eta)) by ring. exact K.
Qed.
Lemma ray_err (r : ray FT) (t : FT) : fall finite (ray_eval r t) ->
  close3 (ray_eval r t) (at_ray (f3 (origin r)) (f3 (direction r)) (B2R t)) (add3 (abs3 (f3 (origin r))) (abs3 (scl3 (B2R t) (f3 (direction r))))) (g 2) ((1 + u) * eta).
Proof.
  intros F. assert (N : forall i, ray_eval r t @ i = fadd (origin r @ i) (fmul (direction r @ i) t)).
  { intros i. unfold ray_eval. etransitivity; [exact (Vector.nth_map2 _ _ _ i i i eq_refl eq_refl)|]. exact (f_equal (fadd _) (Vector.nth_map _ _ i i eq_refl)). }
  unfold close3, f3, at_ray, add3, abs3, scl3. cbn [cX cY cZ]. 
  split; [|split]; rewrite N; apply ray_comp; rewrite <- N; apply F.
Qed.

(** ** maps *)
Lemma row3 (x y z a b c : FT) : finite (fadd (fadd (fmul x a) (fmul y b)) (fmul z c)) ->
  apx 3 (Rabs (B2R x * B2R a) + Rabs (B2R y * B2R b) + Rabs (B2R z * B2R c)) ((1 + u) * ((1 + u) * (eta + eta) + (1 + u) * eta))
    (fadd (fadd (fmul x a) (fmul y b)) (fmul z c)) (B2R x * B2R a + B2R y * B2R b + B2R z * B2R c).
Proof.
  intros F. destruct (fadd_fin _ _ F) as [F1 F2]. destruct (fadd_fin _ _ F1) as [F3 F4].
  apply apx_add; [|apply apx_mono; [apply eta0|apply apx_mul, F2]|exact F].
  apply apx_add; [apply apx_mul, F3|apply apx_mul, F4|exact F1].
Qed.
Lemma row4 (x y z a b c d : FT) : finite (fadd (fadd (fadd (fmul x a) (fmul y b)) (fmul z c)) d) ->
  apx 4 (Rabs (B2R x * B2R a) + Rabs (B2R y * B2R b) + Rabs (B2R z * B2R c) + Rabs (B2R d)) ((1 + u) * ((1 + u) * ((1 + u) * (eta + eta) + (1 + u) * eta) + (1 + u) * ((1 + u) * ((1 + u) * 0))))
    (fadd (fadd (fadd (fmul x a) (fmul y b)) (fmul z c)) d) (B2R x * B2R a + B2R y * B2R b + B2R z * B2R c + B2R d).
Proof.
  intros F. destruct (fadd_fin _ _ F) as [F1 F2].
  assert (P : 0 <= 1 + u) by (assert (U := u_pos (f := f)); lra).
  apply apx_add; [apply row3, F1| |exact F]. apply apx_mono; [apply Rmult_le_pos; [exact P|apply Rmult_le_pos; lra]|]. apply apx_mono; [lra|]. apply apx_mono; [lra|]. apply apx_val, F2.
Qed.
Definition c3 : R := 3 * (1 + u) ^ 2 * eta.
Definition c4 : R := 3 * (1 + u) ^ 3 * eta.
Lemma vector_err (t : transform FT) A (v q : vec FT 3) : fM (t_matrix t) A -> affine A -> t_map_vector t v = Ret q -> fall finite q ->
  close3 q (app_vec A (f3 v)) (app_vec (absM A) (abs3 (f3 v))) (g 3) (3 * (1 + u) ^ 2 * eta).
Proof.
  intros HM HA H F. unfold t_map_vector, map_vector, oassert in H. destruct (seqb _ _); [|discriminate]. injection H as <-.
  assert (M : forall i j, B2R (mget (tm t) i j) = A i j) by (intros; apply HM).
  assert (R : forall i, finite (fadd (fadd (fmul (vx v) (mget (tm t) i i0)) (fmul (vy v) (mget (tm t) i i1))) (fmul (vz v) (mget (tm t) i i2))) ->
    Rabs (B2R (fadd (fadd (fmul (vx v) (mget (tm t) i i0)) (fmul (vy v) (mget (tm t) i i1))) (fmul (vz v) (mget (tm t) i i2))) - (A i i0 * B2R (vx v) + A i i1 * B2R (vy v) + A i i2 * B2R (vz v)))
     <= g 3 * (absM A i i0 * Rabs (B2R (vx v)) + absM A i i1 * Rabs (B2R (vy v)) + absM A i i2 * Rabs (B2R (vz v))) + 3 * (1 + u) ^ 2 * eta).
  { intros i K. destruct (row3 _ _ _ _ _ _ K) as (_ & _ & Q). rewrite !M in Q. unfold absM. rewrite <- !Rabs_mult.
    rewrite (Rmult_comm (A i i0)), (Rmult_comm (A i i1)), (Rmult_comm (A i i2)).
    replace (3 * (1 + u) ^ 2 * eta) with ((1 + u) * ((1 + u) * (eta + eta) + (1 + u) * eta)) by ring. exact Q. }
  split; [|split]; apply R; [exact (F Fin.F1)|exact (F (Fin.FS Fin.F1))|exact (F (Fin.FS (Fin.FS Fin.F1)))].
Qed.
Lemma div_one_fin (z w : FT) : val w 1 -> finite (fdiv z w) -> finite z /\ B2R (fdiv z w) = B2R z.
Proof.
  intros [Fw Vw] F. assert (Fz : finite z). { destruct z as [s|s| |s mm e H]; try reflexivity; destruct w; discriminate. }
  split; [exact Fz|]. assert (R : Rnd (fdiv z w) (B2R z)). { replace (B2R z) with (B2R z / B2R w) by (rewrite Vw; field). apply fdiv_Rnd; auto. rewrite Vw; lra. }
  exact (proj2 (val_Rnd z _ _ Fz eq_refl R)).
Qed.
Lemma point_err (t : transform FT) A (p q : vec FT 3) : fM (t_matrix t) A -> affine A -> fall finite p -> t_map_point t p = Ret q -> fall finite q ->
  close3 q (add3 (app_vec A (f3 p)) (mk3 (A i0 i3) (A i1 i3) (A i2 i3)))
           (add3 (app_vec (absM A) (abs3 (f3 p))) (mk3 (absM A i0 i3) (absM A i1 i3) (absM A i2 i3))) (g 4) (3 * (1 + u) ^ 3 * eta).
Proof.
  intros HM HA Fp H F. unfold t_map_point, map_point, oassert in H. cbv zeta in H. destruct (sne _ _); [|discriminate]. injection H as <-.
  assert (M : forall i j, B2R (mget (tm t) i j) = A i j) by (intros; apply HM).
  set (w := fadd (fadd (fadd (fmul (vx p) (mget (tm t) i3 i0)) (fmul (vy p) (mget (tm t) i3 i1))) (fmul (vz p) (mget (tm t) i3 i2))) (mget (tm t) i3 i3)).
  assert (W : val w 1).
  { destruct HA as (A0 & A1 & A2 & A3). assert (F1 := Fp Fin.F1). assert (F2 := Fp (Fin.FS Fin.F1)). assert (F3 := Fp (Fin.FS (Fin.FS Fin.F1))).
    apply val_zero_add; [|rewrite <- A3; now apply fM_get].
    apply sum3_zero; auto; [rewrite <- A0|rewrite <- A1|rewrite <- A2]; now apply fM_get. }
  assert (R : forall i, finite (fdiv (fadd (fadd (fadd (fmul (vx p) (mget (tm t) i i0)) (fmul (vy p) (mget (tm t) i i1))) (fmul (vz p) (mget (tm t) i i2))) (mget (tm t) i i3)) w) ->
    Rabs (B2R (fdiv (fadd (fadd (fadd (fmul (vx p) (mget (tm t) i i0)) (fmul (vy p) (mget (tm t) i i1))) (fmul (vz p) (mget (tm t) i i2))) (mget (tm t) i i3)) w) - (A i i0 * B2R (vx p) + A i i1 * B2R (vy p) + A i i2 * B2R (vz p) + A i i3))
     <= g 4 * (absM A i i0 * Rabs (B2R (vx p)) + absM A i i1 * Rabs (B2R (vy p)) + absM A i i2 * Rabs (B2R (vz p)) + absM A i i3) + 3 * (1 + u) ^ 3 * eta).
  { intros i K. destruct (div_one_fin _ _ W K) as [K2 ->]. destruct (row4 _ _ _ _ _ _ _ K2) as (_ & _ & Q). rewrite !M in Q. unfold absM. rewrite <- !Rabs_mult.
    rewrite (Rmult_comm (A i i0)), (Rmult_comm (A i i1)), (Rmult_comm (A i i2)).
    replace (3 * (1 + u) ^ 3 * eta) with ((1 + u) * ((1 + u) * ((1 + u) * (eta + eta) + (1 + u) * eta) + (1 + u) * ((1 + u) * ((1 + u) * 0)))) by ring. exact Q. }
  split; [|split]; apply R; [exact (F Fin.F1)|exact (F (Fin.FS Fin.F1))|exact (F (Fin.FS (Fin.FS Fin.F1)))].
Qed.

(** ** matrix product *)
Lemma apx_zadd k A c x r : 0 <= c -> apx k A c x r -> apx k A c (fadd (fzero false) x) r.
Proof.
  intros Hc (F & H & K). assert (E : finite (fadd (fzero false) x) /\ B2R (fadd (fzero false) x) = B2R x).
  { destruct x as [s|s| |s mm e Hb]; try discriminate F; [destruct s|]; split; reflexivity. }
  destruct E as [E1 E2]. split; [exact E1|]. rewrite E2. auto.
Qed.
Lemma matrix_err (a b : matrix FT) A B i j : fM a A -> fM b B -> finite (m_mul a b @ i @ j) ->
  Rabs (B2R (m_mul a b @ i @ j) - rmul A B i j) <= g 4 * rmul (absM A) (absM B) i j + 4 * (1 + u) ^ 3 * eta.
Proof.
  intros HA HB F.
  assert (N : m_mul a b @ i @ j = fadd (fadd (fadd (fadd (fzero false) (fmul (mget a i i0) (mget b i0 j))) (fmul (mget a i i1) (mget b i1 j))) (fmul (mget a i i2) (mget b i2 j))) (fmul (mget a i i3) (mget b i3 j))).
  { clear. revert i. refine (fin4_case _ _ _ _ _); revert j; refine (fin4_case _ _ _ _ _); reflexivity. }
  rewrite N in *. clear N. destruct (fadd_fin _ _ F) as [F1 P3]. destruct (fadd_fin _ _ F1) as [F2 P2]. destruct (fadd_fin _ _ F2) as [F3 P1]. destruct (fadd_fin _ _ F3) as [_ P0].
  assert (E := eta0). assert (U := u_pos (f := f)). assert (E2 : 0 <= (1 + u) * eta) by (apply Rmult_le_pos; lra).
  assert (Q := apx_add _ _ _ _ _ _ _ _ _ (apx_add _ _ _ _ _ _ _ _ _ (apx_add _ _ _ _ _ _ _ _ _ (apx_zadd _ _ _ _ _ E (apx_mul _ _ P0)) (apx_mul _ _ P1) F2) (apx_mono _ _ _ _ _ E (apx_mul _ _ P2)) F1)
     (apx_mono _ _ _ _ _ E2 (apx_mono _ _ _ _ _ E (apx_mul _ _ P3))) F). destruct Q as (_ & _ & Q).
  assert (VA : forall k, B2R (mget a i k) = A i k) by (intros; apply HA). assert (VB : forall k, B2R (mget b k j) = B k j) by (intros; apply HB).
  rewrite !VA, !VB in Q. unfold rmul, absM, rsum. rewrite <- !Rabs_mult.
  match goal with |- Rabs (_ - ?x) <= _ * ?y + ?z => replace x with (A i i0 * B i0 j + A i i1 * B i1 j + A i i2 * B i2 j + A i i3 * B i3 j) by (unfold i0, i1, i2, i3; ring);
   replace y with (Rabs (A i i0 * B i0 j) + Rabs (A i i1 * B i1 j) + Rabs (A i i2 * B i2 j) + Rabs (A i i3 * B i3 j)) by (unfold i0, i1, i2, i3; ring);
   replace z with ((1 + u) * ((1 + u) * ((1 + u) * (eta + eta) + (1 + u) * eta) + (1 + u) * ((1 + u) * eta))) by ring end.
  exact Q.
Qed.
End ME.
