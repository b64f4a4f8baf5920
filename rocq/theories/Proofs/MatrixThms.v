(** Matrix laws over arbitrary scalars, floats and exact reals (C31, C32). *)
From Coq Require Import ZArith Reals Bool List Lra.
From Coq Require Vector Fin.
From Flocq Require Import Core BinarySingleNaN.
From Verif.Model Require Import FloatBase Scalar Float Interval Outcome Vec Transform XReal.
From Verif Require Import Spec SpecGeom.
From Verif.Proofs Require Import BitsLemmas FloatLemmas ScalarProofs XRealLemmas MatrixProofs IntProofs TransformFloat.
Open Scope R_scope.
Notation get m i j := (Vector.nth (Vector.nth m i) j) (only parsing).

Lemma transpose_entry {T} (d : matrix T) i j : get (transpose d) i j = get d j i.
Proof. fin4 i; fin4 j; reflexivity. Qed.
Lemma transpose_invol {T} (d : matrix T) : transpose (transpose d) = d.
Proof. apply nth_ext; intros i; apply nth_ext; intros j. now rewrite !transpose_entry. Qed.
Lemma row_col {T} (d : matrix T) i j :
  Vector.nth (m_row d i) j = get d i j /\ Vector.nth (m_col d j) i = get d i j /\
  Vector.nth (m_row_vec d i) j = get d i j /\ Vector.nth (m_col_vec d j) i = get d i j.
Proof. fin4 i; fin4 j; repeat split. Qed.
Lemma transpose_mul {T} `{Scalar T} (a b : matrix T) : (forall x y : T, smul x y = smul y x) ->
  transpose (m_mul a b) = m_mul (transpose b) (transpose a).
Proof.
  intros C. apply nth_ext; intros i; apply nth_ext; intros j. rewrite transpose_entry.
  change (mget (m_mul a b) j i = mget (m_mul (transpose b) (transpose a)) i j). rewrite !mul_entry.
  unfold mget. rewrite !transpose_entry. rewrite !(C (get b _ _)). reflexivity.
Qed.
Lemma fmul_comm f (x y : float f) : fmul x y = fmul y x.
Proof.
  unfold fmul. apply B2SF_inj. destruct x as [s|s| |s m e B], y as [t|t| |t n g C]; try reflexivity; cbn; try (now rewrite xorb_comm).
  rewrite !B2SF_SF2B. rewrite xorb_comm, Pos.mul_comm, Z.add_comm. reflexivity.
Qed.
Lemma scale_entry {T} `{Scalar T} (d : matrix T) c i j : get (m_scale d c) i j = smul c (get d i j).
Proof. unfold m_scale. rewrite (Vector.nth_map _ _ _ _ eq_refl), (Vector.nth_map _ _ _ _ eq_refl). reflexivity. Qed.
Lemma id_zero_entry {T} `{Scalar T} i j :
  get (m_identity (T := T)) i j = (if Fin.eqb i j then sone else szero) /\ get (m_zero (T := T)) i j = szero.
Proof. fin4 i; fin4 j; split; reflexivity. Qed.

(** exact arithmetic *)
Lemma xmul_comm (x y : xr) : isreal x -> isreal y -> smul x y = smul y x.
Proof.
  intros (r & s & ->) (q & u & ->). cbn. unfold xmul_. rewrite Rmult_comm.
  repeat match goal with |- context [if ?b then _ else _] => destruct b eqn:? end; try reflexivity; f_equal; try apply xorb_comm.
Qed.
Lemma assoc_exact a b c : realm a -> realm b -> realm c -> same_values (m_mul (m_mul a b) c) (m_mul a (m_mul b c)).
Proof.
  intros (A & HA)%realm_isM (B & HB)%realm_isM (C & HC)%realm_isM.
  exists (rmul (rmul A B) C). split; [auto using isM_mul|].
  eapply isM_eq; [|apply meq_sym, rmul_assoc]. auto using isM_mul.
Qed.
Lemma id_exact a : realm a -> same_values (m_mul m_identity a) a /\ same_values (m_mul a m_identity) a.
Proof.
  intros (A & HA)%realm_isM. split; exists A; (split; [|assumption]); (eapply isM_eq; [apply isM_mul; eauto using isM_id|]).
  apply rmul_id_l. apply rmul_id_r.
Qed.
Lemma transp_exact a b : realm a -> realm b -> same_values (transpose (m_mul a b)) (m_mul (transpose b) (transpose a)).
Proof.
  intros (A & HA)%realm_isM (B & HB)%realm_isM. exists (rtransp (rmul A B)). split; [auto using isM_transpose, isM_mul|].
  eapply isM_eq; [|apply meq_sym, rmul_transp]. auto using isM_mul, isM_transpose.
Qed.

(** floats: multiplying by the identity changes no value *)
Lemma id_float f (m : libm f) (d : matrix (float f)) A : fM d A -> fM (m_mul m_identity d) A /\ fM (m_mul d m_identity) A.
Proof.
  intros H. assert (Fz : forall (x : float f) i j, finite x -> val (smul (szero : float f) (get d i j)) 0).
  { intros x i j _. change (val (fmul (fzero false) (get d i j)) 0). rewrite fmul_comm. apply val_mul_zero; [apply H|apply val_zero]. }
  assert (Fz' : forall i j, val (smul (get d i j) (szero : float f)) 0).
  { intros i j. apply val_mul_zero; [apply H|apply val_zero]. }
  assert (Fo : forall i j, val (smul (sone : float f) (get d i j)) (A i j)).
  { intros i j. change (val (fmul sone (get d i j)) (A i j)). rewrite fmul_comm. apply val_mul_one; [apply H|apply val_one]. }
  assert (Fo' : forall i j, val (smul (get d i j) (sone : float f)) (A i j)).
  { intros i j. apply val_mul_one; [apply H|apply val_one]. }
  split; intros i j.
  - change (val (mget (m_mul m_identity d) i j) (A i j)). rewrite mul_entry. fin4 i;
    repeat first [apply Fo | apply (Fz (fzero false)); reflexivity | apply val_zero |
      match goal with |- val (sadd ?x ?y) (A _ _) => (apply (val_add_zero x y); [|apply (Fz (fzero false)); reflexivity]) || apply (val_zero_add x y) end | apply val_add_zero ].
  - change (val (mget (m_mul d m_identity) i j) (A i j)). rewrite mul_entry. fin4 j;
    repeat first [apply Fo' | apply Fz' | apply val_zero |
      match goal with |- val (sadd ?x ?y) (A _ _) => (apply (val_add_zero x y); [|apply Fz']) || apply (val_zero_add x y) end | apply val_add_zero ].
Qed.

(** C32 *)
Lemma inverse_two_sided m A : isM m A -> rdet A <> 0 ->
  isM (m_mul m (m_inverse m)) rid /\ isM (m_mul (m_inverse m) m) rid.
Proof.
  intros H D. rewrite rdet_det4 in D. assert (K := isM_inverse m A H D). split; (eapply isM_eq; [apply isM_mul; eauto|]).
  now apply rinv_r. now apply rinv_l.
Qed.
Lemma inverse_invol m A : isM m A -> rdet A <> 0 -> isM (m_inverse (m_inverse m)) A.
Proof.
  intros H D. rewrite rdet_det4 in D. assert (K := isM_inverse m A H D).
  eapply isM_eq; [apply (isM_inverse _ _ K)|now apply rinv_rinv]. rewrite det4_rinv by auto. now apply Rinv_neq_0_compat.
Qed.
Lemma inverse_sing m A i j : isM m A -> rdet A = 0 -> ~ isreal (get (m_inverse m) i j).
Proof. rewrite rdet_det4. apply inverse_singular. Qed.
