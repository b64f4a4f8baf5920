(** * Counterexamples for interval properties, and sample intervals for the examples. *)
From Coq Require Import ZArith Reals Bool Lra Lia.
From Flocq Require Import Core BinarySingleNaN.
From Verif.Model Require Import FloatBase Scalar Float Interval.
From Verif Require Import Spec SpecExpr.
From Verif.Proofs Require Import BitsLemmas FloatLemmas PiBounds ScalarProofs IntervalBase IntervalProofs IntervalProofs2.
Open Scope R_scope.

(** interval with small integer bounds *)
Definition ZI (f : fmt) (a b : Z) : interval (float f) := mkI (f_of_Z a) (f_of_Z b).
Lemma ZI_facts f a b : (Z.abs a <= 1000)%Z -> (Z.abs b <= 1000)%Z -> (a <= b)%Z ->
  bounded (ZI f a b) /\ ordered (ZI f a b) /\ (forall r, mem r (ZI f a b) <-> IZR a <= r <= IZR b).
Proof.
  intros Ha Hb Hab. assert (1000 <= 2 ^ prec f)%Z by (destruct f; vm_compute; discriminate).
  destruct (f_of_Z_exact (f := f) a) as [F1 V1]; [lia|]. destruct (f_of_Z_exact (f := f) b) as [F2 V2]; [lia|].
  split; [split; assumption|]. split.
  - apply fle_E. cbn [ZI inf sup]. rewrite !E_B2R by assumption. repeat split; try now apply nonnan_of_finite.
    rewrite V1, V2. now apply IZR_le.
  - intros r. unfold mem. cbn [ZI inf sup]. rewrite below_finite, above_finite by assumption. rewrite V1, V2. tauto.
Qed.
Lemma ZI_mem f a b r : (Z.abs a <= 1000)%Z -> (Z.abs b <= 1000)%Z -> (a <= b)%Z -> (mem r (ZI f a b) <-> IZR a <= r <= IZR b).
Proof. intros. now apply ZI_facts. Qed.
Lemma ZI_bounded f a b : (Z.abs a <= 1000)%Z -> (Z.abs b <= 1000)%Z -> (a <= b)%Z -> bounded (ZI f a b).
Proof. intros. now apply ZI_facts. Qed.
Lemma ZI_ordered f a b : (Z.abs a <= 1000)%Z -> (Z.abs b <= 1000)%Z -> (a <= b)%Z -> ordered (ZI f a b).
Proof. intros. now apply ZI_facts. Qed.
Lemma ZI_nonempty f a b : (Z.abs a <= 1000)%Z -> (Z.abs b <= 1000)%Z -> (a <= b)%Z -> nonempty (ZI f a b).
Proof. intros. exists (IZR a). apply ZI_mem; auto. split; [lra|now apply IZR_le]. Qed.
Lemma ZI_proper f a b : (Z.abs a <= 1000)%Z -> (Z.abs b <= 1000)%Z -> (a <= b)%Z -> proper (ZI f a b).
Proof. intros. destruct (ZI_nonempty f a b) as [r K]; auto. now apply (mem_proper r). Qed.
Ltac zi := match goal with
  | |- bounded (ZI ?f ?a ?b) => refine (ZI_bounded f a b _ _ _); lia
  | |- ordered (ZI ?f ?a ?b) => refine (ZI_ordered f a b _ _ _); lia
  | |- mem ?r (ZI ?f ?a ?b) => refine (proj2 (ZI_mem f a b r _ _ _) _); [lia|lia|lia|lra]
  | |- nonempty (ZI ?f ?a ?b) => refine (ZI_nonempty f a b _ _ _); lia
  | |- proper (ZI ?f ?a ?b) => refine (ZI_proper f a b _ _ _); lia
  end.

Lemma mul_bad_sup f (m : libm f) : B2R (sup (smul (ZI f (-1) 2) (ZI f (-3) 1))) < 2 /\ finite (sup (smul (ZI f (-1) 2) (ZI f (-3) 1))).
Proof.
  split; [|destruct f; vm_compute; reflexivity].
  destruct f; match goal with |- B2R ?x < _ => b2r_eval x end; simpl bpow; lra.
Qed.
Lemma mul_refuted f (m : libm f) : ~ (forall (a b : interval (float f)) r s, bounded a -> bounded b ->
  mem r a -> mem s b -> mem (r * s) (smul a b)).
Proof.
  intros H. assert (K : mem (-1 * -3) (smul (ZI f (-1) 2) (ZI f (-3) 1))) by (apply H; zi).
  destruct (mul_bad_sup f m) as [L F]. destruct K as [_ K]. apply above_finite in K; auto. lra.
Qed.
(** with an infinite endpoint 0 * inf makes a bound NaN *)
Lemma mul_inf_refuted f (m : libm f) : ~ (forall (a b : interval (float f)) r s,
  mem r a -> mem s b -> ~ (straddles a /\ straddles b) -> mem (r * s) (smul a b)).
Proof.
  intros H.
  assert (K' : mem (0 * 1) (smul (mkI (fzero false) (fzero false)) (mkI (finf true) (finf false)))).
  { apply H; [|split; reflexivity|].
    - split; [apply (below_finite (fzero false : float f))|apply (above_finite (fzero false : float f))]; try reflexivity; simpl; lra.
    - intros [[H1 _] _]. apply flt_E in H1. simpl in H1. lra. }
  destruct K' as [K' _]. revert K'.
  replace (inf (smul (mkI (fzero false) (fzero false)) (mkI (finf true) (finf false)))) with (fnan : float f); [easy|].
  destruct f; apply B2SF_inj; vm_compute; reflexivity.
Qed.
Lemma approx_refuted f (m : libm f) : ~ (forall a : interval (float f), bounded a -> ordered a -> mem (B2R (i_approx a)) a).
Proof.
  intros H. assert (K := H (mkI fmax_value fmax_value)).
  lapply K; [clear K; intros K|split; destruct f; reflexivity].
  lapply K; [clear K; intros K|apply fle_E; cbn [inf sup]; repeat split; try (destruct f; reflexivity); lra].
  destruct K as [K _]. apply below_finite in K; [|destruct f; reflexivity]. revert K. cbn [inf]. fold (float f).
  replace (i_approx (mkI (fmax_value : float f) fmax_value)) with (finf false : float f) by (destruct f; apply B2SF_inj; vm_compute; reflexivity).
  apply Rlt_not_le. change (B2R (finf false : float f)) with 0.
  assert (L : 0 < B2R (fmax_value : float f)); [|exact L].
  clear. destruct f; match goal with |- 0 < B2R ?x => b2r_eval x end; apply Rmult_lt_0_compat; try apply bpow_gt_0; apply IZR_lt; reflexivity.
Qed.
Lemma sqrt_neg f (m : libm f) (a : interval (float f)) : flt (inf a) (fzero false) -> ~ proper (i_sqrt a) /\ ~ proper (gsqrt a).
Proof.
  intros H. apply flt_E in H. destruct H as (N & _ & H). simpl in H. split.
  - intros [P _]. apply next_nn_inv in P. apply sqrt_nan_neg in P. lra.
  - intros P. change (proper (i_gsqrt a)) in P. apply gsqrt_proper in P. lra.
Qed.
Lemma square_negative_lower f (m : libm f) : flt (inf (ssquare (ZI f 0 1))) (fzero false).
Proof. apply slt_spec. destruct f; vm_compute; reflexivity. Qed.
Lemma approx_case f : bounded (ZI f (-3) 2) /\ ordered (ZI f (-3) 2) /\
  Rabs (rndf f (B2R (inf (ZI f (-3) 2)) + B2R (sup (ZI f (-3) 2)))) < bpow radix2 (emax f).
Proof.
  split; [zi|]. split; [zi|]. cbn [ZI inf sup].
  destruct (f_of_Z_exact (f := f) (-3)) as [_ ->]; [destruct f; vm_compute; discriminate|].
  destruct (f_of_Z_exact (f := f) 2) as [_ ->]; [destruct f; vm_compute; discriminate|].
  rewrite <- plus_IZR. rewrite rnd_id by (apply generic_IZR; destruct f; vm_compute; discriminate).
  rewrite Rabs_left by (simpl; lra). apply Rlt_le_trans with (bpow radix2 1); [simpl; lra|].
  apply bpow_le. destruct f; vm_compute; discriminate.
Qed.
Lemma flt_ZB f a b : (Z.abs a <= 1000)%Z -> (Z.abs b <= 1000)%Z -> (flt (f_of_Z a : float f) (f_of_Z b) <-> (a < b)%Z).
Proof.
  intros Ha Hb. assert (1000 <= 2 ^ prec f)%Z by (destruct f; vm_compute; discriminate).
  destruct (f_of_Z_exact (f := f) a) as [F1 V1]; [lia|]. destruct (f_of_Z_exact (f := f) b) as [F2 V2]; [lia|].
  rewrite flt_E, !E_B2R by assumption. rewrite V1, V2.
  split; [intros (_ & _ & K); now apply lt_IZR in K|]. intros K. apply IZR_lt in K. repeat split; auto using nonnan_of_finite.
Qed.
Lemma straddles_ZI f a b : (Z.abs a <= 1000)%Z -> (Z.abs b <= 1000)%Z -> (straddles (ZI f a b) <-> (a < 0 < b)%Z).
Proof.
  intros Ha Hb. unfold straddles. cbn [ZI inf sup].
  assert (Z0 : fzero false = (f_of_Z 0 : float f)) by (destruct f; apply B2SF_inj; vm_compute; reflexivity).
  rewrite Z0. rewrite !flt_ZB by lia. tauto.
Qed.
Lemma fle_Z f a b : (Z.abs a <= 1000)%Z -> (Z.abs b <= 1000)%Z -> (a <= b)%Z -> fle (f_of_Z a : float f) (f_of_Z b).
Proof. intros Ha Hb H. exact (proj1 (proj2 (ZI_facts f a b Ha Hb H))). Qed.
Lemma fz0 f : fzero false = (f_of_Z 0 : float f).
Proof. destruct f; apply B2SF_inj; vm_compute; reflexivity. Qed.
