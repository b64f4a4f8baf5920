(** Rational bounds on PI from the Machin-like formula of the standard library. *)
From Coq Require Import ZArith Reals Lra Lia Machin Ratan.
Open Scope R_scope.

Lemma atan_term k : 
  tg_alt PI_2_3_7_tg k = (-1)^k * (2 * ((/3)^(2*k+1) / IZR (Z.of_nat (2*k+1))) + (/7)^(2*k+1) / IZR (Z.of_nat (2*k+1))).
Proof.
  unfold tg_alt, PI_2_3_7_tg, Ratan_seq. rewrite <- INR_IZR_INZ. reflexivity.
Qed.

Lemma PI_lower_bound : 3.1415926535897932384 < PI.
Proof.
  pose proof (PI_2_3_7_ineq 10) as [H _].
  simpl (S (2 * 10)) in H. cbn [sum_f_R0 Nat.mul Nat.add] in H.
  rewrite !atan_term in H.
  cbn [Nat.mul Nat.add Z.of_nat Pos.of_succ_nat Pos.succ pow] in H.
  lra.
Qed.

Lemma PI_upper_bound : PI < 3.1415926535897932385.
Proof.
  pose proof (PI_2_3_7_ineq 10) as [_ H].
  simpl (2 * 10)%nat in H. cbn [sum_f_R0 Nat.mul Nat.add] in H.
  rewrite !atan_term in H.
  cbn [Nat.mul Nat.add Z.of_nat Pos.of_succ_nat Pos.succ pow] in H.
  lra.
Qed.
