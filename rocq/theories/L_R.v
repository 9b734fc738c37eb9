(** Rationals inside the reals. *)
From Verif Require Import Py L_Qc S_Utils.
From Coq Require Import Reals Qreals Lra.
Local Open Scope R_scope.

Lemma qR_add x y : qR (x + y)%Qc = qR x + qR y.
Proof. unfold qR. rewrite <- Q2R_plus. apply Qeq_eqR, this_add. Qed.
Lemma qR_mul x y : qR (x * y)%Qc = qR x * qR y.
Proof. unfold qR. rewrite <- Q2R_mult. apply Qeq_eqR, this_mul. Qed.
Lemma qR_opp x : qR (- x)%Qc = - qR x.
Proof. unfold qR. rewrite <- Q2R_opp. apply Qeq_eqR, this_opp. Qed.
Lemma qR_sub x y : qR (x - y)%Qc = qR x - qR y.
Proof. unfold Qcminus. rewrite qR_add, qR_opp. lra. Qed.
Lemma qR_Zq z : qR (Zq z) = IZR z.
Proof. unfold qR. rewrite (Qeq_eqR _ _ (this_Zq z)). unfold Q2R, inject_Z; cbn. field. Qed.
Lemma qR_0 : qR 0%Qc = 0. Proof. change 0%Qc with (Zq 0). apply qR_Zq. Qed.
Lemma qR_1 : qR 1%Qc = 1. Proof. change 1%Qc with (Zq 1). apply qR_Zq. Qed.
Lemma qR_le x y : qR x <= qR y <-> (x <= y)%Qc.
Proof. unfold qR, Qcle. split; [apply Rle_Qle|apply Qle_Rle]. Qed.
Lemma qR_lt x y : qR x < qR y <-> (x < y)%Qc.
Proof. unfold qR, Qclt. split; [apply Rlt_Qlt|apply Qlt_Rlt]. Qed.
Lemma qR_inj x y : qR x = qR y <-> x = y.
Proof. split; [|congruence]. unfold qR. intros H. apply this_eq. apply eqR_Qeq; auto. Qed.
Lemma qR_inv x : x <> 0%Qc -> qR (/ x)%Qc = / qR x.
Proof.
  intros H. apply Rmult_eq_reg_l with (qR x).
  - rewrite <- qR_mul, Qcmult_inv_r, qR_1 by auto. field. rewrite <- qR_0, qR_inj; auto.
  - rewrite <- qR_0, qR_inj; auto.
Qed.
Lemma qR_div x y : y <> 0%Qc -> qR (x / y)%Qc = qR x / qR y.
Proof. intros H. unfold Qcdiv, Rdiv. rewrite qR_mul, qR_inv; auto. Qed.
Lemma qR_pow x n : qR (x ^ n)%Qc = qR x ^ n.
Proof. induction n; cbn; [apply qR_1|]. rewrite qR_mul, IHn; auto. Qed.
Lemma qR_neq0 x : x <> 0%Qc <-> qR x <> 0.
Proof. rewrite <- qR_0, qR_inj. tauto. Qed.
