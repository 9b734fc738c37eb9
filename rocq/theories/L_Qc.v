(** Arithmetic on canonical rationals: transport to Q and lra. *)
From Coq Require Export QArith Qcanon Lqa Qabs.
From Coq Require Import ZArith Lia Bool.

Lemma this_add x y : (this (x + y)%Qc == this x + this y)%Q.
Proof. apply Qred_correct. Qed.
Lemma this_mul x y : (this (x * y)%Qc == this x * this y)%Q.
Proof. apply Qred_correct. Qed.
Lemma this_opp x : (this (- x)%Qc == - this x)%Q.
Proof. apply Qred_correct. Qed.
Lemma this_sub x y : (this (x - y)%Qc == this x - this y)%Q.
Proof. unfold Qcminus. rewrite this_add, this_opp. reflexivity. Qed.
Lemma this_inv x : (this (/ x)%Qc == / this x)%Q.
Proof. apply Qred_correct. Qed.
Lemma this_div x y : (this (x / y)%Qc == this x / this y)%Q.
Proof. unfold Qcdiv. rewrite this_mul, this_inv. reflexivity. Qed.
Lemma this_Q2Qc q : (this (Q2Qc q) == q)%Q.
Proof. apply Qred_correct. Qed.
Lemma this_0 : (this 0%Qc == 0)%Q. Proof. reflexivity. Qed.
Lemma this_1 : (this 1%Qc == 1)%Q. Proof. reflexivity. Qed.
Lemma this_eq x y : (this x == this y)%Q <-> x = y.
Proof. split; [apply Qc_is_canon|intros ->; reflexivity]. Qed.

(** integers as canonical rationals *)
Definition Zq (z : Z) : Qc := Q2Qc (inject_Z z).
Definition Nq (n : nat) : Qc := Zq (Z.of_nat n).
Lemma this_Zq z : (this (Zq z) == inject_Z z)%Q. Proof. apply this_Q2Qc. Qed.

#[global] Arguments Qcplus : simpl never.
#[global] Arguments Qcmult : simpl never.
#[global] Arguments Qcopp : simpl never.
#[global] Arguments Qcminus : simpl never.
#[global] Arguments Qcinv : simpl never.
#[global] Arguments Qcdiv : simpl never.
#[global] Arguments Q2Qc : simpl never.

Ltac qc_push :=
  repeat match goal with
  | |- @eq Qc _ _ => apply this_eq
  | |- ~ @eq Qc _ _ => rewrite <- this_eq
  | H : @eq Qc _ _ |- _ => apply this_eq in H
  | H : ~ @eq Qc _ _ |- _ => rewrite <- this_eq in H
  end;
  unfold Qcle, Qclt in *;
  repeat (rewrite ?this_add, ?this_mul, ?this_opp, ?this_sub, ?this_Zq, ?this_Q2Qc, ?this_0, ?this_1);
  repeat match goal with
  | H : context[this (_ + _)%Qc] |- _ => rewrite this_add in H
  | H : context[this (_ * _)%Qc] |- _ => rewrite this_mul in H
  | H : context[this (_ - _)%Qc] |- _ => rewrite this_sub in H
  | H : context[this (- _)%Qc] |- _ => rewrite this_opp in H
  | H : context[this (Zq _)] |- _ => rewrite this_Zq in H
  | H : context[this (Q2Qc _)] |- _ => rewrite this_Q2Qc in H
  | H : context[this 0%Qc] |- _ => change (this 0%Qc) with 0%Q in H
  | H : context[this 1%Qc] |- _ => change (this 1%Qc) with 1%Q in H
  end.
Ltac zq_push :=
  repeat (rewrite ?inject_Z_plus, ?inject_Z_mult, ?inject_Z_opp);
  repeat match goal with
  | H : context[inject_Z (_ + _)] |- _ => rewrite inject_Z_plus in H
  | H : context[inject_Z (_ * _)] |- _ => rewrite inject_Z_mult in H
  | H : context[inject_Z (- _)] |- _ => rewrite inject_Z_opp in H
  end.
Ltac qclra := intros; qc_push; lra.
Ltac qcnra := intros; qc_push; nra.

Lemma Zq_add a b : Zq (a + b) = (Zq a + Zq b)%Qc.
Proof. apply this_eq. rewrite this_add, !this_Zq. rewrite inject_Z_plus; reflexivity. Qed.
Lemma Zq_mul a b : Zq (a * b) = (Zq a * Zq b)%Qc.
Proof. apply this_eq. rewrite this_mul, !this_Zq. rewrite inject_Z_mult; reflexivity. Qed.
Lemma Zq_opp a : Zq (- a) = (- Zq a)%Qc.
Proof. apply this_eq. rewrite this_opp, !this_Zq. rewrite inject_Z_opp; reflexivity. Qed.
Lemma Zq_sub a b : Zq (a - b) = (Zq a - Zq b)%Qc.
Proof. unfold Z.sub, Qcminus. rewrite Zq_add, Zq_opp. reflexivity. Qed.
Lemma Zq_0 : Zq 0 = 0%Qc. Proof. reflexivity. Qed.
Lemma Zq_1 : Zq 1 = 1%Qc. Proof. reflexivity. Qed.
Lemma Zq_le a b : (Zq a <= Zq b)%Qc <-> (a <= b)%Z.
Proof. unfold Qcle. rewrite !this_Zq. rewrite <- Zle_Qle. tauto. Qed.
Lemma Zq_lt a b : (Zq a < Zq b)%Qc <-> (a < b)%Z.
Proof. unfold Qclt. rewrite !this_Zq. rewrite <- Zlt_Qlt. tauto. Qed.
Lemma Zq_inj a b : Zq a = Zq b <-> a = b.
Proof. split; [|congruence]. intros H. apply this_eq in H. rewrite !this_Zq in H. apply inject_Z_injective; auto. Qed.

Lemma Qcmult_inv_r' x : x <> 0%Qc -> (x * / x = 1)%Qc.
Proof. apply Qcmult_inv_r. Qed.

Lemma Qc_ltb_spec (x y : Qc) : {(x < y)%Qc} + {(y <= x)%Qc}.
Proof. destruct (Qclt_le_dec x y); auto. Qed.
