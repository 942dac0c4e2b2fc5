(** Linear and non-linear arithmetic for [Qc] by translation to [Q]. *)
From Coq Require Import ZArith QArith Qcanon Lqa Setoid.

Lemma Qc_eq_Q (a b : Qc) : a = b <-> (this a == this b)%Q.
Proof. split; [intros ->; reflexivity|apply Qc_is_canon]. Qed.
Lemma this_add (a b : Qc) : (this (a + b)%Qc == this a + this b)%Q.
Proof. unfold Qcplus, Q2Qc, this. rewrite Qred_correct. reflexivity. Qed.
Lemma this_mul (a b : Qc) : (this (a * b)%Qc == this a * this b)%Q.
Proof. unfold Qcmult, Q2Qc, this. rewrite Qred_correct. reflexivity. Qed.
Lemma this_opp (a : Qc) : (this (- a)%Qc == - this a)%Q.
Proof. unfold Qcopp, Q2Qc, this. rewrite Qred_correct. reflexivity. Qed.
Lemma this_sub (a b : Qc) : (this (a - b)%Qc == this a - this b)%Q.
Proof. unfold Qcminus. rewrite this_add, this_opp. reflexivity. Qed.
Lemma this_0 : this 0%Qc = 0%Q. Proof. reflexivity. Qed.
Lemma this_1 : this 1%Qc = 1%Q. Proof. reflexivity. Qed.
Lemma this_Q2Qc q : (this (Q2Qc q) == q)%Q.
Proof. apply Qred_correct. Qed.

Ltac qc2q_in H :=
  repeat first [rewrite this_add in H | rewrite this_mul in H | rewrite this_sub in H | rewrite this_opp in H
               | rewrite this_Q2Qc in H | rewrite this_0 in H | rewrite this_1 in H].
Ltac qc2q_goal :=
  repeat first [rewrite this_add | rewrite this_mul | rewrite this_sub | rewrite this_opp
               | rewrite this_Q2Qc | rewrite this_0 | rewrite this_1].

Ltac qc2q :=
  unfold Qclt, Qcle in *;
  repeat match goal with
  | H : @eq Qc _ _ |- _ => apply Qc_eq_Q in H
  | H : @eq Qc _ _ -> False |- _ => rewrite Qc_eq_Q in H
  | H : ~ @eq Qc _ _ |- _ => rewrite Qc_eq_Q in H
  | |- @eq Qc _ _ => apply Qc_is_canon
  | |- ~ @eq Qc _ _ => rewrite Qc_eq_Q
  | |- @eq Qc _ _ -> False => rewrite Qc_eq_Q
  end;
  repeat match goal with
  | H : (_ == _)%Q |- _ => progress qc2q_in H
  | H : (_ < _)%Q |- _ => progress qc2q_in H
  | H : (_ <= _)%Q |- _ => progress qc2q_in H
  | H : ~ (_ == _)%Q |- _ => progress qc2q_in H
  end; qc2q_goal.

Ltac qclra := qc2q; lra.
Ltac qcnra := qc2q; nra.

Local Open Scope Qc_scope.

Lemma Qc_le_lt_dec (a b : Qc) : {a <= b} + {b < a}.
Proof.
  destruct (Qclt_le_dec b a); auto.
Qed.
Lemma Qc_sq_nonneg (a : Qc) : 0 <= a * a.
Proof. qcnra. Qed.
Lemma Qc_sq_pos (a : Qc) : a <> 0 -> 0 < a * a.
Proof.
  intros H. destruct (Qc_dec 0 a) as [[G|G]|G].
  - qcnra.
  - qcnra.
  - congruence.
Qed.
Lemma Qc_mul_pos (a b : Qc) : 0 < a -> 0 < b -> 0 < a * b.
Proof. intros. qcnra. Qed.
Lemma Qc_mul_pos_inv (a b : Qc) : 0 < a -> 0 < a * b -> 0 < b.
Proof.
  intros Ha Hab. destruct (Qc_le_lt_dec b 0) as [H|H]; auto. exfalso. qcnra.
Qed.
Lemma Qc_test (a b c : Qc) : a < b -> b <= c - 1 -> a + 1 < c.
Proof. intros. qclra. Qed.
