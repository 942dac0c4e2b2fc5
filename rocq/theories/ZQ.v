(** The embedding of the integers into the rationals [Qc]. *)
From Coq Require Import ZArith QArith Qcanon Lia.
Open Scope Z_scope.

Definition ZQ (z : Z) : Qc := Q2Qc (inject_Z z).

Lemma ZQ_add a b : ZQ (a + b) = (ZQ a + ZQ b)%Qc.
Proof. apply Qc_is_canon. unfold ZQ, Qcplus, Q2Qc, this. rewrite !Qred_correct, inject_Z_plus. reflexivity. Qed.
Lemma ZQ_mul a b : ZQ (a * b) = (ZQ a * ZQ b)%Qc.
Proof. apply Qc_is_canon. unfold ZQ, Qcmult, Q2Qc, this. rewrite !Qred_correct, inject_Z_mult. reflexivity. Qed.
Lemma ZQ_opp a : ZQ (- a) = (- ZQ a)%Qc.
Proof. apply Qc_is_canon. unfold ZQ, Qcopp, Q2Qc, this. rewrite !Qred_correct, inject_Z_opp. reflexivity. Qed.
Lemma ZQ_sub a b : ZQ (a - b) = (ZQ a - ZQ b)%Qc.
Proof. unfold Z.sub, Qcminus. rewrite ZQ_add, ZQ_opp. reflexivity. Qed.
Lemma ZQ_inj a b : ZQ a = ZQ b -> a = b.
Proof.
  intros H. apply inject_Z_injective. rewrite <- (Qred_correct (inject_Z a)), <- (Qred_correct (inject_Z b)).
  apply (f_equal this) in H. unfold ZQ, Q2Qc, this in H. rewrite H. reflexivity.
Qed.
Lemma ZQ_0 : ZQ 0 = 0%Qc. Proof. reflexivity. Qed.
Lemma ZQ_1 : ZQ 1 = 1%Qc. Proof. reflexivity. Qed.
Lemma ZQ_le a b : (ZQ a <= ZQ b)%Qc <-> a <= b.
Proof.
  unfold Qcle, ZQ, Q2Qc, this. rewrite !Qred_correct. rewrite <- Zle_Qle. reflexivity.
Qed.
Lemma ZQ_lt a b : (ZQ a < ZQ b)%Qc <-> a < b.
Proof.
  unfold Qclt, ZQ, Q2Qc, this. rewrite !Qred_correct. rewrite <- Zlt_Qlt. reflexivity.
Qed.
Lemma ZQ_eq0 a : ZQ a = 0%Qc <-> a = 0.
Proof. rewrite <- ZQ_0. split; [apply ZQ_inj|congruence]. Qed.

(** computing with rationals: equal up to the proofs they carry *)
Ltac qc_compute := vm_compute; repeat (first [reflexivity | apply Qc_is_canon; reflexivity | f_equal]).
