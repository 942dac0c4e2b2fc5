(** More facts about determinants of integer matrices. *)
From Coq Require Import ZArith QArith Qcanon List Lia.
From mathcomp Require Import all_ssreflect all_algebra.
From mathcomp Require Import ssrZ.
From Verif Require Import Base QcTac Vec Matrix MC Det ZQ ModSolver ModMC.
Set Implicit Arguments.
Unset Strict Implicit.
Unset Printing Implicit Defensive.
Import GRing.Theory.
Local Open Scope ring_scope.
Delimit Scope Z_scope with coqZ.

Lemma zdet_ext n (g h : nat -> nat -> Z) : (forall i j, (i < n)%coq_nat -> (j < n)%coq_nat -> g i j = h i j) -> zdet n g = zdet n h.
Proof. move=> H. rewrite /zdet. congr (\det _). apply/matrixP => i j. rewrite !mxE. by apply: H; apply/ltP. Qed.

(** a singular integer matrix has a nonzero integer vector in its null space *)
Lemma singular_null_vector n (g : nat -> nat -> Z) : zdet n g = 0%coqZ ->
  exists x : nat -> Z, (exists k, (k < n)%coq_nat /\ x k <> 0%coqZ) /\ forall i, (i < n)%coq_nat -> zs n (fun j => (g i j * x j)%coqZ) = 0%coqZ.
Proof.
  move=> D. have : (\det ((zmx n n g)^T : 'M[[idomainType of Z]]_n) == 0) by rewrite det_tr; apply/eqP.
  move/det0P => [v Hv E]. case/rV0Pn: Hv => k Hk.
  exists (fun j => if insub j is Some o then v ord0 o else 0%coqZ). split.
  - exists k. split; first by apply/ltP. rewrite valK. by apply/eqP.
  - move=> i /ltP Hi. rewrite zs_big. move/matrixP/(_ ord0 (Ordinal Hi)): E. rewrite !mxE => E. rewrite -[RHS]E.
    apply: eq_bigr => j _. rewrite valK !mxE. exact: Z.mul_comm.
Qed.

(** a first row (1, 0, ..., 0) *)
Lemma zdet_first_row n (g : nat -> nat -> Z) : (forall j, g 0%N j = if Nat.eqb j 0%N then 1%coqZ else 0%coqZ) ->
  zdet n.+1 g = zdet n (fun i j => g i.+1 j.+1).
Proof.
  move=> H. rewrite /zdet (expand_det_row _ ord0) (bigD1 ord0) //= big1.
  - rewrite mxE H addr0 mul1r /cofactor addn0 expr0 mul1r. congr (\det _). apply/matrixP => i j. by rewrite !mxE.
  - move=> j Hj. rewrite mxE H. case: Nat.eqb_spec => [E|_]; last exact: mul0r.
    by case/eqP: Hj; apply: val_inj.
Qed.
