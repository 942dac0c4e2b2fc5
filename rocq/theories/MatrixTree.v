(** The matrix-tree theorem for quotient graphs, in the form: the reduced Laplacian's determinant counts the choices of a
    directed edge out of every vertex but the first for which following the chosen edges leads to the first vertex. *)
From Coq Require Import ZArith QArith Qcanon List Lia.
From mathcomp Require Import all_ssreflect all_algebra.
From mathcomp Require Import ssrZ.
From Verif Require Import Base QcTac Vec Matrix MC Det ZQ ModSolver ModMC DetZ.
Set Implicit Arguments.
Unset Strict Implicit.
Unset Printing Implicit Defensive.
Import GRing.Theory.
Local Open Scope ring_scope.
Delimit Scope Z_scope with coqZ.

(** linearity in row k *)
Lemma zdet_row_add n (f : nat -> nat -> Z) k (u v : nat -> Z) : (k < n)%coq_nat ->
  zdet n (fun i j => if Nat.eqb i k then (u j + v j)%coqZ else f i j) =
  (zdet n (fun i j => if Nat.eqb i k then u j else f i j) + zdet n (fun i j => if Nat.eqb i k then v j else f i j))%coqZ.
Proof.
  move=> /ltP Hk. rewrite /zdet.
  rewrite (@determinant_multilinear _ n _ (zmx n n (fun i j => if Nat.eqb i k then u j else f i j)) (zmx n n (fun i j => if Nat.eqb i k then v j else f i j)) (Ordinal Hk) 1%coqZ 1%coqZ).
  - by rewrite !mul1r.
  - apply/rowP => j. rewrite !mxE /= Nat.eqb_refl. rewrite !mul1r. by [].
  - apply/matrixP => i j. rewrite !mxE /=. by case: Nat.eqb_spec => // E; case/eqP: (neq_lift (Ordinal Hk) i); apply: val_inj.
  - apply/matrixP => i j. rewrite !mxE /=. by case: Nat.eqb_spec => // E; case/eqP: (neq_lift (Ordinal Hk) i); apply: val_inj.
Qed.

Lemma zdet_row_zero n (f : nat -> nat -> Z) k : (k < n)%coq_nat -> (forall j, (j < n)%coq_nat -> f k j = 0%coqZ) -> zdet n f = 0%coqZ.
Proof.
  move=> /ltP Hk H. rewrite /zdet (expand_det_row _ (Ordinal Hk)) big1 // => j _. rewrite mxE /= H; last by apply/ltP. exact: mul0r.
Qed.

(** a vector in the null space that is not zero *)
Lemma zdet_null n (f : nat -> nat -> Z) (x : nat -> Z) k : (k < n)%coq_nat -> x k <> 0%coqZ ->
  (forall i, (i < n)%coq_nat -> zs n (fun j => (f i j * x j)%coqZ) = 0%coqZ) -> zdet n f = 0%coqZ.
Proof.
  move=> /ltP Hk Nk H. have : (\det ((zmx n n f)^T : 'M[[idomainType of Z]]_n) == 0).
  { apply/det0P. exists (\row_j (x j : [idomainType of Z])).
    - apply/rV0Pn. exists (Ordinal Hk). rewrite mxE /=. by apply/eqP.
    - apply/rowP => i. rewrite !mxE. have E := H i (elimT ltP (ltn_ord i)). rewrite zs_big in E. rewrite -[RHS]E.
      apply: eq_bigr => j _. rewrite !mxE. exact: Z.mul_comm. }
  by rewrite det_tr => /eqP.
Qed.
