(** Integer matrices of determinant 1. *)
From Coq Require Import ZArith QArith Qcanon List Lia.
From mathcomp Require Import all_ssreflect all_algebra.
From mathcomp Require Import ssrZ.
From Verif Require Import Base QcTac Vec Scalars Matrix MC Det ZQ LinAlg Sylvester GeomMC ModSolver ModMC.
Set Implicit Arguments.
Unset Strict Implicit.
Unset Printing Implicit Defensive.
Import GRing.Theory.
Local Open Scope ring_scope.
Delimit Scope Z_scope with coqZ.

(** a system of equations with determinant 1 has an integer solution *)
Lemma unimod_solve n (u : nat -> nat -> Z) (y : nat -> Z) : zdet n u = 1%coqZ ->
  exists c : nat -> Z, forall i, (i < n)%coq_nat -> zs n (fun j => (u i j * c j)%coqZ) = y i.
Proof.
  move=> D. pose Y : 'cV[ZR]_n := \col_i y i. pose X := \adj (zmx n n u) *m Y.
  exists (fun j => if insub j is Some o then X o ord0 else 0%coqZ). move=> i /ltP Hi. rewrite zs_big.
  have E : zmx n n u *m X = Y. { rewrite /X mulmxA mul_mx_adj. rewrite -/(zdet n u) D. exact: mul1mx. }
  move/matrixP/(_ (Ordinal Hi) ord0): E. rewrite !mxE => <-. apply: eq_bigr => j _. by rewrite valK !mxE.
Qed.

(** the matrix product of an inverse and a transpose has determinant 1 *)
Lemma inverse_transpose_det n (b x : nat -> nat -> Qc) (u : nat -> nat -> Z) : solves n n n b delta x ->
  (forall i j, (i < n)%coq_nat -> (j < n)%coq_nat -> ZQ (u i j) = sumf n (fun k => (x i k * b j k)%Qc)) -> zdet n u = 1%coqZ.
Proof.
  move=> S H. apply: ZQ_inj. rewrite ZQ_det.
  have -> : mxf n n (fun i j => ZQ (u i j)) = (mxf n n x : 'M[F]_n) *m (mxf n n b)^T.
  { apply/matrixP => i j. rewrite !mxE H; [|by apply/ltP|by apply/ltP]. rewrite (@sumf_big Qc_idomainType). apply: eq_bigr => k _. by rewrite !mxE. }
  rewrite det_mulmx det_tr mulrC -det_mulmx.
  have -> : (mxf n n b : 'M[F]_n) *m mxf n n x = 1%:M.
  { apply/matrixP => i j. rewrite !mxE. have := S i j (elimT ltP (ltn_ord i)) (elimT ltP (ltn_ord j)). rewrite (@sumf_big Qc_idomainType) => E.
    transitivity (\sum_(k < n) (b i k * x k j : F)); first by apply: eq_bigr => k _; rewrite !mxE.
    rewrite [LHS]E. rewrite /delta eqb_ord eq_sym. by case: (i == j). }
  by rewrite det1.
Qed.

(** an integer matrix with an integer inverse has determinant 1 or -1 *)
Lemma integral_inverse_det n (m x : nat -> nat -> Qc) (u w : nat -> nat -> Z) : solves n n n m Matrix.delta x ->
  (forall i j, (i < n)%coq_nat -> (j < n)%coq_nat -> m i j = ZQ (u i j)) -> (forall i j, (i < n)%coq_nat -> (j < n)%coq_nat -> x i j = ZQ (w i j)) ->
  exists z, LinAlg.determinant (mk n n m) = Ret (ZQ z) /\ (z = 1%coqZ \/ z = (-1)%coqZ).
Proof.
  move=> S Hu Hw.
  have D : LinAlg.determinant (mk n n m) = Ret (\det (mxf n n m : 'M[F]_n)). { exact: (@Det.determinant_mk _ Qc_dom). }
  exists (zdet n u). have Em : (mxf n n m : 'M[F]_n) = mxf n n (fun i j => ZQ (u i j)). { apply/matrixP => i j. rewrite !mxE Hu //; by apply/ltP. }
  have Ex : (mxf n n x : 'M[F]_n) = mxf n n (fun i j => ZQ (w i j)). { apply/matrixP => i j. rewrite !mxE Hw //; by apply/ltP. }
  split; first by rewrite D Em -ZQ_det.
  have E : (zdet n u * zdet n w)%coqZ = 1%coqZ.
  { apply: ZQ_inj. rewrite ZQ_mul !ZQ_det -Em -Ex.
    have -> : (\det (mxf n n m : 'M[F]_n) * \det (mxf n n x : 'M[F]_n))%Qc = \det ((mxf n n m : 'M[F]_n) *m (mxf n n x : 'M[F]_n)) by rewrite det_mulmx.
    have -> : (mxf n n m : 'M[F]_n) *m mxf n n x = 1%:M.
    { apply/matrixP => i j. rewrite !mxE. have := S i j (elimT ltP (ltn_ord i)) (elimT ltP (ltn_ord j)). rewrite (@sumf_big Qc_idomainType) => E.
      transitivity (\sum_(k < n) (m i k * x k j : F)); first by apply: eq_bigr => k _; rewrite !mxE.
      rewrite [LHS]E. rewrite /Matrix.delta eqb_ord eq_sym. by case: (i == j). }
    by rewrite det1. }
  exact: Z.mul_eq_1 E.
Qed.
