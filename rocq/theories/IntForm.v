(** Quadratic forms with integer coefficients: the leading minors are the same
    numbers over the integers and over the rationals, and a form that is
    positive on integer vectors is positive on rational ones. *)
From Coq Require Import ZArith QArith Qcanon List Lia.
From mathcomp Require Import all_ssreflect all_algebra.
From mathcomp Require Import ssrZ.
From Verif Require Import Base QcTac Vec Scalars Matrix MC Det ZQ LinAlg Sylvester GeomMC ModSolver ModMC.
Set Implicit Arguments.
Unset Strict Implicit.
Unset Printing Implicit Defensive.
Import GRing.Theory.
Local Open Scope ring_scope.
Delimit Scope Z_scope with coqZ.

Lemma determinant_ZQ n (f : nat -> nat -> Z) :
  exists z, LinAlg.determinant (mk n n f) = Ret z /\ LinAlg.determinant (mk n n (fun i j => ZQ (f i j))) = Ret (ZQ z).
Proof.
  exists (zdet n f). split.
  - exact: (@Det.determinant_mk _ Z_dom).
  - rewrite ZQ_det. exact: (@Det.determinant_mk _ Qc_dom).
Qed.

Lemma ssr_lt m n : (m < n)%coq_nat -> (m < n)%N.
Proof. by move/ltP. Qed.
