(** The determinant of a 2 x 2 integer matrix, for the examples. *)
From Coq Require Import ZArith QArith Qcanon List Lia.
From mathcomp Require Import all_ssreflect all_algebra.
From mathcomp Require Import ssrZ.
From Verif Require Import Base ModMC.
Set Implicit Arguments.
Unset Strict Implicit.
Delimit Scope Z_scope with coqZ.
Import GRing.Theory.

Local Open Scope ring_scope.

Lemma zdet_2 (g : nat -> nat -> Z) : zdet 2 g = (g 0%N 0%N * g 1%N 1%N - g 0%N 1%N * g 1%N 0%N)%coqZ.
Proof.
  rewrite /zdet (expand_det_row _ ord0) !big_ord_recl big_ord0 /cofactor !det_mx11 !mxE /=.
  rewrite /bump /= !addn0 !add0n ?expr0 ?expr1 ?mul1r ?mulN1r ?addr0.
  by rewrite mulrN.
Qed.
