(** A matrix of finite order and its inverse have the same trace: fact for C101, by an invariant scalar product.  Nothing here models code. *)
From Coq Require Import ZArith QArith Qcanon List Lia Lqa.
From mathcomp Require Import all_ssreflect all_algebra.
From Verif Require Import Base QcTac Vec Matrix MC Det Sylvester Cube ZQ.
Set Implicit Arguments.
Unset Strict Implicit.
Unset Printing Implicit Defensive.
Import GRing.Theory.
Local Open Scope ring_scope.

Lemma square_ge (x : Qc) : (0 <= x * x)%Qc.
Proof.
  qc2q; qc2q_goal; nra.
Qed.
Lemma square_0 (x : Qc) : (x * x)%Qc = 0%Qc -> x = 0%Qc.
Proof. by case/Qcmult_integral. Qed.
Lemma sum_ge n (f : 'I_n -> F) : (forall i, (0 <= f i)%Qc) -> (0 <= (\sum_i f i : F))%Qc.
Proof.
  move=> H. apply: (big_ind (fun x : F => (0 <= x)%Qc)) => //.
  move=> x y Hx Hy. have := Qcplus_le_compat _ _ _ _ Hx Hy. by rewrite Qcplus_0_l.
Qed.
Lemma sum_0 n (f : 'I_n -> F) : (forall i, (0 <= f i)%Qc) -> \sum_i f i = 0 -> forall i, f i = 0.
Proof.
  elim: n f => [|n IH] f H E i; first by case: i.
  rewrite big_ord_recl in E.
  have H0 : (0 <= f ord0)%Qc by apply: H.
  have H1 : (0 <= (\sum_(i < n) f (lift ord0 i) : F))%Qc by apply: sum_ge.
  have E0 : f ord0 = 0.
  { apply: Qcle_antisym => //. have := Qcplus_le_compat _ _ _ _ (Qcle_refl (f ord0)) H1. rewrite Qcplus_0_r. by rewrite [(_ + _)%Qc]E. }
  rewrite E0 add0r in E. case: (unliftP ord0 i) => [j ->|-> //]. exact: (IH (fun j => f (lift ord0 j))).
Qed.

Section Order.
  Variables (n : nat) (u : 'M[F]_n.+1) (p : nat).
  Hypothesis Hu : u ^+ p.+1 = 1.
  Let S : 'M[F]_n.+1 := \sum_(k < p.+1) (u ^+ k)^T *m u ^+ k.

  Lemma S_inv : u^T *m S *m u = S.
  Proof.
    rewrite /S mulmx_sumr mulmx_suml.
    have E : forall k : 'I_p.+1, u^T *m ((u ^+ k)^T *m u ^+ k) *m u = (u ^+ k.+1)^T *m u ^+ k.+1.
    { move=> k. by rewrite !mulmxA -trmx_mul -mulmxA -[u ^+ k *m u]/(u ^+ k * u) -exprSr. }
    rewrite (eq_bigr (fun k : 'I_p.+1 => (u ^+ k.+1)^T *m u ^+ k.+1)); last by move=> k _; apply: E.
    rewrite big_ord_recr /= Hu [in RHS]big_ord_recl /= expr0 addrC. congr (_ + _).
  Qed.
  Lemma S_unit : S \in unitmx.
  Proof.
    rewrite -row_free_unit. apply: inj_row_free => v E.
    have E1 : (v *m S *m v^T) ord0 ord0 = 0 by rewrite E mul0mx mxE.
    have E2 : v *m S *m v^T = \sum_(k < p.+1) (v *m (u ^+ k)^T) *m (v *m (u ^+ k)^T)^T.
    { rewrite /S mulmx_sumr mulmx_suml. apply: eq_bigr => k _. by rewrite trmx_mul trmxK !mulmxA. }
    rewrite E2 summxE in E1.
    have Q : forall w : 'rV[F]_n.+1, (0 <= ((w *m w^T) ord0 ord0 : F))%Qc.
    { move=> w. rewrite mxE. apply: sum_ge => i. rewrite mxE. exact: square_ge. }
    have E3 := sum_0 (f := fun k : 'I_p.+1 => ((v *m (u ^+ k)^T) *m (v *m (u ^+ k)^T)^T) ord0 ord0) (fun k => Q _) E1 ord0.
    rewrite /= expr0 trmx1 mulmx1 mxE in E3.
    apply/rowP => j. rewrite [RHS]mxE.
    have E4 := sum_0 (f := fun j => v ord0 j * v^T j ord0) _ E3 j.
    apply: square_0. rewrite -[LHS]/(v ord0 j * v ord0 j). have := E4. rewrite mxE. apply=> i. rewrite mxE. exact: square_ge.
  Qed.
  Lemma trace_inverse : \tr (u ^+ p) = \tr u.
  Proof.
    have E : u^T *m S = S *m u ^+ p.
    { have := f_equal (fun m => m *m u ^+ p) S_inv. rewrite -mulmxA -[u *m u ^+ p]/(u * u ^+ p) -exprS Hu mulmx1. by move=> <-. }
    have E2 : u^T = S *m u ^+ p *m invmx S by rewrite -E mulmxK // S_unit.
    by rewrite -(mxtrace_tr u) E2 mxtrace_mulC mulKmx // S_unit.
  Qed.
End Order.

(** for the integer matrices of Cube.v *)
Definition ent (a : M3) (i j : nat) : Z :=
  match i, j with
  | 0%N, 0%N => e00 a | 0%N, 1%N => e01 a | 0%N, _ => e02 a
  | 1%N, 0%N => e10 a | 1%N, 1%N => e11 a | 1%N, _ => e12 a
  | _, 0%N => e20 a | _, 1%N => e21 a | _, _ => e22 a end.
Definition toM (a : M3) : 'M[F]_3 := \matrix_(i, j) ZQ (ent a i j).
Lemma ent_mul a b i j : (i < 3)%N -> (j < 3)%N -> ent (mul3 a b) i j = Z.add (Z.add (Z.mul (ent a i 0) (ent b 0 j)) (Z.mul (ent a i 1) (ent b 1 j))) (Z.mul (ent a i 2) (ent b 2 j)).
Proof. by case: i => [|[|[|i]]] //; case: j => [|[|[|j]]]. Qed.
Lemma toM_mul a b : toM (mul3 a b) = toM a *m toM b.
Proof.
  apply/matrixP => i j. rewrite !mxE !big_ord_recl big_ord0 !mxE /= ent_mul // !ZQ_add !ZQ_mul /bump /= !addn0 addn1.
  rewrite /GRing.add /GRing.mul /GRing.zero /=. ring.
Qed.
Lemma toM_one : toM one3 = 1.
Proof. apply/matrixP => i j. rewrite !mxE. by case: i => [[|[|[|i]]] Hi] //; case: j => [[|[|[|j]]] Hj] //. Qed.
Lemma toM_pow a n : toM (pow3 a n) = toM a ^+ n.
Proof. elim: n => [|n IH] /=; [by rewrite toM_one expr0|]. by rewrite toM_mul IH exprS. Qed.
Lemma toM_tr a : \tr (toM a) = ZQ (tr3 a).
Proof.
  rewrite /mxtrace !big_ord_recl big_ord0 !mxE /= /tr3 !ZQ_add /bump /= ?addn0 ?addn1. rewrite /GRing.add /GRing.zero /=. ring.
Qed.
Lemma same_trace (a : M3) (p : nat) : lt 0 p -> pow3 a p = one3 -> tr3 (pow3 a (Nat.sub p 1)) = tr3 a.
Proof.
  case: p => [|p] Hp Fin; first by lia.
  rewrite /= Nat.sub_0_r. apply: ZQ_inj. rewrite -!toM_tr toM_pow. apply: trace_inverse. by rewrite -toM_pow Fin toM_one.
Qed.
Theorem finite_order_3 (a : M3) (p : nat) : lt 0 p -> pow3 a p = one3 -> exists k, List.In k (1 :: 2 :: 3 :: 4 :: 6 :: nil)%N /\ pow3 a k = one3.
Proof. move=> Hp Fin. apply: (@finite_order a p) => //. exact: same_trace. Qed.
