(** Sums of traces over a finite group of matrices: facts for C102.  Nothing here models code. *)
From Coq Require Import ZArith QArith Qcanon List Permutation Lia.
From mathcomp Require Import all_ssreflect all_algebra all_character.
From Verif Require Import Base QcTac Vec Matrix MC Det Sylvester Cube CubeMC ZQ.
Set Implicit Arguments.
Unset Strict Implicit.
Unset Printing Implicit Defensive.
Import GRing.Theory.
Local Open Scope ring_scope.

Lemma natr_ZQ n : (n%:R : F) = ZQ (Z.of_nat n).
Proof.
  elim: n => [|n IH]; first by apply: Qc_is_canon.
  rewrite -addn1 natrD IH Nat2Z.inj_add ZQ_add. by congr (_ + _).
Qed.
Lemma natr_neq0 n : (0 < n)%N -> (n%:R : F) != 0.
Proof.
  move=> Hn. apply/eqP => E. rewrite natr_ZQ -[RHS]/(ZQ 0) in E. apply ZQ_inj in E. move/ltP: Hn => Hn. lia.
Qed.
(** an idempotent matrix has its rank as trace *)
Lemma idempotent_trace n (p : 'M[F]_n) : p *m p = p -> \tr p = (\rank p)%:R.
Proof.
  move=> E. have B := mulmx_base p. rewrite -{1}B mxtrace_mulC.
  have C : row_base p *m col_base p = 1%:M; last by rewrite C mxtrace1.
  have E2 : col_base p *m (row_base p *m col_base p) *m row_base p = col_base p *m 1%:M *m row_base p.
  { rewrite mulmx1. transitivity ((col_base p *m row_base p) *m (col_base p *m row_base p)); first by rewrite !mulmxA. by rewrite B. }
  have R := row_base_free p. have Fu := col_base_full p.
  have E3 : col_base p *m (row_base p *m col_base p) = col_base p *m 1%:M := row_free_inj R E2.
  apply: (row_full_inj Fu). exact: E3.
Qed.

Lemma big_perm (T : Type) n (f : T -> 'M[F]_n) l l' : Permutation l l' -> \sum_(x <- l) f x = \sum_(x <- l') f x.
Proof.
  elim=> [|x k k' _ IH|x y k|k1 k2 k3 _ -> _ ->] //; rewrite ?big_cons ?IH //. by rewrite addrCA.
Qed.
Lemma big_map_coq (A B : Type) n (h : A -> B) (f : B -> 'M[F]_n) l : \sum_(x <- List.map h l) f x = \sum_(x <- l) f (h x).
Proof. elim: l => [|x l IH]; rewrite /= ?big_nil ?big_cons ?IH //. Qed.
Lemma big_eq_in (A : Type) n (f h : A -> 'M[F]_n) l : (forall x, List.In x l -> f x = h x) -> \sum_(x <- l) f x = \sum_(x <- l) h x.
Proof.
  elim: l => [|x l IH] H; rewrite ?big_nil ?big_cons //. rewrite H ?IH //; [|by left]. by move=> y Hy; apply: H; right.
Qed.
Lemma size_length (A : Type) (l : list A) : size l = length l. Proof. by elim: l => //= x l ->. Qed.
Lemma big_const_coq (A : Type) n (m : 'M[F]_n) (l : list A) : \sum_(x <- l) m = (length l)%:R *: m.
Proof.
  elim: l => [|x l IH] /=; rewrite ?big_nil ?big_cons ?scale0r // IH. by rewrite -addn1 natrD scalerDl scale1r addrC.
Qed.

Lemma rank_sum n (T : M3 -> 'M[F]_n) (l : list M3) : (forall a b, T (mul3 a b) = T a *m T b) ->
  (forall a, List.In a l -> Permutation (List.map (mul3 a) l) l) -> exists r : nat, \sum_(b <- l) \tr (T b) = (length l * r)%:R.
Proof.
  move=> M P. case El: l => [|x0 l0]; first by exists 0%N; rewrite big_nil.
  rewrite -El. have N : (0 < length l)%N by rewrite El.
  clear x0 l0 El. set s := \sum_(b <- l) T b.
  have E1 : forall a, List.In a l -> T a *m s = s.
  { move=> a Ha. rewrite /s mulmx_sumr. rewrite -[RHS](big_perm T (P a Ha)) big_map_coq. by apply: big_eq_in => b _; rewrite M. }
  have E2 : s *m s = (length l)%:R *: s.
  { rewrite {1}/s mulmx_suml. rewrite (big_eq_in (h := fun=> s)) //. exact: big_const_coq. }
  set p := (length l)%:R^-1 *: s.
  have N0 := natr_neq0 N.
  have Ip : p *m p = p.
  { rewrite /p -scalemxAl -scalemxAr E2 !scalerA -mulrA mulVf // mulr1. by []. }
  exists (\rank p). rewrite natrM -(idempotent_trace Ip) /p linearZ /= mulrA mulfV // mul1r /s.
  by rewrite raddf_sum.
Qed.

(** the traces of the matrices s a, and their powers *)
Definition Zsum {A} (f : A -> Z) (l : list A) : Z := List.fold_right (fun a s => Z.add (f a) s) Z0 l.
Lemma ZQ_sum A (f : A -> Z) l : ZQ (Zsum f l) = \sum_(a <- l) (ZQ (f a) : F).
Proof. elim: l => [|x l IH]; rewrite ?big_nil ?big_cons //= ZQ_add IH //. Qed.
Lemma divides_sum (s : M3 -> M3) (f : Z -> Z) n (T : M3 -> 'M[F]_n) l : (forall a b, T (mul3 a b) = T a *m T b) ->
  (forall a, \tr (T a) = ZQ (f (tr3 (s a)))) -> (forall a, List.In a l -> Permutation (List.map (mul3 a) l) l) ->
  Z.divide (Z.of_nat (length l)) (Zsum (fun a => f (tr3 (s a))) l).
Proof.
  move=> M Tr P. case: (rank_sum M P) => r E. exists (Z.of_nat r). apply: ZQ_inj. rewrite ZQ_sum.
  have -> : \sum_(a <- l) (ZQ (f (tr3 (s a))) : F) = \sum_(b <- l) \tr (T b) by apply: eq_bigr => a _; rewrite Tr.
  by rewrite E natr_ZQ Nat2Z.inj_mul Z.mul_comm.
Qed.
Section Powers.
  Variables (s : M3 -> M3) (l : list M3).
  Hypothesis Hs : forall a b, s (mul3 a b) = mul3 (s a) (s b).
  Hypothesis P : forall a, List.In a l -> Permutation (List.map (mul3 a) l) l.
  Let T1 a := toM (s a).
  Let T2 a := tprod (T1 a) (T1 a).
  Let T3 a := tprod (T1 a) (T2 a).
  Let T4 a := tprod (T1 a) (T3 a).
  Let M1 a b : T1 (mul3 a b) = T1 a *m T1 b. Proof. by rewrite /T1 Hs toM_mul. Qed.
  Let M2 a b : T2 (mul3 a b) = T2 a *m T2 b. Proof. by rewrite /T2 M1 tprodE. Qed.
  Let M3' a b : T3 (mul3 a b) = T3 a *m T3 b. Proof. by rewrite /T3 M1 M2 tprodE. Qed.
  Let M4 a b : T4 (mul3 a b) = T4 a *m T4 b. Proof. by rewrite /T4 M1 M3' tprodE. Qed.
  Lemma divides_1 : Z.divide (Z.of_nat (length l)) (Zsum (fun a => tr3 (s a)) l).
  Proof. apply: (divides_sum (f := fun t => t) M1) => // a. exact: toM_tr. Qed.
  Lemma divides_2 : Z.divide (Z.of_nat (length l)) (Zsum (fun a => Z.mul (tr3 (s a)) (tr3 (s a))) l).
  Proof. apply: (divides_sum (f := fun t => Z.mul t t) M2) => // a. by rewrite /T2 mxtrace_prod /T1 !toM_tr !ZQ_mul. Qed.
  Lemma divides_3 : Z.divide (Z.of_nat (length l)) (Zsum (fun a => Z.mul (tr3 (s a)) (Z.mul (tr3 (s a)) (tr3 (s a)))) l).
  Proof. apply: (divides_sum (f := fun t => Z.mul t (Z.mul t t)) M3') => // a. by rewrite /T4 /T3 /T2 !mxtrace_prod /T1 !toM_tr !ZQ_mul. Qed.
  Lemma divides_4 : Z.divide (Z.of_nat (length l)) (Zsum (fun a => Z.mul (tr3 (s a)) (Z.mul (tr3 (s a)) (Z.mul (tr3 (s a)) (tr3 (s a))))) l).
  Proof. apply: (divides_sum (f := fun t => Z.mul t (Z.mul t (Z.mul t t))) M4) => // a. by rewrite /T4 /T3 /T2 !mxtrace_prod /T1 !toM_tr !ZQ_mul. Qed.
End Powers.
