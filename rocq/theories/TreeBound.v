(** The determinant of a matrix with non-positive entries off the diagonal and non-negative row sums lies between 0 and
    the product of the diagonal.  Pure mathematics, used for the Laplacian of a quotient graph. *)
From Coq Require Import ZArith QArith Qcanon List Lia.
From mathcomp Require Import all_ssreflect all_algebra.
From mathcomp Require Import ssrZ.
From Verif Require Import Base QcTac Vec Matrix MC Det ZQ Sylvester GeomMC ModSolver ModMC.
Set Implicit Arguments.
Unset Strict Implicit.
Unset Printing Implicit Defensive.
Import GRing.Theory.
Local Open Scope ring_scope.
Delimit Scope Z_scope with coqZ.

Lemma Qceq_le (a b : Qc) : a = b -> (a <= b)%Qc.
Proof. move=> ->. exact: Qcle_refl. Qed.
Lemma Qc_inv_pos (a : Qc) : (0 < a)%Qc -> (0 < / a)%Qc.
Proof.
  move=> H. have N : a <> 0%Qc by move=> E; rewrite E in H; exact: (Qclt_not_eq _ _ H).
  have E : (a * / a = 1)%Qc by exact: Qcmult_inv_r. move: E H. move: (/ a)%Qc => b E H.
  case: (Qc_le_lt_dec b 0) => // L. exfalso. qcnra.
Qed.

Lemma sum_nonpos n (h : nat -> Qc) : (forall i, (i < n)%N -> (h i <= 0)%Qc) -> (\sum_(i < n) (h i : F) <= 0)%Qc.
Proof.
  elim: n => [|n IH] H; first by rewrite big_ord0; exact: Qcle_refl.
  rewrite big_ord_recr /=. have A := IH (fun i Hi => H i (ltnW Hi)). have B := H n (ltnSn n).
  change (\sum_(i < n) (h i : F) + h n <= 0)%Qc. move: A B. move: (\sum_(i < n) _) (h n) => x y. clear. intros. qclra.
Qed.

Lemma sum_le_term n (h : nat -> Qc) k : (k < n)%N -> (forall i, (i < n)%N -> (h i <= 0)%Qc) -> (\sum_(i < n) (h i : F) <= h k)%Qc.
Proof.
  elim: n => [|n IH] // Hk H. rewrite big_ord_recr /=.
  change (\sum_(i < n) (h i : F) + h n <= h k)%Qc.
  have B := H n (ltnSn n). move: Hk. rewrite ltnS leq_eqVlt => /orP [/eqP ->|Hk].
  - have A := @sum_nonpos n h (fun i Hi => H i (ltnW Hi)). move: A B. move: (\sum_(i < n) _) (h n) => x y. clear. intros. qclra.
  - have A := IH Hk (fun i Hi => H i (ltnW Hi)). move: A B. move: (\sum_(i < n) _) (h n) (h k) => x y z. clear. intros. qclra.
Qed.

Lemma prod_mono n (g h : nat -> Qc) : (forall i, (i < n)%N -> (0 <= g i)%Qc /\ (g i <= h i)%Qc) ->
  (0 <= \prod_(i < n) (g i : F))%Qc /\ (\prod_(i < n) (g i : F) <= \prod_(i < n) (h i : F))%Qc.
Proof.
  elim: n => [|n IH] H; first by rewrite !big_ord0; split; [discriminate|exact: Qcle_refl].
  rewrite !big_ord_recr /=. have [A1 A2] := IH (fun i Hi => H i (ltnW Hi)). have [B1 B2] := H n (ltnSn n).
  change ((0 <= \prod_(i < n) (g i : F) * g n)%Qc /\ (\prod_(i < n) (g i : F) * g n <= \prod_(i < n) (h i : F) * h n)%Qc).
  move: A1 A2 B1 B2. move: (\prod_(i < n) (g i : F)) (\prod_(i < n) (h i : F)) (g n) (h n) => a b c d. clear. intros. split; qcnra.
Qed.

(** elimination of the first row *)
Definition schur (f : nat -> nat -> Qc) (i j : nat) : Qc := (f i.+1 j.+1 - f i.+1 0%N * f 0%N j.+1 / f 0%N 0%N)%Qc.

Lemma det_schur n (f : nat -> nat -> Qc) : f 0%N 0%N <> 0%Qc ->
  \det (mxf n.+1 n.+1 f : 'M[F]_n.+1) = (f 0%N 0%N * \det (mxf n n (schur f) : 'M[F]_n))%Qc.
Proof.
  move=> H0. have N0 : (f 0%N 0%N : F) != 0 by apply/eqP.
  pose E : 'M[F]_(1 + n) := block_mx 1%:M 0 (\col_i (f i.+1 0%N / f 0%N 0%N : F)) 1%:M.
  pose U : 'M[F]_(1 + n) := block_mx (f 0%N 0%N : F)%:M (\row_j (f 0%N j.+1 : F)) 0 (mxf n n (schur f)).
  have EU : mxf n.+1 n.+1 f = E *m U :> 'M[F]_(1 + n).
  { rewrite /E /U mulmx_block !mul1mx !mul0mx !addr0.
    apply/matrixP => i j. rewrite mxE.
    case: (splitP i) => [i0|i0] Ei; case: (splitP j) => [j0|j0] Ej.
    - have -> : i = lshift n i0 by apply: val_inj. have -> : j = lshift n j0 by apply: val_inj.
      rewrite block_mxEul !mxE !ord1 /=. by rewrite mulr1n.
    - have -> : i = lshift n i0 by apply: val_inj. have -> : j = rshift 1 j0 by apply: val_inj.
      rewrite block_mxEur !mxE !ord1 /=. by [].
    - have -> : i = rshift 1 i0 by apply: val_inj. have -> : j = lshift n j0 by apply: val_inj.
      rewrite block_mxEdl !mxE !ord1 /= big_ord_recl big_ord0 !mxE /= mulr1n addr0. by rewrite divfK.
    - have -> : i = rshift 1 i0 by apply: val_inj. have -> : j = rshift 1 j0 by apply: val_inj.
      rewrite block_mxEdr !mxE /= big_ord_recl big_ord0 !mxE /= addr0 /schur.
      change (f i0.+1 j0.+1 = f i0.+1 0%N / f 0%N 0%N * f 0%N j0.+1 + (f i0.+1 j0.+1 - f i0.+1 0%N * f 0%N j0.+1 / f 0%N 0%N))%Qc.
      field. exact: H0. }
  transitivity (\det (E *m U)); first by rewrite -EU.
  by rewrite det_mulmx /E /U det_lblock det_ublock !det1 mul1r mul1r det_scalar1.
Qed.

Lemma det_zero_row n (f : nat -> nat -> Qc) : (forall j, (j < n.+1)%N -> f 0%N j = 0%Qc) -> \det (mxf n.+1 n.+1 f : 'M[F]_n.+1) = 0%Qc.
Proof.
  move=> H. rewrite (expand_det_row _ ord0) big1 // => j _. by rewrite mxE H // mul0r.
Qed.

Lemma mdet_bound n : forall f : nat -> nat -> Qc,
  (forall i j, (i < n)%N -> (j < n)%N -> i <> j -> (f i j <= 0)%Qc) ->
  (forall i, (i < n)%N -> (0 <= \sum_(j < n) (f i j : F))%Qc) ->
  (0 <= \det (mxf n n f : 'M[F]_n))%Qc /\ (\det (mxf n n f : 'M[F]_n) <= \prod_(i < n) (f i i : F))%Qc.
Proof.
  have diag : forall n (f : nat -> nat -> Qc),
    (forall i j, (i < n)%N -> (j < n)%N -> i <> j -> (f i j <= 0)%Qc) ->
    (forall i, (i < n)%N -> (0 <= \sum_(j < n) (f i j : F))%Qc) -> forall i, (i < n)%N -> (0 <= f i i)%Qc.
  { move=> m f O S i Hi. have {S} := S i Hi. rewrite (bigD1 (Ordinal Hi)) //= => S.
    have A : (\sum_(j < m | j != Ordinal Hi) (f i j : F) <= 0)%Qc.
    { rewrite (big_mkcond (fun j : 'I_m => j != Ordinal Hi)).
      apply: Qcle_trans (@sum_nonpos m (fun j => if j != i then f i j else 0%Qc) _).
      - apply: Qceq_le. apply: eq_bigr => j _. by [].
      - move=> j Hj. case: eqP => /= [_|N]; first exact: Qcle_refl. apply: O => //. exact: nesym. }
    change (0 <= f i i + \sum_(j < m | j != Ordinal Hi) (f i j : F))%Qc in S.
    move: S A. move: (\sum_(j < m | _) _) (f i i) => x y. clear. intros. qclra. }
  elim: n => [|n IH] f O S.
  { rewrite det_mx00 big_ord0. split; [discriminate|exact: Qcle_refl]. }
  have D := diag _ f O S.
  case: (Qc_eq_dec (f 0%N 0%N) 0%Qc) => [Z0|N0].
  { have Z : forall j, (j < n.+1)%N -> f 0%N j = 0%Qc.
    { move=> [|j] Hj //. have := S 0%N (ltn0Sn n). rewrite big_ord_recl /= => S0.
      have L := @sum_le_term n (fun j => f 0%N j.+1) j Hj (fun k Hk => O 0%N k.+1 (ltn0Sn n) Hk (@O_S k)).
      have U := O 0%N j.+1 (ltn0Sn n) Hj (@O_S j).
      change (0 <= f 0%N 0%N + \sum_(k < n) (f 0%N (bump 0 k) : F))%Qc in S0.
      rewrite Z0 in S0. move: S0 L U. 
      have -> : \sum_(k < n) (f 0%N (bump 0 k) : F) = \sum_(i < n) (f 0%N i.+1 : F) by apply: eq_bigr.
      move: (\sum_(i < n) _) (f 0%N j.+1) => x y. clear. intros. qclra. }
    rewrite (det_zero_row Z). split; first exact: Qcle_refl.
    rewrite big_ord_recl /= Z0 mul0r. exact: Qcle_refl. }
  have P0 : (0 < f 0%N 0%N)%Qc. { have := D 0%N (ltn0Sn n). move: N0. move: (f 0%N 0%N) => x. clear. intros. qclra. }
  have I0 : (0 < / f 0%N 0%N)%Qc by exact: Qc_inv_pos.
  have OS : forall i j, (i < n)%N -> (j < n)%N -> i <> j -> (schur f i j <= 0)%Qc.
  { move=> i j Hi Hj Nij. rewrite /schur. have A := O i.+1 j.+1 Hi Hj (fun E => Nij (eq_add_S _ _ E)).
    have B := O i.+1 0%N Hi (ltn0Sn n) (nesym (@O_S i)). have C := O 0%N j.+1 (ltn0Sn n) Hj (@O_S j).
    have BC : (0 <= f i.+1 0%N * f 0%N j.+1)%Qc by move: B C; move: (f i.+1 0%N) (f 0%N j.+1) => x y; clear; intros; qcnra.
    have Q : (0 <= f i.+1 0%N * f 0%N j.+1 / f 0%N 0%N)%Qc. { rewrite /Qcdiv. move: BC I0. move: (_ * _)%Qc (/ _)%Qc => x y. clear. intros. qcnra. }
    move: A Q. move: (f i.+1 j.+1) (_ / _)%Qc => x y. clear. intros. qclra. }
  have SS : forall i, (i < n)%N -> (0 <= \sum_(j < n) (schur f i j : F))%Qc.
  { move=> i Hi. have S1 := S i.+1 Hi. have S0 := S 0%N (ltn0Sn n). have B := O i.+1 0%N Hi (ltn0Sn n) (nesym (@O_S i)).
    move: S1 S0. rewrite !big_ord_recl /=.
    have -> : \sum_(j < n) (f i.+1 (bump 0 j) : F) = \sum_(j < n) (f i.+1 j.+1 : F) by apply: eq_bigr.
    have -> : \sum_(j < n) (f 0%N (bump 0 j) : F) = \sum_(j < n) (f 0%N j.+1 : F) by apply: eq_bigr.
    have -> : \sum_(j < n) (schur f i j : F) = (\sum_(j < n) (f i.+1 j.+1 : F) - f i.+1 0%N / f 0%N 0%N * \sum_(j < n) (f 0%N j.+1 : F))%Qc.
    { rewrite (@eq_bigr F 0 +%R 'I_n _ xpredT (fun j => schur f i j) (fun j : 'I_n => (f i.+1 j.+1 : F) - (f i.+1 0%N / f 0%N 0%N)%Qc * f 0%N j.+1)).
      - by rewrite sumrB -mulr_sumr.
      - move=> j _. rewrite /schur.
        change (f i.+1 j.+1 - f i.+1 0%N * f 0%N j.+1 / f 0%N 0%N = f i.+1 j.+1 - f i.+1 0%N / f 0%N 0%N * f 0%N j.+1)%Qc. field. exact: N0. }
    move: (\sum_(j < n) (f i.+1 j.+1 : F)) (\sum_(j < n) (f 0%N j.+1 : F)) => x y S1 S0.
    change (0 <= f i.+1 0%N + x)%Qc in S1. change (0 <= f 0%N 0%N + y)%Qc in S0.
    have E : (x - f i.+1 0%N / f 0%N 0%N * y = f i.+1 0%N + x - f i.+1 0%N * (f 0%N 0%N + y) * / f 0%N 0%N)%Qc by field; exact: N0.
    rewrite E.
    have G : (0 <= - f i.+1 0%N * (f 0%N 0%N + y))%Qc by move: B S0; move: (f i.+1 0%N) (_ + _)%Qc => u v; clear; intros; qcnra.
    have G' : (0 <= - f i.+1 0%N * (f 0%N 0%N + y) * / f 0%N 0%N)%Qc by move: G I0; move: (_ * _)%Qc (/ _)%Qc => u v; clear; intros; qcnra.
    have E2 : (f i.+1 0%N + x - f i.+1 0%N * (f 0%N 0%N + y) * / f 0%N 0%N = (f i.+1 0%N + x) + - f i.+1 0%N * (f 0%N 0%N + y) * / f 0%N 0%N)%Qc by ring.
    rewrite E2. move: S1 G'. move: (f i.+1 0%N + x)%Qc (_ * _ * _)%Qc => u v. clear. intros. qclra. }
  have [L U] := IH (schur f) OS SS. have DS := diag _ _ OS SS.
  rewrite (det_schur n N0) big_ord_recl /=.
  have PMH : forall i, (i < n)%N -> (0 <= schur f i i)%Qc /\ (schur f i i <= f i.+1 i.+1)%Qc.
  { move=> i Hi. split; first exact: DS. rewrite /schur.
    have B := O i.+1 0%N Hi (ltn0Sn n) (nesym (@O_S i)). have C := O 0%N i.+1 (ltn0Sn n) Hi (@O_S i).
    have BC : (0 <= f i.+1 0%N * f 0%N i.+1)%Qc by move: B C; move: (f i.+1 0%N) (f 0%N i.+1) => x y; clear; intros; qcnra.
    have Q : (0 <= f i.+1 0%N * f 0%N i.+1 / f 0%N 0%N)%Qc. { rewrite /Qcdiv. move: BC I0. move: (_ * _)%Qc (/ _)%Qc => x y. clear. intros. qcnra. }
    move: Q. move: (f i.+1 i.+1) (_ / _)%Qc => x y. clear. intros. qclra. }
  have [PM1 PM2] := @prod_mono n (fun i => schur f i i) (fun i => f i.+1 i.+1) PMH.
  have -> : \prod_(i < n) (f (bump 0 i) (bump 0 i) : F) = \prod_(i < n) (f i.+1 i.+1 : F) by apply: eq_bigr.
  change ((0 <= f 0%N 0%N * \det (mxf n n (schur f) : 'M[F]_n))%Qc /\
      (f 0%N 0%N * \det (mxf n n (schur f) : 'M[F]_n) <= f 0%N 0%N * \prod_(i < n) (f i.+1 i.+1 : F))%Qc).
  move: PM2 L U P0. move: (\prod_(i < n) (schur f i i : F)) (\prod_(i < n) (f i.+1 i.+1 : F)) (\det _) (f 0%N 0%N) => a b c d.
  clear. intros. split; qcnra.
Qed.

(** the same for integers, with sums and products as folds *)
Theorem zdet_bound n (g : nat -> nat -> Z) :
  (forall i j, (i < n)%coq_nat -> (j < n)%coq_nat -> i <> j -> (g i j <= 0)%coqZ) ->
  (forall i, (i < n)%coq_nat -> (0 <= zs n (g i))%coqZ) ->
  (0 <= zdet n g <= bprod n (fun i => g i i))%coqZ.
Proof.
  move=> O S.
  have O' : forall i j, (i < n)%N -> (j < n)%N -> i <> j -> (ZQ (g i j) <= 0)%Qc.
  { move=> i j /ltP Hi /ltP Hj N. have -> : 0%Qc = ZQ 0 by rewrite ZQ_0. apply/ZQ_le. exact: O. }
  have S' : forall i, (i < n)%N -> (0 <= \sum_(j < n) (ZQ (g i j) : F))%Qc.
  { move=> i /ltP Hi. have := S i Hi. rewrite zs_big => H. have -> : 0%Qc = ZQ 0 by rewrite ZQ_0.
    rewrite -ZQ_big_sum. apply/ZQ_le. exact: H. }
  have [A B] := @mdet_bound n (fun i j => ZQ (g i j)) O' S'. move: A B.
  rewrite -ZQ_det -ZQ_big_prod. have -> : 0%Qc = ZQ 0 by rewrite ZQ_0. move=> /ZQ_le A /ZQ_le B. split; [exact: A|exact: B].
Qed.
