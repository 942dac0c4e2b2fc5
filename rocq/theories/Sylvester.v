(** Sylvester's criterion over [Qc]: a symmetric matrix is positive definite
    iff all its leading principal minors are positive. *)
From Coq Require Import ZArith QArith Qcanon List Lia.
From mathcomp Require Import all_ssreflect all_algebra.
From Verif Require Import Base QcTac Vec Matrix MC Det.
Set Implicit Arguments.
Unset Strict Implicit.
Unset Printing Implicit Defensive.
Import GRing.Theory.
Local Open Scope ring_scope.

Notation F := Qc_fieldType.

Definition form n (A : 'M[F]_n) (u v : 'cV[F]_n) : Qc := (u^T *m A *m v) ord0 ord0.
Definition posdef n (A : 'M[F]_n) : Prop := forall u : 'cV[F]_n, u != 0 -> (0 < form A u u)%Qc.

Lemma mx11 (A : 'M[F]_1) (B : 'M[F]_1) : (A *m B) ord0 ord0 = A ord0 ord0 * B ord0 ord0.
Proof. by rewrite !mxE big_ord1. Qed.

Section Step.
  Variables (k : nat) (A : 'M[F]_k) (b : 'cV[F]_k) (c : 'M[F]_1).
  Hypothesis symA : A^T = A.
  Hypothesis unitA : A \in unitmx.
  Let M : 'M[F]_(k + 1) := block_mx A b b^T c.
  Let y : 'cV[F]_k := invmx A *m b.
  Let s : 'M[F]_1 := c - b^T *m y.

  Lemma Ay : A *m y = b.
  Proof. by rewrite /y mulKVmx. Qed.
  Lemma yA : y^T *m A = b^T.
  Proof. by rewrite -[in LHS]symA -trmx_mul Ay. Qed.

  Lemma block_det : \det M = \det A * s ord0 ord0.
  Proof.
    have -> : M = block_mx 1%:M 0 (y^T) 1%:M *m block_mx A b 0 s.
    { rewrite mulmx_block !mul1mx !mul0mx !addr0 yA /s. congr block_mx.
      rewrite addrC. rewrite -addrA.
      have -> : y^T *m b = b^T *m y by rewrite -{1}Ay mulmxA yA.
      by rewrite addNr addr0. }
    by rewrite det_mulmx det_lblock det_ublock !det1 mul1r mul1r det_mx11.
  Qed.

  Lemma block_form (x : 'cV[F]_k) (t : 'M[F]_1) :
    form M (col_mx x t) (col_mx x t) = form A (x + y *m t) (x + y *m t) + (t ord0 ord0 * s ord0 ord0) * t ord0 ord0.
  Proof.
    have E : (col_mx x t)^T *m M *m (col_mx x t) =
      (x + y *m t)^T *m A *m (x + y *m t) + t^T *m s *m t.
    { have Ez : (x + y *m t)^T = x^T + t^T *m y^T by rewrite linearD /= trmx_mul.
      rewrite Ez tr_col_mx mul_row_block mul_row_col.
      have yb : y^T *m b = b^T *m y by rewrite -{1}Ay mulmxA yA.
      have E3 : (x^T + t^T *m y^T) *m A = x^T *m A + t^T *m b^T by rewrite mulmxDl -mulmxA yA.
      have E4 : t^T *m s *m t = t^T *m c *m t - t^T *m b^T *m y *m t
        by rewrite /s mulmxBr mulmxBl !mulmxA.
      have E5 : x^T *m A *m (y *m t) = x^T *m b *m t by rewrite -[in LHS]mulmxA [A *m _]mulmxA Ay mulmxA.
      rewrite E3 E4 !mulmxDl !mulmxDr E5 [t^T *m b^T *m (y *m t)]mulmxA.
      move: (x^T *m A *m x) (t^T *m b^T *m x) (x^T *m b *m t) (t^T *m c *m t) (t^T *m b^T *m y *m t) => p q r u v.
      rewrite -!addrA. congr (_ + _). rewrite addrCA. congr (_ + (_ + _)). by rewrite addrCA subrr addr0. }
    rewrite /form E mxE. congr (_ + _).
    have -> : t^T = t by apply/matrixP => i j; rewrite mxE !ord1.
    by rewrite !mx11.
  Qed.

  Lemma step_posdef : posdef M <-> posdef A /\ (0 < s ord0 ord0)%Qc.
  Proof.
    split.
    - move=> P. split.
      + move=> u Hu. have := P (col_mx u 0). rewrite block_form mulmx0 addr0 !mxE.
        have -> : form A u u + 0 * s ord0 ord0 * 0 = form A u u by rewrite mulr0 addr0.
        apply. apply: contra Hu => /eqP E. have := congr1 usubmx E. rewrite col_mxKu => ->.
        apply/eqP/matrixP => i j. by rewrite !mxE.
      + have := P (col_mx (- y) 1%:M). rewrite block_form mulmx1 addNr.
        have -> : form A 0 0 = 0 by rewrite /form mulmx0 mxE.
        rewrite add0r mxE eqxx mulr1n mul1r mulr1. apply.
        apply/negP => /eqP E. have := congr1 dsubmx E. rewrite col_mxKd => /matrixP /(_ ord0 ord0).
        by rewrite !mxE.
    - move=> [PA Ps] u Hu.
      rewrite -(vsubmxK u) block_form. set x := usubmx u. set t := dsubmx u.
      have nn : (0 <= form A (x + y *m t) (x + y *m t))%Qc.
      { case: (eqVneq (x + y *m t) 0) => [->|H].
        - by rewrite /form mulmx0 mxE.
        - apply: Qclt_le_weak. exact: PA. }
      case: (eqVneq (t ord0 ord0) 0) => [Et|Et].
      + have t0 : t = 0 by apply/matrixP => i j; rewrite !ord1 Et mxE.
        rewrite t0 mulmx0 addr0 mxE.
        have -> : form A x x + 0 * s ord0 ord0 * 0 = form A x x by rewrite mulr0 addr0.
        apply: PA. apply: contra Hu => /eqP Ex. rewrite -(vsubmxK u) -/x -/t Ex t0. by rewrite col_mx0.
      + have Et' : t ord0 ord0 <> 0%Qc by apply/eqP.
        have T2 := Qc_sq_pos _ Et'.
        have S2 := Qc_mul_pos _ _ T2 Ps.
        change (0 < form A (x + y *m t) (x + y *m t) + t ord0 ord0 * s ord0 ord0 * t ord0 ord0)%Qc.
        move: nn S2. move: (form A _ _) (s ord0 ord0) (t ord0 ord0) => w z r. clear. intros. qclra.
  Qed.
End Step.

Lemma mxf_block k (f : nat -> nat -> Qc) : (forall i j, f i j = f j i) ->
  mxf (k + 1) (k + 1) f = block_mx (mxf k k f) (\col_i f i k) (\col_i f i k)^T (\matrix_(i, j) f k k) :> 'M[F]_(k + 1).
Proof.
  move=> sym. apply/matrixP => i j. rewrite !mxE.
  case: (split_ordP i) => i' ->; rewrite mxE; case: (split_ordP j) => j' ->; rewrite !mxE //=.
  - by rewrite (ord1 j') addn0.
  - by rewrite (ord1 i') addn0 sym.
  - by rewrite (ord1 i') (ord1 j') addn0.
Qed.

Lemma posdef0 (A : 'M[F]_0) : posdef A.
Proof. move=> u. by rewrite (flatmx0 u) eqxx. Qed.

Section Syl.
  Variable f : nat -> nat -> Qc.
  Hypothesis sym : forall i j, f i j = f j i.

  Lemma sym_mxf k : (mxf k k f : 'M[F]_k)^T = mxf k k f.
  Proof. by apply/matrixP => i j; rewrite !mxE sym. Qed.

  Lemma unit_pos k : (0 < \det (mxf k k f : 'M[F]_k))%Qc -> (mxf k k f : 'M[F]_k) \in unitmx.
  Proof.
    move=> B. rewrite unitmxE unitfE. apply/eqP => E. rewrite E in B. exact: (Qclt_not_eq _ _ B).
  Qed.

  Lemma posdef_sub k : posdef (mxf k.+1 k.+1 f : 'M[F]_k.+1) -> posdef (mxf k k f : 'M[F]_k).
  Proof.
    rewrite -(addn1 k) (mxf_block k sym) => PM u Hu. have := PM (col_mx u 0).
    rewrite /form tr_col_mx mul_row_block mul_row_col trmx0 !mul0mx !mulmx0 !addr0.
    apply. apply: contra Hu => /eqP E. have := congr1 usubmx E. rewrite col_mxKu => ->.
    apply/eqP/matrixP => i j. by rewrite !mxE.
  Qed.

  Lemma posdef_det k : posdef (mxf k k f : 'M[F]_k) -> (0 < \det (mxf k k f : 'M[F]_k))%Qc.
  Proof.
    elim: k => [_|k IHk PM]; first by rewrite det_mx00.
    have PA := posdef_sub PM. have DA := IHk PA. have U := unit_pos DA.
    move: PM. rewrite -(addn1 k) (mxf_block k sym) => PM.
    rewrite block_det //; last exact: sym_mxf. apply: Qc_mul_pos => //.
    by have [] := (proj1 (step_posdef _ _ (sym_mxf k) U)) PM.
  Qed.

  Lemma det_posdef n : (forall k, (1 <= k <= n)%N -> (0 < \det (mxf k k f : 'M[F]_k))%Qc) -> posdef (mxf n n f : 'M[F]_n).
  Proof.
    elim: n => [_|k IH H]; first exact: posdef0.
    have PA : posdef (mxf k k f : 'M[F]_k).
    { apply: IH => j /andP [H1 H2]. apply: H. by rewrite H1 ltnW. }
    have DA := posdef_det PA. have U := unit_pos DA.
    have : (0 < \det (mxf k.+1 k.+1 f : 'M[F]_k.+1))%Qc by apply: H; rewrite leqnn.
    rewrite -(addn1 k) (mxf_block k sym) block_det //; last exact: sym_mxf.
    move=> DM. apply/step_posdef => //; first exact: sym_mxf. split=> //. exact: (Qc_mul_pos_inv _ _ DA DM).
  Qed.

  Lemma sylvester n :
    (forall k, (1 <= k <= n)%N -> (0 < \det (mxf k k f : 'M[F]_k))%Qc) <-> posdef (mxf n n f : 'M[F]_n).
  Proof.
    split; first exact: det_posdef. move=> P k /andP [_ Hk]. apply: posdef_det.
    elim: n P Hk => [P|n IH P]; first by rewrite leqn0 => /eqP ->.
    rewrite leq_eqVlt => /orP [/eqP ->|H] //. apply: IH => //. exact: posdef_sub.
  Qed.
End Syl.
