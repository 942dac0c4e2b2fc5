(** Properties C06, C07 and C12 of src/arithmetic/linear_algebra.rs, stated
    with mathcomp's determinant [\det] (Leibniz formula) and rank [\rank].
    [mxm m] is the mathcomp matrix with the entries of [m], [mxq m] the same
    for an integer matrix read as a rational one. *)
From Coq Require Import ZArith QArith Qcanon List Lia.
From mathcomp Require Import all_ssreflect all_algebra.
From mathcomp Require Import ssrZ.
From Verif Require Import Base Vec Elim Matrix MatrixMore Scalars LinAlg Shapes MC Det ZQ Rank.
Set Implicit Arguments.
Unset Strict Implicit.
Unset Printing Implicit Defensive.
Import GRing.Theory.
Local Open Scope ring_scope.
Delimit Scope Z_scope with coqZ.

(** entry (i, j) of a stored matrix *)
Definition entry {R} {RD : Dom R} (m : mat R) (i j : nat) : R := List.nth (i * ncols m + j) (data m) r0.

Definition mxm {T : ringType} {RD : Dom T} (r c : nat) (m : mat T) : 'M[T]_(r, c) := \matrix_(i < r, j < c) entry m i j.
Definition mxq (r c : nat) (m : mat Z) : 'M[Qc]_(r, c) := \matrix_(i < r, j < c) ZQ (entry m i j).

(** C06 *)
Theorem C06_rank_rational : forall m : mat Qc, wfm m -> (0 < ncols m)%nat ->
  rank m = Ret (\rank (@mxm Qc_idomainType _ (nrows m) (ncols m) m : 'M[Qc_fieldType]_(_, _))).
Proof. move=> m W Hc. rewrite {1}(wfm_eq_mk m W). exact: rank_mk_Q. Qed.
Print Assumptions C06_rank_rational.

Theorem C06_rank_integer : forall m : mat Z, wfm m -> (0 < ncols m)%nat ->
  rank m = Ret (\rank (mxq (nrows m) (ncols m) m : 'M[Qc_fieldType]_(_, _))).
Proof. move=> m W Hc. rewrite {1}(wfm_eq_mk m W). exact: rank_mk_Z. Qed.
Print Assumptions C06_rank_integer.

Example C06_case : rank (Mat 3 3 [:: 1; 2; 3; 4; 5; 6; 7; 8; 9]%coqZ) = Ret 2%nat.
Proof. by vm_compute. Qed.

(** C07 *)
Theorem C07_determinant_integer : forall m : mat Z, wfm m -> nrows m = ncols m ->
  determinant m = Ret (\det (@mxm [idomainType of Z] _ (nrows m) (nrows m) m)).
Proof. move=> m W E. rewrite {1}(wfm_eq_mk m W) -E. exact: (@determinant_mk [idomainType of Z]). Qed.
Print Assumptions C07_determinant_integer.

Theorem C07_determinant_rational : forall m : mat Qc, wfm m -> nrows m = ncols m ->
  determinant m = Ret (\det (@mxm Qc_idomainType _ (nrows m) (nrows m) m)).
Proof. move=> m W E. rewrite {1}(wfm_eq_mk m W) -E. exact: (@determinant_mk Qc_idomainType). Qed.
Print Assumptions C07_determinant_rational.

Theorem C07_not_square_panics : forall (m : mat Z) (m' : mat Qc),
  nrows m <> ncols m -> nrows m' <> ncols m' -> determinant m = Panic /\ determinant m' = Panic.
Proof.
  by move=> m m' H H'; split; rewrite /determinant; case: Nat.eqb_spec.
Qed.
Print Assumptions C07_not_square_panics.

(** the determinant of a product is the product of the determinants *)
Section Mult.
  Context {T : idomainType} {RD : Dom T} {DL : DomLaws T} {SR : Scalar T} {SL : ScalarLaws T} {SH : ShapeLaws T}
          {RL : RingDom (T := T)}.
  Lemma det_product_generic (a b : mat T) n : wfm a -> wfm b -> nrows a = n -> ncols a = n -> nrows b = n -> ncols b = n ->
    (0 < n)%nat -> exists p x y, mat_mul a b = Ret p /\ determinant a = Ret x /\ determinant b = Ret y /\
      determinant p = Ret (rmul x y).
  Proof.
    move=> Wa Wb H1 H2 H3 H4 /ltP Hn.
    have [f ->] := wf_mk a n n Wa H1 H2. have [g ->] := wf_mk b n n Wb H3 H4.
    rewrite mat_mul_mk // !determinant_mk. do 3 eexists. split; first reflexivity. rewrite determinant_mk. splits; try reflexivity.
    rewrite rdmul -det_mulmx. congr (Ret (\det _)). apply/matrixP => i j. rewrite !mxE sumf_big. apply: eq_bigr => k _.
    by rewrite !mxE rdmul.
  Qed.
End Mult.

Theorem C07_multiplicative :
  (forall (a b : mat Z) n, wfm a -> wfm b -> nrows a = n -> ncols a = n -> nrows b = n -> ncols b = n -> (0 < n)%nat ->
     exists p x y, mat_mul a b = Ret p /\ determinant a = Ret x /\ determinant b = Ret y /\ determinant p = Ret (Z.mul x y)) /\
  (forall (a b : mat Qc) n, wfm a -> wfm b -> nrows a = n -> ncols a = n -> nrows b = n -> ncols b = n -> (0 < n)%nat ->
     exists p x y, mat_mul a b = Ret p /\ determinant a = Ret x /\ determinant b = Ret y /\ determinant p = Ret (Qcmult x y)).
Proof.
  split.
  - move=> a b n. exact: (@det_product_generic [idomainType of Z]).
  - move=> a b n. exact: (@det_product_generic Qc_idomainType).
Qed.
Print Assumptions C07_multiplicative.

Example C07_case :
  determinant (Mat 4 4 [:: 0; 2; 0; 1; 1; 0; 3; 0; 0; 5; 1; 1; 2; 1; 1; 1]%coqZ) = Ret 14%coqZ.
Proof. by vm_compute. Qed.

(** C12 *)
Section Inv.
  Context {T : idomainType} {RD : Dom T} {DL : DomLaws T} {SR : Scalar T} {SL : ScalarLaws T} {SH : ShapeLaws T}
          {RL : RingDom (T := T)}.
  Lemma inverse_generic (a : mat T) : wfm a -> nrows a = ncols a -> (0 < nrows a)%nat ->
    exists r id d, inverse a = Ret r /\ identity (nrows a) = Ret id /\ determinant a = Ret d /\
      match r with
      | Some b => wfm b /\ mat_mul a b = Ret id /\ mat_mul b a = Ret id /\ d \is a GRing.unit
      | None => ~~ (d \is a GRing.unit) /\ forall b, wfm b -> mat_mul a b <> Ret id
      end.
  Proof.
    move=> W E /ltP H. have [f Ef] := wf_mk a (nrows a) (nrows a) W erefl (esym E).
    rewrite Ef. cbn [nrows ncols mk]. move: (nrows a) H => n H. clear Ef E W a.
    rewrite determinant_mk identity_mk //.
    have SM : forall x y z : nat -> nat -> T, solves n n n x y z <-> mat_mul (mk n n x) (mk n n z) = Ret (mk n n y).
    { move=> x y z. rewrite mat_mul_mk //. split.
      - move=> S. congr Ret. by apply: mk_ext.
      - case=> /= E i j Hi Hj. have E2 : mk n n (fun i j => sumf n (fun l => rmul (x i l) (z l j))) = mk n n y by rewrite /mk E.
        exact: (mk_inj _ _ _ _ E2). }
    have [[x [Ex S]]|[En S]] := inverse_correct n f H.
    - exists (Some (mk n n x)), (mk n n delta), (\det (mxf n n f)). rewrite Ex. splits=> //.
      + exact: mk_wf.
      + exact/SM.
      + apply/SM. exact: solves_comm.
      + apply/inverse_unit. by exists x.
    - exists None, (mk n n delta), (\det (mxf n n f)). rewrite En. splits=> //.
      + apply/negP => U. apply: S. exact/inverse_unit.
      + move=> b Wb Hb. apply: S.
        have [Hd1 Hd2] : nrows b = n /\ ncols b = n.
        { by have [/= -> ->] := mat_mul_shape _ _ _ Hb. }
        have [g Eg] := wf_mk b n n Wb Hd1 Hd2. exists g. apply/SM. by rewrite -Eg.
  Qed.
End Inv.

Theorem C12_inverse_rational : forall a : mat Qc, wfm a -> nrows a = ncols a -> (0 < nrows a)%nat ->
  exists r id d, inverse a = Ret r /\ identity (nrows a) = Ret id /\ determinant a = Ret d /\
    match r with
    | Some b => wfm b /\ mat_mul a b = Ret id /\ mat_mul b a = Ret id /\ d <> 0%Qc
    | None => d = 0%Qc /\ forall b, wfm b -> mat_mul a b <> Ret id
    end.
Proof.
  move=> a W E H. have [r [id [d [H1 [H2 [H3 H4]]]]]] := @inverse_generic Qc_idomainType _ _ _ _ _ _ a W E H.
  exists r, id, d. splits=> //. have U : (d \is a GRing.unit) = (d != 0%Qc :> Qc_fieldType) := unitfE (d : Qc_fieldType).
  case: r H1 H4 => [b|] _.
  - move=> [? [? [? D]]]. splits=> //. move: D. rewrite U. by move/eqP.
  - move=> [D ?]. split=> //. move: D. rewrite U negbK. by move/eqP.
Qed.
Print Assumptions C12_inverse_rational.

Theorem C12_inverse_integer : forall a : mat Z, wfm a -> nrows a = ncols a -> (0 < nrows a)%nat ->
  exists r id d, inverse a = Ret r /\ identity (nrows a) = Ret id /\ determinant a = Ret d /\
    match r with
    | Some b => wfm b /\ mat_mul a b = Ret id /\ mat_mul b a = Ret id /\ Z.abs d = 1%coqZ
    | None => Z.abs d <> 1%coqZ /\ forall b, wfm b -> mat_mul a b <> Ret id
    end.
Proof.
  move=> a W E H. have [r [id [d [H1 [H2 [H3 H4]]]]]] := @inverse_generic [idomainType of Z] _ _ _ _ _ _ a W E H.
  exists r, id, d. splits=> //. have U : (d \is a GRing.unit) <-> Z.abs d = 1%coqZ.
  { change ((d == 1%coqZ) || (d == (-1)%coqZ) <-> Z.abs d = 1%coqZ). split.
    - by move=> /orP [/eqP ->|/eqP ->].
    - move=> A. have [->|->] : d = 1%coqZ \/ d = (-1)%coqZ by lia. by []. by []. }
  case: r H1 H4 => [b|] _.
  - move=> [? [? [? D]]]. splits=> //. exact/U.
  - move=> [D ?]. split=> //. move=> A. move/negP: D; apply. exact/U.
Qed.
Print Assumptions C12_inverse_integer.

Theorem C12_not_square_panics : forall (m : mat Z) (m' : mat Qc),
  nrows m <> ncols m -> nrows m' <> ncols m' -> inverse m = Panic /\ inverse m' = Panic.
Proof.
  by move=> m m' H H'; split; rewrite /inverse; case: Nat.eqb_spec.
Qed.
Print Assumptions C12_not_square_panics.

Example C12_case :
  inverse (Mat 2 2 [:: 2; 3; 1; 2]%coqZ) = Ret (Some (Mat 2 2 [:: 2; -3; -1; 2]%coqZ)) /\
  inverse (Mat 2 2 [:: 2; 0; 0; 1]%coqZ) = Ret None.
Proof. by split; vm_compute. Qed.
