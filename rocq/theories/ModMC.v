(** Determinant facts behind modular_solver.rs: determinants modulo p, Cramer's
    rule and Hadamard's inequality for integer matrices. *)
From Coq Require Import ZArith QArith Qcanon List Lia Znumtheory Sorted Permutation.
From mathcomp Require Import all_ssreflect all_algebra.
From mathcomp Require Import ssrZ.
From Verif Require Import Base QcTac Vec Matrix MC Det ZQ Sylvester GeomMC ModSolver.
Set Implicit Arguments.
Unset Strict Implicit.
Unset Printing Implicit Defensive.
Import GRing.Theory.
Local Open Scope ring_scope.
Delimit Scope Z_scope with coqZ.

Notation ZR := [comRingType of Z].
Definition zmx (n m : nat) (g : nat -> nat -> Z) : 'M[ZR]_(n, m) := \matrix_(i, j) g i j.
(** the determinant of the n x n matrix with entries g i j *)
Definition zdet (n : nat) (g : nat -> nat -> Z) : Z := \det (zmx n n g).

Lemma zs_big n (f : nat -> Z) : zs n f = \sum_(i < n) (f i : ZR).
Proof. elim: n => [|n IH]; first by rewrite big_ord0. by rewrite big_ord_recr /= -IH. Qed.

Lemma cong_det (p : Z) n (A B : 'M[ZR]_n) : (forall i j, cong p (A i j) (B i j)) -> cong p (\det A) (\det B).
Proof.
  move=> H. rewrite /determinant. apply: big_ind2.
  - exact: cong_refl.
  - move=> a b c d; exact: cong_add.
  - move=> s _. apply: cong_mul; first exact: cong_refl. apply: big_ind2.
    + exact: cong_refl.
    + move=> a b c d; exact: cong_mul.
    + move=> i _. exact: H.
Qed.

Lemma eqb_ord n (i j : 'I_n) : Nat.eqb i j = (i == j).
Proof. by apply/idP/eqP => [/Nat.eqb_spec /val_inj|-> ] //; exact: Nat.eqb_refl. Qed.

(** a left inverse modulo p makes the determinant invertible *)
Lemma left_inverse_det (p : Z) n (c g : nat -> nat -> Z) : (1 < p)%coqZ ->
  (forall i j, (i < n)%coq_nat -> (j < n)%coq_nat -> cong p (zs n (fun k => (c i k * g k j)%coqZ)) (if Nat.eqb i j then 1 else 0)%coqZ) ->
  ~ Z.divide p (zdet n g).
Proof.
  move=> Hp H D.
  have E : cong p (zdet n c * zdet n g)%coqZ 1%coqZ.
  { have -> : (zdet n c * zdet n g)%coqZ = \det (zmx n n c *m zmx n n g) by rewrite det_mulmx.
    rewrite -[X in cong p _ X](det1 ZR n). apply: cong_det => i j.
    have := H i j (elimT ltP (ltn_ord i)) (elimT ltP (ltn_ord j)). rewrite zs_big !mxE.
    rewrite eqb_ord. have -> : (\sum_(j0 < n) zmx n n c i j0 * zmx n n g j0 j) = (\sum_(i0 < n) (c i i0 * g i0 j)%coqZ : ZR).
    { apply: eq_bigr => k _. by rewrite !mxE. }
    by case: (i == j). }
  case: D => z Ez. case: E => y Ey. rewrite Ez in Ey.
  have : Z.divide p 1.
  { exists (zdet n c * z - y)%coqZ. nia. }
  move/Z.divide_1_r_nonneg. lia.
Qed.

(** a vector that vanishes modulo p but has an entry 1 makes p divide it *)
Lemma null_vector_det (p : Z) n (g : nat -> nat -> Z) (x : nat -> Z) k : (k < n)%coq_nat -> x k = 1%coqZ ->
  (forall i, (i < n)%coq_nat -> cong p (zs n (fun j => (g i j * x j)%coqZ)) 0) -> Z.divide p (zdet n g).
Proof.
  move=> Hk Xk H. have /ltP Hk' := Hk. pose o := Ordinal Hk'.
  pose v : 'cV[ZR]_n := \col_i x i.
  have E : (\adj (zmx n n g) *m (zmx n n g *m v)) o ord0 = zdet n g.
  { rewrite mulmxA mul_adj_mx mul_scalar_mx !mxE /= Xk. by rewrite mulr1. }
  have : cong p ((\adj (zmx n n g) *m (zmx n n g *m v)) o ord0) 0%coqZ.
  { rewrite mxE. have -> : 0%coqZ = \sum_(j < n) (0 : ZR) by rewrite big1.
    apply: big_ind2; first exact: cong_refl.
    - move=> a b c d; exact: cong_add.
    - move=> j _. have -> : (0 : ZR) = (\adj (zmx n n g) o j * 0)%coqZ by rewrite Z.mul_0_r.
      apply: cong_mul; first exact: cong_refl. rewrite mxE.
      have := H j (elimT ltP (ltn_ord j)). rewrite zs_big.
      have -> // : \sum_(i < n) (g j i * x i)%coqZ = \sum_(i < n) zmx n n g j i * v i ord0 :> ZR.
      apply: eq_bigr => i _. by rewrite !mxE. }
  rewrite E /cong. by rewrite Z.sub_0_r.
Qed.

(** left inverses modulo p are right inverses *)
Lemma right_inverse (p : Z) n (c g : nat -> nat -> Z) : Znumtheory.prime p ->
  (forall i j, (i < n)%coq_nat -> (j < n)%coq_nat -> cong p (zs n (fun k => (c i k * g k j)%coqZ)) (if Nat.eqb i j then 1 else 0)%coqZ) ->
  forall i j, (i < n)%coq_nat -> (j < n)%coq_nat -> cong p (zs n (fun k => (g i k * c k j)%coqZ)) (if Nat.eqb i j then 1 else 0)%coqZ.
Proof.
  move=> Pp H i0 j0 /ltP Hi /ltP Hj. pose i := Ordinal Hi. pose j := Ordinal Hj.
  have Hp : (1 < p)%coqZ by case: Pp.
  have ND := left_inverse_det Hp H.
  set G := zmx n n g. set C := zmx n n c.
  have CG : forall a b, cong p ((C *m G) a b) ((1%:M : 'M[ZR]_n) a b).
  { move=> a b. have := H a b (elimT ltP (ltn_ord a)) (elimT ltP (ltn_ord b)). rewrite zs_big !mxE eqb_ord.
    have -> : (\sum_(j0 < n) C a j0 * G j0 b) = (\sum_(i0 < n) (c a i0 * g i0 b)%coqZ : ZR).
    { apply: eq_bigr => k _. by rewrite !mxE. }
    by case: (a == b). }
  have cmul : forall (A B B' : 'M[ZR]_n), (forall a b, cong p (B a b) (B' a b)) ->
    (forall a b, cong p ((A *m B) a b) ((A *m B') a b)).
  { move=> A B B' HB a b. rewrite !mxE. apply: big_ind2; first exact: cong_refl.
    - move=> ? ? ? ?; exact: cong_add.
    - move=> k _. apply: cong_mul => //. exact: cong_refl. }
  have cmulr : forall (A B B' : 'M[ZR]_n), (forall a b, cong p (B a b) (B' a b)) ->
    (forall a b, cong p ((B *m A) a b) ((B' *m A) a b)).
  { move=> A B B' HB a b. rewrite !mxE. apply: big_ind2; first exact: cong_refl.
    - move=> ? ? ? ?; exact: cong_add.
    - move=> k _. apply: cong_mul => //. exact: cong_refl. }
  have K : cong p ((G *m C *m G *m \adj G) i j) ((G *m 1%:M *m \adj G) i j).
  { apply: cmulr. rewrite -mulmxA. by apply: cmul. }
  have E1 : G *m C *m G *m \adj G = \det G *: (G *m C) by rewrite -mulmxA mul_mx_adj mul_mx_scalar.
  have E2 : G *m 1%:M *m \adj G = \det G *: 1%:M by rewrite mulmx1 mul_mx_adj scalemx1.
  rewrite E1 E2 mxE [in X in cong p _ X]mxE in K.
  have F : cong p ((G *m C) i j) ((1%:M : 'M[ZR]_n) i j).
  { case: K => z Hz. have D : Z.divide p (zdet n g * ((G *m C) i j - (1%:M : 'M[ZR]_n) i j))%coqZ.
    { exists z. rewrite -Hz. change (zdet n g) with (\det G). move: (\det G) ((G *m C) i j) ((1%:M : 'M[ZR]_n) i j). clear. move=> a b d.
      change ((a * (b - d))%coqZ = (a * b - a * d)%coqZ). lia. }
    case: (prime_mult p Pp _ _ D) => //. }
  move: F. have -> : Nat.eqb i0 j0 = (i == j) by exact: (eqb_ord i j). rewrite !mxE zs_big.
  have -> : (\sum_(j0 < n) G i j0 * C j0 j) = (\sum_(i1 < n) (g i0 i1 * c i1 j0)%coqZ : ZR).
  { apply: eq_bigr => k _. by rewrite !mxE. }
  by case: (i == j).
Qed.

(** *** Hadamard's inequality *)
Lemma form_nonneg n (A : 'M[F]_n) u : posdef A -> (0 <= form A u u)%Qc.
Proof.
  move=> P. case: (eqVneq u 0) => [->|H]; first by rewrite /form mulmx0 mxE.
  apply: Qclt_le_weak. exact: P.
Qed.

Lemma Qc_prod_le (a b c d : Qc) : (0 <= a)%Qc -> (a <= c)%Qc -> (0 <= b)%Qc -> (b <= d)%Qc -> (a * b <= c * d)%Qc.
Proof. intros. qcnra. Qed.

Lemma hadamard_posdef (f : nat -> nat -> Qc) : (forall i j, f i j = f j i) -> forall n, posdef (mxf n n f : 'M[F]_n) ->
  (\det (mxf n n f : 'M[F]_n) <= \prod_(i < n) (f i i : F))%Qc.
Proof.
  move=> sym. elim=> [_|k IH P].
  - rewrite det_mx00 big_ord0. exact: Qcle_refl.
  - have PA := posdef_sub sym P. have DA := posdef_det sym PA. have U := unit_pos DA.
    rewrite big_ord_recr /=. have := P. rewrite -(addn1 k) (mxf_block k sym) => PM.
    rewrite block_det //; last exact: sym_mxf.
    have [_ S0] := proj1 (step_posdef _ _ (sym_mxf sym k) U) PM.
    apply: Qc_prod_le => //.
    + exact: Qclt_le_weak.
    + exact: IH.
    + exact: Qclt_le_weak.
    + rewrite !mxE. set w := (\sum_j _ : F).
      have W : (0 <= w)%Qc.
      { have -> : w = form (mxf k k f : 'M[F]_k) (invmx (mxf k k f) *m \col_i f i k) (invmx (mxf k k f) *m \col_i f i k).
        { rewrite /form (yA _ (sym_mxf sym k) U). by rewrite [in RHS]mxE. }
        exact: form_nonneg. }
      change (f k k + - w <= f k k)%Qc. move: W. move: w (f k k) => w z. clear. intros. qclra.
Qed.

(** determinants over the integers and over the rationals *)
Lemma ZQ_big_sum (I : Type) (l : seq I) (P : pred I) (h : I -> Z) : ZQ (\sum_(i <- l | P i) (h i : ZR)) = \sum_(i <- l | P i) (ZQ (h i) : F).
Proof. apply: (big_morph ZQ) => [x y|]; [exact: ZQ_add|exact: ZQ_0]. Qed.
Lemma ZQ_big_prod (I : Type) (l : seq I) (P : pred I) (h : I -> Z) : ZQ (\prod_(i <- l | P i) (h i : ZR)) = \prod_(i <- l | P i) (ZQ (h i) : F).
Proof. apply: (big_morph ZQ) => [x y|]; [exact: ZQ_mul|exact: ZQ_1]. Qed.

Lemma ZQ_sign (b : bool) : ZQ ((-1) ^+ b : ZR) = ((-1) ^+ b : F).
Proof. by case: b. Qed.

Lemma ZQ_det n (g : nat -> nat -> Z) : ZQ (zdet n g) = \det (mxf n n (fun i j => ZQ (g i j)) : 'M[F]_n).
Proof.
  rewrite /zdet /determinant ZQ_big_sum. apply: eq_bigr => s _.
  rewrite ZQ_mul ZQ_sign ZQ_big_prod. congr (_ * _). apply: eq_bigr => i _. by rewrite !mxE.
Qed.

(** squared length of column j *)
Definition colsq (n : nat) (g : nat -> nat -> Z) (j : nat) : Z := zs n (fun i => (g i j * g i j)%coqZ).

Lemma colsq_nonneg n g j : (0 <= colsq n g j)%coqZ.
Proof. rewrite /colsq. elim: n => [|n IH] //=. have := Z.square_nonneg (g n j). lia. Qed.

Lemma prod_nonneg n (h : nat -> Z) : (forall i, (i < n)%coq_nat -> (0 <= h i)%coqZ) -> (0 <= \prod_(i < n) (h i : ZR))%coqZ.
Proof.
  elim: n => [|n IH] H; first by rewrite big_ord0.
  rewrite big_ord_recr /=. apply: Z.mul_nonneg_nonneg; last by apply: H; lia. apply: IH => i Hi. apply: H. lia.
Qed.

Lemma Qc_sum_sq n (h : nat -> Qc) : (0 <= \sum_(i < n) (h i * h i : F))%Qc /\
  ((exists i, (i < n)%coq_nat /\ h i <> 0%Qc) -> (0 < \sum_(i < n) (h i * h i : F))%Qc).
Proof.
  elim: n => [|n [IH1 IH2]].
  - split; first by rewrite big_ord0; exact: Qcle_refl. by move=> [i [Hi _]]; lia.
  - rewrite big_ord_recr /=. have S := Qc_sq_nonneg (h n).
    split.
    + change (0 <= (\sum_(i < n) (h i * h i : F) : Qc) + h n * h n)%Qc. move: IH1 S. move: (\sum_(i < n) _) (h n * h n)%Qc => x y. clear. intros. qclra.
    + move=> [i [Hi Hn]].
      change (0 < (\sum_(i < n) (h i * h i : F) : Qc) + h n * h n)%Qc.
      case: (Qc_eqb_spec (h n) 0%Qc) => [E|E].
      * have {}IH2 : (0 < \sum_(i < n) (h i * h i : F))%Qc. { apply: IH2. exists i. split=> //. have : i <> n by move=> Ei; apply: Hn; rewrite Ei. lia. }
        move: IH2 S. move: (\sum_(i < n) _) (h n * h n)%Qc => x y. clear. intros. qclra.
      * have S' := Qc_sq_pos _ E. move: IH1 S'. move: (\sum_(i < n) _) (h n * h n)%Qc => x y. clear. intros. qclra.
Qed.

Theorem hadamard n (g : nat -> nat -> Z) : (zdet n g * zdet n g <= \prod_(j < n) (colsq n g j : ZR))%coqZ.
Proof.
  case: (Z.eq_dec (zdet n g) 0) => [->|ND].
  { apply: prod_nonneg => i _. exact: colsq_nonneg. }
  set f := fun i j => ZQ (zs n (fun k => (g k i * g k j)%coqZ)).
  have sym : forall i j, f i j = f j i. { move=> i j. rewrite /f. congr ZQ. apply: zs_ext => k _. exact: Z.mul_comm. }
  set M : 'M[F]_n := mxf n n (fun i j => ZQ (g i j)).
  have E : mxf n n f = M^T *m M :> 'M[F]_n.
  { apply/matrixP => i j. rewrite !mxE /f zs_big ZQ_big_sum. apply: eq_bigr => k _. by rewrite !mxE ZQ_mul. }
  have DM : \det M <> 0%Qc. { rewrite -ZQ_det. by rewrite ZQ_eq0. }
  have UM : M \in unitmx. { rewrite unitmxE unitfE. by apply/eqP. }
  have P : posdef (mxf n n f : 'M[F]_n).
  { move=> u Hu. rewrite E /form mulmxA -mulmxA -trmx_mul.
    have N : M *m u != 0. { apply: contra Hu => /eqP Z0. by rewrite -(mulKmx UM u) Z0 mulmx0. }
    set v := M *m u in N *. clearbody v.
    rewrite mxE. pose w (i : nat) : Qc := match insub i with Some o => v o ord0 | None => 0 end.
    have -> : \sum_j v^T ord0 j * v j ord0 = \sum_(i < n) (w i * w i : F).
    { apply: eq_bigr => j _. by rewrite mxE /w valK. }
    apply: (proj2 (Qc_sum_sq n w)).
    have [i Hi] : exists i, v i ord0 != 0.
    { apply/existsP. rewrite -negb_forall. apply: contra N => /forallP A.
      apply/eqP/matrixP => i j. rewrite (ord1 j) mxE. by apply/eqP; exact: A. }
    exists i. split; first exact/ltP. rewrite /w valK. exact/eqP. }
  have H := hadamard_posdef sym P. rewrite E det_mulmx det_tr in H.
  apply/ZQ_le. rewrite ZQ_mul ZQ_big_prod ZQ_det. exact: H.
Qed.

(** *** Cramer's rule *)
(** column l of g replaced by b *)
Definition replace_col (l : nat) (b : nat -> Z) (g : nat -> nat -> Z) (i j : nat) : Z := if Nat.eqb j l then b i else g i j.

Lemma cramer_col n (g : nat -> nat -> Z) (b : nat -> Z) (l : 'I_n) :
  zdet n (replace_col l b g) = \sum_(i < n) ((b i : ZR) * cofactor (zmx n n g) i l).
Proof.
  rewrite /zdet (expand_det_col _ l). apply: eq_bigr => i _. rewrite mxE /replace_col Nat.eqb_refl. congr (_ * _).
  rewrite /cofactor. congr (_ * \det _). apply/matrixP => a c. rewrite !mxE /replace_col.
  have -> // : Nat.eqb (lift l c) l = false.
  apply/negP => /Nat.eqb_spec E. have := neq_lift l c. by move/eqP; apply; apply: val_inj; exact: esym E.
Qed.

Lemma cramer n (g : nat -> nat -> Z) (b : nat -> Z) (h : Z) (s : nat -> Z) :
  (forall i, (i < n)%coq_nat -> cong h (zs n (fun l => (g i l * s l)%coqZ)) (b i)) ->
  forall l, (l < n)%coq_nat -> cong h (s l * zdet n g)%coqZ (zdet n (replace_col l b g)).
Proof.
  move=> H l0 /ltP Hl. pose l := Ordinal Hl. rewrite (cramer_col g b l).
  set G := zmx n n g. pose S : 'cV[ZR]_n := \col_i s i.
  have E : (\adj G *m (G *m S)) l ord0 = (s l0 * zdet n g)%coqZ.
  { rewrite mulmxA mul_adj_mx mul_scalar_mx !mxE /=. exact: Z.mul_comm. }
  rewrite -E mxE. apply: big_ind2; first exact: cong_refl.
  - move=> ? ? ? ?; exact: cong_add.
  - move=> i _. rewrite [b i * _]mulrC. apply: cong_mul; first by rewrite !mxE; exact: cong_refl.
    have := H i (elimT ltP (ltn_ord i)). rewrite zs_big mxE.
    have -> // : \sum_(l1 < n) (g i l1 * s l1)%coqZ = \sum_j G i j * S j ord0 :> ZR.
    apply: eq_bigr => k _. by rewrite !mxE.
Qed.

(** exact solution *)
Lemma cramer_exact n (g : nat -> nat -> Z) (b : nat -> Z) :
  forall i, (i < n)%coq_nat -> zs n (fun l => (g i l * zdet n (replace_col l b g))%coqZ) = (zdet n g * b i)%coqZ.
Proof.
  move=> i0 /ltP Hi. pose i := Ordinal Hi. set G := zmx n n g. pose B : 'cV[ZR]_n := \col_i b i.
  have E : (G *m (\adj G *m B)) i ord0 = (zdet n g * b i0)%coqZ.
  { by rewrite mulmxA mul_mx_adj mul_scalar_mx !mxE. }
  rewrite -E mxE zs_big. apply: eq_bigr => l _. rewrite [in RHS]mxE.
  rewrite [in RHS]mxE (cramer_col g b l). congr (g i0 l * _)%coqZ. apply: eq_bigr => k _. by rewrite !mxE mulrC.
Qed.

(** products over an index range, for files that do not use mathcomp *)
Definition bprod (n : nat) (h : nat -> Z) : Z := \prod_(i < n) (h i : ZR).
Lemma bprod_0 h : bprod 0 h = 1%coqZ.
Proof. by rewrite /bprod big_ord0. Qed.
Lemma bprod_S n h : bprod n.+1 h = (bprod n h * h n)%coqZ.
Proof. by rewrite /bprod big_ord_recr. Qed.
Lemma hadamard' n g : (zdet n g * zdet n g <= bprod n (colsq n g))%coqZ.
Proof. exact: hadamard. Qed.

(** a regular system has at most one rational solution *)
Lemma unique_solution n (g : nat -> nat -> Z) (y z : nat -> Qc) : zdet n g <> 0%coqZ ->
  (forall i, (i < n)%coq_nat -> sumf n (fun l => (ZQ (g i l) * y l)%Qc) = sumf n (fun l => (ZQ (g i l) * z l)%Qc)) ->
  forall l, (l < n)%coq_nat -> y l = z l.
Proof.
  move=> ND H l /ltP Hl. set M : 'M[F]_n := mxf n n (fun i j => ZQ (g i j)).
  have UM : M \in unitmx. { rewrite unitmxE unitfE -ZQ_det. apply/eqP => E. apply: ND. by apply/ZQ_eq0. }
  have E : M *m (\col_i y i) = M *m (\col_i z i).
  { apply/matrixP => i j. rewrite !mxE. have := H i (elimT ltP (ltn_ord i)). rewrite !(@sumf_big Qc_idomainType) => E.
    transitivity (\sum_(l0 < n) (ZQ (g i l0) * y l0 : F)); first by apply: eq_bigr => k _; rewrite !mxE.
    rewrite [LHS]E. by apply: eq_bigr => k _; rewrite !mxE. }
  have := congr1 (mulmx (invmx M)) E. rewrite !mulKmx // => /matrixP /(_ (Ordinal Hl) ord0). by rewrite !mxE.
Qed.
