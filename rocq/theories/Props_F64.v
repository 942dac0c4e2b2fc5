(** Properties C84 and C85: Matrix<f64>.

    f64 is the binary64 of the standard library's SpecFloat, with rounding to nearest even.  Used in the statements:
    the modelled functions, [wfm] (well-formed matrix), [value] (the rational number of a finite f64), [is_value x q]
    ([x] is an f64 with value [q]), [fits q] ([q] is the value of some f64: an integer below 2^53 times a power of two
    in the range of exponents), [ZQ] (an integer as a rational) and [pow2] (powers of two), from F64Exact.v. *)
From Coq Require Import List ZArith Lia Bool PeanoNat.
From Coq Require Import QArith Qcanon.
From Coq Require Import Floats.SpecFloat.
From Verif Require Import Base Vec Elim Scalars Matrix MatrixMore LinAlg ZQ F64 F64Shape F64Solve F64Exact F64Det.
Import ListNotations.
Close Scope Q_scope. Close Scope Qc_scope.
Open Scope nat_scope.

Lemma Ret_inv {A} (a b : A) : Ret a = Ret b -> a = b.
Proof. congruence. Qed.

(** [x == 0.0] holds for the two zeros *)
Definition counts_as_zero (x : float) : Prop := x = S754_zero false \/ x = S754_zero true.

(** [t] is in reduced row echelon form with pivots in the columns [ps], one per row: each pivot is exactly 1.0, the
    entries to its left count as zero, and the entries above it are exactly 0.0 *)
Definition rref_f64 (n : nat) (ps : list nat) (t : mat float) : Prop :=
  nrows t = length ps /\
  (forall i j, i < j < length ps -> nth i ps 0 < nth j ps 0) /\
  (forall i, i < length ps -> nth i ps 0 < n /\
     index t i (nth i ps 0) = Ret f_one /\
     (forall c, c < nth i ps 0 -> exists z, index t i c = Ret z /\ counts_as_zero z) /\
     (forall k, k < i -> index t k (nth i ps 0) = Ret f_zero)).

Lemma isz_counts x : isz x = true <-> counts_as_zero x.
Proof.
  rewrite isz_eq. unfold counts_as_zero. split.
  - intros ([|] & ->); auto.
  - intros [-> | ->]; eauto.
Qed.

Lemma rref_rref n ps rs : 0 < n -> rref n ps rs -> rref_f64 n ps (match rs with [] => Mat 0 0 [] | _ => mrows n rs end).
Proof.
  intros Hn (L & Hl & S & R). unfold rref_f64.
  destruct rs as [|r rs].
  - destruct ps; [|discriminate Hl]. simpl. splits; auto; intros; lia.
  - cbn [nrows mrows]. rewrite Hl in *. splits; auto.
    + intros i j H. apply S; lia.
    + intros i Hi. destruct (R i Hi) as (R1 & R2 & R3 & R4). rewrite (mrows_mk n (r :: rs)) by auto. splits; auto.
      * rewrite index_mk by auto. rewrite R2. reflexivity.
      * intros c Hc. rewrite index_mk by (auto; lia). eexists. split; [reflexivity|]. apply isz_counts. auto.
      * intros k Hk. rewrite index_mk by (auto; lia). rewrite R4; auto.
Qed.

(** ** C84 *)

(** the rank is a number no larger than the numbers of rows and columns, also with infinite or NaN entries *)
Theorem C84_rank (m : mat float) : wfm m -> 0 < ncols m -> exists r, rank m = Ret r /\ r <= nrows m /\ r <= ncols m.
Proof.
  intros W Hc. rewrite (wfm_eq_mk m W). cbn [nrows ncols mk]. rewrite mk_mrows.
  destruct (rank_f (ncols m) (frows (nrows m) (ncols m) (ent m)) Hc (frows_lens _ _ _)) as (bs & _ & E & L1 & L2).
  rewrite frows_length in L1. eauto.
Qed.
Print Assumptions C84_rank.

(** reduced_basis returns a matrix in reduced row echelon form, with as many rows as the rank *)
Theorem C84_reduced_basis (m : mat float) : wfm m -> 0 < ncols m ->
  exists t ps, reduced_basis m = Ret t /\ rref_f64 (ncols m) ps t /\ rank m = Ret (nrows t) /\
    (0 < nrows t -> ncols t = ncols m).
Proof.
  intros W Hc. rewrite (wfm_eq_mk m W). cbn [nrows ncols mk]. rewrite mk_mrows.
  set (rows := frows (nrows m) (ncols m) (ent m)).
  destruct (reduced_basis_f (ncols m) rows Hc (frows_lens _ _ _)) as (bs & rs & E & L & _ & _ & _ & Er & R & Nr).
  destruct (rank_f (ncols m) rows Hc (frows_lens _ _ _)) as (bs' & E' & Ek & _). rewrite E in E'. apply Ret_inv in E' as <-.
  eexists. exists (pivots bs). split; [exact Er|]. split; [apply rref_rref; auto|]. rewrite Ek, <- Nr.
  destruct rs; splits; auto. simpl. lia.
Qed.
Print Assumptions C84_reduced_basis.

(** the determinant of a square matrix is a number *)
Theorem C84_determinant (m : mat float) : wfm m -> nrows m = ncols m -> exists x, determinant m = Ret x.
Proof. intros W E. rewrite (wfm_eq_mk m W), E. apply determinant_f. Qed.
Print Assumptions C84_determinant.

(** solve returns a matrix of the right shape, or None exactly if the reduced basis of [a | b] has a pivot beyond the
    columns of a *)
Theorem C84_solve (a b : mat float) : wfm a -> wfm b -> 0 < ncols a -> 0 < ncols b -> nrows a = nrows b ->
  exists h t ps, hstack [a; b] = Ret h /\ reduced_basis h = Ret t /\ rref_f64 (ncols a + ncols b) ps t /\
    ((exists x, solve a b = Ret (Some x) /\ wfm x /\ nrows x = ncols a /\ ncols x = ncols b /\
        forall p, In p ps -> p < ncols a) \/
     (solve a b = Ret None /\ exists p, In p ps /\ ncols a <= p)).
Proof.
  intros Wa Wb Ha Hb E.
  destruct (solve_f (nrows a) (ncols a) (ncols b) (ent a) (ent b) Ha Hb) as (rs & ps & Er & R & C).
  assert (Ea : mk (nrows a) (ncols a) (ent a) = a) by (symmetry; apply wfm_eq_mk; auto).
  assert (Eb : mk (nrows a) (ncols b) (ent b) = b) by (rewrite E; symmetry; apply wfm_eq_mk; auto).
  rewrite Ea, Eb in C.
  assert (Eh : hstack [a; b] = Ret (mrows (ncols a + ncols b) (hrows (frows (nrows a) (ncols a) (ent a)) (frows (nrows a) (ncols b) (ent b))))).
  { rewrite <- Ea at 1. rewrite <- Eb at 1. rewrite !mk_mrows. apply hstack_mrows; auto using frows_lens; [rewrite !frows_length; auto|lia]. }
  do 2 eexists. exists ps. split; [exact Eh|].
  split; [exact Er|]. split; [apply rref_rref; auto; lia|].
  destruct C as [(C1 & x & C2)|(C1 & C2)].
  - left. eexists. split; [exact C2|]. splits; auto. apply mk_wf; auto.
  - right. auto.
Qed.
Print Assumptions C84_solve.

Theorem C84_inverse (a : mat float) : wfm a -> 0 < ncols a -> nrows a = ncols a ->
  exists o, inverse a = Ret o /\ forall x, o = Some x -> wfm x /\ nrows x = ncols a /\ ncols x = ncols a.
Proof.
  intros W Hc E. unfold inverse. rewrite E, Nat.eqb_refl. cbn [assert bind].
  rewrite identity_mrows by auto. cbn [bind].
  rewrite (mrows_mk (ncols a) (map (vunit (ncols a)) (seq 0 (ncols a)))) by apply funits_lens.
  rewrite map_length, seq_length.
  rewrite (wfm_eq_mk a W), E. cbn [ncols mk].
  destruct (solve_f (ncols a) (ncols a) (ncols a) (ent a) (fun i j => vget (nth i (map (vunit (ncols a)) (seq 0 (ncols a))) []) j) Hc Hc)
    as (rs & ps & _ & _ & [(_ & x & Ex)|(_ & Ex)]); rewrite Ex; eexists; split; try reflexivity; intros y Y; try discriminate Y.
  injection Y as <-. splits; auto. apply mk_wf; auto.
Qed.
Print Assumptions C84_inverse.

(** null_space returns a matrix with at least ncols - nrows columns, or None if there are no more columns than rows *)
Theorem C84_null_space (m : mat float) : wfm m -> 0 < nrows m -> 0 < ncols m ->
  exists o, null_space m = Ret o /\ (o = None -> ncols m <= nrows m) /\
    forall s, o = Some s -> wfm s /\ nrows s = ncols m /\ 0 < ncols s <= ncols m /\ ncols m - nrows m <= ncols s.
Proof.
  intros W Hr Hc. rewrite (wfm_eq_mk m W). cbn [nrows ncols mk].
  destruct (null_space_f (nrows m) (ncols m) (ent m) Hr Hc) as (o & E & H). exists o. split; auto. split.
  - intros ->. auto.
  - intros s ->. destruct H as (d & x & H1 & H2 & H3 & ->). cbn [nrows ncols mk]. splits; auto. apply mk_wf; auto.
Qed.
Print Assumptions C84_null_space.

(** 49.0 and 1/49 rounded *)
Definition f49 : float := S754_finite false 6896136929411072 (-47).
Example f49_value : is_value f49 (ZQ 49). Proof. split; [reflexivity|]. vm_compute. f_equal. apply Qc_is_canon. reflexivity. Qed.
Definition sing : mat float := Mat 2 2 [f49; f49; f_one; f_one].

(** but the results need not be those of the matrix: [[49, 49], [1, 1]] has rank 2 and determinant 0 *)
Theorem C84_rank_refuted : wfm sing /\ rank sing = Ret 2 /\ determinant sing = Ret f_zero /\
  exists x, inverse sing = Ret (Some x).
Proof. splits; try (vm_compute; reflexivity); [split; [reflexivity|discriminate]|]. eexists. vm_compute. reflexivity. Qed.
Print Assumptions C84_rank_refuted.

(** and no solution is found for 49 x = 49, x = 1 *)
Theorem C84_solve_refuted :
  let a := Mat 2 1 [f49; f_one] in
  mat_mul a (Mat 1 1 [f_one]) = Ret a /\ solve a a = Ret None.
Proof. cbv zeta. split; vm_compute; reflexivity. Qed.
Print Assumptions C84_solve_refuted.

(** ** C85 *)

(** sums, differences, products and quotients are exact whenever the exact result is an f64 *)
Theorem C85_operations x y a b : is_value x a -> is_value y b ->
  (fits (a + b)%Qc -> is_value (radd x y) (a + b)%Qc) /\
  (fits (a - b)%Qc -> is_value (rsub x y) (a - b)%Qc) /\
  (fits (a * b)%Qc -> is_value (rmul x y) (a * b)%Qc) /\
  (b <> 0%Qc -> fits (a / b)%Qc -> is_value (f_div x y) (a / b)%Qc) /\
  is_value (ropp x) (- a)%Qc /\
  (reqb x y = true <-> a = b).
Proof.
  intros X Y. splits.
  - apply add_exact; auto.
  - apply sub_exact; auto.
  - apply mul_exact; auto.
  - apply div_exact; auto.
  - apply opp_exact; auto.
  - apply eqb_value; auto.
Qed.
Print Assumptions C85_operations.

(** [fits] is about the values of f64: every value fits, and every number that fits is a value *)
Theorem C85_fits q : fits q <-> exists x, is_value x q.
Proof.
  split.
  - intros (M & E & HM & HE & ->). exists (binary_normalize 53 1024 M E false). apply normalize_exact. exists M, E. auto.
  - intros (x & H). apply (value_fits x); auto.
Qed.
Print Assumptions C85_fits.

(** an f64 matrix whose entries are the integers [u i j] times 2^E *)
Definition int_entries (m : mat float) (r c : nat) (E : Z) (u : nat -> nat -> Z) : Prop :=
  wfm m /\ nrows m = r /\ ncols m = c /\
  forall i j, i < r -> j < c -> exists x, index m i j = Ret x /\ is_value x (ZQ (u i j) * pow2 E)%Qc.

Definition below (r c : nat) (B : Z) (u : nat -> nat -> Z) : Prop := forall i j, i < r -> j < c -> (Z.abs (u i j) <= B)%Z.

Lemma int_entries_mk m r c E u : int_entries m r c E u ->
  exists f, m = mk r c f /\ forall i j, i < r -> j < c -> isv (f i j) (u i j) E.
Proof.
  intros (W & Hr & Hc & H). exists (ent m). split; [rewrite <- Hr, <- Hc at 1; apply wfm_eq_mk; auto|]. intros i j Hi Hj.
  destruct (H i j Hi Hj) as (x & Ex & V). rewrite index_wf in Ex by (auto; lia). apply Ret_inv in Ex. subst x. exact V.
Qed.

Lemma mk_int_entries r c E u f : 0 < c -> (forall i j, i < r -> j < c -> isv (f i j) (u i j) E) -> int_entries (mk r c f) r c E u.
Proof.
  intros Hc H. unfold int_entries. splits; auto; [apply mk_wf; auto|]. intros i j Hi Hj. rewrite index_mk by auto. eexists. split; [reflexivity|]. apply H; auto.
Qed.

Theorem C85_sum a b r c E u w : (0 < c)%nat -> (-1074 <= E <= 971)%Z -> int_entries a r c E u -> int_entries b r c E w ->
  (forall i j, i < r -> j < c -> (Z.abs (u i j + w i j) < 2 ^ 53)%Z) ->
  exists s, mat_add a b = Ret s /\ int_entries s r c E (fun i j => (u i j + w i j)%Z).
Proof.
  intros Hc HE A B H. apply int_entries_mk in A as (f & -> & A). apply int_entries_mk in B as (g & -> & B).
  destruct (mat_add_exact r c f g u w E HE) as (h & Eh & Hh); auto.
  eexists. split; [exact Eh|]. apply mk_int_entries; auto.
Qed.
Print Assumptions C85_sum.

Theorem C85_difference a b r c E u w : (0 < c)%nat -> (-1074 <= E <= 971)%Z -> int_entries a r c E u -> int_entries b r c E w ->
  (forall i j, i < r -> j < c -> (Z.abs (u i j - w i j) < 2 ^ 53)%Z) ->
  exists s, mat_sub a b = Ret s /\ int_entries s r c E (fun i j => (u i j - w i j)%Z).
Proof.
  intros Hc HE A B H. apply int_entries_mk in A as (f & -> & A). apply int_entries_mk in B as (g & -> & B).
  destruct (mat_sub_exact r c f g u w E HE) as (h & Eh & Hh); auto.
  eexists. split; [exact Eh|]. apply mk_int_entries; auto.
Qed.
Print Assumptions C85_difference.

(** products of matrices of integers, if the number of terms times the largest entries is below 2^53 *)
Theorem C85_product a b r n c E F A B u w : (0 < c)%nat -> (-1074 <= E + F <= 971)%Z -> (Z.of_nat n * (A * B) < 2 ^ 53)%Z ->
  int_entries a r n E u -> below r n A u -> int_entries b n c F w -> below n c B w ->
  exists p, mat_mul a b = Ret p /\ int_entries p r c (E + F) (fun i j => sumf n (fun l => u i l * w l j)%Z).
Proof.
  intros Hc HE HB Ha La Hb Lb. apply int_entries_mk in Ha as (f & -> & Ha). apply int_entries_mk in Hb as (g & -> & Hb).
  destruct (mat_mul_exact r n c f g u w E F A B) as (h & Eh & Hh); auto.
  eexists. split; [exact Eh|]. apply mk_int_entries; auto.
Qed.
Print Assumptions C85_product.

(** determinants of size up to 3 of matrices of integers up to B, if 6 B^3 is below 2^53: the same as that of the integer
    matrix, whose meaning is C07 *)
Theorem C85_small_determinant m n E B u : n <= 3 -> (-1074 <= Z.of_nat n * E <= 971)%Z -> (-1074 <= 2 * E <= 971)%Z ->
  (-1074 <= E <= 971)%Z -> (6 * B ^ 3 < 2 ^ 53)%Z -> int_entries m n n E u -> below n n B u ->
  exists x d, determinant m = Ret x /\ determinant (mk n n u) = Ret d /\ is_value x (ZQ d * pow2 (Z.of_nat n * E))%Qc.
Proof.
  intros Hn H1 H2 H3 HB Hm L. apply int_entries_mk in Hm as (f & -> & Hm).
  apply (determinant_exact n f u E B); auto.
Qed.
Print Assumptions C85_small_determinant.

(** larger triangular matrices: the product of the diagonal, if the partial products fit *)
Theorem C85_triangular_determinant m n (q : nat -> Qc) : 4 <= n -> wfm m -> nrows m = n -> ncols m = n ->
  (forall i j, i < n -> j < i -> exists z, index m i j = Ret z /\ counts_as_zero z) ->
  (forall i, i < n -> exists x, index m i i = Ret x /\ is_value x (q i) /\ q i <> 0%Qc) ->
  (forall k, k <= n -> fits (qprod k q)) ->
  exists x, determinant m = Ret x /\ is_value x (qprod n q).
Proof.
  intros Hn W Hr Hc Z D F. rewrite (wfm_eq_mk m W), Hr, Hc. apply determinant_triangular; auto.
  - intros i j Hi Hj. destruct (Z i j Hi Hj) as (z & E & C). rewrite index_wf in E by (auto; lia).
    apply Ret_inv in E. rewrite E. apply isz_counts. auto.
  - intros i Hi. destruct (D i Hi) as (x & E & C). rewrite index_wf in E by (auto; lia). apply Ret_inv in E. rewrite E. auto.
Qed.
Print Assumptions C85_triangular_determinant.

(** 2.0 *)
Definition f_two : float := S754_finite false 4503599627370496 (-51).

Lemma qprod_two k : qprod k (fun _ => ZQ 2) = pow2 (Z.of_nat k).
Proof.
  induction k as [|k IH]; [reflexivity|]. cbn [qprod]. rewrite IH. replace (Z.of_nat (S k)) with (Z.of_nat k + 1)%Z by lia.
  rewrite pow2_succ by lia. reflexivity.
Qed.

(** the matrix 2 I of any size up to 1023 has determinant 2^d, cf. the test in linear_algebra.rs 430-445 *)
Theorem C85_twice_identity d m : 4 <= d <= 1023 -> wfm m -> nrows m = d -> ncols m = d ->
  (forall i j, i < d -> j < d -> index m i j = Ret (if i =? j then f_two else f_zero)) ->
  exists x, determinant m = Ret x /\ is_value x (pow2 (Z.of_nat d)).
Proof.
  intros Hd W Hr Hc H.
  destruct (C85_triangular_determinant m d (fun _ => ZQ 2)) as (x & E & V); auto; try lia.
  - intros i j Hi Hj. rewrite H by lia. destruct (Nat.eqb_spec i j); [lia|]. eexists. split; [reflexivity|]. left. reflexivity.
  - intros i Hi. rewrite H by lia. rewrite Nat.eqb_refl. eexists. split; [reflexivity|]. split.
    + split; [reflexivity|]. vm_compute. f_equal. apply Qc_is_canon. reflexivity.
    + discriminate.
  - intros k Hk. rewrite qprod_two. exists (2 ^ Z.max 0 (Z.of_nat k - 971))%Z, (Z.min 971 (Z.of_nat k)).
    assert (HM : (0 <= Z.max 0 (Z.of_nat k - 971) < 53)%Z) by lia. splits.
    + rewrite Z.abs_eq by (apply Z.pow_nonneg; lia). apply Z.pow_lt_mono_r; lia.
    + lia.
    + lia.
    + rewrite <- (pow2_pos (Z.max 0 (Z.of_nat k - 971))) by lia. rewrite <- pow2_add. f_equal. lia.
  - rewrite qprod_two in V. eauto.
Qed.
Print Assumptions C85_twice_identity.

(** ** examples *)
(** the integers as f64 *)
Definition fl (z : Z) : float := binary_normalize 53 1024 z 0 false.
Lemma fl_value z : (Z.abs z < 2 ^ 53)%Z -> is_value (fl z) (ZQ z * pow2 0)%Qc.
Proof. intros H. apply normalize_exact. exists z, 0%Z. splits; auto; lia. Qed.
Definition example_matrix : mat float := Mat 3 3 (map fl [2; 3; 5; 7; 11; 13; 17; 19; 23]%Z).
Definition example_ints (i j : nat) : Z := nth (3 * i + j) [2; 3; 5; 7; 11; 13; 17; 19; 23]%Z 0%Z.
Example example_entries : int_entries example_matrix 3 3 0 example_ints /\ below 3 3 23 example_ints.
Proof.
  split.
  - unfold int_entries. splits; try reflexivity; [split; [reflexivity|discriminate]|]. intros i j Hi Hj.
    exists (fl (example_ints i j)). split; [destruct i as [|[|[|i]]]; try lia; destruct j as [|[|[|j]]]; try lia; reflexivity|].
    apply fl_value. destruct i as [|[|[|i]]]; try lia; destruct j as [|[|[|j]]]; try lia; vm_compute; reflexivity.
  - intros i j Hi Hj. destruct i as [|[|[|i]]]; try lia; destruct j as [|[|[|j]]]; try lia; vm_compute; discriminate.
Qed.
(** its determinant is -78, and its product with itself is exact *)
Example example_results : determinant example_matrix = Ret (fl (-78)) /\ determinant (mk 3 3 example_ints) = Ret (-78)%Z /\
  mat_mul example_matrix example_matrix = Ret (Mat 3 3 (map fl [110; 134; 164; 312; 389; 477; 558; 697; 861]%Z)).
Proof. splits; vm_compute; reflexivity. Qed.
(** the hypotheses of C84 hold for it, and the results are as expected *)
Example example_elimination : wfm example_matrix /\ rank example_matrix = Ret 3 /\ reduced_basis example_matrix = Ret (Mat 3 3 (map fl [1; 0; 0; 0; 1; 0; 0; 0; 1]%Z)) /\ solve example_matrix (Mat 3 1 (map fl [10; 31; 59]%Z)) = Ret (Some (Mat 3 1 (map fl [1; 1; 1]%Z))) /\ null_space (Mat 1 2 [f_one; f_two]) = Ret (Some (Mat 2 1 [f_one; S754_finite true 4503599627370496 (-53)])).
Proof. splits; try (vm_compute; reflexivity). split; [reflexivity|discriminate]. Qed.
