(** Property C98: operations on f64 are correctly rounded, and bounds for the rounding errors of sums, products and
    determinants of matrices of f64.

    Used in the statements: the modelled functions; [is_value x q] (the f64 [x] has the value [q]); [value x], the value
    of a finite f64, None for the infinities and NaN; [rnd64 q], the f64 number nearest to [q], of two equally near ones
    the one with even mantissa, None from half a unit above the largest one (C86); [fits q] (q is the value of an f64).
    The matrices are given by their entries. *)
From Coq Require Import List ZArith Lia Bool PeanoNat.
From Coq Require Import QArith Qcanon Qcabs.
From Coq Require Import Floats.SpecFloat.
From Verif Require Import Base Vec Scalars Matrix MatrixMore LinAlg ZQ QcTac F64 F64Exact F64Round F64Correct F64Error Props_F64.
Import ListNotations.
Close Scope Q_scope. Close Scope Qc_scope.
Open Scope nat_scope.

(** The result of an operation is the exact result rounded; it is the infinity of the right sign if that is too large. *)
Theorem C98_operations x y a b : is_value x a -> is_value y b ->
  correctly_rounded (f_add x y) (a + b)%Qc /\ correctly_rounded (f_sub x y) (a - b)%Qc /\ correctly_rounded (f_mul x y) (a * b)%Qc /\
  (b <> 0%Qc -> correctly_rounded (f_div x y) (a / b)%Qc).
Proof. intros Hx Hy. splits; [apply add_correct|apply sub_correct|apply mul_correct|intros; apply div_correct]; auto. Qed.
Print Assumptions C98_operations.

(** what this says: no f64 is nearer to the exact result *)
Theorem C98_nearest f q v : correctly_rounded f q -> value f = Some v -> fits v /\ forall y, fits y -> (Qcabs (q - v) <= Qcabs (q - y))%Qc.
Proof.
  unfold correctly_rounded. destruct (rnd64 q) as [r|] eqn:E; intros H V; [|subst f; discriminate V].
  destruct H as (_ & H). rewrite H in V. injection V as <-. split; [eapply rnd64_fits; eauto|]. intros y Hy. apply (rnd64_nearest q r y E Hy).
Qed.
Print Assumptions C98_nearest.

(** and it is infinite exactly if the exact result is at least half a unit above the largest f64 *)
Theorem C98_infinite f q : correctly_rounded f q -> value f = None <-> (ZQ (2 ^ 1024 - 2 ^ 970) <= Qcabs q)%Qc.
Proof.
  rewrite <- rnd64_overflow. unfold correctly_rounded. destruct (rnd64 q) as [r|]; intros H; split; intros V; auto; try discriminate V; subst; auto.
  destruct H as (_ & H). congruence.
Qed.
Print Assumptions C98_infinite.

(** The relative error is at most 2^-53 from 2^-1022 on, and the error is at most 2^-1075 below it. *)
Theorem C98_relative_error f q v : correctly_rounded f q -> value f = Some v ->
  ((pow2 (-1022) <= Qcabs q)%Qc -> (Qcabs (q - v) <= pow2 (-53) * Qcabs q)%Qc) /\
  ((Qcabs q <= pow2 (-1022))%Qc -> (Qcabs (q - v) <= pow2 (-1075))%Qc).
Proof.
  unfold correctly_rounded. destruct (rnd64 q) as [r|] eqn:E; intros H V; [|subst f; discriminate V].
  destruct H as (_ & H). rewrite H in V. injection V as <-.
  assert (P : (pow2 (-1075) = pow2 (-53) * pow2 (-1022))%Qc) by (rewrite <- pow2_add; reflexivity).
  assert (U : (0 < pow2 (-53))%Qc) by apply pow2_gt0. rewrite P.
  destruct (rnd64_error q r E) as [B|(B & _)]; unfold half_ulp, half_min in B; rewrite ?P in B; split; intros L; auto.
  - eapply Qcle_trans; [exact B|]. apply mul_le_l; auto.
  - eapply Qcle_trans; [exact B|]. apply mul_le_l; auto.
Qed.
Print Assumptions C98_relative_error.

(** For sums and differences the relative error is at most 2^-53 without exception. *)
Theorem C98_sums x y a b : is_value x a -> is_value y b ->
  (forall v, value (f_add x y) = Some v -> (Qcabs ((a + b) - v) <= pow2 (-53) * Qcabs (a + b))%Qc) /\
  (forall v, value (f_sub x y) = Some v -> (Qcabs ((a - b) - v) <= pow2 (-53) * Qcabs (a - b))%Qc).
Proof.
  intros Hx Hy. assert (Wx : whole a) by (eapply fits_whole, value_fits; eauto). assert (Wy : whole b) by (eapply fits_whole, value_fits; eauto).
  pose proof (add_correct _ _ _ _ Hx Hy) as A. pose proof (sub_correct _ _ _ _ Hx Hy) as B.
  apply correct_cases in A, B. split; intros v V.
  - destruct A as [(r & E & _ & H)|A]; [|congruence]. rewrite H in V. injection V as <-. apply rnd64_error_whole; auto. apply whole_add; auto.
  - destruct B as [(r & E & _ & H)|B]; [|congruence]. rewrite H in V. injection V as <-. apply rnd64_error_whole; auto. apply whole_sub; auto.
Qed.
Print Assumptions C98_sums.

(** ** matrices *)
(** [m] is a matrix with [r] rows and [c] columns of f64 with the values [u i j] *)
Definition entries (m : mat float) (r c : nat) (u : nat -> nat -> Qc) : Prop :=
  wfm m /\ nrows m = r /\ ncols m = c /\
  forall i j, i < r -> j < c -> exists x, index m i j = Ret x /\ is_value x (u i j).

Lemma entries_mk m r c u : entries m r c u -> exists f, m = mk r c f /\ forall i j, i < r -> j < c -> is_value (f i j) (u i j).
Proof.
  intros (W & Hr & Hc & H). exists (ent m). split; [rewrite <- Hr, <- Hc at 1; apply wfm_eq_mk; auto|]. intros i j Hi Hj.
  destruct (H i j Hi Hj) as (x & Ex & V). rewrite index_wf in Ex by (auto; lia). apply Ret_inv in Ex. subst x. exact V.
Qed.

Lemma mk_shape r c (f : nat -> nat -> float) (P : nat -> nat -> float -> Prop) : 0 < c -> (forall i j, i < r -> j < c -> P i j (f i j)) ->
  wfm (mk r c f) /\ nrows (mk r c f) = r /\ ncols (mk r c f) = c /\ forall i j, i < r -> j < c -> exists x, index (mk r c f) i j = Ret x /\ P i j x.
Proof.
  intros Hc H. splits; auto; [apply mk_wf; auto|]. intros i j Hi Hj. rewrite index_mk by auto. eexists. split; [reflexivity|]. auto.
Qed.

(** every entry of a sum, a difference and a multiple is the exact one rounded *)
Theorem C98_matrix_sum a b r c u w : 0 < c -> entries a r c u -> entries b r c w ->
  exists s, mat_add a b = Ret s /\ wfm s /\ nrows s = r /\ ncols s = c /\
    forall i j, i < r -> j < c -> exists x, index s i j = Ret x /\ correctly_rounded x (u i j + w i j)%Qc.
Proof.
  intros Hc A B. apply entries_mk in A as (f & -> & A). apply entries_mk in B as (g & -> & B).
  eexists. split; [apply mat_zip_mk|]. apply (mk_shape r c _ (fun i j x => correctly_rounded x (u i j + w i j)%Qc)); auto.
  intros i j Hi Hj. apply add_correct; auto.
Qed.
Print Assumptions C98_matrix_sum.

Theorem C98_matrix_difference a b r c u w : 0 < c -> entries a r c u -> entries b r c w ->
  exists s, mat_sub a b = Ret s /\ wfm s /\ nrows s = r /\ ncols s = c /\
    forall i j, i < r -> j < c -> exists x, index s i j = Ret x /\ correctly_rounded x (u i j - w i j)%Qc.
Proof.
  intros Hc A B. apply entries_mk in A as (f & -> & A). apply entries_mk in B as (g & -> & B).
  eexists. split; [apply mat_zip_mk|]. apply (mk_shape r c _ (fun i j x => correctly_rounded x (u i j - w i j)%Qc)); auto.
  intros i j Hi Hj. apply sub_correct; auto.
Qed.
Print Assumptions C98_matrix_difference.

Theorem C98_matrix_multiple a r c u x q : 0 < c -> entries a r c u -> is_value x q ->
  exists s, mat_scale x a = Ret s /\ wfm s /\ nrows s = r /\ ncols s = c /\
    forall i j, i < r -> j < c -> exists y, index s i j = Ret y /\ correctly_rounded y (u i j * q)%Qc.
Proof.
  intros Hc A X. apply entries_mk in A as (f & -> & A).
  eexists. split; [apply mat_scale_mk|]. apply (mk_shape r c _ (fun i j y => correctly_rounded y (u i j * q)%Qc)); auto.
  intros i j Hi Hj. apply mul_correct; auto.
Qed.
Print Assumptions C98_matrix_multiple.

(** The product.  The error of an entry is at most ((1 + 2^-53)^n - 1) times the sum of the absolute values of the
    products, apart from products below the smallest f64 numbers, if the entry is finite. *)
Theorem C98_matrix_product a b r n c u w : 0 < c -> entries a r n u -> entries b n c w ->
  exists p, mat_mul a b = Ret p /\ wfm p /\ nrows p = r /\ ncols p = c /\
    forall i j, i < r -> j < c -> exists x, index p i j = Ret x /\
      forall v, value x = Some v ->
        let g := Qcpower (1 + pow2 (-53)) n in
        (Qcabs (sumf n (fun l => u i l * w l j) - v) <=
          (g - 1) * sumf n (fun l => Qcabs (u i l) * Qcabs (w l j)) + ZQ (Z.of_nat n) * pow2 (-1075) * g)%Qc.
Proof.
  intros Hc A B. apply entries_mk in A as (f & -> & A). apply entries_mk in B as (g & -> & B).
  eexists. split; [apply mat_mul_mk; auto|].
  apply (mk_shape r c _ (fun i j x => forall v, value x = Some v -> (Qcabs (sumf n (fun l => u i l * w l j) - v) <=
    (Qcpower (1 + pow2 (-53)) n - 1) * sumf n (fun l => Qcabs (u i l) * Qcabs (w l j)) + ZQ (Z.of_nat n) * pow2 (-1075) * Qcpower (1 + pow2 (-53)) n)%Qc)); auto.
  intros i j Hi Hj v V.
  destruct (sum_error (fun l => f i l) (fun l => g l j) (fun l => u i l) (fun l => w l j) n) as [N|(v' & (_ & V') & E)].
  - intros l Hl. split; auto.
  - cbv beta in N. congruence.
  - cbv beta in V'. rewrite V' in V. injection V as <-. exact E.
Qed.
Print Assumptions C98_matrix_product.

(** In particular at most n 2^-52 times that sum, for up to 2^53 terms. *)
Theorem C98_matrix_product_simple a b r n c u w : 0 < c -> (Z.of_nat n <= 2 ^ 53)%Z -> entries a r n u -> entries b n c w ->
  exists p, mat_mul a b = Ret p /\
    forall i j, i < r -> j < c -> exists x, index p i j = Ret x /\
      forall v, value x = Some v ->
        (Qcabs (sumf n (fun l => u i l * w l j) - v) <=
          ZQ (Z.of_nat n) * pow2 (-52) * sumf n (fun l => Qcabs (u i l) * Qcabs (w l j)) + ZQ (3 * Z.of_nat n) * pow2 (-1075))%Qc.
Proof.
  intros Hc Hn A B. destruct (C98_matrix_product a b r n c u w Hc A B) as (p & E & _ & _ & _ & H). exists p. split; auto.
  intros i j Hi Hj. destruct (H i j Hi Hj) as (x & Ex & Hx). exists x. split; auto. intros v V. specialize (Hx v V). cbv zeta in Hx.
  eapply Qcle_trans; [exact Hx|]. eapply Qcle_trans; [apply (bound_small (fun l => u i l) (fun l => w l j) n Hn)|].
  change (half_min) with (pow2 (-1075)). unfold absolute_sum. replace (ZQ (2 * Z.of_nat n) * half_ulp)%Qc with (ZQ (Z.of_nat n) * pow2 (-52))%Qc; [apply Qcle_refl|].
  rewrite ZQ_mul. unfold half_ulp. change (-52)%Z with (-53 + 1)%Z. rewrite pow2_succ by lia. change (2 ^ 1)%Z with 2%Z. ring.
Qed.
Print Assumptions C98_matrix_product_simple.

(** the determinant of a matrix with two rows *)
Theorem C98_determinant_2 m u : entries m 2 2 u ->
  exists x, determinant m = Ret x /\
    forall v, value x = Some v ->
      let g := ((1 + pow2 (-53)) * (1 + pow2 (-53)))%Qc in
      (Qcabs ((u 0%nat 0%nat * u 1%nat 1%nat - u 0%nat 1%nat * u 1%nat 0%nat) - v) <=
        (g - 1) * (Qcabs (u 0%nat 0%nat * u 1%nat 1%nat) + Qcabs (u 0%nat 1%nat * u 1%nat 0%nat)) + ZQ 2 * (1 + pow2 (-53)) * pow2 (-1075))%Qc.
Proof.
  intros A. apply entries_mk in A as (f & -> & A). unfold determinant. cbn [nrows ncols mk assert Nat.eqb bind]. rewrite !index_mk by lia. cbn [bind].
  eexists. split; [reflexivity|]. intros v V. cbv zeta.
  destruct (difference_error (f 0 0) (f 1 1) (f 0 1) (f 1 0) (u 0 0) (u 1 1) (u 0 1) (u 1 0)) as [N|(v' & (_ & V') & E)]; auto.
  - change (rsub ?a ?b) with (f_sub a b) in V. change (rmul ?a ?b) with (f_mul a b) in V. cbv zeta in N. congruence.
  - change (rsub ?a ?b) with (f_sub a b) in V. change (rmul ?a ?b) with (f_mul a b) in V. rewrite V' in V. injection V as <-. exact E.
Qed.
Print Assumptions C98_determinant_2.

(** ** examples *)
Lemma Some_eq (a b : Qc) : Qeq_bool a b = true -> Some a = Some b.
Proof. intros E. apply Qeq_bool_eq, Qc_is_canon in E. rewrite E. reflexivity. Qed.
(** 0.1 as f64: the rounded 1/10 *)
Definition tenth : float := S754_finite false 7205759403792794 (-56).
Definition tenth_q : Qc := (ZQ 3602879701896397 / ZQ 36028797018963968)%Qc.
Example tenth_value : is_value tenth tenth_q /\ rnd64 (1 / ZQ 10)%Qc = Some tenth_q /\ correctly_rounded (f_div f_one (binary_normalize 53 1024 10 0 false)) (1 / ZQ 10)%Qc /\
  f_div f_one (binary_normalize 53 1024 10 0 false) = tenth.
Proof.
  assert (T : is_value tenth tenth_q) by (split; [reflexivity|apply Some_eq; vm_compute; reflexivity]).
  assert (E : rnd64 (1 / ZQ 10)%Qc = Some tenth_q) by (vm_compute; apply Some_eq; vm_compute; reflexivity).
  assert (D : f_div f_one (binary_normalize 53 1024 10 0 false) = tenth) by (vm_compute; reflexivity).
  rewrite D. split; [exact T|split; [exact E|split; [|reflexivity]]]. unfold correctly_rounded. rewrite E. exact T.
Qed.

(** a matrix product that is not exact: 0.1 + 0.1 + 0.1 is 0.30000000000000004 *)
Definition row : mat float := Mat 1 3 [tenth; tenth; tenth].
Definition column : mat float := Mat 3 1 [f_one; f_one; f_one].
Example C98_hypotheses : entries row 1 3 (fun _ _ => tenth_q) /\ entries column 3 1 (fun _ _ => 1%Qc) /\
  exists x v, mat_mul row column = Ret (Mat 1 1 [x]) /\ value x = Some v /\ v <> (tenth_q + tenth_q + tenth_q)%Qc /\ v = (ZQ 1351079888211149 / ZQ 4503599627370496)%Qc.
Proof.
  assert (O : is_value f_one 1%Qc) by (split; [reflexivity|apply Some_eq; vm_compute; reflexivity]).
  splits.
  - unfold entries. splits; try reflexivity; [split; [reflexivity|discriminate]|]. intros i j Hi Hj. exists tenth. split; [|exact (proj1 tenth_value)].
    destruct i as [|i]; [|lia]. destruct j as [|[|[|j]]]; try lia; reflexivity.
  - unfold entries. splits; try reflexivity; [split; [reflexivity|discriminate]|]. intros i j Hi Hj. exists f_one. split; [|exact O].
    destruct j as [|j]; [|lia]. destruct i as [|[|[|i]]]; try lia; reflexivity.
  - exists (S754_finite false 5404319552844596 (-54)), (ZQ 1351079888211149 / ZQ 4503599627370496)%Qc. split; [|split; [|split]].
    + vm_compute. reflexivity.
    + apply Some_eq. vm_compute. reflexivity.
    + intros E. apply Qc_eq_Q in E. vm_compute in E. discriminate E.
    + reflexivity.
Qed.

(** an overflow: the largest f64 times itself is infinite *)
Example C98_overflow : let m := S754_finite false 9007199254740991 971 in is_f64 m /\ f_mul m m = S754_infinity false /\ f_add m m = S754_infinity false /\
  f_sub (S754_finite true 9007199254740991 971) m = S754_infinity true.
Proof. cbv zeta; splits; vm_compute; reflexivity. Qed.
