(** The operations of f64 (F64.v) and the real numbers: relative and absolute errors over R, from F64Correct.v and
    F64Error.v. *)
From Coq Require Import List ZArith Lia Bool PeanoNat QArith Qcanon Qcabs Qreals Reals Lra Permutation.
From Coq Require Import Floats.SpecFloat.
From Verif Require Import Base Vec ZQ QcTac F64 F64Exact F64Round F64Correct F64Error.
Import ListNotations.
Open Scope R_scope.

(** the f64 [x] is the finite number [r] *)
Definition fv (x : float) (r : R) : Prop := exists q : Qc, is_value x q /\ Q2R q = r.

Definition u : R := / IZR (2 ^ 53).

Lemma u_bounds : 0 < u <= / 9000000000000000.
Proof. unfold u. change (IZR (2 ^ 53)) with (IZR 9007199254740992). split; [apply Rinv_0_lt_compat; lra|apply Rinv_le_contravar; lra]. Qed.

Lemma fv_fun x r s : fv x r -> fv x s -> r = s.
Proof. intros (q & (_ & E) & <-) (q' & (_ & E') & <-). congruence. Qed.

Lemma R_plus (a b : Qc) : Q2R (a + b)%Qc = Q2R a + Q2R b.
Proof. cbn [Qcplus this Q2Qc]. rewrite (Qeq_eqR _ _ (Qred_correct _)). apply Q2R_plus. Qed.
Lemma R_mult (a b : Qc) : Q2R (a * b)%Qc = Q2R a * Q2R b.
Proof. cbn [Qcmult this Q2Qc]. rewrite (Qeq_eqR _ _ (Qred_correct _)). apply Q2R_mult. Qed.
Lemma R_opp (a : Qc) : Q2R (- a)%Qc = - Q2R a.
Proof. cbn [Qcopp this Q2Qc]. rewrite (Qeq_eqR _ _ (Qred_correct _)). apply Q2R_opp. Qed.
Lemma R_minus (a b : Qc) : Q2R (a - b)%Qc = Q2R a - Q2R b.
Proof. unfold Qcminus. rewrite R_plus, R_opp. reflexivity. Qed.
Lemma R_le (a b : Qc) : (a <= b)%Qc <-> Q2R a <= Q2R b.
Proof. unfold Qcle. split; [apply Qle_Rle|apply Rle_Qle]. Qed.
Lemma R_0 : Q2R 0%Qc = 0. Proof. unfold Q2R. cbn. lra. Qed.
Lemma R_ZQ z : Q2R (ZQ z) = IZR z.
Proof. unfold ZQ. cbn [this Q2Qc]. rewrite (Qeq_eqR _ _ (Qred_correct _)). unfold Q2R, inject_Z. cbn [Qnum Qden]. field. Qed.
Lemma R_abs (a : Qc) : Q2R (Qcabs a) = Rabs (Q2R a).
Proof.
  destruct (Qclt_le_dec a 0%Qc) as [H|H].
  - apply Qclt_le_weak in H. rewrite Qcabs_neg by auto. rewrite R_opp, Rabs_left1; auto. rewrite <- R_0. apply R_le; auto.
  - rewrite Qcabs_pos by auto. rewrite Rabs_right; auto. apply Rle_ge. rewrite <- R_0. apply R_le; auto.
Qed.
Lemma R_div (a b : Qc) : b <> 0%Qc -> Q2R (a / b)%Qc = Q2R a / Q2R b.
Proof.
  intros H. assert (X : Q2R b <> 0).
  { intros E. apply H. apply Qcle_antisym; apply R_le; rewrite R_0; lra. }
  apply (Rmult_eq_reg_r (Q2R b)); auto. rewrite <- R_mult. replace (a / b * b)%Qc with a by (field; auto). field. auto.
Qed.
Lemma R_half_ulp : Q2R half_ulp = u.
Proof.
  assert (E : (half_ulp * ZQ (2 ^ 53) = 1)%Qc) by (apply Qc_is_canon; vm_compute; reflexivity).
  apply (f_equal (fun q : Qc => Q2R q)) in E. rewrite R_mult, R_ZQ in E. unfold u.
  replace (Q2R 1%Qc) with 1 in E by (unfold Q2R; cbn; lra).
  apply (Rmult_eq_reg_r (IZR (2 ^ 53))); [|apply IZR_neq; lia]. rewrite E, Rinv_l; [reflexivity|apply IZR_neq; lia].
Qed.
Lemma R_half_min : 0 < Q2R half_min <= u.
Proof.
  split.
  - rewrite <- R_0. apply Qlt_Rlt. exact half_min_pos.
  - rewrite <- R_half_ulp. apply R_le. unfold half_min, half_ulp. unfold Qcle. vm_compute. discriminate.
Qed.

(** a rational that is not astronomically large rounds to a finite number *)
Lemma small_rounds (q : Qc) : Rabs (Q2R q) <= IZR (2 ^ 200) -> exists r, rnd64 q = Some r.
Proof.
  intros H. destruct (rnd64 q) as [r|] eqn:E; [eauto|exfalso].
  apply (proj1 (rnd64_overflow q)) in E. apply (proj1 (R_le _ _)) in E. rewrite R_ZQ, R_abs in E.
  assert (L : IZR (2 ^ 200) < IZR (2 ^ 1024 - 2 ^ 970)) by (apply IZR_lt; reflexivity). lra.
Qed.

Lemma correct_real f (q : Qc) : correctly_rounded f q -> Rabs (Q2R q) <= IZR (2 ^ 200) ->
  exists r, fv f r /\ Rabs (r - Q2R q) <= u * (1 + Rabs (Q2R q)) /\ (whole q -> Rabs (r - Q2R q) <= u * Rabs (Q2R q)).
Proof.
  intros C S. destruct (small_rounds q S) as (r & E). unfold correctly_rounded in C. rewrite E in C.
  exists (Q2R r). split; [exists r; auto|].
  assert (A : Rabs (Q2R r - Q2R q) = Q2R (Qcabs (q - r))) by (rewrite R_abs, R_minus, Rabs_minus_sym; reflexivity). rewrite A. split.
  - pose proof (rnd64_error_sum q r E) as X. apply (proj1 (R_le _ _)) in X. rewrite R_plus, R_mult, R_half_ulp, (R_abs q) in X.
    pose proof R_half_min. lra.
  - intros W. pose proof (rnd64_error_whole q r W E) as X. apply (proj1 (R_le _ _)) in X. rewrite R_mult, R_half_ulp, (R_abs q) in X. exact X.
Qed.

Lemma value_whole x q : is_value x q -> whole q.
Proof. intros H. apply fits_whole. eapply value_fits; eauto. Qed.

Lemma fadd_real x y a b : fv x a -> fv y b -> Rabs (a + b) <= IZR (2 ^ 200) ->
  exists r, fv (f_add x y) r /\ Rabs (r - (a + b)) <= u * Rabs (a + b).
Proof.
  intros (p & Vp & <-) (q & Vq & <-) S. rewrite <- R_plus in *.
  destruct (correct_real _ _ (add_correct x y p q Vp Vq) S) as (r & F & _ & W). exists r. split; auto.
  apply W. apply whole_add; eapply value_whole; eauto.
Qed.

Lemma fmul_real x y a b : fv x a -> fv y b -> Rabs (a * b) <= IZR (2 ^ 200) ->
  exists r, fv (f_mul x y) r /\ Rabs (r - a * b) <= u * (1 + Rabs (a * b)).
Proof.
  intros (p & Vp & <-) (q & Vq & <-) S. rewrite <- R_mult in *.
  destruct (correct_real _ _ (mul_correct x y p q Vp Vq) S) as (r & F & W & _). exists r. split; auto.
Qed.

Lemma fdiv_real x y a b : fv x a -> fv y b -> b <> 0 -> Rabs (a / b) <= IZR (2 ^ 200) ->
  exists r, fv (f_div x y) r /\ Rabs (r - a / b) <= u * (1 + Rabs (a / b)).
Proof.
  intros (p & Vp & <-) (q & Vq & <-) N S.
  assert (N' : q <> 0%Qc) by (intros ->; apply N; apply R_0). rewrite <- R_div in * by auto.
  destruct (correct_real _ _ (div_correct x y p q Vp Vq N') S) as (r & F & W & _). exists r. split; auto.
Qed.

(** modular_solver.rs 171, 176: an integer converted to f64, [x as f64] *)
Definition float_of_int (z : Z) : float := binary_normalize 53 1024 z 0 false.

Lemma float_of_int_real z : (Z.abs z <= 2 ^ 200)%Z -> exists r, fv (float_of_int z) r /\ Rabs (r - IZR z) <= u * Rabs (IZR z).
Proof.
  intros H. pose proof (normalize_correct z 0 false) as C.
  replace (ZQ z * pow2 0)%Qc with (ZQ z) in C by (replace (pow2 0) with 1%Qc by (apply Qc_is_canon; reflexivity); ring).
  assert (S : Rabs (Q2R (ZQ z)) <= IZR (2 ^ 200)) by (rewrite R_ZQ, <- abs_IZR; apply IZR_le; exact H).
  destruct (correct_real _ _ C S) as (r & F & _ & W). rewrite R_ZQ in W. exists r. split; auto. apply W.
  exists (z * 2 ^ 1074)%Z. rewrite ZQ_mul. replace (ZQ (2 ^ 1074)) with (pow2 1074) by (apply Qc_is_canon; vm_compute; reflexivity).
  assert (E : (pow2 1074 * pow2 (-1074) = 1)%Qc) by (apply Qc_is_canon; vm_compute; reflexivity).
  transitivity (ZQ z * (pow2 1074 * pow2 (-1074)))%Qc; [rewrite E; ring|ring].
Qed.

Lemma fv_zero : fv f_zero 0.
Proof. exists 0%Qc. split; [split; reflexivity|apply R_0]. Qed.
Lemma fv_one : fv f_one 1.
Proof.
  exists 1%Qc. split; [split; [reflexivity|]|unfold Q2R; cbn; lra].
  unfold f_one, value. f_equal. apply Qc_is_canon. vm_compute. reflexivity.
Qed.
