(** Property C99: the number of lifting steps that the code computes in f64.

    The functions powf(., 2), sqrt and ln of the platform are assumed to have relative errors of at most 10^-12
    ([square_accurate], [sqrt_accurate], [ln_accurate] in FloatSteps.v), several thousand times what a usual library has. *)
From Coq Require Import List ZArith Lia Bool PeanoNat Znumtheory QArith Qcanon Qreals Reals Lra.
From Coq Require Import Floats.SpecFloat.
From Verif Require Import Base Partition Vec Matrix ZQ F64 F64Exact F64Correct FloatReal ModSolver ModSolve Dixon ModFinal Props_ModSolver Props_Steps FloatSteps Det22.
From Verif Require ModMC.
Import ListNotations.
Open Scope R_scope.

(** the determinants that matter: the matrix's own and the numerators of Cramer's rule *)
Definition relevant (n m : nat) (a b : zmat) (d : Z) : Prop :=
  d = det n a \/ exists l j, (l < n)%nat /\ (j < m)%nat /\ d = cramer_det n a b l j.

Section Steps.
  Variables sq sqrt_f ln_f : float -> float.

  Lemma column_norm_tab r c g j : (j < c)%nat -> column_norm sq sqrt_f (tab r c g) j = Ret (col_f sq sqrt_f r g j).
  Proof.
    intros Hj. unfold column_norm, col_f. rewrite tab_length.
    rewrite (mapM_Ret _ (fun i => sq (float_of_int (g i j)))); [reflexivity|].
    intros i Hi. apply in_seq in Hi. rewrite ix_tab by (auto; lia). reflexivity.
  Qed.

  Lemma f64_steps_tab n m g h p : (0 < n)%nat -> (0 < m)%nat ->
    f64_steps sq sqrt_f ln_f (tab n n g) (tab n m h) p =
    do mb <- unwrap (max_total (map (fun j => ln_f (col_f sq sqrt_f n h j)) (seq 0 m)));
    Ret (Z.to_nat (ceil_u64 (f_div (f_mul (float_of_int 2) (f_add
      (fold_left f_add (tl (sort_total (map (fun j => ln_f (col_f sq sqrt_f n g j)) (seq 0 n) ++ [mb]))) f_zero) (ln_f (golden_f sqrt_f))))
      (ln_f (float_of_int p))))).
  Proof.
    intros Hn Hm. unfold f64_steps. rewrite !tab_0 by auto. cbn [bind unwrap]. rewrite !row_length.
    rewrite (mapM_Ret _ (fun j => ln_f (col_f sq sqrt_f n g j))) by (intros j Hj; apply in_seq in Hj; rewrite column_norm_tab by lia; reflexivity).
    cbn [bind].
    rewrite (mapM_Ret _ (fun j => ln_f (col_f sq sqrt_f n h j))) by (intros j Hj; apply in_seq in Hj; rewrite column_norm_tab by lia; reflexivity).
    reflexivity.
  Qed.

  Hypothesis Asq : square_accurate sq.
  Hypothesis Asqrt : sqrt_accurate sqrt_f.
  Hypothesis Aln : ln_accurate ln_f.

  Lemma choose_reals (P : nat -> R -> Prop) n : (forall j, (j < n)%nat -> exists v, P j v) -> exists v : nat -> R, forall j, (j < n)%nat -> P j (v j).
  Proof.
    induction n as [|k IH]; intros H; [exists (fun _ => 0); lia|]. destruct IH as (v & Hv); [intros j Hj; apply H; lia|].
    destruct (H k ltac:(lia)) as (w & Hw). exists (fun j => if Nat.eqb j k then w else v j). intros j L.
    destruct (Nat.eqb_spec j k) as [->|N]; [exact Hw|apply Hv; lia].
  Qed.

  Lemma Forall2_map2 {A B C} (P : B -> C -> Prop) (f : A -> B) (g : A -> C) l : (forall x, In x l -> P (f x) (g x)) -> Forall2 P (map f l) (map g l).
  Proof. induction l as [|x l IH]; intros H; constructor; [apply H; left; auto|apply IH; intros; apply H; right; auto]. Qed.

  Lemma steps_tab n m g h : (0 < n)%nat -> (n <= 1000)%nat -> (0 < m)%nat ->
    (forall i j, (i < n)%nat -> (j < n)%nat -> (Z.abs (g i j) <= 2 ^ 63)%Z) ->
    (forall i j, (i < n)%nat -> (j < m)%nat -> (Z.abs (h i j) <= 2 ^ 63)%Z) ->
    ModMC.zdet n g <> 0%Z ->
    exists ns, f64_steps sq sqrt_f ln_f (tab n n g) (tab n m h) 9999991 = Ret ns /\
      2 * (ln (IZR (Z.abs (ModMC.zdet n g))) + ln phi) / ln (IZR 9999991) <= INR ns + / 10000000 /\
      forall l j, (l < n)%nat -> (j < m)%nat -> let d := ModMC.zdet n (ModMC.replace_col l (fun i => h i j) g) in
        d <> 0%Z -> 2 * (ln (IZR (Z.abs d)) + ln phi) / ln (IZR 9999991) <= INR ns + / 10000000.
  Proof.
    intros Hn Hn2 Hm Hg Hh D. destruct (hadamard_ln n g D) as (Pg & HadA).
    destruct (choose_reals (fun j v => fv (ln_f (col_f sq sqrt_f n g j)) v /\ Rabs (v - half_ln (ModMC.colsq n g j)) <= 100 * eps /\ Rabs v <= 70) n) as (va & Hva).
    { intros j Hj. apply (column_ln sq sqrt_f ln_f Asq Asqrt Aln n Hn2 g j); auto. }
    destruct (choose_reals (fun j v => good (ln_f (col_f sq sqrt_f n h j)) v /\ ((0 < ModMC.colsq n h j)%Z -> Rabs (v - half_ln (ModMC.colsq n h j)) <= 100 * eps)) m) as (vb & Hvb).
    { intros j Hj. destruct (column_ln sq sqrt_f ln_f Asq Asqrt Aln n Hn2 h j) as (C0 & C1); [auto|].
      pose proof (@ModMC.colsq_nonneg n h j) as NN. destruct (Z.eq_dec (ModMC.colsq n h j) 0) as [E|N].
      - exists (-1000). split; [right; auto|]. lia.
      - destruct C1 as (v & V1 & V2 & V3); [lia|]. exists v. split; auto. left. auto. }
    rewrite f64_steps_tab by auto.
    set (la := map (fun j => ln_f (col_f sq sqrt_f n g j)) (seq 0 n)). set (lb := map (fun j => ln_f (col_f sq sqrt_f n h j)) (seq 0 m)).
    assert (Fa : Forall2 (fun x v => fv x v /\ Rabs v <= 70) la (map va (seq 0 n))).
    { apply Forall2_map2. intros j Hj. apply in_seq in Hj. destruct (Hva j ltac:(lia)) as (? & _ & ?). auto. }
    assert (Fb : Forall2 good lb (map vb (seq 0 m))).
    { apply Forall2_map2. intros j Hj. apply in_seq in Hj. apply Hvb. lia. }
    destruct (max_total_good lb _ ltac:(unfold lb; destruct m; [lia|discriminate]) Fb) as (mb & w & Em & Gm & Mw).
    rewrite Em. cbn [unwrap bind].
    destruct (tail_sum la _ mb w Fa ltac:(unfold la; destruct n; [lia|discriminate]) Gm) as (ws & y & Fw & Sw & Yw & Ya).
    set (tail := tl (sort_total (la ++ [mb]))) in *.
    assert (Lw : length tail = n).
    { unfold tail. destruct (sort_total_good (la ++ [mb]) (map va (seq 0 n) ++ [w])) as (zs' & Z1 & Z2 & _).
      - apply Forall2_app; [|constructor; auto]. clear - Fa. induction Fa; constructor; auto. left. auto.
      - apply Permutation.Permutation_length in Z2. rewrite app_length, map_length, seq_length in Z2. cbn in Z2.
        assert (Z3 : length (sort_total (la ++ [mb])) = length zs') by (clear - Z1; induction Z1; cbn; auto).
        destruct (sort_total (la ++ [mb])); cbn in *; lia. }
    destruct (sum_logs tail ws 0 f_zero 0) as (L & FL & EL & BL).
    { clear - Fw. induction Fw; constructor; auto. tauto. }
    { clear - Fw. induction Fw; constructor; auto. tauto. }
    { apply fv_zero. }
    { rewrite Lw. lia. }
    { rewrite Rabs_R0. cbn. lra. }
    rewrite Lw in *. rewrite Nat.add_0_l in BL. rewrite Rplus_0_l in EL.
    assert (N : 0 <= INR n <= 1000) by (split; [apply pos_INR|rewrite INR_IZR_INZ; apply IZR_le; lia]).
    assert (BL' : Rabs L <= 72000) by lra. assert (EL' : Rabs (L - sumR ws) <= / 100000000) by lra. apply Rabs_bounds in EL'.
    destruct (formula_ok sqrt_f ln_f Asqrt Aln _ L FL BL') as (f & Ff & Ef). eexists. split; [reflexivity|].
    pose proof ln_prime as LP. pose proof phi_bounds as (_ & P2). apply Rabs_bounds in Ef. apply Rabs_bounds in BL'.
    set (P := ln (IZR 9999991)) in *. clearbody P.
    assert (IP : 0 < / P <= / 14) by (split; [apply Rinv_0_lt_compat; lra|apply Rinv_le_contravar; lra]).
    assert (C : f <= INR (Z.to_nat (ceil_u64 (f_div (f_mul (float_of_int 2) (f_add (fold_left f_add tail f_zero) (ln_f (golden_f sqrt_f)))) (ln_f (float_of_int 9999991)))))).
    { apply ceil_ok; auto. assert (X : 2 * (L + ln phi) / P <= 150000) by (unfold Rdiv; nra).
      assert (Big : 1000000 <= IZR (2 ^ 63)) by (apply IZR_le; vm_compute; discriminate). lra. }
    set (ns := Z.to_nat _) in *. clearbody ns.
    assert (Fin : forall X, X <= sumR ws + 2 * / 10000000 -> 2 * (X + ln phi) / P <= INR ns + / 10000000).
    { intros X HX. apply Rle_trans with (2 * (L + ln phi) / P + / 20000000); [|lra].
      assert (Q : 2 * (X + ln phi) <= 2 * (L + ln phi) + 42 * / 100000000) by lra.
      apply (Rmult_le_compat_r (/ P)) in Q; [|lra]. unfold Rdiv. nra. }
    assert (Sa : Rabs (sumR (map va (seq 0 n)) - sumR (map (fun j => half_ln (ModMC.colsq n g j)) (seq 0 n))) <= INR n * (100 * eps)).
    { replace (INR n) with (INR (length (seq 0 n))) by (rewrite seq_length; auto). apply sumR_close. intros j Hj. apply in_seq in Hj. apply Hva. lia. }
    unfold eps in *. apply Rabs_bounds in Sa.
    split.
    - apply Fin. lra.
    - intros l j Hl Hj Hd. apply Fin.
      set (g' := ModMC.replace_col l (fun i => h i j) g) in *. destruct (hadamard_ln n g' Hd) as (P' & Had).
      assert (Ecol : forall q, ModMC.colsq n g' q = if Nat.eqb q l then ModMC.colsq n h j else ModMC.colsq n g q).
      { intros q. unfold g', ModMC.colsq, ModMC.replace_col. destruct (Nat.eqb q l); auto. }
      assert (Pb : (0 < ModMC.colsq n h j)%Z) by (specialize (P' l Hl); rewrite Ecol, Nat.eqb_refl in P'; exact P').
      rewrite (map_ext _ (fun q => if Nat.eqb q l then half_ln (ModMC.colsq n h j) else half_ln (ModMC.colsq n g q))) in Had
        by (intros q; rewrite Ecol; destruct (Nat.eqb q l); auto).
      rewrite sumR_replace in Had by auto.
      destruct (Hvb j Hj) as (_ & Vb). specialize (Vb Pb). apply Rabs_bounds in Vb.
      assert (Mj : vb j <= w) by (rewrite Forall_forall in Mw; apply Mw, in_map, in_seq; lia).
      assert (Yl : y <= va l) by (rewrite Forall_forall in Ya; apply Ya, in_map, in_seq; lia).
      destruct (Hva l Hl) as (_ & Vl & _). apply Rabs_bounds in Vl. lra.
  Qed.
End Steps.

(** the estimate made in f64 is never short of 2 (ln |d| + ln phi) / ln p, for any determinant that matters, by more
    than 10^-7: i64 entries, at most 1000 rows *)
Theorem C99_estimate : forall sq sqrt_f ln_f, square_accurate sq -> sqrt_accurate sqrt_f -> ln_accurate ln_f ->
  forall n m a b, (0 < n <= 1000)%nat -> (0 < m)%nat -> rect n n a -> rect n m b ->
  (forall i j, (i < n)%nat -> (j < n)%nat -> (Z.abs (at_ a i j) <= 2 ^ 63)%Z) ->
  (forall i j, (i < n)%nat -> (j < m)%nat -> (Z.abs (at_ b i j) <= 2 ^ 63)%Z) ->
  det n a <> 0%Z ->
  exists ns, f64_steps sq sqrt_f ln_f a b 9999991 = Ret ns /\
    forall d, d <> 0%Z -> relevant n m a b d -> 2 * (ln (IZR (Z.abs d)) + ln phi) / ln (IZR 9999991) <= INR ns + / 10000000.
Proof.
  intros sq sqrt_f ln_f A1 A2 A3 n m a b Hn Hm Ra Rb Ba Bb D.
  destruct (steps_tab sq sqrt_f ln_f A1 A2 A3 n m (at_ a) (at_ b)) as (ns & E & H1 & H2); auto; try lia.
  exists ns. split.
  - assert (Ea : a = tab n n (at_ a)) by exact (rect_eq_tab n n a 0%Z Ra). assert (Eb : b = tab n m (at_ b)) by exact (rect_eq_tab n m b 0%Z Rb).
    rewrite Ea, Eb. exact E.
  - intros d Hd [->|(l & j & Hl & Hj & ->)]; [exact H1|]. exact (H2 l j Hl Hj Hd).
Qed.
Print Assumptions C99_estimate.

(** [phi^2 d^2] is just above a power of the prime: the only situation in which the estimate may be one step short *)
Definition critical (d : Z) : Prop :=
  exists k, IZR (9999991 ^ Z.of_nat k) < phi * phi * IZR (d * d) <= IZR (9999991 ^ Z.of_nat k) * (1 + / 100000).

Lemma not_critical_enough d k : d <> 0%Z -> ~ critical d ->
  2 * (ln (IZR (Z.abs d)) + ln phi) / ln (IZR 9999991) <= INR k + / 10000000 ->
  2 * (ln (IZR (Z.abs d)) + ln phi) / ln (IZR 9999991) <= INR k.
Proof.
  intros Hd NC H. set (x := 2 * (ln (IZR (Z.abs d)) + ln phi) / ln (IZR 9999991)) in *.
  destruct (Rle_lt_dec x (INR k)) as [L|L]; auto. exfalso. apply NC. exists k.
  pose proof ln_prime as LP. pose proof phi_bounds as (P1 & _).
  assert (Pd : 0 < IZR (Z.abs d)) by (apply IZR_lt; lia).
  assert (X : ln (phi * phi * IZR (d * d)) = x * ln (IZR 9999991)).
  { unfold x. replace (2 * (ln (IZR (Z.abs d)) + ln phi) / ln (IZR 9999991) * ln (IZR 9999991)) with (2 * (ln (IZR (Z.abs d)) + ln phi)) by (field; lra).
    replace (d * d)%Z with (Z.abs d * Z.abs d)%Z by lia. rewrite mult_IZR, !ln_mult; try lra; apply Rmult_lt_0_compat; lra. }
  assert (Pp : 0 < IZR (9999991 ^ Z.of_nat k)) by (apply IZR_lt; apply Z.pow_pos_nonneg; lia).
  assert (Y : ln (IZR (9999991 ^ Z.of_nat k)) = INR k * ln (IZR 9999991)).
  { rewrite <- pow_IZR. clear. induction k as [|k IH]; [cbn; rewrite ln_1; lra|].
    rewrite <- tech_pow_Rmult, ln_mult, IH, S_INR; [lra|lra|apply pow_lt; lra]. }
  assert (Q : 0 < phi * phi * IZR (d * d)).
  { apply Rmult_lt_0_compat; [nra|]. apply IZR_lt. nia. }
  split.
  - apply ln_lt_inv; auto. rewrite X, Y. nra.
  - destruct (Rle_lt_dec (phi * phi * IZR (d * d)) (IZR (9999991 ^ Z.of_nat k) * (1 + / 100000))) as [G|G]; auto. exfalso.
    apply ln_increasing in G; [|apply Rmult_lt_0_compat; lra]. rewrite ln_mult in G by lra. rewrite X, Y in G.
    assert (E : / 200000 <= ln (1 + / 100000)).
    { pose proof (ln_ge_minus (1 + / 100000) ltac:(lra)) as Z1. assert (Z2 : / (1 + / 100000) <= 1 - / 200000); [|lra].
      apply (Rmult_le_reg_r (1 + / 100000)); [lra|]. rewrite Rinv_l by lra. lra. }
    assert (F : x * ln (IZR 9999991) <= (INR k + / 10000000) * ln (IZR 9999991)) by (apply Rmult_le_compat_r; lra). lra.
Qed.

(** modular_solver::solve with the number of steps computed in f64 returns the unique exact solution, unless the
    square of phi times a relevant determinant lies within one part in 100000 above a power of the prime *)
Theorem C99_solve : forall sq sqrt_f ln_f, square_accurate sq -> sqrt_accurate sqrt_f -> ln_accurate ln_f ->
  forall chk n m a b A B, machine chk (Z.max (9999991 * 9999991) (9999991 * Z.max B (Z.of_nat n * A))) ->
  (A <= 2 ^ 63)%Z -> (B <= 2 ^ 63)%Z ->
  (0 < n <= 1000)%nat -> (0 < m)%nat -> rect n n a -> rect n m b ->
  (forall i j, (i < n)%nat -> (j < n)%nat -> ~ negative_multiple 9999991 (at_ a i j)) ->
  (forall i j, (i < n)%nat -> (j < n)%nat -> (Z.abs (at_ a i j) <= A)%Z) ->
  (forall i j, (i < n)%nat -> (j < m)%nat -> (Z.abs (at_ b i j) <= B)%Z) ->
  ~ (9999991 | det n a)%Z ->
  (forall d, relevant n m a b d -> ~ critical d) ->
  exists x, ms_solve_from chk (f64_steps sq sqrt_f ln_f) a b = Ret (Some x) /\ is_solution n m a b x /\ forall y, is_solution n m a b y -> y = x.
Proof.
  intros sq sqrt_f ln_f A1 A2 A3 chk n m a b A B M HA HB Hn Hm Ra Rb Hneg Ba Bb ND NC.
  assert (D0 : det n a <> 0%Z) by (intros Z0; apply ND; rewrite Z0; apply Z.divide_0_r).
  destruct (C99_estimate sq sqrt_f ln_f A1 A2 A3 n m a b) as (ns & E & H); auto.
  { intros i j Hi Hj. specialize (Ba i j Hi Hj). lia. }
  { intros i j Hi Hj. specialize (Bb i j Hi Hj). lia. }
  apply (C88_sufficient_steps chk _ ns n m a b A B); auto; try lia.
  intros d Hd R. apply not_critical_enough; auto.
Qed.
Print Assumptions C99_solve.

Lemma phi_sq_bounds : 2.618033 <= phi * phi <= 2.618034.
Proof.
  rewrite phi_sq. assert (B : 2.236067 <= sqrt 5 <= 2.236068); [|lra].
  split; [rewrite <- (sqrt_square 2.236067) by lra|rewrite <- (sqrt_square 2.236068) by lra]; apply sqrt_le_1; lra.
Qed.

(** in particular whenever none of the determinants exceeds six million *)
Theorem C99_small_determinants : forall sq sqrt_f ln_f, square_accurate sq -> sqrt_accurate sqrt_f -> ln_accurate ln_f ->
  forall n m a b, (0 < n <= 1000)%nat -> (0 < m)%nat -> rect n n a -> rect n m b ->
  (forall i j, (i < n)%nat -> (j < n)%nat -> ~ negative_multiple 9999991 (at_ a i j)) ->
  (forall i j, (i < n)%nat -> (j < n)%nat -> (Z.abs (at_ a i j) <= 2 ^ 63)%Z) ->
  (forall i j, (i < n)%nat -> (j < m)%nat -> (Z.abs (at_ b i j) <= 2 ^ 63)%Z) ->
  det n a <> 0%Z ->
  (forall d, relevant n m a b d -> (Z.abs d <= 6000000)%Z) ->
  exists x, ms_solve_from (fun z => Ret z) (f64_steps sq sqrt_f ln_f) a b = Ret (Some x) /\ is_solution n m a b x /\ forall y, is_solution n m a b y -> y = x.
Proof.
  intros sq sqrt_f ln_f A1 A2 A3 n m a b Hn Hm Ra Rb Hneg Ba Bb D H.
  apply (C99_solve sq sqrt_f ln_f A1 A2 A3 (fun z => Ret z) n m a b (2 ^ 63)%Z (2 ^ 63)%Z); auto; try lia.
  - left. reflexivity.
  - intros (q & Q). specialize (H (det n a) (or_introl eq_refl)). nia.
  - intros d R (k & L & U). specialize (H d R). pose proof phi_sq_bounds as P. set (f := phi * phi) in *. clearbody f.
    replace (d * d)%Z with (Z.abs d * Z.abs d)%Z in * by lia. set (e := Z.abs d) in *. assert (E0 : (0 <= e)%Z) by (subst e; lia). clearbody e.
    destruct k as [|[|k]].
    + cbn in L, U. destruct (Z.eq_dec e 0) as [->|N]; [cbn in L; lra|]. assert (1 <= IZR (e * e)) by (apply (IZR_le 1); nia). nra.
    + change (9999991 ^ Z.of_nat 1)%Z with 9999991%Z in *. destruct (Z_le_gt_dec e 1954) as [L4|G4].
      * assert (IZR (e * e) <= 3818116) by (apply IZR_le; nia). nra.
      * assert (3822025 <= IZR (e * e)) by (apply IZR_le; nia). nra.
    + assert (X : IZR (9999991 * 9999991) <= IZR (9999991 ^ Z.of_nat (S (S k)))).
      { apply IZR_le. rewrite !Nat2Z.inj_succ, !Z.pow_succ_r by lia. assert (0 < 9999991 ^ Z.of_nat k)%Z by (apply Z.pow_pos_nonneg; lia). nia. }
      assert (Y : IZR (e * e) <= 36000000000000) by (apply IZR_le; nia). change (9999991 * 9999991)%Z with 99999820000081%Z in X. nra.
Qed.
Print Assumptions C99_small_determinants.

(** *** functions that are accurate enough exist: the real functions, rounded *)
Definition round_real (r : R) : float := binary_normalize 53 1024 (up (r * IZR (2 ^ 100))) (-100) false.
Definition apply_real (at_zero : float) (f : R -> R) (x : float) : float :=
  match value x with
  | Some q => if Qc_eqb q 0 then at_zero else round_real (f (Q2R q))
  | None => S754_nan
  end.
Definition square_of_reals : float -> float := apply_real f_zero (fun r => r * r).
Definition sqrt_of_reals : float -> float := apply_real f_zero sqrt.
Definition ln_of_reals : float -> float := apply_real (S754_infinity true) ln.

Lemma round_real_ok r : Rabs r <= IZR (2 ^ 150) -> exists s, fv (round_real r) s /\ Rabs (s - r) <= 2 * u * (1 + Rabs r).
Proof.
  intros B. unfold round_real. set (z := up (r * IZR (2 ^ 100))). destruct (archimed (r * IZR (2 ^ 100))) as (U1 & U2). fold z in U1, U2. clearbody z.
  pose proof (normalize_correct z (-100) false) as C. set (q := (ZQ z * pow2 (-100))%Qc) in *.
  assert (P : Q2R (pow2 (-100)) = / IZR (2 ^ 100)).
  { assert (E : (pow2 (-100) * ZQ (2 ^ 100) = 1)%Qc) by (apply Qc_is_canon; vm_compute; reflexivity).
    apply (f_equal (fun q : Qc => Q2R q)) in E. rewrite R_mult, R_ZQ in E. replace (Q2R 1%Qc) with 1 in E by (unfold Q2R; cbn; lra).
    apply (Rmult_eq_reg_r (IZR (2 ^ 100))); [|apply IZR_neq; lia]. rewrite E, Rinv_l; [reflexivity|apply IZR_neq; lia]. }
  assert (E : Q2R q = IZR z * / IZR (2 ^ 100)) by (unfold q; rewrite R_mult, R_ZQ, P; reflexivity).
  change (IZR (2 ^ 100)) with 1267650600228229401496703205376 in *.
  assert (D : Rabs (Q2R q - r) <= / 1000000000000000000000000000000) by (rewrite E; apply Rabs_le; lra).
  assert (A : Rabs (Q2R q) <= Rabs r + / 1000000000000000000000000000000).
  { replace (Q2R q) with ((Q2R q - r) + r) by ring. eapply Rle_trans; [apply Rabs_triang|]. lra. }
  assert (Big : IZR (2 ^ 150) + 1 <= IZR (2 ^ 200)) by (rewrite <- plus_IZR; apply IZR_le; vm_compute; discriminate).
  destruct (correct_real _ q C) as (s & Fs & Es & _); [lra|]. exists s. split; auto.
  replace (s - r) with ((s - Q2R q) + (Q2R q - r)) by ring. eapply Rle_trans; [apply Rabs_triang|].
  assert (V : / 9100000000000000 <= u) by (unfold u; change (IZR (2 ^ 53)) with 9007199254740992; apply Rinv_le_contravar; lra).
  pose proof u_bounds as U. pose proof (Rabs_pos r). nra.
Qed.

Lemma apply_real_at z f x a : fv x a -> apply_real z f x = if Req_EM_T a 0 then z else round_real (f a).
Proof.
  intros (q & (_ & E) & <-). unfold apply_real. rewrite E. destruct (Qc_eqb_spec q 0%Qc) as [->|N].
  - destruct (Req_EM_T (Q2R 0%Qc) 0) as [|C]; auto. exfalso. apply C, R_0.
  - destruct (Req_EM_T (Q2R q) 0) as [C|]; auto. exfalso. apply N. apply Qcle_antisym; apply R_le; rewrite R_0; lra.
Qed.

Theorem C99_accurate_functions_exist : square_accurate square_of_reals /\ sqrt_accurate sqrt_of_reals /\ ln_accurate ln_of_reals.
Proof.
  pose proof u_bounds as U. pose proof eps_bounds as P. split; [|split; [|split]].
  - intros x a F H. unfold square_of_reals. rewrite (apply_real_at _ _ _ _ F). destruct (Req_EM_T a 0) as [->|N].
    + exists 0. split; [apply fv_zero|]. replace (0 - 0 * 0) with 0 by ring. rewrite Rabs_R0. lra.
    + destruct H as [H|H]; [tauto|].
      assert (A : a * a = Rabs a * Rabs a) by (pose proof (Rsqr_abs a) as X; exact X).
      assert (S1 : / 4 <= a * a) by (rewrite A; nra).
      assert (S2 : a * a <= IZR (2 ^ 150)).
      { rewrite A. apply Rle_trans with (IZR (2 ^ 64) * IZR (2 ^ 64)); [apply Rmult_le_compat; try apply Rabs_pos; lra|].
        rewrite <- mult_IZR. apply IZR_le. vm_compute. discriminate. }
      destruct (round_real_ok (a * a)) as (s & Fs & Es); [rewrite Rabs_right by lra; exact S2|]. exists s. split; auto.
      rewrite (Rabs_right (a * a)) in Es by lra. nra.
  - intros x a F H. unfold sqrt_of_reals. rewrite (apply_real_at _ _ _ _ F). destruct (Req_EM_T a 0) as [->|N].
    + exists 0. split; [apply fv_zero|]. rewrite sqrt_0, Rminus_0_r, Rabs_R0. lra.
    + destruct H as [H|H]; [tauto|].
      assert (S1 : / 2 <= sqrt a) by (rewrite <- (sqrt_square (/ 2)) by lra; apply sqrt_le_1; lra).
      assert (S2 : sqrt a <= IZR (2 ^ 150)).
      { rewrite <- (sqrt_square (IZR (2 ^ 150))) by (apply IZR_le; lia). apply sqrt_le_1; [lra|apply Rmult_le_pos; apply IZR_le; lia|].
        apply Rle_trans with (IZR (2 ^ 200)); [lra|]. rewrite <- mult_IZR. apply IZR_le. vm_compute. discriminate. }
      destruct (round_real_ok (sqrt a)) as (s & Fs & Es); [rewrite Rabs_right by lra; exact S2|]. exists s. split; auto.
      rewrite (Rabs_right (sqrt a)) in Es by lra. nra.
  - intros x F. unfold ln_of_reals. rewrite (apply_real_at _ _ _ _ F). destruct (Req_EM_T 0 0); [reflexivity|lra].
  - intros x a F H. unfold ln_of_reals. rewrite (apply_real_at _ _ _ _ F). destruct (Req_EM_T a 0) as [->|N]; [lra|].
    assert (B : Rabs (ln a) <= 100).
    { apply Rabs_le. split.
      - pose proof (ln_ge_minus a ltac:(lra)) as X. assert (/ a <= 2) by (replace 2 with (/ / 2) by (apply Rinv_inv); apply Rinv_le_contravar; lra). lra.
      - replace 100 with (INR 100) by (rewrite INR_IZR_INZ; reflexivity). apply ln_upper; [lra|]. exact (proj2 H). }
    destruct (round_real_ok (ln a)) as (s & Fs & Es).
    { apply Rle_trans with 100; auto. apply IZR_le. vm_compute. discriminate. }
    exists s. split; auto. pose proof (Rabs_pos (ln a)). nra.
Qed.

Print Assumptions C99_accurate_functions_exist.

(** the system  3 x + 4 y = 5, -1000 x + 700 y = 1  *)
Example C99_case : exists x, ms_solve_from (fun z => Ret z) (f64_steps square_of_reals sqrt_of_reals ln_of_reals) [[3; 4]; [-1000; 700]]%Z [[5]; [1]]%Z = Ret (Some x) /\
  is_solution 2 1 [[3; 4]; [-1000; 700]]%Z [[5]; [1]]%Z x.
Proof.
  destruct C99_accurate_functions_exist as (A1 & A2 & A3).
  destruct (C99_small_determinants _ _ _ A1 A2 A3 2 1 [[3; 4]; [-1000; 700]]%Z [[5]; [1]]%Z) as (x & E & S & _); eauto; try lia.
  - split; [reflexivity|repeat constructor].
  - split; [reflexivity|repeat constructor].
  - intros [|[|i]] [|[|j]] Hi Hj (H & (q & Q)); cbn in H, Q; lia.
  - intros [|[|i]] [|[|j]] Hi Hj; cbn; lia.
  - intros [|[|i]] [|j] Hi Hj; cbn; lia.
  - unfold det. rewrite zdet_2. cbn. lia.
  - intros d [->|(l & j & Hl & Hj & ->)].
    + unfold det. rewrite zdet_2. cbn. lia.
    + unfold cramer_det. rewrite zdet_2. destruct l as [|[|l]], j as [|j]; cbn; lia.
Qed.
