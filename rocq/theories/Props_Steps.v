(** Property C88: modular_solver::solve does not depend on the exact number of lifting steps.

    The code estimates the number of steps with logarithms in f64.  [ms_solve_from chk steps] is the modelled function
    solve with an arbitrary function [steps] in the place of that estimate; [ms_solve] is the instance with the
    estimate evaluated over the real numbers. *)
From Coq Require Import List ZArith Lia Bool PeanoNat Znumtheory QArith Qcanon Reals Lra.
From Verif Require Import Base Partition Vec Matrix ZQ ModSolver ModSolve Dixon ModFinal Props_ModSolver.
From Verif Require ModMC.
Import ListNotations.
Open Scope Z_scope.

(** the matrix [a] with column [l] replaced by column [j] of [b] has this determinant *)
Definition cramer_det (n : nat) (a b : zmat) (l j : nat) : Z :=
  ModMC.zdet n (fun i k => if Nat.eqb k l then at_ b i j else at_ a i k).

Lemma from_general chk steps ns n m a b A B : machine chk (Z.max (the_prime * the_prime) (the_prime * Z.max B (Z.of_nat n * A))) ->
  (0 < n)%nat -> (0 < m)%nat -> rect n n a -> rect n m b ->
  (forall i j, (i < n)%nat -> (j < n)%nat -> ~ negative_multiple the_prime (at_ a i j)) ->
  (forall i j, (i < n)%nat -> (j < n)%nat -> Z.abs (at_ a i j) <= A) ->
  (forall i j, (i < n)%nat -> (j < m)%nat -> Z.abs (at_ b i j) <= B) ->
  steps a b the_prime = Ret ns ->
  golden_le (det n a * det n a) (the_prime ^ Z.of_nat ns) = true ->
  (forall l j, (l < n)%nat -> (j < m)%nat -> golden_le (cramer_det n a b l j * cramer_det n a b l j) (the_prime ^ Z.of_nat ns) = true) ->
  (~ (the_prime | det n a) -> ms_solve_from chk steps a b = ms_solve chk a b).
Proof.
  intros M Hn Hm Ra Rb Hneg Ba Bb Es G1 G2 ND.
  pose proof (solve_general chk n m a b A B M Hn Hm Ra Rb Hneg Ba Bb) as (S1 & _). rewrite (S1 ND).
  assert (Hb : 0 <= Z.max (the_prime * the_prime) (the_prime * Z.max B (Z.of_nat n * A))) by (unfold the_prime; lia).
  destruct (machine_ok chk _ Hb M) as (ok & O1 & O2 & O3).
  assert (Ea : a = tab n n (at_ a)) by exact (rect_eq_tab n n a 0 Ra). assert (Eb : b = tab n m (at_ b)) by exact (rect_eq_tab n m b 0 Rb).
  rewrite Ea, Eb in Es.
  assert (Em : ms_solve_from chk steps a b = ms_solve_from chk steps (tab n n (at_ a)) (tab n m (at_ b))) by (rewrite <- Ea, <- Eb; auto). rewrite Em.
  apply (ms_solve_from_ok chk ok O1 O2 ltac:(apply O3; unfold the_prime; lia) steps n m (at_ a) (at_ b) A B ns); auto.
  - assert (B0 : 0 <= B) by (specialize (Bb O O Hn Hm); lia). apply O3. unfold the_prime. lia.
Qed.

Lemma golden_log d k : d <> 0 ->
  (2 * (ln (IZR (Z.abs d)) + ln phi) / ln (IZR the_prime) <= INR k)%R -> golden_le (d * d) (the_prime ^ Z.of_nat k) = true.
Proof.
  intros Hd H. apply C23_number_of_steps; [nia|unfold the_prime; lia|].
  replace (sqrt (IZR (d * d))) with (IZR (Z.abs d)); auto.
  replace (d * d) with (Z.abs d * Z.abs d) by lia. rewrite mult_IZR. symmetry. apply sqrt_square. apply IZR_le. lia.
Qed.

(** any number of steps that is at least 2 (log |d| + log phi) / log p for the determinant and for Cramer's numerators
    gives the exact solution, with ideal integers and with i64 overflow checks *)
Theorem C88_sufficient_steps : forall chk steps ns n m a b A B,
  machine chk (Z.max (9999991 * 9999991) (9999991 * Z.max B (Z.of_nat n * A))) ->
  (0 < n)%nat -> (0 < m)%nat -> rect n n a -> rect n m b ->
  (forall i j, (i < n)%nat -> (j < n)%nat -> ~ negative_multiple 9999991 (at_ a i j)) ->
  (forall i j, (i < n)%nat -> (j < n)%nat -> Z.abs (at_ a i j) <= A) ->
  (forall i j, (i < n)%nat -> (j < m)%nat -> Z.abs (at_ b i j) <= B) ->
  ~ (9999991 | det n a) ->
  steps a b 9999991 = Ret ns ->
  (forall d, d <> 0 -> (d = det n a \/ exists l j, (l < n)%nat /\ (j < m)%nat /\ d = cramer_det n a b l j) ->
     (2 * (ln (IZR (Z.abs d)) + ln phi) / ln (IZR 9999991) <= INR ns)%R) ->
  exists x, ms_solve_from chk steps a b = Ret (Some x) /\ is_solution n m a b x /\ forall y, is_solution n m a b y -> y = x.
Proof.
  intros chk steps ns n m a b A B M Hn Hm Ra Rb Hneg Ba Bb ND Es H.
  assert (D0 : det n a <> 0) by (intros Z0; apply ND; rewrite Z0; apply Z.divide_0_r).
  rewrite (from_general chk steps ns n m a b A B); auto.
  - destruct (C23_solve n m a b Hn Hm Ra Rb Hneg) as (S & _). destruct (S ND) as (x & Ex & Hx). exists x. split; auto.
    pose proof (solve_general chk n m a b A B M Hn Hm Ra Rb Hneg Ba Bb) as (S1 & _).
    pose proof (solve_general (fun z => Ret z) n m a b A B (or_introl eq_refl) Hn Hm Ra Rb Hneg Ba Bb) as (S2 & _).
    rewrite (S1 ND). rewrite <- (S2 ND). exact Ex.
  - apply golden_log; auto.
  - intros l j Hl Hj. destruct (Z.eq_dec (cramer_det n a b l j) 0) as [Z0|Z0].
    + rewrite Z0. apply golden_le_spec. assert (0 < the_prime ^ Z.of_nat ns) by (apply Z.pow_pos_nonneg; unfold the_prime; lia). lia.
    + apply golden_log; auto. apply H; auto. right. eauto.
Qed.
Print Assumptions C88_sufficient_steps.

(** in particular more steps than the estimate change nothing *)
Theorem C88_more_steps : forall steps ns k n m a b,
  (0 < n)%nat -> (0 < m)%nat -> rect n n a -> rect n m b ->
  (forall i j, (i < n)%nat -> (j < n)%nat -> ~ negative_multiple 9999991 (at_ a i j)) ->
  number_of_p_adic_steps_needed a b 9999991 = Ret k -> steps a b 9999991 = Ret ns -> (k <= ns)%nat ->
  ms_solve_from (fun z => Ret z) steps a b = ms_solve (fun z => Ret z) a b.
Proof.
  intros steps ns k n m a b Hn Hm Ra Rb Hneg Ek Es Hk.
  destruct (entry_bound n n (at_ a)) as (A & _ & HA). destruct (entry_bound n m (at_ b)) as (B & _ & HB).
  destruct (Zdivide_dec the_prime (det n a)) as [D|ND].
  - destruct (C23_solve n m a b Hn Hm Ra Rb Hneg) as (_ & S). rewrite (S D).
    unfold ms_solve in S. specialize (S D). unfold ms_solve_from in *.
    destruct (modular_matrix_inverse (fun z : Z => Ret z) a the_prime) as [[c|]| |] eqn:E; cbn [bind] in *; try discriminate S; auto.
    exfalso. change (number_of_p_adic_steps_needed a b the_prime) with (number_of_p_adic_steps_needed a b 9999991) in S. rewrite Ek in S. cbn [bind] in S.
    apply bind_Ret_inv in S as (b0 & _ & S). apply bind_Ret_inv in S as (((s & h) & bb) & _ & S). apply bind_Ret_inv in S as (r & _ & S). discriminate S.
  - assert (Ea : a = tab n n (at_ a)) by exact (rect_eq_tab n n a 0 Ra). assert (Eb : b = tab n m (at_ b)) by exact (rect_eq_tab n m b 0 Rb).
    destruct (steps_ok n m (at_ a) (at_ b) the_prime Hn Hm eq_refl) as (k' & d2 & En & G & B1 & B2).
    rewrite <- Ea, <- Eb in En. change the_prime with 9999991 in En. rewrite Ek in En. assert (k' = k) as -> by congruence.
    assert (Gm : forall d, 0 <= d -> d <= d2 -> golden_le d (the_prime ^ Z.of_nat ns) = true).
    { intros d L1 L2. assert (P : the_prime ^ Z.of_nat k <= the_prime ^ Z.of_nat ns) by (apply Z.pow_le_mono_r; [reflexivity|lia]).
      apply (golden_mono d d2); [lia|]. apply golden_le_spec in G as [G1 G2]. apply golden_le_spec.
      set (h := the_prime ^ Z.of_nat k) in *. set (h' := the_prime ^ Z.of_nat ns) in *. clearbody h h'. split; [lia|]. nia. }
    apply (from_general (fun z => Ret z) steps ns n m a b A B (or_introl eq_refl)); auto.
    + apply Gm; [apply Z.square_nonneg|exact B1].
    + intros l j Hl Hj. apply Gm; [apply Z.square_nonneg|exact (B2 l j Hl Hj)].
Qed.
Print Assumptions C88_more_steps.

(** too few steps give a wrong result: 1/8000 needs two *)
Example C88_case_too_few :
  number_of_p_adic_steps_needed [[8000]] [[1]] 9999991 = Ret 2%nat /\
  match ms_solve_from (fun z => Ret z) (fun _ _ _ => Ret 1%nat) [[8000]] [[1]] with
  | Ret (Some [[x]]) => Qc_eqb x (1 / ZQ 8000)%Qc | _ => true end = false /\
  forall k, (2 <= k)%nat -> ms_solve_from (fun z => Ret z) (fun _ _ _ => Ret k) [[8000]] [[1]] = ms_solve (fun z => Ret z) [[8000]] [[1]].
Proof.
  splits; try (vm_compute; reflexivity).
  intros k Hk. apply (C88_more_steps (fun _ _ _ => Ret k) k 2 1 1); auto; try (split; [reflexivity|repeat constructor]).
  intros [|i] [|j] Hi Hj (H & _); cbn in H; lia.
Qed.
