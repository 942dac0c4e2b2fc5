(** modular_solver.rs: number of lifting steps, and the solver as a whole. *)
From Coq Require Import List ZArith Lia Bool PeanoNat Znumtheory QArith Qcanon Permutation Sorted.
From Verif Require Import Base Partition Vec Matrix ZQ ModSolver ModSolve Dixon.
From Verif Require ModMC.
Import ListNotations.
Open Scope Z_scope.
Notation zdet := ModMC.zdet.
Notation colsq := ModMC.colsq.
Notation replace_col := ModMC.replace_col.

(** *** a sufficient test for primality *)
Definition no_divisor (n : Z) (k : nat) : bool := forallb (fun d => negb (Z.eqb (n mod (Z.of_nat d)) 0)) (seq 2 k).

Lemma prime_check n k : 1 < n -> n < Z.of_nat (k + 2) * Z.of_nat (k + 2) -> no_divisor n k = true -> prime n.
Proof.
  intros Hn Hk Hd. destruct (prime_dec n) as [|NP]; auto. exfalso.
  destruct (not_prime_divide n Hn NP) as (d & Hd1 & [e He]).
  assert (C : forall d, 1 < d -> d < Z.of_nat (k + 2) -> ~ (d | n)).
  { intros c H1 H2 HC. unfold no_divisor in Hd. rewrite forallb_forall in Hd.
    specialize (Hd (Z.to_nat c)). rewrite Z2Nat.id in Hd by lia.
    assert (I : In (Z.to_nat c) (seq 2 k)) by (apply in_seq; lia). specialize (Hd I).
    apply negb_true_iff, Z.eqb_neq in Hd. apply Hd. apply Z.mod_divide; [lia|auto]. }
  destruct (Z.lt_ge_cases d (Z.of_nat (k + 2))) as [L|L].
  - apply (C d); try lia. exists e. auto.
  - apply (C e); try nia. exists d. lia.
Qed.

Lemma the_prime_prime : prime the_prime.
Proof. apply (prime_check the_prime 3200); [reflexivity|reflexivity|vm_compute; reflexivity]. Qed.

(** *** sorting and products *)
Lemma insert_perm x l : Permutation (x :: l) (insert_sorted x l).
Proof.
  induction l as [|y l IH]; simpl; auto. destruct (Z.leb x y); auto.
  eapply perm_trans; [apply perm_swap|]. constructor. auto.
Qed.
Lemma sort_perm l : Permutation l (sort_norms l).
Proof. induction l as [|x l IH]; simpl; auto. eapply perm_trans; [apply perm_skip; exact IH|]. apply insert_perm. Qed.
Lemma insert_sorted_ok x l : StronglySorted Z.le l -> StronglySorted Z.le (insert_sorted x l).
Proof.
  induction 1 as [|y l S IH F]; simpl; [repeat constructor|]. destruct (Z.leb_spec x y).
  - constructor; [constructor; auto|]. constructor; auto. eapply Forall_impl; [|exact F]. intros; lia.
  - constructor; auto. apply (Permutation_Forall (insert_perm x l)). constructor; auto. lia.
Qed.
Lemma sort_sorted l : StronglySorted Z.le (sort_norms l).
Proof. induction l; simpl; [constructor|]. apply insert_sorted_ok. auto. Qed.

Lemma product_perm l l' : Permutation l l' -> product l = product l'.
Proof. induction 1; simpl; lia. Qed.
Lemma product_nonneg l : Forall (fun x => 0 <= x) l -> 0 <= product l.
Proof. induction 1; simpl; [lia|]. apply Z.mul_nonneg_nonneg; auto. Qed.
Lemma product_app l l' : product (l ++ l') = product l * product l'.
Proof. unfold product. induction l as [|x l IH]; cbn [app fold_right]; [ring|]. rewrite IH. ring. Qed.

Lemma product_all_but_one l x rest : Forall (fun x => 0 <= x) l -> Permutation l (x :: rest) ->
  product rest <= product (tl (sort_norms l)).
Proof.
  intros F P. pose proof (sort_perm l) as Q. pose proof (sort_sorted l) as S.
  destruct (sort_norms l) as [|m t].
  - apply Permutation_length in Q. apply Permutation_length in P. simpl in *. lia.
  - cbn [tl]. assert (P' : Permutation (m :: t) (x :: rest)) by (eapply perm_trans; [apply Permutation_sym; exact Q|exact P]).
    assert (Fm : Forall (fun x => 0 <= x) (m :: t)) by (eapply Permutation_Forall; eauto).
    inversion S as [|? ? S' Fle]; subst. inversion Fm as [|? ? Hm Ft]; subst.
    assert (I : In x (m :: t)) by (eapply Permutation_in; [apply Permutation_sym; exact P'|left; auto]).
    destruct I as [->|I].
    + apply Permutation_cons_inv in P'. rewrite (product_perm _ _ P'). lia.
    + apply in_split in I as (t1 & t2 & ->).
      assert (P2 : Permutation rest (m :: t1 ++ t2)).
      { apply Permutation_cons_inv with x. eapply perm_trans; [apply Permutation_sym; exact P'|].
        eapply perm_trans; [apply perm_skip; apply Permutation_sym; apply Permutation_middle|]. apply perm_swap. }
      rewrite (product_perm _ _ P2). cbn [product fold_right]. fold (product (t1 ++ t2)).
      rewrite (product_perm (t1 ++ x :: t2) (x :: t1 ++ t2)) by (apply Permutation_sym, Permutation_middle).
      cbn [product fold_right]. fold (product (t1 ++ t2)).
      assert (m <= x). { rewrite Forall_app in Fle. destruct Fle as [_ Fle]. inversion Fle; auto. }
      assert (0 <= product (t1 ++ t2)).
      { apply product_nonneg. rewrite Forall_app in *. destruct Ft as [A B]. inversion B; subst. auto. }
      nia.
Qed.

(** a big product as a list product *)
Lemma big_product n (h : nat -> Z) : ModMC.bprod n h = product (map h (seq 0 n)).
Proof.
  induction n as [|n IH]; [apply ModMC.bprod_0|]. rewrite ModMC.bprod_S, IH, seq_S, map_app, product_app. simpl. lia.
Qed.

Lemma sq_norm_ok r c g j : (j < c)%nat -> sq_norm (tab r c g) j = Ret (colsq r g j).
Proof.
  intros Hj. unfold sq_norm, colsq. rewrite tab_length.
  assert (H : forall q, (q <= r)%nat -> foldM (fun s i => do x <- ix (tab r c g) i j; Ret (s + x * x)) 0 (seq 0 q) = Ret (zs q (fun i => g i j * g i j))).
  { induction q as [|q IH]; intros Hq; auto. rewrite seq_S, foldM_app, IH by lia. cbn [bind foldM plus].
    rewrite ix_tab by (auto; lia). reflexivity. }
  apply H. lia.
Qed.

Lemma fold_max_ge l x : x <= fold_left Z.max l x /\ forall y, In y l -> y <= fold_left Z.max l x.
Proof.
  revert x. induction l as [|z l IH]; intros x; simpl; [split; [lia|tauto]|].
  destruct (IH (Z.max x z)) as [H1 H2]. split; [lia|]. intros y [->|Hy]; [lia|auto].
Qed.

Lemma golden_enough d k : 0 <= d -> 3 * d <= k -> golden_le d k = true.
Proof. intros Hd Hk. apply golden_le_spec. split; [lia|]. assert (3 * d <= 2 * k - 3 * d) by lia. nia. Qed.

Lemma steps_ok n m g b p : (0 < n)%nat -> (0 < m)%nat -> 1 < p ->
  exists ns d2, number_of_p_adic_steps_needed (tab n n g) (tab n m b) p = Ret ns /\ golden_le d2 (p ^ Z.of_nat ns) = true /\
    zdet n g * zdet n g <= d2 /\
    forall l j, (l < n)%nat -> (j < m)%nat ->
      zdet n (replace_col l (fun i => b i j) g) * zdet n (replace_col l (fun i => b i j) g) <= d2.
Proof.
  intros Hn Hm Hp. unfold number_of_p_adic_steps_needed. rewrite !tab_0 by auto. cbn [bind unwrap]. rewrite !row_length.
  rewrite (mapM_Ret _ (colsq n g)) by (intros j Hj; apply in_seq in Hj; apply sq_norm_ok; lia). cbn [bind].
  rewrite (mapM_Ret _ (colsq n b)) by (intros j Hj; apply in_seq in Hj; apply sq_norm_ok; lia). cbn [bind].
  assert (Emb : exists mb, match map (colsq n b) (seq 0 m) with [] => Panic | x :: xs => Ret (fold_left Z.max xs x) end = Ret mb /\
    0 <= mb /\ forall j, (j < m)%nat -> colsq n b j <= mb).
  { destruct m as [|m]; [lia|]. cbn [seq map]. eexists. split; [reflexivity|].
    destruct (fold_max_ge (map (colsq n b) (seq 1 m)) (colsq n b 0)) as [H1 H2]. split.
    - pose proof (@ModMC.colsq_nonneg n b 0). lia.
    - intros [|j] Hj; auto. apply H2. apply in_map. apply in_seq. lia. }
  destruct Emb as (mb & -> & Hmb0 & Hmb). cbn [bind].
  set (L := map (colsq n g) (seq 0 n) ++ [mb]). set (d2 := product (tl (sort_norms L))).
  assert (FL : Forall (fun x => 0 <= x) L).
  { unfold L. apply Forall_app. split; [|repeat constructor; auto]. apply Forall_forall. intros x Hx. apply in_map_iff in Hx as (j & <- & _).
    apply ModMC.colsq_nonneg. }
  assert (B1 : zdet n g * zdet n g <= d2).
  { etransitivity; [apply ModMC.hadamard'|]. rewrite big_product. apply (product_all_but_one L mb); auto.
    unfold L. apply Permutation_sym, Permutation_cons_append. }
  assert (B2 : forall l j, (l < n)%nat -> (j < m)%nat ->
      zdet n (replace_col l (fun i => b i j) g) * zdet n (replace_col l (fun i => b i j) g) <= d2).
  { intros l j Hl Hj. etransitivity; [apply ModMC.hadamard'|]. rewrite big_product.
    assert (Ecol : forall q, colsq n (replace_col l (fun i => b i j) g) q = if Nat.eqb q l then colsq n b j else colsq n g q).
    { intros q. unfold ModMC.colsq, ModMC.replace_col. destruct (Nat.eqb q l); auto. }
    rewrite (map_ext _ _ Ecol). replace n with (l + S (n - l - 1))%nat at 1 by lia.
    rewrite seq_app, map_app. cbn [plus seq map]. rewrite Nat.eqb_refl.
    rewrite (map_ext_in _ (colsq n g) (seq 0 l)) by (intros q Hq; apply in_seq in Hq; destruct (Nat.eqb_spec q l); [lia|auto]).
    rewrite (map_ext_in _ (colsq n g) (seq (S l) _)) by (intros q Hq; apply in_seq in Hq; destruct (Nat.eqb_spec q l); [lia|auto]).
    etransitivity; [|apply (product_all_but_one L (colsq n g l) (map (colsq n g) (seq 0 l) ++ mb :: map (colsq n g) (seq (S l) (n - l - 1)))); auto].
    - rewrite !product_app. cbn [product fold_right]. fold (product (map (colsq n g) (seq (S l) (n - l - 1)))).
      assert (NN : forall s, Forall (fun x => 0 <= x) (map (colsq n g) s)).
      { intros s. apply Forall_forall. intros x Hx. apply in_map_iff in Hx as (q & <- & _). apply ModMC.colsq_nonneg. }
      pose proof (product_nonneg _ (NN (seq 0 l))). pose proof (product_nonneg _ (NN (seq (S l) (n - l - 1)))).
      specialize (Hmb j Hj). apply Z.mul_le_mono_nonneg_l; auto. apply Z.mul_le_mono_nonneg_r; auto.
    - unfold L. replace n with (l + S (n - l - 1))%nat at 2 by lia. rewrite seq_app, map_app. cbn [plus seq map].
      rewrite <- app_assoc. cbn [app].
      eapply perm_trans; [apply Permutation_sym, Permutation_middle|]. constructor. apply Permutation_app_head.
      apply Permutation_sym, Permutation_cons_append. }
  assert (d0 : 0 <= d2) by (pose proof (Z.square_nonneg (zdet n g)); lia).
  destruct (find (fun k => golden_le d2 (p ^ Z.of_nat k)) (seq 0 (Z.to_nat (Z.log2 (3 * d2)) + 2))) as [ns|] eqn:Ef.
  - exists ns, d2. cbn [unwrap]. apply find_some in Ef as [_ Ef]. splits; auto.
  - exfalso. set (k := (Z.to_nat (Z.log2 (3 * d2)) + 1)%nat).
    pose proof (find_none _ _ Ef k ltac:(apply in_seq; unfold k; lia)) as C. cbv beta in C.
    rewrite golden_enough in C; [discriminate|auto|].
    assert (2 ^ Z.of_nat k <= p ^ Z.of_nat k) by (apply Z.pow_le_mono_l; lia).
    destruct (Z.eq_dec d2 0) as [->|]; [assert (0 < p ^ Z.of_nat k) by (apply Z.pow_pos_nonneg; lia); lia|].
    pose proof (Z.log2_spec (3 * d2) ltac:(lia)) as [_ Hl]. unfold k in *. rewrite Nat2Z.inj_add, Z2Nat.id in * by apply Z.log2_nonneg.
    simpl Z.of_nat in *. unfold Z.succ in Hl. lia.
Qed.

(** the solution by Cramer's rule *)
Definition cramer_solution (n : nat) (a b : nat -> nat -> Z) (l j : nat) : Qc :=
  (ZQ (zdet n (replace_col l (fun i => b i j) a)) / ZQ (zdet n a))%Qc.

Lemma cramer_solves n a b i j : (i < n)%nat -> zdet n a <> 0 ->
  sumf n (fun l => rmul (ZQ (a i l)) (cramer_solution n a b l j)) = ZQ (b i j).
Proof.
  intros Hi Hd. assert (Hd' : ZQ (zdet n a) <> 0%Qc) by (rewrite ZQ_eq0; auto).
  pose proof (ModMC.cramer_exact a (fun i => b i j) Hi) as E.
  assert (S : forall k (f : nat -> Z), sumf k (fun l => rmul (ZQ (f l)) (/ ZQ (zdet n a))%Qc) = (ZQ (zs k f) / ZQ (zdet n a))%Qc).
  { induction k as [|k IH]; intros f.
    - cbn [sumf zs]. rewrite ZQ_0. cbn. field. auto.
    - cbn [sumf zs]. rewrite IH, ZQ_add. cbn. field. auto. }
  transitivity (sumf n (fun l => rmul (ZQ (a i l * zdet n (replace_col l (fun i => b i j) a))) (/ ZQ (zdet n a))%Qc)).
  - apply sumf_ext. intros l Hl. unfold cramer_solution. rewrite ZQ_mul. cbn. field. auto.
  - rewrite S, E, ZQ_mul. field. auto.
Qed.

Section Proofs.
  Variable chk : Z -> outcome Z.
  Variable ok : Z -> Prop.
  Hypothesis ok_chk : forall z, ok z -> chk z = Ret z.
  Hypothesis ok_le : forall y z, Z.abs y <= Z.abs z -> ok z -> ok y.
  Hypothesis okp : ok (the_prime * the_prime).

  Lemma ms_solve_from_ok steps n m a b A B ns : (0 < n)%nat -> (0 < m)%nat ->
    (forall i j, (i < n)%nat -> (j < n)%nat -> reducible the_prime (a i j)) ->
    (forall i j, (i < n)%nat -> (j < n)%nat -> Z.abs (a i j) <= A) ->
    (forall i j, (i < n)%nat -> (j < m)%nat -> Z.abs (b i j) <= B) ->
    ok (the_prime * Z.max B (Z.of_nat n * A)) ->
    (~ (the_prime | zdet n a) -> steps (tab n n a) (tab n m b) the_prime = Ret ns /\
       golden_le (zdet n a * zdet n a) (the_prime ^ Z.of_nat ns) = true /\
       forall l j, (l < n)%nat -> (j < m)%nat -> let d := zdet n (replace_col l (fun i => b i j) a) in
         golden_le (d * d) (the_prime ^ Z.of_nat ns) = true) ->
    (~ (the_prime | zdet n a) -> ms_solve_from chk steps (tab n n a) (tab n m b) = Ret (Some (tab n m (cramer_solution n a b)))) /\
    ((the_prime | zdet n a) -> ms_solve_from chk steps (tab n n a) (tab n m b) = Ret None).
  Proof.
    intros Hn Hm Hred Ba Bb HX Hst. set (p := the_prime) in *. assert (Hp : 1 < p) by reflexivity.
    assert (pr : prime p) by exact the_prime_prime. unfold ms_solve_from. fold p.
    destruct (minverse_ok chk ok ok_chk ok_le p pr okp n a Hn Hred) as [(c & E & R & HC)|(E & k & x & Hk & Xk & Nx)]; rewrite E; cbn [bind].
    - pose proof (ModMC.left_inverse_det Hp HC) as ND. split; [intros _|tauto].
      pose proof (ModMC.right_inverse pr HC) as HC'.
      assert (Hd : zdet n a <> 0). { intros Z0. apply ND. rewrite Z0. apply Z.divide_0_r. }
      destruct (Hst ND) as (En & GD & GNs). clear Hst. rewrite En. cbn [bind].
      rewrite tab_length, tab_0 by auto. cbn [bind unwrap]. rewrite row_length.
      destruct (lift_ok chk ok ok_chk ok_le p pr okp n m a b c A B ns Hn R HC' Ba Bb HX) as (s & bm & El & P).
      rewrite El. cbn [bind]. set (h := p ^ Z.of_nat ns) in *.
      assert (Hh : 1 < h). { pose proof GD as GD'. apply golden_le_spec in GD' as [G _]. assert (1 <= zdet n a * zdet n a) by nia. lia. }
      change (mapM (mapM (fun x => rational_reconstruction x h)) (tab n m s)) with
        (mapM (mapM (fun x => rational_reconstruction x h)) (map (fun i => map (s i) (seq 0 m)) (seq 0 n))).
      assert (Erec : forall l j, (l < n)%nat -> (j < m)%nat -> rational_reconstruction (s l j) h = Ret (cramer_solution n a b l j)).
      { intros l j Hl Hj. destruct (P l j Hl Hj) as [P1 P2].
        destruct (rational_reconstruction_ok (s l j) h Hh P1) as (nu & de & Hde & -> & Q). f_equal. unfold cramer_solution.
        pose proof (ModMC.cramer (n := n) (g := a) (b := fun i => b i j) (h := h) (s := fun l => s l j)) as Cr.
        assert (Cl : cong h (s l j * zdet n a) (zdet n (replace_col l (fun i => b i j) a))).
        { apply Cr; auto. intros i Hi. apply (P i j Hi Hj). }
        set (De := zdet n a) in *. set (Nu := zdet n (replace_col l (fun i => b i j) a)) in *.
        pose proof (GNs l j Hl Hj) as GN. cbv zeta in GN. fold Nu in GN.
        apply ZQ_div_eq; auto. destruct (Z.lt_ge_cases 0 De) as [L|L].
        - apply Q; auto.
        - assert (F : nu * (- De) = (- Nu) * de); [|lia]. apply Q.
          + lia.
          + replace (s l j * - De) with (- (s l j * De)) by ring. apply cong_opp. auto.
          + rewrite Z.mul_opp_opp. auto.
          + rewrite Z.mul_opp_opp. auto. }
      rewrite (mapM_Ret _ (fun row => map (fun x => match rational_reconstruction x h with Ret q => q | _ => 0%Qc end) row)).
      + cbn [bind]. do 2 f_equal. unfold tab. rewrite map_map. apply map_ext_in. intros l Hl. apply in_seq in Hl. rewrite map_map.
        apply map_ext_in. intros j Hj. apply in_seq in Hj. rewrite Erec by lia. auto.
      + intros row Hr. apply in_map_iff in Hr as (l & <- & Hl). apply in_seq in Hl. apply mapM_Ret. intros x Hx.
        apply in_map_iff in Hx as (j & <- & Hj). apply in_seq in Hj. rewrite Erec by lia. auto.
    - pose proof (ModMC.null_vector_det Hk Xk Nx) as D. split; [tauto|auto].
  Qed.

  Lemma ms_solve_ok n m a b A B : (0 < n)%nat -> (0 < m)%nat ->
    (forall i j, (i < n)%nat -> (j < n)%nat -> reducible the_prime (a i j)) ->
    (forall i j, (i < n)%nat -> (j < n)%nat -> Z.abs (a i j) <= A) ->
    (forall i j, (i < n)%nat -> (j < m)%nat -> Z.abs (b i j) <= B) ->
    ok (the_prime * Z.max B (Z.of_nat n * A)) ->
    (~ (the_prime | zdet n a) -> ms_solve chk (tab n n a) (tab n m b) = Ret (Some (tab n m (cramer_solution n a b)))) /\
    ((the_prime | zdet n a) -> ms_solve chk (tab n n a) (tab n m b) = Ret None).
  Proof.
    intros Hn Hm Hred Ba Bb HX.
    destruct (steps_ok n m a b the_prime Hn Hm eq_refl) as (ns & d2 & En & G & B1 & B2).
    apply (ms_solve_from_ok number_of_p_adic_steps_needed n m a b A B ns); auto. intros _. splits; auto.
    - eapply golden_mono; [|exact G]. split; [apply Z.square_nonneg|auto].
    - intros l j Hl Hj. cbv zeta. eapply golden_mono; [|exact G]. split; [apply Z.square_nonneg|auto].
  Qed.
End Proofs.
