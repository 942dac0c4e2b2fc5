(** modular_solver.rs, second part: modular matrix inverse, products, p-adic
    lifting. *)
From Coq Require Import List ZArith Lia Bool PeanoNat Znumtheory QArith Qcanon.
From Verif Require Import Base Partition Vec Matrix ZQ ModSolver.
Import ListNotations.
Open Scope Z_scope.

(** modular_solver.rs 180-197: rational_reconstruction, one iteration; state
    (u, u1, v, v1, sign), BigInt arithmetic; [/] and [%] truncate and panic for a zero divisor *)
Definition rr_step (h : Z) (st : Z * Z * Z * Z * Z) : outcome ((Z * Z * Z * Z * Z) + (Z * Z)) :=
  let '(u, u1, v, v1, sg) := st in
  if Z.ltb h (u1 * u1) then
    if Z.eqb u1 0 then Panic
    else Ret (inl (u1, Z.rem u u1, v1, v + Z.quot u u1 * v1, - sg))
  else Ret (inr (sg * u1, v1)).

(** modular_solver.rs 180-197: rational_reconstruction; BigRational::new
    panics for a zero denominator *)
Definition rational_reconstruction (s h : Z) : outcome Qc :=
  do (nu, de) <- loop (rr_step h) (Z.to_nat (Z.log2 (Z.abs s)) + 1) (h, s, 0, 1, 1);
  if Z.eqb de 0 then Panic else Ret (ZQ nu / ZQ de)%Qc.

(** modular_solver.rs 175-177: column_norm, squared *)
Definition sq_norm (a : zmat) (j : nat) : outcome Z :=
  foldM (fun s i => do x <- ix a i j; Ret (s + x * x)) 0 (seq 0 (length a)).

(** modular_solver.rs 156-172: number_of_p_adic_steps_needed.  Idealised: the
    code computes ceil(2 (log delta + log phi) / log p) in f64, where delta is the
    product of all but the smallest of the norms of the columns of [a] and of
    the longest column of [b], and phi the golden ratio; the model takes exact
    reals, for which this is the least k with phi^2 delta^2 <= p^k, and
    phi^2 d <= h is the same as 0 <= 2 h - 3 d and 5 d^2 <= (2 h - 3 d)^2.
    (A zero norm, with logarithm -inf, is sorted first and skipped.) *)
Fixpoint insert_sorted (x : Z) (l : list Z) : list Z :=
  match l with [] => [x] | y :: l' => if Z.leb x y then x :: l else y :: insert_sorted x l' end.
Definition sort_norms (l : list Z) : list Z := fold_right insert_sorted [] l.
Definition product (l : list Z) : Z := fold_right Z.mul 1 l.
Definition golden_le (d h : Z) : bool := Z.leb 0 (2 * h - 3 * d) && Z.leb (5 * (d * d)) ((2 * h - 3 * d) * (2 * h - 3 * d)).

Definition number_of_p_adic_steps_needed (a b : zmat) (p : Z) : outcome nat :=
  do a0 <- unwrap (nth_error a 0);
  do na <- mapM (sq_norm a) (seq 0 (length a0));
  do b0 <- unwrap (nth_error b 0);
  do nb <- mapM (sq_norm b) (seq 0 (length b0));
  do mb <- match nb with [] => Panic | x :: xs => Ret (fold_left Z.max xs x) end;
  let d2 := product (tl (sort_norms (na ++ [mb]))) in
  unwrap (find (fun k => golden_le d2 (p ^ Z.of_nat k)) (seq 0 (Z.to_nat (Z.log2 (3 * d2)) + 2))).

(** modular_solver.rs 201: the prime *)
Definition the_prime : Z := 9999991.

Section Model.
  Variable chk : Z -> outcome Z.

  (** modular_solver.rs 215-233: one lifting step; state (s, p^step, b) *)
  Definition lift_step (a c : zmat) (p : Z) (nr nc ns : nat) (st : zmat * Z * zmat) (step : nat) : outcome (zmat * Z * zmat) :=
    let '(s, h, b) := st in
    do x <- modular_matrix_product chk c b p;
    do s' <- tabM nr nc (fun i j => do sv <- ix s i j; do xv <- ix x i j; Ret (sv + h * xv));
    if Nat.ltb (step + 1) ns then
      do ax <- integer_matrix_product chk a x;
      do b' <- tabM nr nc (fun i j => do bv <- ix b i j; do av <- ix ax i j; do d <- chk (bv - av); chk (Z.quot d p));
      Ret (s', h * p, b')
    else Ret (s', h * p, b).

  (** modular_solver.rs 200-241: solve, with the number of lifting steps computed by [steps] *)
  Definition ms_solve_from (steps : zmat -> zmat -> Z -> outcome nat) (a b : zmat) : outcome (option (list (list Qc))) :=
    do oc <- modular_matrix_inverse chk a the_prime;
    match oc with
    | None => Ret None
    | Some c =>
        do ns <- steps a b the_prime;
        let nr := length b in
        do b0 <- unwrap (nth_error b 0);
        let nc := length b0 in
        do (s, h, _) <- foldM (lift_step a c the_prime nr nc ns) (map (fun _ => map (fun _ => 0) (seq 0 nc)) (seq 0 nr), 1, b) (seq 0 ns);
        do r <- mapM (mapM (fun x => rational_reconstruction x h)) s;
        Ret (Some r)
    end.

  (** modular_solver.rs 200-241: solve, with the call in line 204 taken as the idealised function above *)
  Definition ms_solve : zmat -> zmat -> outcome (option (list (list Qc))) := ms_solve_from number_of_p_adic_steps_needed.
End Model.

Section Proofs.
  Variable chk : Z -> outcome Z.
  Variable ok : Z -> Prop.
  Hypothesis ok_chk : forall z, ok z -> chk z = Ret z.
  Hypothesis ok_le : forall y z, Z.abs y <= Z.abs z -> ok z -> ok y.
  Variable p : Z.
  Hypothesis prime_p : prime p.
  Hypothesis okp : ok (p * p).

  Lemma p_gt1 : 1 < p.
  Proof. destruct prime_p. lia. Qed.

  (** modular_row_echelon_form on a rectangular matrix *)
  Lemma mref_ok nr nc g : (0 < nr)%nat -> (forall i j, (i < nr)%nat -> (j < nc)%nat -> reducible p (g i j)) ->
    exists g', modular_row_echelon_form chk (tab nr nc g) p = Ret (tab nr nc g') /\ inrange p nr nc g' /\
      (forall w, null p nr nc g w <-> null p nr nc g' w) /\
      ((forall i j, (i < nr)%nat -> (j < nc)%nat -> (j < nr)%nat -> g' i j = if Nat.eqb i j then 1 else 0) \/
       (exists k x, (k < nc)%nat /\ (k < nr)%nat /\ x k = 1 /\ (forall j, (k < j)%nat -> x j = 0) /\ null p nr nc g x)).
  Proof.
    intros Hn Hred. pose proof p_gt1 as Hp. unfold modular_row_echelon_form.
    destruct (tab nr nc g) as [|r0 rest] eqn:Et.
    { apply (f_equal (@length _)) in Et. rewrite tab_length in Et. simpl in Et. lia. }
    assert (L0 : length r0 = nc).
    { pose proof (tab_row nr nc g 0 Hn) as E. rewrite Et in E. simpl in E. injection E as ->. rewrite map_length, seq_length. auto. }
    rewrite L0, <- Et, tab_length. rewrite (rect_forallb nr nc) by apply rect_tab. cbn [assert bind].
    set (gm := fun i j => g i j mod p).
    assert (E1 : tabM nr nc (fun i j => do x <- ix (tab nr nc g) i j; mod_entry chk p x) = Ret (tab nr nc gm)).
    { apply tabM_ok. intros i j Hi Hj. rewrite ix_tab by auto. cbn [bind]. eapply mod_entry_ok; eauto. }
    rewrite E1. cbn [bind].
    assert (R : inrange p nr nc gm). { intros i j Hi Hj. unfold gm. apply Z.mod_pos_bound. lia. }
    assert (N : forall w, null p nr nc g w <-> null p nr nc gm w).
    { intros w. assert (C : forall i, cong p (zs nc (fun j => g i j * w j)) (zs nc (fun j => gm i j * w j))).
      { intros i. apply cong_zs. intros j Hj. apply cong_mul; [|apply cong_refl]. apply cong_mod; [lia|]. unfold gm. rewrite Zmod_mod. auto. }
      unfold null. split; intros H i Hi; (eapply cong_trans; [|apply (H i Hi)]); [apply cong_sym|]; apply C. }
    destruct (mref_cols chk ok ok_chk ok_le p nr nc prime_p okp gm R) as (g' & E & R' & N' & D).
    rewrite E. cbn [bind]. exists g'. splits; auto.
    - intros w. rewrite N. apply N'.
    - destruct D as [D|(k & x & H1 & H2 & H3 & H4 & H5)]; auto. right. exists k, x. splits; auto. apply N. auto.
  Qed.

  Lemma seq_add n s k : seq (n + s) k = map (Nat.add n) (seq s k).
  Proof. revert s. induction k as [|k IH]; intros s; simpl; auto. rewrite <- Nat.add_succ_r, IH. auto. Qed.

  Lemma skipn_row n (f : nat -> Z) : skipn n (map f (seq 0 (n + n))) = map (fun j => f (n + j)%nat) (seq 0 n).
  Proof.
    rewrite seq_app, map_app, skipn_app, map_length, seq_length, Nat.sub_diag.
    rewrite skipn_all2 by (rewrite map_length, seq_length; lia). cbn [app skipn].
    rewrite <- (Nat.add_0_r n) at 1. rewrite Nat.add_0_l, Nat.add_0_r. pose proof (seq_add n 0 n) as E. rewrite Nat.add_0_r in E.
    rewrite E. apply map_map.
  Qed.

  (** modular_matrix_inverse on a square matrix *)
  Lemma minverse_ok n g : (0 < n)%nat -> (forall i j, (i < n)%nat -> (j < n)%nat -> reducible p (g i j)) ->
    (exists c, modular_matrix_inverse chk (tab n n g) p = Ret (Some (tab n n c)) /\ inrange p n n c /\
       forall i j, (i < n)%nat -> (j < n)%nat -> cong p (zs n (fun k => c i k * g k j)) (if Nat.eqb i j then 1 else 0)) \/
    (modular_matrix_inverse chk (tab n n g) p = Ret None /\
       exists k x, (k < n)%nat /\ x k = 1 /\ forall i, (i < n)%nat -> cong p (zs n (fun j => g i j * x j)) 0).
  Proof.
    intros Hn Hred. pose proof p_gt1 as Hp. unfold modular_matrix_inverse. rewrite tab_length.
    destruct (Nat.eqb_spec n 0); [lia|]. rewrite (rect_forallb n n) by apply rect_tab. cbn [assert bind].
    set (h := fun i j => if Nat.ltb j n then g i j else if Nat.eqb j (n + i) then 1 else 0).
    rewrite (tabM_ok n (n + n) _ h).
    2:{ intros i j Hi Hj. unfold h. destruct (Nat.ltb_spec j n); auto. apply ix_tab; auto. }
    fold (tab n (n + n) h). cbn [bind].
    assert (Hr : forall i j, (i < n)%nat -> (j < n + n)%nat -> reducible p (h i j)).
    { intros i j Hi Hj. unfold h. destruct (Nat.ltb_spec j n); [apply Hred; auto|]. intros [C _]. destruct (Nat.eqb j (n + i)); lia. }
    destruct (mref_ok n (n + n) h Hn Hr) as (g' & E & R & N & D). rewrite E. cbn [bind].
    rewrite (tabM_ok n n _ (fun i j => Z.eqb (g' i j) (if Nat.eqb i j then 1 else 0))).
    2:{ intros i j Hi Hj. rewrite ix_tab by lia. reflexivity. }
    fold (tab n n (fun i j => Z.eqb (g' i j) (if Nat.eqb i j then 1 else 0))). cbn [bind].
    destruct (forallb (forallb id) (tab n n (fun i j => Z.eqb (g' i j) (if Nat.eqb i j then 1 else 0)))) eqn:Ef.
    - left. rewrite tab_forallb in Ef. exists (fun i k => g' i (n + k)%nat). splits.
      + do 2 f_equal. unfold tab. rewrite map_map. apply map_ext. intros i. apply skipn_row.
      + intros i j Hi Hj. apply R; lia.
      + intros i j Hi Hj.
        set (w := fun k => if Nat.ltb k n then (if Nat.eqb k j then 1 else 0) else - g (k - n)%nat j).
        assert (Hw : null p n (n + n) h w).
        { intros i' Hi'. apply cong_eq. rewrite zs_split. rewrite (zs_single n _ j); [|auto|].
          - unfold h at 1, w at 1. destruct (Nat.ltb_spec j n); [|lia]. rewrite Nat.eqb_refl.
            rewrite (zs_single n _ i'); [|auto|].
            + unfold h, w. destruct (Nat.ltb_spec (n + i') n); [lia|]. rewrite Nat.eqb_refl.
              replace (n + i' - n)%nat with i' by lia. lia.
            + intros k Hk Hne. unfold h. destruct (Nat.ltb_spec (n + k) n); [lia|]. destruct (Nat.eqb_spec (n + k) (n + i')); lia.
          - intros k Hk Hne. unfold w. destruct (Nat.ltb_spec k n); [|lia]. destruct (Nat.eqb_spec k j); lia. }
        apply N in Hw. specialize (Hw i Hi). rewrite zs_split in Hw. rewrite (zs_single n _ i) in Hw; [|auto|].
        * unfold w at 1 in Hw. destruct (Nat.ltb_spec i n); [|lia]. pose proof (Ef i i Hi Hi) as E1.
          unfold id in E1. apply Z.eqb_eq in E1. rewrite Nat.eqb_refl in E1. rewrite E1 in Hw.
          rewrite (zs_ext n _ (fun k => (-1) * (g' i (n + k)%nat * g k j))) in Hw.
          -- rewrite zs_scale in Hw. destruct Hw as [z Hw]. exists (- z). lia.
          -- intros k Hk. unfold w. destruct (Nat.ltb_spec (n + k) n); [lia|]. replace (n + k - n)%nat with k by lia. ring.
        * intros k Hk Hne. pose proof (Ef i k Hi Hk) as E1. unfold id in E1. apply Z.eqb_eq in E1. rewrite E1.
          destruct (Nat.eqb_spec i k); [lia|]. lia.
    - right. split; auto. destruct D as [D|(k & x & Hk & Hkn & X1 & X0 & Nx)].
      + exfalso. apply Bool.not_true_iff_false in Ef. apply Ef. apply tab_forallb. intros i j Hi Hj. unfold id. apply Z.eqb_eq. apply D; lia.
      + exists k, x. splits; auto. intros i Hi. specialize (Nx i Hi). rewrite zs_split in Nx. rewrite (zs_zero n (fun j => h i (n + j)%nat * x (n + j)%nat)) in Nx.
        * rewrite Z.add_0_r in Nx. rewrite (zs_ext n _ (fun j => g i j * x j)) in Nx; auto.
          intros j Hj. unfold h. destruct (Nat.ltb_spec j n); [auto|lia].
        * intros j Hj. rewrite X0 by lia. lia.
  Qed.

  (** *** products *)
  Lemma rem_lt x : Z.abs (Z.rem x p) < p.
  Proof. pose proof p_gt1. pose proof (Z.rem_bound_abs x p). lia. Qed.

  Lemma mod_dot_ok k f g x y X : (0 < k)%nat -> ok (p * X) ->
    (forall i, (i < k)%nat -> f i = Ret (x i)) -> (forall i, (i < k)%nat -> g i = Ret (y i)) ->
    (forall i, (i < k)%nat -> 0 <= x i < p) -> (forall i, (i < k)%nat -> Z.abs (y i) <= X) ->
    exists z, mod_dot chk p f g k = Ret z /\ Z.abs z < p /\ cong p z (zs k (fun i => x i * y i)).
  Proof.
    intros Hk HX Hf Hg Bx By. pose proof p_gt1 as Hp. destruct k as [|k]; [lia|]. unfold mod_dot.
    assert (okp2 : forall z, Z.abs z <= p + p -> chk z = Ret z).
    { intros z Hz. apply ok_chk. eapply ok_le; [|exact okp]. nia. }
    assert (Term : forall i, (i < S k)%nat ->
      (do x0 <- f i; do y0 <- g i; do xy <- chk (x0 * y0); chk (Z.rem xy p)) = Ret (Z.rem (x i * y i) p)).
    { intros i Hi. rewrite Hf, Hg by auto. cbn [bind]. rewrite ok_chk.
      - cbn [bind]. apply okp2. pose proof (rem_lt (x i * y i)). lia.
      - eapply ok_le; [|exact HX]. specialize (Bx i Hi). specialize (By i Hi). nia. }
    rewrite Term by lia. cbn [bind].
    assert (H : forall m, (m <= k)%nat -> exists z,
      foldM (fun s i => do t <- (do x0 <- f i; do y0 <- g i; do xy <- chk (x0 * y0); chk (Z.rem xy p)); do u <- chk (s + t); chk (Z.rem u p))
        (Z.rem (x O * y O) p) (seq 1 m) = Ret z /\ Z.abs z < p /\ cong p z (zs (S m) (fun i => x i * y i))).
    { induction m as [|m IH]; intros Hm.
      - exists (Z.rem (x O * y O) p). splits; auto using rem_lt. cbn [zs]. rewrite Z.add_0_l. apply cong_rem. lia.
      - destruct IH as (z & E & B & C); [lia|]. rewrite seq_S, foldM_app, E. cbn [bind foldM plus]. rewrite Term by lia. cbn [bind].
        pose proof (rem_lt (x (S m) * y (S m))). rewrite okp2 by lia. cbn [bind].
        pose proof (rem_lt (z + Z.rem (x (S m) * y (S m)) p)). rewrite okp2 by lia. cbn [bind].
        eexists. splits; [reflexivity|auto|]. eapply cong_trans; [apply cong_rem; lia|]. cbn [zs]. cbn [zs] in C. apply cong_add; auto. apply cong_rem. lia. }
    apply H. lia.
  Qed.

  Lemma tab_0 {A} r c (g : nat -> nat -> A) : (0 < r)%nat -> nth_error (tab r c g) 0 = Some (map (g O) (seq 0 c)).
  Proof. apply tab_row. Qed.
  Lemma row_length {A} (f : nat -> A) c : length (map f (seq 0 c)) = c.
  Proof. rewrite map_length, seq_length. auto. Qed.

  (** a table of values found one by one *)
  Lemma tabM_ex r c (f : nat -> nat -> outcome Z) (P : nat -> nat -> Z -> Prop) :
    (forall i j, (i < r)%nat -> (j < c)%nat -> exists z, f i j = Ret z /\ P i j z) ->
    exists g, tabM r c f = Ret (tab r c g) /\ forall i j, (i < r)%nat -> (j < c)%nat -> P i j (g i j).
  Proof.
    intros H. exists (fun i j => match f i j with Ret z => z | _ => 0 end). split.
    - apply tabM_ok. intros i j Hi Hj. destruct (H i j Hi Hj) as (z & -> & _). auto.
    - intros i j Hi Hj. destruct (H i j Hi Hj) as (z & -> & Pz). auto.
  Qed.

  Lemma mproduct_ok n m k c b X : (0 < n)%nat -> (0 < m)%nat -> ok (p * X) -> inrange p n m c ->
    (forall i j, (i < m)%nat -> (j < k)%nat -> Z.abs (b i j) <= X) ->
    exists x, modular_matrix_product chk (tab n m c) (tab m k b) p = Ret (tab n k x) /\
      forall i j, (i < n)%nat -> (j < k)%nat -> Z.abs (x i j) < p /\ cong p (x i j) (zs m (fun l => c i l * b l j)).
  Proof.
    intros Hn Hm HX R B. unfold modular_matrix_product. rewrite !tab_0 by auto. cbn [bind unwrap].
    rewrite !row_length, !tab_length, Nat.eqb_refl. cbn [assert bind].
    apply (tabM_ex n k _ (fun i j z => Z.abs z < p /\ cong p z (zs m (fun l => c i l * b l j)))).
    intros i j Hi Hj. apply (mod_dot_ok m _ _ (fun l => c i l) (fun l => b l j) X); auto.
    - intros l Hl. apply ix_tab; auto.
    - intros l Hl. apply ix_tab; auto.
  Qed.

  Lemma iproduct_ok n m k a x A : (0 < n)%nat -> (0 < m)%nat -> ok (Z.of_nat m * (A * p)) ->
    (forall i j, (i < n)%nat -> (j < m)%nat -> Z.abs (a i j) <= A) ->
    (forall i j, (i < m)%nat -> (j < k)%nat -> Z.abs (x i j) < p) ->
    integer_matrix_product chk (tab n m a) (tab m k x) = Ret (tab n k (fun i j => zs m (fun l => a i l * x l j))).
  Proof.
    intros Hn Hm HX Ba Bx. pose proof p_gt1 as Hp. unfold integer_matrix_product. rewrite !tab_0 by auto. cbn [bind unwrap].
    rewrite !row_length, !tab_length, Nat.eqb_refl. cbn [assert bind].
    apply tabM_ok. intros i j Hi Hj.
    assert (A0 : 0 <= A) by (specialize (Ba i O Hi Hm); lia).
    assert (Bt : forall l, (l < m)%nat -> Z.abs (a i l * x l j) <= A * p).
    { intros l Hl. specialize (Ba i l Hi Hl). specialize (Bx l j Hl Hj). rewrite Z.abs_mul. apply Z.mul_le_mono_nonneg; lia. }
    assert (H : forall q, (q <= m)%nat ->
      foldM (fun s l => do u <- ix (tab n m a) i l; do v <- ix (tab m k x) l j; do uv <- chk (u * v); chk (s + uv)) 0 (seq 0 q) =
      Ret (zs q (fun l => a i l * x l j))).
    { induction q as [|q IH]; intros Hq; auto. rewrite seq_S, foldM_app, IH by lia. cbn [bind foldM plus].
      rewrite !ix_tab by (auto; lia). cbn [bind]. rewrite ok_chk.
      - cbn [bind]. rewrite ok_chk; auto. eapply ok_le; [|exact HX].
        assert (Z.abs (zs (S q) (fun l => a i l * x l j)) <= Z.of_nat (S q) * (A * p)) by (apply zs_abs; intros; apply Bt; lia).
        cbn [zs] in H. assert (0 <= A * p) by nia. nia.
      - eapply ok_le; [|exact HX]. specialize (Bt q ltac:(lia)). assert (0 <= A * p) by nia. nia. }
    apply H. lia.
  Qed.

  Lemma quot_le z : Z.abs (Z.quot z p) <= Z.abs z.
  Proof.
    pose proof p_gt1. rewrite <- (Z.abs_eq p) by lia. rewrite <- Z.quot_abs by lia.
    destruct (Z.eq_dec z 0) as [->|]; [rewrite Z.quot_0_l; lia|]. apply Z.quot_le_upper_bound; try lia. nia.
  Qed.

  (** *** p-adic lifting *)
  Definition prod (n : nat) (a x : nat -> nat -> Z) (i j : nat) : Z := zs n (fun l => a i l * x l j).

  Lemma lift_ok n m a b c A B ns : (0 < n)%nat -> inrange p n n c ->
    (forall i j, (i < n)%nat -> (j < n)%nat -> cong p (prod n a c i j) (if Nat.eqb i j then 1 else 0)) ->
    (forall i j, (i < n)%nat -> (j < n)%nat -> Z.abs (a i j) <= A) ->
    (forall i j, (i < n)%nat -> (j < m)%nat -> Z.abs (b i j) <= B) ->
    ok (p * Z.max B (Z.of_nat n * A)) ->
    exists s bm, foldM (lift_step chk (tab n n a) (tab n n c) p n m ns)
        (map (fun _ => map (fun _ => 0) (seq 0 m)) (seq 0 n), 1, tab n m b) (seq 0 ns) = Ret (tab n m s, p ^ Z.of_nat ns, tab n m bm) /\
      forall i j, (i < n)%nat -> (j < m)%nat -> Z.abs (s i j) < p ^ Z.of_nat ns /\ cong (p ^ Z.of_nat ns) (prod n a s i j) (b i j).
  Proof.
    intros Hn Rc Hc Ba Bb HX. pose proof p_gt1 as Hp. set (X := Z.max B (Z.of_nat n * A)) in *.
    assert (A0 : 0 <= A) by (specialize (Ba O O Hn Hn); lia).
    assert (HnA : ok (Z.of_nat n * (A * p))). { eapply ok_le; [|exact HX]. assert (0 <= Z.of_nat n * A) by nia. unfold X. nia. }
    assert (H : forall k, (k <= ns)%nat -> exists s bm,
      foldM (lift_step chk (tab n n a) (tab n n c) p n m ns) (map (fun _ => map (fun _ => 0) (seq 0 m)) (seq 0 n), 1, tab n m b) (seq 0 k) =
        Ret (tab n m s, p ^ Z.of_nat k, tab n m bm) /\
      forall i j, (i < n)%nat -> (j < m)%nat -> Z.abs (s i j) < p ^ Z.of_nat k /\ cong (p ^ Z.of_nat k) (prod n a s i j) (b i j) /\
        ((k < ns)%nat -> b i j = prod n a s i j + p ^ Z.of_nat k * bm i j /\ Z.abs (bm i j) <= X)).
    { induction k as [|k IH]; intros Hk.
      - exists (fun _ _ => 0), b. split; [reflexivity|]. intros i j Hi Hj. change (p ^ Z.of_nat 0) with 1.
        assert (E0 : prod n a (fun _ _ => 0) i j = 0) by (apply zs_zero; intros; ring). rewrite E0. splits; try lia.
        + exists (- b i j). lia.
        + intros _. split; [lia|]. specialize (Bb i j Hi Hj). unfold X. lia.
      - destruct IH as (s & bm & E & P); [lia|]. rewrite seq_S, foldM_app, E. cbn [bind foldM plus]. unfold lift_step.
        destruct (mproduct_ok n n m c bm X Hn Hn HX Rc) as (x & Ex & Px).
        { intros i j Hi Hj. apply (P i j Hi Hj). lia. }
        rewrite Ex. cbn [bind]. set (h := p ^ Z.of_nat k) in *. assert (Hh : 0 < h) by (unfold h; apply Z.pow_pos_nonneg; lia).
        rewrite (tabM_ok n m _ (fun i j => s i j + h * x i j)).
        2:{ intros i j Hi Hj. rewrite !ix_tab by auto. reflexivity. }
        fold (tab n m (fun i j => s i j + h * x i j)). cbn [bind].
        rewrite Nat2Z.inj_succ, Z.pow_succ_r by lia. fold h. rewrite (Z.mul_comm p h).
        assert (Eprod : forall i j, prod n a (fun i j => s i j + h * x i j) i j = prod n a s i j + h * prod n a x i j).
        { intros i j. unfold prod. rewrite <- zs_scale, <- zs_add. apply zs_ext. intros; ring. }
        assert (Hres : forall i j, (i < n)%nat -> (j < m)%nat -> cong p (prod n a x i j) (bm i j)).
        { intros i j Hi Hj. eapply cong_trans; [apply cong_zs; intros l Hl; apply cong_mul; [apply cong_refl|apply (Px l j Hl Hj)]|].
          rewrite (zs_ext n _ (fun l => zs n (fun q => (a i l * c l q) * bm q j))).
          2:{ intros l Hl. rewrite <- zs_scale. apply zs_ext. intros; ring. }
          rewrite zs_swap.
          eapply cong_trans; [apply cong_zs; intros q Hq; apply cong_eq; transitivity (bm q j * prod n a c i q);
            [unfold prod; rewrite <- zs_scale; apply zs_ext; intros; ring|reflexivity]|].
          eapply cong_trans; [apply cong_zs; intros q Hq; apply cong_mul; [apply cong_refl|apply (Hc i q Hi Hq)]|].
          apply cong_eq. rewrite (zs_single n _ i); auto.
          - rewrite Nat.eqb_refl. ring.
          - intros q Hq Hne. destruct (Nat.eqb_spec i q); [congruence|ring]. }
        assert (Main : forall i j, (i < n)%nat -> (j < m)%nat -> Z.abs (s i j + h * x i j) < h * p /\
          cong (h * p) (prod n a (fun i j => s i j + h * x i j) i j) (b i j)).
        { intros i j Hi Hj. destruct (P i j Hi Hj) as (P1 & P2 & P3). destruct (Px i j Hi Hj) as [Px1 _].
          destruct P3 as [P3 P4]; [lia|]. split.
          - assert (Z.abs (s i j + h * x i j) <= Z.abs (s i j) + h * Z.abs (x i j)).
            { rewrite <- (Z.abs_eq h) at 2 by lia. rewrite <- Z.abs_mul. apply Z.abs_triangle. }
            assert (h * Z.abs (x i j) <= h * (p - 1)) by (apply Z.mul_le_mono_nonneg_l; lia). lia.
          - rewrite Eprod, P3. destruct (Hres i j Hi Hj) as [z Hz]. exists z.
            transitivity (h * (prod n a x i j - bm i j)); [ring|]. rewrite Hz. ring. }
        destruct (Nat.ltb_spec (k + 1) ns) as [Hlt|Hge].
        + rewrite (iproduct_ok n n m a x A Hn Hn HnA Ba) by (intros i j Hi Hj; apply (Px i j Hi Hj)). cbn [bind].
          fold (prod n a x).
          rewrite (tabM_ok n m _ (fun i j => Z.quot (bm i j - prod n a x i j) p)).
          2:{ intros i j Hi Hj. rewrite !ix_tab by auto. cbn [bind].
              assert (Bnd : Z.abs (bm i j - prod n a x i j) <= p * X).
              { destruct (P i j Hi Hj) as (_ & _ & P3). destruct P3 as [_ P4]; [lia|].
                assert (Z.abs (prod n a x i j) <= Z.of_nat n * (A * (p - 1))).
                { apply zs_abs. intros l Hl. rewrite Z.abs_mul. apply Z.mul_le_mono_nonneg; try lia; [apply Ba; auto|]. destruct (Px l j Hl Hj). lia. }
                assert (Z.of_nat n * A <= X) by (unfold X; lia). nia. }
              fold (prod n a x i j). assert (0 <= p * X) by (assert (0 <= X) by (unfold X; assert (0 <= Z.of_nat n * A) by nia; lia); nia).
              rewrite ok_chk by (eapply ok_le; [|exact HX]; lia). cbn [bind]. apply ok_chk. eapply ok_le; [|exact HX].
              pose proof (quot_le (bm i j - prod n a x i j)). lia. }
          fold (tab n m (fun i j => Z.quot (bm i j - prod n a x i j) p)). cbn [bind].
          eexists _, _. split; [reflexivity|]. intros i j Hi Hj. destruct (Main i j Hi Hj) as [M1 M2]. splits; auto.
          intros _. cbv beta. rewrite Eprod. destruct (P i j Hi Hj) as (_ & _ & P3). destruct P3 as [P3 P4]; [lia|].
          destruct (Hres i j Hi Hj) as [z Hz].
          assert (Eq : Z.quot (bm i j - prod n a x i j) p = - z).
          { replace (bm i j - prod n a x i j) with (- z * p) by lia. apply Z.quot_mul. lia. }
          rewrite Eq. split.
          * rewrite P3. transitivity (prod n a s i j + h * (prod n a x i j - (prod n a x i j - bm i j))); [ring|]. rewrite Hz. ring.
          * assert (Z.abs (prod n a x i j) <= Z.of_nat n * (A * (p - 1))).
            { apply zs_abs. intros l Hl. rewrite Z.abs_mul. apply Z.mul_le_mono_nonneg; try lia; [apply Ba; auto|]. destruct (Px l j Hl Hj). lia. }
            assert (Z.of_nat n * A <= X) by (unfold X; lia).
            assert (Z.abs (z * p) <= X * p) by (rewrite <- Hz; nia). rewrite Z.abs_mul in H1. rewrite (Z.abs_eq p) in H1 by lia. nia.
        + eexists _, _. split; [reflexivity|]. intros i j Hi Hj. destruct (Main i j Hi Hj) as [M1 M2]. splits; auto. lia. }
    destruct (H ns (le_n ns)) as (s & bm & E & P). exists s, bm. split; auto. intros i j Hi Hj. destruct (P i j Hi Hj) as (P1 & P2 & _). auto.
  Qed.
End Proofs.
