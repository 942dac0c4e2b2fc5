(** Model of src/arithmetic/modular_solver.rs (modular part).  Machine
    integers: every result of an i64 operation goes through [chk]; with
    [chk := Ret] the arithmetic is ideal, with [chk64] it panics on overflow
    as a debug build does. *)
From Coq Require Import List ZArith Lia Bool PeanoNat Znumtheory.
From Verif Require Import Base Partition Vec Matrix.
Import ListNotations.
Open Scope Z_scope.

Definition in64 (z : Z) : bool := Z.leb (- 2 ^ 63) z && Z.ltb z (2 ^ 63).
Definition chk64 (z : Z) : outcome Z := if in64 z then Ret z else Panic.

Notation zmat := (list (list Z)).

(** indexing [a[i][j]] *)
Definition ix (a : zmat) (i j : nat) : outcome Z :=
  do row <- unwrap (nth_error a i); unwrap (nth_error row j).

(** build a table of [r] rows and [c] columns entry by entry *)
Definition tabM {A} (r c : nat) (f : nat -> nat -> outcome A) : outcome (list (list A)) :=
  mapM (fun i => mapM (f i) (seq 0 c)) (seq 0 r).

Section Model.
  Variable chk : Z -> outcome Z.

  (** modular_solver.rs 5-20: modular_inverse, one loop iteration; state (t, t1, r, r1) *)
  Definition minv_step (st : Z * Z * Z * Z) : outcome ((Z * Z * Z * Z) + (Z * Z)) :=
    let '(t, t1, r, r1) := st in
    if Z.eqb r1 0 then Ret (inr (t, r))
    else
      do q <- chk (Z.quot r r1);
      do qt <- chk (q * t1);
      do t' <- chk (t - qt);
      do qr <- chk (q * r1);
      do r' <- chk (r - qr);
      Ret (inl (t1, t', r1, r')).

  (** modular_solver.rs 5-20: modular_inverse; the fuel is the bit length of the argument *)
  Definition modular_inverse (arg m : Z) : outcome (option Z) :=
    do (t, r) <- loop minv_step (Z.to_nat (Z.log2 (Z.abs arg)) + 1) (0, 1, m, arg);
    if Z.eqb r 1 then
      (if Z.ltb t 0 then do x <- chk (t + m); Ret (Some x) else Ret (Some t))
    else Ret None.

  (** modular_solver.rs 34-36: reduction of an entry *)
  Definition mod_entry (p n : Z) : outcome Z := chk (Z.rem n p + (if Z.ltb n 0 then p else 0)).

  (** modular_solver.rs 75-80: swap_rows *)
  Definition swap_rows (a : zmat) (i j : nat) : outcome zmat :=
    do ri <- unwrap (nth_error a i);
    do rj <- unwrap (nth_error a j);
    Ret (set_nth j ri (set_nth i rj a)).

  (** modular_solver.rs 49-52: scaling of the pivot row *)
  Definition scale_row (p : Z) (nr nc irow icol : nat) (f : Z) (a : zmat) : outcome zmat :=
    tabM nr nc (fun i j =>
      do x <- ix a i j;
      if (Nat.eqb i irow && Nat.leb icol j)%bool then do y <- chk (x * f); chk (Z.rem y p) else Ret x).

  (** modular_solver.rs 54-65: elimination in the other rows.  Simplified:
      the entries are written to a new table; each is computed from its own
      old value, the pivot row and the old entry in the pivot column, none of
      which is overwritten before it is read. *)
  Definition eliminate (p : Z) (nr nc irow icol : nat) (a : zmat) : outcome zmat :=
    tabM nr nc (fun i j =>
      do x <- ix a i j;
      do f <- ix a i icol;
      if (negb (Nat.eqb i irow) && negb (Z.eqb f 0) && Nat.leb icol j)%bool then
        do y <- ix a irow j;
        if Z.eqb y 0 then Ret x
        else do yf <- chk (y * f); do z <- chk (p - Z.rem yf p); do w <- chk (z + x); chk (Z.rem w p)
      else Ret x).

  (** modular_solver.rs 43-69: one column; state (a, irow) *)
  Definition mref_step (p : Z) (nr nc : nat) (st : zmat * nat) (icol : nat) : outcome (zmat * nat) :=
    let '(a, irow) := st in
    do found <- foldM (fun o r =>
        match o with
        | Some _ => Ret o
        | None => do x <- ix a r icol; Ret (if Z.eqb x 0 then None else Some r)
        end) None (seq irow (nr - irow));
    do a' <-
      match found with
      | None => Ret a
      | Some r =>
          do a1 <- (if Nat.eqb r irow then Ret a else swap_rows a irow r);
          do x <- ix a1 irow icol;
          do o <- modular_inverse x p;
          do f <- unwrap o;
          do a2 <- scale_row p nr nc irow icol f a1;
          eliminate p nr nc irow icol a2
      end;
    Ret (a', S irow).

  (** modular_solver.rs 25-72: modular_row_echelon_form *)
  Definition modular_row_echelon_form (m : zmat) (p : Z) : outcome zmat :=
    match m with
    | [] => Ret []
    | r0 :: _ =>
        let nr := length m in let nc := length r0 in
        do _ <- assert (forallb (fun r => Nat.eqb (length r) nc) m);
        do a <- tabM nr nc (fun i j => do x <- ix m i j; mod_entry p x);
        do (a', _) <- foldM (mref_step p nr nc) (a, O) (seq 0 nc);
        Ret a'
    end.

  (** modular_solver.rs 83-110: modular_matrix_inverse *)
  Definition modular_matrix_inverse (m : zmat) (p : Z) : outcome (option zmat) :=
    let n := length m in
    if Nat.eqb n 0 then Ret None
    else
      do _ <- assert (forallb (fun r => Nat.eqb (length r) n) m);
      do a0 <- tabM n (n + n) (fun i j => if Nat.ltb j n then ix m i j else Ret (if Nat.eqb j (n + i) then 1 else 0));
      do a <- modular_row_echelon_form a0 p;
      do ok <- tabM n n (fun i j => do x <- ix a i j; Ret (Z.eqb x (if Nat.eqb i j then 1 else 0)));
      if forallb (forallb id) ok then Ret (Some (map (skipn n) a)) else Ret None.

  (** modular_solver.rs 123-126: one entry of the modular product; [reduce]
      returns None for an empty iterator, and [unwrap] panics *)
  Definition mod_dot (p : Z) (f g : nat -> outcome Z) (k : nat) : outcome Z :=
    let term i := do x <- f i; do y <- g i; do xy <- chk (x * y); chk (Z.rem xy p) in
    match k with
    | O => Panic
    | S k' => do t0 <- term O; foldM (fun s i => do t <- term i; do u <- chk (s + t); chk (Z.rem u p)) t0 (seq 1 k')
    end.

  (** modular_solver.rs 113-133: modular_matrix_product *)
  Definition modular_matrix_product (a b : zmat) (p : Z) : outcome zmat :=
    do a0 <- unwrap (nth_error a 0);
    do b0 <- unwrap (nth_error b 0);
    do _ <- assert (Nat.eqb (length a0) (length b));
    tabM (length a) (length b0) (fun i j => mod_dot p (fun k => ix a i k) (fun k => ix b k j) (length a0)).

  (** modular_solver.rs 136-153: integer_matrix_product *)
  Definition integer_matrix_product (a b : zmat) : outcome zmat :=
    do a0 <- unwrap (nth_error a 0);
    do b0 <- unwrap (nth_error b 0);
    do _ <- assert (Nat.eqb (length a0) (length b));
    tabM (length a) (length b0) (fun i j =>
      foldM (fun s k => do x <- ix a i k; do y <- ix b k j; do xy <- chk (x * y); chk (s + xy)) 0 (seq 0 (length a0))).
End Model.

(** *** integer sums and congruences *)
Fixpoint zs (n : nat) (f : nat -> Z) : Z := match n with O => 0 | S k => zs k f + f k end.

Lemma zs_ext n f g : (forall i, (i < n)%nat -> f i = g i) -> zs n f = zs n g.
Proof. induction n as [|n IH]; intros H; simpl; auto. rewrite IH, H; auto. Qed.
Lemma zs_add n f g : zs n (fun i => f i + g i) = zs n f + zs n g.
Proof. induction n; simpl; lia. Qed.
Lemma zs_scale n c f : zs n (fun i => c * f i) = c * zs n f.
Proof. induction n as [|n IH]; simpl; [lia|]. rewrite IH. ring. Qed.
Lemma zs_zero n f : (forall i, (i < n)%nat -> f i = 0) -> zs n f = 0.
Proof. induction n as [|n IH]; intros H; simpl; auto. rewrite IH, H; auto. Qed.
Lemma zs_single n f k : (k < n)%nat -> (forall i, (i < n)%nat -> i <> k -> f i = 0) -> zs n f = f k.
Proof.
  induction n as [|n IH]; intros Hk H; [lia|]. simpl. destruct (Nat.eq_dec k n) as [->|Hn].
  - rewrite zs_zero; [lia|]. intros; apply H; lia.
  - rewrite IH; [|lia|intros; apply H; lia]. rewrite (H n) by lia. lia.
Qed.
Lemma zs_swap n m f : zs n (fun i => zs m (fun j => f i j)) = zs m (fun j => zs n (fun i => f i j)).
Proof.
  induction n as [|n IH]; simpl.
  - symmetry. apply zs_zero. auto.
  - rewrite IH, <- zs_add. auto.
Qed.
Lemma zs_split n m f : zs (n + m) f = zs n f + zs m (fun i => f (n + i)%nat).
Proof. induction m as [|m IH]; [rewrite Nat.add_0_r; simpl; lia|]. rewrite Nat.add_succ_r. simpl. lia. Qed.
Lemma zs_abs n f B : (forall i, (i < n)%nat -> Z.abs (f i) <= B) -> Z.abs (zs n f) <= Z.of_nat n * B.
Proof.
  induction n as [|n IH]; intros H; [simpl; lia|]. cbn [zs]. pose proof (IH ltac:(auto)). pose proof (H n ltac:(lia)). lia.
Qed.

(** congruence modulo p *)
Definition cong (p a b : Z) : Prop := (p | a - b).

Lemma cong_refl p a : cong p a a.
Proof. unfold cong. rewrite Z.sub_diag. apply Z.divide_0_r. Qed.
Lemma cong_sym p a b : cong p a b -> cong p b a.
Proof. unfold cong. intros [k H]. exists (- k). lia. Qed.
Lemma cong_trans p a b c : cong p a b -> cong p b c -> cong p a c.
Proof. unfold cong. intros [k H] [l H']. exists (k + l). lia. Qed.
Lemma cong_add p a b c d : cong p a b -> cong p c d -> cong p (a + c) (b + d).
Proof. unfold cong. intros [k H] [l H']. exists (k + l). lia. Qed.
Lemma cong_mul p a b c d : cong p a b -> cong p c d -> cong p (a * c) (b * d).
Proof. unfold cong. intros [k H] [l H']. exists (k * c + b * l). nia. Qed.
Lemma cong_opp p a b : cong p a b -> cong p (- a) (- b).
Proof. unfold cong. intros [k H]. exists (- k). lia. Qed.
Lemma cong_sub p a b c d : cong p a b -> cong p c d -> cong p (a - c) (b - d).
Proof. unfold cong. intros [k H] [l H']. exists (k - l). lia. Qed.
Lemma cong_eq p a b : a = b -> cong p a b.
Proof. intros ->. apply cong_refl. Qed.
Lemma cong_zs p n f g : (forall i, (i < n)%nat -> cong p (f i) (g i)) -> cong p (zs n f) (zs n g).
Proof.
  induction n as [|n IH]; intros H; simpl; [apply cong_refl|]. apply cong_add; auto.
Qed.
Lemma cong_rem p a : p <> 0 -> cong p (Z.rem a p) a.
Proof. intros Hp. exists (- Z.quot a p). pose proof (Z.quot_rem' a p). lia. Qed.
Lemma cong_mod p a b : p <> 0 -> cong p a b <-> a mod p = b mod p.
Proof.
  intros Hp. unfold cong. split.
  - intros [k H]. replace a with (b + k * p) by lia. apply Z_mod_plus_full.
  - intros H. exists (a / p - b / p). pose proof (Z_div_mod_eq_full a p). pose proof (Z_div_mod_eq_full b p). lia.
Qed.
Lemma cong_0_small p a : 0 <= a < p -> cong p a 0 -> a = 0.
Proof. intros H [k Hk]. assert (k < 1) by nia. assert (-1 < k) by nia. assert (k = 0) by lia. subst. lia. Qed.
Lemma cong_p p : cong p p 0.
Proof. exists 1. lia. Qed.

(** *** tables *)
Lemma tabM_ok {A} r c (f : nat -> nat -> outcome A) (g : nat -> nat -> A) :
  (forall i j, (i < r)%nat -> (j < c)%nat -> f i j = Ret (g i j)) ->
  tabM r c f = Ret (map (fun i => map (g i) (seq 0 c)) (seq 0 r)).
Proof.
  intros H. unfold tabM. apply mapM_Ret. intros i Hi. apply in_seq in Hi. apply mapM_Ret.
  intros j Hj. apply in_seq in Hj. apply H; lia.
Qed.

Definition tab {A} (r c : nat) (g : nat -> nat -> A) : list (list A) := map (fun i => map (g i) (seq 0 c)) (seq 0 r).

Lemma nth_error_map_seq {A} (f : nat -> A) n i : (i < n)%nat -> nth_error (map f (seq 0 n)) i = Some (f i).
Proof.
  intros Hi. rewrite nth_error_map, (nth_error_nth' _ O) by (rewrite seq_length; auto).
  rewrite seq_nth by auto. reflexivity.
Qed.

Lemma tab_row {A} r c (g : nat -> nat -> A) i : (i < r)%nat -> nth_error (tab r c g) i = Some (map (g i) (seq 0 c)).
Proof. intros Hi. unfold tab. apply (nth_error_map_seq (fun i => map (g i) (seq 0 c))); auto. Qed.

Lemma ix_tab r c g i j : (i < r)%nat -> (j < c)%nat -> ix (tab r c g) i j = Ret (g i j).
Proof.
  intros Hi Hj. unfold ix. rewrite tab_row by auto. cbn [bind unwrap]. rewrite nth_error_map_seq by auto. reflexivity.
Qed.

Lemma tab_length {A} r c (g : nat -> nat -> A) : length (tab r c g) = r.
Proof. unfold tab. rewrite map_length, seq_length. auto. Qed.

Lemma tab_ext {A} r c (g h : nat -> nat -> A) :
  (forall i j, (i < r)%nat -> (j < c)%nat -> g i j = h i j) -> tab r c g = tab r c h.
Proof.
  intros H. unfold tab. apply map_ext_in. intros i Hi. apply in_seq in Hi. apply map_ext_in.
  intros j Hj. apply in_seq in Hj. apply H; lia.
Qed.

Lemma tab_forallb {A} (q : A -> bool) r c (g : nat -> nat -> A) :
  forallb (forallb q) (tab r c g) = true <-> forall i j, (i < r)%nat -> (j < c)%nat -> q (g i j) = true.
Proof.
  unfold tab. rewrite forallb_forall. split.
  - intros H i j Hi Hj. specialize (H (map (g i) (seq 0 c))). rewrite forallb_forall in H. apply H.
    + apply in_map_iff. exists i. split; auto. apply in_seq. lia.
    + apply in_map. apply in_seq. lia.
  - intros H row Hr. apply in_map_iff in Hr as (i & <- & Hi). apply in_seq in Hi. apply forallb_forall.
    intros x Hx. apply in_map_iff in Hx as (j & <- & Hj). apply in_seq in Hj. apply H; lia.
Qed.

Lemma nth_error_ext {A} (l l' : list A) : (forall i, nth_error l i = nth_error l' i) -> l = l'.
Proof.
  revert l'. induction l as [|x l IH]; intros [|y l'] H; auto.
  - specialize (H O). discriminate.
  - specialize (H O). discriminate.
  - f_equal; [specialize (H O); simpl in H; congruence|]. apply IH. intros i. apply (H (S i)).
Qed.

Definition rect {A} (r c : nat) (m : list (list A)) : Prop := length m = r /\ Forall (fun row => length row = c) m.

Lemma rect_tab {A} r c (g : nat -> nat -> A) : rect r c (tab r c g).
Proof.
  split; [apply tab_length|]. apply Forall_forall. intros row H. apply in_map_iff in H as (i & <- & _).
  rewrite map_length, seq_length. auto.
Qed.

Lemma map_nth_seq {A} (l : list A) d : map (fun i => nth i l d) (seq 0 (length l)) = l.
Proof.
  apply nth_ext with (d := d) (d' := d); rewrite map_length, seq_length; auto. intros i Hi.
  rewrite (nth_indep _ d (nth 0 l d)) by (rewrite map_length, seq_length; auto).
  rewrite (map_nth (fun i => nth i l d) (seq 0 (length l)) O i), seq_nth by auto. reflexivity.
Qed.

Lemma rect_eq_tab {A} r c (m : list (list A)) d : rect r c m -> m = tab r c (fun i j => nth j (nth i m []) d).
Proof.
  intros [H1 H2]. unfold tab. transitivity (map (fun i => nth i m []) (seq 0 r)).
  - rewrite <- H1. symmetry. apply map_nth_seq.
  - apply map_ext_in. intros i Hi. apply in_seq in Hi.
    assert (L : length (nth i m []) = c).
    { rewrite Forall_forall in H2. apply H2. apply nth_In. lia. }
    rewrite <- L. symmetry. apply map_nth_seq.
Qed.

Lemma rect_forallb {A} r c (m : list (list A)) : rect r c m -> forallb (fun row => Nat.eqb (length row) c) m = true.
Proof.
  intros [_ H]. apply forallb_forall. intros x Hx. rewrite Forall_forall in H. apply Nat.eqb_eq. auto.
Qed.

(** *** correctness.  [ok z] means that [chk] accepts [z] *)
Section Proofs.
  Variable chk : Z -> outcome Z.
  Variable ok : Z -> Prop.
  Hypothesis ok_chk : forall z, ok z -> chk z = Ret z.
  Hypothesis ok_le : forall y z, Z.abs y <= Z.abs z -> ok z -> ok y.

  (** state of modular_inverse: r = t * a (mod m), the t's alternate in sign *)
  Definition minv_inv (a m : Z) (st : Z * Z * Z * Z) : Prop :=
    let '(t, t1, r, r1) := st in
    0 <= r /\ 0 <= r1 /\ (r <= Z.max a m /\ r1 <= Z.max a m) /\ cong m r (t * a) /\ cong m r1 (t1 * a) /\
    Z.gcd r r1 = Z.gcd m a /\
    t * t1 <= 0 /\ Z.abs t1 * r + Z.abs t * r1 = m /\ (r1 < r \/ st = (0, 1, m, a)) /\
    (r1 = 0 -> r = 1 -> Z.abs t < m).

  Lemma minv_next a m t t1 r r1 : 1 < m -> 0 <= a -> r1 <> 0 -> minv_inv a m (t, t1, r, r1) ->
    let q := Z.quot r r1 in
    minv_inv a m (t1, t - q * t1, r1, r - q * r1) /\ 0 <= r - q * r1 < r1 /\
    0 <= q <= Z.max a m /\ Z.abs (q * t1) <= Z.max a m /\ Z.abs (t - q * t1) <= Z.max a m /\ 0 <= q * r1 <= Z.max a m.
  Proof.
    intros Hm Ha Hr1 (R0 & R1 & (B0 & B1) & C0 & C1 & G & S & E & F & K) q.
    assert (Hq : r = r1 * q + (r - q * r1) /\ 0 <= r - q * r1 < r1).
    { unfold q. pose proof (Z.quot_rem' r r1). pose proof (Z.rem_bound_pos r r1). lia. }
    destruct Hq as [Hq Hr]. assert (q0 : 0 <= q) by (unfold q; apply Z.quot_pos; lia).
    set (r' := r - q * r1) in *. clearbody q.
    assert (A : Z.abs (t - q * t1) = Z.abs t + q * Z.abs t1).
    { destruct (Z.abs_spec t) as [[? ->]|[? ->]], (Z.abs_spec t1) as [[? ->]|[? ->]],
        (Z.abs_spec (t - q * t1)) as [[? ->]|[? ->]]; nia. }
    assert (Eq : Z.abs (t - q * t1) * r1 + Z.abs t1 * r' = m).
    { rewrite A. unfold r'. rewrite <- E. ring. }
    assert (Bt : Z.abs (t - q * t1) <= m) by nia.
    assert (Bq : q * r1 <= r) by (unfold r' in Hr; lia).
    splits; try lia; try nia.
    unfold minv_inv. splits; auto; try lia.
    - unfold r'. replace ((t - q * t1) * a) with (t * a - q * (t1 * a)) by ring.
      apply cong_sub; auto. apply cong_mul; auto. apply cong_refl.
    - unfold r'. rewrite <- G. replace (r - q * r1) with (r + (- q) * r1) by ring.
      rewrite Z.gcd_add_mult_diag_r. apply Z.gcd_comm.
    - intros H0 H1. assert (1 < r); [|nia]. destruct F as [F|F]; [lia|]. injection F; intros; lia.
  Qed.

  Lemma minv_ok a m : 1 < m -> 0 <= a -> ok (Z.max a m) ->
    exists o, modular_inverse chk a m = Ret o /\
      match o with
      | Some t => 0 <= t < m /\ cong m (a * t) 1 /\ Z.gcd a m = 1
      | None => Z.gcd a m <> 1
      end.
  Proof.
    intros Hm Ha Hok. unfold modular_inverse.
    destruct (loop_rule (minv_step chk) (minv_inv a m) (fun st => let '(_, _, _, r1) := st in r1)
      (fun res => let '(t, r) := res in cong m r (t * a) /\ r = Z.gcd a m /\ (r = 1 -> Z.abs t < m))
      (Z.to_nat (Z.log2 (Z.abs a)) + 1) (0, 1, m, a)) as ([t r] & E & P).
    - intros [[[t t1] r] r1] I. unfold minv_step. destruct (Z.eqb_spec r1 0) as [->|H].
      + destruct I as (R0 & R1 & (B0 & B1) & C0 & C1 & G & S & E & F & K). splits; auto.
        rewrite Z.gcd_0_r in G. rewrite Z.gcd_comm. lia.
      + pose proof (minv_next a m t t1 r r1 Hm Ha H I) as N. cbv zeta in N. destruct N as (N1 & N2 & N3 & N4 & N5 & N6).
        assert (Mx : Z.abs (Z.max a m) = Z.max a m) by lia.
        assert (N7 : Z.abs (r - Z.quot r r1 * r1) <= Z.max a m).
        { destruct N1 as (_ & _ & B & _). lia. }
        do 5 (rewrite ok_chk by (eapply ok_le; [|exact Hok]; lia); cbn [bind]).
        split; auto.
    - unfold minv_inv. splits; try lia; auto.
      + exists 1. lia.
      + apply cong_eq. lia.
    - destruct (Z.eq_dec a 0) as [->|Hb].
      + simpl. lia.
      + rewrite Nat2Z.inj_add, Z2Nat.id by apply Z.log2_nonneg. simpl Z.of_nat.
        pose proof (Z.log2_spec (Z.abs a)). lia.
    - rewrite E. cbn [bind]. destruct P as (P1 & P2 & P3). destruct (Z.eqb_spec r 1) as [Hr|Hr].
      + specialize (P3 Hr). rewrite Hr in P1. destruct (Z.ltb_spec t 0).
        * rewrite ok_chk by (eapply ok_le; [|exact Hok]; lia). cbn [bind]. eexists. split; [reflexivity|]. cbv beta iota. splits; try lia.
          apply cong_sym. eapply cong_trans; [exact P1|]. exists (- a). lia.
        * eexists. split; [reflexivity|]. cbv beta iota. splits; try lia. apply cong_sym. rewrite Z.mul_comm. auto.
      + eexists. split; [reflexivity|]. cbv beta iota. lia.
  Qed.

  Section Echelon.
    Variables (p : Z) (nr nc : nat).
    Hypothesis prime_p : prime p.
    Hypothesis okp : ok (p * p).

    Lemma p_gt : 1 < p.
    Proof. destruct prime_p. lia. Qed.

    Lemma okpp z : Z.abs z <= p * p -> chk z = Ret z.
    Proof. intros H. apply ok_chk. eapply ok_le; [|exact okp]. pose proof p_gt. nia. Qed.

    Definition inrange (g : nat -> nat -> Z) : Prop := forall i j, (i < nr)%nat -> (j < nc)%nat -> 0 <= g i j < p.
    Definition null (g : nat -> nat -> Z) (w : nat -> Z) : Prop :=
      forall i, (i < nr)%nat -> cong p (zs nc (fun j => g i j * w j)) 0.

    Lemma inverse_small x : 0 < x < p -> exists f, modular_inverse chk x p = Ret (Some f) /\ 0 <= f < p /\ cong p (x * f) 1.
    Proof.
      intros Hx. pose proof p_gt. destruct (minv_ok x p) as (o & E & P); try lia.
      - eapply ok_le; [|exact okp]. nia.
      - destruct o as [f|]; [exists f; tauto|]. exfalso. apply P. 
        apply Zgcd_1_rel_prime. apply rel_prime_le_prime; auto; lia.
    Qed.

    Definition find_pivot (a : zmat) (k : nat) := foldM (fun o r =>
        match o with
        | Some _ => Ret o
        | None => do x <- ix a r k; Ret (if Z.eqb x 0 then None else Some r)
        end).

    Lemma find_pivot_some a k r l : find_pivot a k (Some r) l = Ret (Some r).
    Proof. induction l as [|x l IH]; cbn [find_pivot foldM]; auto. Qed.

    Lemma find_pivot_ok g k s len : (k < nc)%nat -> (s + len <= nr)%nat ->
      exists o, find_pivot (tab nr nc g) k None (seq s len) = Ret o /\
        match o with
        | Some r => (s <= r < s + len)%nat /\ g r k <> 0
        | None => forall i, (s <= i < s + len)%nat -> g i k = 0
        end.
    Proof.
      intros Hk. revert s. induction len as [|len IH]; intros s Hs.
      - exists None. split; [reflexivity|]. lia.
      - cbn [seq]. unfold find_pivot. cbn [foldM]. rewrite ix_tab by lia. cbn [bind].
        destruct (Z.eqb_spec (g s k) 0) as [E|E].
        + destruct (IH (S s)) as (o & Eo & P); [lia|]. exists o. split; [exact Eo|]. destruct o as [r|].
          * split; [lia|tauto].
          * intros i Hi. destruct (Nat.eq_dec i s) as [->|]; auto. apply P. lia.
        + exists (Some s). split; [apply find_pivot_some|]. split; [lia|auto].
    Qed.

    Definition swp (k r i : nat) : nat := if Nat.eqb i r then k else if Nat.eqb i k then r else i.

    Lemma swap_tab g k r : (k < nr)%nat -> (r < nr)%nat ->
      swap_rows (tab nr nc g) k r = Ret (tab nr nc (fun i => g (swp k r i))).
    Proof.
      intros Hk Hr. unfold swap_rows. rewrite !tab_row by auto. cbn [bind unwrap]. f_equal.
      apply nth_error_ext. intros i. destruct (Nat.lt_ge_cases i nr) as [Hi|Hi].
      - rewrite nth_error_set_nth by (rewrite set_nth_length, tab_length; auto).
        rewrite nth_error_set_nth by (rewrite tab_length; auto). rewrite !tab_row by auto. unfold swp.
        rewrite (Nat.eqb_sym i r), (Nat.eqb_sym i k). destruct (Nat.eqb r i); auto. destruct (Nat.eqb k i); auto.
      - transitivity (@None (list Z)); [|symmetry]; apply nth_error_None; rewrite ?set_nth_length, tab_length; auto.
    Qed.

    Definition scaled (k : nat) (f : Z) (g : nat -> nat -> Z) (i j : nat) : Z :=
      if (Nat.eqb i k && Nat.leb k j)%bool then Z.rem (g i j * f) p else g i j.
    Definition elimd (k : nat) (g : nat -> nat -> Z) (i j : nat) : Z :=
      if (negb (Nat.eqb i k) && negb (Z.eqb (g i k) 0) && Nat.leb k j)%bool then
        if Z.eqb (g k j) 0 then g i j else Z.rem (p - Z.rem (g k j * g i k) p + g i j) p
      else g i j.

    Lemma scale_tab g k f : inrange g -> 0 <= f < p ->
      scale_row chk p nr nc k k f (tab nr nc g) = Ret (tab nr nc (scaled k f g)).
    Proof.
      intros R Hf. unfold scale_row. apply tabM_ok. intros i j Hi Hj. rewrite ix_tab by auto. cbn [bind]. unfold scaled.
      destruct (Nat.eqb i k && Nat.leb k j)%bool; auto. pose proof (R i j Hi Hj). pose proof p_gt.
      rewrite okpp by nia. cbn [bind]. apply okpp. pose proof (Z.rem_bound_pos (g i j * f) p). nia.
    Qed.

    Lemma elim_tab g k : inrange g -> (k < nr)%nat -> (k < nc)%nat ->
      eliminate chk p nr nc k k (tab nr nc g) = Ret (tab nr nc (elimd k g)).
    Proof.
      intros R Hk Hkc. unfold eliminate. apply tabM_ok. intros i j Hi Hj. rewrite !ix_tab by auto. cbn [bind]. unfold elimd.
      destruct (negb (Nat.eqb i k) && negb (Z.eqb (g i k) 0) && Nat.leb k j)%bool; auto. 
      destruct (Z.eqb (g k j) 0); auto. pose proof (R i j Hi Hj). pose proof (R k j Hk Hj). pose proof (R i k Hi Hkc). pose proof p_gt.
      rewrite okpp by nia. cbn [bind]. pose proof (Z.rem_bound_pos (g k j * g i k) p). 
      rewrite okpp by nia. cbn [bind]. rewrite okpp by nia. cbn [bind]. apply okpp.
      pose proof (Z.rem_bound_pos (p - Z.rem (g k j * g i k) p + g i j) p). nia.
    Qed.

    Lemma scaled_range k f g : inrange g -> 0 <= f < p -> inrange (scaled k f g).
    Proof.
      intros R Hf i j Hi Hj. unfold scaled. destruct (Nat.eqb i k && Nat.leb k j)%bool; auto.
      apply Z.rem_bound_pos. pose proof (R i j Hi Hj). nia. pose proof p_gt. lia.
    Qed.

    Lemma elimd_range k g : inrange g -> (k < nr)%nat -> (k < nc)%nat -> inrange (elimd k g).
    Proof.
      intros R Hk Hkc i j Hi Hj. unfold elimd. destruct (negb (Nat.eqb i k) && negb (Z.eqb (g i k) 0) && Nat.leb k j)%bool; auto.
      destruct (Z.eqb (g k j) 0); auto. pose proof p_gt. apply Z.rem_bound_pos; [|lia].
      pose proof (R i j Hi Hj). pose proof (R k j Hk Hj). pose proof (R i k Hi Hkc).
      pose proof (Z.rem_bound_pos (g k j * g i k) p). nia.
    Qed.

    Lemma swp_lt k r i : (k < nr)%nat -> (r < nr)%nat -> (i < nr)%nat -> (swp k r i < nr)%nat.
    Proof. intros. unfold swp. destruct (Nat.eqb i r), (Nat.eqb i k); auto. Qed.
    Lemma swp_swp k r i : swp k r (swp k r i) = i.
    Proof.
      unfold swp. destruct (Nat.eqb_spec i r), (Nat.eqb_spec i k); repeat (match goal with |- context[Nat.eqb ?a ?b] => destruct (Nat.eqb_spec a b) end); congruence.
    Qed.

    Lemma null_swap g k r w : (k < nr)%nat -> (r < nr)%nat -> null g w <-> null (fun i => g (swp k r i)) w.
    Proof.
      intros Hk Hr. unfold null. split; intros H i Hi.
      - apply H. apply swp_lt; auto.
      - specialize (H (swp k r i) (swp_lt k r i Hk Hr Hi)). rewrite swp_swp in H. auto.
    Qed.

    Lemma null_scale g k f x w : (k < nr)%nat -> cong p (x * f) 1 -> (forall j, (j < k)%nat -> (j < nc)%nat -> g k j = 0) ->
      null g w <-> null (scaled k f g) w.
    Proof.
      intros Hk Hf Z0. pose proof p_gt.
      assert (E : cong p (zs nc (fun j => scaled k f g k j * w j)) (f * zs nc (fun j => g k j * w j))).
      { rewrite <- zs_scale. apply cong_zs. intros j Hj. unfold scaled. rewrite Nat.eqb_refl. cbn [andb].
        destruct (Nat.leb_spec k j).
        - eapply cong_trans; [apply cong_mul; [apply cong_rem; lia|apply cong_refl]|]. apply cong_eq. ring.
        - rewrite Z0 by auto. apply cong_eq. ring. }
      assert (F : forall i, (i < nr)%nat -> i <> k -> zs nc (fun j => scaled k f g i j * w j) = zs nc (fun j => g i j * w j)).
      { intros i Hi Hn. apply zs_ext. intros j Hj. unfold scaled. destruct (Nat.eqb_spec i k); [congruence|]. reflexivity. }
      unfold null. split; intros N i Hi; destruct (Nat.eq_dec i k) as [->|Hn].
      - eapply cong_trans; [exact E|]. replace 0 with (f * 0) by ring. apply cong_mul; [apply cong_refl|auto].
      - rewrite F; auto.
      - specialize (N k Hk). assert (N2 : cong p (f * zs nc (fun j => g k j * w j)) 0) by (eapply cong_trans; [apply cong_sym; exact E|auto]).
        assert (N3 : cong p (x * (f * zs nc (fun j => g k j * w j))) 0).
        { replace 0 with (x * 0) by ring. apply cong_mul; [apply cong_refl|auto]. }
        eapply cong_trans; [|exact N3]. apply cong_sym. rewrite Z.mul_assoc.
        eapply cong_trans; [apply cong_mul; [exact Hf|apply cong_refl]|]. apply cong_eq. ring.
      - rewrite <- F; auto.
    Qed.

    Lemma elimd_cong g k i j : (forall j, (j < k)%nat -> (j < nc)%nat -> g k j = 0) -> (j < nc)%nat -> i <> k ->
      cong p (elimd k g i j) (g i j - g i k * g k j).
    Proof.
      intros Z0 Hj Hi. pose proof p_gt. unfold elimd. destruct (Nat.eqb_spec i k); [congruence|]. cbn [negb andb].
      destruct (Z.eqb_spec (g i k) 0) as [E|E]; cbn [negb andb].
      - rewrite E. apply cong_eq. ring.
      - destruct (Nat.leb_spec k j).
        + destruct (Z.eqb_spec (g k j) 0) as [E2|E2].
          * rewrite E2. apply cong_eq. ring.
          * eapply cong_trans; [apply cong_rem; lia|].
            replace (g i j - g i k * g k j) with (0 - g k j * g i k + g i j) by ring.
            apply cong_add; [|apply cong_refl]. apply cong_sub; [apply cong_p|apply cong_rem; lia].
        + rewrite Z0 by auto. apply cong_eq. ring.
    Qed.

    Lemma null_elim g k w : (k < nr)%nat -> (forall j, (j < k)%nat -> (j < nc)%nat -> g k j = 0) ->
      null g w <-> null (elimd k g) w.
    Proof.
      intros Hk Z0.
      assert (E : forall j, elimd k g k j = g k j) by (intros j; unfold elimd; rewrite Nat.eqb_refl; reflexivity).
      assert (F : forall i, (i < nr)%nat -> i <> k ->
        cong p (zs nc (fun j => elimd k g i j * w j)) (zs nc (fun j => g i j * w j) - g i k * zs nc (fun j => g k j * w j))).
      { intros i Hi Hn. eapply cong_trans; [apply cong_zs; intros j Hj; apply cong_mul; [apply elimd_cong; auto|apply cong_refl]|].
        rewrite <- zs_scale. replace (zs nc (fun j => g i j * w j)) with
          (zs nc (fun j => (g i j - g i k * g k j) * w j) + zs nc (fun j => g i k * (g k j * w j))).
        - apply cong_eq. ring.
        - rewrite <- zs_add. apply zs_ext. intros; ring. }
      unfold null. split; intros N i Hi; destruct (Nat.eq_dec i k) as [->|Hn].
      - rewrite (zs_ext nc _ (fun j => g k j * w j)) by (intros; rewrite E; auto). auto.
      - eapply cong_trans; [apply F; auto|]. replace 0 with (0 - g i k * 0) by ring. apply cong_sub; auto. apply cong_mul; [apply cong_refl|auto].
      - rewrite (zs_ext nc _ (fun j => elimd k g k j * w j)) by (intros; rewrite E; auto). auto.
      - assert (K : cong p (zs nc (fun j => g k j * w j)) 0).
        { rewrite (zs_ext nc _ (fun j => elimd k g k j * w j)) by (intros; rewrite E; auto). auto. }
        assert (K2 : cong p (zs nc (fun j => g i j * w j)) (g i k * zs nc (fun j => g k j * w j))).
        { pose proof (cong_sym _ _ _ (F i Hi Hn)) as A. assert (B : cong p (zs nc (fun j => g i j * w j) - g i k * zs nc (fun j => g k j * w j)) 0).
          { eapply cong_trans; [exact A|]. apply N; auto. }
          destruct B as [z B]. exists z. lia. }
        eapply cong_trans; [exact K2|]. replace 0 with (g i k * 0) by ring. apply cong_mul; [apply cong_refl|auto].
    Qed.

    Definition below (k : nat) (g : nat -> nat -> Z) : Prop :=
      forall i j, (k <= i < nr)%nat -> (j < k)%nat -> (j < nc)%nat -> g i j = 0.

    Lemma step_ok g k : (k < nc)%nat -> inrange g -> below k g ->
      exists g', mref_step chk p nr nc (tab nr nc g, k) k = Ret (tab nr nc g', S k) /\ inrange g' /\ below (S k) g' /\
        (forall w, null g w <-> null g' w) /\
        (((forall i, (k <= i < nr)%nat -> g i k = 0) /\ g' = g) \/
         ((k < nr)%nat /\ (forall i, (i < nr)%nat -> g' i k = if Nat.eqb i k then 1 else 0) /\
          (forall i j, (i < nr)%nat -> (j < k)%nat -> (j < nc)%nat -> g' i j = g i j))).
    Proof.
      intros Hk R B. pose proof p_gt as Hp. unfold mref_step.
      assert (FP : exists o, find_pivot (tab nr nc g) k None (seq k (nr - k)) = Ret o /\
        match o with Some r => (k <= r < nr)%nat /\ g r k <> 0 | None => forall i, (k <= i < nr)%nat -> g i k = 0 end).
      { destruct (Nat.le_gt_cases k nr) as [H|H].
        - destruct (find_pivot_ok g k k (nr - k) Hk ltac:(lia)) as (o & E & P). exists o. split; auto.
          destruct o as [r|]; [split; [lia|tauto]|]. intros i Hi. apply P. lia.
        - replace (nr - k)%nat with O by lia. exists None. split; [reflexivity|]. lia. }
      destruct FP as (o & Eo & P). unfold find_pivot in Eo. rewrite Eo. cbn [bind]. destruct o as [r|].
      2:{ exists g. cbn [bind]. splits; auto.
          - intros i j Hi Hj Hc. destruct (Nat.eq_dec j k) as [->|]; [apply P; lia|apply B; lia].
          - tauto. }
      destruct P as [Hr Hgr]. assert (Hkr : (k < nr)%nat) by lia.
      set (h1 := fun i => g (swp k r i)).
      assert (S1 : (if Nat.eqb r k then Ret (tab nr nc g) else swap_rows (tab nr nc g) k r) = Ret (tab nr nc h1)).
      { destruct (Nat.eqb_spec r k) as [->|].
        - f_equal. apply tab_ext. intros i j _ _. unfold h1, swp. destruct (Nat.eqb_spec i k); subst; auto.
        - apply swap_tab; lia. }
      rewrite S1. cbn [bind]. rewrite ix_tab by auto. cbn [bind].
      assert (H1k : h1 k = g r). { unfold h1, swp. destruct (Nat.eqb_spec k r); subst; auto. rewrite Nat.eqb_refl. auto. }
      assert (R1 : inrange h1). { intros i j Hi Hj. apply R; auto. apply swp_lt; lia. }
      pose proof (R r k ltac:(lia) Hk) as Rr. rewrite H1k.
      destruct (inverse_small (g r k)) as (f & Ef & Hf & Cf); [lia|]. rewrite Ef. cbn [bind unwrap].
      rewrite scale_tab by auto. cbn [bind]. set (h2 := scaled k f h1).
      assert (R2 : inrange h2) by (apply scaled_range; auto).
      rewrite elim_tab by auto. cbn [bind]. set (h3 := elimd k h2).
      assert (Z1 : forall j, (j < k)%nat -> (j < nc)%nat -> h1 k j = 0) by (intros; rewrite H1k; apply B; auto).
      assert (L2 : forall i j, (j < k)%nat -> h2 i j = h1 i j).
      { intros i j Hj. unfold h2, scaled. destruct (Nat.leb_spec k j); [lia|]. rewrite andb_false_r. auto. }
      assert (Z2 : forall j, (j < k)%nat -> (j < nc)%nat -> h2 k j = 0) by (intros; rewrite L2; auto).
      assert (L3 : forall i j, (j < k)%nat -> h3 i j = h2 i j).
      { intros i j Hj. unfold h3, elimd. destruct (Nat.leb_spec k j); [lia|]. rewrite andb_false_r. auto. }
      assert (Lg : forall i j, (i < nr)%nat -> (j < k)%nat -> (j < nc)%nat -> h3 i j = g i j).
      { intros i j Hi Hj Hjc. rewrite L3, L2 by auto. unfold h1, swp. destruct (Nat.eqb_spec i r) as [->|].
        - rewrite !B by (auto; lia). auto.
        - destruct (Nat.eqb_spec i k) as [->|]; auto. rewrite !B by (auto; lia). auto. }
      assert (P2 : h2 k k = 1).
      { unfold h2, scaled. rewrite Nat.eqb_refl, Nat.leb_refl. cbn [andb]. rewrite H1k.
        rewrite Z.rem_mod_nonneg by nia. apply cong_mod in Cf; [|lia]. rewrite Cf. apply Z.mod_small. lia. }
      assert (R3 : inrange h3) by (apply elimd_range; auto).
      assert (P3 : forall i, (i < nr)%nat -> h3 i k = if Nat.eqb i k then 1 else 0).
      { intros i Hi. destruct (Nat.eqb_spec i k) as [->|Hn].
        - unfold h3, elimd. rewrite Nat.eqb_refl. cbn [negb andb]. auto.
        - apply (cong_0_small p); [apply R3; auto|]. eapply cong_trans; [apply elimd_cong; auto|]. rewrite P2. apply cong_eq. ring. }
      exists h3. splits; auto.
      - intros i j Hi Hj Hc. destruct (Nat.eq_dec j k) as [->|].
        + rewrite P3 by lia. destruct (Nat.eqb_spec i k); auto; lia.
        + rewrite Lg by lia. apply B; lia.
      - intros w. rewrite (null_swap g k r w) by lia. fold h1. rewrite (null_scale h1 k f (g r k) w) by auto. fold h2.
        apply null_elim; auto.
    Qed.

    (** all columns *)
    Lemma mref_cols g : inrange g ->
      exists g', foldM (mref_step chk p nr nc) (tab nr nc g, O) (seq 0 nc) = Ret (tab nr nc g', nc) /\ inrange g' /\
        (forall w, null g w <-> null g' w) /\
        ((forall i j, (i < nr)%nat -> (j < nc)%nat -> (j < nr)%nat -> g' i j = if Nat.eqb i j then 1 else 0) \/
         (exists k x, (k < nc)%nat /\ (k < nr)%nat /\ x k = 1 /\ (forall j, (k < j)%nat -> x j = 0) /\ null g x)).
    Proof.
      intros R.
      assert (H : forall k, (k <= nc)%nat -> exists g', foldM (mref_step chk p nr nc) (tab nr nc g, O) (seq 0 k) = Ret (tab nr nc g', k) /\
        inrange g' /\ below k g' /\ (forall w, null g w <-> null g' w) /\
        ((forall i j, (i < nr)%nat -> (j < k)%nat -> (j < nr)%nat -> g' i j = if Nat.eqb i j then 1 else 0) \/
         (exists k x, (k < nc)%nat /\ (k < nr)%nat /\ x k = 1 /\ (forall j, (k < j)%nat -> x j = 0) /\ null g x))).
      { induction k as [|k IH]; intros Hk.
        - exists g. splits; auto; try tauto.
          + intros i j _ Hj; lia.
          + left. intros; lia.
        - destruct IH as (g1 & E1 & R1 & B1 & N1 & D1); [lia|].
          destruct (step_ok g1 k ltac:(lia) R1 B1) as (g2 & E2 & R2 & B2 & N2 & D2).
          exists g2. rewrite seq_S, foldM_app, E1. cbn [bind foldM plus]. rewrite E2. cbn [bind]. splits; auto.
          + intros w. rewrite N1. apply N2.
          + destruct D1 as [D1|D1]; [|right; auto]. destruct D2 as [[D2 ->]|(Hkr & D2 & D3)].
            * destruct (Nat.lt_ge_cases k nr) as [Hkr|Hkr].
              -- right. exists k, (fun j => if Nat.eqb j k then 1 else if Nat.ltb j k then - g1 j k else 0).
                 splits; auto; try lia.
                 ++ rewrite Nat.eqb_refl. auto.
                 ++ intros j Hj. destruct (Nat.eqb_spec j k); [lia|]. destruct (Nat.ltb_spec j k); [lia|auto].
                 ++ apply N1. intros i Hi. apply cong_eq.
                    rewrite (zs_ext nc _ (fun j => (if Nat.eqb j k then g1 i j else 0) + (if (Nat.ltb j k && Nat.eqb j i)%bool then - g1 i k else 0))).
                    ** rewrite zs_add. rewrite (zs_single nc _ k) by (try lia; intros j _ Hj; destruct (Nat.eqb_spec j k); congruence).
                       rewrite Nat.eqb_refl. destruct (Nat.lt_ge_cases i k) as [Hik|Hik].
                       --- rewrite (zs_single nc _ i); [|lia|intros j _ Hj; destruct (Nat.eqb_spec j i); [congruence|rewrite andb_false_r; auto]].
                           rewrite Nat.eqb_refl. destruct (Nat.ltb_spec i k); [|lia]. cbn [andb]. lia.
                       --- rewrite zs_zero.
                           +++ rewrite (D2 i) by lia. lia.
                           +++ intros j _. destruct (Nat.ltb_spec j k); auto. destruct (Nat.eqb_spec j i); [lia|]. auto.
                    ** intros j Hj. destruct (Nat.eqb_spec j k) as [->|Hn].
                       --- rewrite Nat.ltb_irrefl. cbn [andb]. lia.
                       --- destruct (Nat.ltb_spec j k) as [Hjk|Hjk]; cbn [andb]; [|lia].
                           rewrite (D1 i j) by lia. rewrite (Nat.eqb_sym i j). destruct (Nat.eqb_spec j i) as [->|]; lia.
              -- left. intros i j Hi Hj Hjr. apply D1; auto; lia.
            * left. intros i j Hi Hj Hjr. destruct (Nat.eq_dec j k) as [->|]; [apply D2; auto|].
              rewrite D3 by lia. apply D1; auto; lia. }
      destruct (H nc (le_n nc)) as (g' & E & R' & _ & N & D). exists g'. auto.
    Qed.

    (** an entry for which the reduction works: not a negative multiple of p *)
    Definition reducible (x : Z) : Prop := ~ (x < 0 /\ (p | x)).

    Lemma mod_entry_ok x : reducible x -> mod_entry chk p x = Ret (x mod p).
    Proof.
      intros Hx. pose proof p_gt. unfold mod_entry.
      assert (E : Z.rem x p + (if Z.ltb x 0 then p else 0) = x mod p).
      { destruct (Z.ltb_spec x 0) as [Hn|Hn].
        - assert (x mod p <> 0). { intros C. apply Hx. split; auto. apply Z.mod_divide; auto; lia. }
          pose proof (Z.quot_rem' x p). pose proof (Z_div_mod_eq_full x p). pose proof (Z.mod_pos_bound x p ltac:(lia)).
          pose proof (Z.rem_bound_neg_pos x p). pose proof (Z.rem_bound_abs x p ltac:(lia)).
          assert (Z.rem x p <= 0) by (apply Z.rem_nonpos; lia).
          assert (- p < Z.rem x p) by lia.
          assert (exists q, Z.rem x p + p = x mod p + q * p) as [q Hq] by (exists (1 + x / p - Z.quot x p); lia).
          assert (q = 0) by nia. lia.
        - rewrite Z.rem_mod_nonneg by lia. lia. }
      rewrite E. apply okpp. pose proof (Z.mod_pos_bound x p). nia.
    Qed.
  End Echelon.
End Proofs.
