(** Model of the rest of the operators of src/arithmetic/matrices.rs and
    src/arithmetic/geometry.rs: assignment to an entry, addition of a number to
    every entry, division by a number, and the loops that fill a matrix by
    assignments. *)
From Coq Require Import List ZArith QArith Qcanon Lia Bool PeanoNat.
From Verif Require Import Base Vec Elim Matrix MatrixMore Scalars LinAlg Geometry.
Import ListNotations.
Close Scope Q_scope. Close Scope Qc_scope.
Open Scope nat_scope.

Section Model.
  Context {R : Type} {RD : Dom R}.

  (** assignment to one place of a Vec; panics past the end *)
  Fixpoint list_set (l : list R) (k : nat) (x : R) : outcome (list R) :=
    match l, k with
    | [], _ => Panic
    | _ :: l', 0 => Ret (x :: l')
    | y :: l', S k' => do r <- list_set l' k' x; Ret (y :: r)
    end.

  (** matrices.rs 42-49: IndexMut, used in an assignment [m[(i, j)] = x] *)
  Definition mat_set (m : mat R) (i j : nat) (x : R) : outcome (mat R) :=
    do _ <- assert (Nat.ltb (i * ncols m) (length (data m)));
    do _ <- assert (Nat.ltb j (ncols m));
    do d <- list_set (data m) (i * ncols m + j) x;
    Ret (Mat (nrows m) (ncols m) d).

  (** geometry.rs 54-58 and 318-322: IndexMut of vectors and points *)
  Definition vec_set (v : mat R) (i : nat) (x : R) : outcome (mat R) := mat_set v i 0 x.
  (** geometry.rs 46-52 and 310-316: Index of vectors and points *)
  Definition vec_at (v : mat R) (i : nat) : outcome R := index v i 0.

  (** matrices.rs 184-189: unit_vector, as it is written *)
  Definition unit_vector_loop (n k : nat) : outcome (mat R) :=
    do _ <- assert (Nat.ltb k n);
    do row <- mat_zero 1 n;
    mat_set row 0 k r1.
  (** matrices.rs 191-197: identity, as it is written *)
  Definition identity_loop (n : nat) : outcome (mat R) :=
    do id <- mat_zero n n;
    foldM (fun id i => mat_set id i i r1) id (seq 0 n).
  (** geometry.rs 87-94: Vector::unit, as it is written *)
  Definition vec_unit_loop (n k : nat) : outcome (mat R) :=
    do _ <- assert (Nat.ltb k n);
    do v <- vec_zero n;
    vec_set v k r1.
  (** matrices.rs 530-550: the product, as it is written *)
  Definition mat_mul_loop (a b : mat R) : outcome (mat R) :=
    do _ <- assert (Nat.eqb (ncols a) (nrows b));
    do z <- mat_zero (nrows a) (ncols b);
    foldM (fun m i =>
      foldM (fun m j => do s <- mul_entry a b i j; mat_set m i j s) m (seq 0 (ncols b)))
      z (seq 0 (nrows a)).

  (** matrices.rs 348-366: [m += x] adds the number x to every entry *)
  Definition mat_add_num (m : mat R) (x : R) : outcome (mat R) :=
    Ret (Mat (nrows m) (ncols m) (map (fun y => radd y x) (data m))).
  (** matrices.rs 427-445: [m -= x] *)
  Definition mat_sub_num (m : mat R) (x : R) : outcome (mat R) :=
    Ret (Mat (nrows m) (ncols m) (map (fun y => rsub y x) (data m))).

  (** matrices.rs 609-627: [m /= x], for a division [dv] of numbers *)
  Definition mat_div (dv : R -> R -> outcome R) (m : mat R) (x : R) : outcome (mat R) :=
    do d <- mapM (fun y => dv y x) (data m); Ret (Mat (nrows m) (ncols m) d).

  (** geometry.rs 207-243: [v *= x]; 245-281: [v /= x] *)
  Definition vec_scale (v : mat R) (x : R) : outcome (mat R) := mat_scale x v.
  Definition vec_div (dv : R -> R -> outcome R) (v : mat R) (x : R) : outcome (mat R) := mat_div dv v x.
End Model.

(** division of BigRational: panics for a zero divisor *)
Definition div_q (x y : Qc) : outcome Qc := if Qc_eq_bool y 0%Qc then Panic else Ret (x / y)%Qc.
(** division of integers: panics for a zero divisor, rounds towards zero *)
Definition div_z (x y : Z) : outcome Z := if Z.eqb y 0 then Panic else Ret (Z.quot x y).

Section Lemmas.
  Context {R : Type} {RD : Dom R} {DL : DomLaws R}.

  Lemma list_set_ok (l : list R) k x : k < length l ->
    exists l', list_set l k x = Ret l' /\ length l' = length l /\
      forall i d, nth i l' d = if Nat.eqb i k then x else nth i l d.
  Proof.
    revert k. induction l as [|y l IH]; simpl; intros k H; [lia|]. destruct k as [|k].
    - eexists. splits; [reflexivity|reflexivity|]. intros [|i] d; reflexivity.
    - destruct (IH k) as (r & -> & L & N); [lia|]. cbn [bind]. eexists. splits; [reflexivity|simpl; lia|].
      intros [|i] d; simpl; auto.
  Qed.

  Lemma mat_set_mk r c (f : nat -> nat -> R) i j x : i < r -> j < c ->
    mat_set (mk r c f) i j x = Ret (mk r c (fun a b => if Nat.eqb a i && Nat.eqb b j then x else f a b)).
  Proof.
    intros Hi Hj. unfold mat_set. cbn [nrows ncols data mk]. rewrite mk_data_length.
    destruct (Nat.ltb_spec (i * c) (r * c)); [|nia]. destruct (Nat.ltb_spec j c); [|lia]. cbn [assert bind].
    destruct (list_set_ok (concat (frows r c f)) (i * c + j) x) as (l' & -> & L & N).
    { rewrite mk_data_length. nia. }
    rewrite mk_data_length in L. cbn [bind]. f_equal. apply is_mat_eq. unfold is_mat. cbn [nrows ncols data]. splits; auto.
    intros a b Ha Hb. rewrite (nth_error_nth' _ r0) by (rewrite L; nia). f_equal. rewrite N.
    pose proof (mk_ent r c f a b Ha Hb) as M. unfold ent in M. cbn [ncols data mk] in M. rewrite M.
    destruct (Nat.eqb_spec a i) as [->|Na]; cbn [andb].
    - destruct (Nat.eqb_spec b j) as [->|Nb]; [rewrite Nat.eqb_refl; auto|].
      destruct (Nat.eqb_spec (i * c + b) (i * c + j)); auto. lia.
    - destruct (Nat.eqb_spec (a * c + b) (i * c + j)) as [E|E]; auto. exfalso. apply Na.
      apply (Nat.div_unique (i * c + j) c a b) in Hb; [|lia]. apply (Nat.div_unique (i * c + j) c i j) in Hj; lia.
  Qed.

  Lemma mat_set_out r c (f : nat -> nat -> R) i j x : r <= i \/ c <= j -> mat_set (mk r c f) i j x = Panic.
  Proof.
    intros H. unfold mat_set. cbn [ncols data mk]. rewrite mk_data_length.
    destruct (Nat.ltb_spec (i * c) (r * c)); cbn [assert bind]; auto.
    destruct (Nat.ltb_spec j c); cbn [assert bind]; auto. exfalso. nia.
  Qed.

  Lemma mat_zero_mk r c : 0 < c -> mat_zero r c = Ret (mk r c (fun _ _ => r0)).
  Proof.
    intros Hc. unfold mat_zero. rewrite <- (mat_new_frows c r (fun _ _ => r0) Hc). f_equal.
    apply nth_ext with (d := r0) (d' := r0); [rewrite repeat_length, mk_data_length; auto|].
    intros k Hk. rewrite nth_repeat. rewrite repeat_length in Hk.
    assert (A : Forall (fun y : R => y = r0) (concat (frows r c (fun _ _ => r0)))).
    { apply Forall_concat. apply Forall_forall. intros l Hl. unfold frows in Hl. apply in_map_iff in Hl as (i & <- & _).
      unfold frow. apply Forall_forall. intros y Hy. apply in_map_iff in Hy as (? & <- & _). auto. }
    rewrite Forall_forall in A. symmetry. apply A. apply nth_In. rewrite mk_data_length. auto.
  Qed.

  (** rows filled one after the other *)
  Lemma fill_row r c (f g : nat -> nat -> R) i k : i < r -> k <= c ->
    foldM (fun m j => mat_set m i j (g i j)) (mk r c f) (seq 0 k) =
    Ret (mk r c (fun a b => if Nat.eqb a i && Nat.ltb b k then g a b else f a b)).
  Proof.
    intros Hi. induction k as [|k IH]; intros Hk.
    - cbn [seq foldM]. f_equal. apply mk_ext. intros a b _ _. destruct (Nat.eqb a i); reflexivity.
    - rewrite seq_S, foldM_app, IH by lia. cbn [bind foldM Nat.add]. rewrite mat_set_mk by lia. cbn [bind]. f_equal. apply mk_ext.
      intros a b _ _. destruct (Nat.eqb_spec a i) as [->|]; cbn [andb]; auto.
      destruct (Nat.eqb_spec b k) as [->|]; destruct (Nat.ltb_spec k (S k)); try lia; auto.
      destruct (Nat.ltb_spec b k), (Nat.ltb_spec b (S k)); auto; lia.
  Qed.

  Lemma fill_all r c (f g : nat -> nat -> R) k : k <= r ->
    foldM (fun m i => foldM (fun m j => mat_set m i j (g i j)) m (seq 0 c)) (mk r c f) (seq 0 k) =
    Ret (mk r c (fun a b => if Nat.ltb a k then g a b else f a b)).
  Proof.
    induction k as [|k IH]; intros Hk.
    - cbn [seq foldM]. f_equal.
    - rewrite seq_S, foldM_app, IH by lia. cbn [bind foldM Nat.add]. rewrite fill_row by lia. cbn [bind]. f_equal. apply mk_ext.
      intros a b _ Hb. destruct (Nat.ltb_spec b c); [|lia]. rewrite andb_true_r.
      destruct (Nat.eqb_spec a k), (Nat.ltb_spec a k), (Nat.ltb_spec a (S k)); auto; lia.
  Qed.

  Lemma map_data_mk r c (f : nat -> nat -> R) (h : R -> R) :
    Mat r c (map h (data (mk r c f))) = mk r c (fun i j => h (f i j)).
  Proof.
    unfold mk. cbn [data]. f_equal. unfold frows. rewrite concat_map, map_map. f_equal. apply map_ext. intros i.
    unfold frow. rewrite map_map. reflexivity.
  Qed.

  Lemma foldM_ext {A S} (f g : S -> A -> outcome S) l : (forall s x, In x l -> f s x = g s x) ->
    forall s, foldM f s l = foldM g s l.
  Proof.
    induction l as [|a l IH]; intros H s; cbn [foldM]; auto. rewrite H by (left; auto).
    destruct (g s a); cbn [bind]; auto. apply IH. intros; apply H; right; auto.
  Qed.

  Lemma mul_entry_mk r n c (f g : nat -> nat -> R) i j : i < r -> j < c ->
    mul_entry (mk r n f) (mk n c g) i j = Ret (sumf n (fun k => rmul (f i k) (g k j))).
  Proof.
    intros Hi Hj. unfold mul_entry. cbn [ncols mk].
    erewrite foldM_ext_in with (g := fun s k => Ret (radd s (rmul (f i k) (g k j)))).
    - rewrite foldM_sum, fold_sumf. auto.
    - intros s k Hk. apply in_seq in Hk. rewrite !index_mk by lia. reflexivity.
  Qed.
End Lemmas.
