(** Model of src/arithmetic/matrices.rs. *)
From Coq Require Import List ZArith Lia Bool PeanoNat Ring Setoid.
From Verif Require Import Base Vec.
Import ListNotations.
Open Scope nat_scope.

(** matrices.rs 10-15: struct Matrix *)
Record mat (R : Type) := Mat { nrows : nat; ncols : nat; data : list R }.
Arguments Mat {R}. Arguments nrows {R}. Arguments ncols {R}. Arguments data {R}.

Section Model.
  Context {R : Type} {RD : Dom R}.

  (** matrices.rs 73-78: Matrix::new; [data.len() / ncols] panics for ncols = 0 *)
  Definition mat_new (nc : nat) (d : list R) : outcome (mat R) :=
    if Nat.eqb (length d) 0 then Ret (Mat 0 nc d)
    else if Nat.eqb nc 0 then Panic
    else let nr := length d / nc in
         do _ <- assert (Nat.eqb (length d) (nr * nc)); Ret (Mat nr nc d).

  (** matrices.rs 31-40: Index *)
  Definition index (m : mat R) (i j : nat) : outcome R :=
    do _ <- assert (Nat.ltb (i * ncols m) (length (data m)));
    do _ <- assert (Nat.ltb j (ncols m));
    unwrap (nth_error (data m) (i * ncols m + j)).

  (** matrices.rs 80-86: row, col; 88-90: reshape *)
  Definition mat_row (d : list R) : outcome (mat R) := mat_new (length d) d.
  Definition mat_col (d : list R) : outcome (mat R) := mat_new 1 d.
  Definition reshape (m : mat R) (nc : nat) : outcome (mat R) := mat_new nc (data m).

  (** matrices.rs 92-110: hstack *)
  Definition hstack (parts : list (mat R)) : outcome (mat R) :=
    match parts with
    | [] => mat_new 0 []
    | p0 :: _ =>
        do _ <- assert (forallb (fun m => Nat.eqb (nrows m) (nrows p0)) parts);
        do rows <- mapM (fun irow =>
             omap (@concat R) (mapM (fun p => mapM (index p irow) (seq 0 (ncols p))) parts))
             (seq 0 (nrows p0));
        mat_new (list_sum (map ncols parts)) (concat rows)
    end.

  (** matrices.rs 112-130: vstack *)
  Definition vstack (parts : list (mat R)) : outcome (mat R) :=
    match parts with
    | [] => mat_new 0 []
    | p0 :: _ =>
        do _ <- assert (forallb (fun m => Nat.eqb (ncols m) (ncols p0)) parts);
        do ds <- mapM (fun p => omap (@concat R)
             (mapM (fun irow => mapM (index p irow) (seq 0 (ncols p))) (seq 0 (nrows p)))) parts;
        mat_new (ncols p0) (concat ds)
    end.

  (** matrices.rs 132-147: submatrix(r0..r1, c0..c1).  [r1 - r0] underflows
      (panics) if r1 < r0 *)
  Definition submatrix (m : mat R) (r0 r1 c0 c1 : nat) : outcome (mat R) :=
    do _ <- assert (Nat.leb r1 (nrows m));
    do _ <- assert (Nat.leb c1 (ncols m));
    do _ <- assert (Nat.leb r0 r1);
    do _ <- assert (Nat.leb c0 c1);
    do rows <- mapM (fun i => mapM (fun j => index m (i + r0) (j + c0)) (seq 0 (c1 - c0)))
                    (seq 0 (r1 - r0));
    mat_new (c1 - c0) (concat rows).

  (** matrices.rs 149-154: get_row *)
  Definition get_row (m : mat R) (i : nat) : outcome (list R) :=
    do _ <- assert (Nat.ltb (i * ncols m) (length (data m)));
    do _ <- assert (Nat.leb (i * ncols m + ncols m) (length (data m)));
    Ret (firstn (ncols m) (skipn (i * ncols m) (data m))).

  (** matrices.rs 156-158: get_rows *)
  Definition get_rows (m : mat R) : outcome (list (list R)) :=
    mapM (get_row m) (seq 0 (nrows m)).

  (** matrices.rs 160-165: get_col *)
  Definition get_col (m : mat R) (j : nat) : outcome (list R) :=
    do _ <- assert (Nat.ltb j (ncols m));
    mapM (fun i => index m i j) (seq 0 (nrows m)).

  (** matrices.rs 167-174: transpose *)
  Definition transpose (m : mat R) : outcome (mat R) :=
    do cols <- mapM (fun j => mapM (fun i => index m i j) (seq 0 (nrows m))) (seq 0 (ncols m));
    mat_new (nrows m) (concat cols).

  (** matrices.rs 178-180: zero *)
  Definition mat_zero (nr nc : nat) : outcome (mat R) := mat_new nc (repeat r0 (nr * nc)).

  (** matrices.rs 184-189: unit_vector.  Simplified: the one assignment into
      the zero row is written as the resulting list. *)
  Definition unit_vector (n k : nat) : outcome (mat R) :=
    do _ <- assert (Nat.ltb k n); mat_new n (vunit n k).

  (** matrices.rs 191-197: identity.  Simplified: the assignments of the
      diagonal are written as the resulting row-major list. *)
  Definition identity (n : nat) : outcome (mat R) :=
    mat_new n (flat_map (fun i => vunit n i) (seq 0 n)).

  (** matrices.rs 199-220: is_identity *)
  Definition is_identity (m : mat R) : outcome bool :=
    if negb (Nat.eqb (nrows m) (ncols m)) then Ret false
    else
      omap (fun l => forallb id l)
        (mapM (fun ij => do x <- index m (fst ij) (snd ij);
                 Ret (if Nat.eqb (snd ij) (fst ij) then reqb x r1 else reqb x r0))
              (list_prod (seq 0 (nrows m)) (seq 0 (ncols m)))).

  (** matrices.rs 291-310: neg *)
  Definition mat_neg (m : mat R) : outcome (mat R) := mat_new (ncols m) (map ropp (data m)).

  (** matrices.rs 322-346 and 401-425: += and -= of matrices *)
  Definition mat_zip (f : R -> R -> R) (a b : mat R) : outcome (mat R) :=
    do _ <- assert (Nat.eqb (length (data a)) (length (data b)));
    do _ <- assert (Nat.eqb (ncols a) (ncols b));
    Ret (Mat (nrows a) (ncols a) (zipw f (data a) (data b))).
  Definition mat_add := mat_zip radd.
  Definition mat_sub := mat_zip rsub.

  (** matrices.rs 480-520: multiplication by a scalar *)
  Definition mat_scale (c : R) (m : mat R) : outcome (mat R) :=
    Ret (Mat (nrows m) (ncols m) (map (fun x => rmul x c) (data m))).

  (** matrices.rs 539-546: one entry of the product, [s += self[(i,k)] * rhs[(k,j)]] *)
  Definition mul_entry (a b : mat R) (i j : nat) : outcome R :=
    foldM (fun s k => do x <- index a i k; do y <- index b k j; Ret (radd s (rmul x y)))
          r0 (seq 0 (ncols a)).

  (** matrices.rs 522-551: product.  Simplified: the entries assigned in
      row-major order into a zero matrix are collected directly. *)
  Definition mat_mul (a b : mat R) : outcome (mat R) :=
    do _ <- assert (Nat.eqb (ncols a) (nrows b));
    do rows <- mapM (fun i => mapM (fun j => mul_entry a b i j) (seq 0 (ncols b))) (seq 0 (nrows a));
    mat_new (ncols b) (concat rows).

  (** *** functional view *)

  Definition frow (c : nat) (f : nat -> nat -> R) (i : nat) : list R := map (f i) (seq 0 c).
  Definition frows (r c : nat) (f : nat -> nat -> R) : list (list R) := map (frow c f) (seq 0 r).

  (** the matrix with [r] rows, [c] columns and entries [f i j] *)
  Definition mk (r c : nat) (f : nat -> nat -> R) : mat R := Mat r c (concat (frows r c f)).

  (** entry in row-major storage *)
  Definition ent (m : mat R) (i j : nat) : R := nth (i * ncols m + j) (data m) r0.

  (** the invariant kept by all constructors *)
  Definition wfm (m : mat R) : Prop :=
    length (data m) = nrows m * ncols m /\ (data m = [] -> nrows m = 0).

  (** a matrix given by its rows *)
  Definition mrows (n : nat) (rs : list (list R)) : mat R := Mat (length rs) n (concat rs).
End Model.

Section Lemmas.
  Context {R : Type} {RD : Dom R}.

  Lemma frow_length c (f : nat -> nat -> R) i : length (frow c f i) = c.
  Proof. unfold frow. rewrite map_length, seq_length. auto. Qed.

  Lemma frows_length r c (f : nat -> nat -> R) : length (frows r c f) = r.
  Proof. unfold frows. rewrite map_length, seq_length. auto. Qed.

  Lemma frows_lens r c (f : nat -> nat -> R) : lens c (frows r c f).
  Proof.
    unfold lens, frows. apply Forall_forall. intros v Hv. apply in_map_iff in Hv as (i & <- & _).
    apply frow_length.
  Qed.

  Lemma vget_frow c (f : nat -> nat -> R) i j : j < c -> vget (frow c f i) j = f i j.
  Proof.
    intros Hj. unfold vget, frow.
    rewrite (nth_indep _ _ (f i 0)) by (rewrite map_length, seq_length; auto).
    rewrite (map_nth (f i) (seq 0 c) 0 j), seq_nth by auto. reflexivity.
  Qed.

  Lemma nth_frows r c (f : nat -> nat -> R) i : i < r -> nth i (frows r c f) [] = frow c f i.
  Proof.
    intros Hi. unfold frows.
    rewrite (nth_indep _ _ (frow c f 0)) by (rewrite map_length, seq_length; auto).
    rewrite (map_nth (frow c f) (seq 0 r) 0 i), seq_nth by auto. reflexivity.
  Qed.

  Lemma concat_length_lens n (rs : list (list R)) : lens n rs -> length (concat rs) = length rs * n.
  Proof. induction 1 as [|v rs Hv L IH]; simpl; auto. rewrite app_length, Hv, IH. auto. Qed.

  Lemma nth_concat n (rs : list (list R)) i j d :
    lens n rs -> i < length rs -> j < n -> nth (i * n + j) (concat rs) d = nth j (nth i rs []) d.
  Proof.
    intros L; revert i; induction L as [|v rs Hv L IH]; intros i Hi Hj; simpl in *; [lia|].
    destruct i as [|i]; simpl.
    - rewrite app_nth1 by lia. auto.
    - rewrite app_nth2 by lia. rewrite Hv.
      replace (n + i * n + j - n) with (i * n + j) by lia. apply IH; lia.
  Qed.

  Lemma firstn_skipn_concat n (rs : list (list R)) i :
    lens n rs -> i < length rs -> firstn n (skipn (i * n) (concat rs)) = nth i rs [].
  Proof.
    intros L; revert i; induction L as [|v rs Hv L IH]; intros i Hi; simpl in *; [lia|].
    destruct i as [|i]; simpl.
    - rewrite firstn_app, Hv, Nat.sub_diag. simpl. rewrite app_nil_r, <- Hv. apply firstn_all.
    - rewrite skipn_app, Hv. replace (n + i * n - n) with (i * n) by lia.
      rewrite skipn_all2 by lia. simpl. apply IH. lia.
  Qed.

  Lemma mk_data_length r c (f : nat -> nat -> R) : length (concat (frows r c f)) = r * c.
  Proof. rewrite (concat_length_lens c) by apply frows_lens. rewrite frows_length. auto. Qed.

  Lemma mk_mrows r c (f : nat -> nat -> R) : mk r c f = mrows c (frows r c f).
  Proof. unfold mk, mrows. rewrite frows_length. auto. Qed.

  Lemma mrows_mk n (rs : list (list R)) :
    lens n rs -> mrows n rs = mk (length rs) n (fun i j => vget (nth i rs []) j).
  Proof.
    intros L. rewrite mk_mrows. f_equal.
    apply nth_ext with (d := []) (d' := []).
    - rewrite frows_length; auto.
    - intros i Hi. rewrite nth_frows by auto. symmetry. apply vec_ext.
      + rewrite frow_length. symmetry. eapply lens_In; eauto. apply nth_In; auto.
      + rewrite frow_length. intros j Hj. rewrite vget_frow by auto. reflexivity.
  Qed.

  Lemma frows_mrows n (rs : list (list R)) :
    lens n rs -> frows (length rs) n (fun i j => vget (nth i rs []) j) = rs.
  Proof.
    intros L. apply nth_ext with (d := []) (d' := []).
    - rewrite frows_length; auto.
    - rewrite frows_length. intros i Hi. rewrite nth_frows by auto. apply vec_ext.
      + rewrite frow_length. symmetry. eapply lens_In; eauto. apply nth_In; auto.
      + rewrite frow_length. intros j Hj. rewrite vget_frow by auto. reflexivity.
  Qed.

  Lemma mk_ent r c (f : nat -> nat -> R) i j : i < r -> j < c -> ent (mk r c f) i j = f i j.
  Proof.
    intros Hi Hj. unfold ent, mk; simpl.
    rewrite (nth_concat c) by (auto using frows_lens; rewrite frows_length; auto).
    rewrite nth_frows by auto. apply (vget_frow c f i j Hj).
  Qed.

  Lemma frows_ext r c (f g : nat -> nat -> R) :
    (forall i j, i < r -> j < c -> f i j = g i j) -> frows r c f = frows r c g.
  Proof.
    intros H. unfold frows. apply map_ext_in. intros i Hi. apply in_seq in Hi.
    unfold frow. apply map_ext_in. intros j Hj. apply in_seq in Hj. apply H; lia.
  Qed.

  Lemma mk_ext r c (f g : nat -> nat -> R) :
    (forall i j, i < r -> j < c -> f i j = g i j) -> mk r c f = mk r c g.
  Proof. intros H. unfold mk. f_equal. f_equal. apply frows_ext; auto. Qed.

  Lemma mk_inj r c (f g : nat -> nat -> R) :
    mk r c f = mk r c g -> forall i j, i < r -> j < c -> f i j = g i j.
  Proof.
    intros H i j Hi Hj. rewrite <- (mk_ent r c f i j), <- (mk_ent r c g i j) by auto. congruence.
  Qed.

  Lemma wfm_mk r c (f : nat -> nat -> R) : 0 < r -> 0 < c -> wfm (mk r c f).
  Proof.
    intros Hr Hc. split; unfold mk; simpl.
    - apply mk_data_length.
    - intros H. pose proof (mk_data_length r c f) as E. rewrite H in E. simpl in E. nia.
  Qed.

  (** every well-formed matrix is determined by shape and entries *)
  Lemma wfm_eq_mk (m : mat R) : wfm m -> m = mk (nrows m) (ncols m) (ent m).
  Proof.
    intros [Hl He]. destruct m as [r c d]; simpl in *. unfold mk. f_equal.
    apply nth_ext with (d := r0) (d' := r0).
    - rewrite mk_data_length; auto.
    - intros k Hk. assert (Hc : c <> 0) by nia.
      pose proof (Nat.div_mod k c Hc) as Ek. pose proof (Nat.mod_upper_bound k c Hc) as Hm.
      assert (Hd : k / c < r) by (apply Nat.div_lt_upper_bound; nia).
      rewrite Ek. rewrite (Nat.mul_comm c).
      rewrite (nth_concat c (frows r c _)) by (auto using frows_lens; rewrite frows_length; auto).
      rewrite nth_frows by auto.
      change (nth (k / c * c + k mod c) d r0 = vget (frow c (ent (Mat r c d)) (k / c)) (k mod c)).
      rewrite vget_frow by auto. reflexivity.
  Qed.

  Lemma mat_new_ok nc (rs : list (list R)) :
    0 < nc -> lens nc rs -> mat_new nc (concat rs) = Ret (mrows nc rs).
  Proof.
    intros Hc L. unfold mat_new, mrows. rewrite (concat_length_lens nc) by auto.
    destruct (Nat.eqb_spec (length rs * nc) 0) as [E|E].
    - assert (length rs = 0) by nia. rewrite H. reflexivity.
    - destruct (Nat.eqb_spec nc 0); [lia|]. rewrite Nat.div_mul by auto. rewrite Nat.eqb_refl. reflexivity.
  Qed.

  Lemma mat_new_frows nc r (f : nat -> nat -> R) :
    0 < nc -> mat_new nc (concat (frows r nc f)) = Ret (mk r nc f).
  Proof. intros. rewrite mat_new_ok by (auto using frows_lens). rewrite mk_mrows. reflexivity. Qed.

  Lemma mat_new_wf nc d (m : mat R) : mat_new nc d = Ret m -> wfm m /\ ncols m = nc /\ data m = d.
  Proof.
    unfold mat_new. destruct (Nat.eqb_spec (length d) 0) as [E|E].
    - intros [= <-]. unfold wfm; simpl. auto.
    - destruct (Nat.eqb_spec nc 0); [discriminate|].
      destruct (Nat.eqb_spec (length d) (length d / nc * nc)); simpl; [|discriminate].
      intros [= <-]. unfold wfm; simpl. repeat split; auto. intros ->. simpl in E. lia.
  Qed.

  Lemma index_mk r c (f : nat -> nat -> R) i j : i < r -> j < c -> index (mk r c f) i j = Ret (f i j).
  Proof.
    intros Hi Hj. unfold index. simpl. rewrite mk_data_length.
    destruct (Nat.ltb_spec (i * c) (r * c)); [|nia]. destruct (Nat.ltb_spec j c); [|lia]. simpl.
    rewrite (nth_error_nth' _ r0) by (rewrite mk_data_length; nia). simpl. f_equal.
    apply (mk_ent r c f); auto.
  Qed.

  Lemma index_mk_out r c (f : nat -> nat -> R) i j : 0 < c -> (r <= i \/ c <= j) -> index (mk r c f) i j = Panic.
  Proof.
    intros Hc Ho. unfold index. simpl. rewrite mk_data_length.
    destruct (Nat.ltb_spec (i * c) (r * c)); simpl; auto.
    destruct (Nat.ltb_spec j c); simpl; auto. destruct Ho; [|lia]. nia.
  Qed.

  Lemma mapM_seq {A} (g : nat -> outcome A) (f : nat -> A) n :
    (forall i, i < n -> g i = Ret (f i)) -> mapM g (seq 0 n) = Ret (map f (seq 0 n)).
  Proof. intros H. apply mapM_Ret. intros x Hx. apply in_seq in Hx. apply H; lia. Qed.

  Lemma get_row_mk r c (f : nat -> nat -> R) i : i < r -> 0 < c -> get_row (mk r c f) i = Ret (frow c f i).
  Proof.
    intros Hi Hc. unfold get_row. simpl. rewrite mk_data_length.
    destruct (Nat.ltb_spec (i * c) (r * c)); [|nia].
    destruct (Nat.leb_spec (i * c + c) (r * c)); [|nia]. simpl.
    rewrite firstn_skipn_concat by (auto using frows_lens; rewrite frows_length; auto).
    rewrite nth_frows by auto. reflexivity.
  Qed.

  Lemma get_rows_mk r c (f : nat -> nat -> R) : 0 < c -> get_rows (mk r c f) = Ret (frows r c f).
  Proof. intros Hc. unfold get_rows. simpl. apply mapM_seq. intros; apply get_row_mk; auto. Qed.

  Lemma get_rows_mrows n (rs : list (list R)) : 0 < n -> lens n rs -> get_rows (mrows n rs) = Ret rs.
  Proof. intros Hn L. rewrite mrows_mk, get_rows_mk by auto. rewrite frows_mrows; auto. Qed.

  Lemma get_col_mk r c (f : nat -> nat -> R) j :
    j < c -> get_col (mk r c f) j = Ret (map (fun i => f i j) (seq 0 r)).
  Proof.
    intros Hj. unfold get_col. simpl. destruct (Nat.ltb_spec j c); [|lia]. simpl.
    apply mapM_seq. intros; apply index_mk; auto.
  Qed.

  Lemma transpose_mk r c (f : nat -> nat -> R) :
    0 < r -> transpose (mk r c f) = Ret (mk c r (fun i j => f j i)).
  Proof.
    intros Hr. unfold transpose. simpl.
    rewrite (mapM_seq _ (fun j => frow r (fun i j => f j i) j)).
    - simpl. apply mat_new_frows; auto.
    - intros j Hj. unfold frow. apply mapM_seq. intros; apply index_mk; auto.
  Qed.

  Lemma seq_shift_add a k n : seq (a + k) n = map (fun j => a + j) (seq k n).
  Proof. revert k; induction n; intros k; simpl; auto. f_equal. rewrite <- IHn. f_equal. lia. Qed.

  Lemma frow_app (c1 c2 : nat) (f g : nat -> nat -> R) i :
    frow c1 f i ++ frow c2 g i = frow (c1 + c2) (fun i j => if Nat.ltb j c1 then f i j else g i (j - c1)) i.
  Proof.
    unfold frow. rewrite seq_app, map_app. f_equal.
    - apply map_ext_in. intros j Hj. apply in_seq in Hj. destruct (Nat.ltb_spec j c1); [auto|lia].
    - simpl. replace (seq c1 c2) with (map (fun j => c1 + j) (seq 0 c2))
        by (rewrite <- seq_shift_add; f_equal; lia).
      rewrite map_map. apply map_ext. intros j. destruct (Nat.ltb_spec (c1 + j) c1); [lia|].
      f_equal. lia.
  Qed.

  (** rows of two matrices side by side *)
  Definition hrows (xs ys : list (list R)) : list (list R) := map (fun p => fst p ++ snd p) (combine xs ys).

  Lemma hstack_mk r c1 c2 (f g : nat -> nat -> R) :
    0 < c1 + c2 ->
    hstack [mk r c1 f; mk r c2 g] =
    Ret (mk r (c1 + c2) (fun i j => if Nat.ltb j c1 then f i j else g i (j - c1))).
  Proof.
    intros Hc. unfold hstack. simpl. rewrite Nat.eqb_refl. simpl.
    rewrite (mapM_seq _ (frow (c1 + c2) (fun i j => if Nat.ltb j c1 then f i j else g i (j - c1)))).
    - simpl. rewrite Nat.add_0_r. apply mat_new_frows; auto.
    - intros i Hi. rewrite (mapM_seq (index (mk r c1 f) i) (f i)) by (intros; apply index_mk; auto).
      simpl. rewrite (mapM_seq (index (mk r c2 g) i) (g i)) by (intros; apply index_mk; auto).
      simpl. rewrite app_nil_r. rewrite <- frow_app. reflexivity.
  Qed.

  Lemma submatrix_mk r c (f : nat -> nat -> R) a b a' b' :
    a <= b -> b <= r -> a' < b' -> b' <= c ->
    submatrix (mk r c f) a b a' b' = Ret (mk (b - a) (b' - a') (fun i j => f (i + a) (j + a'))).
  Proof.
    intros H1 H2 H3 H4. unfold submatrix. simpl.
    destruct (Nat.leb_spec b r); [|lia]. destruct (Nat.leb_spec b' c); [|lia].
    destruct (Nat.leb_spec a b); [|lia]. destruct (Nat.leb_spec a' b'); [|lia]. simpl.
    rewrite (mapM_seq _ (frow (b' - a') (fun i j => f (i + a) (j + a')))).
    - simpl. apply mat_new_frows. lia.
    - intros i Hi. unfold frow. apply mapM_seq. intros j Hj. apply index_mk; lia.
  Qed.

  Lemma concat_singles {A} (l : list A) : concat (map (fun x => [x]) l) = l.
  Proof. induction l; simpl; congruence. Qed.

  (** stacking one-row matrices *)
  Lemma vstack_rows n (rs : list (list R)) :
    0 < n -> lens n rs -> rs <> [] ->
    (do ms <- mapM mat_row rs; vstack ms) = Ret (mrows n rs).
  Proof.
    intros Hn L Hne.
    assert (E : forall v, In v rs -> mat_row v = Ret (mrows n [v])).
    { intros v Hv. unfold mat_row. pose proof (lens_In _ _ _ L Hv) as Hl.
      rewrite <- (mat_new_ok n [v]) by (auto; repeat constructor; auto). simpl. rewrite app_nil_r, Hl. auto. }
    rewrite (mapM_Ret _ (fun v => mrows n [v])) by auto. simpl.
    destruct rs as [|v0 rs0] eqn:Ers; [congruence|]. simpl.
    rewrite Nat.eqb_refl. simpl.
    replace (forallb _ _) with true.
    2:{ symmetry. apply forallb_forall. intros m Hm. apply in_map_iff in Hm as (v & <- & _). simpl.
        apply Nat.eqb_refl. }
    simpl.
    assert (D : forall v : list R, length v = n -> mapM (index (mrows n [v]) 0) (seq 0 n) = Ret v).
    { intros v Hv. rewrite mrows_mk by (repeat constructor; auto). simpl.
      rewrite (mapM_seq _ (fun j => vget v j)) by (intros; rewrite index_mk by lia; auto).
      f_equal. apply vec_ext; [rewrite map_length, seq_length; auto|].
      rewrite map_length, seq_length. intros j Hj.
      pose proof (vget_frow n (fun _ j => vget v j) 0 j Hj) as E2. exact E2. }
    destruct (lens_cons _ _ _ L) as [L0 L1].
    rewrite D by auto. simpl.
    assert (E3 : mapM (fun p => omap (@concat R)
       (mapM (fun irow => mapM (index p irow) (seq 0 (ncols p))) (seq 0 (nrows p)))) (map (fun v => mrows n [v]) rs0) = Ret rs0).
    { clear -L1 D. induction L1 as [|v rs0 Hv L1 IH]; simpl; auto.
      rewrite D by auto. simpl. rewrite IH. simpl. rewrite app_nil_r. auto. }
    rewrite E3. simpl. rewrite app_nil_r.
    change (v0 ++ concat rs0) with (concat (v0 :: rs0)). apply mat_new_ok; auto.
  Qed.

  Lemma vunit_frow n i : vunit n i = frow n (fun i j => if Nat.eqb j i then r1 else r0) i.
  Proof. reflexivity. Qed.

  Definition delta (i j : nat) : R := if Nat.eqb j i then r1 else r0.

  Lemma identity_mk n : 0 < n -> identity n = Ret (mk n n delta).
  Proof.
    intros Hn. unfold identity. rewrite flat_map_concat_map.
    change (map (fun i => vunit n i) (seq 0 n)) with (frows n n delta). apply mat_new_frows; auto.
  Qed.

  Lemma repeat_frows r c : repeat r0 (r * c) = concat (frows r c (fun _ _ => r0)).
  Proof.
    apply nth_ext with (d := r0) (d' := r0).
    - rewrite mk_data_length, repeat_length; auto.
    - rewrite repeat_length. intros k Hk. rewrite nth_repeat.
      assert (H : forall x, In x (concat (frows r c (fun _ _ => r0))) -> x = r0).
      { intros x Hx. apply in_concat in Hx as (l & Hl & Hx). apply in_map_iff in Hl as (i & <- & _).
        apply in_map_iff in Hx as (j & <- & _). auto. }
      symmetry. apply H. apply nth_In. rewrite mk_data_length. auto.
  Qed.

  Lemma mat_zero_mk r c : 0 < c -> mat_zero r c = Ret (mk r c (fun _ _ => r0)).
  Proof. intros. unfold mat_zero. rewrite repeat_frows. apply mat_new_frows; auto. Qed.

  Lemma map_mk_data r c (f : nat -> nat -> R) (h : R -> R) :
    map h (concat (frows r c f)) = concat (frows r c (fun i j => h (f i j))).
  Proof.
    rewrite concat_map. f_equal. unfold frows. rewrite map_map. apply map_ext. intros i.
    unfold frow. rewrite map_map. auto.
  Qed.

  Lemma mat_neg_mk r c (f : nat -> nat -> R) :
    0 < c -> mat_neg (mk r c f) = Ret (mk r c (fun i j => ropp (f i j))).
  Proof. intros. unfold mat_neg. simpl. rewrite map_mk_data. apply mat_new_frows; auto. Qed.

  Lemma mat_scale_mk r c (f : nat -> nat -> R) s :
    mat_scale s (mk r c f) = Ret (mk r c (fun i j => rmul (f i j) s)).
  Proof. intros. unfold mat_scale. simpl. rewrite (map_mk_data r c f (fun x => rmul x s)). reflexivity. Qed.

  Lemma zipw_app (h : R -> R -> R) u u' v v' : length u = length v ->
    zipw h (u ++ u') (v ++ v') = zipw h u v ++ zipw h u' v'.
  Proof. revert v; induction u; intros [|b v] H; simpl in *; try discriminate; auto. f_equal. apply IHu. lia. Qed.

  Lemma zipw_frow (h : R -> R -> R) l (f g : nat -> R) :
    zipw h (map f l) (map g l) = map (fun j => h (f j) (g j)) l.
  Proof. induction l; simpl; congruence. Qed.

  Lemma mat_zip_mk (h : R -> R -> R) r c (f g : nat -> nat -> R) :
    mat_zip h (mk r c f) (mk r c g) = Ret (mk r c (fun i j => h (f i j) (g i j))).
  Proof.
    unfold mat_zip. simpl. rewrite !mk_data_length, !Nat.eqb_refl. simpl. unfold mk. do 2 f_equal.
    unfold frows. generalize (seq 0 r). induction l as [|i l IH]; simpl; auto.
    rewrite zipw_app by (rewrite !frow_length; auto). f_equal; auto. apply zipw_frow.
  Qed.

  Lemma foldM_sum (l : list nat) (x : nat -> R) s :
    foldM (fun s k => Ret (radd s (x k))) s l = Ret (fold_left (fun s k => radd s (x k)) l s).
  Proof. revert s; induction l; intros; simpl; auto. Qed.

  Lemma fold_sumf n (x : nat -> R) : fold_left (fun s k => radd s (x k)) (seq 0 n) r0 = sumf n x.
  Proof.
    induction n; auto. rewrite seq_S, fold_left_app. cbn [fold_left sumf]. rewrite IHn. auto.
  Qed.

  Lemma foldM_ext_in {A S} (f g : S -> A -> outcome S) l s :
    (forall s x, In x l -> f s x = g s x) -> foldM f s l = foldM g s l.
  Proof.
    revert s; induction l as [|a l IH]; intros s H; simpl; auto.
    rewrite H by (left; auto). destruct (g s a); simpl; auto. apply IH. intros; apply H; right; auto.
  Qed.

  Lemma mat_mul_mk r m c (f g : nat -> nat -> R) :
    0 < c -> mat_mul (mk r m f) (mk m c g) =
    Ret (mk r c (fun i j => sumf m (fun k => rmul (f i k) (g k j)))).
  Proof.
    intros Hc. unfold mat_mul. simpl. rewrite Nat.eqb_refl. simpl.
    rewrite (mapM_seq _ (frow c (fun i j => sumf m (fun k => rmul (f i k) (g k j))))).
    - simpl. apply mat_new_frows; auto.
    - intros i Hi. unfold frow. apply mapM_seq. intros j Hj. unfold mul_entry. simpl.
      erewrite foldM_ext_in with (g := fun s k => Ret (radd s (rmul (f i k) (g k j)))).
      + rewrite foldM_sum, fold_sumf. auto.
      + intros s k Hk. apply in_seq in Hk. rewrite !index_mk by lia. reflexivity.
  Qed.

  (** *** matrices given by their rows *)
  Definition cols (c : nat) (rs : list (list R)) : list (list R) :=
    map (fun j => map (fun v => vget v j) rs) (seq 0 c).

  Lemma cols_lens c rs : lens (length rs) (cols c rs).
  Proof.
    unfold lens, cols. apply Forall_forall. intros v Hv. apply in_map_iff in Hv as (j & <- & _).
    apply map_length.
  Qed.

  Lemma cols_length c rs : length (cols c rs) = c.
  Proof. unfold cols. rewrite map_length, seq_length; auto. Qed.

  Lemma nth_cols c rs j : j < c -> nth j (cols c rs) [] = map (fun v => vget v j) rs.
  Proof.
    intros Hj. unfold cols.
    rewrite (nth_indep _ _ (map (fun v => vget v 0) rs)) by (rewrite map_length, seq_length; auto).
    rewrite (map_nth (fun j => map (fun v => vget v j) rs) (seq 0 c) 0 j), seq_nth by auto. reflexivity.
  Qed.

  Lemma vget_col rs j i : i < length rs -> vget (map (fun v => vget v j) rs) i = vget (nth i rs []) j.
  Proof.
    intros Hi. unfold vget at 1.
    rewrite (nth_indep _ _ (vget [] j)) by (rewrite map_length; auto).
    rewrite (map_nth (fun v => vget v j)). reflexivity.
  Qed.

  Lemma transpose_mrows c rs :
    lens c rs -> rs <> [] -> transpose (mrows c rs) = Ret (mrows (length rs) (cols c rs)).
  Proof.
    intros L Hne. rewrite mrows_mk by auto.
    rewrite transpose_mk by (destruct rs; [congruence|simpl; lia]).
    rewrite (mrows_mk _ (cols c rs)) by apply cols_lens. rewrite cols_length. f_equal.
    apply mk_ext. intros i j Hi Hj. rewrite nth_cols by auto. rewrite vget_col by auto. reflexivity.
  Qed.

  Definition subv (a b : nat) (v : list R) : list R := firstn (b - a) (skipn a v).

  Lemma subv_length a b v : a <= b -> b <= length v -> length (subv a b v) = b - a.
  Proof. intros. unfold subv. rewrite firstn_length, skipn_length. lia. Qed.

  Lemma nth_firstn {A} n (v : list A) j d : j < n -> nth j (firstn n v) d = nth j v d.
  Proof. revert j v; induction n; intros j v Hj; [lia|]. destruct v; simpl; auto. destruct j; auto. apply IHn; lia. Qed.

  Lemma nth_skipn {A} n (v : list A) j d : nth j (skipn n v) d = nth (n + j) v d.
  Proof. revert v; induction n; intros v; simpl; auto. destruct v; simpl; auto. destruct j; auto. Qed.

  Lemma vget_subv a b v j : j < b - a -> vget (subv a b v) j = vget v (a + j).
  Proof. intros Hj. unfold vget, subv. rewrite nth_firstn by auto. apply nth_skipn. Qed.

  Lemma subv_lens a b c rs : a <= b -> b <= c -> lens c rs -> lens (b - a) (map (subv a b) rs).
  Proof.
    intros H1 H2 L. unfold lens in *. rewrite Forall_forall in *. intros v Hv.
    apply in_map_iff in Hv as (w & <- & Hw). apply subv_length; auto. rewrite L; auto.
  Qed.

  Lemma submatrix_mrows c rs x y a b :
    lens c rs -> x <= y -> y <= length rs -> a < b -> b <= c ->
    submatrix (mrows c rs) x y a b = Ret (mrows (b - a) (map (subv a b) (firstn (y - x) (skipn x rs)))).
  Proof.
    intros L Hx Hy Ha Hb. rewrite mrows_mk by auto. rewrite submatrix_mk by auto.
    assert (Lf : lens c (firstn (y - x) (skipn x rs))).
    { unfold lens in *. rewrite Forall_forall in *. intros v Hv. apply L.
      rewrite <- (firstn_skipn x rs). apply in_or_app. right.
      rewrite <- (firstn_skipn (y - x) (skipn x rs)). apply in_or_app. auto. }
    rewrite (mrows_mk (b - a)) by (eapply subv_lens; eauto; lia).
    rewrite map_length, firstn_length, skipn_length.
    replace (Nat.min (y - x) (length rs - x)) with (y - x) by lia.
    f_equal. apply mk_ext. intros i j Hi Hj.
    assert (E : nth i (map (subv a b) (firstn (y - x) (skipn x rs))) [] = subv a b (nth (i + x) rs [])).
    { rewrite (nth_indep _ _ (subv a b [])) by (rewrite map_length, firstn_length, skipn_length; lia).
      rewrite (map_nth (subv a b)). f_equal. rewrite nth_firstn by auto. rewrite nth_skipn. f_equal. lia. }
    rewrite E, vget_subv by auto. f_equal. lia.
  Qed.

  Lemma hrows_length xs ys : length xs = length ys -> length (hrows xs ys) = length xs.
  Proof. intros E. unfold hrows. rewrite map_length, combine_length. lia. Qed.

  Lemma nth_hrows xs ys i : length xs = length ys -> i < length xs ->
    nth i (hrows xs ys) [] = nth i xs [] ++ nth i ys [].
  Proof.
    intros E Hi. unfold hrows.
    rewrite (nth_indep _ _ ((fun p => fst p ++ snd p) ([], []))) by (rewrite map_length, combine_length; lia).
    rewrite (map_nth (fun p : list R * list R => fst p ++ snd p)). rewrite combine_nth by auto. reflexivity.
  Qed.

  Lemma hrows_lens c1 c2 xs ys : lens c1 xs -> lens c2 ys -> length xs = length ys -> lens (c1 + c2) (hrows xs ys).
  Proof.
    intros L1 L2. revert ys L2. induction L1 as [|x xs Hx L1 IH]; intros ys L2 E; destruct L2 as [|y ys Hy L2]; try discriminate.
    - constructor.
    - constructor; simpl; [rewrite app_length; lia|]. apply IH; auto.
  Qed.

  Lemma hstack_mrows c1 c2 xs ys :
    lens c1 xs -> lens c2 ys -> length xs = length ys -> 0 < c1 + c2 ->
    hstack [mrows c1 xs; mrows c2 ys] = Ret (mrows (c1 + c2) (hrows xs ys)).
  Proof.
    intros L1 L2 E Hc. rewrite (mrows_mk c1 xs), (mrows_mk c2 ys) by auto. rewrite <- E.
    rewrite hstack_mk by auto. rewrite (mrows_mk (c1 + c2)) by (apply hrows_lens; auto).
    rewrite hrows_length by auto. f_equal. apply mk_ext. intros i j Hi Hj. rewrite nth_hrows by auto.
    unfold vget. pose proof (lens_In _ _ _ L1 (nth_In xs [] Hi)) as Hl.
    destruct (Nat.ltb_spec j c1).
    - rewrite app_nth1 by lia. auto.
    - rewrite app_nth2 by lia. rewrite Hl. auto.
  Qed.

  Lemma identity_mrows n : 0 < n -> identity n = Ret (mrows n (map (vunit n) (seq 0 n))).
  Proof. intros Hn. rewrite identity_mk by auto. rewrite mk_mrows. reflexivity. Qed.
End Lemmas.
