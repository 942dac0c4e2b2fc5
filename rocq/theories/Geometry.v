(** Model of src/arithmetic/geometry.rs.  The coordinate systems of the code
    are phantom type parameters (compile-time only) and are left out; vectors
    and points are both their coordinate column, a matrix with one column
    (geometry.rs 20-24 and 284-288). *)
From Coq Require Import List ZArith QArith Qcanon Lia Bool PeanoNat Ring Setoid.
From Verif Require Import Base Vec Elim Matrix MatrixMore Scalars LinAlg.
Import ListNotations.
Close Scope Q_scope.
Open Scope nat_scope.

Section Model.
  Context {R : Type} {RD : Dom R} {SR : Scalar R}.

  (** geometry.rs 72-85 and 336-349: Vector::new, Vector::zero, Point::new, Point::origin *)
  Definition vec_new (d : list R) : outcome (mat R) := mat_col d.
  Definition vec_zero (n : nat) : outcome (mat R) := vec_new (repeat r0 n).

  (** geometry.rs 87-94: Vector::unit.  Simplified: the assignment into the
      zero vector is written as the resulting list. *)
  Definition vec_unit (n k : nat) : outcome (mat R) :=
    do _ <- assert (Nat.ltb k n); vec_new (vunit n k).

  (** geometry.rs 27-29: dim *)
  Definition vdim (v : mat R) : nat := nrows v.

  (** geometry.rs 127-205, 351-429: += and -= of vectors to vectors and points *)
  Definition vec_add (u v : mat R) : outcome (mat R) :=
    do _ <- assert (Nat.eqb (vdim u) (vdim v)); mat_add u v.
  Definition vec_sub (u v : mat R) : outcome (mat R) :=
    do _ <- assert (Nat.eqb (vdim u) (vdim v)); mat_sub u v.
  (** geometry.rs 431-473: difference of two points *)
  Definition point_sub (p q : mat R) : outcome (mat R) := do m <- mat_sub p q; vec_new (data m).
  (** geometry.rs 97-115: negation *)
  Definition vec_neg (v : mat R) : outcome (mat R) := mat_neg v.

  (** geometry.rs 547-551: struct AffineMap *)
  Record affine := Affine { lin : mat R; shift : mat R }.

  (** geometry.rs 577-587: AffineMap::new *)
  Definition aff_new (l s : mat R) : outcome affine :=
    do _ <- assert (Nat.eqb (nrows l) (vdim s));
    do _ <- assert (Nat.eqb (ncols l) (vdim s));
    Ret (Affine l s).

  (** geometry.rs 597-601: identity *)
  Definition aff_identity (n : nat) : outcome affine :=
    do i <- identity n; do z <- vec_zero n; aff_new i z.

  (** geometry.rs 603-609: is_identity *)
  Definition aff_is_identity (a : affine) : outcome bool :=
    do b <- is_identity (lin a);
    Ret (b && forallb (fun x => reqb x r0) (data (shift a))).

  (** geometry.rs 611-623: inverse *)
  Definition aff_inverse (m : affine) : outcome (option affine) :=
    do oa <- inverse (lin m);
    match oa with
    | None => Ret None
    | Some a =>
        do p <- mat_mul a (shift m);
        do s <- vec_new (data p);
        do ns <- vec_neg s;
        do r <- aff_new a ns;
        Ret (Some r)
    end.

  (** geometry.rs 633-637: From<Matrix> *)
  Definition aff_from (m : mat R) : outcome affine :=
    do z <- vec_zero (nrows m); aff_new m z.

  (** geometry.rs 647-662: composition *)
  Definition aff_mul (a b : affine) : outcome affine :=
    do _ <- assert (Nat.eqb (vdim (shift a)) (vdim (shift b)));
    do l <- mat_mul (lin a) (lin b);
    do t <- mat_mul (lin a) (shift b);
    do s <- mat_add t (shift a);
    aff_new l s.

  (** geometry.rs 664-674: application to a point *)
  Definition aff_point (a : affine) (p : mat R) : outcome (mat R) :=
    do t <- mat_mul (lin a) p; mat_add t (shift a).

  (** geometry.rs 676-684: application to a vector *)
  Definition aff_vector (a : affine) (v : mat R) : outcome (mat R) := mat_mul (lin a) v.

  (** geometry.rs 707-711: struct CoordinateMap *)
  Record cmap := CMap { fwd : affine; bwd : affine }.

  (** geometry.rs 739-744: CoordinateMap::new *)
  Definition cmap_new (f : affine) : outcome cmap :=
    do oi <- aff_inverse f; do i <- unwrap oi; Ret (CMap f i).
  (** geometry.rs 746-750 *)
  Definition cmap_identity (n : nat) : outcome cmap := do i <- aff_identity n; cmap_new i.
  (** geometry.rs 752-756 *)
  Definition cmap_is_identity (c : cmap) : outcome bool := aff_is_identity (fwd c).
  (** geometry.rs 758-763: inverse *)
  Definition cmap_inverse (c : cmap) : cmap := CMap (bwd c) (fwd c).
  (** geometry.rs 765-770: from_basis *)
  Definition cmap_from_basis (basis : list (mat R)) : outcome cmap :=
    do m <- hstack basis; do a <- aff_from m; cmap_new a.
  (** geometry.rs 772-776: to_basis *)
  Definition cmap_to_basis (basis : list (mat R)) : outcome cmap :=
    omap cmap_inverse (cmap_from_basis basis).
  (** geometry.rs 778-780: determinant *)
  Definition cmap_determinant (c : cmap) : outcome R := determinant (lin (fwd c)).
  (** geometry.rs 783-794: From<Matrix> *)
  Definition cmap_from (m : mat R) : outcome cmap := do a <- aff_from m; cmap_new a.
  (** geometry.rs 796-816: composition *)
  Definition cmap_mul (a b : cmap) : outcome cmap :=
    do f <- aff_mul (fwd a) (fwd b); do g <- aff_mul (bwd b) (bwd a); Ret (CMap f g).
  (** geometry.rs 818-842: application to points and vectors *)
  Definition cmap_point (c : cmap) (p : mat R) : outcome (mat R) := aff_point (fwd c) p.
  Definition cmap_vector (c : cmap) (v : mat R) : outcome (mat R) := aff_vector (fwd c) v.
  (** geometry.rs 859-875: application to an affine map *)
  Definition cmap_affine (c : cmap) (a : affine) : outcome affine :=
    do t <- aff_mul (fwd c) a; aff_mul t (bwd c).
End Model.

(** geometry.rs 502-515: ScalarProduct::from, for BigRational entries;
    [assert_eq] of two matrices compares shapes and entries *)
Definition mat_eqb {R} {RD : Dom R} (a b : mat R) : bool :=
  Nat.eqb (nrows a) (nrows b) && Nat.eqb (ncols a) (ncols b) &&
  Nat.eqb (length (data a)) (length (data b)) && forallb (fun p => reqb (fst p) (snd p)) (combine (data a) (data b)).

Definition Qc_pos (x : Qc) : bool := Z.ltb 0 (Qnum x).

Definition sprod_from (m : mat Qc) : outcome (mat Qc) :=
  do t <- transpose m;
  do _ <- assert (mat_eqb m t);
  do _ <- mapM (fun i => do s <- submatrix m 0 i 0 i; do d <- determinant s; assert (Qc_pos d)) (seq 1 (nrows m));
  Ret m.

(** geometry.rs 517-524: default *)
Definition sprod_default (n : nat) : outcome (mat Qc) := identity n.

(** geometry.rs 526-544: apply *)
Definition sprod_apply (m u v : mat Qc) : outcome Qc :=
  do _ <- assert (Nat.eqb (nrows u) (nrows m));
  do _ <- assert (Nat.eqb (nrows v) (nrows m));
  foldM (fun t ij => do x <- index u (fst ij) 0; do y <- index m (fst ij) (snd ij); do z <- index v (snd ij) 0;
                     Ret (t + x * y * z)%Qc)
        0%Qc (list_prod (seq 0 (nrows u)) (seq 0 (nrows u))).

(** geometry.rs 844-857: coordinate map times scalar product *)
Definition cmap_sprod (c : cmap) (m : mat Qc) : outcome (mat Qc) :=
  let a := lin (bwd c) in
  do t <- transpose a; do tm <- mat_mul t m; do r <- mat_mul tm a; sprod_from r.

(** *** functional views *)
Section Views.
  Context {R : Type} {RD : Dom R} {DL : DomLaws R} {SR : Scalar R} {SL : ScalarLaws R} {SH : ShapeLaws R}.
  Add Ring Rgeo : (@r_th R RD DL).

  (** column with entries [v 0 .. v (n-1)]; affine map with linear part [f] and shift [s] *)
  Definition cv (n : nat) (v : nat -> R) : mat R := mk n 1 (fun i _ => v i).
  Definition am (n : nat) (f : nat -> nat -> R) (s : nat -> R) : affine := Affine (mk n n f) (cv n s).

  Definition lapp (n : nat) (f : nat -> nat -> R) (v : nat -> R) : nat -> R := fun i => sumf n (fun k => rmul (f i k) (v k)).
  Definition lmul (n : nat) (f g : nat -> nat -> R) : nat -> nat -> R := fun i j => sumf n (fun k => rmul (f i k) (g k j)).

  Lemma cv_ext n u v : (forall i, i < n -> u i = v i) -> cv n u = cv n v.
  Proof. intros H. apply mk_ext. auto. Qed.

  Lemma cv_inj n u v : cv n u = cv n v -> forall i, i < n -> u i = v i.
  Proof. intros E i Hi. apply (mk_inj _ _ _ _ E i 0); auto. Qed.

  Lemma cv_data n v : data (cv n v) = map v (seq 0 n).
  Proof.
    unfold cv, mk. cbn [data]. unfold frows, frow. simpl. rewrite <- (map_map v (fun x => [x])). apply concat_singles.
  Qed.

  Lemma cv_of (m : mat R) n : wfm m -> nrows m = n -> ncols m = 1 -> exists v, m = cv n v.
  Proof.
    intros W Hr Hc. destruct (wf_mk m n 1 W Hr Hc) as [f ->]. exists (fun i => f i 0). apply mk_ext.
    intros i j Hi Hj. f_equal. lia.
  Qed.

  Lemma vec_new_cv l : vec_new l = Ret (cv (length l) (fun i => vget l i)).
  Proof.
    unfold vec_new, mat_col. rewrite <- (concat_singles l) at 1. rewrite mat_new_ok.
    - f_equal. apply is_mat_eq. unfold is_mat, mrows. simpl. rewrite map_length, concat_singles. splits; auto; [lia|].
      intros i j Hi Hj. rewrite (nth_error_nth' _ r0) by lia. unfold vget. do 2 f_equal. lia.
    - lia.
    - apply Forall_forall. intros x Hx. apply in_map_iff in Hx as (y & <- & _). reflexivity.
  Qed.

  Lemma vec_new_data n v : vec_new (data (cv n v)) = Ret (cv n v).
  Proof.
    rewrite vec_new_cv, cv_data, map_length, seq_length. f_equal. apply cv_ext. intros i Hi.
    apply (vget_map_seq n v); auto.
  Qed.

  Lemma vec_zero_cv n : vec_zero n = Ret (cv n (fun _ => r0)).
  Proof.
    unfold vec_zero. rewrite vec_new_cv, repeat_length. f_equal. apply cv_ext. intros i Hi. unfold vget. apply nth_repeat.
  Qed.

  Lemma vec_unit_cv n k : k < n -> vec_unit n k = Ret (cv n (fun i => if Nat.eqb i k then r1 else r0)).
  Proof.
    intros Hk. unfold vec_unit. destruct (Nat.ltb_spec k n); [|lia]. cbn [assert bind].
    rewrite vec_new_cv, vunit_length. f_equal. apply cv_ext. intros i Hi. rewrite vget_vunit.
    destruct (Nat.eqb i k) eqn:E; auto. destruct (Nat.ltb_spec i n); auto; try lia.
  Qed.

  Lemma aff_new_am n f s : aff_new (mk n n f) (cv n s) = Ret (am n f s).
  Proof. unfold aff_new, vdim. cbn [nrows ncols mk cv]. rewrite Nat.eqb_refl. reflexivity. Qed.

  Lemma mul_cv n f v : mat_mul (mk n n f) (cv n v) = Ret (cv n (lapp n f v)).
  Proof. unfold cv. rewrite mat_mul_mk by lia. reflexivity. Qed.

  Lemma aff_mul_am n f s g t : 0 < n ->
    aff_mul (am n f s) (am n g t) = Ret (am n (lmul n f g) (fun i => radd (lapp n f t i) (s i))).
  Proof.
    intros Hn. unfold aff_mul, am. cbn [lin shift]. unfold vdim. cbn [nrows cv mk]. rewrite Nat.eqb_refl. cbn [assert bind].
    rewrite mat_mul_mk by auto. cbn [bind]. rewrite mul_cv. cbn [bind]. unfold cv, mat_add. rewrite mat_zip_mk. cbn [bind].
    apply (aff_new_am n (lmul n f g) (fun i => radd (lapp n f t i) (s i))).
  Qed.

  Lemma aff_point_am n f s p : aff_point (am n f s) (cv n p) = Ret (cv n (fun i => radd (lapp n f p i) (s i))).
  Proof.
    unfold aff_point, am. cbn [lin shift]. rewrite mul_cv. cbn [bind]. unfold cv, mat_add. rewrite mat_zip_mk. reflexivity.
  Qed.

  Lemma aff_vector_am n f s v : aff_vector (am n f s) (cv n v) = Ret (cv n (lapp n f v)).
  Proof. apply mul_cv. Qed.

  Lemma am_ext n f g s t : (forall i j, i < n -> j < n -> f i j = g i j) -> (forall i, i < n -> s i = t i) ->
    am n f s = am n g t.
  Proof. intros H1 H2. unfold am. f_equal; [apply mk_ext|apply cv_ext]; auto. Qed.

  Lemma am_inj n f g s t : am n f s = am n g t ->
    (forall i j, i < n -> j < n -> f i j = g i j) /\ (forall i, i < n -> s i = t i).
  Proof.
    intros E. injection E as E1 E2. split.
    - apply mk_inj. unfold mk. rewrite E1. auto.
    - apply cv_inj. unfold cv, mk. rewrite E2. auto.
  Qed.

  Lemma lapp_ext n f g u v i : (forall j, j < n -> f i j = g i j) -> (forall j, j < n -> u j = v j) ->
    lapp n f u i = lapp n g v i.
  Proof. intros H1 H2. apply sumf_ext. intros k Hk. rewrite H1, H2; auto. Qed.

  Lemma lapp_lmul n f g v i : lapp n (lmul n f g) v i = lapp n f (lapp n g v) i.
  Proof.
    unfold lapp, lmul.
    transitivity (sumf n (fun k => sumf n (fun l => rmul (rmul (f i l) (g l k)) (v k)))).
    - apply sumf_ext. intros k _.
      rewrite (sumf_ext n (fun l => rmul (rmul (f i l) (g l k)) (v k)) (fun l => rmul (v k) (rmul (f i l) (g l k)))) by (intros; ring).
      rewrite sumf_scale. ring.
    - rewrite sumf_swap. apply sumf_ext. intros l _. rewrite <- sumf_scale. apply sumf_ext. intros; ring.
  Qed.

  Lemma lmul_assoc n f g h i j : lmul n (lmul n f g) h i j = lmul n f (lmul n g h) i j.
  Proof. apply (lapp_lmul n f g (fun k => h k j) i). Qed.

  Lemma lapp_add n f u v i : lapp n f (fun k => radd (u k) (v k)) i = radd (lapp n f u i) (lapp n f v i).
  Proof. unfold lapp. rewrite <- sumf_add. apply sumf_ext. intros; ring. Qed.

  Lemma lapp_sub n f u v i : lapp n f (fun k => rsub (u k) (v k)) i = rsub (lapp n f u i) (lapp n f v i).
  Proof.
    unfold lapp. induction n as [|n IH]; cbn [sumf]; [ring|]. rewrite IH. ring.
  Qed.

  Lemma lapp_opp n f u i : lapp n f (fun k => ropp (u k)) i = ropp (lapp n f u i).
  Proof.
    unfold lapp. induction n as [|n IH]; cbn [sumf]; [ring|]. rewrite IH. ring.
  Qed.

  Lemma lapp_delta n v i : i < n -> lapp n delta v i = v i.
  Proof.
    intros Hi. unfold lapp. rewrite (sumf_single n _ i Hi).
    - unfold delta. rewrite Nat.eqb_refl. ring.
    - intros k _ Hk. unfold delta. destruct (Nat.eqb_spec k i); [congruence|ring].
  Qed.

  Lemma lapp_unit n f k i : k < n -> lapp n f (fun j => if Nat.eqb j k then r1 else r0) i = f i k.
  Proof.
    intros Hk. unfold lapp. rewrite (sumf_single n _ k Hk).
    - rewrite Nat.eqb_refl. ring.
    - intros j _ Hj. destruct (Nat.eqb_spec j k); [congruence|ring].
  Qed.

  Lemma lmul_delta_l n f i j : i < n -> lmul n delta f i j = f i j.
  Proof. intros Hi. apply (lapp_delta n (fun k => f k j) i Hi). Qed.

  Lemma lmul_delta_r n f i j : j < n -> lmul n f delta i j = f i j.
  Proof.
    intros Hj. unfold lmul. rewrite (sumf_single n _ j Hj).
    - unfold delta. rewrite Nat.eqb_refl. ring.
    - intros k _ Hk. unfold delta. destruct (Nat.eqb_spec j k); [congruence|ring].
  Qed.

  Lemma aff_identity_am n : 0 < n -> aff_identity n = Ret (am n delta (fun _ => r0)).
  Proof.
    intros Hn. unfold aff_identity. rewrite identity_mk by auto. cbn [bind]. rewrite vec_zero_cv. cbn [bind].
    apply aff_new_am.
  Qed.

  Lemma aff_from_am n f : aff_from (mk n n f) = Ret (am n f (fun _ => r0)).
  Proof. unfold aff_from. cbn [nrows mk]. rewrite vec_zero_cv. cbn [bind]. apply aff_new_am. Qed.

  (** [x] is the inverse of [f] *)
  Definition linv (n : nat) (f x : nat -> nat -> R) : Prop := solves n n n f delta x.

  Lemma aff_inverse_some n f s x : 0 < n -> inverse (mk n n f) = Ret (Some (mk n n x)) ->
    aff_inverse (am n f s) = Ret (Some (am n x (fun i => ropp (lapp n x s i)))).
  Proof.
    intros Hn E. unfold aff_inverse, am. cbn [lin shift]. rewrite E. cbn [bind]. rewrite mul_cv. cbn [bind].
    rewrite vec_new_data. cbn [bind]. unfold vec_neg. unfold cv at 1. rewrite mat_neg_mk by lia. cbn [bind].
    fold (cv n (fun i => ropp (lapp n x s i))). rewrite aff_new_am. reflexivity.
  Qed.

  Lemma aff_inverse_none n f s : inverse (mk n n f) = Ret None -> aff_inverse (am n f s) = Ret None.
  Proof. intros E. unfold aff_inverse, am. cbn [lin]. rewrite E. reflexivity. Qed.
End Views.
