(** The machine integer code either panics or does what the code on unbounded
    integers does, as soon as its arithmetic is exact or panics. *)
From Coq Require Import List ZArith Lia Bool PeanoNat.
From Verif Require Import Base Vec Elim Scalars Matrix LinAlg OrdSet PGraph Machine.
Import ListNotations.
Open Scope Z_scope.

Definition safe {A} (m u : outcome A) : Prop := m = u \/ m = Panic.

Lemma safe_refl {A} (m : outcome A) : safe m m.
Proof. left; reflexivity. Qed.
Lemma safe_panic {A} (u : outcome A) : safe Panic u.
Proof. right; reflexivity. Qed.
Lemma safe_bind {A B} (m u : outcome A) (f g : A -> outcome B) :
  safe m u -> (forall a, u = Ret a -> safe (f a) (g a)) -> safe (bind m f) (bind u g).
Proof.
  intros [->| ->] H; [|apply safe_panic]. destruct u as [a| |]; cbn [bind]; [apply H; reflexivity|apply safe_refl|apply safe_refl].
Qed.
Lemma safe_mapM {A B} (f g : A -> outcome B) l : (forall x, In x l -> safe (f x) (g x)) -> safe (mapM f l) (mapM g l).
Proof.
  induction l as [|x l IH]; intros H; cbn [mapM]; [apply safe_refl|].
  apply safe_bind; [apply H; left; auto|]. intros y _. apply safe_bind; [apply IH; intros; apply H; right; auto|]. intros. apply safe_refl.
Qed.
Lemma safe_foldM {A S} (f g : S -> A -> outcome S) s l : (forall s x, In x l -> safe (f s x) (g s x)) -> safe (foldM f s l) (foldM g s l).
Proof.
  revert s. induction l as [|x l IH]; intros s H; cbn [foldM]; [apply safe_refl|].
  apply safe_bind; [apply H; left; auto|]. intros y _. apply IH. intros; apply H; right; auto.
Qed.
Lemma safe_whl {S R} (f g : S -> outcome (S + R)) n s : (forall s, safe (f s) (g s)) -> safe (whl f n s) (whl g n s).
Proof.
  intros H. revert s. induction n as [|n IH]; intros s; cbn [whl]; [apply H|].
  destruct (IH s) as [->| ->]; [|apply safe_panic]. destruct (whl g n s) as [[s'|r]| |]; try apply safe_refl. apply IH.
Qed.
Lemma safe_loop {S R} (f g : S -> outcome (S + R)) n s : (forall s, safe (f s) (g s)) -> safe (loop f n s) (loop g n s).
Proof.
  intros H. unfold loop. destruct (safe_whl f g n s H) as [->| ->]; [apply safe_refl|apply safe_panic].
Qed.
Lemma safe_omap {A B} (h : A -> B) m u : safe m u -> safe (omap h m) (omap h u).
Proof. intros [->| ->]; [apply safe_refl|apply safe_panic]. Qed.

Section Safe.
  Variable chk : Z -> outcome Z.
  Hypothesis Hchk : forall z, chk z = Ret z \/ chk z = Panic.

  Lemma safe_chk z : safe (chk z) (Ret z).
  Proof. apply Hchk. Qed.

  (** a checked step in front of a computation *)
  Lemma safe_step {B} z (f : Z -> outcome B) u : safe (f z) u -> safe (bind (chk z) f) u.
  Proof. intros H. destruct (Hchk z) as [->| ->]; [exact H|apply safe_panic]. Qed.

  Ltac st := cbn [bind]; first [apply safe_step | apply safe_refl | apply safe_panic].

  Lemma submul_safe {B} a q b (f : Z -> outcome B) u : safe (f (a - q * b)) u -> safe (bind (m_submul chk a q b) f) u.
  Proof. intros H. unfold m_submul. destruct (Hchk (q * b)) as [->| ->]; [|apply safe_panic]. cbn [bind]. apply safe_step. exact H. Qed.
  Lemma dot2_safe {B} x y z w (f : Z -> outcome B) u : safe (f (x * y + z * w)) u -> safe (bind (m_dot2 chk x y z w) f) u.
  Proof. intros H. unfold m_dot2. destruct (Hchk (x * y)) as [->| ->]; [|apply safe_panic]. cbn [bind].
    destruct (Hchk (z * w)) as [->| ->]; [|apply safe_panic]. cbn [bind]. apply safe_step. exact H. Qed.
  Lemma quot_safe {B} x y (f : Z -> outcome B) u : safe (f (Z.quot x y)) u -> safe (bind (m_quot chk x y) f) u.
  Proof. intros H. unfold m_quot. destruct (y =? 0); [apply safe_panic|]. apply safe_step. exact H. Qed.

  Lemma gcdx_safe a b : safe (m_gcdx chk a b) (gcdx a b).
  Proof.
    unfold m_gcdx, gcdx. apply safe_loop. intros [[[[[x xn] r] rn] s] sn]. unfold m_gcdx_step, gcdx_step.
    destruct (Z.eqb_spec xn 0); [apply safe_refl|]. apply quot_safe. apply submul_safe. apply submul_safe. apply submul_safe. apply safe_refl.
  Qed.

  Lemma clear_from_safe r s t u det k v b : safe (m_clear_from chk r s t u det k v b)
    (do _ <- covers v b;
     Ret (zip_from k (fun vk bk => bk * t + vk * u) v b, zip_from k (fun bk vk => det * (bk * r + vk * s)) b v)).
  Proof.
    revert k b. induction v as [|x v IH]; intros k [|y b]; cbn [m_clear_from]; try apply safe_refl.
    assert (E : covers (x :: v) (y :: b) = covers v b) by reflexivity. rewrite E. cbn [zip_from].
    assert (D : safe (match k with
          | O => do w <- m_dot2 chk y r x s; do tmp <- chk (det * w); do x' <- m_dot2 chk y t x u; Ret (x', tmp)
          | S _ => Ret (x, y) end)
        (Ret (match k with O => y * t + x * u | S _ => x end, match k with O => det * (y * r + x * s) | S _ => y end))).
    { destruct k; [|apply safe_refl]. apply dot2_safe. apply safe_step. apply dot2_safe. apply safe_refl. }
    destruct D as [->| ->]; [|apply safe_panic]. cbn [bind].
    destruct (IH (pred k) b) as [->| ->]; [|apply safe_panic]. destruct (covers v b) as [[]| |]; cbn [bind]; apply safe_refl.
  Qed.

  Lemma clear_safe col v b : safe (m_clear chk col v b) (clear_column_Z col v b).
  Proof.
    unfold m_clear, clear_column_Z. apply safe_bind; [apply safe_refl|]. intros bc _. apply safe_bind; [apply safe_refl|]. intros vc _.
    apply safe_bind; [apply gcdx_safe|]. intros [[[[g r] s] t] u] _. apply safe_step. apply submul_safe. apply clear_from_safe.
  Qed.

  Lemma neg_from_safe k v : safe (m_neg_from chk k v) (Ret (map_from k Z.opp v)).
  Proof.
    revert k. induction v as [|x v IH]; intros k; cbn [m_neg_from map_from]; [apply safe_refl|].
    assert (D : safe (match k with O => chk (- x) | S _ => Ret x end) (Ret (match k with O => - x | S _ => x end))).
    { destruct k; [apply safe_chk|apply safe_refl]. }
    destruct D as [->| ->]; [|apply safe_panic]. cbn [bind]. destruct (IH (pred k)) as [->| ->]; [|apply safe_panic]. apply safe_refl.
  Qed.
  Lemma normalize_safe col v : safe (m_normalize chk col v) (normalize_column_Z col v).
  Proof.
    unfold m_normalize, normalize_column_Z. apply safe_bind; [apply safe_refl|]. intros vc _. destruct (vc <? 0); [apply neg_from_safe|apply safe_refl].
  Qed.

  Lemma sub_from_safe f k v b : safe (m_sub_from chk f k v b) (do _ <- covers v b; Ret (zip_from k (fun vk bk => vk - bk * f) v b)).
  Proof.
    revert k b. induction v as [|x v IH]; intros k [|y b]; cbn [m_sub_from]; try apply safe_refl.
    assert (E : covers (x :: v) (y :: b) = covers v b) by reflexivity. rewrite E. cbn [zip_from].
    assert (D : safe (match k with O => m_submul chk x y f | S _ => Ret x end) (Ret (match k with O => x - y * f | S _ => x end))).
    { destruct k; [|apply safe_refl]. unfold m_submul. apply safe_step. apply safe_chk. }
    destruct D as [->| ->]; [|apply safe_panic]. cbn [bind].
    destruct (IH (pred k) b) as [->| ->]; [|apply safe_panic]. destruct (covers v b) as [[]| |]; cbn [bind]; apply safe_refl.
  Qed.
  Lemma reduce_safe col v b : safe (m_reduce chk col v b) (reduce_column_Z col v b).
  Proof.
    unfold m_reduce, reduce_column_Z. apply safe_bind; [apply safe_refl|]. intros vc _. apply safe_bind; [apply safe_refl|]. intros bc _.
    unfold m_quot. destruct (bc =? 0); [apply safe_panic|]. cbn [negb assert bind]. apply safe_step. apply safe_step.
    destruct (_ =? 0); [apply safe_refl|]. apply sub_from_safe.
  Qed.

  Lemma residual_safe a x col t : safe (m_residual chk a x col t) (residual a x col t).
  Proof.
    revert a t. induction x as [|xi x IH]; intros [|ai a] t; cbn [m_residual residual]; try apply safe_refl.
    apply safe_bind; [apply safe_refl|]. intros c _. apply submul_safe. apply IH.
  Qed.
  Lemma solve_row_safe a x col b : safe (m_solve_row_from chk a x col b) (solve_row_Z_from a x col b).
  Proof.
    revert col. induction b as [|bc b IH]; intros col; cbn [m_solve_row_from solve_row_Z_from]; [apply safe_refl|].
    apply safe_bind; [apply residual_safe|]. intros t _. apply safe_bind; [apply safe_refl|]. intros ak _.
    unfold m_rem, m_quot. destruct (ak =? 0); [apply safe_panic|]. cbn [negb assert bind].
    destruct (Hchk (Z.quot t ak)) as [E| ->]; [|apply safe_panic]. rewrite E. cbn [bind].
    destruct (Z.rem t ak =? 0); [|apply safe_refl]. apply safe_bind; [apply IH|]. intros. apply safe_refl.
  Qed.

  Lemma mapM_neg_safe (v : list Z) : safe (mapM (fun x => chk (- x)) v) (Ret (map Z.opp v)).
  Proof.
    induction v as [|x v IH]; cbn [mapM map]; [apply safe_refl|]. apply safe_step.
    destruct IH as [->| ->]; [apply safe_refl|apply safe_panic].
  Qed.

  Lemma extend_safe v bs : safe (m_extend_basis chk v bs) (extend_basis v bs).
  Proof.
    revert v. induction bs as [|b bs IH]; intros v; cbn [m_extend_basis extend_basis]; [apply safe_refl|].
    apply safe_bind; [apply safe_refl|]. intros [] _. destruct (pivot v) as [col|]; [|apply safe_refl].
    apply safe_bind; [apply safe_refl|]. intros cb _. destruct (Nat.ltb col cb).
    - destruct (Nat.odd (length (b :: bs))); [|apply safe_refl]. destruct (mapM_neg_safe v) as [->| ->]; [apply safe_refl|apply safe_panic].
    - destruct (Nat.eqb col cb).
      + apply safe_bind; [apply clear_safe|]. intros [v' b'] _. apply safe_bind; [apply IH|]. intros. apply safe_refl.
      + apply safe_bind; [apply IH|]. intros. apply safe_refl.
  Qed.
  Lemma extend_all_safe bs rows : safe (m_extend_all chk bs rows) (extend_all bs rows).
  Proof. apply safe_foldM. intros. apply extend_safe. Qed.

  Lemma reduce_rows_safe todo done col : safe (@reduce_rows Z _ (m_scalar chk) done todo col) (@reduce_rows Z _ Z_scalar done todo col).
  Proof.
    revert done col. induction todo as [|b todo IH]; intros done col; cbn [reduce_rows]; [apply safe_refl|].
    apply safe_bind; [apply safe_refl|]. intros c _. apply safe_bind; [apply normalize_safe|]. intros b' _.
    apply safe_bind; [apply safe_mapM; intros; apply reduce_safe|]. intros done' _. apply IH.
  Qed.
  Lemma solve_rows_safe b r is x : safe (@solve_rows Z _ (m_scalar chk) b r is x) (@solve_rows Z _ Z_scalar b r is x).
  Proof.
    revert x. induction is as [|i is IH]; intros x; cbn [solve_rows]; [apply safe_refl|].
    apply safe_bind; [apply safe_refl|]. intros a _. apply safe_bind; [apply safe_refl|]. intros c _.
    apply safe_bind; [apply solve_row_safe|]. intros [o|] _; [apply IH|apply safe_refl].
  Qed.

  Lemma rank_safe m : safe (m_rank chk m) (rank m).
  Proof.
    apply safe_bind; [apply safe_refl|]. intros rows _. apply safe_bind; [apply extend_all_safe|]. intros. apply safe_refl.
  Qed.
  Lemma diag_safe n bs : safe (m_diag_product chk n bs) (diag_product n bs).
  Proof.
    apply safe_foldM. intros s i _. apply safe_bind; [apply safe_refl|]. intros b _. apply safe_bind; [apply safe_refl|]. intros x _.
    apply safe_chk.
  Qed.
  Lemma mul3_safe {B} x y z (f : Z -> outcome B) u : safe (f (x * y * z)) u -> safe (bind (m_mul3 chk x y z) f) u.
  Proof. intros H. unfold m_mul3. destruct (Hchk (x * y)) as [->| ->]; [|apply safe_panic]. cbn [bind]. apply safe_step. exact H. Qed.
  Lemma determinant_safe m : safe (m_determinant chk m) (determinant m).
  Proof.
    unfold m_determinant, determinant. apply safe_bind; [apply safe_refl|]. intros [] _.
    destruct (nrows m) as [|[|[|[|n]]]]; try apply safe_refl.
    - do 4 (apply safe_bind; [apply safe_refl|]; intros ? _). apply safe_step. apply safe_step. apply safe_chk.
    - do 9 (apply safe_bind; [apply safe_refl|]; intros ? _).
      apply mul3_safe. apply mul3_safe. apply safe_step. apply mul3_safe. apply safe_step. apply mul3_safe. apply safe_step.
      apply mul3_safe. apply safe_step. apply mul3_safe. apply safe_chk.
    - apply safe_bind; [apply safe_refl|]. intros rows _. apply safe_bind; [apply extend_all_safe|]. intros bs _.
      destruct (Nat.ltb _ _); [apply safe_refl|apply diag_safe].
  Qed.
  Lemma reduced_basis_safe m : safe (m_reduced_basis chk m) (reduced_basis m).
  Proof.
    unfold m_reduced_basis, reduced_basis, reduced_rows. apply safe_bind; [apply safe_refl|]. intros rows _.
    destruct (extend_all_safe [] rows) as [->| ->]; [|apply safe_panic]. destruct (extend_all [] rows) as [bs| |]; cbn [bind]; try apply safe_refl.
    apply safe_bind; [apply reduce_rows_safe|]. intros. apply safe_refl.
  Qed.
  Lemma mat_mul_safe a b : safe (m_mat_mul chk a b) (mat_mul a b).
  Proof.
    apply safe_bind; [apply safe_refl|]. intros _ _. apply safe_bind; [|intros; apply safe_refl].
    apply safe_mapM. intros i _. apply safe_mapM. intros j _. apply safe_foldM. intros s k _.
    apply safe_bind; [apply safe_refl|]. intros x _. apply safe_bind; [apply safe_refl|]. intros y _. apply safe_step. apply safe_chk.
  Qed.
  Ltac pure := apply safe_bind; [apply safe_refl|]; intros ? _.
  Lemma solve_safe a b : safe (m_solve chk a b) (solve a b).
  Proof.
    unfold m_solve, solve. do 2 pure. apply safe_bind; [apply reduced_basis_safe|]. intros t _.
    destruct (Nat.eqb (nrows t) 0); [apply safe_refl|]. do 2 pure. apply safe_bind; [apply rank_safe|]. intros rk _.
    destruct (Nat.ltb rk _); [apply safe_refl|]. do 3 pure. apply safe_bind; [apply reduced_basis_safe|]. intros t2 _.
    do 4 pure. apply safe_bind; [apply solve_rows_safe|]. intros [x|] _; [|apply safe_refl]. do 2 pure.
    apply safe_bind; [apply mat_mul_safe|]. intros. apply safe_refl.
  Qed.
  Lemma null_space_safe a : safe (m_null_space chk a) (null_space a).
  Proof.
    unfold m_null_space, null_space. do 3 pure. apply safe_bind; [apply reduced_basis_safe|]. intros t _. do 2 pure.
    apply safe_bind; [apply rank_safe|]. intros. apply safe_refl.
  Qed.
  Lemma inverse_safe a : safe (m_inverse chk a) (inverse a).
  Proof. unfold m_inverse, inverse. do 2 pure. apply solve_safe. Qed.

  (** *** graphs *)
  Lemma mapM_chk_safe l : safe (mapM chk l) (Ret l).
  Proof.
    induction l as [|x l IH]; cbn [mapM]; [apply safe_refl|]. apply safe_step. destruct IH as [->| ->]; [apply safe_refl|apply safe_panic].
  Qed.
  Lemma rev_safe e : safe (m_rev chk e) (Ret (rev e)).
  Proof. unfold m_rev, m_sneg. destruct (mapM_chk_safe (sneg (shift e))) as [->| ->]; [apply safe_refl|apply safe_panic]. Qed.
  Lemma canonical_safe e : safe (m_canonical chk e) (Ret (canonical e)).
  Proof. unfold m_canonical, canonical. destruct (_ || _); [apply rev_safe|apply safe_refl]. Qed.
  Lemma mapM_safe_map {A B} (f : A -> outcome B) (g : A -> B) l : (forall x, safe (f x) (Ret (g x))) -> safe (mapM f l) (Ret (map g l)).
  Proof.
    intros H. induction l as [|x l IH]; cbn [mapM map]; [apply safe_refl|].
    destruct (H x) as [->| ->]; [|apply safe_panic]. cbn [bind]. destruct IH as [->| ->]; [apply safe_refl|apply safe_panic].
  Qed.
  Lemma gnew_safe d raw : safe (m_gnew chk d raw) (Ret (gnew d raw)).
  Proof. unfold m_gnew, gnew. destruct (mapM_safe_map (m_canonical chk) canonical raw canonical_safe) as [->| ->]; [apply safe_refl|apply safe_panic]. Qed.
  Lemma incidence_map_safe g : safe (m_incidence_map chk g) (Ret (incidence_map g)).
  Proof.
    unfold m_incidence_map, incidence_map. rewrite flat_map_concat_map.
    destruct (mapM_safe_map (fun e => do r <- m_rev chk e; Ret [e; r]) (fun e => [e; rev e]) (gedges g)) as [->| ->]; [|apply safe_refl|apply safe_panic].
    intros e. destruct (rev_safe e) as [->| ->]; [apply safe_refl|apply safe_panic].
  Qed.
  Lemma incidences_safe g v : safe (m_incidences chk g v) (incidences g v).
  Proof. unfold m_incidences, incidences. destruct (incidence_map_safe g) as [->| ->]; [apply safe_refl|apply safe_panic]. Qed.
  Lemma directed_edges_safe g : safe (m_directed_edges chk g) (directed_edges g).
  Proof. apply safe_omap. apply safe_mapM. intros. apply incidences_safe. Qed.

  Lemma sadd_safe {B} a b (f : shiftv -> outcome B) u : safe (f (sadd a b)) u -> safe (bind (m_sadd chk a b) f) u.
  Proof. intros H. unfold m_sadd. destruct (mapM_chk_safe (sadd a b)) as [->| ->]; [exact H|apply safe_panic]. Qed.
  Lemma ssub_safe {B} a b (f : shiftv -> outcome B) u : safe (f (ssub a b)) u -> safe (bind (m_ssub chk a b) f) u.
  Proof. intros H. unfold m_ssub. destruct (mapM_chk_safe (ssub a b)) as [->| ->]; [exact H|apply safe_panic]. Qed.

  Lemma cs_next_safe order g st : safe (m_cs_next chk order g st) (cs_next order g st).
  Proof.
    destruct st as [last this]. apply safe_bind; [|intros; apply safe_refl]. apply safe_foldM. intros acc vs _.
    apply safe_bind; [apply incidences_safe|]. intros inc _. revert acc. induction inc as [|e inc IH]; intros acc; cbn [foldM fold_left]; [apply safe_refl|].
    unfold m_sadd. destruct (mapM_chk_safe (sadd (shift e) (snd vs))) as [->| ->]; [|apply safe_panic]. cbn [bind]. apply IH.
  Qed.

  Lemma cs_take_safe order g n st : safe (m_cs_take chk order g n st) (cs_take order g n st).
  Proof.
    revert st. induction n as [|n IH]; intros st; cbn [m_cs_take cs_take]; [apply safe_refl|].
    apply safe_bind; [apply cs_next_safe|]. intros [st' x] _. apply safe_bind; [apply IH|]. intros. apply safe_refl.
  Qed.

  Lemma tr_edge_safe st e : safe (m_tr_edge chk st e) (tr_edge st e).
  Proof.
    destruct st as [[[shifts seen] queue] result]. unfold m_tr_edge, tr_edge. apply safe_bind.
    - destruct (aget Nat.eqb (tail e) shifts); [apply safe_refl|]. pure. apply sadd_safe. apply safe_refl.
    - intros [sh q] _. destruct (canonical_safe e) as [->| ->]; [|apply safe_panic]. cbn [bind].
      destruct (memb edge_eqb (canonical e) seen); [apply safe_refl|]. pure. apply sadd_safe. pure. apply ssub_safe. apply safe_refl.
  Qed.
  Lemma traverse_safe g v : safe (m_traverse chk g v) (traverse g v).
  Proof.
    apply safe_loop. intros [[[shifts seen] queue] result]. unfold m_tr_body, tr_body. destruct queue as [|w queue]; [apply safe_refl|].
    apply safe_bind; [apply incidences_safe|]. intros inc _. apply safe_omap. apply safe_foldM. intros. apply tr_edge_safe.
  Qed.
  Lemma shift_normalized_safe g : safe (m_shift_normalized chk g) (shift_normalized g).
  Proof.
    apply safe_bind; [|intros [x es] _; apply gnew_safe]. apply safe_foldM. intros [seen es] v _.
    destruct (memb Nat.eqb v seen); [apply safe_refl|]. apply safe_bind; [apply traverse_safe|]. intros. apply safe_refl.
  Qed.
  Lemma component_measures_safe g v : safe (m_component_measures chk g v) (component_measures g v).
  Proof.
    apply safe_bind; [apply traverse_safe|]. intros es _. apply safe_bind; [apply safe_foldM; intros; apply extend_safe|]. intros basis _.
    apply safe_bind; [|intros; apply safe_refl]. destruct (Nat.eqb _ _); [|apply safe_refl].
    apply safe_bind; [apply diag_safe|]. intros d _. apply safe_step. apply safe_refl.
  Qed.
  Lemma is_connected_safe g : safe (m_is_connected chk g) (is_connected g).
  Proof.
    unfold m_is_connected, is_connected. destruct (vertices g) as [|v0 vs]; [apply safe_refl|].
    apply safe_bind; [apply component_measures_safe|]. intros [[size rk] mult] _. apply safe_refl.
  Qed.
End Safe.
