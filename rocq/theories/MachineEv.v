(** With enough bits the machine integer code does what the code on unbounded
    integers does: every function only computes finitely many numbers. *)
From Coq Require Import List ZArith Lia Bool PeanoNat.
From Verif Require Import Base Vec Elim Scalars Matrix LinAlg OrdSet PGraph Machine.
Import ListNotations.
Open Scope Z_scope.

(** [m] computes [u] whenever the arithmetic is exact up to some size *)
Definition ev {A} (m : (Z -> outcome Z) -> outcome A) (u : outcome A) : Prop :=
  exists B, forall chk, (forall z, Z.abs z <= B -> chk z = Ret z) -> m chk = u.

Lemma ev_refl {A} (u : outcome A) : ev (fun _ => u) u.
Proof. exists 0. reflexivity. Qed.
Lemma ev_chk z : ev (fun chk => chk z) (Ret z).
Proof. exists (Z.abs z). intros chk H. apply H. lia. Qed.
Lemma ev_bind {A B} m u (f : _ -> A -> outcome B) (g : A -> outcome B) :
  ev m u -> (forall a, u = Ret a -> ev (fun c => f c a) (g a)) -> ev (fun c => bind (m c) (f c)) (bind u g).
Proof.
  intros [b Hb] H. destruct u as [a| |].
  - destruct (H a eq_refl) as [b' Hb']. exists (Z.max b b'). intros chk C.
    rewrite (Hb chk) by (intros; apply C; lia). cbn [bind]. apply Hb'. intros; apply C; lia.
  - exists b. intros chk C. rewrite Hb; auto.
  - exists b. intros chk C. rewrite Hb; auto.
Qed.
Lemma ev_to {A B} m x (f : _ -> A -> outcome B) u : ev m (Ret x) -> ev (fun c => f c x) u -> ev (fun c => bind (m c) (f c)) u.
Proof. intros H K. apply (ev_bind m (Ret x) f (fun _ => u)); auto. intros a E. injection E as <-. exact K. Qed.
Lemma ev_step {B} z (f : _ -> Z -> outcome B) u : ev (fun c => f c z) u -> ev (fun c => bind (c z) (f c)) u.
Proof. intros H. apply (ev_to (fun c => c z) z); auto. apply ev_chk. Qed.
Lemma ev_mapM {A B} (f : _ -> A -> outcome B) (g : A -> outcome B) l :
  (forall x, In x l -> ev (fun c => f c x) (g x)) -> ev (fun c => mapM (f c) l) (mapM g l).
Proof.
  induction l as [|x l IH]; intros H; cbn [mapM]; [apply ev_refl|].
  apply ev_bind; [apply H; left; auto|]. intros y _. apply ev_bind; [apply IH; intros; apply H; right; auto|]. intros. apply ev_refl.
Qed.
Lemma ev_foldM {A S} (f : _ -> S -> A -> outcome S) (g : S -> A -> outcome S) s l :
  (forall s x, In x l -> ev (fun c => f c s x) (g s x)) -> ev (fun c => foldM (f c) s l) (foldM g s l).
Proof.
  revert s. induction l as [|x l IH]; intros s H; cbn [foldM]; [apply ev_refl|].
  apply ev_bind; [apply H; left; auto|]. intros y _. apply IH. intros; apply H; right; auto.
Qed.
Lemma ev_whl {S R} (f : _ -> S -> outcome (S + R)) (g : S -> outcome (S + R)) n s :
  (forall s, ev (fun c => f c s) (g s)) -> ev (fun c => whl (f c) n s) (whl g n s).
Proof.
  intros H. revert s. induction n as [|n IH]; intros s; cbn [whl]; [apply H|].
  destruct (IH s) as [b Hb]. destruct (whl g n s) as [[s'|r]| |] eqn:E.
  - destruct (IH s') as [b' Hb']. exists (Z.max b b'). intros chk C. rewrite (Hb chk) by (intros; apply C; lia).
    apply Hb'. intros; apply C; lia.
  - exists b. intros chk C. rewrite Hb; auto.
  - exists b. intros chk C. rewrite Hb; auto.
  - exists b. intros chk C. rewrite Hb; auto.
Qed.
Lemma ev_loop {S R} (f : _ -> S -> outcome (S + R)) (g : S -> outcome (S + R)) n s :
  (forall s, ev (fun c => f c s) (g s)) -> ev (fun c => loop (f c) n s) (loop g n s).
Proof.
  intros H. unfold loop. destruct (ev_whl f g n s H) as [b Hb]. exists b. intros chk C. rewrite Hb; auto.
Qed.
Lemma ev_omap {A B} (h : A -> B) m u : ev m u -> ev (fun c => omap h (m c)) (omap h u).
Proof. intros [b Hb]. exists b. intros chk C. rewrite Hb; auto. Qed.

Lemma ev_submul {B} a q b (f : _ -> Z -> outcome B) u : ev (fun c => f c (a - q * b)) u -> ev (fun c => bind (m_submul c a q b) (f c)) u.
Proof. intros H. apply (ev_to (fun c => m_submul c a q b) (a - q * b)); auto. apply ev_step. apply ev_chk. Qed.
Lemma ev_dot2 {B} x y z w (f : _ -> Z -> outcome B) u : ev (fun c => f c (x * y + z * w)) u -> ev (fun c => bind (m_dot2 c x y z w) (f c)) u.
Proof. intros H. apply (ev_to (fun c => m_dot2 c x y z w) (x * y + z * w)); auto. apply ev_step. apply ev_step. apply ev_chk. Qed.
Lemma ev_quot {B} x y (f : _ -> Z -> outcome B) u : y <> 0 -> ev (fun c => f c (Z.quot x y)) u -> ev (fun c => bind (m_quot c x y) (f c)) u.
Proof. intros N H. apply (ev_to (fun c => m_quot c x y) (Z.quot x y)); auto. unfold m_quot. destruct (Z.eqb_spec y 0); [contradiction|]. apply ev_chk. Qed.

Lemma gcdx_ev a b : ev (fun c => m_gcdx c a b) (gcdx a b).
Proof.
  unfold m_gcdx, gcdx. apply ev_loop. intros [[[[[x xn] r] rn] s] sn]. unfold m_gcdx_step, gcdx_step.
  destruct (Z.eqb_spec xn 0); [apply ev_refl|]. apply ev_quot; auto. apply ev_submul. apply ev_submul. apply ev_submul. apply ev_refl.
Qed.

Lemma clear_from_ev r s t u det k v b : ev (fun c => m_clear_from c r s t u det k v b)
  (do _ <- covers v b;
   Ret (zip_from k (fun vk bk => bk * t + vk * u) v b, zip_from k (fun bk vk => det * (bk * r + vk * s)) b v)).
Proof.
  revert k b. induction v as [|x v IH]; intros k [|y b]; cbn [m_clear_from]; try apply ev_refl.
  assert (E : covers (x :: v) (y :: b) = covers v b) by reflexivity. rewrite E. cbn [zip_from].
  eapply (ev_to _ (match k with O => y * t + x * u | S _ => x end, match k with O => det * (y * r + x * s) | S _ => y end)).
  { destruct k; [|apply ev_refl]. apply ev_dot2. apply ev_step. apply ev_dot2. apply ev_refl. }
  cbn beta iota. destruct (IH (pred k) b) as [B HB]. exists B. intros chk C. rewrite HB by auto.
  destruct (covers v b) as [[]| |]; reflexivity.
Qed.

Lemma clear_ev col v b : ev (fun c => m_clear c col v b) (clear_column_Z col v b).
Proof.
  unfold m_clear, clear_column_Z. apply ev_bind; [apply ev_refl|]. intros bc _. apply ev_bind; [apply ev_refl|]. intros vc _.
  apply ev_bind; [apply gcdx_ev|]. intros [[[[g r] s] t] u] _. apply ev_step. apply ev_submul. apply clear_from_ev.
Qed.

Lemma neg_from_ev k v : ev (fun c => m_neg_from c k v) (Ret (map_from k Z.opp v)).
Proof.
  revert k. induction v as [|x v IH]; intros k; cbn [m_neg_from map_from]; [apply ev_refl|].
  eapply (ev_to _ (match k with O => - x | S _ => x end)).
  { destruct k; [apply ev_chk|apply ev_refl]. }
  eapply ev_to; [apply IH|]. apply ev_refl.
Qed.
Lemma normalize_ev col v : ev (fun c => m_normalize c col v) (normalize_column_Z col v).
Proof.
  unfold m_normalize, normalize_column_Z. apply ev_bind; [apply ev_refl|]. intros vc _. destruct (vc <? 0); [apply neg_from_ev|apply ev_refl].
Qed.

Lemma sub_from_ev f k v b : ev (fun c => m_sub_from c f k v b) (do _ <- covers v b; Ret (zip_from k (fun vk bk => vk - bk * f) v b)).
Proof.
  revert k b. induction v as [|x v IH]; intros k [|y b]; cbn [m_sub_from]; try apply ev_refl.
  assert (E : covers (x :: v) (y :: b) = covers v b) by reflexivity. rewrite E. cbn [zip_from].
  eapply (ev_to _ (match k with O => x - y * f | S _ => x end)).
  { destruct k; [|apply ev_refl]. apply ev_step. apply ev_chk. }
  destruct (IH (pred k) b) as [B HB]. exists B. intros chk C. rewrite HB by auto. destruct (covers v b) as [[]| |]; reflexivity.
Qed.
Lemma reduce_ev col v b : ev (fun c => m_reduce c col v b) (reduce_column_Z col v b).
Proof.
  unfold m_reduce, reduce_column_Z. apply ev_bind; [apply ev_refl|]. intros vc _. apply ev_bind; [apply ev_refl|]. intros bc _.
  unfold m_quot. destruct (bc =? 0); [exact (ev_refl Panic)|]. cbn [negb assert bind]. apply ev_step. apply ev_step.
  destruct (_ =? 0); [apply ev_refl|]. apply sub_from_ev.
Qed.

Lemma residual_ev a x col t : ev (fun c => m_residual c a x col t) (residual a x col t).
Proof.
  revert a t. induction x as [|xi x IH]; intros [|ai a] t; cbn [m_residual residual]; try apply ev_refl.
  apply ev_bind; [apply ev_refl|]. intros c _. apply ev_submul. apply IH.
Qed.
Lemma solve_row_ev a x col b : ev (fun c => m_solve_row_from c a x col b) (solve_row_Z_from a x col b).
Proof.
  revert col. induction b as [|bc b IH]; intros col; cbn [m_solve_row_from solve_row_Z_from]; [apply ev_refl|].
  apply ev_bind; [apply residual_ev|]. intros t _. apply ev_bind; [apply ev_refl|]. intros ak _.
  unfold m_rem, m_quot. destruct (ak =? 0); [exact (ev_refl Panic)|]. cbn [negb assert bind].
  eapply (ev_to _ (Z.rem t ak)); [apply ev_step; apply ev_refl|].
  destruct (Z.rem t ak =? 0); [|apply ev_refl]. apply ev_step. apply ev_bind; [apply IH|]. intros. apply ev_refl.
Qed.

Lemma mapM_neg_ev (v : list Z) : ev (fun c => mapM (fun x => c (- x)) v) (Ret (map Z.opp v)).
Proof.
  induction v as [|x v IH]; cbn [mapM map]; [apply ev_refl|]. apply ev_step. eapply ev_to; [apply IH|]. apply ev_refl.
Qed.

Lemma extend_ev v bs : ev (fun c => m_extend_basis c v bs) (extend_basis v bs).
Proof.
  revert v. induction bs as [|b bs IH]; intros v; cbn [m_extend_basis extend_basis]; [apply ev_refl|].
  apply ev_bind; [apply ev_refl|]. intros [] _. destruct (pivot v) as [col|]; [|apply ev_refl].
  apply ev_bind; [apply ev_refl|]. intros cb _. destruct (Nat.ltb col cb).
  - destruct (Nat.odd (length (b :: bs))); [|apply ev_refl]. eapply ev_to; [apply mapM_neg_ev|]. apply ev_refl.
  - destruct (Nat.eqb col cb).
    + apply ev_bind; [apply clear_ev|]. intros [v' b'] _. apply ev_bind; [apply IH|]. intros. apply ev_refl.
    + apply ev_bind; [apply IH|]. intros. apply ev_refl.
Qed.
Lemma extend_all_ev bs rows : ev (fun c => m_extend_all c bs rows) (extend_all bs rows).
Proof. apply (ev_foldM (fun c bs v => m_extend_basis c v bs)). intros. apply extend_ev. Qed.

Lemma reduce_rows_ev todo done col : ev (fun c => @reduce_rows Z _ (m_scalar c) done todo col) (@reduce_rows Z _ Z_scalar done todo col).
Proof.
  revert done col. induction todo as [|b todo IH]; intros done col; cbn [reduce_rows]; [apply ev_refl|].
  apply ev_bind; [apply ev_refl|]. intros c _. apply ev_bind; [apply normalize_ev|]. intros b' _.
  apply ev_bind; [apply (ev_mapM (fun c0 r => m_reduce c0 c r b')); intros; apply reduce_ev|]. intros done' _. apply IH.
Qed.
Lemma solve_rows_ev b r is x : ev (fun c => @solve_rows Z _ (m_scalar c) b r is x) (@solve_rows Z _ Z_scalar b r is x).
Proof.
  revert x. induction is as [|i is IH]; intros x; cbn [solve_rows]; [apply ev_refl|].
  apply ev_bind; [apply ev_refl|]. intros a _. apply ev_bind; [apply ev_refl|]. intros c _.
  apply ev_bind; [apply solve_row_ev|]. intros [o|] _; [apply IH|apply ev_refl].
Qed.

Lemma rank_ev m : ev (fun c => m_rank c m) (rank m).
Proof.
  unfold m_rank, rank. apply ev_bind; [apply ev_refl|]. intros rows _. apply ev_bind; [apply extend_all_ev|]. intros. apply ev_refl.
Qed.
Lemma diag_ev n bs : ev (fun c => m_diag_product c n bs) (diag_product n bs).
Proof.
  unfold m_diag_product, diag_product. apply ev_foldM. intros s i _. apply ev_bind; [apply ev_refl|]. intros b _. apply ev_bind; [apply ev_refl|]. intros x _.
  apply ev_chk.
Qed.
Lemma mul3_ev {B} x y z (f : _ -> Z -> outcome B) u : ev (fun c => f c (x * y * z)) u -> ev (fun c => bind (m_mul3 c x y z) (f c)) u.
Proof. intros H. apply (ev_to (fun c => m_mul3 c x y z) (x * y * z)); auto. apply ev_step. apply ev_chk. Qed.
Lemma determinant_ev m : ev (fun c => m_determinant c m) (determinant m).
Proof.
  unfold m_determinant, determinant. apply ev_bind; [apply ev_refl|]. intros [] _.
  destruct (nrows m) as [|[|[|[|n]]]]; try apply ev_refl.
  - do 4 (apply ev_bind; [apply ev_refl|]; intros ? _). apply ev_step. apply ev_step. apply ev_chk.
  - do 9 (apply ev_bind; [apply ev_refl|]; intros ? _).
    apply mul3_ev. apply mul3_ev. apply ev_step. apply mul3_ev. apply ev_step. apply mul3_ev. apply ev_step.
    apply mul3_ev. apply ev_step. apply mul3_ev. apply ev_chk.
  - apply ev_bind; [apply ev_refl|]. intros rows _. apply ev_bind; [apply extend_all_ev|]. intros bs _.
    destruct (Nat.ltb _ _); [apply ev_refl|apply diag_ev].
Qed.
Lemma reduced_basis_ev m : ev (fun c => m_reduced_basis c m) (reduced_basis m).
Proof.
  assert (E : reduced_basis m = do rows <- get_rows m; do bs <- extend_all [] rows; do rs <- @reduce_rows Z _ Z_scalar [] bs 0; do ms <- mapM mat_row rs; vstack ms).
  { unfold reduced_basis, reduced_rows. destruct (get_rows m); cbn [bind]; auto. destruct (extend_all [] _); reflexivity. }
  rewrite E. unfold m_reduced_basis. apply ev_bind; [apply ev_refl|]. intros rows _.
  apply ev_bind; [apply extend_all_ev|]. intros bs _. apply ev_bind; [apply reduce_rows_ev|]. intros. apply ev_refl.
Qed.
Lemma mat_mul_ev a b : ev (fun c => m_mat_mul c a b) (mat_mul a b).
Proof.
  unfold m_mat_mul, mat_mul. apply ev_bind; [apply ev_refl|]. intros _ _. apply ev_bind; [|intros; apply ev_refl].
  apply ev_mapM. intros i _. apply ev_mapM. intros j _. unfold m_mul_entry, mul_entry. apply ev_foldM. intros s k _.
  apply ev_bind; [apply ev_refl|]. intros x _. apply ev_bind; [apply ev_refl|]. intros y _. apply ev_step. apply ev_chk.
Qed.
Ltac pure := apply ev_bind; [apply ev_refl|]; intros ? _.
Lemma solve_ev a b : ev (fun c => m_solve c a b) (solve a b).
Proof.
  unfold m_solve, solve. do 2 pure. apply ev_bind; [apply reduced_basis_ev|]. intros t _.
  destruct (Nat.eqb (nrows t) 0); [apply ev_refl|]. do 2 pure. apply ev_bind; [apply rank_ev|]. intros rk _.
  destruct (Nat.ltb rk _); [apply ev_refl|]. do 3 pure. apply ev_bind; [apply reduced_basis_ev|]. intros t2 _.
  do 4 pure. apply ev_bind; [apply solve_rows_ev|]. intros [x|] _; [|apply ev_refl]. do 2 pure.
  apply ev_bind; [apply mat_mul_ev|]. intros. apply ev_refl.
Qed.
Lemma null_space_ev a : ev (fun c => m_null_space c a) (null_space a).
Proof.
  unfold m_null_space, null_space. do 3 pure. apply ev_bind; [apply reduced_basis_ev|]. intros t _. do 2 pure.
  apply ev_bind; [apply rank_ev|]. intros. apply ev_refl.
Qed.
Lemma inverse_ev a : ev (fun c => m_inverse c a) (inverse a).
Proof. unfold m_inverse, inverse. do 2 pure. apply solve_ev. Qed.

(** *** graphs *)
Lemma mapM_chk_ev l : ev (fun c => mapM c l) (Ret l).
Proof.
  induction l as [|x l IH]; cbn [mapM]; [apply ev_refl|]. apply ev_step. eapply ev_to; [apply IH|]. apply ev_refl.
Qed.
Lemma rev_ev e : ev (fun c => m_rev c e) (Ret (rev e)).
Proof. unfold m_rev, m_sneg. eapply ev_to; [apply mapM_chk_ev|]. apply ev_refl. Qed.
Lemma canonical_ev e : ev (fun c => m_canonical c e) (Ret (canonical e)).
Proof. unfold m_canonical, canonical. destruct (_ || _); [apply rev_ev|apply ev_refl]. Qed.
Lemma mapM_ev_map {A B} (f : _ -> A -> outcome B) (g : A -> B) l : (forall x, ev (fun c => f c x) (Ret (g x))) -> ev (fun c => mapM (f c) l) (Ret (map g l)).
Proof.
  intros H. induction l as [|x l IH]; cbn [mapM map]; [apply ev_refl|].
  eapply ev_to; [apply H|]. eapply ev_to; [apply IH|]. apply ev_refl.
Qed.
Lemma gnew_ev d raw : ev (fun c => m_gnew c d raw) (Ret (gnew d raw)).
Proof. unfold m_gnew, gnew. eapply ev_to; [apply (mapM_ev_map (fun c => m_canonical c) canonical); apply canonical_ev|]. apply ev_refl. Qed.
Lemma incidence_map_ev g : ev (fun c => m_incidence_map c g) (Ret (incidence_map g)).
Proof.
  unfold m_incidence_map, incidence_map. rewrite flat_map_concat_map.
  eapply ev_to; [apply (mapM_ev_map (fun c e => do r <- m_rev c e; Ret [e; r]) (fun e => [e; rev e]))|apply ev_refl].
  intros e. eapply ev_to; [apply rev_ev|]. apply ev_refl.
Qed.
Lemma incidences_ev g v : ev (fun c => m_incidences c g v) (incidences g v).
Proof. unfold m_incidences, incidences. eapply ev_to; [apply incidence_map_ev|]. apply ev_refl. Qed.
Lemma directed_edges_ev g : ev (fun c => m_directed_edges c g) (directed_edges g).
Proof. unfold m_directed_edges, directed_edges. apply ev_omap. apply (ev_mapM (fun c => m_incidences c g)). intros. apply incidences_ev. Qed.

Lemma sadd_ev {B} a b (f : _ -> shiftv -> outcome B) u : ev (fun c => f c (sadd a b)) u -> ev (fun c => bind (m_sadd c a b) (f c)) u.
Proof. intros H. apply (ev_to (fun c => m_sadd c a b) (sadd a b)); auto. apply mapM_chk_ev. Qed.
Lemma ssub_ev {B} a b (f : _ -> shiftv -> outcome B) u : ev (fun c => f c (ssub a b)) u -> ev (fun c => bind (m_ssub c a b) (f c)) u.
Proof. intros H. apply (ev_to (fun c => m_ssub c a b) (ssub a b)); auto. apply mapM_chk_ev. Qed.

Lemma cs_next_ev order g st : ev (fun c => m_cs_next c order g st) (cs_next order g st).
Proof.
  destruct st as [last this]. unfold m_cs_next, cs_next. apply ev_bind; [|intros; apply ev_refl]. apply ev_foldM. intros acc vs _.
  apply ev_bind; [apply incidences_ev|]. intros inc _. revert acc. induction inc as [|e inc IH]; intros acc; cbn [foldM fold_left]; [apply ev_refl|].
  eapply ev_to; [apply sadd_ev; apply ev_refl|]. apply IH.
Qed.

Lemma cs_take_ev order g n st : ev (fun c => m_cs_take c order g n st) (cs_take order g n st).
Proof.
  revert st. induction n as [|n IH]; intros st; cbn [m_cs_take cs_take]; [apply ev_refl|].
  apply ev_bind; [apply cs_next_ev|]. intros [st' x] _. apply ev_bind; [apply IH|]. intros. apply ev_refl.
Qed.

Lemma tr_edge_ev st e : ev (fun c => m_tr_edge c st e) (tr_edge st e).
Proof.
  destruct st as [[[shifts seen] queue] result]. unfold m_tr_edge, tr_edge. apply ev_bind.
  - destruct (aget Nat.eqb (tail e) shifts); [apply ev_refl|]. pure. apply sadd_ev. apply ev_refl.
  - intros [sh q] _. eapply ev_to; [apply canonical_ev|].
    destruct (memb edge_eqb (canonical e) seen); [apply ev_refl|]. pure. apply sadd_ev. pure. apply ssub_ev. apply ev_refl.
Qed.
Lemma traverse_ev g v : ev (fun c => m_traverse c g v) (traverse g v).
Proof.
  unfold m_traverse, traverse. apply (ev_loop (fun c => m_tr_body c g)). intros [[[shifts seen] queue] result]. unfold m_tr_body, tr_body. destruct queue as [|w queue]; [apply ev_refl|].
  apply ev_bind; [apply incidences_ev|]. intros inc _. apply ev_omap. apply (ev_foldM (fun c => m_tr_edge c)). intros. apply tr_edge_ev.
Qed.
Lemma shift_normalized_ev g : ev (fun c => m_shift_normalized c g) (shift_normalized g).
Proof.
  unfold m_shift_normalized, shift_normalized. apply ev_bind; [|intros [x es] _; apply gnew_ev]. apply ev_foldM. intros [seen es] v _.
  destruct (memb Nat.eqb v seen); [apply ev_refl|]. apply ev_bind; [apply traverse_ev|]. intros. apply ev_refl.
Qed.
Lemma component_measures_ev g v : ev (fun c => m_component_measures c g v) (component_measures g v).
Proof.
  unfold m_component_measures, component_measures. apply ev_bind; [apply traverse_ev|]. intros es _.
  apply ev_bind; [apply (ev_foldM (fun c bs e => m_extend_basis c (shift e) bs)); intros; apply extend_ev|]. intros basis _.
  apply ev_bind; [|intros; apply ev_refl]. destruct (Nat.eqb _ _); [|apply ev_refl].
  apply ev_bind; [apply diag_ev|]. intros d _. apply ev_step. apply ev_refl.
Qed.
Lemma is_connected_ev g : ev (fun c => m_is_connected c g) (is_connected g).
Proof.
  unfold m_is_connected, is_connected. destruct (vertices g) as [|v0 vs]; [apply ev_refl|].
  apply ev_bind; [apply component_measures_ev|]. intros [[size rk] mult] _. apply ev_refl.
Qed.
