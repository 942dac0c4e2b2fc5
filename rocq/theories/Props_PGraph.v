(** Properties C25, C26 and C28-C31 of src/pgraphs.rs: construction of graphs,
    incidences, coordination sequences, normalisation, components,
    connectivity.  The net of a graph and related notions are in Net.v. *)
From Coq Require Import List ZArith Lia Bool PeanoNat Permutation Sorted.
From Verif Require Import Base Vec Elim Scalars Props_LinAlg OrdSet PGraph Net PGraphBase Traverse Index Component Normalize Shells.
Import ListNotations.
Open Scope nat_scope.

(** ** C25 *)
(** [e] occurs in [es] in one of its two directions *)
Definition occurs (e : edge) (es : list edge) : Prop :=
  exists f, In f es /\ (e = f \/ e = Edge (tail f) (head f) (map Z.opp (shift f))).
(** oriented from the smaller to the larger vertex; loops: the first nonzero component of the
    shift is positive *)
Definition oriented (e : edge) : Prop :=
  head e < tail e \/
  head e = tail e /\ forall i, (forall j, j < i -> nth j (shift e) 0%Z = 0%Z) -> (0 <= nth i (shift e) 0)%Z.
(** lexicographic order on (head, tail, shift) *)
Definition edge_lt (e f : edge) : Prop :=
  head e < head f \/ head e = head f /\ (tail e < tail f \/ tail e = tail f /\
    exists i, (forall j, j < i -> nth j (shift e) 0%Z = nth j (shift f) 0%Z) /\ (nth i (shift e) 0 < nth i (shift f) 0)%Z).

Lemma not_negative_spec s : s_is_negative s = false <->
  forall i, (forall j, j < i -> nth j s 0%Z = 0%Z) -> (0 <= nth i s 0)%Z.
Proof.
  induction s as [|x s IH]; simpl.
  - split; auto. intros _ [|i] _; lia.
  - split.
    + intros H i Hi. apply orb_false_iff in H as [H1 H2]. apply Z.ltb_ge in H1. destruct i as [|i]; auto.
      assert (x = 0)%Z by (apply (Hi 0); lia). subst. simpl in H2. apply IH; auto. intros j Hj. apply (Hi (S j)). lia.
    + intros H. apply orb_false_iff. assert (H0 : (0 <= x)%Z) by (apply (H 0); intros; lia). split; [apply Z.ltb_ge; auto|].
      destruct (Z.eqb_spec x 0) as [->|]; auto. simpl. apply IH. intros i Hi. apply (H (S i)). intros [|j] Hj; auto. apply Hi. lia.
Qed.

Lemma canonical_oriented e : canonical e = e <-> oriented e.
Proof.
  unfold oriented. rewrite <- not_negative_spec. destruct e as [h t s]. unfold canonical; simpl.
  destruct (Nat.ltb_spec t h); simpl.
  - unfold rev; simpl. split; [intros [= ? ?]|]; lia.
  - destruct (Nat.eqb_spec t h) as [->|]; simpl.
    + destruct (s_neg_cases s) as [[E E']|[[E E']|(E & E' & E'')]]; rewrite E; unfold rev; simpl.
      * split; [intros [= F]; congruence|intros [|[_ F]]; [lia|discriminate]].
      * intuition. * intuition.
    + split; auto. intros _. left. lia.
Qed.

Lemma s_cmp_lt a b : length a = length b -> s_cmp a b = Lt <->
  exists i, (forall j, j < i -> nth j a 0%Z = nth j b 0%Z) /\ (nth i a 0 < nth i b 0)%Z.
Proof.
  revert b. induction a as [|x a IH]; intros [|y b] L; simpl in *; try lia.
  - split; [discriminate|]. intros (i & _ & H). destruct i; lia.
  - destruct (Z.compare_spec x y) as [->|H|H]; simpl.
    + rewrite IH by lia. split.
      * intros (i & A & B). exists (S i). split; auto. intros [|j] Hj; auto. apply A. lia.
      * intros ([|i] & A & B); [lia|]. exists i. split; auto. intros j Hj. apply (A (S j)). lia.
    + split; auto. intros _. exists 0. split; [intros; lia|auto].
    + split; [discriminate|]. intros ([|i] & A & B); [lia|]. specialize (A 0 ltac:(lia)). simpl in A. lia.
Qed.

Lemma edge_cmp_lt e f : length (shift e) = length (shift f) -> edge_cmp e f = Lt <-> edge_lt e f.
Proof.
  intros L. unfold edge_cmp, edge_lt. rewrite <- (s_cmp_lt _ _ L).
  destruct (Nat.compare_spec (head e) (head f)); simpl; [|intuition congruence|intuition (discriminate || lia)].
  destruct (Nat.compare_spec (tail e) (tail f)); simpl; intuition (discriminate || lia).
Qed.

(** the same edges up to order, direction and repetition: the same graph; and conversely *)
Theorem C25_new_insensitive : forall d raw raw',
  gnew d raw = gnew d raw' <-> (forall e, occurs e raw <-> occurs e raw').
Proof.
  intros d raw raw'. unfold occurs.
  assert (K : forall es e, (exists f, In f es /\ (e = f \/ e = Edge (tail f) (head f) (map Z.opp (shift f)))) <-> In (canonical e) (map canonical es)).
  { intros es e. rewrite in_map_iff. split; intros (f & A & B); exists f.
    - split; auto. apply canonical_eq. destruct B as [->| ->]; auto. right. change (Edge (tail f) (head f) (map Z.opp (shift f))) with (rev f). rewrite rev_rev. auto.
    - split; auto. apply canonical_eq in A as [->| ->]; auto. right. change (rev e) with (Edge (tail e) (head e) (sneg (shift e))). simpl. change (map Z.opp (sneg (shift e))) with (sneg (sneg (shift e))). rewrite sneg_sneg. destruct e; auto. }
  split.
  - intros E e. rewrite !K. apply (f_equal gedges) in E. simpl in E.
    rewrite <- (usort_In _ edge_cmp_laws (canonical e) (map canonical raw)), <- (usort_In _ edge_cmp_laws (canonical e) (map canonical raw')), E. tauto.
  - intros H. unfold gnew. f_equal. apply (usort_ext _ edge_cmp_laws).
    assert (Ci : forall es x, In x (map canonical es) -> canonical x = x).
    { intros es x Hx. apply in_map_iff in Hx as (y & <- & _). apply canonical_idem. }
    intros x. split; intros Hx; pose proof (Ci _ _ Hx) as Ex; rewrite <- Ex; apply K, H, K; rewrite Ex; auto.
Qed.
Print Assumptions C25_new_insensitive.

(** the stored edges: the input edges in canonical direction, strictly increasing *)
Theorem C25_stored_edges : forall d raw, edges_of_dim d raw ->
  StronglySorted edge_lt (gedges (gnew d raw)) /\ NoDup (gedges (gnew d raw)) /\
  (forall e, In e (gedges (gnew d raw)) <-> occurs e raw /\ oriented e) /\
  (forall e, In e (gedges (gnew d raw)) -> oriented e) /\
  (forall e, In e raw -> In (canonical e) (gedges (gnew d raw))).
Proof.
  intros d raw Hd. assert (C : constructed (gnew d raw)) by (exists raw; auto).
  assert (L : forall e, In e (gedges (gnew d raw)) -> length (shift e) = d) by (intros e He; apply (c_dim _ C _ He)).
  assert (O : forall e, In e (gedges (gnew d raw)) -> oriented e) by (intros e He; apply canonical_oriented, (c_canon _ C _ He)).
  splits; auto.
  - pose proof (c_sorted _ C) as S. clear O. revert L. induction S as [|e es S IH F]; intros L; constructor.
    + apply IH. intros f Hf. apply L. right; auto.
    + rewrite Forall_forall in *. intros f Hf. apply edge_cmp_lt; [|apply F; auto]. rewrite !L; simpl; auto.
  - apply (c_NoDup _ C).
  - intros e. split.
    + intros He. split; auto. apply gnew_edges in He as (f & Hf & ->). exists f. split; auto.
      destruct (canonical_cases f) as [->| ->]; auto.
    + intros [(f & Hf & Ef) Oe]. apply canonical_oriented in Oe. apply gnew_edges.
      exists f. split; auto. rewrite <- Oe. apply canonical_eq. destruct Ef as [->| ->]; auto.
  - intros e He. apply gnew_edges. eauto.
Qed.
Print Assumptions C25_stored_edges.

Theorem C25_canonical : forall e,
  canonical (canonical e) = canonical e /\ canonical (rev e) = canonical e /\
  (canonical e = e \/ canonical e = rev e) /\ oriented (canonical e) /\ rev (rev e) = e.
Proof.
  intros e. splits; auto using canonical_idem, canonical_rev, canonical_cases, rev_rev.
  apply canonical_oriented, canonical_idem.
Qed.
Print Assumptions C25_canonical.

(** the sign tests as they stand in the code for dimension 2 and 3 *)
Theorem C25_sign_2d_3d : forall x y z,
  s_is_negative [x; y] = ((x <? 0) || (x =? 0) && (y <? 0))%Z /\
  s_is_negative [x; y; z] = ((x <? 0) || (x =? 0) && (y <? 0) || (x =? 0) && (y =? 0) && (z <? 0))%Z /\
  s_is_positive [x; y] = ((x >? 0) || (x =? 0) && (y >? 0))%Z /\
  s_is_positive [x; y; z] = ((x >? 0) || (x =? 0) && (y >? 0) || (x =? 0) && (y =? 0) && (z >? 0))%Z.
Proof.
  intros x y z. simpl.
  destruct (x <? 0)%Z, (x =? 0)%Z, (y <? 0)%Z, (y =? 0)%Z, (z <? 0)%Z, (z =? 0)%Z, (x >? 0)%Z, (y >? 0)%Z, (z >? 0)%Z; splits; reflexivity.
Qed.

Example C25_case :
  gedges (gnew 2 [Edge 2 1 [0; 1]; Edge 1 1 [-1; 3]; Edge 1 2 [0; -1]; Edge 1 2 [0; 0]]%Z) =
    [Edge 1 1 [1; -3]; Edge 1 2 [0; -1]; Edge 1 2 [0; 0]]%Z /\
  gnew 2 [Edge 1 2 [0; -1]; Edge 2 1 [0; 1]]%Z = gnew 2 [Edge 1 2 [0; -1]]%Z.
Proof. split; reflexivity. Qed.

(** ** C26 *)
Lemma inc_flat g v : inc g v =
  flat_map (fun e => (if head e =? v then [e] else []) ++ (if tail e =? v then [rev e] else [])) (gedges g).
Proof.
  unfold inc, dedges. induction (gedges g) as [|e es IH]; simpl; auto.
  destruct (Nat.eqb_spec (head e) v), (Nat.eqb_spec (tail e) v); simpl; rewrite IH; auto.
Qed.

(** per stored edge: the edge itself if it starts at v, then its reverse if it ends at v *)
Theorem C26_incidences : forall g v,
  (is_vertex g v -> incidences g v =
     Ret (flat_map (fun e => (if head e =? v then [e] else []) ++ (if tail e =? v then [rev e] else [])) (gedges g))) /\
  (~ is_vertex g v -> incidences g v = Panic).
Proof.
  intros g v. split; intros H; [rewrite <- inc_flat; apply incidences_vertex|apply incidences_no_vertex]; auto.
Qed.
Print Assumptions C26_incidences.

Theorem C26_vertices : forall g, StronglySorted lt (vertices g) /\ NoDup (vertices g) /\ forall v, In v (vertices g) <-> is_vertex g v.
Proof.
  intros g. splits.
  - pose proof (usort_sorted _ nat_cmp_laws (flat_map (fun e => [head e; tail e]) (gedges g))) as S.
    fold (vertices g) in S. induction S as [|x l S IH F]; constructor; auto.
    rewrite Forall_forall in *. intros y Hy. apply Nat.compare_lt_iff, F; auto.
  - apply usort_NoDup, nat_cmp_laws.
  - apply vertices_In.
Qed.
Print Assumptions C26_vertices.

Lemma filter_perm (vs : list nat) (l : list edge) : NoDup vs -> (forall e, In e l -> In (head e) vs) ->
  Permutation (flat_map (fun v => filter (fun e => head e =? v) l) vs) l.
Proof.
  intros N H. revert l H. induction N as [|v vs Hv N IH]; intros l H; simpl.
  - destruct l as [|e l]; auto. exfalso. apply (H e). left; auto.
  - assert (E : flat_map (fun v0 => filter (fun e => head e =? v0) l) vs = flat_map (fun v0 => filter (fun e => head e =? v0) (filter (fun e => negb (head e =? v)) l)) vs).
    { rewrite !flat_map_concat_map. f_equal. apply map_ext_in. intros w Hw. clear H.
      induction l as [|e l IHl]; simpl; auto. destruct (Nat.eqb_spec (head e) v) as [Ev|]; simpl.
      - destruct (Nat.eqb_spec (head e) w); auto. congruence.
      - destruct (Nat.eqb_spec (head e) w); simpl; rewrite IHl; auto. }
    rewrite E, IH.
    + clear. induction l as [|e l IHl]; simpl; auto. destruct (head e =? v); simpl; auto.
      eapply Permutation_trans; [|apply perm_skip, IHl]. apply Permutation_sym, Permutation_middle.
    + intros e He. apply filter_In in He as [He Hn]. destruct (H e He) as [Ev|]; auto. rewrite <- Ev, Nat.eqb_refl in Hn. discriminate.
Qed.

Theorem C26_directed_edges : forall g, exists l,
  directed_edges g = Ret l /\ Permutation l (gedges g ++ map rev (gedges g)).
Proof.
  intros g. unfold directed_edges. rewrite (mapM_Ret _ (inc g)).
  - cbn [omap bind]. eexists. split; [reflexivity|]. unfold inc. rewrite <- flat_map_concat_map.
    eapply Permutation_trans; [apply filter_perm|].
    + apply usort_NoDup, nat_cmp_laws.
    + intros e He. apply vertices_In. apply dedges_vertices; auto.
    + unfold dedges. clear. induction (gedges g) as [|e es IH]; simpl; auto. constructor.
      eapply Permutation_trans; [apply perm_skip, IH|]. apply Permutation_middle.
  - intros v Hv. apply incidences_vertex, vertices_In. auto.
Qed.
Print Assumptions C26_directed_edges.

Example C26_case : let g := gnew 2 [Edge 1 2 [0; 0]; Edge 1 1 [1; 0]]%Z in
  incidences g 1 = Ret [Edge 1 1 [1; 0]; Edge 1 1 [-1; 0]; Edge 1 2 [0; 0]]%Z /\ incidences g 3 = Panic /\ is_vertex g 2.
Proof. cbv zeta. splits; try reflexivity. exists (Edge 1 2 [0; 0]%Z). split; [right; left; reflexivity|right; reflexivity]. Qed.

(** ** C28 *)
Theorem C28_coordination_sequence : forall g v order n, constructed g -> is_vertex g v ->
  (forall k l, Permutation (order k l) l) ->
  exists items, cs_take order g n (cs_new g v) = Ret items /\ length items = n /\
    forall k, 1 <= k <= n -> exists shell, NoDup shell /\
      (forall b, In b shell <-> distance g (v, repeat 0%Z (gdim g)) b k) /\ nth (k - 1) items 0 = length shell.
Proof.
  intros g v order n C V Po. assert (N0 : is_node g (v, szero (gdim g))) by (split; auto; apply szero_length).
  destruct (take_ok g C order _ n Po N0 0 [] [(v, szero (gdim g))] (shell_0 g _ N0)) as (items & E & L & H).
  - intros b. split; [intros []|]. intros (j & Ej & _). discriminate.
  - exists items. splits; auto. intros k Hk. destruct (H (k - 1)) as (l & [Hl1 Hl2] & Hl3); [lia|].
    replace (0 + S (k - 1)) with k in Hl2 by lia. eauto.
Qed.
Print Assumptions C28_coordination_sequence.

(** square lattice: 4, 8, 12, ... *)
Example C28_case : let g := gnew 2 [Edge 1 1 [1; 0]; Edge 1 1 [0; 1]]%Z in
  is_vertex g 1 /\ cs_take (fun _ l => l) g 4 (cs_new g 1) = Ret [4; 8; 12; 16] /\
  cs_take (fun _ l => List.rev l) g 4 (cs_new g 1) = Ret [4; 8; 12; 16] /\ cs_take (fun _ l => l) g 1 (cs_new g 2) = Panic.
Proof. cbv zeta. splits; try reflexivity. exists (Edge 1 1 [1; 0]%Z). split; [right; left; reflexivity|left; reflexivity]. Qed.

(** ** C29 *)
(** g' is g with every edge (h,t,s) relabelled as (h,t,s+c(h)-c(t)) *)
Definition relabelled (c : nat -> shiftv) (g g' : graph) : Prop :=
  gdim g' = gdim g /\
  Permutation (gedges g') (map (fun e => Edge (head e) (tail e) (ssub (sadd (c (head e)) (shift e)) (c (tail e)))) (gedges g)).

Theorem C29_shift_normalized : forall g, constructed g -> exists c g',
  shift_normalized g = Ret g' /\ constructed g' /\
  (forall v, is_vertex g v -> length (c v) = gdim g) /\ relabelled c g g' /\
  vertices g' = vertices g /\ length (gedges g') = length (gedges g) /\
  (forall a b, is_node g a -> is_node g b ->
     adjacent g a b <-> adjacent g' (fst a, ssub (snd a) (c (fst a))) (fst b, ssub (snd b) (c (fst b)))) /\
  (forall v, is_vertex g v -> exists tree comp, (forall e, In e tree -> In e (gedges g') /\ shift e = repeat 0%Z (gdim g)) /\
     spanning_tree tree comp /\ forall w, In w comp <-> linked (gedges g) v w).
Proof.
  intros g C. destruct (norm_loop g C) as (seen & es & c & el & E & I). unfold shift_normalized. rewrite E. cbn [bind].
  destruct I as [I1 I2 I3 I4 I5 I6 I7].
  assert (Vs : forall v, is_vertex g v -> In v seen) by (intros v Hv; apply I4, vertices_In; auto).
  assert (Lc : forall v, is_vertex g v -> length (c v) = gdim g) by auto.
  destruct (relabel_graph g C c Lc es) as (C' & P & Ein).
  { intros e. rewrite I1, in_map_iff. split; intros (f & A & B); exists f.
    - split; auto. apply I3 in B. tauto.
    - split; auto. apply I3. split; auto. apply Vs. exists f. auto. }
  exists c, (gnew (gdim g) es). split; [reflexivity|]. set (g' := gnew (gdim g) es) in *.
  assert (In' : forall e, In e (gedges g') <-> exists f, In f (gedges g) /\ e = relabel c f).
  { intros e. split.
    - intros He. eapply Permutation_in in He; [|exact P]. apply in_map_iff in He as (f & <- & Hf). eauto.
    - intros (f & Hf & ->). eapply Permutation_in; [apply Permutation_sym, P|]. apply in_map; auto. }
  splits; auto.
  - split; auto.
  - apply (sorted_unique _ nat_cmp_laws); try apply usort_sorted, nat_cmp_laws. intros v.
    rewrite !vertices_In. unfold is_vertex. split.
    + intros (e & He & Hv). apply In' in He as (f & Hf & ->). exists f. auto.
    + intros (e & He & Hv). exists (relabel c e). split; auto. apply In'; eauto.
  - rewrite (Permutation_length P), map_length. auto.
  - intros [v x] [w y] [Nv Lx] [Nw Ly]. simpl in *. pose proof (Lc v Nv) as Lv. pose proof (Lc w Nw) as Lw.
    assert (Key : forall (h t : nat) (s x y : shiftv), length s = gdim g -> length x = gdim g -> length y = gdim g ->
       length (c h) = gdim g -> length (c t) = gdim g ->
       y = sadd x s <-> ssub y (c t) = sadd (ssub x (c h)) (ssub (sadd (c h) s) (c t))).
    { intros h t s x0 y0 Ls Lx0 Ly0 Lh Lt. split.
      - intros ->. seq.
      - intros Eq. apply (vec_ext (R := Z)); [slen|]. intros i _. apply (f_equal (fun l => vget l i)) in Eq.
        rewrite !vget_ssub, vget_sadd, !vget_ssub, !vget_sadd in Eq by slen. rewrite vget_sadd by slen. lia. }
    split.
    + intros (e & He & H). exists (relabel c e). split; [apply In'; eauto|]. pose proof (c_dim _ C _ He) as Le. simpl in *.
      destruct H as [(-> & -> & H)|(-> & -> & H)]; [left|right]; splits; auto; apply (Key (head e) (tail e) (shift e)); auto.
    + intros (e' & He & H). apply In' in He as (e & He & ->). exists e. split; auto. pose proof (c_dim _ C _ He) as Le. simpl in *.
      destruct H as [(-> & -> & H)|(-> & -> & H)]; [left|right]; splits; auto; apply (Key (head e) (tail e) (shift e)); auto.
  - intros v Hv. destruct (I7 v (Vs v Hv)) as (tr & comp & A & B & D & F). exists tr, comp. splits; auto.
    intros e He. split; [apply Ein, A; auto|apply B; auto].
Qed.
Print Assumptions C29_shift_normalized.

Example C29_case : let g := gnew 2 [Edge 1 2 [3; 1]; Edge 1 2 [0; 1]; Edge 2 2 [1; 0]; Edge 5 6 [2; 2]]%Z in
  is_vertex g 1 /\ omap gedges (shift_normalized g) = Ret [Edge 1 2 [0; 0]; Edge 1 2 [3; 0]; Edge 2 2 [1; 0]; Edge 5 6 [0; 0]]%Z.
Proof. cbv zeta. split; [|vm_compute; reflexivity]. exists (Edge 1 2 [0; 1]%Z). split; [left; reflexivity|left; reflexivity]. Qed.

(** ** C30 *)
(** bs is a basis of the set L of integer vectors of dimension d *)
Definition lattice_basis (d : nat) (L : list Z -> Prop) (bs : list (list Z)) : Prop :=
  lens d bs /\ (forall cs, length cs = length bs -> lincomb d cs bs = repeat 0%Z d -> Forall (fun c => c = 0%Z) cs) /\
  forall t, L t <-> span d bs t.

(** reps contains exactly one node of each connected component of the net above the component
    of v in the quotient graph *)
Definition one_per_component (g : graph) (v : nat) (reps : list node) : Prop :=
  NoDup reps /\ (forall r, In r reps -> is_node g r /\ linked (gedges g) v (fst r)) /\
  forall a, is_node g a -> linked (gedges g) v (fst a) ->
    exists r, In r reps /\ joined g a r /\ forall r', In r' reps -> joined g a r' -> r' = r.

Theorem C30_component_measures : forall g v, constructed g -> is_vertex g v ->
  exists size rank mult, component_measures g v = Ret (size, rank, mult) /\
    (exists comp, NoDup comp /\ length comp = size /\ forall w, In w comp <-> linked (gedges g) v w) /\
    (exists bs, length bs = rank /\
       lattice_basis (gdim g) (fun t => joined g (v, repeat 0%Z (gdim g)) (v, t)) bs) /\
    (rank = gdim g -> exists reps, mult = Some (Z.of_nat (length reps)) /\ one_per_component g v reps) /\
    (rank <> gdim g -> mult = None).
Proof.
  intros g v C V. destruct (measures_ok g v C V) as (size & rank & mult & comp & bs & E & M).
  exists size, rank, mult. destruct M. splits; auto.
  - exists comp. auto.
  - exists bs. split; auto. unfold lattice_basis. splits; auto.
    intros cs Hc Hz. assert (Ec : cs = vzero (length bs)) by (apply (echelon_independent (R := Z) (gdim g) 0 bs cs m_lens m_ech Hc); exact Hz).
    rewrite Ec. apply Forall_forall. intros x Hx. apply repeat_spec in Hx. auto.
Qed.
Print Assumptions C30_component_measures.

(** without a multiplicity there are infinitely many components above: any number of nodes no
    two of which are joined *)
Theorem C30_infinitely_many : forall g v size rank n, constructed g -> is_vertex g v ->
  component_measures g v = Ret (size, rank, None) ->
  exists nodes, length nodes = n /\ (forall a, In a nodes -> is_node g a /\ linked (gedges g) v (fst a)) /\
    ForallOrdPairs (fun a b => ~ joined g a b) nodes.
Proof.
  intros g v size rank n C V E. destruct (measures_ok g v C V) as (size' & rank' & mult & comp & bs & E' & M).
  rewrite E in E'. injection E' as <- <- <-. destruct M.
  destruct (Nat.eq_dec rank (gdim g)) as [Hr|Hr]; [destruct (m_some Hr) as (reps & A & _); discriminate|].
  destruct (echelon_row_echelon (gdim g) bs m_lens m_ech) as [Pl Pe].
  assert (Inc : incl (pivots bs) (seq 0 (gdim g))).
  { intros p Hp. destruct (In_nth _ _ 0 Hp) as (i & Hi & <-). apply in_seq. destruct (Pe i) as [Q _]; lia. }
  assert (Np : NoDup (pivots bs)).
  { rewrite (NoDup_nth _ 0). intros i j Hi Hj Eij. destruct (Nat.lt_trichotomy i j) as [H|[H|H]]; auto; exfalso.
    - destruct (Pe j) as (_ & _ & _ & Q); [lia|]. specialize (Q i H). lia.
    - destruct (Pe i) as (_ & _ & _ & Q); [lia|]. specialize (Q j H). lia. }
  assert (Ex : exists p, p < gdim g /\ ~ In p (pivots bs)).
  { destruct (Exists_dec (fun p => ~ In p (pivots bs)) (seq 0 (gdim g))) as [X|X].
    - intros p. destruct (in_dec Nat.eq_dec p (pivots bs)); auto.
    - apply Exists_exists in X as (p & Hp & Hn). exists p. apply in_seq in Hp. split; auto. lia.
    - exfalso. assert (incl (seq 0 (gdim g)) (pivots bs)).
      { intros p Hp. destruct (in_dec Nat.eq_dec p (pivots bs)); auto. exfalso. apply X, Exists_exists. eauto. }
      apply NoDup_incl_length in H; [|apply seq_NoDup]. apply NoDup_incl_length in Inc; auto. rewrite seq_length in *. lia. }
  destruct Ex as (p & Hp & Hn).
  set (u := fun k : nat => vscale (Z.of_nat k) (vunit (gdim g) p) : list Z).
  assert (Lu : forall k, length (u k) = gdim g) by (intros k; unfold u; rewrite (vscale_length (R := Z)), (vunit_length (R := Z)); auto).
  assert (Gu : forall k i, vget (u k) i = if Nat.eqb i p && Nat.ltb i (gdim g) then Z.of_nat k else 0%Z).
  { intros k i. unfold u. rewrite (vget_vscale (R := Z)), (vget_vunit (R := Z)). change rmul with Z.mul. destruct (_ && _); simpl; lia. }
  exists (map (fun k => (v, u k)) (seq 0 n)). splits.
  - rewrite map_length, seq_length. auto.
  - intros a Ha. apply in_map_iff in Ha as (k & <- & _). split; [split; simpl; auto|constructor].
  - generalize 0 as m. induction n as [|n IH]; intros m; simpl; constructor; auto.
    apply Forall_forall. intros a Ha J. apply in_map_iff in Ha as (k & <- & Hk). apply in_seq in Hk.
    assert (J' : joined g (v, szero (gdim g)) (v, ssub (u k) (u m))).
    { apply (joined_translate g _ _ (sneg (u m))) in J; [|slen]. simpl in J.
      replace (sadd (u m) (sneg (u m))) with (szero (gdim g)) in J by (pose proof (Lu m); seq).
      replace (sadd (u k) (sneg (u m))) with (ssub (u k) (u m)) in J by (pose proof (Lu m); pose proof (Lu k); seq). auto. }
    apply m_span in J'. apply Hn. apply (span_pivot (R := Z) (gdim g) 0 bs _ p m_lens m_ech J').
    apply pivot_Some. pose proof (Lu m). pose proof (Lu k). splits.
    + rewrite ssub_length; congruence.
    + rewrite vget_ssub, !Gu, Nat.eqb_refl by congruence. destruct (Nat.ltb_spec p (gdim g)); [|lia]. simpl. intros X.
      assert (Z.of_nat k - Z.of_nat m = 0)%Z by exact X. lia.
    + intros i Hi. rewrite vget_ssub, !Gu by congruence. destruct (Nat.eqb_spec i p); [lia|]. reflexivity.
Qed.
Print Assumptions C30_infinitely_many.

Example C30_case : let g := gnew 2 [Edge 1 2 [0; 0]; Edge 2 1 [2; 0]; Edge 1 1 [1; 3]; Edge 3 3 [1; 0]]%Z in
  component_measures g 1 = Ret (2, 2, Some 6%Z) /\ component_measures g 3 = Ret (1, 1, None) /\ is_vertex g 1 /\ is_vertex g 3.
Proof.
  cbv zeta. splits; try (vm_compute; reflexivity).
  - exists (Edge 1 2 [0; 0]%Z). split; [vm_compute; tauto|left; reflexivity].
  - exists (Edge 3 3 [1; 0]%Z). split; [vm_compute; tauto|left; reflexivity].
Qed.

(** ** C31 *)
Theorem C31_is_connected : forall g, constructed g -> exists b, is_connected g = Ret b /\
  (b = true <-> forall a c, is_node g a -> is_node g c -> joined g a c).
Proof.
  intros g C. unfold is_connected. destruct (vertices g) as [|v0 vs] eqn:Ev.
  - exists true. split; auto. split; auto. intros _ a c [Va _]. apply vertices_In in Va. rewrite Ev in Va. contradiction.
  - assert (V0 : is_vertex g v0) by (apply vertices_In; rewrite Ev; left; auto).
    destruct (measures_ok g v0 C V0) as (size & rank & mult & comp & bs & E & M). rewrite E. cbn [bind]. rewrite <- Ev.
    eexists. split; [reflexivity|]. destruct M.
    assert (Nd : NoDup (vertices g)) by apply (usort_NoDup _ nat_cmp_laws).
    assert (Ci : incl comp (vertices g)).
    { intros w Hw. apply m_comp in Hw. apply vertices_In. destruct Hw as [|u w e _ He Hend]; auto. exists e. split; auto. intuition. }
    rewrite andb_true_iff, Nat.eqb_eq. split.
    + intros [Hs Hm]. destruct mult as [m|]; [|discriminate]. apply Z.eqb_eq in Hm. subst m.
      destruct (Nat.eq_dec rank (gdim g)) as [Hr|Hr]; [|apply m_none in Hr; discriminate].
      destruct (m_some Hr) as (reps & A & B & D & F). injection A as A.
      assert (All : forall a, is_node g a -> linked (gedges g) v0 (fst a)).
      { intros a [Va _]. apply m_comp. apply (NoDup_length_incl (l' := vertices g) m_nd); [lia|auto|apply vertices_In; auto]. }
      destruct reps as [|r [|r' reps]]; try (simpl in A; lia).
      intros a c Na Nc. destruct (F a Na (All a Na)) as (r1 & [<-|[]] & J1 & _). destruct (F c Nc (All c Nc)) as (r2 & [<-|[]] & J2 & _).
      eapply joined_trans; eauto. apply joined_sym; auto.
    + intros All. assert (L0 : forall w, is_vertex g w -> is_node g (w, szero (gdim g))) by (intros w Hw; split; auto; apply szero_length).
      split.
      * rewrite <- m_size. apply Nat.le_antisymm; [apply NoDup_incl_length; auto|]. apply NoDup_incl_length; auto.
        intros w Hw. apply vertices_In in Hw. apply m_comp. destruct (All _ _ (L0 v0 V0) (L0 w Hw)) as [k W].
        assert (X : forall k a b, walk g k a b -> linked (gedges g) (fst a) (fst b)).
        { induction 1 as [|? a b c W' IH Nc (e & He & A)]; [constructor|]. eapply linked_edge; eauto. intuition. }
        apply (X _ _ _ W).
      * assert (Sp : forall t, length t = gdim g -> span (gdim g) bs t).
        { intros t Ht. apply m_span. apply All; [apply L0; auto|]. split; auto. }
        assert (Hr : rank = gdim g).
        { rewrite <- m_rank. destruct (echelon_row_echelon (gdim g) bs m_lens m_ech) as [Pl Pe].
          apply Nat.le_antisymm; rewrite <- Pl; rewrite <- (seq_length (gdim g) 0).
          - apply NoDup_incl_length.
            + rewrite (NoDup_nth _ 0). intros i j Hi Hj Eij. destruct (Nat.lt_trichotomy i j) as [H|[H|H]]; auto; exfalso.
              * destruct (Pe j) as (_ & _ & _ & Q); [lia|]. specialize (Q i H). lia.
              * destruct (Pe i) as (_ & _ & _ & Q); [lia|]. specialize (Q j H). lia.
            + intros p Hp. destruct (In_nth _ _ 0 Hp) as (i & Hi & <-). apply in_seq. destruct (Pe i) as [Q _]; lia.
          - apply NoDup_incl_length; [apply seq_NoDup|]. intros p Hp. apply in_seq in Hp.
            apply (span_pivot (R := Z) (gdim g) 0 bs (vunit (gdim g) p) p m_lens m_ech).
            + apply Sp. apply vunit_length.
            + apply pivot_Some. rewrite vunit_length. splits; [lia| |].
              * rewrite vget_vunit, Nat.eqb_refl. destruct (Nat.ltb_spec p (gdim g)); [discriminate|lia].
              * intros i Hi. rewrite vget_vunit. destruct (Nat.eqb_spec i p); [lia|auto]. }
        destruct (m_some Hr) as (reps & -> & B & D & F). apply Z.eqb_eq.
        assert (Hl0 : linked (gedges g) v0 v0) by constructor.
        destruct (F _ (L0 v0 V0) Hl0) as (r & Hr1 & J1 & U).
        assert (U' : forall r', In r' reps -> r' = r).
        { intros r' H'. apply U; auto. apply All; [apply L0; auto|]. apply D; auto. }
        destruct reps as [|r1 [|r2 reps]]; [contradiction|reflexivity|exfalso].
        assert (r1 = r2) by (rewrite (U' r1), (U' r2); simpl; auto). subst. inversion B as [|? ? Hn _]. apply Hn. left; auto.
Qed.
Print Assumptions C31_is_connected.

Example C31_case :
  is_connected (gnew 2 [Edge 1 1 [1; 0]; Edge 1 1 [0; 1]]%Z) = Ret true /\
  is_connected (gnew 2 [Edge 1 1 [1; 0]; Edge 1 1 [1; 2]]%Z) = Ret false /\
  is_connected (gnew 2 [Edge 1 1 [1; 0]; Edge 1 1 [0; 1]; Edge 1 2 [0; 0]; Edge 3 3 [1; 1]]%Z) = Ret false.
Proof. splits; vm_compute; reflexivity. Qed.
