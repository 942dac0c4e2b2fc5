(** Property C89: a net with few vertices always has a placement.

    C33 says that [position] works for a connected net unless its tree number is a multiple of the prime 9999991.
    Here the tree number is bounded by the product of the numbers of edge ends at the vertices other than the first,
    loops not counted, so that for small nets the prime cannot divide it and nothing can go wrong. *)
From Coq Require Import List ZArith Lia Bool PeanoNat QArith Qcanon Permutation Znumtheory.
From Verif Require Import Base Partition Vec Matrix ZQ ModSolver ModSolve ModFinal OrdSet PGraph Net PGraphBase Traverse Index Placement Harmonic Placed Stability
  Display Props_PGraph Props_Placement Props_Display.
From Verif Require ModMC TreeBound.
Import ListNotations.
Local Open Scope nat_scope.
Local Open Scope list_scope.

(** ** C89 *)
(** number of edge ends at [v], without the loops at [v] *)
Definition open_ends (g : graph) (v : nat) : Z := (degree g v - joins g v v)%Z.
(** [ws] is a list of all vertices but [v0], each of them once *)
Definition others (g : graph) (v0 : nat) (ws : list nat) : Prop := NoDup ws /\ forall w, In w ws <-> is_vertex g w /\ w <> v0.
Definition prod_over (f : nat -> Z) (ws : list nat) : Z := fold_right (fun w p => (f w * p)%Z) 1%Z ws.

Lemma prod_over_product f ws : prod_over f ws = product (map f ws).
Proof. induction ws as [|w ws IH]; [auto|]. unfold prod_over, product in *. cbn [fold_right map]. rewrite IH. auto. Qed.
Lemma delta_pos b : (0 <= delta b <= 1)%Z. Proof. destruct b; cbn; lia. Qed.
Lemma joins_nonneg g v w : (0 <= joins g v w)%Z.
Proof.
  unfold joins. induction (gedges g) as [|e l IH]; cbn [fold_right]; [lia|].
  pose proof (delta_pos ((head e =? v) && (tail e =? w))). pose proof (delta_pos ((head e =? w) && (tail e =? v))). lia.
Qed.
Lemma joins_degree g v : (joins g v v <= degree g v)%Z.
Proof.
  unfold joins, degree. induction (gedges g) as [|e l IH]; cbn [fold_right]; [lia|].
  destruct (head e =? v), (tail e =? v); cbn [andb delta] in *; lia.
Qed.

Lemma row_sum g i : S i < length (vertices g) ->
  (0 <= zs (length (vertices g) - 1) (fun j => laplacian g (nth (S i) (vertices g) 0%nat) (nth (S j) (vertices g) 0%nat)))%Z.
Proof.
  intros Hi. set (m := length (vertices g) - 1).
  rewrite (zs_ext m _ (fun j => LA g (S i) (S j) (inc g (nth (S i) (vertices g) 0%nat)))).
  2:{ intros j Hj. apply laplacian_LA; auto. unfold m in Hj. lia. }
  induction (inc g (nth (S i) (vertices g) 0%nat)) as [|e es IH].
  { rewrite zs_zero; [lia|]. intros. reflexivity. }
  rewrite (zs_ext m _ (fun j => (delta (S j =? S i)%nat - delta (nth (S j) (vertices g) 0%nat =? tail e)%nat) + LA g (S i) (S j) es)%Z) by (intros; reflexivity).
  rewrite zs_add. assert (H : (0 <= zs m (fun j => delta (S j =? S i)%nat - delta (nth (S j) (vertices g) 0%nat =? tail e)%nat))%Z); [|lia].
  rewrite (zs_ext m _ (fun j => delta (S j =? S i)%nat + (-1) * delta (nth (S j) (vertices g) 0%nat =? tail e)%nat)%Z) by (intros; lia).
  rewrite zs_add, zs_scale, (zs_single m _ i); [|unfold m; lia|intros j Hj N; destruct (Nat.eqb_spec (S j) (S i)); [lia|reflexivity]].
  rewrite Nat.eqb_refl. cbn [delta].
  destruct (in_dec Nat.eq_dec (tail e) (tl (vertices g))) as [I|I].
  - destruct (In_nth _ _ 0 I) as (k & Hk & Ek).
    assert (Lt : length (tl (vertices g)) = m) by (unfold m; destruct (vertices g); cbn; lia).
    assert (Ek' : nth (S k) (vertices g) 0 = tail e) by (rewrite <- Ek; destruct (vertices g); [cbn in *; lia|reflexivity]).
    rewrite (zs_single m _ k); [pose proof (delta_pos (nth (S k) (vertices g) 0 =? tail e)); lia|lia|].
    intros j Hj N. destruct (Nat.eqb_spec (nth (S j) (vertices g) 0%nat) (tail e)) as [E|]; [|reflexivity].
    exfalso. apply N. rewrite <- Ek' in E. apply (V_inj g) in E; unfold m in *; lia.
  - rewrite (zs_zero m); [lia|]. intros j Hj. destruct (Nat.eqb_spec (nth (S j) (vertices g) 0%nat) (tail e)) as [E|]; [|reflexivity].
    exfalso. apply I. rewrite <- E. destruct (vertices g) as [|a l]; [cbn in *; unfold m in Hj; cbn in Hj; lia|]. cbn. apply nth_In. unfold m in Hj. cbn in Hj. lia.
Qed.

Lemma tail_others g v0 ws : first_vertex g v0 -> others g v0 ws -> Permutation ws (tl (vertices g)).
Proof.
  intros Fv [ND H]. pose proof (first_vertex_hd g v0 Fv) as Hd. pose proof (V_NoDup g) as NV.
  destruct Fv as [Hv _]. apply vertices_In in Hv. destruct (vertices g) as [|a l] eqn:E; [destruct Hv|]. cbn in Hd. subst a. cbn [tl].
  inversion NV as [|? ? Na Nl]; subst. apply NoDup_Permutation; auto. intros w. rewrite H, <- vertices_In, E. cbn. split.
  - intros [[->|I] N]; [congruence|auto].
  - intros I. split; auto. intros ->. auto.
Qed.

(** the tree number is between 0 and the product of the numbers of open ends of all vertices but the first *)
Theorem C89_tree_number_bound : forall g v0 ws, constructed g -> first_vertex g v0 -> others g v0 ws ->
  (0 <= tree_number g <= prod_over (open_ends g) ws)%Z.
Proof.
  intros g v0 ws C Fv O. rewrite prod_over_product, (product_perm _ _ (Permutation_map _ (tail_others g v0 ws Fv O))).
  unfold tree_number. set (m := length (vertices g) - 1).
  assert (B := @TreeBound.zdet_bound m (fun i j => laplacian g (nth (S i) (vertices g) 0%nat) (nth (S j) (vertices g) 0%nat))).
  assert (E : product (map (open_ends g) (tl (vertices g))) =
    ModMC.bprod m (fun i => laplacian g (nth (S i) (vertices g) 0%nat) (nth (S i) (vertices g) 0%nat))).
  { rewrite big_product. f_equal. apply nth_ext with 0%Z 0%Z.
    - rewrite !map_length, seq_length. unfold m. destruct (vertices g); cbn; lia.
    - intros k Hk. rewrite map_length in Hk. assert (Hm : k < m) by (unfold m; destruct (vertices g); cbn in *; lia).
      rewrite (nth_indep _ _ (open_ends g 0)) by (rewrite map_length; auto). rewrite map_nth.
      rewrite (nth_indep (map _ (seq 0 m)) _ ((fun i => laplacian g (nth (S i) (vertices g) 0%nat) (nth (S i) (vertices g) 0%nat)) 0)) by (rewrite map_length, seq_length; auto).
      rewrite (map_nth (fun i => laplacian g (nth (S i) (vertices g) 0%nat) (nth (S i) (vertices g) 0%nat))). rewrite seq_nth by auto.
      unfold laplacian, open_ends. rewrite Nat.eqb_refl. cbn [Nat.add]. destruct (vertices g); [cbn in Hk; lia|reflexivity]. }
  rewrite E. apply B.
  - intros i j Hi Hj N. unfold laplacian. destruct (Nat.eqb_spec (nth (S i) (vertices g) 0%nat) (nth (S j) (vertices g) 0%nat)) as [Eq|].
    + exfalso. apply N. apply (V_inj g) in Eq; unfold m in *; lia.
    + pose proof (joins_nonneg g (nth (S i) (vertices g) 0%nat) (nth (S j) (vertices g) 0%nat)). lia.
  - intros i Hi. apply row_sum. unfold m in Hi. lia.
Qed.
Print Assumptions C89_tree_number_bound.

Lemma small_indivisible g v0 ws : constructed g -> connected_quotient g -> first_vertex g v0 -> others g v0 ws ->
  (prod_over (open_ends g) ws < 9999991)%Z -> ~ (9999991 | tree_number g)%Z.
Proof.
  intros C Q Fv O B D. destruct (C89_tree_number_bound g v0 ws C Fv O) as [L U].
  assert (N : tree_number g <> 0%Z).
  { apply C33_tree_number; auto. destruct Fv as [Hv _]. apply vertices_In in Hv. intros E. rewrite E in Hv. destruct Hv. }
  apply Z.divide_pos_le in D; lia.
Qed.

(** every vertex has a position if that product is below the prime *)
Theorem C89_small_net_placed : forall chk g v0 ws v, constructed g -> 0 < gdim g -> fits chk g -> connected_quotient g ->
  first_vertex g v0 -> others g v0 ws -> (prod_over (open_ends g) ws < 9999991)%Z ->
  is_vertex g v -> exists p, position chk g v = Ret p.
Proof. intros chk g v0 ws v C Hd F Q Fv O B V. apply C33_succeeds; auto. eapply small_indivisible; eauto. Qed.
Print Assumptions C89_small_net_placed.

Lemma prod_over_bound f k ws : (0 <= k)%Z -> (forall w, In w ws -> (0 <= f w <= k)%Z) -> (0 <= prod_over f ws <= k ^ Z.of_nat (length ws))%Z.
Proof.
  intros Hk. induction ws as [|w ws IH]; intros H; [cbn; lia|]. cbn [prod_over fold_right length].
  destruct (IH (fun x Hx => H x (or_intror Hx))) as [A B]. destruct (H w (or_introl eq_refl)) as [A' B'].
  rewrite Nat2Z.inj_succ, Z.pow_succ_r by lia. fold (prod_over f ws). split; [apply Z.mul_nonneg_nonneg; auto|apply Z.mul_le_mono_nonneg; auto].
Qed.

(** with at most n + 1 vertices, each with at most k edge ends, it is enough that k^n is below the prime:
    every 3-connected net with up to 15, every 4-connected net with up to 12, every 6-connected one with up to 9 vertices *)
Theorem C89_few_vertices : forall chk g vs k n v, constructed g -> 0 < gdim g -> fits chk g -> connected_quotient g ->
  (forall w, is_vertex g w -> In w vs) -> length vs <= S n ->
  (forall w, is_vertex g w -> (degree g w <= k)%Z) -> (1 <= k)%Z -> (k ^ Z.of_nat n < 9999991)%Z ->
  is_vertex g v -> exists p, position chk g v = Ret p.
Proof.
  intros chk g vs k n v C Hd F Q Hvs L D K B V.
  assert (N : vertices g <> []) by (intros E; apply vertices_In in V; rewrite E in V; destruct V).
  pose proof (hd_first_vertex g N) as Fv. set (v0 := hd 0 (vertices g)) in *.
  assert (O : others g v0 (tl (vertices g))).
  { pose proof (V_NoDup g) as NV. unfold others, v0. split.
    - destruct (vertices g); cbn; auto. inversion NV; auto.
    - intros w. rewrite <- vertices_In. destruct (vertices g) as [|a l]; [congruence|]. cbn. inversion NV; subst. split.
      + intros I. split; auto. intros ->. auto.
      + intros [[->|I] Nw]; [congruence|auto]. }
  apply (C89_small_net_placed chk g v0 (tl (vertices g)) v); auto.
  assert (LV : length (vertices g) <= length vs).
  { apply NoDup_incl_length; [apply V_NoDup|]. intros w Hw. apply Hvs, vertices_In; auto. }
  destruct (prod_over_bound (open_ends g) k (tl (vertices g))) as [_ U]; [lia| |].
  { intros w Hw. apply O in Hw as [Hw _]. unfold open_ends. pose proof (joins_degree g w). pose proof (joins_nonneg g w w). specialize (D w Hw). lia. }
  eapply Z.le_lt_trans; [exact U|]. eapply Z.le_lt_trans; [|exact B]. apply Z.pow_le_mono_r; [lia|].
  destruct (vertices g); cbn in *; lia.
Qed.
Print Assumptions C89_few_vertices.

(** so the program's report does not fail either *)
Theorem C89_small_net_reported : forall chk g v0 ws o, constructed g -> 0 < gdim g -> fits chk g ->
  first_vertex g v0 -> others g v0 ws -> (prod_over (open_ends g) ws < 9999991)%Z ->
  (forall v k l, Permutation (o v k l) l) -> exists t, report chk o g = Ret t.
Proof.
  intros chk g v0 ws o C Hd F Fv O B P. destruct (C31_is_connected g C) as (b & E & _).
  eapply C77_succeeds; eauto; [apply Fv|]. destruct b; [right|left; auto].
  eapply small_indivisible; eauto. apply connected_quotient_of; auto.
Qed.
Print Assumptions C89_small_net_reported.

(** the bound is reached by the honeycomb net: two vertices with three edges between them, three spanning trees *)
Example C89_case : first_vertex honeycomb 1 /\ others honeycomb 1 [2] /\ prod_over (open_ends honeycomb) [2] = 3%Z /\ tree_number honeycomb <> 0%Z /\ (3 < 9999991)%Z.
Proof.
  assert (V : vertices honeycomb = [1; 2]) by reflexivity. splits.
  - pose proof (hd_first_vertex honeycomb) as H. rewrite V in H. apply H. discriminate.
  - split; [repeat constructor; cbn; tauto|]. intros w. rewrite <- vertices_In, V. cbn. lia.
  - reflexivity.
  - apply C33_tree_number; [apply honeycomb_constructed|discriminate|apply C33_case].
  - lia.
Qed.
