(** Property C93: whether a net gets a placement depends only on the number of spanning trees of the quotient graph; it is the same for
    every description of the net with a cell of the same size. *)
From Coq Require Import List ZArith Lia Bool PeanoNat QArith Qcanon Permutation Znumtheory Sorted.
From Verif Require Import Base Partition Vec Elim Scalars Matrix LinAlg Geometry ZQ QcTac ModSolver ModSolve OrdSet PGraph Net PGraphBase Traverse Placement Harmonic Placed Stability
  Lattices RatLattice Periodic Symmetries Automorph Group SymFront Orbits NetAuto Invariance.
From Verif Require Import Props_PGraph Props_Placement Props_Symmetries Props_Net Props_MinImage Props_Invariance Props_NetSymmetry Props_Small Props_Trees Spanning.
Import ListNotations.
Close Scope Q_scope. Close Scope Qc_scope.
Open Scope nat_scope.

(** ** specification: spanning, spanning_count in Spanning.v *)

Lemma graph_root g : vertices g <> [] -> exists v0 ws, first_vertex g v0 /\ others g v0 ws /\ StronglySorted lt ws.
Proof.
  intros N. destruct (C26_vertices g) as (Sv & NV & Vs). destruct (vertices g) as [|v0 ws] eqn:E; [congruence|]. exists v0, ws.
  inversion Sv as [|? ? Sw Fw]; subst. inversion NV as [|? ? Nv Nw]; subst. rewrite Forall_forall in Fw. splits; auto.
  - split; [apply Vs; left; auto|]. intros w Hw. apply Vs in Hw as [<-|Hw]; auto. specialize (Fw w Hw). lia.
  - split; auto. intros w. rewrite <- Vs. cbn [In]. split; [intros I; split; auto; intros ->; auto|]. intros [[->|I] Nx]; auto. congruence.
Qed.

(** the determinant of C33 is the number of spanning trees (no root) *)
Theorem C93_spanning_trees : forall g n, constructed g -> vertices g <> [] -> (spanning_count g n <-> tree_number g = Z.of_nat n).
Proof.
  intros g n C N. destruct (graph_root g N) as (v0 & ws & F0 & O & So). rewrite (spanning_rooted g v0 ws C O (proj1 F0)). apply C90_tree_number; auto.
Qed.
Print Assumptions C93_spanning_trees.

(** a graph has a placement exactly if its number of spanning trees is not a multiple of 9999991 *)
Theorem C93_position : forall chk g n v, constructed g -> 0 < gdim g -> fits chk g -> spanning_count g n -> is_vertex g v ->
  if (Z.of_nat n mod 9999991 =? 0)%Z then position chk g v = Panic else exists p, position chk g v = Ret p.
Proof.
  intros chk g n v C Hd F Sn V. assert (N : vertices g <> []) by (apply vertices_In in V; intros E; rewrite E in V; destruct V).
  destruct (graph_root g N) as (v0 & ws & F0 & O & So). apply (spanning_rooted g v0 ws C O (proj1 F0)) in Sn. apply (C90_position chk g v0 ws n v); auto.
Qed.
Print Assumptions C93_position.

(** ** other descriptions *)
Lemma ztimes_sneg d M s : length s = d -> ztimes d M (sneg s) = sneg (ztimes d M s).
Proof.
  intros Ls. assert (E : sadd (ztimes d M (sneg s)) (ztimes d M s) = szero d).
  { rewrite <- ztimes_sadd by (rewrite ?sneg_length; auto). replace (sadd (sneg s) s) with (szero d) by seq. apply ztimes_zero. }
  pose proof (ztimes_length d M (sneg s)) as L1. pose proof (ztimes_length d M s) as L2. apply (vec_ext (R := Z)); [slen|]. intros i Hi.
  apply (f_equal (fun l => vget l i)) in E. rewrite vget_sadd, vget_szero in E by congruence. rewrite vget_sneg. lia.
Qed.
Section Carry.
  Variables (g h : graph) (M N : nat -> nat -> Z) (phi : node -> node).
  Hypotheses (C : constructed g) (C' : constructed h) (Ed : gdim h = gdim g).
  Hypotheses (Iso : net_isomorphism g h phi) (Per : periodic_map g M phi) (MN : inverse_matrices (gdim g) M N).
  Notation d := (gdim g).
  Notation f := (ff g phi).
  Notation FF := (FF g phi M).
  Let f_inj v w : is_vertex g v -> is_vertex g w -> f v = f w -> v = w. Proof. exact (r_inj g h M N phi Iso Per MN Ed v w). Qed.
  Let f_vertex v : is_vertex g v -> is_vertex h (f v). Proof. exact (i_vertex g h phi Iso v). Qed.
  Let FF_in e : In e (dedges g) -> In (FF e) (dedges h). Proof. exact (i_in g h C C' Ed phi M Iso Per e). Qed.

  Lemma FF_rev e : In e (dedges g) -> FF (rev e) = rev (FF e).
  Proof.
    intros He. pose proof (dedges_dim g C e He) as Le. destruct (dedges_vertices g e He) as [V1 V2].
    pose proof (z_length g h phi Iso Ed _ V1) as L1. pose proof (z_length g h phi Iso Ed _ V2) as L2. pose proof (ztimes_length d M (shift e)) as L3.
    unfold NetAuto.FF, rev. cbn [head tail shift]. f_equal. rewrite ztimes_sneg by auto. seq.
  Qed.
  Lemma FF_inj e e' : In e (dedges g) -> In e' (dedges g) -> FF e = FF e' -> e = e'.
  Proof.
    intros He He' E. apply (i_loc g h C Ed phi M Iso Per); auto. apply f_inj; try (apply dedges_vertices; auto).
    change (f (head e)) with (head (FF e)). rewrite E. reflexivity.
  Qed.
  Lemma gedge_dir e : In e (gedges g) -> In e (dedges g). Proof. intros He. apply dedges_In. eauto. Qed.
  Definition image (e : edge) : edge := canonical (FF e).
  Lemma image_inj e e' : In e (gedges g) -> In e' (gedges g) -> image e = image e' -> e = e'.
  Proof.
    intros He He' E. pose proof (gedge_dir e He) as De. pose proof (gedge_dir e' He') as De'. apply canonical_eq in E as [E|E].
    - apply FF_inj; auto.
    - rewrite <- FF_rev in E by auto. apply FF_inj in E; auto; [|apply dedges_rev; auto]. rewrite <- (c_canon g C e He), <- (c_canon g C e' He'). rewrite E. apply canonical_rev.
  Qed.
  Lemma image_in e : In e (gedges g) -> In (image e) (gedges h).
  Proof. intros He. apply (dedges_canonical h C'). apply FF_in, gedge_dir; auto. Qed.
  Definition carried (s : list edge) : list edge := filter (fun e => memb edge_eqb e (map image s)) (gedges h).
  Lemma carried_In s e : incl s (gedges g) -> In e (carried s) <-> In e (map image s).
  Proof.
    intros I. unfold carried. rewrite filter_In, (memb_spec _ edge_eqb_spec). split; [tauto|]. intros Ie. split; auto. apply in_map_iff in Ie as (e0 & <- & He0). apply image_in; auto.
  Qed.
  Lemma vertices_NoDup k : NoDup (vertices k). Proof. apply (usort_NoDup _ nat_cmp_laws). Qed.
  Lemma vertex_onto w : is_vertex h w -> exists v, is_vertex g v /\ f v = w. Proof. exact (h_vertex g h phi M Iso Per w). Qed.
  Lemma vertices_same : length (vertices h) = length (vertices g).
  Proof.
    rewrite <- (map_length f (vertices g)). apply Permutation_length, NoDup_Permutation; [apply vertices_NoDup| |].
    - apply NoDup_map_NoDup; [apply vertices_NoDup|]. intros v w Hv Hw. apply f_inj; apply vertices_In; auto.
    - intros w. rewrite in_map_iff. split.
      + intros Hw. apply vertices_In in Hw. destruct (vertex_onto w Hw) as (v & Hv & E). exists v. split; auto. apply vertices_In; auto.
      + intros (v & <- & Hv). apply vertices_In, f_vertex, vertices_In; auto.
  Qed.
  Lemma carried_spanning s : spanning g s -> spanning h (carried s).
  Proof.
    intros ((p & Es) & ND & NV & Ls & He & Lk). assert (I : incl s (gedges g)) by (intros e Ie; rewrite Es in Ie; apply filter_In in Ie; tauto).
    split; [eexists; reflexivity|]. unfold spanning_tree.
    assert (Nm : NoDup (map image s)) by (apply NoDup_map_NoDup; auto; intros x y Hx Hy; apply image_inj; auto).
    assert (Nc : NoDup (carried s)) by (apply NoDup_filter, c_NoDup; auto). splits; auto.
    - apply vertices_NoDup.
    - rewrite vertices_same, <- Ls. f_equal. rewrite <- (map_length image s). apply Permutation_length, NoDup_Permutation; auto. intros e. apply carried_In; auto.
    - intros e Ie. apply filter_In in Ie as [Ie _]. split; apply vertices_In; exists e; auto.
    - assert (L : forall v w, linked s v w -> linked (carried s) (f v) (f w)).
      { intros v w L. induction L as [|u w e L IH Ie Ho]; [constructor|]. apply (linked_edge _ _ (f u) (f w) (image e)); auto.
        - apply carried_In; auto. apply in_map. auto.
        - unfold image. destruct (canonical_cases (FF e)) as [E|E]; rewrite E; unfold NetAuto.FF; cbn [rev head tail]; destruct Ho as [[-> ->]|[-> ->]]; auto. }
      intros v w Hv Hw. apply vertices_In in Hv, Hw. destruct (vertex_onto v Hv) as (v' & Hv' & <-). destruct (vertex_onto w Hw) as (w' & Hw' & <-). apply L, Lk; apply vertices_In; auto.
  Qed.
  Lemma carried_inj s s' : spanning g s -> spanning g s' -> carried s = carried s' -> s = s'.
  Proof.
    intros ((p & Es) & _) ((p' & Es') & _) E. assert (I : forall q, incl (filter q (gedges g)) (gedges g)) by (intros q e Ie; apply filter_In in Ie; tauto).
    subst s s'. apply filter_ext_in. intros e He.
    assert (X : forall q, In (image e) (carried (filter q (gedges g))) <-> q e = true).
    { intros q. rewrite carried_In by auto. rewrite in_map_iff. split.
      - intros (e' & E' & He'). apply filter_In in He' as [He' Q]. apply image_inj in E'; auto. subst. auto.
      - intros Q. exists e. split; auto. apply filter_In. auto. }
    apply eq_true_iff_eq. rewrite <- !X, E. tauto.
  Qed.
  Lemma count_le n n' : spanning_count g n -> spanning_count h n' -> n <= n'.
  Proof.
    intros (ts & Nt & Ht & <-) (ts' & Nt' & Ht' & <-). rewrite <- (map_length carried ts). apply NoDup_incl_length.
    - apply NoDup_map_NoDup; auto. intros x y Hx Hy. apply carried_inj; apply Ht; auto.
    - intros s Is. apply in_map_iff in Is as (s0 & <- & Is). apply Ht'. apply carried_spanning. apply Ht. auto.
  Qed.
End Carry.

Lemma count_exists g : constructed g -> vertices g <> [] -> exists n, spanning_count g n.
Proof.
  intros C N. exists (Z.to_nat (tree_number g)). apply C93_spanning_trees; auto. destruct (graph_root g N) as (v0 & ws & F0 & O & So).
  destruct (tree_number_counts g C v0 ws F0 O So) as [_ P]. lia.
Qed.

(** isomorphic nets with cells of the same size have equally many spanning trees *)
Theorem C93_same_number : forall g h M N phi n, constructed g -> constructed h -> gdim h = gdim g -> vertices g <> [] ->
  net_isomorphism g h phi -> periodic_map g M phi -> inverse_matrices (gdim g) M N -> (spanning_count h n <-> spanning_count g n).
Proof.
  intros g h M N phi n C C' Ed NE Iso Per MN.
  assert (NE' : vertices h <> []).
  { destruct (vertices g) as [|v l] eqn:E; [congruence|]. assert (Hv : is_vertex g v) by (apply vertices_In; rewrite E; left; auto).
    apply (i_vertex g h phi Iso) in Hv. apply vertices_In in Hv. intros X. rewrite X in Hv. destruct Hv. }
  assert (U : forall k a b, constructed k -> vertices k <> [] -> spanning_count k a -> spanning_count k b -> a = b).
  { intros k a b Ck Nk Ha Hb. apply C93_spanning_trees in Ha; auto. apply C93_spanning_trees in Hb; auto. lia. }
  destruct (count_exists g C NE) as [a Ha]. destruct (count_exists h C' NE') as [b Hb].
  assert (X : a <= b) by (apply (count_le g h M N phi C C' Ed Iso Per MN); auto).
  assert (Y : b <= a).
  { assert (NM : inverse_matrices (gdim h) N M) by (intros t Lt; rewrite Ed in *; split; apply MN; auto).
    apply (count_le h g N M (back g N phi) C' C (eq_sym Ed) (back_iso g h M N phi Iso Per MN Ed) (back_periodic g h M N phi Iso Per MN Ed) NM); auto. }
  assert (a = b) by lia. subst b. split; intros H; [rewrite (U h n a)|rewrite (U g n a)]; auto.
Qed.
Print Assumptions C93_same_number.

(** hence one of them has a placement exactly if the other has one, and the comparison of C91 applies *)
Theorem C93_same_placement : forall chk chk' g h M N phi, constructed g -> constructed h -> gdim h = gdim g -> 0 < gdim g -> fits chk g -> fits chk' h ->
  net_isomorphism g h phi -> periodic_map g M phi -> inverse_matrices (gdim g) M N ->
  ((forall v, is_vertex g v -> exists p, position chk g v = Ret p) <-> (forall w, is_vertex h w -> exists q, position chk' h w = Ret q)) /\
  (is_connected g = Ret true -> (exists v p, position chk g v = Ret p) -> same_net chk chk' g h M phi).
Proof.
  intros chk chk' g h M N phi C C' Ed Hd F F' Iso Per MN. assert (Hd' : 0 < gdim h) by lia.
  assert (K : forall v, is_vertex g v -> (exists p, position chk g v = Ret p) <-> (forall w, is_vertex h w -> exists q, position chk' h w = Ret q)).
  { intros v Hv. assert (NE : vertices g <> []) by (apply vertices_In in Hv; intros E; rewrite E in Hv; destruct Hv). destruct (count_exists g C NE) as [n Hn].
    pose proof (proj2 (C93_same_number g h M N phi n C C' Ed NE Iso Per MN) Hn) as Hn'. pose proof (C93_position chk g n v C Hd F Hn Hv) as X.
    pose proof (C93_position chk' h n (ff g phi v) C' Hd' F' Hn' (i_vertex g h phi Iso v Hv)) as Y. split.
    - intros [p Ep] w Hw. pose proof (C93_position chk' h n w C' Hd' F' Hn' Hw) as W. destruct (Z.of_nat n mod 9999991 =? 0)%Z; auto. congruence.
    - intros H. destruct (H _ (i_vertex g h phi Iso v Hv)) as [q Eq]. destruct (Z.of_nat n mod 9999991 =? 0)%Z; auto. congruence. }
  split.
  - split.
    + intros H w Hw. destruct (h_vertex g h phi M Iso Per w Hw) as (v & Hv & _). apply (K v Hv); auto.
    + intros H v Hv. apply (K v Hv). auto.
  - intros Cn (v & p & Ep). destruct (position_placed chk g v p C Hd F Ep) as (pos & P & Hv & _).
    constructor; auto; [exists v, p; auto|]. destruct (proj1 (K v Hv) (ex_intro _ p Ep) _ (i_vertex g h phi Iso v Hv)) as [q Eq]. eauto.
Qed.
Print Assumptions C93_same_placement.

(** ** example *)
(** the honeycomb net and its copy in C91_case have three spanning trees *)
Example C93_case : spanning_count honeycomb 3 /\ spanning_count honeycomb' 3.
Proof.
  assert (X : spanning_count honeycomb 3).
  { destruct C90_case as (F0 & O & So & T). apply (spanning_rooted honeycomb 1 [2] honeycomb_constructed O (proj1 F0)). auto. }
  split; auto. pose proof C92_case as []. pose proof C91_case as []. apply (C93_same_number honeycomb honeycomb' shear shear_back (rewrite_node 2 new_name new_origin shear) 3); auto. vm_compute. discriminate.
Qed.
