(** Property C91: what is computed for a net does not depend on the graph that describes it.

    Two graphs describe the same net if there is an isomorphism [phi] between the infinite nets ([net_isomorphism]) that
    respects the translations ([periodic_map]): other vertex numbers, another choice of the node that represents a vertex,
    another basis of the translations, or a larger cell. *)
From Coq Require Import List ZArith Lia Bool PeanoNat QArith Qcanon Permutation.
From Verif Require Import Base Partition Vec Elim Scalars Matrix LinAlg Geometry ZQ QcTac ModSolver ModSolve OrdSet PGraph Net PGraphBase Traverse Placement Harmonic Placed Stability
  Lattices RatLattice Periodic Symmetries Automorph Group SymFront Orbits NetAuto Invariance.
From Verif Require Import Props_PGraph Props_Placement Props_Symmetries Props_Net Props_MinImage.
Import ListNotations.
Close Scope Q_scope. Close Scope Qc_scope.
Open Scope nat_scope.

(** ** any isomorphism of nets *)
Lemma iso_walk g h phi k a b : net_isomorphism g h phi -> is_node g a -> is_node g b -> walk g k a b <-> walk h k (phi a) (phi b).
Proof.
  intros Iso Na Nb. split.
  - intros W. induction W as [a|k a b c W IH Nc A]; [constructor; apply (ni_node _ _ _ Iso); auto|].
    pose proof (walk_nodes g k a b W) as [_ Nb']. apply walk_S with (phi b); [apply IH; auto|apply (ni_node _ _ _ Iso); auto|apply (ni_adjacent _ _ _ Iso); auto].
  - intros W. remember (phi a) as x eqn:Ex. remember (phi b) as y eqn:Ey. revert b Nb Ey. induction W as [x Nx|k x y z W IH Nz A]; intros b Nb Ey; subst.
    + apply (ni_inj _ _ _ Iso) in Ey; auto. subst b. constructor. auto.
    + pose proof (walk_nodes h k _ _ W) as [_ Ny]. destruct (ni_surj _ _ _ Iso y Ny) as (c & Nc & <-). apply walk_S with c; auto. apply (ni_adjacent _ _ _ Iso); auto.
Qed.

(** a net is connected in every description *)
Theorem C91_is_connected : forall g h phi, constructed g -> constructed h -> net_isomorphism g h phi -> is_connected h = is_connected g.
Proof.
  intros g h phi C C' Iso. destruct (C31_is_connected g C) as (b & -> & Hb). destruct (C31_is_connected h C') as (b' & -> & Hb'). f_equal.
  apply eq_true_iff_eq. rewrite Hb, Hb'. split.
  - intros H a c Na Nc. destruct (H (phi a) (phi c)) as [k W]; try (apply (ni_node _ _ _ Iso); auto). exists k. apply (iso_walk g h phi k a c Iso); auto.
  - intros H x y Nx Ny. destruct (ni_surj _ _ _ Iso x Nx) as (a & Na & <-). destruct (ni_surj _ _ _ Iso y Ny) as (c & Nc & <-). destruct (H a c Na Nc) as [k W]. exists k.
    apply (iso_walk g h phi k a c Iso); auto.
Qed.
Print Assumptions C91_is_connected.

Lemma distance_translate g a b k t : constructed g -> length t = gdim g -> is_node g a -> is_node g b -> distance g a b k -> distance g (translate t a) (translate t b) k.
Proof.
  intros C Lt Na Nb [W H]. split; [apply walk_translate; auto|]. intros j Hj W'. apply (H j Hj).
  assert (Ln : length (sneg t) = gdim g) by (rewrite sneg_length; auto). apply (walk_translate g j _ _ (sneg t) Ln) in W'. unfold translate in W'. cbn [fst snd] in W'.
  destruct a as [v s], b as [w u], Na as [_ La], Nb as [_ Lb]. cbn [fst snd] in *.
  replace (sadd (sadd s t) (sneg t)) with s in W' by seq. replace (sadd (sadd u t) (sneg t)) with u in W' by seq. auto.
Qed.

(** the coordination sequence of a vertex is the one of the vertex that the isomorphism takes it to *)
Theorem C91_coordination_sequence : forall g h phi v order order' n, constructed g -> constructed h -> net_isomorphism g h phi -> is_vertex g v ->
  (forall k l, Permutation (order k l) l) -> (forall k l, Permutation (order' k l) l) ->
  cs_take order' h n (cs_new h (fst (phi (v, repeat 0%Z (gdim g))))) = cs_take order g n (cs_new g v).
Proof.
  intros g h phi v order order' n C C' Iso Hv Po Po'. set (a0 := (v, repeat 0%Z (gdim g)) : node). assert (N0 : is_node g a0) by (split; auto; apply repeat_length).
  pose proof (ni_node _ _ _ Iso a0 N0) as M0. set (w := fst (phi a0)). assert (Hw : is_vertex h w) by apply M0.
  destruct (C28_coordination_sequence g v order n C Hv Po) as (l & -> & L & H). destruct (C28_coordination_sequence h w order' n C' Hw Po') as (l' & -> & L' & H').
  f_equal. apply nth_ext with 0 0; [congruence|]. intros k Hk. rewrite L' in Hk. destruct (H (S k)) as (s & N & Hs & Es); [lia|]. destruct (H' (S k)) as (s' & N' & Hs' & Es'); [lia|].
  replace (S k - 1) with k in * by lia. rewrite Es, Es'.
  (* the shell in h, translated to start at phi a0 *)
  set (z := snd (phi a0)). assert (Lz : length z = gdim h) by apply M0.
  assert (E0 : translate z (w, repeat 0%Z (gdim h)) = phi a0).
  { unfold translate. cbn [fst snd]. change (repeat 0%Z (gdim h)) with (szero (gdim h)). rewrite sadd_0_l by auto. unfold w, z. rewrite <- surjective_pairing. auto. }
  assert (Nw : is_node h (w, repeat 0%Z (gdim h))) by (split; auto; apply repeat_length).
  assert (Dn : forall f a b j, distance f a b j -> is_node f a /\ is_node f b) by (intros f a b j [W _]; eapply walk_nodes; eauto).
  transitivity (length (map (translate z) s')); [rewrite map_length; auto|]. transitivity (length (map phi s)); [|rewrite map_length; auto].
  apply Permutation_length. apply NoDup_Permutation.
  - apply NoDup_map_inj'; auto. intros x y Hx Hy E. apply Hs', Dn in Hx as [_ [_ Lx]]. apply Hs', Dn in Hy as [_ [_ Ly]]. destruct x as [x1 x2], y as [y1 y2]. unfold translate in E. cbn [fst snd] in *.
    assert (E1 : x1 = y1) by congruence. assert (E2 : sadd x2 z = sadd y2 z) by congruence. subst y1. f_equal. apply sadd_cancel_r in E2; auto; congruence.
  - apply NoDup_map_inj'; auto. intros x y Hx Hy E. apply Hs, Dn in Hx as [_ Nx]. apply Hs, Dn in Hy as [_ Ny]. apply (ni_inj _ _ _ Iso); auto.
  - assert (Iso_d : forall b j, is_node g b -> distance g a0 b j <-> distance h (phi a0) (phi b) j).
    { intros b j Nb. unfold distance. rewrite (iso_walk g h phi j a0 b Iso) by auto. split; intros [W Hj]; split; auto; intros i Hi W'; apply (Hj i Hi); apply (iso_walk g h phi i a0 b Iso); auto. }
    intros y. split.
    + intros I. apply in_map_iff in I as (x & <- & Hx). apply Hs' in Hx. pose proof (Dn _ _ _ _ Hx) as [_ Nx]. apply (distance_translate h _ _ _ z C' Lz) in Hx; auto. rewrite E0 in Hx.
      pose proof (Dn _ _ _ _ Hx) as [_ Ny]. destruct (ni_surj _ _ _ Iso _ Ny) as (b & Nb & Eb). rewrite <- Eb. apply in_map. apply Hs. apply Iso_d; auto. rewrite Eb. auto.
    + intros I. apply in_map_iff in I as (b & <- & Hb). apply Hs in Hb. pose proof (Dn _ _ _ _ Hb) as [_ Nb]. apply Iso_d in Hb; auto. pose proof (Dn _ _ _ _ Hb) as [_ Ny].
      assert (Ln : length (sneg z) = gdim h) by (rewrite sneg_length; auto). apply (distance_translate h _ _ _ (sneg z) C' Ln) in Hb; auto.
      assert (E1 : translate (sneg z) (phi a0) = (w, repeat 0%Z (gdim h))).
      { rewrite <- E0. unfold translate. cbn [fst snd]. f_equal. assert (Lr : length (repeat 0%Z (gdim h)) = gdim h) by apply repeat_length. seq. }
      rewrite E1 in Hb. apply in_map_iff. exists (translate (sneg z) (phi b)). split; [|apply Hs'; auto].
      destruct (phi b) as [u t]. destruct Ny as [_ Lu]. unfold translate. cbn [fst snd] in *. f_equal. seq.
Qed.
Print Assumptions C91_coordination_sequence.

(** ** isomorphisms that respect the translations *)
Section Same.
  Variables (chk chk' : Z -> outcome Z) (g h : graph) (phi : node -> node) (M : nat -> nat -> Z) (v0 w0 : nat) (p0 q0 : list Qc).
  Hypotheses (C : constructed g) (C' : constructed h) (Ed : gdim h = gdim g) (Hd : 0 < gdim g) (F : fits chk g) (F' : fits chk' h).
  Hypotheses (Cn : is_connected g = Ret true) (E0 : position chk g v0 = Ret p0) (E0' : position chk' h w0 = Ret q0).
  Hypotheses (Iso : net_isomorphism g h phi) (Per : periodic_map g M phi).

  Lemma joined_all : forall a c, is_node g a -> is_node g c -> joined g a c.
  Proof. destruct (C31_is_connected g C) as (b & E & H). assert (b = true) as -> by congruence. apply H. auto. Qed.
  Lemma placed_h : exists pos', Placed chk' h pos'.
  Proof. assert (Hd' : 0 < gdim h) by (rewrite Ed; auto). destruct (position_placed chk' h w0 q0 C' Hd' F' E0') as (pos' & P' & _). eauto. Qed.

  (** in the barycentric placements the isomorphism is an affine map with matrix M *)
  Theorem same_placement : exists s : nat -> Qc, forall v x, is_node g (v, x) -> exists p q, position chk g v = Ret p /\ position chk' h (fst (phi (v, x))) = Ret q /\
    forall k, k < gdim g -> (coord k q + ZQ (nth k (snd (phi (v, x))) 0%Z) =
      coord k (times (gdim g) (rational M) (map (fun j => coord j p + ZQ (nth j x 0%Z))%Qc (seq 0 (gdim g)))) + s k)%Qc.
  Proof.
    destruct (position_placed chk g v0 p0 C Hd F E0) as (pos & P & Hv0 & _). destruct placed_h as (pos' & P').
    set (a0 := (v0, szero (gdim g)) : node). assert (N0 : is_node g a0) by (apply nodeO; auto).
    exists (fun k => npt pos' (phi a0) k - lapp (gdim g) (rational M) (npt pos a0) k)%Qc. intros v x Na. exists (pos v), (pos' (fst (phi (v, x)))). splits.
    - apply (pl_ret _ _ _ P). apply Na.
    - apply (pl_ret _ _ _ P'). apply (ni_node _ _ _ Iso _ Na).
    - intros k Hk. pose proof (i_affine chk chk' g h pos pos' C C' Ed P P' joined_all phi M Iso Per a0 (v, x) k N0 Na Hk) as A.
      rewrite times_mapp. change (coord k (mapp (gdim g) (rational M) (map (fun j => coord j (pos v) + ZQ (nth j x 0%Z))%Qc (seq 0 (gdim g))))) with
        (vget (mapp (gdim g) (rational M) (map (npt pos (v, x)) (seq 0 (gdim g)))) k).
      rewrite <- lapp_list by auto. change (coord k (pos' (fst (phi (v, x)))) + ZQ (nth k (snd (phi (v, x))) 0%Z))%Qc with (npt pos' (phi (v, x)) k).
      unfold rational. qclra.
  Qed.

  Lemma outcome_bool (x y : outcome bool) : (exists b, x = Ret b) -> (exists b, y = Ret b) -> (x = Ret true <-> y = Ret true) -> x = y.
  Proof. intros [b ->] [c ->] H. f_equal. destruct b, c; auto; [symmetry|]; [destruct H as [H _]|destruct H as [_ H]]; specialize (H eq_refl); congruence. Qed.

  Theorem same_stability : is_stable chk' h = is_stable chk g.
  Proof.
    destruct (position_placed chk g v0 p0 C Hd F E0) as (pos & P & _ & _). destruct placed_h as (pos' & P').
    apply outcome_bool; [rewrite (is_stable_ret _ _ _ P'); eauto|rewrite (is_stable_ret _ _ _ P); eauto|].
    rewrite (stable_nodes chk' h pos' P'), (stable_nodes chk g pos P). unfold same_place. rewrite Ed.
    assert (S := fun a b => i_same chk chk' g h pos pos' C C' Ed P P' joined_all phi M Iso Per a b). split.
    - intros H a b Na Nb Sp. apply (ni_inj _ _ _ Iso); auto. apply H; try (apply (ni_node _ _ _ Iso); auto). apply S; auto.
    - intros H x y Nx Ny Sp. destruct (ni_surj _ _ _ Iso x Nx) as (a & Na & <-). destruct (ni_surj _ _ _ Iso y Ny) as (b & Nb & <-). f_equal. apply H; auto. apply S; auto.
  Qed.

  Lemma h_vertex w : is_vertex h w -> exists v, is_vertex g v /\ ff g phi v = w.
  Proof.
    intros Hw. destruct (ni_surj _ _ _ Iso (w, szero (gdim h))) as ([v s] & [Hv Ls] & E); [split; auto; apply szero_length|]. exists v. split; auto. cbn [fst snd] in *.
    rewrite (i_node g phi M Per v s Hv Ls) in E. congruence.
  Qed.
  Lemma mapp_inj v x y : is_vertex g v -> length x = gdim g -> length y = gdim g ->
    mapp (gdim g) (fun i j => ZQ (M i j)) x = mapp (gdim g) (fun i j => ZQ (M i j)) y -> x = y.
  Proof. intros Hv Lx Ly E. exact (i_linj g h Ed phi M Iso Per v Hv x y Lx Ly E). Qed.

  Theorem same_local_stability : is_locally_stable chk' h = is_locally_stable chk g.
  Proof.
    destruct (position_placed chk g v0 p0 C Hd F E0) as (pos & P & _ & _). destruct placed_h as (pos' & P').
    apply outcome_bool; [rewrite (is_locally_stable_ret _ _ _ C' P'); eauto|rewrite (is_locally_stable_ret _ _ _ C P); eauto|].
    rewrite (locally_stable_nodes chk' h pos' C' P'), (locally_stable_nodes chk g pos C P). rewrite Ed.
    assert (E := fun v => i_evecs chk chk' g h pos pos' C C' Ed P P' joined_all phi M Iso Per v). split.
    - intros H v Hv. specialize (H _ (i_vertex g h phi Iso v Hv)). apply (NoDup_map_inv (mapp (gdim g) (fun i j => ZQ (M i j)))).
      eapply Permutation_NoDup; [apply Permutation_sym, E; auto|auto].
    - intros H w Hw. destruct (h_vertex w Hw) as (v & Hv & <-). eapply Permutation_NoDup; [apply E; auto|]. apply NoDup_map_inj'; auto.
      intros x y Hx Hy. apply in_map_iff in Hx as (e1 & <- & _), Hy as (e2 & <- & _). apply (mapp_inj v); auto; apply evec_length.
  Qed.

  Theorem same_collisions : has_second_order_collisions chk' h = has_second_order_collisions chk g.
  Proof.
    destruct (position_placed chk g v0 p0 C Hd F E0) as (pos & P & _ & _). destruct placed_h as (pos' & P').
    apply outcome_bool; [rewrite (collisions_ret _ _ _ C' P'); eauto|rewrite (collisions_ret _ _ _ C P); eauto|].
    rewrite (collisions_nodes chk' h pos' C' P'), (collisions_nodes chk g pos C P). unfold same_place. rewrite Ed.
    assert (S := fun a b => i_same chk chk' g h pos pos' C C' Ed P P' joined_all phi M Iso Per a b).
    assert (E := fun v => i_evecs chk chk' g h pos pos' C C' Ed P P' joined_all phi M Iso Per v).
    assert (Ff : forall a, is_node g a -> fst (phi a) = ff g phi (fst a)) by (intros [v s] [Hv Ls]; cbn [fst snd] in *; rewrite (i_node g phi M Per v s Hv Ls); auto).
    assert (Pm : forall a b, is_node g a -> is_node g b ->
      Permutation (map (evec (gdim g) pos') (inc h (fst (phi a)))) (map (evec (gdim g) pos') (inc h (fst (phi b)))) <->
      Permutation (map (evec (gdim g) pos) (inc g (fst a))) (map (evec (gdim g) pos) (inc g (fst b)))).
    { intros a b Na Nb. rewrite !Ff, <- !E by (auto; first [apply Na|apply Nb]). split.
      - intros Q. apply perm_map_inj in Q; auto. intros x y Hx Hy. apply in_map_iff in Hx as (e1 & <- & _), Hy as (e2 & <- & _). apply (mapp_inj (fst a)); try apply evec_length. apply Na.
      - intros Q. apply Permutation_map. auto. }
    split.
    - intros (x & y & Nx & Ny & N & Sp & Q). destruct (ni_surj _ _ _ Iso x Nx) as (a & Na & <-). destruct (ni_surj _ _ _ Iso y Ny) as (b & Nb & <-).
      exists a, b. splits; auto; [congruence|apply S; auto|apply Pm; auto].
    - intros (a & b & Na & Nb & N & Sp & Q). exists (phi a), (phi b). splits; try (apply (ni_node _ _ _ Iso); auto); [|apply S; auto|apply Pm; auto].
      intros E1. apply N. apply (ni_inj _ _ _ Iso); auto.
  Qed.
End Same.

(** ** C91 *)
(** [g] and [h] are placed connected graphs for the same net *)
Record same_net (chk chk' : Z -> outcome Z) (g h : graph) (M : nat -> nat -> Z) (phi : node -> node) : Prop := {
  sn_g : constructed g; sn_h : constructed h; sn_dim : gdim h = gdim g; sn_pos : 0 < gdim g;
  sn_fits : fits chk g; sn_fits' : fits chk' h;
  sn_connected : is_connected g = Ret true;
  sn_placed : exists v p, position chk g v = Ret p;
  sn_placed' : exists v p, position chk' h v = Ret p;
  sn_iso : net_isomorphism g h phi; sn_periodic : periodic_map g M phi }.

Theorem C91_position : forall chk chk' g h M phi, same_net chk chk' g h M phi ->
  exists s : nat -> Qc, forall v x, is_node g (v, x) -> exists p q, position chk g v = Ret p /\ position chk' h (fst (phi (v, x))) = Ret q /\
    forall k, k < gdim g -> (coord k q + ZQ (nth k (snd (phi (v, x))) 0%Z) =
      coord k (times (gdim g) (rational M) (map (fun j => coord j p + ZQ (nth j x 0%Z))%Qc (seq 0 (gdim g)))) + s k)%Qc.
Proof. intros chk chk' g h M phi []. destruct sn_placed0 as (v & p & Ep), sn_placed'0 as (w & q & Eq). eapply same_placement; eauto. Qed.
Print Assumptions C91_position.

Theorem C91_stability : forall chk chk' g h M phi, same_net chk chk' g h M phi ->
  is_stable chk' h = is_stable chk g /\ is_locally_stable chk' h = is_locally_stable chk g /\
  has_second_order_collisions chk' h = has_second_order_collisions chk g.
Proof.
  intros chk chk' g h M phi []. destruct sn_placed0 as (v & p & Ep), sn_placed'0 as (w & q & Eq). splits.
  - eapply same_stability; eauto.
  - eapply same_local_stability; eauto.
  - eapply same_collisions; eauto.
Qed.
Print Assumptions C91_stability.

(** ** rewriting a graph *)
(** other vertex numbers [r], the node (v, -c v) as the new node (v, 0), and coordinates for the basis of translations that [M] describes *)
Definition rewrite_edge (d : nat) (r : nat -> nat) (c : nat -> list Z) (M : nat -> nat -> Z) (e : edge) : edge :=
  Edge (r (head e)) (r (tail e)) (ssub (sadd (ztimes d M (shift e)) (c (tail e))) (c (head e))).
Definition rewrite_node (d : nat) (r : nat -> nat) (c : nat -> list Z) (M : nat -> nat -> Z) (a : node) : node :=
  (r (fst a), sadd (ztimes d M (snd a)) (c (fst a))).
(** [N] is the inverse of the integer matrix [M] *)
Definition inverse_matrices (d : nat) (M N : nat -> nat -> Z) : Prop :=
  forall t, length t = d -> ztimes d N (ztimes d M t) = t /\ ztimes d M (ztimes d N t) = t.

Lemma ztimes_sadd d M a b : length a = d -> length b = d -> ztimes d M (sadd a b) = sadd (ztimes d M a) (ztimes d M b).
Proof.
  intros La Lb. apply (zvec_ext _ _ d); [apply ztimes_length|rewrite sadd_length; rewrite !ztimes_length; auto|]. intros k Hk.
  rewrite vget_sadd by (rewrite !ztimes_length; auto). rewrite ZQ_add, !vget_ztimes by auto. rewrite <- lappq_add. apply lappq_ext. intros j Hj.
  rewrite vget_sadd by congruence. apply ZQ_add.
Qed.

Lemma adjacent_raw d raw a b : edges_of_dim d raw -> length (snd a) = d -> length (snd b) = d ->
  adjacent (gnew d raw) a b <-> exists e, In e raw /\
    ((fst a = head e /\ fst b = tail e /\ snd b = sadd (snd a) (shift e)) \/ (fst b = head e /\ fst a = tail e /\ snd a = sadd (snd b) (shift e))).
Proof.
  intros Hd La Lb. split.
  - intros (e & He & H). apply gnew_edges in He as (f & Hf & ->). exists f. split; auto. pose proof (Hd f Hf) as Lf.
    destruct (canonical_cases f) as [E|E]; rewrite E in H; auto. cbn [rev head tail shift] in H.
    destruct H as [(H1 & H2 & H3)|(H1 & H2 & H3)]; [right|left]; splits; auto; rewrite H3; seq.
  - intros (f & Hf & H). exists (canonical f). split; [apply gnew_edges; eauto|]. pose proof (Hd f Hf) as Lf.
    destruct (canonical_cases f) as [E|E]; rewrite E; auto. cbn [rev head tail shift].
    destruct H as [(H1 & H2 & H3)|(H1 & H2 & H3)]; [right|left]; splits; auto; rewrite H3; seq.
Qed.

(** a graph rewritten in this way describes the same net *)
Theorem C91_rewritten : forall g r c M N, constructed g -> inverse_matrices (gdim g) M N ->
  (forall v w, is_vertex g v -> is_vertex g w -> r v = r w -> v = w) -> (forall v, is_vertex g v -> length (c v) = gdim g) ->
  let h := gnew (gdim g) (map (rewrite_edge (gdim g) r c M) (gedges g)) in
  constructed h /\ gdim h = gdim g /\ net_isomorphism g h (rewrite_node (gdim g) r c M) /\ periodic_map g M (rewrite_node (gdim g) r c M).
Proof.
  intros g r c M N C MN Rinj Lc h. set (d := gdim g) in *.
  assert (Ve : forall e, In e (gedges g) -> is_vertex g (head e) /\ is_vertex g (tail e)) by (intros e He; split; exists e; auto).
  assert (Dm : edges_of_dim d (map (rewrite_edge d r c M) (gedges g))).
  { intros e He. apply in_map_iff in He as (f & <- & Hf). destruct (Ve f Hf) as [V1 V2]. unfold rewrite_edge. cbn [shift].
    pose proof (Lc _ V1). pose proof (Lc _ V2). pose proof (ztimes_length d M (shift f)). slen. }
  assert (Ch : constructed h) by (exists (map (rewrite_edge d r c M) (gedges g)); split; auto).
  assert (Hv : forall v, is_vertex h v <-> exists w, is_vertex g w /\ v = r w).
  { intros v. split.
    - intros (e & He & H). apply gnew_edges in He as (f & Hf & ->). apply in_map_iff in Hf as (f0 & <- & Hf0). destruct (Ve f0 Hf0) as [V1 V2].
      destruct (canonical_cases (rewrite_edge d r c M f0)) as [E|E]; rewrite E in H; cbn [rev rewrite_edge head tail] in H; destruct H as [->| ->]; eauto.
    - intros (w & (e & He & Hw) & ->). exists (canonical (rewrite_edge d r c M e)). split; [apply gnew_edges; eexists; split; [apply in_map; eauto|auto]|].
      destruct (canonical_cases (rewrite_edge d r c M e)) as [E|E]; rewrite E; cbn [rev rewrite_edge head tail]; destruct Hw as [->| ->]; auto. }
  assert (Nd : forall a, is_node g a -> is_node h (rewrite_node d r c M a)).
  { intros [v s] [V L]. cbn [fst snd] in *. unfold rewrite_node. cbn [fst snd]. split; cbn [fst snd]; [apply Hv; eauto|]. pose proof (Lc v V). pose proof (ztimes_length d M s). change (gdim h) with d. slen. }
  assert (Minj : forall s t, length s = d -> length t = d -> ztimes d M s = ztimes d M t -> s = t).
  { intros s t Ls Lt E. rewrite <- (proj1 (MN s Ls)), <- (proj1 (MN t Lt)). congruence. }
  assert (One : forall a b e, is_node g a -> is_node g b -> In e (gedges g) -> snd b = sadd (snd a) (shift e) /\ fst a = head e /\ fst b = tail e <->
    snd (rewrite_node d r c M b) = sadd (snd (rewrite_node d r c M a)) (shift (rewrite_edge d r c M e)) /\
    fst (rewrite_node d r c M a) = head (rewrite_edge d r c M e) /\ fst (rewrite_node d r c M b) = tail (rewrite_edge d r c M e)).
  { intros [v s] [w t] e [Hv1 Ls] [Hw Lt] He. destruct (Ve e He) as [V1 V2]. pose proof (Lc _ V1) as L1. pose proof (Lc _ V2) as L2. pose proof (c_dim g C e He) as Le.
    fold d in Ls, Lt, Le. cbn [fst snd] in *. unfold rewrite_node, rewrite_edge. cbn [fst snd head tail shift].
    pose proof (ztimes_length d M s). pose proof (ztimes_length d M t). pose proof (ztimes_length d M (shift e)). split.
    - intros (-> & -> & ->). splits; auto. rewrite ztimes_sadd by auto. seq.
    - intros (E & E1 & E2). apply Rinj in E1; auto. apply Rinj in E2; auto. subst v w. splits; auto.
      apply Minj; auto; [slen|]. rewrite ztimes_sadd by auto. apply (vec_ext (R := Z)); [slen|]. intros i Hi. apply (f_equal (fun l => vget l i)) in E.
      repeat (rewrite vget_sadd in E by slen). rewrite vget_ssub in E by slen. rewrite vget_sadd in E by slen. rewrite vget_sadd by slen. lia. }
  splits; auto.
  split; auto.
  - intros [v s] [w t] [V L] [W L'] E. cbn [fst snd] in *. unfold rewrite_node in E. cbn [fst snd] in E.
    assert (E1 : r v = r w) by congruence. assert (E2 : sadd (ztimes d M s) (c v) = sadd (ztimes d M t) (c w)) by congruence. apply Rinj in E1; auto. subst w. f_equal.
    apply Minj; auto. apply sadd_cancel_r in E2; auto; rewrite ztimes_length; symmetry; auto.
  - intros [x t] [X L]. cbn [fst snd] in *. apply Hv in X as (v & V & ->). change (gdim h) with d in L. pose proof (Lc v V) as L1. fold d in L1.
    assert (L2 : length (ssub t (c v)) = d) by slen.
    exists (v, ztimes d N (ssub t (c v))). split; [split; auto; apply ztimes_length|]. unfold rewrite_node. cbn [fst snd]. f_equal. rewrite (proj2 (MN _ L2)). seq.
  - intros a b Na Nb. pose proof (Nd a Na) as [_ La]. pose proof (Nd b Nb) as [_ Lb]. unfold h at 1. rewrite adjacent_raw by auto. unfold adjacent. split.
    + intros (e & He & H). exists (rewrite_edge d r c M e). split; [apply in_map; auto|].
      destruct H as [(H1 & H2 & H3)|(H1 & H2 & H3)]; [left; destruct (proj1 (One a b e Na Nb He)) as (? & ? & ?)|right; destruct (proj1 (One b a e Nb Na He)) as (? & ? & ?)]; auto.
    + intros (f & Hf & H). apply in_map_iff in Hf as (e & <- & He). exists e. split; auto.
      destruct H as [(H1 & H2 & H3)|(H1 & H2 & H3)]; [left; destruct (proj2 (One a b e Na Nb He)) as (? & ? & ?)|right; destruct (proj2 (One b a e Nb Na He)) as (? & ? & ?)]; auto.
  - intros [v s] t [V L] Lt. cbn [fst snd] in *. unfold translate, rewrite_node. cbn [fst snd]. fold d. f_equal. rewrite ztimes_sadd by auto. pose proof (Lc v V) as L1.
    pose proof (ztimes_length d M s). pose proof (ztimes_length d M t). seq.
Qed.
Print Assumptions C91_rewritten.

(** ** the minimal image *)
(** The minimal image of a net is as connected and as stable as the net, with the same coordination sequences. *)
Theorem C91_minimal_image : forall chk g h, sound chk g -> is_ladder chk g = Ret false -> minimal_image chk g = Ret (Some h) ->
  is_connected h = Ret true /\
  (exists f : nat -> nat, (forall w, is_vertex h w <-> exists v, is_vertex g v /\ f v = w) /\
     forall v order order' n, is_vertex g v -> (forall k l, Permutation (order k l) l) -> (forall k l, Permutation (order' k l) l) ->
       cs_take order' h n (cs_new h (f v)) = cs_take order g n (cs_new g v)) /\
  (fits chk h -> (exists w q, position chk h w = Ret q) ->
     sound chk h /\ is_stable chk h = is_stable chk g /\ has_second_order_collisions chk h = has_second_order_collisions chk g).
Proof.
  intros chk g h So La E. destruct (C70_minimal_image chk g h So La E) as (C' & Ed & M & phi & Iso & Per & _).
  pose proof (so_constructed _ _ So) as C. pose proof (so_connected _ _ So) as Cn.
  assert (Cn' : is_connected h = Ret true) by (rewrite (C91_is_connected g h phi C C' Iso); auto). splits; auto.
  - exists (fun v => fst (phi (v, repeat 0%Z (gdim g)))). split.
    + intros w. split.
      * apply (h_vertex g h phi M Iso Per).
      * intros (v & Hv & <-). apply (ni_node _ _ _ Iso). split; auto. apply repeat_length.
    + intros v order order' n Hv Po Po'. apply (C91_coordination_sequence g h phi v order order' n C C' Iso Hv Po Po').
  - intros Fh Ph. destruct (setup chk g So) as (pos & P & CC & LS). destruct (so_vertex _ _ So) as [v Hv].
    assert (SN : same_net chk chk g h M phi).
    { constructor; auto; [apply So|apply So|]. exists v, (pos v). apply (pl_ret _ _ _ P). auto. }
    destruct (C91_stability chk chk g h M phi SN) as (S1 & S2 & S3). splits; auto. constructor; auto.
    + rewrite Ed. apply So.
    + rewrite S2. apply So.
    + exists (ff g phi v). apply (i_vertex g h phi Iso v Hv).
Qed.
Print Assumptions C91_minimal_image.

(** ** examples *)
(** the honeycomb net with vertices 7 and 3, another node of the second orbit as its representative, and a sheared basis *)
Definition shear (i j : nat) : Z := nth j (nth i [[1; 1]; [0; 1]]%Z []) 0%Z.
Definition shear_back (i j : nat) : Z := nth j (nth i [[1; -1]; [0; 1]]%Z []) 0%Z.
Definition new_name (v : nat) : nat := if v =? 1 then 7 else 3.
Definition new_origin (v : nat) : list Z := if v =? 1 then [0; 0]%Z else [2; -1]%Z.
Definition honeycomb' : graph := gnew 2 (map (rewrite_edge 2 new_name new_origin shear) (gedges honeycomb)).
Example C91_case_edges : gedges honeycomb' = [Edge 3 7 [-3; 0]; Edge 3 7 [-3; 1]; Edge 3 7 [-2; 1]]%Z.
Proof. vm_compute. reflexivity. Qed.
Example C91_case : same_net chk64 chk64 honeycomb honeycomb' shear (rewrite_node 2 new_name new_origin shear).
Proof.
  destruct (C91_rewritten honeycomb new_name new_origin shear shear_back) as (C' & Ed & Iso & Per).
  - apply honeycomb_constructed.
  - intros t Lt. change (gdim honeycomb) with 2 in *. destruct t as [|x [|y [|? ?]]]; try discriminate Lt.
    unfold ztimes, shear, shear_back. cbn [seq map fold_right nth]. split; repeat (apply (f_equal2 cons); [lia|]); reflexivity.
  - intros v w Hv Hw. apply honeycomb_vertex in Hv as [->| ->], Hw as [->| ->]; cbn; congruence.
  - intros v Hv. apply honeycomb_vertex in Hv as [->| ->]; reflexivity.
  - constructor; auto.
    + apply honeycomb_constructed.
    + vm_compute; lia.
    + apply honeycomb_fits.
    + split; [vm_compute; reflexivity|]. right. splits; auto; [vm_compute; discriminate|]. exists 3%Z. split; [|vm_compute; discriminate].
      intros e x He Hx. rewrite C91_case_edges in He. repeat (destruct He as [<-|He]; [simpl in Hx; intuition lia|]). destruct He.
    + exists 1. destruct (position chk64 honeycomb 1) as [p| |] eqn:E; [eauto|exfalso; vm_compute in E; discriminate E..].
    + exists 3. destruct (position chk64 honeycomb' 3) as [p| |] eqn:E; [eauto|exfalso; vm_compute in E; discriminate E..].
Qed.
Example C91_case_stable : is_stable chk64 honeycomb = Ret true /\ is_locally_stable chk64 honeycomb' = Ret true.
Proof. split; [vm_compute; reflexivity|]. rewrite (proj1 (proj2 (C91_stability _ _ _ _ _ _ C91_case))). vm_compute. reflexivity. Qed.
