(** Properties C32-C35 of src/pgraphs.rs: barycentric placement, stability,
    edges by their vectors.

    [chk] is the i64 arithmetic: [fun z => Ret z] (no overflow) or [chk64]
    (debug build: panic on overflow); [fits chk g] (Placement.v) says that the
    graph has fewer than 4999996 edges and, for [chk64], at most 400000 edges
    and shifts that keep the sums within 9 * 10^11. *)
From Coq Require Import List ZArith Lia Bool PeanoNat Znumtheory QArith Qcanon Permutation.
From Verif Require Import Base Partition Vec Elim Scalars Matrix ZQ QcTac ModSolver ModSolve OrdSet PGraph Net PGraphBase Traverse Component Props_ModSolver Placement Harmonic Placed Stability.
From Verif Require ModMC DetZ.
Import ListNotations.
Close Scope Q_scope. Close Scope Qc_scope.
Open Scope nat_scope.

(** ** specification *)
(** coordinate k of a point, of a shift *)
Definition coord (k : nat) (p : list Qc) : Qc := nth k p 0%Qc.
Definition scoord (k : nat) (s : list Z) : Qc := ZQ (nth k s 0%Z).
(** sum of a function over a list *)
Definition total {A} (f : A -> Qc) (l : list A) : Qc := fold_right (fun x s => (f x + s)%Qc) 0%Qc l.

(** A placement puts each vertex at a point.  Coordinate k of the sum of the vectors of
    all edge ends at v: an edge (h,t,s) leads from the point of h to the point of t
    plus s, and back. *)
Definition edge_sum (g : graph) (pos : nat -> list Qc) (v k : nat) : Qc :=
  total (fun e => (if head e =? v then coord k (pos (tail e)) + scoord k (shift e) - coord k (pos v) else 0) +
                  (if tail e =? v then coord k (pos (head e)) - scoord k (shift e) - coord k (pos v) else 0))%Qc (gedges g).

(** every vertex is the barycentre of its neighbours *)
Definition barycentric (g : graph) (pos : nat -> list Qc) : Prop :=
  (forall v, is_vertex g v -> length (pos v) = gdim g) /\
  forall v k, is_vertex g v -> k < gdim g -> edge_sum g pos v k = 0%Qc.

(** the quotient graph is connected *)
Definition connected_quotient (g : graph) : Prop := forall v w, is_vertex g v -> is_vertex g w -> linked (gedges g) v w.

(** the first vertex: the one with the least number *)
Definition first_vertex (g : graph) (v : nat) : Prop := is_vertex g v /\ forall w, is_vertex g w -> v <= w.

Lemma first_vertex_hd g v : first_vertex g v -> hd 0 (vertices g) = v.
Proof.
  intros [Hv Hm]. apply vertices_In in Hv. pose proof (usort_sorted _ nat_cmp_laws (flat_map (fun e => [head e; tail e]) (gedges g))) as S.
  fold (vertices g) in S. destruct (vertices g) as [|a l] eqn:E; [destruct Hv|]. simpl. inversion S as [|? ? _ F]; subst.
  assert (Ha : v <= a) by (apply Hm, vertices_In; rewrite E; simpl; auto).
  destruct Hv as [->|Hv]; auto. rewrite Forall_forall in F. specialize (F v Hv). unfold lt_ in F. apply Nat.compare_lt_iff in F. lia.
Qed.
Lemma hd_first_vertex g : vertices g <> [] -> first_vertex g (hd 0 (vertices g)).
Proof.
  intros N. pose proof (usort_sorted _ nat_cmp_laws (flat_map (fun e => [head e; tail e]) (gedges g))) as S.
  fold (vertices g) in S. destruct (vertices g) as [|a l] eqn:E; [congruence|]. simpl. split.
  - apply vertices_In. rewrite E. simpl; auto.
  - intros w Hw. apply vertices_In in Hw. rewrite E in Hw. destruct Hw as [->|Hw]; auto.
    inversion S as [|? ? _ F]; subst. rewrite Forall_forall in F. specialize (F w Hw). apply Nat.compare_lt_iff in F. lia.
Qed.

Lemma qsum_cons {A} (f : A -> Qc) x l : qsum f (x :: l) = (f x + qsum f l)%Qc.
Proof. reflexivity. Qed.
Lemma lsum_cons {A} (f : A -> Z) x l : lsum f (x :: l) = (f x + lsum f l)%Z.
Proof. reflexivity. Qed.

Lemma edge_sum_inc g pos v k : constructed g -> k < gdim g -> edge_sum g pos v k = qsum (fun e => pget (evec (gdim g) pos e) k) (inc g v).
Proof.
  intros C Hk. unfold edge_sum, inc, dedges, total. induction (gedges g) as [|e l IH]; auto.
  cbn [fold_right flat_map app filter]. rewrite IH. cbn [head rev].
  assert (E1 : pget (evec (gdim g) pos e) k = (coord k (pos (tail e)) + scoord k (shift e) - coord k (pos (head e)))%Qc) by (rewrite pget_evec by auto; reflexivity).
  assert (E2 : pget (evec (gdim g) pos (rev e)) k = (coord k (pos (head e)) - scoord k (shift e) - coord k (pos (tail e)))%Qc).
  { rewrite pget_evec by auto. unfold rev; simpl. rewrite vget_sneg, ZQ_opp. unfold coord, scoord, pget, vget. simpl. ring. }
  destruct (Nat.eqb_spec (head e) v) as [Eh|], (Nat.eqb_spec (tail e) v) as [Et|]; rewrite ?qsum_cons, ?E1, ?E2, ?Eh, ?Et; ring.
Qed.

(** ** C32 *)
Theorem C32_barycentric : forall chk g v p, constructed g -> 0 < gdim g -> fits chk g -> position chk g v = Ret p ->
  exists pos, barycentric g pos /\ (forall u, first_vertex g u -> pos u = repeat 0%Qc (gdim g)) /\
    (forall w, is_vertex g w -> position chk g w = Ret (pos w)) /\ pos v = p.
Proof.
  intros chk g v p C Hd F E. destruct (position_placed chk g v p C Hd F E) as (pos & P & Hv & Ep). exists pos. splits; auto.
  - split; [apply (pl_len _ _ _ P)|]. intros w k Hw Hk. rewrite edge_sum_inc by auto. apply (pl_bary _ _ _ P); auto.
  - intros u Hu. apply first_vertex_hd in Hu. rewrite <- Hu. apply (pl_0 _ _ _ P).
  - apply (pl_ret _ _ _ P).
Qed.
Print Assumptions C32_barycentric.

(** in terms of the interface: the vectors of the incident edges of a vertex add up to zero *)
Theorem C32_edge_vectors : forall chk g v p w, constructed g -> 0 < gdim g -> fits chk g -> position chk g v = Ret p -> is_vertex g w ->
  exists es vs, incidences g w = Ret es /\ mapM (edge_vector chk g) es = Ret vs /\
    Forall (fun x => length x = gdim g) vs /\ forall k, k < gdim g -> total (coord k) vs = 0%Qc.
Proof.
  intros chk g v p w C Hd F E Hw. destruct (position_placed chk g v p C Hd F E) as (pos & P & Hv & Ep).
  exists (inc g w), (map (evec (gdim g) pos) (inc g w)). splits.
  - apply incidences_vertex; auto.
  - apply mapM_evec; auto. apply inc_incl.
  - apply Forall_forall. intros x Hx. apply in_map_iff in Hx as (e & <- & _). apply evec_length.
  - intros k Hk. rewrite <- (pl_bary _ _ _ P w k Hw Hk). generalize (inc g w). induction l as [|e l IH]; simpl; auto.
    rewrite IH. reflexivity.
Qed.
Print Assumptions C32_edge_vectors.

(** uniqueness *)
Theorem C32_unique : forall g pos pos' v0, constructed g -> connected_quotient g -> barycentric g pos -> barycentric g pos' ->
  is_vertex g v0 -> pos v0 = pos' v0 -> forall v, is_vertex g v -> pos v = pos' v.
Proof.
  intros g pos pos' v0 C Q [L B] [L' B'] H0 E0 v Hv. apply point_ext; [rewrite L, L' by auto; auto|]. intros k Hk. rewrite L in Hk by auto.
  set (y := fun u => (pget (pos u) k - pget (pos' u) k)%Qc).
  assert (Hy : forall u, is_vertex g u -> harmonic g y u).
  { intros u Hu. specialize (B u k Hu Hk). specialize (B' u k Hu Hk). rewrite edge_sum_inc in B, B' by auto.
    unfold harmonic. assert (E : qsum (fun e => y (tail e) - y u)%Qc (inc g u) =
      (qsum (fun e => pget (evec (gdim g) pos e) k) (inc g u) - qsum (fun e => pget (evec (gdim g) pos' e) k) (inc g u))%Qc).
    { rewrite <- qsum_sub. apply qsum_ext. intros e He. apply inc_In in He as [_ <-]. rewrite !pget_evec by auto. unfold y. ring. }
    rewrite E, B, B'. ring. }
  pose proof (harmonic_constant g y Q Hy v v0 Hv H0) as E. unfold y in E. rewrite E0 in E. qclra.
Qed.
Print Assumptions C32_unique.

(** ** C33 *)
(** number of edge ends at v *)
Definition degree (g : graph) (v : nat) : Z := fold_right (fun e s => (delta (head e =? v)%nat + delta (tail e =? v)%nat + s)%Z) 0%Z (gedges g).
(** number of times v and w are joined, in each direction (a loop counts twice, for v = w) *)
Definition joins (g : graph) (v w : nat) : Z :=
  fold_right (fun e s => (delta ((head e =? v) && (tail e =? w))%nat + delta ((head e =? w) && (tail e =? v))%nat + s)%Z) 0%Z (gedges g).
Definition laplacian (g : graph) (v w : nat) : Z := ((if (v =? w)%nat then degree g v else 0) - joins g v w)%Z.
(** the determinant of the Laplacian without the row and column of the first vertex; by the
    matrix-tree theorem the number of spanning trees of the quotient graph *)
Definition tree_number (g : graph) : Z :=
  ModMC.zdet (length (vertices g) - 1) (fun i j => laplacian g (nth (S i) (vertices g) 0) (nth (S j) (vertices g) 0)).

Lemma laplacian_LA g i j : i < length (vertices g) -> j < length (vertices g) ->
  laplacian g (nth i (vertices g) 0) (nth j (vertices g) 0) = LA g i j (inc g (nth i (vertices g) 0)).
Proof.
  intros Hi Hj. unfold laplacian, degree, joins, LA, inc, dedges.
  assert (E : (nth i (vertices g) 0 =? nth j (vertices g) 0) = (j =? i)).
  { destruct (Nat.eqb_spec j i) as [->|N]; [apply Nat.eqb_refl|]. apply Nat.eqb_neq. intros E. apply N. symmetry. apply (V_inj g); auto. }
  rewrite E. clear E. set (v := nth i (vertices g) 0). set (w := nth j (vertices g) 0). clearbody v w.
  induction (gedges g) as [|e l IH]; [destruct (j =? i); auto|]. cbn [fold_right flat_map app filter].
  transitivity (((if (j =? i)%nat then delta (head e =? v)%nat + delta (tail e =? v)%nat else 0) -
    (delta ((head e =? v) && (tail e =? w))%nat + delta ((head e =? w) && (tail e =? v))%nat) +
    lsum (fun e => delta (j =? i)%nat - delta (w =? tail e)%nat) (filter (fun e => (head e =? v)%nat) (flat_map (fun e => [e; rev e]) l)))%Z).
  { rewrite <- IH. destruct (j =? i); lia. }
  clear IH. cbn [head rev]. rewrite (Nat.eqb_sym (head e) w), (Nat.eqb_sym (tail e) w).
  destruct (head e =? v), (tail e =? v); rewrite ?lsum_cons; cbn [tail rev]; rewrite ?andb_true_r, ?andb_false_r; cbn [andb];
    unfold delta; destruct (j =? i), (w =? tail e), (w =? head e); cbn [andb]; lia.
Qed.

Lemma tree_number_det g : vertices g <> [] -> the_det g = tree_number g.
Proof.
  intros N. unfold tree_number. destruct (length (vertices g)) as [|m] eqn:L; [destruct (vertices g); [congruence|discriminate]|].
  rewrite DetZ.zdet_first_row by reflexivity. replace (S m - 1) with m by lia. apply DetZ.zdet_ext. intros i j Hi Hj.
  rewrite laplacian_LA by lia. reflexivity.
Qed.

(** exactly when position succeeds *)
Theorem C33_succeeds : forall chk g v, constructed g -> 0 < gdim g -> fits chk g -> is_vertex g v -> connected_quotient g ->
  ~ (9999991 | tree_number g)%Z -> exists p, position chk g v = Ret p.
Proof.
  intros chk g v C Hd F Hv Q D. assert (N : vertices g <> []) by (intros E; apply vertices_In in Hv; rewrite E in Hv; destruct Hv).
  rewrite <- tree_number_det in D by auto. destruct (placed_or_panic chk g C Hd F) as [H _]. destruct (H N D) as [pos P].
  exists (pos v). apply (pl_ret _ _ _ P); auto.
Qed.
Print Assumptions C33_succeeds.

(** for a connected quotient the tree number is not zero, so this fails only for the multiples of one prime *)
Theorem C33_tree_number : forall g, constructed g -> vertices g <> [] -> (connected_quotient g <-> tree_number g <> 0%Z).
Proof.
  intros g C N. rewrite <- tree_number_det by auto. split.
  - intros Q. apply det_connected; auto. destruct (vertices g); [congruence|simpl; lia].
  - intros D v w Hv Hw. destruct (traverse_ok g C v Hv) as (t & comp & c & es & _ & T).
    destruct (in_dec Nat.eq_dec w comp) as [I|I].
    + destruct (t_joined _ _ _ _ _ _ T w I) as [_ [k W]]. clear - W C. 
      assert (H : forall k a b, walk g k a b -> linked (gedges g) (fst a) (fst b)).
      { induction 1 as [|k0 a b c0 W0 IH Hc (e & He & Ho)]; [constructor|]. apply linked_edge with (fst b) e; auto. intuition. }
      apply (H _ _ _ W).
    + exfalso. apply D. apply (det_disconnected g C v w); auto. intros L. apply I.
      clear - L T C. induction L as [|u x e _ IH He Ho]; [eapply t_v0; eauto|].
      destruct Ho as [[E1 E2]|[E1 E2]].
      * subst. apply (t_closed _ _ _ _ _ _ T); auto. apply dedges_In. eauto.
      * subst. apply (t_closed _ _ _ _ _ _ T (rev e)); auto. apply dedges_In. eauto.
Qed.
Print Assumptions C33_tree_number.

(** position panics for every vertex if the tree number is a multiple of 9999991 *)
Theorem C33_panics : forall chk g v, constructed g -> 0 < gdim g -> fits chk g -> (9999991 | tree_number g)%Z -> position chk g v = Panic.
Proof.
  intros chk g v C Hd F D. destruct (placed_or_panic chk g C Hd F) as [_ H]. apply H.
  destruct (list_eq_dec Nat.eq_dec (vertices g) []) as [E|N]; auto. right. rewrite tree_number_det; auto.
Qed.
Print Assumptions C33_panics.

(** it does happen for a connected net: a graph with 18 vertices and 36 edges *)
Definition many_trees : graph := gnew 2 [Edge 1 2 [0; 0]; Edge 1 2 [1; 0]; Edge 2 3 [0; 0]; Edge 1 3 [0; 1]; Edge 1 3 [1; 0]; Edge 1 3 [2; 1];
  Edge 3 4 [0; 0]; Edge 1 4 [1; 0]; Edge 4 5 [0; 0]; Edge 1 5 [0; 1]; Edge 1 5 [1; 0]; Edge 5 6 [0; 0]; Edge 1 6 [0; 1]; Edge 6 7 [0; 0];
  Edge 1 7 [1; 0]; Edge 7 8 [0; 0]; Edge 8 9 [0; 0]; Edge 9 10 [0; 0]; Edge 1 10 [0; 1]; Edge 10 11 [0; 0]; Edge 1 11 [1; 0];
  Edge 11 12 [0; 0]; Edge 1 12 [0; 1]; Edge 12 13 [0; 0]; Edge 1 13 [1; 0]; Edge 1 13 [0; 1]; Edge 13 14 [0; 0]; Edge 1 14 [1; 0];
  Edge 14 15 [0; 0]; Edge 1 15 [0; 1]; Edge 15 16 [0; 0]; Edge 1 16 [1; 0]; Edge 16 17 [0; 0]; Edge 1 17 [0; 1]; Edge 17 18 [0; 0]; Edge 1 18 [1; 0]]%Z.

Theorem C33_position_total_refuted : exists g, constructed g /\ is_connected g = Ret true /\ is_vertex g 1 /\ position chk64 g 1 = Panic.
Proof.
  exists many_trees. splits.
  - eexists. split; [|reflexivity]. intros e He. repeat (destruct He as [<-|He]; [reflexivity|]). destruct He.
  - vm_compute. reflexivity.
  - apply vertices_In. vm_compute. auto.
  - vm_compute. reflexivity.
Qed.
Print Assumptions C33_position_total_refuted.

(** the hypotheses are met: the honeycomb net *)
Definition honeycomb : graph := gnew 2 [Edge 1 2 [0; 0]; Edge 1 2 [1; 0]; Edge 1 2 [0; 1]]%Z.
Lemma honeycomb_constructed : constructed honeycomb.
Proof. eexists. split; [|reflexivity]. intros e He. repeat (destruct He as [<-|He]; [reflexivity|]). destruct He. Qed.
Lemma honeycomb_fits : fits chk64 honeycomb.
Proof.
  split; [vm_compute; reflexivity|]. right. splits; auto; [vm_compute; discriminate|]. exists 1%Z. split; [|vm_compute; discriminate].
  intros e x He Hx. vm_compute in He. repeat (destruct He as [<-|He]; [simpl in Hx; intuition lia|]). destruct He.
Qed.
Example C32_case : position chk64 honeycomb 1 = Ret [0; 0]%Qc /\ position chk64 honeycomb 2 = Ret [- (ZQ 1 / ZQ 3); - (ZQ 1 / ZQ 3)]%Qc /\ position chk64 honeycomb 3 = Panic.
Proof. splits; qc_compute. Qed.
Example C33_case : connected_quotient honeycomb.
Proof.
  apply C33_tree_number; [apply honeycomb_constructed|discriminate|]. intros E.
  pose proof (C33_panics chk64 honeycomb 1 honeycomb_constructed ltac:(vm_compute; lia) honeycomb_fits) as P. rewrite E in P.
  specialize (P (Z.divide_0_r _)). vm_compute in P. discriminate.
Qed.

(** ** C34 *)
(** two points differ by an integer vector *)
Definition differ_by_integers (p q : list Qc) : Prop := length p = length q /\ forall k, k < length p -> exists z, (coord k p - coord k q)%Qc = ZQ z.

Theorem C34_is_stable : forall chk g v0 p0, constructed g -> 0 < gdim g -> fits chk g -> position chk g v0 = Ret p0 ->
  exists b, is_stable chk g = Ret b /\
    (b = true <-> forall v w p q, is_vertex g v -> is_vertex g w -> v <> w -> position chk g v = Ret p -> position chk g w = Ret q -> ~ differ_by_integers p q).
Proof.
  intros chk g v0 p0 C Hd F E. destruct (position_placed chk g v0 p0 C Hd F E) as (pos & P & _ & _).
  eexists. split; [apply (is_stable_ret chk g pos P)|]. rewrite negb_true_iff, (repeats_spec _ p_eqb_spec). split.
  - intros [ND _] v w p q Hv Hw N Ep Eq H. rewrite (pl_ret _ _ _ P) in Ep, Eq by auto. injection Ep as <-. injection Eq as <-.
    apply map_frac_eq in H. apply N. apply (NoDup_map_inj (fun v => map frac (pos v)) (vertices g)); auto; apply vertices_In; auto.
  - intros H. split; [|intros; simpl; tauto]. apply NoDup_map_inj'; [apply V_NoDup|]. intros v w Hv Hw Ef.
    apply vertices_In in Hv, Hw. destruct (Nat.eq_dec v w) as [|N]; auto. exfalso.
    apply (H v w (pos v) (pos w) Hv Hw N); try (apply (pl_ret _ _ _ P); auto). apply map_frac_eq; auto.
Qed.
Print Assumptions C34_is_stable.

(** no vertex has two entries among its incidences with the same vector *)
Theorem C34_is_locally_stable : forall chk g v0 p0, constructed g -> 0 < gdim g -> fits chk g -> position chk g v0 = Ret p0 ->
  exists b, is_locally_stable chk g = Ret b /\
    (b = true <-> forall v es vs, is_vertex g v -> incidences g v = Ret es -> mapM (edge_vector chk g) es = Ret vs ->
       forall i j x, i < j -> nth_error vs i = Some x -> nth_error vs j <> Some x).
Proof.
  intros chk g v0 p0 C Hd F E. destruct (position_placed chk g v0 p0 C Hd F E) as (pos & P & _ & _).
  eexists. split; [apply (is_locally_stable_ret chk g pos C P)|]. rewrite forallb_forall. split.
  - intros H v es vs Hv Ees Evs i j x Hij Ei Ej. rewrite incidences_vertex in Ees by auto. injection Ees as <-.
    rewrite (mapM_evec chk g pos C P) in Evs by apply inc_incl. injection Evs as <-.
    specialize (H v (proj2 (vertices_In g v) Hv)). rewrite negb_true_iff in H. apply (repeats_spec _ p_eqb_spec) in H as [ND _].
    rewrite NoDup_nth_error in ND. assert (i = j); [|lia]. apply ND; [|congruence]. apply nth_error_Some. congruence.
  - intros H v Hv. apply vertices_In in Hv. rewrite negb_true_iff. apply (repeats_spec _ p_eqb_spec). split; [|intros; simpl; tauto].
    specialize (H v (inc g v) _ Hv (incidences_vertex g v Hv) (mapM_evec chk g pos C P (inc g v) (inc_incl g v))).
    apply NoDup_nth_error. intros i j Hi Eij. apply nth_error_Some in Hi. destruct (nth_error (map (evec (gdim g) pos) (inc g v)) i) as [x|] eqn:Ex; [|congruence].
    destruct (Nat.lt_trichotomy i j) as [L|[L|L]]; auto; exfalso.
    + apply (H i j x L); auto.
    + apply (H j i x L); auto.
Qed.
Print Assumptions C34_is_locally_stable.

Theorem C34_has_second_order_collisions : forall chk g v0 p0, constructed g -> 0 < gdim g -> fits chk g -> position chk g v0 = Ret p0 ->
  exists b, has_second_order_collisions chk g = Ret b /\
    (b = true <-> exists v w p q es fs xs ys, is_vertex g v /\ is_vertex g w /\ v <> w /\
       position chk g v = Ret p /\ position chk g w = Ret q /\ differ_by_integers p q /\
       incidences g v = Ret es /\ incidences g w = Ret fs /\
       mapM (edge_vector chk g) es = Ret xs /\ mapM (edge_vector chk g) fs = Ret ys /\ Permutation xs ys).
Proof.
  intros chk g v0 p0 C Hd F E. destruct (position_placed chk g v0 p0 C Hd F E) as (pos & P & _ & _).
  eexists. split; [apply (collisions_ret chk g pos C P)|].
  set (key := fun v => psort (map (evec (gdim g) pos) (inc g v)) ++ [map frac (pos v)]).
  assert (K : forall v w, key v = key w <-> Permutation (map (evec (gdim g) pos) (inc g v)) (map (evec (gdim g) pos) (inc g w)) /\ mod1_eq (pos v) (pos w)).
  { intros v w. unfold key. rewrite <- map_frac_eq, <- psort_eq. split; [apply app_inj_tail|intros [-> ->]; auto]. }
  split.
  - intros R. assert (ND : ~ NoDup (map key (vertices g))).
    { intros ND. assert (X : repeats ps_eqb key [] (vertices g) = false) by (apply (repeats_spec _ ps_eqb_spec); split; auto).
      congruence. }
    destruct (not_NoDup_map key (vertices g) (V_NoDup g)) as (v & w & Hv & Hw & N & Ek); auto.
    { intros a b. destruct (ps_eqb_spec a b); auto. }
    apply vertices_In in Hv, Hw. apply K in Ek as [Kp Km].
    exists v, w, (pos v), (pos w), (inc g v), (inc g w), (map (evec (gdim g) pos) (inc g v)), (map (evec (gdim g) pos) (inc g w)).
    splits; auto; try (apply (pl_ret _ _ _ P); auto); try (apply incidences_vertex; auto); try (apply (mapM_evec chk g pos C P), inc_incl).
  - intros (v & w & p & q & es & fs & xs & ys & Hv & Hw & N & Ep & Eq & Dm & Ee & Ef & Ex & Ey & Pm).
    rewrite (pl_ret _ _ _ P) in Ep, Eq by auto. injection Ep as <-. injection Eq as <-.
    rewrite incidences_vertex in Ee, Ef by auto. injection Ee as <-. injection Ef as <-.
    rewrite (mapM_evec chk g pos C P) in Ex, Ey by apply inc_incl. injection Ex as <-. injection Ey as <-.
    destruct (repeats ps_eqb key [] (vertices g)) eqn:R; auto. exfalso. apply (repeats_spec _ ps_eqb_spec) in R as [ND _].
    apply N. apply (NoDup_map_inj key (vertices g)); auto; try (apply vertices_In; auto). apply K. split; auto.
Qed.
Print Assumptions C34_has_second_order_collisions.

(** ** C35 *)
Theorem C35_edge_by_unique_delta : forall chk g v0 p0 v x, constructed g -> 0 < gdim g -> fits chk g -> position chk g v0 = Ret p0 ->
  exists r, edge_by_unique_delta chk g v x = Ret r /\
    (forall e, r = Some e <-> exists l1 l2, is_vertex g v /\ incidences g v = Ret (l1 ++ e :: l2) /\ edge_vector chk g e = Ret x /\
       forall f, In f (l1 ++ l2) -> edge_vector chk g f <> Ret x).
Proof.
  intros chk g v0 p0 v x C Hd F E. destruct (position_placed chk g v0 p0 C Hd F E) as (pos & P & _ & _).
  eexists. split; [apply (edge_by_unique_delta_ret chk g pos C P)|]. intros e.
  destruct (is_vertex_dec g v) as [Hv|Hv]; [|split; [discriminate|intros (l1 & l2 & Hv' & _); tauto]].
  assert (EV : forall f, In f (inc g v) -> edge_vector chk g f = Ret (evec (gdim g) pos f)).
  { intros f Hf. apply edge_vector_ret; auto. apply (inc_incl g v); auto. }
  unfold only. split.
  - intros H. destruct (filter _ _) as [|a [|b l]] eqn:Ef; try discriminate. injection H as ->.
    destruct (filter_single _ _ _ Ef) as (l1 & l2 & El & Pe & Pl). exists l1, l2. splits; auto.
    + rewrite incidences_vertex by auto. congruence.
    + rewrite EV by (rewrite El; apply in_or_app; simpl; auto). destruct (p_eqb_spec x (evec (gdim g) pos e)); congruence.
    + intros f Hf. rewrite EV by (rewrite El; apply in_app_or in Hf as [Hf|Hf]; apply in_or_app; simpl; auto).
      specialize (Pl f Hf). destruct (p_eqb_spec x (evec (gdim g) pos f)); congruence.
  - intros (l1 & l2 & _ & Ei & Ex & H). rewrite incidences_vertex in Ei by auto. injection Ei as Ei. rewrite Ei.
    assert (EV' : forall f, In f (l1 ++ e :: l2) -> edge_vector chk g f = Ret (evec (gdim g) pos f)) by (rewrite <- Ei; auto).
    rewrite filter_app. simpl. rewrite EV' in Ex by (apply in_or_app; simpl; auto). injection Ex as Ex.
    destruct (p_eqb_spec x (evec (gdim g) pos e)) as [_|]; [|congruence].
    assert (Z : forall l, (forall f, In f l -> In f (l1 ++ l2)) -> filter (fun f => p_eqb x (evec (gdim g) pos f)) l = []).
    { induction l as [|f l IH]; intros I; auto. simpl. rewrite IH by (intros; apply I; simpl; auto).
      destruct (p_eqb_spec x (evec (gdim g) pos f)) as [Ef|]; auto. exfalso. apply (H f); [apply I; simpl; auto|].
      rewrite EV', Ef; auto. specialize (I f (or_introl eq_refl)). apply in_app_or in I as [I|I]; apply in_or_app; simpl; auto. }
    rewrite (Z l1), (Z l2) by (intros; apply in_or_app; auto). auto.
Qed.
Print Assumptions C35_edge_by_unique_delta.

(** the honeycomb net is stable; so is the square lattice with a doubled cell *)
Definition doubled : graph := gnew 2 [Edge 1 2 [0; 0]; Edge 1 2 [-1; 0]; Edge 1 1 [0; 1]; Edge 2 2 [0; 1]]%Z.
Example C34_case : is_stable chk64 honeycomb = Ret true /\ is_locally_stable chk64 honeycomb = Ret true /\
  has_second_order_collisions chk64 honeycomb = Ret false /\ is_stable chk64 doubled = Ret true /\ is_locally_stable chk64 doubled = Ret true.
Proof. splits; vm_compute; reflexivity. Qed.
(** an unstable net with a collision: two vertices joined to the same two neighbours *)
Definition colliding : graph := gnew 2 [Edge 1 2 [0; 0]; Edge 1 3 [0; 0]; Edge 2 1 [1; 0]; Edge 3 1 [1; 0]; Edge 1 1 [0; 1]]%Z.
Example C34_case_collision : is_stable chk64 colliding = Ret false /\ is_locally_stable chk64 colliding = Ret false /\
  has_second_order_collisions chk64 colliding = Ret true.
Proof. splits; vm_compute; reflexivity. Qed.
Example C35_case : edge_by_unique_delta chk64 honeycomb 1 [- (ZQ 1 / ZQ 3); - (ZQ 1 / ZQ 3)]%Qc = Ret (Some (Edge 1 2 [0; 0]%Z)) /\
  edge_by_unique_delta chk64 colliding 1 [ZQ 1 / ZQ 2; 0]%Qc = Ret None /\
  edge_by_unique_delta chk64 colliding 1 [0; 1]%Qc = Ret (Some (Edge 1 1 [0; 1]%Z)).
Proof. splits; vm_compute; reflexivity. Qed.
