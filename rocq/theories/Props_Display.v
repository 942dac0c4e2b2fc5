(** Properties C76-C78: what is printed (Display implementations, src/main.rs). *)
From Coq Require Import String Ascii List ZArith NArith Lia Bool PeanoNat QArith Qcanon Permutation.
From Verif Require Import Base Vec Elim Scalars Matrix MatrixMore LinAlg ZQ Lattices Geometry Basics ModSolver OrdSet PGraph Net PGraphBase Traverse Shells Placement Placed Stability
  QcTac Text ParseOp OpGrammar OpParse OpPrint Table Display Readable Props_Geometry Props_PGraph Props_Placement Props_Operators.
Import ListNotations.
Close Scope Q_scope. Close Scope Qc_scope.
Local Open Scope list_scope.
Open Scope nat_scope.

(** ** C76: texts determine values *)
(** decimal notation of an integer, and of a fraction in lowest terms *)
Definition integer_text (t : text) (z : Z) : Prop := (0 <= z)%Z /\ numeral t z \/ (z < 0)%Z /\ exists ds, t = chr "-" :: ds /\ numeral ds (- z).
Definition rational_text (t : text) (q : Qc) : Prop :=
  exists n, integer_text n (Qnum q) /\ (Qden q = 1%positive /\ t = n \/ Qden q <> 1%positive /\ exists d, t = n ++ chr "/" :: d /\ numeral d (Z.pos (Qden q))).
Theorem C76_numbers : (forall z, integer_text (show_Z z) z) /\ (forall q, rational_text (show_Q q) q) /\
  (forall a b, show_Z a = show_Z b -> a = b) /\ (forall p q, show_Q p = show_Q q -> p = q).
Proof.
  assert (I : forall z, integer_text (show_Z z) z).
  { intros z. unfold show_Z. destruct (Z.ltb_spec z 0); [right|left]; (split; [auto|]); [eexists; split; [reflexivity|]|]; apply numeral_digits; lia. }
  splits; auto using show_Z_inj, show_Q_inj. intros q. exists (show_Z (Qnum q)). split; auto. unfold show_Q. destruct (Z.eqb_spec (Z.pos (Qden q)) 1) as [E|E].
  - left. split; [congruence|apply app_nil_r].
  - right. split; [congruence|]. eexists. split; [reflexivity|]. unfold show_Z. cbn [Z.ltb Z.compare]. apply numeral_digits. lia.
Qed.
Print Assumptions C76_numbers.

Theorem C76_edges : (forall s s', display_label s = display_label s' -> s = s') /\ (forall e e', display_edge e = display_edge e' -> e = e').
Proof.
  assert (NS : ~ int_char 10%N) by (intros H; apply int_num, not_num in H; auto; lia).
  split.
  - intros s s' E. apply (label_prefix_free s s' [] []); auto. rewrite E. auto.
  - intros e e' E. apply (edge_stops e e' 10%N 10%N [] []); auto. rewrite E. auto.
Qed.
Theorem C76_graph : forall g g', gdim g = gdim g' -> display_graph g = display_graph g' -> g = g'.
Proof. intros g g' Hd E. apply (graph_text g g' [] []); try discriminate; auto. rewrite E. auto. Qed.
(** one line for each edge *)
Theorem C76_graph_lines : forall g, exists ls, display_graph g = concat (map (fun l => l ++ [10%N]) ls) /\
  Forall2 (fun l e => l = display_edge e /\ ~ In 10%N l) ls (gedges g).
Proof.
  intros g. exists (map display_edge (gedges g)). split; [unfold display_graph; rewrite map_map; auto|].
  induction (gedges g) as [|e es IH]; cbn [map]; constructor; auto. split; auto.
  assert (ND : forall z, ~ In 10%N (show_Z z)). { intros z H. destruct (proj2 show_Z_readable z) as [_ F]. rewrite Forall_forall in F. apply F in H. tauto. }
  assert (NC : forall l, ~ In 10%N (commas (map show_Z l))).
  { induction l as [|x [|y l] IHl]; cbn [map commas]; auto. intros H. apply in_app_or in H as [H|H]; [apply (ND x); auto|]. apply in_app_or in H as [H|H]; [cbn in H; intuition discriminate|]. auto. }
  intros H. unfold display_edge, display_label, show_nat in H. repeat (apply in_app_or in H as [H|H]; [solve [eapply ND; eauto|eapply NC; eauto|cbn in H; intuition discriminate|
    repeat (apply in_app_or in H as [H|H]; [solve [eapply ND; eauto|eapply NC; eauto|cbn in H; intuition discriminate]|]); cbn in H; intuition discriminate]|]). eapply ND; eauto.
Qed.
Print Assumptions C76_graph_lines.

Section Matrices.
  Context {R : Type} {RD : Dom R} (show : R -> text) (Hs : readable show).
  Theorem C76_matrix : forall m m', wfm m -> wfm m' -> exists t t', display_mat show m = Ret t /\ display_mat show m' = Ret t' /\
    (nrows m = 0 -> t = []) /\ (0 < nrows m -> t = t' -> m = m').
  Proof.
    intros m m' W W'. rewrite !(display_mat_rows show) by auto. eexists _, _. split; [reflexivity|]. split; [reflexivity|]. split; [intros ->; reflexivity|]. intros Hn E.
    rewrite <- (app_nil_r (concat _)), <- (app_nil_r (concat (map (line show) (map _ (seq 0 (nrows m')))))) in E.
    apply (list_prefix_free _ _ (line_free show Hs)) in E; auto using all_true.
    2,3: intros a t _; unfold line; rewrite <- app_assoc; destruct (concat (map (cell show) a)); discriminate.
    destruct E as [E _]. assert (En : nrows m = nrows m'). { apply (f_equal (@length _)) in E. rewrite !map_length, !seq_length in E. auto. }
    rewrite <- En in E. assert (Er : forall i, i < nrows m -> frow (ncols m) (ent m) i = frow (ncols m') (ent m') i).
    { intros i Hi. apply (f_equal (fun l => nth i l (frow (ncols m) (ent m) 0))) in E. rewrite (map_nth (frow (ncols m) (ent m))) in E.
      rewrite (nth_indep _ _ (frow (ncols m') (ent m') 0)) in E by (rewrite map_length, seq_length; auto). rewrite (map_nth (frow (ncols m') (ent m'))), seq_nth in E by auto. auto. }
    assert (Ec : ncols m = ncols m'). { specialize (Er 0 Hn). apply (f_equal (@length _)) in Er. rewrite !frow_length in Er. auto. }
    rewrite (wfm_eq_mk m W), (wfm_eq_mk m' W'), <- En, <- Ec. apply mk_ext. intros i j Hi Hj. specialize (Er i Hi). rewrite <- Ec in Er.
    rewrite <- (vget_frow (ncols m) (ent m) i j Hj), <- (vget_frow (ncols m) (ent m') i j Hj), Er. auto.
  Qed.
  Theorem C76_affine : forall a a', aff_wf a -> aff_wf a' -> exists t t', display_aff show a = Ret t /\ display_aff show a' = Ret t' /\ (t = t' -> a = a').
  Proof.
    intros a a' W W'. rewrite (display_aff_rows show a W), (display_aff_rows show a' W'). eexists _, _. split; [reflexivity|]. split; [reflexivity|]. intros E.
    rewrite <- (app_nil_r (concat _)), <- (app_nil_r (concat (map (aline show) (map _ (seq 0 (nrows (lin a'))))))) in E.
    apply (list_prefix_free _ _ (aline_free show Hs)) in E; auto using all_true.
    2,3: intros x t _; unfold aline; rewrite <- app_assoc; destruct (concat (map (cell show) (fst x))); discriminate.
    destruct E as [E _]. assert (En : nrows (lin a) = nrows (lin a')). { apply (f_equal (@length _)) in E. rewrite !map_length, !seq_length in E. auto. }
    destruct W as (n & Hn & W1 & W2 & W3 & W4 & W5 & W6). destruct W' as (n' & Hn' & W1' & W2' & W3' & W4' & W5' & W6'). rewrite W2, W2' in E, En. rewrite <- En in *. clear En n'.
    assert (Er : forall i, i < n -> frow n (ent (lin a)) i = frow n (ent (lin a')) i /\ ent (Geometry.shift a) i 0 = ent (Geometry.shift a') i 0).
    { intros i Hi. set (F := fun b i => (frow n (ent (lin b)) i, ent (Geometry.shift b) i 0)) in E.
      change (map (F a) (seq 0 n) = map (F a') (seq 0 n)) in E. apply (f_equal (fun l => nth i l (F a 0))) in E. rewrite (map_nth (F a)) in E.
      rewrite (nth_indep _ _ (F a' 0)) in E by (rewrite map_length, seq_length; auto). rewrite (map_nth (F a')), seq_nth in E by auto. unfold F in E. injection E as E1 E2. auto. }
    destruct a as [l s], a' as [l' s']. cbn [lin Geometry.shift] in *. f_equal.
    - rewrite (wfm_eq_mk l W1), (wfm_eq_mk l' W1'), W2, W3, W2', W3'. apply mk_ext. intros i j Hi Hj. destruct (Er i Hi) as [Er' _].
      rewrite <- (vget_frow n (ent l) i j Hj), <- (vget_frow n (ent l') i j Hj), Er'. auto.
    - rewrite (wfm_eq_mk s W4), (wfm_eq_mk s' W4'), W5, W6, W5', W6'. apply mk_ext. intros i j Hi Hj. replace j with 0 by lia. apply Er. auto.
  Qed.
  (** a coordinate map made from an affine map is printed like this map, so the text tells which it is *)
  Theorem C76_coordinate_map {SR : Scalar R} : forall a a' c c', aff_wf a -> aff_wf a' -> cmap_new a = Ret c -> cmap_new a' = Ret c' ->
    exists t t', display_cmap show c = Ret t /\ display_cmap show c' = Ret t' /\ display_aff show a = Ret t /\ (t = t' -> c = c').
  Proof.
    intros a a' c c' W W' C C'. destruct (C76_affine a a' W W') as (t & t' & E & E' & H).
    assert (F : forall b d, cmap_new b = Ret d -> Geometry.fwd d = b).
    { unfold cmap_new. intros b d X. apply bind_Ret_inv in X as (oi & _ & X). apply bind_Ret_inv in X as (i & _ & X). injection X as <-. reflexivity. }
    exists t, t'. unfold display_cmap. rewrite (F _ _ C), (F _ _ C'). splits; auto. intros T. apply H in T. congruence.
  Qed.
End Matrices.
Print Assumptions C76_matrix.
Print Assumptions C76_affine.
Print Assumptions C76_coordinate_map.
(** in particular for the integers and rational numbers of the program *)
Theorem C76_readable : readable show_Z /\ readable show_Q.
Proof. split; [apply show_Z_readable|apply show_Q_readable]. Qed.
(** empty matrices of different shapes are printed alike *)
Theorem C76_empty_refuted : ~ forall (m m' : mat Z), wfm m -> wfm m' -> display_mat show_Z m = display_mat show_Z m' -> m = m'.
Proof.
  intros H. specialize (H (Mat 0 2 []) (Mat 0 3 [])). assert (W : forall n, wfm (Mat (R := Z) 0 n [])) by (intros n; split; auto).
  specialize (H (W 2) (W 3) eq_refl). discriminate H.
Qed.
Example C76_map_case : exists a c, aff_wf a /\ cmap_new a = Ret c /\ bwd c <> fwd c /\ display_cmap show_Q c = Ret (str " 2    1" ++ [10%N]).
Proof.
  exists (Affine (Mat 1 1 [ZQ 2]) (Mat 1 1 [1%Qc])). eexists. splits; [|vm_compute; reflexivity| |vm_compute; reflexivity].
  - exists 1. splits; auto; split; auto; discriminate.
  - intros E. apply (f_equal (fun a => map this (data (lin a)))) in E. vm_compute in E. discriminate E.
Qed.
Example C76_case : display_mat show_Q (Mat 2 2 [1; (ZQ (-3) / ZQ 6); 0; ZQ 10])%Qc = Ret (str " 1 -1/2" ++ [10%N] ++ str " 0 10" ++ [10%N]) /\
  display_edge (Edge 1 12 [0; -7]%Z) = str "1 --(0, -7)-> 12".
Proof. split; vm_compute; reflexivity. Qed.

(** ** C77: the report of the program *)
Definition occurs (part t : text) : Prop := exists before after, t = before ++ part ++ after.
Lemma occurs_app_l p a b : occurs p a -> occurs p (a ++ b). Proof. intros (x & y & ->). exists x, (y ++ b). rewrite <- !app_assoc. auto. Qed.
Lemma occurs_app_r p a b : occurs p b -> occurs p (a ++ b). Proof. intros (x & y & ->). exists (a ++ x), y. rewrite <- !app_assoc. auto. Qed.
Lemma occurs_concat p l : In p l -> occurs p (concat l).
Proof. induction l as [|x l IH]; [intros []|]. intros [->|H]; cbn; [exists [], (concat l); auto|apply occurs_app_r; auto]. Qed.
Lemma occurs_refl p : occurs p p. Proof. exists [], []. rewrite app_nil_r. auto. Qed.

Lemma occurs_trans a b c : occurs a b -> occurs b c -> occurs a c.
Proof. intros (x & y & ->) (x' & y' & ->). exists (x' ++ x), (y ++ y'). rewrite <- !app_assoc. auto. Qed.
Lemma Ret_inv {A} (a b : A) : Ret a = Ret b -> a = b. Proof. congruence. Qed.
Lemma mapM_total {A B} (f : A -> outcome B) l : (forall x, In x l -> exists y, f x = Ret y) -> exists ys, mapM f l = Ret ys.
Proof.
  induction l as [|x l IH]; intros H; cbn; eauto. destruct (H x (or_introl eq_refl)) as [y ->]. destruct IH as [ys ->]; [intros; apply H; right; auto|]. cbn. eauto.
Qed.
Lemma mapM_panic {A B} (f : A -> outcome B) x l : f x = Panic -> mapM f (x :: l) = Panic. Proof. intros H. cbn. rewrite H. auto. Qed.
Lemma mapM_occurs {A} (f : A -> outcome text) l ys x t : mapM f l = Ret ys -> In x l -> f x = Ret t -> occurs t (concat ys).
Proof.
  intros H Hx E. apply mapM_Ret_inv in H. apply occurs_concat. induction H as [|a y l ys Ha H IH]; [destruct Hx|]. destruct Hx as [->|Hx]; [left; congruence|right; auto].
Qed.

Lemma connected_quotient_of g : constructed g -> is_connected g = Ret true -> connected_quotient g.
Proof.
  intros C E v w Hv Hw. destruct (C31_is_connected g C) as (b & E' & Hb). assert (b = true) as -> by congruence.
  destruct (proj1 Hb eq_refl (v, szero (gdim g)) (w, szero (gdim g))) as [k W]; try (split; auto; apply szero_length).
  assert (H : forall k a b, walk g k a b -> linked (gedges g) (fst a) (fst b)).
  { induction 1 as [|k0 a b c0 W0 IH Hc (e & He & Ho)]; [constructor|]. apply linked_edge with (fst b) e; auto. intuition. }
  apply (H _ _ _ W).
Qed.
(** the coordination sequence does not depend on the order in which sets are iterated *)
Lemma sequence_order g v n o o' : constructed g -> is_vertex g v -> (forall k l, Permutation (o k l) l) -> (forall k l, Permutation (o' k l) l) ->
  cs_take o g n (cs_new g v) = cs_take o' g n (cs_new g v).
Proof.
  intros C V P P'. destruct (C28_coordination_sequence g v o n C V P) as (l & E & L & H). destruct (C28_coordination_sequence g v o' n C V P') as (l' & E' & L' & H').
  rewrite E, E'. f_equal. apply nth_ext with 0 0; [congruence|]. intros k Hk. rewrite L in Hk. destruct (H (S k)) as (s & N & Hs & Es); [lia|]. destruct (H' (S k)) as (s' & N' & Hs' & Es'); [lia|].
  replace (S k - 1) with k in * by lia. rewrite Es, Es'. apply Permutation_length. apply NoDup_Permutation; auto. intros x. rewrite Hs, Hs'. tauto.
Qed.

Section Report.
  Variables (chk : Z -> outcome Z) (g : graph) (v0 : nat).
  Hypotheses (C : constructed g) (Hd : 0 < gdim g) (F : fits chk g) (V0 : is_vertex g v0).
  Notation perms o := (forall v k l, Permutation (o v k l) l).
  Lemma vertices_cons : exists v vs, vertices g = v :: vs /\ is_vertex g v.
  Proof. destruct (vertices g) as [|v vs] eqn:E; [apply vertices_In in V0; rewrite E in V0; destruct V0|]. exists v, vs. split; auto. apply vertices_In. rewrite E. left. auto. Qed.

  Lemma report_connected_total : connected_quotient g -> ~ (9999991 | tree_number g)%Z -> exists t, report_connected chk g = Ret t.
  Proof.
    intros Q D. assert (Pos : forall v, is_vertex g v -> exists p, position chk g v = Ret p) by (intros v Hv; apply C33_succeeds; auto).
    destruct (Pos v0 V0) as [p0 E0]. unfold report_connected.
    destruct (mapM_total (report_position chk g) (vertices g)) as [a ->].
    { intros v Hv. apply vertices_In in Hv. destruct (Pos v Hv) as [p Ep]. unfold report_position. rewrite Ep. cbn. eauto. }
    destruct (C34_is_stable chk g v0 p0 C Hd F E0) as (b1 & -> & _). destruct (C34_is_locally_stable chk g v0 p0 C Hd F E0) as (b2 & -> & _).
    destruct (C34_has_second_order_collisions chk g v0 p0 C Hd F E0) as (b3 & -> & _). cbn [bind].
    destruct (mapM_total (report_neighbours chk g) (vertices g)) as [b ->]; [|cbn; eauto].
    intros v Hv. apply vertices_In in Hv. unfold report_neighbours. rewrite incidences_vertex by auto. cbn [bind].
    destruct (position_placed chk g v0 p0 C Hd F E0) as (pos & P & _ & _).
    destruct (mapM_total (report_neighbour chk g v) (inc g v)) as [c ->]; [|cbn; eauto].
    intros e He. unfold report_neighbour. rewrite (edge_vector_ret chk g pos) by (auto; apply (inc_incl g v); auto). cbn [bind].
    destruct (C35_edge_by_unique_delta chk g v0 p0 v (evec (gdim g) pos e) C Hd F E0) as (r & -> & _). cbn. eauto.
  Qed.
  Lemma sequences_total o : perms o -> exists ts, mapM (report_sequence o g) (vertices g) = Ret ts.
  Proof.
    intros P. apply mapM_total. intros v Hv. apply vertices_In in Hv. unfold report_sequence. destruct (C28_coordination_sequence g v (o v) 20 C Hv (P v)) as (l & -> & _). cbn. eauto.
  Qed.

  (** the program reports on a net unless it is connected and its tree number is a multiple of 9999991; then it panics *)
  Theorem C77_succeeds o : perms o -> is_connected g = Ret false \/ ~ (9999991 | tree_number g)%Z -> exists t, report chk o g = Ret t.
  Proof.
    intros P H. unfold report. destruct (C29_shift_normalized g C) as (c & g' & -> & _). cbn [bind]. destruct (sequences_total o P) as [ts ->]. cbn [bind].
    destruct (C31_is_connected g C) as (b & E & _). rewrite E in *. cbn [bind]. destruct b; [|cbn; eauto].
    destruct H as [H|H]; [discriminate H|]. destruct report_connected_total as [t ->]; auto; [apply connected_quotient_of; auto|]. cbn. eauto.
  Qed.
  Theorem C77_panics o : perms o -> is_connected g = Ret true -> (9999991 | tree_number g)%Z -> report chk o g = Panic.
  Proof.
    intros P E D. unfold report. destruct (C29_shift_normalized g C) as (c & g' & -> & _). cbn [bind]. destruct (sequences_total o P) as [ts ->]. cbn [bind].
    rewrite E. cbn [bind]. unfold report_connected. destruct vertices_cons as (v & vs & -> & Hv). rewrite mapM_panic; auto. unfold report_position. rewrite C33_panics by auto. auto.
  Qed.
  (** the report does not depend on the order of iteration of hash sets *)
  Theorem C77_deterministic o o' : perms o -> perms o' -> report chk o g = report chk o' g.
  Proof.
    intros P P'. unfold report. assert (E : mapM (report_sequence o g) (vertices g) = mapM (report_sequence o' g) (vertices g)); [|rewrite E; auto].
    apply mapM_ext. intros v Hv. apply vertices_In in Hv. unfold report_sequence. rewrite (sequence_order g v 20 (o v) (o' v)); auto.
  Qed.
  (** what it says about the net: the net itself; for each vertex the numbers of nodes at distances 1 to 20; if the net is connected, the positions *)
  Theorem C77_contents o t : perms o -> report chk o g = Ret t ->
    occurs (str "Graph:" ++ [10%N] ++ display_graph g ++ [10%N]) t /\
    (exists g' c, relabelled c g g' /\ occurs (str "With normalized shifts:" ++ [10%N] ++ display_graph g' ++ [10%N]) t) /\
    (forall v, is_vertex g v -> exists items, length items = 20 /\
       (forall k, 1 <= k <= 20 -> exists shell, NoDup shell /\ (forall b, In b shell <-> distance g (v, repeat 0%Z (gdim g)) b k) /\ nth (k - 1) items 0 = length shell) /\
       occurs (show_nat v ++ str ": " ++ concat (map (fun n => str " " ++ show_nat n) items) ++ [10%N]) t) /\
    (exists b, (b = true <-> forall a c, is_node g a -> is_node g c -> Net.joined g a c) /\ occurs (str "Connected: " ++ show_bool b ++ [10%N]) t /\
       (b = true -> forall v p, is_vertex g v -> position chk g v = Ret p ->
          occurs (str "pos(" ++ show_nat v ++ str ") = (" ++ commas (map show_Q p) ++ str ")" ++ [10%N]) t) /\
       (b = true -> forall s l c, is_stable chk g = Ret s -> is_locally_stable chk g = Ret l -> has_second_order_collisions chk g = Ret c ->
          occurs (str "Stable: " ++ show_bool s ++ [10%N] ++ str "Locally stable: " ++ show_bool l ++ [10%N] ++ str "Second order collisions: " ++ show_bool c ++ [10%N]) t) /\
       (b = true -> forall v es e x r, is_vertex g v -> incidences g v = Ret es -> In e es -> edge_vector chk g e = Ret x -> edge_by_unique_delta chk g v x = Ret r ->
          occurs (show_nat v ++ str " => (" ++ commas (map show_Q x) ++ str ") => " ++ (match r with Some e' => display_edge e' | None => str "None" end) ++ [10%N]) t)).
  Proof.
    intros P E. unfold report in E. destruct (C29_shift_normalized g C) as (c & g' & En & _ & _ & Rl & _). rewrite En in E. cbn [bind] in E.
    apply bind_Ret_inv in E as (ts & Ets & E). destruct (C31_is_connected g C) as (b & Eb & Hb). rewrite Eb in E. cbn [bind] in E.
    apply bind_Ret_inv in E as (more & Em & E). apply Ret_inv in E. subst t.
    splits.
    - rewrite !app_assoc. do 17 apply occurs_app_l. apply occurs_refl.
    - exists g', c. split; auto. rewrite !app_assoc. do 13 apply occurs_app_l. rewrite <- !app_assoc. do 4 apply occurs_app_r. apply occurs_refl.
    - intros v Hv. destruct (C28_coordination_sequence g v (o v) 20 C Hv (P v)) as (items & Ei & Li & Hi). exists items. splits; auto.
      do 10 apply occurs_app_r. apply occurs_app_l. eapply (mapM_occurs _ _ _ v); [exact Ets|apply vertices_In; auto|]. unfold report_sequence. rewrite Ei. reflexivity.
    - exists b. split; auto. split; [|splits].
      + do 12 apply occurs_app_r. rewrite !app_assoc. do 6 apply occurs_app_l. rewrite <- app_assoc. apply occurs_refl.
      + intros -> v p Hv Ep. do 16 apply occurs_app_r. apply occurs_app_l. unfold report_connected in Em. apply bind_Ret_inv in Em as (ps & Eps & Em).
        repeat (apply bind_Ret_inv in Em as (? & ? & Em)). apply Ret_inv in Em. subst more. apply occurs_app_l. eapply (mapM_occurs _ _ _ v); [exact Eps|apply vertices_In; auto|].
        unfold report_position. rewrite Ep. reflexivity.
      + intros -> s l d Es El Ed. do 16 apply occurs_app_r. apply occurs_app_l. unfold report_connected in Em. apply bind_Ret_inv in Em as (ps & Eps & Em).
        rewrite Es, El, Ed in Em. cbn [bind] in Em. apply bind_Ret_inv in Em as (? & ? & Em). apply Ret_inv in Em. subst more. do 2 apply occurs_app_r. rewrite !app_assoc. do 2 apply occurs_app_l. rewrite <- !app_assoc. apply occurs_refl.
      + intros -> v es e x r Hv Hes He Ex Er. rewrite incidences_vertex in Hes by auto. injection Hes as <-. do 16 apply occurs_app_r. apply occurs_app_l. unfold report_connected in Em. apply bind_Ret_inv in Em as (ps & Eps & Em).
        do 3 apply bind_Ret_inv in Em as (? & ? & Em). apply bind_Ret_inv in Em as (ns & Ens & Em). apply Ret_inv in Em. subst more. do 12 apply occurs_app_r.
        assert (Hn : exists tv, report_neighbours chk g v = Ret tv). { apply mapM_Ret_inv in Ens. apply vertices_In in Hv. clear - Ens Hv. induction Ens as [|a y l ys Ha Hf IH]; [destruct Hv|]. destruct Hv as [->|Hv]; eauto. }
        destruct Hn as [tv Htv]. assert (O : occurs tv (concat ns)) by (eapply (mapM_occurs _ _ _ v); [exact Ens|apply vertices_In; auto|auto]).
        assert (O' : occurs (show_nat v ++ str " => (" ++ commas (map show_Q x) ++ str ") => " ++ (match r with Some e' => display_edge e' | None => str "None" end) ++ [10%N]) tv).
        { unfold report_neighbours in Htv. rewrite incidences_vertex in Htv by auto. cbn [bind] in Htv. destruct (mapM (report_neighbour chk g v) (inc g v)) as [l| |] eqn:El; try discriminate Htv.
          cbn in Htv. injection Htv as <-. eapply (mapM_occurs _ _ _ e); [exact El|auto|]. unfold report_neighbour. rewrite Ex. cbn [bind]. rewrite Er. reflexivity. }
        eapply occurs_trans; eauto.
  Qed.
End Report.
Print Assumptions C77_succeeds. Print Assumptions C77_panics. Print Assumptions C77_deterministic. Print Assumptions C77_contents.
(** different nets of a dimension get different reports *)
Theorem C77_identifies : forall chk chk' o o' g g' t, gdim g = gdim g' -> report chk o g = Ret t -> report chk' o' g' = Ret t -> g = g'.
Proof.
  intros chk chk' o o' g g' t Hd E E'. unfold report in E, E'.
  repeat (apply bind_Ret_inv in E as (? & _ & E)). repeat (apply bind_Ret_inv in E' as (? & _ & E')). apply Ret_inv in E, E'. rewrite <- E in E'. symmetry in E'. cbn [str map list_ascii_of_string N_of_ascii app] in E'.
  assert (NS : ~ int_char 10%N) by (intros H; apply int_num, not_num in H; auto; lia).
  repeat match goal with H : _ :: _ = _ :: _ |- _ => injection H as H end.
  apply graph_text in E'; auto; [destruct E'; auto| |]; intros c u X; injection X as <- _; auto.
Qed.
Print Assumptions C77_identifies.

(** the program itself: it reports on its nine nets *)
Lemma graph2d_constructed spec : constructed (graph2d spec).
Proof. eexists. split; [|reflexivity]. intros e He. apply in_map_iff in He as ([[[u v] x] y] & <- & _). reflexivity. Qed.
Lemma graph3d_constructed spec : constructed (graph3d spec).
Proof. eexists. split; [|reflexivity]. intros e He. apply in_map_iff in He as ([[[[u v] x] y] z] & <- & _). reflexivity. Qed.
Definition easy (g : graph) : bool :=
  (0 <? gdim g) && (length (gedges g) <=? 20) && forallb (fun e => forallb (fun x => Z.abs x <=? 2)%Z (PGraph.shift e)) (gedges g) &&
  existsb (Nat.eqb 1) (vertices g) && match is_connected g with Ret b => negb b || match position chk64 g 1 with Ret _ => true | _ => false end | _ => false end.
Lemma easy_report o g : constructed g -> easy g = true -> (forall v k l, Permutation (o v k l) l) -> exists t, report chk64 o g = Ret t.
Proof.
  intros C E P. unfold easy in E. rewrite !andb_true_iff in E. destruct E as ((((E1 & E2) & E3) & E4) & E5). apply Nat.ltb_lt in E1. apply Nat.leb_le in E2.
  assert (F : fits chk64 g).
  { split; [lia|]. right. splits; auto; [lia|]. exists 2%Z. split; [|lia]. intros e x He Hx. rewrite forallb_forall in E3. apply E3 in He. rewrite forallb_forall in He. apply He in Hx. apply Z.leb_le. auto. }
  assert (V : is_vertex g 1). { apply existsb_exists in E4 as (w & Hw & Ew). apply Nat.eqb_eq in Ew. subst w. apply vertices_In. auto. }
  apply (C77_succeeds chk64 g 1 C E1 F V o P). destruct (C31_is_connected g C) as ([|] & Eb & _); rewrite Eb in E5; auto. right. intros D.
  rewrite C33_panics in E5 by auto. discriminate E5.
Qed.
Theorem C77_main : forall o, (forall v k l, Permutation (o v k l) l) -> exists t, main_output chk64 o = Ret t.
Proof.
  intros o P. unfold main_output. destruct (mapM_total (report chk64 o) example_graphs) as [ts ->]; [|cbn; eauto]. intros g Hg.
  assert (E : easy g = true). { assert (A : forallb easy example_graphs = true) by (vm_compute; reflexivity). rewrite forallb_forall in A. auto. }
  apply easy_report; auto. clear E. unfold example_graphs in Hg. repeat (destruct Hg as [<-|Hg]; [solve [apply graph2d_constructed|apply graph3d_constructed]|]). destruct Hg.
Qed.
Print Assumptions C77_main.
(** a chain: its report *)
Example C77_case : omap (fun t => firstn 300 t) (report chk64 (fun _ _ l => l) (graph2d [(1, 1, 1%Z, 0%Z)])) =
  Ret (str "Graph:" ++ [10%N] ++ str "1 --(1, 0)-> 1" ++ [10%N; 10%N] ++ str "With normalized shifts:" ++ [10%N] ++ str "1 --(1, 0)-> 1" ++ [10%N; 10%N] ++
    str "Coordination sequences:" ++ [10%N] ++ str "1:  2 2 2 2 2 2 2 2 2 2 2 2 2 2 2 2 2 2 2 2" ++ [10%N; 10%N] ++ str "Connected: false" ++ [10%N; 10%N; 10%N] ++ str "==========" ++ [10%N; 10%N]).
Proof. vm_compute. reflexivity. Qed.
(** the empty net *)
Example C77_empty : exists t, report chk64 (fun _ _ l => l) (gnew 3 []) = Ret t.
Proof. eexists. vm_compute. reflexivity. Qed.

(** ** C78: table entries and lookup entries *)
Notation no_line_end t := (~ In 10%N t).
(** operators in dimensions 1 to 3 that can be read back (C52) *)
Definition plain_op (op : @affine Qc) : Prop := exists d, 1 <= d <= 3 /\ affine_map d op /\
  (forall i j, i < d -> j < d -> nine_digits (ent (lin op) i j)) /\ forall i, i < d -> nine_digits (ent (Geometry.shift op) i 0) /\ ~ unit_size (ent (Geometry.shift op) i 0).
(** a coordinate map made from an operator *)
Definition plain_map (c : @cmap Qc) : Prop := plain_op (fwd c) /\ cmap_new (fwd c) = Ret c.

Lemma digits_no_nl n : (0 <= n)%Z -> no_line_end (digits n).
Proof. intros H I. apply digits_ok in H as (_ & F & _). rewrite Forall_forall in F. apply F in I. unfold digit_char in I. lia. Qed.
Lemma print_abs_no_nl q : no_line_end (print_abs q).
Proof.
  unfold print_abs. intros H. apply in_app_or in H as [H|H]; [revert H; apply digits_no_nl; lia|]. destruct (_ =? _)%Z; [destruct H|].
  destruct H as [H|H]; [discriminate H|]. revert H. apply digits_no_nl. lia.
Qed.
Lemma print_parts_no_nl parts : (forall q a, In (q, a) parts -> no_line_end a) -> forall k, no_line_end (print_parts k parts).
Proof.
  induction parts as [|[q a] parts IH]; intros H k; cbn [print_parts]; auto. intros I. apply in_app_or in I as [I|I]; [|revert I; apply IH; intros q' a' Hq; apply (H q' a'); right; auto].
  unfold print_part in I. apply in_app_or in I as [I|I].
  - destruct (_ && _); [|destruct (_ <? _)%Z]; cbn in I; intuition discriminate.
  - apply in_app_or in I as [I|I]; [destruct (Qc_eq_bool _ _); [destruct I|revert I; apply print_abs_no_nl]|]. revert I. apply (H q a). left. auto.
Qed.
Lemma write_op_row_no_nl row s : no_line_end (write_op_row row s).
Proof.
  unfold write_op_row. assert (H : forall q a, In (q, a) (op_parts row s) -> no_line_end a).
  { unfold op_parts. intros q a H. apply filter_In in H as [H _]. apply in_app_or in H as [H|H].
    - apply in_combine_r in H. cbn in H. destruct H as [<-|[<-|[<-|[]]]]; cbn; intuition discriminate.
    - destruct H as [H|[]]. injection H as <- <-. auto. }
  destruct (op_parts row s) as [|p ps]; [cbn; intuition discriminate|]. apply print_parts_no_nl. auto.
Qed.
Lemma write_op_no_nl op t : write_op op = Ret (Some t) -> no_line_end t.
Proof.
  unfold write_op. destruct (3 <? _); [discriminate|]. intros H. apply bind_Ret_inv in H as (parts & E & H). injection H as <-. apply mapM_Ret_inv in E. intros I.
  apply in_concat in I as (p & Hp & I). assert (X : exists i, (do row <- get_row (lin op) i; do s <- index (Geometry.shift op) i 0; Ret ((if 0 <? i then [chr ","] else []) ++ write_op_row row s)) = Ret p).
  { clear - E Hp. induction E as [|i y l ys Hi E IH]; [destruct Hp|]. destruct Hp as [->|Hp]; eauto. }
  destruct X as [i X]. apply bind_Ret_inv in X as (row & _ & X). apply bind_Ret_inv in X as (s & _ & X). injection X as <-. apply in_app_or in I as [I|I]; [destruct (0 <? i); cbn in I; intuition discriminate|].
  revert I. apply write_op_row_no_nl.
Qed.
Lemma plain_written op : plain_op op -> exists t, write_op_any op = Ret t /\ no_line_end t /\ aff_from_string t = Ret (Some op).
Proof.
  intros (d & Hd & Ha & Hl & Hs). destruct (C52_round_trip d op Hd Ha Hl Hs) as (t & E & E'). exists t. unfold write_op_any. rewrite E. splits; auto. eapply write_op_no_nl; eauto.
Qed.
Lemma line_inj (a b : text) r s : no_line_end a -> no_line_end b -> a ++ [10%N] ++ r = b ++ [10%N] ++ s -> a = b /\ r = s.
Proof.
  intros Ha Hb E. cbn [app] in E. destruct (word_split (fun c => c <> 10%N) a b 10%N 10%N r s) as (-> & _ & ->); auto; apply Forall_forall; intros c Hc ->; auto.
Qed.

Theorem C78_entry : forall e e', plain_map (te_transform e) -> plain_map (te_transform e') -> Forall plain_op (te_operators e) -> Forall plain_op (te_operators e') ->
  no_line_end (te_name e) -> no_line_end (te_name e') -> no_line_end (te_canonical e) -> no_line_end (te_canonical e') ->
  exists t t', display_entry e = Ret t /\ display_entry e' = Ret t' /\ (t = t' -> e = e').
Proof.
  intros e e' [T B] [T' B'] O O' N1 N1' N2 N2'.
  assert (OP : forall l, Forall plain_op l -> exists ts, mapM (fun op => do t <- write_op_any op; Ret (t ++ [10%N])) l = Ret (map (fun t => t ++ [10%N]) ts) /\
    Forall2 (fun op t => no_line_end t /\ aff_from_string t = Ret (Some op)) l ts).
  { induction 1 as [|op l Hop Hl (ts & IH & F2)]; [exists []; split; [reflexivity|constructor]|]. destruct (plain_written op Hop) as (t & E & Nt & Rt). exists (t :: ts). split; [|constructor; auto].
    cbn [mapM map]. rewrite E. cbn [bind]. rewrite IH. reflexivity. }
  destruct (plain_written _ T) as (tr & Er & Nr & Rr). destruct (plain_written _ T') as (tr' & Er' & Nr' & Rr'). destruct (OP _ O) as (ts & Ets & F). destruct (OP _ O') as (ts' & Ets' & F').
  unfold display_entry. rewrite Er, Er'. cbn [bind]. rewrite Ets, Ets'. cbn [bind]. eexists _, _. split; [reflexivity|]. split; [reflexivity|]. intros E.
  apply app_inv_head in E. apply line_inj in E as [E1 E]; auto. apply app_inv_head in E. apply line_inj in E as [E2 E]; auto. apply app_inv_head in E. apply line_inj in E as [E3 E]; auto.
  apply app_inv_head in E. apply app_inv_head in E.
  assert (E4 : ts = ts').
  { clear - E F F'. assert (Q : forall l (r : list text), Forall2 (fun op t => no_line_end t /\ aff_from_string t = Ret (Some op)) l r -> Forall (fun t => no_line_end t) r) by (induction 1 as [|? ? ? ? []]; constructor; auto).
    apply Q in F, F'. clear Q. rewrite <- (app_nil_r (concat _)), <- (app_nil_r (concat (map _ ts'))) in E.
    apply (list_prefix_free (fun t => no_line_end t) (fun t => t ++ [10%N])) in E as [E _]; auto.
    - intros a b r s Ha Hb Eab. rewrite <- !app_assoc in Eab. apply line_inj; auto.
    - intros a t _ X. rewrite <- app_assoc in X. destruct a; discriminate X.
    - intros a t _ X. rewrite <- app_assoc in X. destruct a; discriminate X. }
  subst tr' ts'. assert (E5 : te_operators e = te_operators e').
  { clear - F F'. revert F'. generalize (te_operators e'). induction F as [|op t l ts [_ R] F IH]; intros l' F'; inversion F' as [|op' ? l1 ? [_ R'] F1]; subst; auto. f_equal; [congruence|auto]. }
  assert (E6 : te_transform e = te_transform e') by (rewrite Rr in Rr'; congruence).
  destruct e, e'. cbn in *. congruence.
Qed.
Print Assumptions C78_entry.
Lemma write_system_inj s s' : write_system s = write_system s' -> s = s'.
Proof. destruct s, s'; intros H; try reflexivity; vm_compute in H; discriminate H. Qed.
Lemma write_centering_inj s s' : write_centering s = write_centering s' -> s = s'.
Proof. destruct s, s'; intros H; try reflexivity; vm_compute in H; discriminate H. Qed.
Theorem C78_lookup : forall e e', plain_map (lk_from_std e) -> plain_map (lk_from_std e') -> no_line_end (lk_name e) -> no_line_end (lk_name e') ->
  exists t t', display_lookup e = Ret t /\ display_lookup e' = Ret t' /\ (t = t' -> e = e').
Proof.
  intros e e' [T B] [T' B'] N N'. destruct (plain_written _ T) as (tr & Er & Nr & Rr). destruct (plain_written _ T') as (tr' & Er' & Nr' & Rr').
  assert (NS : forall s, no_line_end (write_system s)) by (intros [] H; vm_compute in H; intuition discriminate).
  assert (NC : forall s, no_line_end (write_centering s)) by (intros [] H; vm_compute in H; intuition discriminate).
  unfold display_lookup. rewrite Er, Er'. cbn [bind]. eexists _, _. split; [reflexivity|]. split; [reflexivity|]. intros E.
  apply app_inv_head in E. apply line_inj in E as [E1 E]; auto. apply app_inv_head in E. apply line_inj in E as [E2 E]; auto. apply app_inv_head in E. apply line_inj in E as [E3 E]; auto.
  apply app_inv_head in E. apply app_inv_tail in E. subst tr'. apply write_system_inj in E2. apply write_centering_inj in E3.
  assert (E6 : lk_from_std e = lk_from_std e') by (rewrite Rr in Rr'; congruence). destruct e, e'. cbn in *. congruence.
Qed.
Print Assumptions C78_lookup.
(** an operator in four dimensions is printed as a matrix, with an extra line end *)
Example C78_four_dimensions : omap (@length N) (write_op_any (am 4 (fun i j => if i =? j then 1 else 0)%Qc (fun _ => 0%Qc))) = Ret 57.
Proof. vm_compute. reflexivity. Qed.
Definition unit_map : @affine Qc := am 2 (fun i j => if i =? j then 1 else 0)%Qc (fun _ => 0%Qc).
Definition half_turn : @affine Qc := am 2 (fun i j => if i =? j then - (1) else 0)%Qc (fun i => if i =? 1 then (1 / ZQ 2)%Qc else 0%Qc).
Definition unit_cmap : @cmap Qc := match cmap_new unit_map with Ret c => c | _ => CMap unit_map unit_map end.
Definition p2_entry : table_entry := TableEntry (str "p2") (str "p2") unit_cmap [unit_map; half_turn].
Lemma unit_cmap_new : fwd unit_cmap = unit_map /\ cmap_new unit_map = Ret unit_cmap.
Proof.
  unfold unit_cmap. destruct (cmap_new unit_map) as [c| |] eqn:E.
  - split; auto. unfold cmap_new in E. repeat (apply bind_Ret_inv in E as (? & _ & E)). injection E as <-. reflexivity.
  - exfalso. apply (f_equal (fun o => match o with Ret _ => true | _ => false end)) in E. vm_compute in E. discriminate E.
  - exfalso. apply (f_equal (fun o => match o with Ret _ => true | _ => false end)) in E. vm_compute in E. discriminate E.
Qed.
Lemma plain_am d f s : 1 <= d <= 3 -> (forall i j, i < d -> j < d -> nine_digits (f i j)) -> (forall i, i < d -> nine_digits (s i) /\ ~ unit_size (s i)) -> plain_op (am d f s).
Proof.
  intros Hd Hf Hs. exists d. split; [auto|]. split; [|split].
  - apply affine_am; [lia|eauto].
  - intros i j Hi Hj. unfold am. cbn [lin]. rewrite mk_ent by auto. auto.
  - intros i Hi. unfold am, cv. cbn [Geometry.shift]. rewrite mk_ent by auto. auto.
Qed.
Example C78_case : plain_map (te_transform p2_entry) /\ Forall plain_op (te_operators p2_entry) /\
  display_entry p2_entry = Ret (str "Setting Name: p2" ++ [10%N] ++ str "Group name: p2" ++ [10%N] ++ str "Transform: x,y" ++ [10%N] ++ str "Operators:" ++ [10%N] ++
    str "x,y" ++ [10%N] ++ str "-x,-y+1/2" ++ [10%N]).
Proof.
  assert (Z0 : nine_digits 0%Qc /\ nine_digits 1%Qc /\ nine_digits (- (1))%Qc /\ nine_digits (1 / ZQ 2)%Qc) by (unfold nine_digits; splits; vm_compute; reflexivity).
  assert (U : ~ unit_size 0%Qc /\ ~ unit_size (1 / ZQ 2)%Qc) by (split; intros [H|H]; apply (f_equal (fun q : Qc => (Qnum q, Qden q))) in H; vm_compute in H; congruence).
  assert (P1 : plain_op unit_map). { apply plain_am; [lia| |]; intros; try destruct (_ =? _); tauto. }
  assert (P2 : plain_op half_turn). { apply plain_am; [lia| |]; intros; try destruct (_ =? _); tauto. }
  splits.
  - destruct unit_cmap_new as [E1 E2]. split; cbn [te_transform p2_entry]; rewrite E1; auto.
  - repeat constructor; auto.
  - vm_compute. reflexivity.
Qed.
