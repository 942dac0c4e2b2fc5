(** graph_component_measures (src/pgraphs.rs 703-736): the component of a
    vertex and the lattice of its closed walks. *)
From Coq Require Import List ZArith Lia Bool PeanoNat Permutation Sorted.
From Verif Require Import Base Vec Elim Scalars Props_LinAlg OrdSet PGraph Net PGraphBase Traverse Index.
Import ListNotations.
Open Scope nat_scope.

Lemma foldM_map {A B S} (f : S -> B -> outcome S) (h : A -> B) s l :
  foldM (fun s x => f s (h x)) s l = foldM f s (map h l).
Proof. revert s. induction l as [|x l IH]; intros s; simpl; auto. destruct (f s (h x)); simpl; auto. Qed.

(** closed walks at v: the vectors t such that (v,0) and (v,t) are joined *)
Definition closed_walk (g : graph) (v : nat) (t : shiftv) : Prop := joined g (v, szero (gdim g)) (v, t).

Section K.
  Variable g : graph.
  Hypothesis C : constructed g.
  Variable v0 : nat.
  Hypothesis V0 : is_vertex g v0.
  Notation d := (gdim g).
  Variables (t : list edge) (comp : list nat) (c : nat -> shiftv) (es : list edge).
  Hypothesis T : Traversal g v0 t comp c es.

  Lemma comp_len v : In v comp -> length (c v) = d.
  Proof. intros H. destruct (t_joined _ _ _ _ _ _ T v H) as [[_ L] _]. auto. Qed.

  Lemma comp_edge e : In e (gedges g) -> In (head e) comp <-> In (tail e) comp.
  Proof.
    intros He. assert (D : In e (dedges g)) by (apply dedges_In; eauto). split.
    - apply (t_closed _ _ _ _ _ _ T e D).
    - pose proof (t_closed _ _ _ _ _ _ T (rev e) (dedges_rev g e D)) as H. simpl in H. auto.
  Qed.

  Lemma comp_linked v : In v comp <-> linked (gedges g) v0 v.
  Proof.
    split.
    - intros Hv. destruct (t_tree _ _ _ _ _ _ T) as (tr & Hi & _ & _ & _ & _ & _ & Hl).
      specialize (Hl v0 v (t_v0 _ _ _ _ _ _ T) Hv). clear Hv.
      induction Hl as [|u w e Hl IH He Hend]; [constructor|]. 
      apply Hi in He. rewrite (t_eq _ _ _ _ _ _ T) in He. apply in_map_iff in He as (e0 & <- & He).
      apply (t_es _ _ _ _ _ _ T) in He as [He _]. eapply linked_edge; eauto.
    - induction 1 as [|u w e Hl IH He Hend]; [apply (t_v0 _ _ _ _ _ _ T)|].
      pose proof (comp_edge e He). destruct Hend as [[<- <-]|[<- <-]]; tauto.
  Qed.

  Lemma t_lens : lens d (map shift t).
  Proof.
    unfold lens. rewrite Forall_forall. intros x Hx. rewrite (t_eq _ _ _ _ _ _ T), map_map in Hx.
    apply in_map_iff in Hx as (e & <- & He). apply (t_es _ _ _ _ _ _ T) in He as [He Hh].
    pose proof (comp_len _ Hh). pose proof (comp_len _ (proj1 (comp_edge e He) Hh)). pose proof (c_dim _ C _ He). simpl. slen.
  Qed.

  (** potential of a node relative to the relabelled lattice *)
  Lemma walk_span k a b : walk g k a b -> In (fst a) comp ->
    In (fst b) comp /\ span d (map shift t) (sadd (ssub (ssub (snd b) (c (fst b))) (snd a)) (c (fst a))).
  Proof.
    intros W Ha. induction W as [a Na|k a b b' W IH Nc A].
    - split; auto. replace (sadd _ _) with (szero d); [exact (span_zero (R := Z) d _ t_lens)|].
      destruct Na as [_ L]. pose proof (comp_len _ Ha). seq.
    - destruct IH as [Hb S]; auto.
      assert (La : length (snd a) = d) by (apply walk_nodes in W as [[_ ?] _]; auto).
      assert (Nb : is_node g b) by (apply walk_nodes in W; tauto).
      pose proof (comp_len _ Ha). pose proof (comp_len _ Hb).
      destruct A as (e & He & A). pose proof (c_dim _ C _ He) as Le. destruct Nb as [_ Lb]. destruct Nc as [_ Lc].
      assert (Hc : In (fst b') comp).
      { pose proof (comp_edge e He). destruct A as [(E1 & E2 & _)|(E1 & E2 & _)]; rewrite ?E1, ?E2 in *; tauto. }
      split; auto. pose proof (comp_len _ Hc).
      assert (Hh : In (head e) comp) by (destruct A as [(E1 & E2 & _)|(E1 & E2 & _)]; congruence).
      assert (Se : span d (map shift t) (shift (relabel c e))).
      { apply (span_In (R := Z)); [apply t_lens|]. apply in_map. rewrite (t_eq _ _ _ _ _ _ T). apply in_map.
        apply (t_es _ _ _ _ _ _ T). auto. }
      unfold relabel in Se. simpl in Se.
      destruct A as [(E1 & E2 & E3)|(E1 & E2 & E3)].
      + rewrite <- E1, <- E2 in Se. pose proof (span_add (R := Z) _ _ _ _ S Se) as X.
        match goal with |- span _ _ ?y => match type of X with span _ _ ?x => replace y with x; auto end end.
        change (@vadd Z _) with sadd. rewrite E3. seq.
      + rewrite <- E1, <- E2 in Se. apply (span_scale (R := Z) _ _ (-1)%Z) in Se. pose proof (span_add (R := Z) _ _ _ _ S Se) as X.
        match goal with |- span _ _ ?y => match type of X with span _ _ ?x => replace y with x; auto end end.
        change (@vadd Z _) with sadd. rewrite E3. seq.
  Qed.

  Lemma comp_joined v s : In v comp -> length s = d -> joined g (v0, s) (v, sadd s (c v)).
  Proof.
    intros Hv Ls. destruct (t_joined _ _ _ _ _ _ T v Hv) as [_ J].
    apply (joined_translate g _ _ s Ls) in J. simpl in J. rewrite sadd_0_l in J by auto. rewrite sadd_comm. auto.
  Qed.

  Lemma closed_span s : closed_walk g v0 s <-> span d (map shift t) s.
  Proof.
    unfold closed_walk. split.
    - intros [k W]. destruct (walk_span _ _ _ W (t_v0 _ _ _ _ _ _ T)) as [_ S]. simpl in S.
      rewrite (t_c0 _ _ _ _ _ _ T) in S. apply walk_nodes in W as [_ [_ L]]. simpl in L.
      match type of S with span _ _ ?x => replace s with x; auto end. seq.
    - assert (N0 : is_node g (v0, szero d)) by (split; auto; apply szero_length).
      revert s. apply (span_ind (R := Z)).
      + apply joined_refl. auto.
      + intros x y Hx Hy. assert (Ly : length y = d) by (destruct Hy as [k W]; apply walk_nodes in W as [_ [_ L]]; auto).
        apply (joined_translate g _ _ y Ly) in Hx. simpl in Hx. rewrite sadd_0_l in Hx by auto.
        eapply joined_trans; eauto.
      + assert (Hneg : forall x, joined g (v0, szero d) (v0, x) -> joined g (v0, szero d) (v0, sneg x)).
        { intros x Hx. assert (Lx : length x = d) by (destruct Hx as [k W]; apply walk_nodes in W as [_ [_ L]]; auto).
          apply joined_sym. apply (joined_translate g _ _ (sneg x)) in Hx; [|slen]. simpl in Hx.
          rewrite sadd_0_l in Hx by slen. replace (sadd x (sneg x)) with (szero d) in Hx; auto. seq. }
        assert (Hnat : forall n x, joined g (v0, szero d) (v0, x) -> joined g (v0, szero d) (v0, vscale (Z.of_nat n) x)).
        { intros n x Hx. assert (Lx : length x = d) by (destruct Hx as [k W]; apply walk_nodes in W as [_ [_ L]]; auto).
          induction n as [|n IH].
          - change (vscale (Z.of_nat 0) x) with (vscale (R := Z) r0 x). rewrite (vscale_0 (R := Z)), Lx. apply joined_refl; auto.
          - replace (vscale (Z.of_nat (S n)) x) with (sadd (vscale (Z.of_nat n) x) x).
            + apply (joined_translate g _ _ x Lx) in IH. simpl in IH. rewrite sadd_0_l in IH by auto. eapply joined_trans; eauto.
            + apply (vec_ext (R := Z)); [slen|]. intros i _. rewrite vget_sadd by slen. rewrite !(vget_vscale (R := Z)).
              change rmul with Z.mul. lia. }
        intros z x Hx. destruct (Z_le_gt_dec 0 z).
        * rewrite <- (Z2Nat.id z) by lia. auto.
        * replace (vscale z x) with (sneg (vscale (Z.of_nat (Z.to_nat (- z))) x)); auto.
          apply (vec_ext (R := Z)); [slen|]. intros i _. rewrite vget_sneg, !(vget_vscale (R := Z)). change rmul with Z.mul. rewrite Z2Nat.id; lia.
      + intros x Hx. rewrite (t_eq _ _ _ _ _ _ T), map_map in Hx. apply in_map_iff in Hx as (e & <- & He).
        apply (t_es _ _ _ _ _ _ T) in He as [He Hh]. assert (Ht : In (tail e) comp) by (apply comp_edge; auto).
        pose proof (comp_len _ Hh) as Lh. pose proof (comp_len _ Ht) as Lt. pose proof (c_dim _ C _ He) as Le.
        destruct (t_joined _ _ _ _ _ _ T _ Hh) as [Nh Jh]. eapply joined_trans; [exact Jh|].
        assert (De : In e (dedges g)) by (apply dedges_In; eauto).
        eapply joined_trans; [exact (joined_edge g C (head e, c (head e)) e Nh De eq_refl)|]. simpl.
        apply joined_sym.
        pose proof (comp_joined (tail e) (shift (relabel c e)) Ht) as X. unfold relabel in *; simpl in *.
        assert (E : sadd (ssub (sadd (c (head e)) (shift e)) (c (tail e))) (c (tail e)) = sadd (c (head e)) (shift e)) by seq.
        rewrite E in X. apply X. slen.
  Qed.

  (** nodes above the component are joined iff their difference is in the lattice *)
  Lemma node_joined v s : In v comp -> length s = d -> joined g (v, s) (v0, ssub s (c v)).
  Proof.
    intros Hv Ls. apply joined_sym. pose proof (comp_len _ Hv). replace (v, s) with (v, sadd (ssub s (c v)) (c v)).
    - apply comp_joined; auto. slen.
    - f_equal. seq.
  Qed.
  Lemma v0_joined s s' : length s = d -> length s' = d -> joined g (v0, s) (v0, s') <-> span d (map shift t) (ssub s s').
  Proof.
    intros L L'. rewrite <- closed_span. unfold closed_walk. split; intros J.
    - apply joined_sym. apply (joined_translate g _ _ (sneg s')) in J; [|slen]. simpl in J.
      replace (sadd s (sneg s')) with (ssub s s') in J by seq. replace (sadd s' (sneg s')) with (szero d) in J by seq. auto.
    - apply joined_sym. apply (joined_translate g _ _ s') in J; [|slen]. simpl in J.
      replace (sadd (szero d) s') with s' in J by seq. replace (sadd (ssub s s') s') with s in J by seq. auto.
  Qed.

  Lemma size_ok : Permutation (usort Nat.compare (flat_map (fun e => [head e; tail e]) t)) comp.
  Proof.
    apply NoDup_Permutation; [apply usort_NoDup, nat_cmp_laws|apply (t_nd _ _ _ _ _ _ T)|].
    intros v. rewrite (usort_In _ nat_cmp_laws), in_flat_map. split.
    - intros (e' & He & Hv). rewrite (t_eq _ _ _ _ _ _ T) in He. apply in_map_iff in He as (e & <- & He).
      apply (t_es _ _ _ _ _ _ T) in He as [He Hh]. simpl in Hv. destruct Hv as [<-|[<-|[]]]; auto. apply comp_edge; auto.
    - intros Hv. destruct (t_joined _ _ _ _ _ _ T v Hv) as [[(e & He & Hend) _] _]. simpl in Hend.
      exists (relabel c e). split.
      + rewrite (t_eq _ _ _ _ _ _ T). apply in_map. apply (t_es _ _ _ _ _ _ T). split; auto.
        destruct Hend as [<-| ->]; auto. apply comp_edge; auto.
      + simpl. destruct Hend as [->| ->]; auto.
  Qed.
End K.

(** what graph_component_measures returns *)
Record Measures (g : graph) (v0 : nat) (size rank : nat) (mult : option Z) (comp : list nat) (bs : list (list Z)) : Prop := {
  m_nd : NoDup comp;
  m_size : length comp = size;
  m_comp : forall v, In v comp <-> linked (gedges g) v0 v;
  m_lens : lens (gdim g) bs;
  m_ech : echelon bs;
  m_rank : length bs = rank;
  m_span : forall s, closed_walk g v0 s <-> span (gdim g) bs s;
  m_none : rank <> gdim g -> mult = None;
  m_some : rank = gdim g -> exists reps, mult = Some (Z.of_nat (length reps)) /\ NoDup reps /\
    (forall r, In r reps -> is_node g r /\ linked (gedges g) v0 (fst r)) /\
    forall a, is_node g a -> linked (gedges g) v0 (fst a) ->
      exists r, In r reps /\ joined g a r /\ forall r', In r' reps -> joined g a r' -> r' = r }.

Lemma measures_ok g v0 : constructed g -> is_vertex g v0 ->
  exists size rank mult comp bs, component_measures g v0 = Ret (size, rank, mult) /\ Measures g v0 size rank mult comp bs.
Proof.
  intros C V0. destruct (traverse_ok g C v0 V0) as (t & comp & c & es & Et & T).
  pose proof (t_lens g C v0 t comp c es T) as L.
  destruct (extend_all_span (R := Z) (gdim g) (map shift t) L) as (bs & Eb & Lb & Ee & Sp & _).
  unfold component_measures. rewrite Et. cbn [bind].
  rewrite (foldM_map (fun bs v => extend_basis v bs) shift). unfold extend_all in Eb. rewrite Eb. cbn [bind].
  assert (Nd : forall v, In v comp -> length (c v) = gdim g) by (apply (comp_len g v0 t comp c es T)).
  destruct (Nat.eqb_spec (length bs) (gdim g)) as [Er|Er].
  - assert (U : upper (gdim g) bs) by (apply (full_echelon (gdim g) bs (pivots bs)); auto; apply echelon_row_echelon; auto).
    assert (Pr : forall n, n <= gdim g -> foldM (fun d i => do row <- unwrap (nth_error bs i); do x <- unwrap (nth_error row i); Ret (d * x)%Z) 1%Z (seq 0 n)
                 = Ret (zprod (map (fun i => vget (nth i bs []) i) (seq 0 n)))).
    { assert (Zp : forall l x, zprod (l ++ [x]) = (zprod l * x)%Z) by (induction l; intros; cbn [app zprod]; rewrite ?IHl; ring).
      induction n as [|n IH]; intros Hn; auto. rewrite seq_S, foldM_app, IH, map_app by lia. cbn [map]. rewrite Zp. cbn [bind foldM plus].
      destruct (nth_error bs n) as [row|] eqn:En; [|apply nth_error_None in En; lia]. simpl.
      pose proof (lens_In _ _ _ Lb (nth_error_In _ _ En)) as Lr.
      rewrite (nth_error_nth _ _ [] En).
      destruct (nth_error row n) as [x|] eqn:Ex; [|apply nth_error_None in Ex; lia]. simpl.
      unfold vget. rewrite (nth_error_nth _ _ r0 Ex). auto. }
    rewrite Er, (Pr (gdim g)) by lia. cbn [bind]. rewrite <- Er. fold (diag bs).
    eexists _, _, _, comp, bs. split; [reflexivity|].
    pose proof (tri_reps _ _ (upper_tri _ _ U)) as Reps.
    assert (Lbox : forall y, In y (box (diag bs)) -> length y = gdim g).
    { intros y Hy. apply box_In in Hy as [Hy _]. rewrite Hy. unfold diag. rewrite map_length, seq_length. auto. }
    constructor; auto.
    + apply (t_nd _ _ _ _ _ _ T).
    + symmetry. apply Permutation_length, (size_ok g v0 t comp c es T).
    + apply (comp_linked g v0 t comp c es T).
    + intros s. rewrite (closed_span g C v0 V0 t comp c es T). apply Sp.
    + congruence.
    + intros _. exists (map (fun y => (v0, y)) (box (diag bs))). splits.
      * f_equal. rewrite map_length, box_length. lia.
      * apply FinFun.Injective_map_NoDup; [intros x y E; congruence|apply box_NoDup].
      * intros r Hr. apply in_map_iff in Hr as (y & <- & Hy). split; [split; auto|constructor].
      * intros [v s] [Nv Ls] Hl. simpl in *. apply (comp_linked g v0 t comp c es T) in Hl.
        pose proof (Nd v Hl) as Lc. pose proof (node_joined g v0 t comp c es T v s Hl Ls) as J.
        destruct (Reps (ssub s (c v))) as (y & Hy & Sy & Uy); [slen|].
        exists (v0, y). splits.
        -- apply in_map; auto.
        -- eapply joined_trans; [exact J|]. apply (v0_joined g C v0 V0 t comp c es T); auto; [slen|]. apply Sp; auto.
        -- intros r' Hr' Jr. apply in_map_iff in Hr' as (y' & <- & Hy'). f_equal. apply Uy; auto. apply Sp.
           apply (v0_joined g C v0 V0 t comp c es T); auto; [slen|]. eapply joined_trans; [apply joined_sym; exact J|]. auto.
  - cbn [bind]. eexists _, _, _, comp, bs. split; [reflexivity|]. constructor; auto.
    + apply (t_nd _ _ _ _ _ _ T).
    + symmetry. apply Permutation_length, (size_ok g v0 t comp c es T).
    + apply (comp_linked g v0 t comp c es T).
    + intros s. rewrite (closed_span g C v0 V0 t comp c es T). apply Sp.
    + congruence.
Qed.
