(** traverse_with_shift_adjustments (src/pgraphs.rs 672-700) visits one
    component of the quotient graph and relabels its edges. *)
From Coq Require Import List ZArith Lia Bool PeanoNat Permutation Sorted.
From Verif Require Import Base Vec Scalars OrdSet PGraph Net PGraphBase.
Import ListNotations.
Open Scope nat_scope.

Lemma aset_new {V} k (v : V) m : aget Nat.eqb k m = None -> aset Nat.eqb k v m = m ++ [(k, v)].
Proof.
  induction m as [|[a b] m IH]; simpl; auto. destruct (k =? a); [discriminate|]. intros H. rewrite IH; auto.
Qed.

Lemma linked_incl es es' u v : incl es es' -> linked es u v -> linked es' u v.
Proof. intros H. induction 1 as [|x y e H1 IH H2 H3]; [constructor|]. eapply linked_edge with (u := x); eauto. Qed.
Lemma linked_trans es u v w : linked es u v -> linked es v w -> linked es u w.
Proof. intros H1 H2. induction H2 as [|x y e H2 IH H3 H4]; auto. eapply linked_edge with (u := x); eauto. Qed.
Lemma linked_1 es e : In e es -> linked es (head e) (tail e) /\ linked es (tail e) (head e).
Proof. intros H. split; eapply linked_edge; eauto using linked_refl. Qed.
Lemma linked_sym es u v : linked es u v -> linked es v u.
Proof.
  induction 1; [constructor|]. eapply linked_trans; [|eauto]. pose proof (linked_1 es e ltac:(eassumption)). intuition; subst; auto.
Qed.

(** relabelling by a family of shifts *)
Definition relabel (c : nat -> shiftv) (e : edge) : edge :=
  Edge (head e) (tail e) (ssub (sadd (c (head e)) (shift e)) (c (tail e))).

Section T.
  Variable g : graph.
  Hypothesis C : constructed g.
  Variable v0 : nat.
  Hypothesis V0 : is_vertex g v0.
  Notation d := (gdim g).

  Definition cof (shifts : list (nat * shiftv)) (v : nat) : shiftv :=
    match aget Nat.eqb v shifts with Some s => s | None => szero d end.

  Inductive Inv (P : edge -> Prop) (done : list nat) (st : tstate) : Prop := Inv_intro

    (i_shifts : list (nat * shiftv)) (i_seen : list edge) (i_queue : list nat) (i_result : list edge)
    (i_st : st = (i_shifts, i_seen, i_queue, i_result))
    (i_keys : map fst i_shifts = done ++ i_queue)
    (i_nd : NoDup (map fst i_shifts))
    (i_v0 : aget Nat.eqb v0 i_shifts = Some (szero d))
    (i_joined : forall v s, aget Nat.eqb v i_shifts = Some s -> is_node g (v, s) /\ joined g (v0, szero d) (v, s))
    (i_seen_in : forall e, In e i_seen -> In e (gedges g) /\ In (head e) (map fst i_shifts) /\ In (tail e) (map fst i_shifts))
    (i_seen_nd : NoDup i_seen)
    (i_res : i_result = map (relabel (cof i_shifts)) i_seen)
    (i_tree : exists tr, incl tr i_result /\ (forall e, In e tr -> shift e = szero d) /\ NoDup tr /\
       S (length tr) = length i_shifts /\
       (forall e, In e tr -> In (head e) (map fst i_shifts) /\ In (tail e) (map fst i_shifts)) /\
       forall u, In u (map fst i_shifts) -> linked tr v0 u)
    (i_done : forall e, In e (dedges g) -> P e -> In (tail e) (map fst i_shifts) /\ In (canonical e) i_seen).

  Lemma aget_key {V} (m : list (nat * V)) k : In k (map fst m) -> exists s, aget Nat.eqb k m = Some s.
  Proof.
    intros H. destruct (aget Nat.eqb k m) eqn:E; eauto. apply (aget_None _ Nat.eqb_spec) in E. contradiction.
  Qed.
  Lemma aget_key' {V} (m : list (nat * V)) k s : aget Nat.eqb k m = Some s -> In k (map fst m).
  Proof. intros H. apply (aget_In _ Nat.eqb_spec) in H. apply in_map_iff. exists (k, s). auto. Qed.

  Lemma aget_app_l {V} (m m' : list (nat * V)) k : In k (map fst m) -> aget Nat.eqb k (m ++ m') = aget Nat.eqb k m.
  Proof.
    induction m as [|[a b] m IH]; simpl; [tauto|]. destruct (Nat.eqb_spec k a); auto. intros [|]; auto. congruence.
  Qed.

  Lemma relabel_ext c c' e : c (head e) = c' (head e) -> c (tail e) = c' (tail e) -> relabel c e = relabel c' e.
  Proof. unfold relabel. intros -> ->. auto. Qed.

  (** the edge e, leaving a visited vertex, has been looked at *)
  Lemma tr_edge_ok P done st e : Inv P done st -> In e (dedges g) -> In (head e) done ->
    exists st', tr_edge st e = Ret st' /\ Inv (fun f => P f \/ f = e) done st'.
  Proof.
    intros [shifts seen queue result -> K ND I0 J SI SN R T D] He Hh.
    assert (Hhk : In (head e) (map fst shifts)) by (rewrite K; apply in_or_app; auto).
    destruct (aget_key _ _ Hhk) as [sv Esv]. destruct (J _ _ Esv) as [Nv Jv].
    pose proof (dedges_dim _ C _ He) as Ld. pose proof (dedges_canonical _ C _ He) as Hc.
    destruct (dedges_vertices _ _ He) as [_ Vt].
    set (c := canonical e). 
    assert (Hends : forall ks : list nat, In (head e) ks -> In (tail e) ks -> In (head c) ks /\ In (tail c) ks).
    { intros ks H1 H2. unfold c. destruct (canonical_cases e) as [->| ->]; auto. }
    unfold tr_edge. fold c.
    (* second half: recording the canonical edge, for any shifts *)
    assert (Half : forall shifts queue (tr : list edge),
       map fst shifts = done ++ queue -> NoDup (map fst shifts) -> aget Nat.eqb v0 shifts = Some (szero d) ->
       (forall v s, aget Nat.eqb v shifts = Some s -> is_node g (v, s) /\ joined g (v0, szero d) (v, s)) ->
       (forall e, In e seen -> In e (gedges g) /\ In (head e) (map fst shifts) /\ In (tail e) (map fst shifts)) ->
       result = map (relabel (cof shifts)) seen ->
       In (tail e) (map fst shifts) ->
       (incl tr (map (relabel (cof shifts)) (sinsert edge_eqb c seen)) /\ (forall e, In e tr -> shift e = szero d) /\ NoDup tr /\
          S (length tr) = length shifts /\
          (forall e, In e tr -> In (head e) (map fst shifts) /\ In (tail e) (map fst shifts)) /\
          forall u, In u (map fst shifts) -> linked tr v0 u) ->
       (forall e, In e (dedges g) -> P e -> In (tail e) (map fst shifts) /\ In (canonical e) seen) ->
       exists st', (if memb edge_eqb c seen then Ret (shifts, seen, queue, result)
          else do sh <- unwrap (aget Nat.eqb (head c) shifts); do st <- unwrap (aget Nat.eqb (tail c) shifts);
            Ret (shifts, sinsert edge_eqb c seen, queue, result ++ [Edge (head c) (tail c) (ssub (sadd sh (shift c)) st)])) = Ret st' /\
         Inv (fun f => P f \/ f = e) done st').
    { clear shifts queue K ND I0 J SI R T D Hhk Esv Jv. intros shifts queue tr K ND I0 J SI R Ht T D.
      assert (Hhk : In (head e) (map fst shifts)) by (rewrite K; apply in_or_app; auto).
      destruct (Hends _ Hhk Ht) as [Hch Hct].
      destruct (memb edge_eqb c seen) eqn:M.
      - apply (memb_spec _ edge_eqb_spec) in M. assert (Es : sinsert edge_eqb c seen = seen).
        { unfold sinsert. replace (memb edge_eqb c seen) with true; auto. symmetry. apply (memb_spec _ edge_eqb_spec). auto. }
        eexists. split; [reflexivity|]. rewrite Es in T. econstructor; eauto.
        + exists tr. rewrite R. exact T.
        + intros f Hf [HP| ->]; auto.
      - destruct (aget_key _ _ Hch) as [sh Esh]. destruct (aget_key _ _ Hct) as [st0 Est]. rewrite Esh, Est. simpl.
        assert (Es : sinsert edge_eqb c seen = seen ++ [c]) by (unfold sinsert; rewrite M; auto).
        apply (memb_false _ edge_eqb_spec) in M.
        assert (Er : result ++ [Edge (head c) (tail c) (ssub (sadd sh (shift c)) st0)] = map (relabel (cof shifts)) (sinsert edge_eqb c seen)).
        { rewrite Es, map_app, R. f_equal. simpl. unfold relabel, cof. rewrite Esh, Est. auto. }
        rewrite Er. eexists. split; [reflexivity|]. econstructor; eauto.
        + intros f. rewrite (sinsert_In _ edge_eqb_spec). intros [->|Hf]; auto.
        + rewrite Es. apply NoDup_snoc; auto.
        + intros f Hf Hp. rewrite (sinsert_In _ edge_eqb_spec). destruct Hp as [HP| ->]; auto. destruct (D f Hf HP); auto. }
    destruct (aget Nat.eqb (tail e) shifts) as [stl|] eqn:Et.
    - cbn [bind]. destruct T as (tr & T1 & T). apply (Half shifts queue tr); auto.
      + apply (aget_key' _ _ _ Et).
      + split; auto. intros f Hf. rewrite R in T1. apply T1 in Hf. apply in_map_iff in Hf as (f' & <- & Hf).
        apply in_map. apply (sinsert_In _ edge_eqb_spec). auto.
    - rewrite Esv. cbn [bind unwrap]. rewrite (aset_new _ _ _ Et). set (ns := sadd sv (shift e)).
      assert (Nt : ~ In (tail e) (map fst shifts)) by (apply (aget_None _ Nat.eqb_spec); auto).
      assert (Et' : aget Nat.eqb (tail e) (shifts ++ [(tail e, ns)]) = Some ns).
      { rewrite <- (aset_new _ ns _ Et), (aget_aset _ Nat.eqb_spec), Nat.eqb_refl. auto. }
      assert (Eo : forall k, In k (map fst shifts) -> aget Nat.eqb k (shifts ++ [(tail e, ns)]) = aget Nat.eqb k shifts)
        by (intros; apply aget_app_l; auto).
      assert (Nd : length ns = d) by (unfold ns; destruct Nv; simpl in *; slen).
      assert (Ec : ~ In c seen).
      { intros H. destruct (SI _ H) as (_ & A & B). unfold c in A, B. destruct (canonical_cases e) as [E|E]; rewrite E in A, B; auto. }
      assert (Es : sinsert edge_eqb c seen = seen ++ [c]).
      { unfold sinsert. replace (memb edge_eqb c seen) with false; auto. symmetry. apply (memb_false _ edge_eqb_spec). auto. }
      assert (Ez : shift (relabel (cof (shifts ++ [(tail e, ns)])) c) = szero d).
      { unfold relabel, c. destruct Nv as [_ Nv]; simpl in Nv. destruct (canonical_cases e) as [->| ->]; simpl; unfold cof; rewrite Et', (Eo _ Hhk), Esv.
        - unfold ns. seq. - unfold ns. seq. }
      destruct T as (tr & T1 & T2 & T3 & T4 & T5 & T6).
      apply (Half _ (queue ++ [tail e]) (tr ++ [relabel (cof (shifts ++ [(tail e, ns)])) c])); auto.
      + rewrite map_app, K. simpl. rewrite app_assoc. auto.
      + rewrite map_app. apply NoDup_snoc; auto.
      + rewrite Eo; auto. apply (aget_key' _ _ _ I0).
      + intros v s Hv. destruct (Nat.eq_dec v (tail e)) as [->|Hne].
        * rewrite Et' in Hv. injection Hv as <-. split; [split; auto|].
          eapply joined_trans; [exact Jv|]. apply (joined_edge g C (head e, sv) e); auto.
        * apply J. rewrite <- Hv. symmetry. apply Eo. apply aget_key' in Hv. rewrite map_app, in_app_iff in Hv. simpl in Hv. intuition congruence.
      + intros f Hf. destruct (SI f Hf) as (A & B1 & B2). rewrite map_app, !in_app_iff. auto.
      + rewrite R. apply map_ext_in. intros f Hf. destruct (SI f Hf) as (A & B1 & B2).
        apply relabel_ext; unfold cof; rewrite Eo; auto.
      + rewrite map_app. apply in_or_app. right. left. auto.
      + splits.
        * intros f Hf. rewrite Es, map_app. apply in_app_iff in Hf as [Hf|Hf]; [|apply in_or_app; right; auto].
          apply in_or_app. left. apply T1 in Hf. rewrite R in Hf. apply in_map_iff in Hf as (f' & <- & Hf').
          destruct (SI f' Hf') as (A & B1 & B2).
          apply in_map_iff. exists f'. split; auto. apply relabel_ext; unfold cof; rewrite Eo; auto.
        * intros f Hf. apply in_app_iff in Hf as [Hf|[<-|[]]]; auto.
        * apply NoDup_snoc; auto. intros Hf. apply T5 in Hf as [A B]. unfold relabel in A, B. simpl in A, B.
          unfold c in A, B. destruct (canonical_cases e) as [E|E]; rewrite E in A, B; auto.
        * rewrite !app_length. simpl. lia.
        * intros f Hf. rewrite map_app, !in_app_iff. apply in_app_iff in Hf as [Hf|[<-|[]]].
          -- destruct (T5 f Hf); auto.
          -- unfold relabel. simpl. unfold c. destruct (canonical_cases e) as [->| ->]; simpl; auto.
        * intros u Hu. rewrite map_app, in_app_iff in Hu. simpl in Hu.
          assert (Inc : incl tr (tr ++ [relabel (cof (shifts ++ [(tail e, ns)])) c])) by (apply incl_appl, incl_refl).
          destruct Hu as [Hu|[<-|[]]]; [eapply linked_incl; eauto|].
          eapply linked_edge with (u := head e); [eapply linked_incl; eauto|apply in_or_app; right; left; reflexivity|].
          unfold relabel; simpl. unfold c. destruct (canonical_cases e) as [->| ->]; simpl; auto.
      + intros f Hf HP. destruct (D f Hf HP). rewrite map_app, in_app_iff. auto.
  Qed.

  Lemma Inv_ext (P Q : edge -> Prop) done st : (forall e, In e (dedges g) -> Q e -> P e) -> Inv P done st -> Inv Q done st.
  Proof. intros H [shifts seen queue result -> K ND I0 J SI SN R T D]. econstructor; eauto. Qed.

  Lemma inner_ok P done st es : Inv P done st -> (forall e, In e es -> In e (dedges g) /\ In (head e) done) ->
    exists st', foldM tr_edge st es = Ret st' /\ Inv (fun f => P f \/ In f es) done st'.
  Proof.
    revert P st. induction es as [|e es IH]; intros P st I H; simpl.
    - exists st. split; auto. eapply Inv_ext; eauto. intros f _ [|[]]; auto.
    - destruct (H e (or_introl eq_refl)) as [H1 H2].
      destruct (tr_edge_ok P done st e I H1 H2) as (st' & -> & I'). simpl.
      destruct (IH _ _ I') as (st2 & -> & I2); [intros; apply H; right; auto|].
      exists st2. split; auto. eapply Inv_ext; eauto. simpl. intros f _ [?|[->|?]]; auto.
  Qed.

  (** result of the traversal: [c] is the family of shifts, [comp] the visited vertices,
      [es] the edges visited *)
  Record Traversal (t : list edge) (comp : list nat) (c : nat -> shiftv) (es : list edge) : Prop := {
    t_eq : t = map (relabel c) es;
    t_v0 : In v0 comp;
    t_c0 : c v0 = szero d;
    t_nd : NoDup comp;
    t_joined : forall v, In v comp -> is_node g (v, c v) /\ joined g (v0, szero d) (v, c v);
    t_closed : forall e, In e (dedges g) -> In (head e) comp -> In (tail e) comp;
    t_es_nd : NoDup es;
    t_es : forall e, In e es <-> In e (gedges g) /\ In (head e) comp;
    t_tree : exists tr, incl tr t /\ (forall e, In e tr -> shift e = szero d) /\ spanning_tree tr comp }.

  Lemma vertices_length : length (vertices g) <= 2 * length (gedges g).
  Proof.
    assert (H : length (vertices g) <= length (flat_map (fun e => [head e; tail e]) (gedges g))).
    { apply NoDup_incl_length; [apply usort_NoDup, nat_cmp_laws|]. intros v Hv. apply (usort_In _ nat_cmp_laws). exact Hv. }
    assert (E : forall l : list edge, length (flat_map (fun e => [head e; tail e]) l) = 2 * length l).
    { induction l; simpl; auto. simpl in IHl. lia. }
    rewrite E in H. auto.
  Qed.

  Theorem traverse_ok : exists t comp c es, traverse g v0 = Ret t /\ Traversal t comp c es.
  Proof.
    unfold traverse.
    set (Start := ([(v0, szero d)], [], [v0], []) : tstate).
    set (inv := fun st => exists done, Inv (fun e => In (head e) done) done st).
    set (m := fun st : tstate => let '(shifts, seen, queue, result) := st in
                (Z.of_nat (length (vertices g)) + 1 - (Z.of_nat (length shifts) - Z.of_nat (length queue)))%Z).
    assert (I0 : inv Start).
    { exists []. unfold Start. econstructor; try reflexivity.
      - repeat constructor. simpl. tauto.
      - simpl. rewrite Nat.eqb_refl. auto.
      - intros v s. simpl. destruct (Nat.eqb_spec v v0) as [->|]; [|discriminate]. intros [= <-].
        assert (is_node g (v0, szero d)) by (split; auto; apply szero_length). split; auto. apply joined_refl; auto.
      - intros e [].
      - constructor.
      - exists []. splits; auto.
        + intros e []. + intros e []. + constructor. + intros e [].
        + simpl. intros u [->|[]]. constructor.
      - simpl. tauto. }
    assert (Lkeys : forall P done shifts seen queue result, Inv P done (shifts, seen, queue, result) ->
              length shifts = length done + length queue /\ length done <= length (vertices g) /\ length shifts <= length (vertices g)).
    { intros P done shifts seen queue result [sh se qu re E K ND _ J _ _ _ _ _]. injection E as <- <- <- <-.
      assert (length shifts = length (map fst shifts)) by (rewrite map_length; auto).
      assert (length (map fst shifts) <= length (vertices g)).
      { apply NoDup_incl_length; auto. intros v Hv. destruct (aget_key _ _ Hv) as [s Es]. apply J in Es as [[Hs _] _]. apply vertices_In. auto. }
      rewrite K, app_length in *. lia. }
    assert (Body : forall st, inv st ->
        match tr_body g st with
        | Ret (inl s') => inv s' /\ (0 <= m s' < m st)%Z
        | Ret (inr r) => exists comp c es, Traversal r comp c es
        | _ => False
        end).
    { intros st (done & I). destruct (I) as [shifts seen queue result -> K ND I0' J SI SN R T D].
      destruct (Lkeys _ _ _ _ _ _ I) as (L1 & L2 & L3).
      unfold tr_body. destruct queue as [|v queue].
      - exists (map fst shifts), (cof shifts), seen. rewrite app_nil_r in K.
        assert (Jc : forall v, In v (map fst shifts) -> is_node g (v, cof shifts v) /\ joined g (v0, szero d) (v, cof shifts v)).
        { intros v Hv. destruct (aget_key _ _ Hv) as [s Es]. unfold cof. rewrite Es. apply J. auto. }
        assert (Kd : forall e, In e (dedges g) -> In (head e) (map fst shifts) -> In (tail e) (map fst shifts) /\ In (canonical e) seen).
        { intros e He Hh. rewrite K in Hh. auto. }
        constructor; auto.
        + apply (aget_key' _ _ _ I0').
        + unfold cof. rewrite I0'. auto.
        + intros e He Hh. apply Kd; auto.
        + intros e. split.
          * intros He. destruct (SI e He) as (A & B & _). auto.
          * intros [He Hh]. rewrite <- (c_canon _ C _ He). apply Kd; auto. apply dedges_In. eauto.
        + destruct T as (tr & T1 & T2 & T3 & T4 & T5 & T6). exists tr. splits; auto. unfold spanning_tree. splits; auto.
          * rewrite map_length. auto.
          * intros u w Hu Hw. eapply linked_trans; [apply linked_sym|]; eauto.
      - assert (Hv : In v (map fst shifts)) by (rewrite K; apply in_or_app; right; left; auto).
        destruct (aget_key _ _ Hv) as [s Es]. destruct (J _ _ Es) as [[Nv _] _]. simpl in Nv.
        rewrite (incidences_vertex g v Nv). cbn [bind].
        assert (I1 : Inv (fun e => In (head e) done) (done ++ [v]) (shifts, seen, queue, result)).
        { econstructor; eauto. rewrite <- app_assoc. auto. }
        destruct (inner_ok _ _ _ (inc g v) I1) as (st' & -> & I2).
        { intros e He. apply inc_In in He as [He <-]. split; auto. apply in_or_app. right; left; auto. }
        cbn [omap bind].
        assert (I3 : Inv (fun e => In (head e) (done ++ [v])) (done ++ [v]) st').
        { eapply Inv_ext; eauto. simpl. intros e He. rewrite in_app_iff. simpl. intros [?|[E|[]]]; auto. right. apply inc_In. auto. }
        split; [exists (done ++ [v]); auto|].
        destruct st' as [[[shifts' seen'] queue'] result']. destruct (Lkeys _ _ _ _ _ _ I3) as (L1' & L2' & L3').
        unfold m. rewrite app_length in *. simpl in *. lia. }
    destruct (loop_rule (tr_body g) inv m (fun r => exists comp c es, Traversal r comp c es) (length (gedges g) + 2) Start Body I0)
      as (t & Et & comp & c & es & Ht).
    - unfold m, Start. simpl length. pose proof vertices_length.
      assert (B : forall n, (2 * Z.of_nat n + 1 < 2 ^ Z.of_nat (n + 2))%Z).
      { clear. induction n; [reflexivity|]. rewrite Nat2Z.inj_succ. simpl Nat.add. rewrite Nat2Z.inj_succ, Z.pow_succ_r by lia. lia. }
      specialize (B (length (gedges g))). lia.
    - exists t, comp, c, es. auto.
  Qed.
End T.
