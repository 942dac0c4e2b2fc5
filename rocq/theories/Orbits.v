(** Proofs about orbits (Symmetries.v): partitions generated by permutations. *)
From Coq Require Import List ZArith Lia Bool PeanoNat QArith Qcanon Permutation Relations.
From Verif Require Import Base Partition Vec Elim Scalars Matrix LinAlg Geometry ZQ QcTac ModSolver ModSolve OrdSet Lattices PGraph Net PGraphBase Traverse Placement Placed Stability Periodic Symmetries Automorph Group SymFront.
From Verif Require GeomMC Props_PGraph Props_Geometry Props_Placement RankQ.
Import ListNotations.
Close Scope Q_scope. Close Scope Qc_scope.
Open Scope nat_scope.

Section Part.
  Context {T : Type} (eqb : T -> T -> bool) (Eq : forall x y, reflect (x = y) (eqb x y)).

  Lemma unite_list (step : part -> T -> outcome part) (h : T -> T) l : forall ops p, good eqb ops p -> (forall p v, In v l -> step p v = part_unite eqb p v (h v)) ->
    exists p', foldM step p l = Ret p' /\ good eqb (ops ++ map (fun v => OpUnite v (h v)) l) p'.
  Proof.
    induction l as [|v l IH]; intros ops p G H; cbn [foldM map].
    - exists p. rewrite app_nil_r. auto.
    - rewrite H by (simpl; auto). destruct (unite_correct eqb Eq p v (h v) (proj1 G)) as (p1 & E & W & S). rewrite E. cbn [bind].
      destruct (IH (ops ++ [OpUnite v (h v)]) p1) as (p' & E' & G').
      + eapply good_unite; eauto.
      + intros q x Hx. apply H. simpl; auto.
      + exists p'. split; auto. rewrite <- app_assoc in G'. auto.
  Qed.

  Lemma unite_lists {B} (step : B -> part -> T -> outcome part) (h : B -> T -> T) bs l : forall ops p, good eqb ops p ->
    (forall b p v, In b bs -> In v l -> step b p v = part_unite eqb p v (h b v)) ->
    exists p', foldM (fun p b => foldM (step b) p l) p bs = Ret p' /\ good eqb (ops ++ concat (map (fun b => map (fun v => OpUnite v (h b v)) l) bs)) p'.
  Proof.
    induction bs as [|b bs IH]; intros ops p G H; cbn [foldM map concat].
    - exists p. rewrite app_nil_r. auto.
    - destruct (unite_list (step b) (h b) l ops p G) as (p1 & E & G1); [intros; apply H; simpl; auto|]. rewrite E. cbn [bind].
      destruct (IH _ p1 G1) as (p' & E' & G'); [intros; apply H; simpl; auto|]. exists p'. split; auto. rewrite <- app_assoc in G'. auto.
  Qed.

  Lemma united_map (h : T -> T) l a b : united (map (fun v => OpUnite v (h v)) l) a b <-> In a l /\ b = h a.
  Proof.
    induction l as [|v l IH]; simpl; [tauto|]. rewrite IH. intuition (subst; auto).
  Qed.

  Lemma united_concat {B} (h : B -> T -> T) bs l x y : united (concat (map (fun b => map (fun v => OpUnite v (h b v)) l) bs)) x y <-> In x l /\ exists b, In b bs /\ y = h b x.
  Proof.
    induction bs as [|b bs IH]; cbn [map concat].
    - simpl. split; [tauto|]. intros (_ & b & [] & _).
    - rewrite united_app, united_map, IH. split.
      + intros [[I ->]|(I & b' & Hb & ->)]; split; auto; [exists b|exists b']; simpl; auto.
      + intros (I & b' & [<-|Hb] & ->); auto. right. eauto.
  Qed.

  (** the partition generated by a group of maps *)
  Lemma orbit_equiv {B} (dom : T -> Prop) (bs : list B) (h : B -> T -> T) ops :
    (forall b v, In b bs -> dom v -> dom (h b v)) ->
    (forall v, dom v -> exists b, In b bs /\ h b v = v) ->
    (forall a b v, In a bs -> In b bs -> dom v -> exists c, In c bs /\ h c v = h a (h b v)) ->
    (forall a v, In a bs -> dom v -> exists b, In b bs /\ h b (h a v) = v) ->
    (forall x y, united ops x y <-> dom x /\ exists b, In b bs /\ y = h b x) ->
    forall v w, dom v -> equivalent ops v w <-> exists b, In b bs /\ h b v = w.
  Proof.
    intros Hd Hi Hm Hv Hu v w Dv. split.
    - intros E. assert (X : v = w \/ (dom v /\ dom w /\ exists b, In b bs /\ h b v = w)).
      { clear Dv. induction E as [x y U|x|x y E IH|x y z E1 IH1 E2 IH2].
        - right. apply Hu in U as (Dx & b & Hb & ->). splits; eauto.
        - auto.
        - destruct IH as [->|(Dx & Dy & b & Hb & <-)]; [left; reflexivity|]. right. splits; auto.
        - destruct IH1 as [->|(Dx & Dy & b & Hb & <-)]; [exact IH2|]. destruct IH2 as [<-|(Dy' & Dz & c & Hc & <-)]; [right; eauto 6|].
          right. splits; auto. }
      destruct X as [->|(_ & _ & X)]; auto.
    - intros (b & Hb & <-). apply rst_step. apply Hu. eauto.
  Qed.

  (** a partition and its classes *)
  Definition partition_of (R : T -> T -> Prop) (elms : list T) (cls : list (list T)) : Prop :=
    Permutation (concat cls) elms /\ Forall (fun c => c <> []) cls /\
    (forall v w, In v elms -> In w elms -> ((exists c, In c cls /\ In v c /\ In w c) <-> R v w)) /\
    match elms with
    | [] => cls = []
    | v :: _ => exists c cls' r, cls = c :: cls' /\ c = v :: r /\ forall w, In w c <-> In w elms /\ R v w
    end.

  Lemma good_classes ops p elms : good eqb ops p ->
    exists p' cls, part_classes eqb p elms = Ret (p', cls) /\ partition_of (equivalent ops) elms cls /\ wf eqb p' /\ same_view p p'.
  Proof.
    intros (W & H1 & H2). set (rep := rep_of eqb p).
    assert (Hrep : forall a, is_rep p a (rep a)) by (intros a; apply rep_of_spec; auto).
    assert (Hr : forall a b, rep a = rep b <-> equivalent ops a b) by (intros a b; apply H1; auto).
    destruct (classes_correct eqb Eq p elms rep W Hrep) as (p' & E & W' & V). exists p'. eexists. split; [exact E|]. split; [|auto].
    unfold partition_of. splits.
    - apply class_list_perm; auto.
    - apply class_list_nonempty; auto.
    - intros v w Hv Hw. rewrite <- Hr. split.
      + intros (c & Hc & Iv & Iw). apply in_map_iff in Hc as (r & <- & _). unfold class_of in *. apply filter_In in Iv as [_ Iv]. apply filter_In in Iw as [_ Iw].
        destruct (Eq (rep v) r), (Eq (rep w) r); congruence.
      + intros Er. exists (class_of eqb rep elms (rep v)). splits.
        * apply in_map. apply firsts_In; auto. apply in_map; auto.
        * apply filter_In. split; auto. destruct (Eq (rep v) (rep v)); congruence.
        * apply filter_In. split; auto. destruct (Eq (rep w) (rep v)); congruence.
    - destruct elms as [|v elms]; auto. cbn [map firsts].
      eexists _, _, _. split; [reflexivity|]. split.
      + unfold class_of. cbn [filter]. destruct (Eq (rep v) (rep v)); [reflexivity|congruence].
      + intros w. unfold class_of. rewrite filter_In. rewrite <- Hr. destruct (Eq (rep w) (rep v)); split; intros [? ?]; split; auto; congruence.
  Qed.
End Part.

Section O.
  Variables (chk : Z -> outcome Z) (g : graph) (pos : nat -> point).
  Hypothesis C : constructed g.
  Hypothesis P : Placed chk g pos.
  Hypothesis Hd : 0 < gdim g.
  Hypothesis CC : forall a c, is_node g a -> is_node g c -> joined g a c.
  Hypothesis NE : exists v, is_vertex g v.
  Hypothesis LS : forall v, NoDup (map (evec (gdim g) pos) (inc g v)).
  Notation d := (gdim g).
  Notation ev := (evec d pos).

  Section Group.
    Variables (id : auto) (gens res : list auto).
    Hypothesis Aid : forall e, act id e = e.
    Hypothesis Avid : forall v, vact id v = v.
    Hypothesis Cl : is_closure g pos id gens res.
    Notation conn := (conn g CC).

    Lemma res_mul a b : In a res -> In b res -> exists c, In c res /\ (forall e, In e (dedges g) -> act c e = act a (act b e)) /\ (forall v, is_vertex g v -> vact c v = vact a (vact b v)).
    Proof.
      intros Ha Hb. destruct (cl_mul _ _ _ _ _ Cl a b Ha Hb) as (c & Hc & Kc). exists c. split; auto.
      assert (E : forall e, In e (dedges g) -> act c e = act a (act b e)).
      { intros e He. unfold key in Kc. rewrite map_map in Kc. exact (ext_in_map Kc e He). }
      split; auto. destruct (cl_valid _ _ _ _ _ Cl a Ha) as (ma & Va). destruct (cl_valid _ _ _ _ _ Cl b Hb) as (mb & Vb). destruct (cl_valid _ _ _ _ _ Cl c Hc) as (mc & Vc).
      intros v Hv. apply vertices_dedges in Hv as (e & He & <-). rewrite (valid_head g pos c mc), (valid_head g pos b mb), (valid_head g pos a ma) by (auto; eapply valid_act; eauto). rewrite E; auto.
    Qed.
    Lemma res_inv a : In a res -> exists b, In b res /\ (forall e, In e (dedges g) -> act b (act a e) = e /\ act a (act b e) = e) /\ (forall v, is_vertex g v -> vact b (vact a v) = v /\ vact a (vact b v) = v).
    Proof.
      intros Ha. destruct (cl_inv g pos conn LS id gens Aid res Cl a Ha) as (b & Hb & E1 & E2). exists b. split; auto.
      assert (E : forall e, In e (dedges g) -> act b (act a e) = e /\ act a (act b e) = e).
      { intros e He. unfold key in E1, E2. rewrite map_map in E1, E2. rewrite <- (map_id (dedges g)) in E1 at 2. rewrite <- (map_id (dedges g)) in E2 at 2.
        split; [exact (ext_in_map E2 e He)|exact (ext_in_map E1 e He)]. }
      split; auto. destruct (cl_valid _ _ _ _ _ Cl a Ha) as (ma & Va). destruct (cl_valid _ _ _ _ _ Cl b Hb) as (mb & Vb).
      intros v Hv. apply vertices_dedges in Hv as (e & He & <-). destruct (E e He) as [E3 E4]. split.
      - rewrite (valid_head g pos a ma), (valid_head g pos b mb) by (auto; eapply valid_act; eauto). rewrite E3; auto.
      - rewrite (valid_head g pos b mb), (valid_head g pos a ma) by (auto; eapply valid_act; eauto). rewrite E4; auto.
    Qed.

    Hypothesis Sy : symmetries chk g = Ret res.
    Lemma vertex_orbits_ok : exists cls, vertex_orbits chk g = Ret cls /\ partition_of (fun v w => exists a, In a res /\ vact a v = w) (vertices g) cls.
    Proof.
      unfold vertex_orbits. rewrite Sy. cbn [bind].
      destruct (unite_lists Nat.eqb Nat.eqb_spec (fun phi p v => do w <- unwrap (aget Nat.eqb v (vmap phi)); part_unite Nat.eqb p v w) vact res (vertices g) [] part_new) as (p & E & G).
      { apply good_new. }
      { intros a p v Ha Hv. destruct (cl_valid _ _ _ _ _ Cl a Ha) as (ma & Va). rewrite (valid_vget g pos a ma) by (auto; apply vertices_In; auto). reflexivity. }
      rewrite E. cbn [bind]. destruct (good_classes Nat.eqb Nat.eqb_spec _ p (vertices g) G) as (p' & cls & Ec & (H1 & H2 & H3 & H4) & _). rewrite Ec. cbn [omap bind snd].
      assert (R : forall v w, In v (vertices g) -> equivalent ([] ++ concat (map (fun b => map (fun v => OpUnite v (vact b v)) (vertices g)) res)) v w <-> exists a, In a res /\ vact a v = w).
      { intros v w Hv. apply (orbit_equiv (fun v => In v (vertices g)) res vact).
        - intros a x Ha Hx. destruct (cl_valid _ _ _ _ _ Cl a Ha) as (ma & Va). apply vertices_In. eapply valid_vact; eauto. apply vertices_In; auto.
        - intros x Hx. exists id. split; [apply (cl_id _ _ _ _ _ Cl)|apply Avid].
        - intros a b x Ha Hb Hx. destruct (res_mul a b Ha Hb) as (c & Hc & _ & E1). exists c. split; auto. apply E1. apply vertices_In; auto.
        - intros a x Ha Hx. destruct (res_inv a Ha) as (b & Hb & _ & E1). exists b. split; auto. apply E1. apply vertices_In; auto.
        - intros x y. cbn [app]. apply united_concat.
        - auto. }
      exists cls. split; auto. unfold partition_of. splits; auto.
      - intros v w Hv Hw. rewrite H3, R by auto. tauto.
      - destruct (vertices g) as [|v0 vs] eqn:Ev; auto. destruct H4 as (c & cls' & r & E1 & E2 & E3). exists c, cls', r. splits; auto.
        intros w. rewrite E3, R by (simpl; auto). tauto.
    Qed.

    Lemma edge_orbits_ok : exists cls, edge_orbits chk g = Ret cls /\ partition_of (fun e f => exists a, In a res /\ (act a e = f \/ act a e = rev f)) (gedges g) cls.
    Proof.
      unfold edge_orbits. rewrite Sy. cbn [bind]. set (h := fun a e => canonical (act a e)).
      assert (Hge : forall e, In e (gedges g) -> In e (dedges g)) by (intros e He; apply dedges_In; eauto).
      assert (Hc : forall e, In e (gedges g) -> canonical e = e) by (intros e He; apply (c_canon g C); auto).
      assert (Hcd : forall e, In e (dedges g) -> In (canonical e) (gedges g) /\ (canonical e = e \/ canonical e = rev e)).
      { intros e He. apply dedges_In in He as (x & Hx & [->| ->]).
        - rewrite Hc; auto.
        - rewrite canonical_rev, Hc by auto. split; auto. right. symmetry. apply rev_rev. }
      assert (Har : forall a e, In a res -> In e (dedges g) -> act a (rev e) = rev (act a e)).
      { intros a e Ha He. destruct (cl_valid _ _ _ _ _ Cl a Ha) as (ma & Va). apply (hom_rev g pos LS ma (vact a) (act a) e); auto. apply (va_hom _ _ _ _ Va). }
      destruct (unite_lists edge_eqb edge_eqb_spec (fun phi p e => do f <- unwrap (aget edge_eqb e (emap phi)); part_unite edge_eqb p e (canonical f)) h res (gedges g) [] part_new) as (p & E & G).
      { apply good_new. }
      { intros a p v Ha Hv. destruct (cl_valid _ _ _ _ _ Cl a Ha) as (ma & Va). rewrite (valid_eget g pos a ma) by auto. reflexivity. }
      rewrite E. cbn [bind]. destruct (good_classes edge_eqb edge_eqb_spec _ p (gedges g) G) as (p' & cls & Ec & (H1 & H2 & H3 & H4) & _). rewrite Ec. cbn [omap bind snd].
      assert (Din : forall a e, In a res -> In e (dedges g) -> In (act a e) (dedges g)).
      { intros a e Ha He. destruct (cl_valid _ _ _ _ _ Cl a Ha) as (ma & Va). eapply valid_act; eauto. }
      assert (Hh : forall a e, In a res -> In e (dedges g) -> h a (canonical e) = h a e).
      { intros a e Ha He. unfold h. destruct (Hcd e He) as [_ [->| ->]]; auto. rewrite Har, canonical_rev; auto. }
      assert (R : forall v w, In v (gedges g) -> equivalent ([] ++ concat (map (fun b => map (fun v => OpUnite v (h b v)) (gedges g)) res)) v w <-> exists a, In a res /\ h a v = w).
      { intros v w Hv. apply (orbit_equiv (fun v => In v (gedges g)) res h).
        - intros a x Ha Hx. apply Hcd. auto.
        - intros x Hx. exists id. split; [apply (cl_id _ _ _ _ _ Cl)|]. unfold h. rewrite Aid. auto.
        - intros a b x Ha Hb Hx. destruct (res_mul a b Ha Hb) as (c & Hc' & E1 & _). exists c. split; auto. unfold h at 3. rewrite Hh by auto. unfold h. rewrite E1; auto.
        - intros a x Ha Hx. destruct (res_inv a Ha) as (b & Hb & E1 & _). exists b. split; auto. unfold h at 2. rewrite Hh by auto. unfold h. rewrite (proj1 (E1 x (Hge x Hx))). auto.
        - intros x y. cbn [app]. apply united_concat.
        - auto. }
      assert (R' : forall v w, In v (gedges g) -> In w (gedges g) -> (exists a, In a res /\ h a v = w) <-> exists a, In a res /\ (act a v = w \/ act a v = rev w)).
      { intros v w Hv Hw. split; intros (a & Ha & X); exists a; split; auto.
        - unfold h in X. destruct (Hcd (act a v) (Din a v Ha (Hge v Hv))) as [_ [Y|Y]]; rewrite Y in X; auto. right. rewrite <- X, rev_rev. auto.
        - unfold h. destruct X as [-> | ->]; [auto|]. rewrite canonical_rev. auto. }
      exists cls. split; auto. unfold partition_of. splits; auto.
      - intros v w Hv Hw. rewrite H3, R, R' by auto. tauto.
      - destruct (gedges g) as [|v0 vs] eqn:Ev; auto. destruct H4 as (c & cls' & r & E1 & E2 & E3). exists c, cls', r. splits; auto.
        intros w. rewrite E3, R by (simpl; auto). split; intros [I X]; split; auto; apply R'; simpl; auto.
    Qed.
  End Group.

  (** *** translations *)
  Definition trans (t : nat -> nat) (F : edge -> edge) : Prop := hom g pos (fun x => x) t F.
  Lemma trans_id : trans (fun v => v) (fun e => e).
  Proof. intros e He. splits; auto. Qed.
  Lemma trans_comp t F t' F' : trans t F -> trans t' F' -> trans (fun v => t (t' v)) (fun e => F (F' e)).
  Proof.
    intros H H' e He. destruct (H' e He) as (A1 & A2 & A3 & A4). destruct (H _ A1) as (B1 & B2 & B3 & B4). splits; auto; congruence.
  Qed.
  Lemma trans_iter n t F : trans t F -> trans (iter n t) (iter n F).
  Proof.
    intros H. induction n as [|n IH]; [apply trans_id|]. cbn [iter]. exact (trans_comp t F _ _ H IH).
  Qed.
  Notation conn := (conn g CC).
  Lemma trans_eq t F t' F' u : trans t F -> trans t' F' -> is_vertex g u -> t u = t' u -> forall v, is_vertex g v -> t v = t' v.
  Proof. intros H H' Hu E. apply (hom_unique g pos conn LS (fun x => x) t F t' F' u H H' Hu E). Qed.
  Lemma trans_vertex t F v : trans t F -> is_vertex g v -> is_vertex g (t v).
  Proof. intros H. eapply hom_vertex; eauto. Qed.
  Lemma trans_inv t F : trans t F -> exists t' F', trans t' F' /\ forall v, is_vertex g v -> t (t' v) = v /\ t' (t v) = v.
  Proof.
    intros H. destruct NE as [v0 Hv0].
    destruct (periodic Nat.eq_dec t (vertices g)) with (x := v0) as (p & Hp & E).
    - intros y Hy. apply vertices_In. eapply trans_vertex; eauto. apply vertices_In; auto.
    - intros y z Hy Hz. apply (hom_f_inj g pos conn LS (fun x => x) t F H); auto; apply vertices_In; auto.
    - apply vertices_In; auto.
    - destruct p as [|p]; [lia|]. exists (iter p t), (iter p F). split; [apply trans_iter; auto|]. intros v Hv.
      assert (X : iter (S p) t v = v) by (apply (trans_eq (iter (S p) t) (iter (S p) F) (fun v => v) (fun e => e) v0); auto using trans_iter, trans_id).
      split; [exact X|]. rewrite <- iter_S'. exact X.
  Qed.
  Lemma trans_delta t F : hom g pos (mapp d Matrix.delta) t F <-> trans t F.
  Proof. split; apply hom_ext; intros x Lx; [|symmetry]; apply mapp_delta; auto. Qed.

  Lemma good_view {T} (eqb : T -> T -> bool) ops p p' : good eqb ops p -> wf eqb p' -> same_view p p' -> good eqb ops p'.
  Proof.
    intros (W & H1 & H2) W' V. splits; auto.
    - split; auto. split; [intros a b ra rb Ha Hb; apply H1; apply V; auto|intros a ra Ha; apply H2; apply V; auto].
  Qed.

  Definition RI (v0 : nat) (ops : list op) (don : list nat) : Prop :=
    (forall x y, united ops x y -> exists t F, trans t F /\ y = t x /\ is_vertex g x /\ forall z, is_vertex g z -> equivalent ops z (t z)) /\
    forall u t F, In u don -> trans t F -> t v0 = u -> forall z, is_vertex g z -> equivalent ops z (t z).

  Lemma absorbed v0 ops don a b : RI v0 ops don -> equivalent ops a b ->
    a = b \/ (is_vertex g a /\ is_vertex g b /\ exists t F, trans t F /\ t a = b /\ forall z, is_vertex g z -> equivalent ops z (t z)).
  Proof.
    intros [H _] E. pose proof E as E'. clear E. induction E' as [x y U|x|x y E IH|x y z E1 IH1 E2 IH2].
    - right. destruct (H x y U) as (t & F & Ht & -> & Hx & Hz). splits; auto; [eapply trans_vertex; eauto|]. exists t, F. auto.
    - auto.
    - destruct IH as [->|(Hx & Hy & t & F & Ht & <- & Hz)]; [auto|]. right. splits; auto. destruct (trans_inv t F Ht) as (t' & F' & Ht' & I).
      exists t', F'. splits; auto; [apply I; auto|]. intros z Hz'. apply rst_sym. pose proof (Hz (t' z) (trans_vertex t' F' z Ht' Hz')) as X.
      rewrite (proj1 (I z Hz')) in X. exact X.
    - destruct IH1 as [->|(Hx & Hy & t & F & Ht & <- & Hz)]; [exact IH2|].
      destruct IH2 as [<-|(_ & Hy' & t' & F' & Ht' & <- & Hz')]; [right; splits; auto; exists t, F; auto|].
      right. splits; auto. exists (fun v => t' (t v)), (fun e => F' (F e)). splits; auto; [apply (trans_comp t' F' t F); auto|].
      intros w Hw. apply rst_trans with (t w); [apply Hz; auto|]. apply Hz'. eapply trans_vertex; eauto.
  Qed.

  Lemma equivalent_app {T} (o1 o2 : list (op (T := T))) a b : equivalent o1 a b -> equivalent (o1 ++ o2) a b.
  Proof. apply clos_mono. intros x y. rewrite united_app. auto. Qed.

  Lemma raw_ok : exists p ops, raw_translational_equivalences chk g = Ret p /\ good Nat.eqb ops p /\
    forall v w, is_vertex g v -> equivalent ops v w <-> exists t F, trans t F /\ t v = w.
  Proof.
    unfold raw_translational_equivalences. rewrite aff_identity_am by auto. cbn [bind].
    destruct (vertices g) as [|v0 vs0] eqn:Ev. { destruct NE as [v Hv]. apply vertices_In in Hv. rewrite Ev in Hv. destruct Hv. }
    assert (Hv0 : is_vertex g v0) by (apply vertices_In; rewrite Ev; simpl; auto). rewrite <- Ev. cbn [nth_error unwrap bind].
    match goal with |- exists p ops, foldM ?st _ _ = _ /\ _ => set (step := st) end.
    assert (Gen : forall vs, (forall v, In v vs -> is_vertex g v) -> forall p ops don, good Nat.eqb ops p -> RI v0 ops don ->
      exists p' ops', foldM step p vs = Ret p' /\ good Nat.eqb ops' p' /\ RI v0 ops' (don ++ vs)).
    { induction vs as [|v vs IH]; intros Hvs p ops don G I; cbn [foldM].
      - exists p, ops. rewrite app_nil_r. auto.
      - assert (Hv : is_vertex g v) by (apply Hvs; simpl; auto).
        assert (St : exists p' ops', step p v = Ret p' /\ good Nat.eqb ops' p' /\ RI v0 ops' (don ++ [v])).
        { unfold step. rewrite Ev. cbn [nth_error unwrap bind].
          destruct (find_correct Nat.eqb Nat.eqb_spec p v0 (proj1 G)) as (p1 & r0 & -> & W1 & V1 & R0). cbn [bind].
          pose proof (good_view _ ops p p1 G W1 V1) as G1.
          destruct (find_correct Nat.eqb Nat.eqb_spec p1 v W1) as (p2 & r & -> & W2 & V2 & R). cbn [bind].
          pose proof (good_view _ ops p1 p2 G1 W2 V2) as G2.
          destruct (Nat.eqb_spec r0 r) as [Er|Er].
          - exists p2, ops. splits; auto. split; [apply I|]. intros u t F Hu Ht Eu z Hz. apply in_app_or in Hu as [Hu|[<-|[]]]; [apply (proj2 I u t F); auto|].
            assert (E0 : equivalent ops v0 v) by (apply (proj1 (proj2 G1) v0 v r0 r); auto; apply (proj1 V1); auto).
            destruct (absorbed v0 ops don v0 v I E0) as [E1|(_ & _ & t1 & F1 & Ht1 & E1 & Hz1)].
            + rewrite (trans_eq t F (fun v => v) (fun e => e) v0) by (auto using trans_id; congruence). apply rst_refl.
            + rewrite (trans_eq t F t1 F1 v0) by (auto; congruence). auto.
          - destruct (automorphism_valid chk g pos C P CC LS Matrix.delta (fun _ => 0%Qc) v0 v (linj_delta d) Hv0) as (iso & Ea & Ha).
            change (Vec.r0 (R := Qc)) with 0%Qc. rewrite Ea. cbn [bind]. destruct iso as [iso|].
            + destruct Ha as (Hh & _ & E0 & _ & Va). specialize (Va eq_refl). apply trans_delta in Hh. rewrite <- Ev.
              destruct (unite_list Nat.eqb Nat.eqb_spec (fun p w => do x <- unwrap (aget Nat.eqb w (vmap iso)); part_unite Nat.eqb p w x) (vact iso) (vertices g) ops p2 G2) as (p' & E & G').
              { intros q w Hw. rewrite (valid_vget g pos iso Matrix.delta) by (auto; apply vertices_In; auto). reflexivity. }
              exists p'. eexists. split; [exact E|]. split; [exact G'|].
              set (ops' := ops ++ map (fun v => OpUnite v (vact iso v)) (vertices g)).
              assert (New : forall z, is_vertex g z -> equivalent ops' z (vact iso z)).
              { intros z Hz. apply rst_step. apply united_app. right. apply united_map. split; auto. apply vertices_In; auto. }
              split.
              * intros x y U. apply united_app in U as [U|U].
                -- destruct I as [I _]. destruct (I x y U) as (t & F & Ht & -> & Hx & Hz). exists t, F. splits; auto. intros z Hz'. apply equivalent_app; auto.
                -- apply united_map in U as [Hx ->]. exists (vact iso), (act iso). splits; auto. apply vertices_In; auto.
              * intros u t F Hu Ht Eu z Hz. apply in_app_or in Hu as [Hu|[<-|[]]]; [apply equivalent_app; apply (proj2 I u t F); auto|].
                rewrite (trans_eq t F (vact iso) (act iso) v0) by (auto; congruence). auto.
            + exists p2, ops. splits; auto. split; [apply I|]. intros u t F Hu Ht Eu z Hz. apply in_app_or in Hu as [Hu|[<-|[]]]; [apply (proj2 I u t F); auto|].
              exfalso. apply trans_delta in Ht. apply (Ha t F Ht). auto. }
        destruct St as (p1 & ops1 & E1 & G1 & I1). rewrite E1. cbn [bind].
        destruct (IH ltac:(intros x Hx; apply Hvs; simpl; auto) p1 ops1 (don ++ [v]) G1 I1) as (p' & ops' & E' & G' & I').
        exists p', ops'. splits; auto. rewrite <- app_assoc in I'. auto. }
    destruct (Gen (vertices g)) with (p := part_new (T := nat)) (ops := @nil (op (T := nat))) (don := @nil nat) as (p & ops & E & G & I).
    - intros v. apply vertices_In.
    - apply good_new.
    - split; [intros x y []|intros u t F []].
    - exists p, ops. splits; auto. intros v w Hv. split.
      + intros Eq. destruct (absorbed v0 ops _ v w I Eq) as [->|(_ & _ & t & F & Ht & Et & _)]; [|eauto]. exists (fun v => v), (fun e => e). split; [apply trans_id|auto].
      + intros (t & F & Ht & <-). apply (proj2 I (t v0) t F); auto. cbn [app]. apply vertices_In. eapply trans_vertex; eauto.
  Qed.

  (** *** translational orbits *)
  Definition trel (v w : nat) : Prop := exists t F, trans t F /\ t v = w.

  Lemma partition_ext {T} (R R' : T -> T -> Prop) elms cls : (forall v w, In v elms -> (R v w <-> R' v w)) -> partition_of R elms cls -> partition_of R' elms cls.
  Proof.
    intros H (A & B & D & E). unfold partition_of. splits; auto.
    - intros v w Hv Hw. rewrite D, H by auto. tauto.
    - destruct elms as [|v elms]; auto. destruct E as (c & cls' & r & E1 & E2 & E3). exists c, cls', r. splits; auto. intros w. rewrite E3, H by (simpl; auto). tauto.
  Qed.

  Lemma same_place_ret v0 r : (forall v, In v (v0 :: r) -> is_vertex g v) ->
    same_place chk g (v0 :: r) = Ret (existsb (fun v => p_eqb (mod1 (pos v)) (mod1 (pos v0))) r).
  Proof.
    intros H. unfold same_place. cbn [nth_error unwrap bind skipn]. rewrite (pl_ret _ _ _ P) by (apply H; simpl; auto). cbn [bind].
    assert (G : forall v, In v r -> is_vertex g v) by (intros v Hv; apply H; simpl; auto). clear H. induction r as [|v r IH]; auto.
    rewrite (pl_ret _ _ _ P) by (apply G; simpl; auto). cbn [bind existsb]. destruct (p_eqb _ _); auto. cbn [orb]. apply IH. intros x Hx. apply G. simpl; auto.
  Qed.

  Lemma vertices_hd : exists v0 vs, vertices g = v0 :: vs /\ is_vertex g v0 /\ pos v0 = repeat 0%Qc d.
  Proof.
    destruct (vertices g) as [|v0 vs] eqn:Ev. { destruct NE as [v Hv]. apply vertices_In in Hv. rewrite Ev in Hv. destruct Hv. }
    exists v0, vs. splits; auto; [apply vertices_In; rewrite Ev; simpl; auto|]. pose proof (pl_0 _ _ _ P) as E. rewrite Ev in E. auto.
  Qed.

  Lemma mod1_zero n : mod1 (repeat 0%Qc n) = repeat 0%Qc n.
  Proof. unfold mod1. induction n as [|n IH]; cbn [repeat map]; auto. rewrite IH. f_equal. Qed.

  Lemma qrem1_zero x : qrem1 x = 0%Qc -> exists z, x = ZQ z.
  Proof. unfold qrem1. intros H. exists (Z.quot (Qnum x) (Zpos (Qden x))). rewrite <- (Qcplus_0_l (ZQ _)), <- H. ring. Qed.

  Lemma mod1_differ p : mod1 p = repeat 0%Qc d -> length p = d -> Props_Placement.differ_by_integers p (repeat 0%Qc d).
  Proof.
    intros E L. unfold Props_Placement.differ_by_integers. rewrite repeat_length. split; auto. intros k Hk.
    assert (X : nth k (mod1 p) 0%Qc = 0%Qc) by (rewrite E; clear; revert k; induction d; destruct k; cbn; auto).
    unfold mod1 in X. rewrite (nth_indep _ 0%Qc (qrem1 0%Qc)), map_nth in X by (rewrite map_length; auto).
    apply qrem1_zero in X as [z X]. exists z. unfold Props_Placement.coord. rewrite X.
    replace (nth k (repeat 0%Qc d) 0%Qc) with 0%Qc by (clear; revert k; induction d; destruct k; cbn; auto). ring.
  Qed.

  Lemma raw_orbits_ok : exists p p' cls ops v0 r cls', vertices g <> [] /\
    raw_translational_equivalences chk g = Ret p /\ part_classes Nat.eqb p (vertices g) = Ret (p', cls) /\
    good Nat.eqb ops p' /\ (forall v w, is_vertex g v -> equivalent ops v w <-> trel v w) /\
    partition_of trel (vertices g) cls /\ cls = (v0 :: r) :: cls' /\ pos v0 = repeat 0%Qc d /\ NoDup (v0 :: r) /\ (forall v, In v (v0 :: r) -> is_vertex g v) /\ hd 0 (vertices g) = v0.
  Proof.
    destruct raw_ok as (p & ops & E & G & R). destruct (good_classes Nat.eqb Nat.eqb_spec ops p (vertices g) G) as (p' & cls & Ec & Hp & W & V).
    destruct vertices_hd as (v0 & vs & Ev & Hv0 & E0).
    assert (Hp' : partition_of trel (vertices g) cls) by (eapply partition_ext; eauto; intros v w Hv; apply R, vertices_In; auto).
    pose proof Hp' as (A & B & D & F). rewrite Ev in F. destruct F as (c & cls' & r & E1 & E2 & E3). subst c.
    exists p, p', cls, ops, v0, r, cls'. splits; auto.
    - rewrite Ev. discriminate.
    - eapply good_view; eauto.
    - assert (ND : NoDup (concat cls)) by (eapply Permutation_NoDup; [apply Permutation_sym; eauto|]; apply (usort_NoDup _ nat_cmp_laws)).
      rewrite E1 in ND. cbn [concat] in ND. revert ND. generalize (concat cls'). generalize (v0 :: r). clear. induction l as [|x l IH]; intros m ND; [constructor|].
      inversion ND as [|? ? N ND']; subst. constructor; [|eapply IH; eauto]. intros I. apply N. apply in_or_app; auto.
    - intros v Hv. apply vertices_In. rewrite Ev. apply E3. auto.
    - rewrite Ev. auto.
  Qed.

  Lemma not_ladder_orbits : is_locally_stable chk g = Ret true -> is_ladder chk g = Ret false -> fits chk g ->
    exists cls v0 r cls', translational_orbits chk g = Ret cls /\ partition_of trel (vertices g) cls /\ cls = (v0 :: r) :: cls' /\ hd 0 (vertices g) = v0 /\
      (forall v, In v (v0 :: r) <-> is_vertex g v /\ trel v0 v).
  Proof.
    intros St La Fi. destruct raw_orbits_ok as (p & p' & cls & ops & v0 & r & cls' & Nv & E & Ec & G & R & Hp & Ecl & E0 & ND & Hvs & Hhd).
    assert (Sp : existsb (fun v => p_eqb (mod1 (pos v)) (mod1 (pos v0))) r = false).
    { unfold is_ladder in La. rewrite St in La. cbn [bind assert] in La.
      destruct (Props_Placement.C34_is_stable chk g v0 (pos v0) C Hd Fi) as (b & Eb & Hb); [apply (pl_ret _ _ _ P); apply Hvs; simpl; auto|].
      rewrite Eb in La. cbn [bind] in La. destruct b.
      - apply not_true_is_false. intros X. apply existsb_exists in X as (v & Hv & X). destruct (p_eqb_spec (mod1 (pos v)) (mod1 (pos v0))) as [Em|]; [|discriminate].
        assert (N : v <> v0) by (inversion ND; congruence).
        assert (Iv : is_vertex g v) by (apply Hvs; simpl; auto). assert (Iv0 : is_vertex g v0) by (apply Hvs; simpl; auto).
        apply (proj1 Hb eq_refl v v0 (pos v) (pos v0)); auto; try (apply (pl_ret _ _ _ P); auto).
        rewrite E0, mod1_zero in Em. rewrite E0. pose proof (pl_len _ _ _ P v Iv) as Lv. revert Em Lv. clear. 
        intros Em Lv. apply mod1_differ; auto.
      - unfold raw_translational_orbits in La. rewrite E in La. cbn [bind] in La. rewrite Ec in La. cbn [omap bind snd] in La. rewrite Ecl in La.
        cbn [nth_error unwrap bind] in La. rewrite same_place_ret in La by auto. congruence. }
    unfold translational_orbits. rewrite St. cbn [bind assert]. unfold translational_equivalences. rewrite E. cbn [bind]. rewrite Ec. cbn [bind]. rewrite Ecl.
    cbn [nth_error unwrap bind]. rewrite (pl_ret _ _ _ P) by (apply Hvs; simpl; auto). cbn [bind]. rewrite aff_identity_am by auto. cbn [bind].
    rewrite same_place_ret by auto. rewrite Sp. cbn [bind].
    destruct (good_classes Nat.eqb Nat.eqb_spec ops p' (vertices g) G) as (p2 & cls2 & Ec2 & Hp2 & _). rewrite Ec2. cbn [omap bind snd].
    assert (Hp2' : partition_of trel (vertices g) cls2) by (eapply partition_ext; eauto; intros v w Hv; apply R, vertices_In; auto).
    pose proof Hp2' as (_ & _ & _ & F). destruct (vertices g) as [|v0' vs] eqn:Ev; [congruence|]. destruct F as (c & cls2' & r2 & F1 & F2 & F3). cbn [hd] in Hhd. subst c v0'.
    exists cls2, v0, r2, cls2'. splits; auto. intros v. rewrite F3, <- Ev, vertices_In. tauto.
  Qed.
End O.
