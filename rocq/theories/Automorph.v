(** Proofs about the search for an automorphism (Symmetries.v). *)
From Coq Require Import List ZArith Lia Bool PeanoNat QArith Qcanon.
From Verif Require Import Base Partition Vec Elim Scalars Matrix LinAlg Geometry ZQ QcTac ModSolver ModSolve OrdSet Lattices PGraph Net PGraphBase Traverse Placement Placed Stability Periodic Symmetries.
Import ListNotations.
Close Scope Q_scope. Close Scope Qc_scope.
Open Scope nat_scope.

Section A.
  Variables (chk : Z -> outcome Z) (g : graph) (pos : nat -> point).
  Hypothesis C : constructed g.
  Hypothesis P : Placed chk g pos.
  Hypothesis conn : forall v w, is_vertex g v -> is_vertex g w -> linked (gedges g) v w.
  Hypothesis LS : forall v, NoDup (map (evec (gdim g) pos) (inc g v)).
  Notation d := (gdim g).
  Notation ev := (evec d pos).

  Lemma same_edge e e' : In e (dedges g) -> In e' (dedges g) -> head e = head e' -> ev e = ev e' -> e = e'.
  Proof. intros He He' Eh Ev. apply (NoDup_map_inj ev (inc g (head e))); auto; apply inc_In; auto. Qed.

  Lemma only_spec x w e : only g pos x (inc g w) = Some e <-> In e (inc g w) /\ ev e = x.
  Proof.
    unfold only. split.
    - intros H. assert (I : In e (filter (fun f => p_eqb x (ev f)) (inc g w))).
      { destruct (filter _ _) as [|a [|b l]]; try discriminate. injection H as ->. simpl; auto. }
      apply filter_In in I as [I E]. split; auto. destruct (p_eqb_spec x (ev e)); congruence.
    - intros [I E].
      assert (H : forall f, In f (filter (fun f => p_eqb x (ev f)) (inc g w)) -> f = e).
      { intros f Hf. apply filter_In in Hf as [Hf Ef]. destruct (p_eqb_spec x (ev f)) as [Ex|]; [|discriminate].
        apply (NoDup_map_inj ev (inc g w)); auto; congruence. }
      assert (He : In e (filter (fun f => p_eqb x (ev f)) (inc g w))).
      { apply filter_In. split; auto. destruct (p_eqb_spec x (ev e)); congruence. }
      assert (ND : NoDup (filter (fun f => p_eqb x (ev f)) (inc g w))) by (apply NoDup_filter; apply (NoDup_map_inv _ _ (LS w))).
      destruct (filter _ _) as [|a [|b l]]; [destruct He|rewrite (H a); simpl; auto|].
      exfalso. inversion ND as [|? ? N _]; subst. apply N. rewrite (H a), (H b); simpl; auto.
  Qed.

  Section M.
    Variables (aff : affmap) (ap : point -> point).
    Hypothesis Hap : forall v, length v = d -> aff_apply aff v = Ret (ap v).

    (** maps of vertices and directed edges that agree with [ap] on the edge vectors *)
    Definition hom (f : nat -> nat) (F : edge -> edge) : Prop :=
      forall e, In e (dedges g) -> In (F e) (dedges g) /\ head (F e) = f (head e) /\ tail (F e) = f (tail e) /\ ev (F e) = ap (ev e).

    Lemma hom_vertex f F v : hom f F -> is_vertex g v -> is_vertex g (f v).
    Proof.
      intros H Hv. apply vertices_dedges in Hv as (e & He & <-). destruct (H e He) as (I & E & _). rewrite <- E. apply dedges_vertices; auto.
    Qed.

    Definition im (w : nat) (e : edge) : option edge := if is_vertex_dec g w then only g pos (ap (ev e)) (inc g w) else None.
    Lemma im_spec w e e' : im w e = Some e' <-> In e' (inc g w) /\ ev e' = ap (ev e).
    Proof.
      unfold im. destruct (is_vertex_dec g w) as [Hw|Hw]; [apply only_spec|]. split; [discriminate|].
      intros [I _]. apply inc_nil in Hw. rewrite Hw in I. destruct I.
    Qed.

    Lemma au_edges_ret w es em q : incl es (dedges g) ->
      exists r, au_edges chk g aff w es em q = Ret r /\
        (r = None -> exists e, In e es /\ im w e = None) /\
        forall em' q', r = Some (em', q') -> exists F, (forall e, In e es -> im w e = Some (F e)) /\
          q' = q ++ map (fun e => (tail e, tail (F e))) es /\
          (forall e, aget edge_eqb e em' = if memb edge_eqb e es then Some (F e) else aget edge_eqb e em) /\
          (NoDup (map fst em) -> NoDup (map fst em')).
    Proof.
      revert em q; induction es as [|e es IH]; intros em q I; cbn [au_edges].
      - eexists. splits; [reflexivity|discriminate|]. intros em' q' [= <- <-]. exists (fun e => e). splits; simpl; auto; try tauto.
        rewrite app_nil_r; auto.
      - rewrite (edge_vector_ret chk g pos) by (auto; apply I; simpl; auto). cbn [bind].
        rewrite Hap by apply evec_length. cbn [bind]. rewrite (edge_by_unique_delta_ret chk g pos C P). cbn [bind]. fold (im w e).
        destruct (im w e) as [e'|] eqn:Ei.
        + destruct (IH (aset edge_eqb e e' em) (q ++ [(tail e, tail e')])) as (r & Er & N & S); [intros x Hx; apply I; simpl; auto|].
          exists r. splits; auto.
          * intros Hr. destruct (N Hr) as (x & Hx & Ex). exists x. simpl; auto.
          * intros em' q' Hr. destruct (S em' q' Hr) as (F & F1 & F2 & F3 & F4).
            exists (fun x => if edge_eqb x e then e' else F x).
            assert (Ee : forall x, In x es -> im w x = Some (if edge_eqb x e then e' else F x)).
            { intros x Hx. destruct (edge_eqb_spec x e) as [->|]; auto. }
            splits; auto.
            -- intros x [<-|Hx]; auto. rewrite Ei. destruct (edge_eqb_spec e e); congruence.
            -- rewrite F2, <- app_assoc. f_equal. simpl. destruct (edge_eqb_spec e e); [|congruence]. f_equal.
               apply map_ext_in. intros x Hx. f_equal. specialize (Ee x Hx). rewrite F1 in Ee by auto. congruence.
            -- intros x. rewrite F3, (aget_aset _ edge_eqb_spec). unfold memb; simpl; fold (memb edge_eqb x es).
               destruct (edge_eqb_spec x e) as [->|]; simpl; auto. destruct (memb edge_eqb e es) eqn:M; auto.
               apply (memb_spec _ edge_eqb_spec) in M. rewrite <- (F1 e M). auto.
            -- intros ND. apply F4. apply (aset_NoDup _ edge_eqb_spec); auto.
        + exists None. splits; auto; [|discriminate]. intros _. exists e. simpl; auto.
    Qed.

    Variables (src img : nat).
    Hypothesis Hsrc : is_vertex g src.

    Record AI (st : austate) : Prop := {
      ai_vnd : NoDup (map fst (fst (fst st)));
      ai_end : NoDup (map fst (snd (fst st)));
      ai_dom : forall v w, aget Nat.eqb v (fst (fst st)) = Some w -> is_vertex g v /\
        forall e, In e (inc g v) -> exists e', aget edge_eqb e (snd (fst st)) = Some e' /\ im w e = Some e' /\
          (In (tail e, tail e') (snd st) \/ aget Nat.eqb (tail e) (fst (fst st)) = Some (tail e'));
      ai_em : forall e e', aget edge_eqb e (snd (fst st)) = Some e' -> In e (dedges g) /\ aget Nat.eqb (head e) (fst (fst st)) <> None;
      ai_seed : In (src, img) (snd st) \/ aget Nat.eqb src (fst (fst st)) = Some img;
      ai_q : forall v w, In (v, w) (snd st) -> is_vertex g v;
      ai_hom : forall f F, hom f F -> f src = img -> (forall v w, In (v, w) (snd st) -> w = f v) /\
        (forall v w, aget Nat.eqb v (fst (fst st)) = Some w -> w = f v) }.

    Definition am_measure (st : austate) : Z :=
      (Z.of_nat (length (snd st)) + Z.of_nat (length (filter (fun e => match aget Nat.eqb (head e) (fst (fst st)) with None => true | _ => false end) (dedges g))))%Z.

    (** the result holds the maps f and F *)
    Definition holds (a : auto) (f : nat -> nat) (F : edge -> edge) : Prop :=
      NoDup (map fst (vmap a)) /\ NoDup (map fst (emap a)) /\
      (forall v, aget Nat.eqb v (vmap a) = if is_vertex_dec g v then Some (f v) else None) /\
      (forall e, aget edge_eqb e (emap a) = if memb edge_eqb e (dedges g) then Some (F e) else None).
    Definition au_post (r : option auto) : Prop :=
      match r with
      | None => forall f F, hom f F -> f src <> img
      | Some a => xform a = aff /\ exists f F, hom f F /\ f src = img /\ holds a f F
      end.

    Lemma filter_split {A} (p q r : A -> bool) l : (forall x, In x l -> p x = q x || r x) -> (forall x, In x l -> q x && r x = false) ->
      length (filter p l) = length (filter q l) + length (filter r l).
    Proof.
      induction l as [|x l IH]; intros H1 H2; auto. simpl. specialize (IH (fun y Hy => H1 y (or_intror Hy)) (fun y Hy => H2 y (or_intror Hy))).
      specialize (H1 x (or_introl eq_refl)). specialize (H2 x (or_introl eq_refl)). rewrite H1.
      destruct (q x), (r x); simpl in *; try discriminate; lia.
    Qed.

    Lemma au_step st : AI st ->
      match au_body chk g aff st with
      | Ret (inl st') => AI st' /\ (0 <= am_measure st' < am_measure st)%Z
      | Ret (inr r) => au_post r
      | _ => False
      end.
    Proof.
      destruct st as [[vm em] q]. intros [Vnd End_ Dom Em Seed Q H]. unfold am_measure in *. cbn [fst snd] in *. unfold au_body.
      destruct q as [|[v w] q].
      - destruct Seed as [[]|Seed].
        assert (All : forall u, is_vertex g u -> exists x, aget Nat.eqb u vm = Some x).
        { intros u Hu. pose proof (conn src u Hsrc Hu) as CN. induction CN as [|x y e L IH He Ho]; [eauto|].
          assert (Hx : is_vertex g x) by (exists e; split; auto; intuition).
          destruct (IH Hx) as (x' & Ex). destruct (Dom x x' Ex) as [_ D]. destruct Ho as [[<- <-]|[<- <-]].
          - destruct (D e) as (e' & _ & _ & [[]|Et]); eauto. apply inc_In. split; auto. apply dedges_In; eauto.
          - destruct (D (rev e)) as (e' & _ & _ & [[]|Et]); eauto. apply inc_In. split; auto. apply dedges_In; eauto. }
        split; auto. exists (fun u => match aget Nat.eqb u vm with Some x => x | None => 0 end),
          (fun e => match aget edge_eqb e em with Some x => x | None => e end).
        assert (E : forall e, In e (dedges g) -> exists e' x y, aget edge_eqb e em = Some e' /\ aget Nat.eqb (head e) vm = Some x /\ im x e = Some e' /\
            aget Nat.eqb (tail e) vm = Some y /\ y = tail e').
        { intros e He. destruct (All (head e)) as (x & Ex); [apply dedges_vertices; auto|]. destruct (Dom _ _ Ex) as [_ D].
          destruct (D e) as (e' & E1 & E2 & [[]|E3]); [apply inc_In; auto|]. exists e', x, (tail e'). auto. }
        splits.
        + intros e He. destruct (E e He) as (e' & x & y & E1 & E2 & E3 & E4 & ->). rewrite E1, E2, E4.
          apply im_spec in E3 as [I3 Ev]. apply inc_In in I3 as [I3 Eh]. auto.
        + rewrite Seed. auto.
        + unfold holds; splits; auto.
          * intros u. cbn [vmap]. destruct (is_vertex_dec g u) as [Hu|Hu].
            -- destruct (All u Hu) as (x & ->). auto.
            -- destruct (aget Nat.eqb u vm) as [x|] eqn:Ex; auto. destruct (Dom u x Ex); tauto.
          * intros e. cbn [emap]. destruct (memb edge_eqb e (dedges g)) eqn:M.
            -- apply (memb_spec _ edge_eqb_spec) in M. destruct (E e M) as (e' & x & y & E1 & _). rewrite E1. auto.
            -- apply (memb_false _ edge_eqb_spec) in M. destruct (aget edge_eqb e em) as [e'|] eqn:E1; auto. destruct (Em e e' E1); tauto.
      - destruct (aget Nat.eqb v vm) as [x|] eqn:Ev.
        + destruct (Nat.eqb_spec x w) as [->|N].
          * split; [|cbn [fst snd length]; lia]. constructor; cbn [fst snd]; auto.
            -- intros u y Eu. destruct (Dom u y Eu) as [Hu D]. split; auto. intros e He. destruct (D e He) as (e' & E1 & E2 & [[E3|E3]|E3]); exists e'; splits; auto.
               injection E3 as E3 E4. right. rewrite <- E3, Ev. congruence.
            -- destruct Seed as [[E|E]|E]; auto. injection E as -> ->. auto.
            -- intros u y I. apply (Q u y). simpl; auto.
            -- intros f F Hf Es. destruct (H f F Hf Es) as [H1 H2]. split; auto. intros; apply H1; simpl; auto.
          * cbn. intros f F Hf Es. destruct (H f F Hf Es) as [H1 H2]. apply N. rewrite (H2 v x), (H1 v w); simpl; auto.
        + assert (Hv : is_vertex g v) by (apply (Q v w); simpl; auto).
          rewrite incidences_vertex by auto. cbn [bind].
          destruct (au_edges_ret w (inc g v) em q (inc_incl g v)) as (r & Er & HN & HS). rewrite Er. cbn [bind].
          destruct r as [[em' q']|].
          * destruct (HS em' q' eq_refl) as (F & F1 & -> & F3 & F4). clear HN HS Er.
            assert (Hi : forall e, memb edge_eqb e (inc g v) = true <-> In e (dedges g) /\ head e = v) by (intros e; rewrite (memb_spec _ edge_eqb_spec); apply inc_In).
            assert (AV : forall u, aget Nat.eqb u (aset Nat.eqb v w vm) = if u =? v then Some w else aget Nat.eqb u vm) by (intros; apply (aget_aset _ Nat.eqb_spec)).
            assert (QI : forall e, In e (inc g v) -> In (tail e, tail (F e)) (q ++ map (fun e => (tail e, tail (F e))) (inc g v))).
            { intros e He. apply in_or_app. right. apply in_map_iff. eauto. }
            split.
            -- constructor; cbn [fst snd].
               ++ apply (aset_NoDup _ Nat.eqb_spec); auto.
               ++ auto.
               ++ intros u y Eu. rewrite AV in Eu. destruct (Nat.eqb_spec u v) as [->|Nu].
                  ** injection Eu as <-. split; auto. intros e He. exists (F e). splits; auto. rewrite F3.
                     rewrite (proj2 (memb_spec _ edge_eqb_spec e (inc g v))); auto.
                  ** destruct (Dom u y Eu) as [Hu D]. split; auto. intros e He. destruct (D e He) as (e' & E1 & E2 & E3). exists e'. splits; auto.
                     { rewrite F3. destruct (memb edge_eqb e (inc g v)) eqn:M; auto. apply Hi in M as [_ M]. apply inc_In in He as [_ He]. congruence. }
                     rewrite AV. destruct E3 as [[E3|E3]|E3].
                     --- injection E3 as E3 E4. rewrite <- E3, Nat.eqb_refl. right. congruence.
                     --- left. apply in_or_app; auto.
                     --- destruct (Nat.eqb_spec (tail e) v) as [Et|]; auto. congruence.
               ++ intros e e' Ee. rewrite F3 in Ee. rewrite AV. destruct (memb edge_eqb e (inc g v)) eqn:M.
                  ** apply Hi in M as [M ->]. rewrite Nat.eqb_refl. split; auto. discriminate.
                  ** destruct (Em e e' Ee) as [I N]. split; auto. destruct (head e =? v); auto. discriminate.
               ++ rewrite AV. destruct Seed as [[E|E]|E].
                  ** injection E as -> ->. rewrite Nat.eqb_refl. auto.
                  ** left. apply in_or_app; auto.
                  ** destruct (Nat.eqb_spec src v) as [<-|]; auto. congruence.
               ++ intros u y I. apply in_app_or in I as [I|I]; [apply (Q u y); simpl; auto|].
                  apply in_map_iff in I as (e & [= <- <-] & He). apply dedges_vertices. apply (inc_incl g v); auto.
               ++ intros f F' Hf Es. destruct (H f F' Hf Es) as [H1 H2]. assert (Ew : w = f v) by (apply H1; simpl; auto).
                  split.
                  ** intros u y I. apply in_app_or in I as [I|I]; [apply H1; simpl; auto|].
                     apply in_map_iff in I as (e & [= <- <-] & He). specialize (F1 e He). apply im_spec in F1 as [G1 G2].
                     apply inc_In in G1 as [G1 G3]. apply inc_In in He as [He1 He2]. destruct (Hf e He1) as (K1 & K2 & K3 & K4).
                     rewrite (same_edge (F e) (F' e)); auto; congruence.
                  ** intros u y Eu. rewrite AV in Eu. destruct (Nat.eqb_spec u v) as [->|]; auto. congruence.
            -- cbn [fst snd]. rewrite app_length, map_length. cbn [length].
               rewrite (filter_split (fun e => match aget Nat.eqb (head e) vm with None => true | _ => false end)
                 (fun e => match aget Nat.eqb (head e) (aset Nat.eqb v w vm) with None => true | _ => false end) (fun e => head e =? v)).
               ++ fold (inc g v). lia.
               ++ intros e _. rewrite AV. destruct (Nat.eqb_spec (head e) v) as [->|]; [rewrite Ev; auto|]. rewrite orb_false_r. auto.
               ++ intros e _. rewrite AV. destruct (head e =? v); auto. apply andb_false_r.
          * cbn. intros f F Hf Es. destruct (HN eq_refl) as (e & He & Ei). destruct (H f F Hf Es) as [H1 _].
            assert (Ew : w = f v) by (apply H1; simpl; auto). apply inc_In in He as [He Eh]. destruct (Hf e He) as (K1 & K2 & K3 & K4).
            assert (X : im w e = Some (F e)) by (apply im_spec; split; auto; apply inc_In; split; auto; congruence). congruence.
    Qed.

    Lemma automorphism_ok : exists r, automorphism chk g src img aff = Ret r /\ au_post r.
    Proof.
      unfold automorphism. apply loop_rule with (Inv := AI) (m := am_measure).
      - apply au_step.
      - constructor; cbn; try discriminate; auto.
        + constructor.
        + constructor.
        + intros v w [[= <- <-]|[]]; auto.
        + intros f F Hf Es. split; [|discriminate]. intros v w [[= <- <-]|[]]; auto.
      - unfold am_measure. cbn [fst snd length aget]. 
        assert (L : length (filter (fun _ : edge => true) (dedges g)) <= 2 * length (gedges g)).
        { unfold dedges. generalize (gedges g). induction l as [|e l IH]; simpl in *; lia. }
        pose proof (Nat.pow_gt_lin_r 2 (length (gedges g)) ltac:(lia)) as B.
        replace (Z.of_nat (length (gedges g) + 2)) with (Z.of_nat (length (gedges g)) + 2)%Z by lia. rewrite Z.pow_add_r by lia.
        assert (B' : (Z.of_nat (length (gedges g)) < 2 ^ Z.of_nat (length (gedges g)))%Z).
        { change 2%Z with (Z.of_nat 2). rewrite <- Nat2Z.inj_pow. lia. }
        change (2 ^ 2)%Z with 4%Z. lia.
    Qed.
  End M.

  (** two maps with the same action on edge vectors that agree at one vertex are equal *)
  Lemma hom_unique ap f F f' F' u : hom ap f F -> hom ap f' F' -> is_vertex g u -> f u = f' u ->
    (forall v, is_vertex g v -> f v = f' v) /\ (forall e, In e (dedges g) -> F e = F' e).
  Proof.
    intros H H' Hu E.
    assert (Fe : forall e, In e (dedges g) -> f (head e) = f' (head e) -> F e = F' e).
    { intros e He Eh. destruct (H e He) as (A1 & A2 & A3 & A4). destruct (H' e He) as (B1 & B2 & B3 & B4). apply same_edge; auto; congruence. }
    assert (Ft : forall e, In e (dedges g) -> f (head e) = f' (head e) -> f (tail e) = f' (tail e)).
    { intros e He Eh. destruct (H e He) as (A1 & A2 & A3 & A4). destruct (H' e He) as (B1 & B2 & B3 & B4). rewrite <- A3, <- B3, Fe; auto. }
    assert (V : forall v, is_vertex g v -> f v = f' v).
    { intros v Hv. pose proof (conn u v Hu Hv) as CN. induction CN as [|x y e L IH He Ho]; auto.
      assert (Hx : is_vertex g x) by (exists e; split; auto; intuition). specialize (IH Hx). destruct Ho as [[<- <-]|[<- <-]].
      - apply (Ft e); auto. apply dedges_In; eauto.
      - apply (Ft (rev e)); auto. apply dedges_In; eauto. }
    split; auto. intros e He. apply Fe; auto. apply V, dedges_vertices; auto.
  Qed.
  Lemma hom_ext ap ap' f F : (forall x, length x = d -> ap x = ap' x) -> hom ap f F -> hom ap' f F.
  Proof. intros E H e He. destruct (H e He) as (A1 & A2 & A3 & A4). splits; auto. rewrite <- E; auto. apply evec_length. Qed.

  Section I.
    Variables (ap : point -> point) (f : nat -> nat) (F : edge -> edge).
    Hypothesis H : hom ap f F.
    Hypothesis inj : forall x y, length x = d -> length y = d -> ap x = ap y -> x = y.

    Lemma hom_loc e e' : In e (dedges g) -> In e' (dedges g) -> head e = head e' -> F e = F e' -> e = e'.
    Proof.
      intros He He' Eh E. apply same_edge; auto. apply inj; try apply evec_length.
      rewrite <- (proj2 (proj2 (proj2 (H e He)))), <- (proj2 (proj2 (proj2 (H e' He')))). congruence.
    Qed.
    Lemma hom_f_inj v w : is_vertex g v -> is_vertex g w -> f v = f w -> v = w.
    Proof. apply (f_inj g f F); auto; try (intros e He; apply (H e He)). apply hom_loc. Qed.
    Lemma hom_F_inj e e' : In e (dedges g) -> In e' (dedges g) -> F e = F e' -> e = e'.
    Proof. apply (F_inj g f F); auto; try (intros x Hx; apply (H x Hx)). apply hom_loc. Qed.
    Lemma hom_f_surj w : is_vertex g w -> exists v, is_vertex g v /\ f v = w.
    Proof. apply (f_surj g f F); auto; try (intros x Hx; apply (H x Hx)). apply hom_loc. Qed.
    Lemma hom_F_surj e : In e (dedges g) -> exists e', In e' (dedges g) /\ F e' = e.
    Proof. apply (F_surj g f F); auto; try (intros x Hx; apply (H x Hx)). apply hom_loc. Qed.
  End I.

  Lemma evec_rev e k : k < d -> pget (ev (rev e)) k = (- pget (ev e) k)%Qc.
  Proof. intros Hk. rewrite !pget_evec by auto. unfold rev; simpl. rewrite vget_sneg, ZQ_opp. ring. Qed.
End A.
