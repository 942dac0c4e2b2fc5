(** shift_normalized (src/pgraphs.rs 473-488) *)
From Coq Require Import List ZArith Lia Bool PeanoNat Permutation Sorted.
From Verif Require Import Base Vec Scalars OrdSet PGraph Net PGraphBase Traverse Component.
Import ListNotations.
Open Scope nat_scope.

Lemma NoDup_app_disj {A} (l l' : list A) : NoDup l -> NoDup l' -> (forall x, In x l -> ~ In x l') -> NoDup (l ++ l').
Proof.
  induction l as [|x l IH]; simpl; intros N N' D; auto. inversion N; subst. constructor.
  - rewrite in_app_iff. intros [|]; auto. apply (D x); auto.
  - apply IH; auto.
Qed.

Section R.
  Variable g : graph.
  Hypothesis C : constructed g.
  Notation d := (gdim g).

  Record NInv (pre seen : list nat) (es : list edge) (c : nat -> shiftv) (el : list edge) : Prop := {
    n_es : es = map (relabel c) el;
    n_nd : NoDup el;
    n_el : forall e, In e el <-> In e (gedges g) /\ In (head e) seen;
    n_pre : incl pre seen;
    n_closed : forall e, In e (gedges g) -> In (head e) seen <-> In (tail e) seen;
    n_len : forall v, In v seen -> length (c v) = d;
    n_tree : forall v, In v seen -> exists tr comp, incl tr es /\ (forall e, In e tr -> shift e = szero d) /\
       spanning_tree tr comp /\ forall w, In w comp <-> linked (gedges g) v w }.

  Lemma seen_fold t seen x :
    In x (fold_left (fun s e => sinsert Nat.eqb (tail e) (sinsert Nat.eqb (head e) s)) t seen) <->
    In x seen \/ In x (flat_map (fun e => [head e; tail e]) t).
  Proof.
    revert seen. induction t as [|e t IH]; intros seen; simpl; [tauto|].
    rewrite IH, !(sinsert_In _ Nat.eqb_spec). intuition.
  Qed.

  Lemma closed_linked (seen : list nat) v w : (forall e, In e (gedges g) -> In (head e) seen <-> In (tail e) seen) ->
    linked (gedges g) v w -> In v seen <-> In w seen.
  Proof.
    intros Cl. induction 1 as [|u w e H IH He Hend]; [tauto|]. rewrite IH. specialize (Cl e He).
    destruct Hend as [[<- <-]|[<- <-]]; tauto.
  Qed.

  Lemma norm_loop : exists seen es c el,
    foldM (fun st v =>
      let '(seen, es) := st in
      if memb Nat.eqb v seen then Ret (seen, es)
      else do t <- traverse g v;
           Ret (fold_left (fun s e => sinsert Nat.eqb (tail e) (sinsert Nat.eqb (head e) s)) t seen, es ++ t))
    ([], []) (vertices g) = Ret (seen, es) /\ NInv (vertices g) seen es c el.
  Proof.
    match goal with |- exists seen es c el, foldM ?f ?s ?l = _ /\ _ => set (F := f) end.
    destruct (foldM_inv F (fun pre st => exists c el, NInv pre (fst st) (snd st) c el) (vertices g) ([], [])) as ([seen es] & E & c & el & I).
    - exists (fun _ => []), []. constructor; simpl; auto; try tauto; try constructor. intros v [].
    - intros pre v [seen es] Hin (c & el & I). simpl in I.
      assert (Vv : is_vertex g v) by (apply vertices_In, Hin, in_or_app; right; left; auto).
      unfold F. destruct (memb Nat.eqb v seen) eqn:M.
      + exists (seen, es). split; auto. exists c, el. destruct I as [I1 I2 I3 I4 I5 I6 I7]. constructor; auto.
        apply (memb_spec _ Nat.eqb_spec) in M. intros x Hx. apply in_app_iff in Hx as [|[<-|[]]]; simpl; auto.
      + apply (memb_false _ Nat.eqb_spec) in M.
        destruct (traverse_ok g C v Vv) as (t & comp & c' & es' & Et & T). rewrite Et. cbn [bind].
        eexists. split; [reflexivity|]. simpl fst; simpl snd.
        destruct I as [I1 I2 I3 I4 I5 I6 I7].
        pose proof (comp_linked g v t comp c' es' T) as CL.
        assert (Hsn : forall x, In x (fold_left (fun s e => sinsert Nat.eqb (tail e) (sinsert Nat.eqb (head e) s)) t seen) <-> In x seen \/ In x comp).
        { intros x. rewrite seen_fold. rewrite <- (usort_In _ nat_cmp_laws x (flat_map (fun e => [head e; tail e]) t)).
          split; (intros [|H]; [auto|right]); [eapply Permutation_in; [|exact H]|eapply Permutation_in; [apply Permutation_sym|exact H]]; apply (size_ok g v t comp c' es' T). }
        assert (Dis : forall x, In x comp -> ~ In x seen).
        { intros x Hx Hs. apply M. apply (closed_linked seen v x I5); auto. apply CL; auto. }
        set (c2 := fun x => if memb Nat.eqb x comp then c' x else c x).
        assert (C2a : forall x, In x comp -> c2 x = c' x).
        { intros x Hx. unfold c2. apply (memb_spec _ Nat.eqb_spec) in Hx. rewrite Hx. auto. }
        assert (C2b : forall x, In x seen -> c2 x = c x).
        { intros x Hx. unfold c2. destruct (memb Nat.eqb x comp) eqn:Mx; auto. apply (memb_spec _ Nat.eqb_spec) in Mx. exfalso. eapply Dis; eauto. }
        pose proof (comp_edge g v t comp c' es' T) as CE.
        exists c2, (el ++ es'). constructor.
        * rewrite map_app, I1, (t_eq _ _ _ _ _ _ T). f_equal; apply map_ext_in; intros e He; apply relabel_ext; symmetry.
          -- apply C2b. apply I3 in He. tauto.
          -- apply C2b. apply I3 in He as [H1 H2]. apply I5; auto.
          -- apply C2a. apply (t_es _ _ _ _ _ _ T) in He. tauto.
          -- apply C2a. apply (t_es _ _ _ _ _ _ T) in He as [H1 H2]. apply CE; auto.
        * apply NoDup_app_disj; auto; [apply (t_es_nd _ _ _ _ _ _ T)|]. intros e He He'. apply I3 in He as [_ H1].
          apply (t_es _ _ _ _ _ _ T) in He' as [_ H2]. eapply Dis; eauto.
        * intros e. rewrite in_app_iff, I3, (t_es _ _ _ _ _ _ T), Hsn. tauto.
        * intros x Hx. apply Hsn. apply in_app_iff in Hx as [Hx|[<-|[]]]; auto. right. apply (t_v0 _ _ _ _ _ _ T).
        * intros e He. rewrite !Hsn. rewrite (I5 e He), (CE e He). tauto.
        * intros x Hx. apply Hsn in Hx as [Hx|Hx]; [rewrite C2b|rewrite C2a]; auto. apply (comp_len g v t comp c' es' T x Hx).
        * intros x Hx. apply Hsn in Hx as [Hx|Hx].
          -- destruct (I7 x Hx) as (tr & cm & A & B). exists tr, cm. split; auto. intros e He. apply in_or_app. left. auto.
          -- destruct (t_tree _ _ _ _ _ _ T) as (tr & A & B & D). exists tr, comp. splits; auto.
             ++ intros e He. apply in_or_app. right. auto.
             ++ intros w. rewrite CL. apply CL in Hx. split; intros; eapply linked_trans; eauto. apply linked_sym; auto.
    - exists seen, es, c, el. auto.
  Qed.

  Section Rel.
    Variable c : nat -> shiftv.
    Hypothesis Lc : forall v, is_vertex g v -> length (c v) = d.

    Lemma relabel_canonical e : In e (gedges g) -> canonical (relabel c e) = relabel c e.
    Proof.
      intros He. pose proof (c_canon _ C _ He) as K. pose proof (c_dim _ C _ He) as Ld.
      assert (Lh : length (c (head e)) = d) by (apply Lc; exists e; auto).
      destruct e as [h t s]. unfold canonical, relabel in *. simpl in *.
      destruct (Nat.ltb_spec t h); simpl in *.
      - unfold rev in K. simpl in K. injection K as K1 K2 _. lia.
      - destruct (Nat.eqb_spec t h) as [->|]; simpl in *; auto.
        replace (ssub (sadd (c h) s) (c h)) with s by seq.
        destruct (s_is_negative s); auto.
    Qed.
    Lemma relabel_inj e f : In e (gedges g) -> In f (gedges g) -> relabel c e = relabel c f -> e = f.
    Proof.
      intros He Hf. pose proof (c_dim _ C _ He) as L1. pose proof (c_dim _ C _ Hf) as L2.
      assert (Lh : length (c (head e)) = d) by (apply Lc; exists e; auto).
      assert (Lt : length (c (tail e)) = d) by (apply Lc; exists e; auto).
      destruct e as [h t s], f as [h' t' s']; unfold relabel; simpl in *. intros [= <- <- E]. f_equal.
      apply (vec_ext (R := Z)); [lia|]. intros i _. apply (f_equal (fun v => vget v i)) in E.
      rewrite !vget_ssub, !vget_sadd in E by slen. lia.
    Qed.

    Lemma relabel_graph es : (forall e, In e es <-> exists f, In f (gedges g) /\ e = relabel c f) ->
      let g' := gnew d es in
      constructed g' /\ Permutation (gedges g') (map (relabel c) (gedges g)) /\ (forall e, In e (gedges g') <-> In e es).
    Proof.
      intros Hes. cbv zeta.
      assert (Ld : edges_of_dim d es).
      { intros e He. apply Hes in He as (f & Hf & ->). pose proof (c_dim _ C _ Hf).
        assert (Lh : length (c (head f)) = d) by (apply Lc; exists f; auto).
        assert (Lt : length (c (tail f)) = d) by (apply Lc; exists f; auto). simpl. slen. }
      assert (E : forall e, In e (gedges (gnew d es)) <-> In e es).
      { intros e. rewrite gnew_edges. split.
        - intros (f & Hf & ->). apply Hes in Hf as Hf'. destruct Hf' as (f' & Hf' & Ef). rewrite Ef, relabel_canonical by auto. rewrite <- Ef. auto.
        - intros He. exists e. split; auto. apply Hes in He as (f & Hf & ->). rewrite relabel_canonical; auto. }
      splits; auto.
      - exists es. auto.
      - apply NoDup_Permutation.
        + apply c_NoDup. exists es. auto.
        + assert (N := c_NoDup _ C). assert (Sub : forall e, In e (gedges g) -> In e (gedges g)) by auto. revert N Sub.
          generalize (gedges g) at 1 2 4 as l. induction l as [|e l IH]; simpl; intros N Sub; constructor; inversion N; subst.
          * intros H. apply in_map_iff in H as (f & Ef & Hf). apply relabel_inj in Ef; auto. subst. contradiction.
          * apply IH; auto.
        + intros e. rewrite E, Hes, in_map_iff. split; intros (f & A & B); exists f; auto.
    Qed.
  End Rel.
End R.
