(** The coordination sequence iterator (src/pgraphs.rs 570-587) *)
From Coq Require Import List ZArith Lia Bool PeanoNat Permutation.
From Verif Require Import Base Vec Scalars OrdSet PGraph Net PGraphBase.
Import ListNotations.
Open Scope nat_scope.

Section S.
  Variable g : graph.
  Hypothesis C : constructed g.

  Definition is_shell (a : node) (k : nat) (l : list node) : Prop := NoDup l /\ forall b, In b l <-> distance g a b k.

  Lemma inner_shell last this (vs : node) es acc :
    let r := fold_left (fun acc e =>
        let w := (tail e, sadd (shift e) (snd vs)) in
        if negb (memb node_eqb w last) && negb (memb node_eqb w this)
        then sinsert node_eqb w acc else acc) es acc in
    (NoDup acc -> NoDup r) /\
    forall b, In b r <-> In b acc \/ (exists e, In e es /\ b = (tail e, sadd (shift e) (snd vs))) /\ ~ In b last /\ ~ In b this.
  Proof.
    cbv zeta. revert acc. induction es as [|e es IH]; intros acc; simpl.
    - split; auto. intros b. split; auto. intros [|[(e & [] & _) _]]; auto.
    - destruct (memb node_eqb (tail e, sadd (shift e) (snd vs)) last) eqn:M1; simpl.
      { apply (memb_spec _ node_eqb_spec) in M1. destruct (IH acc) as [IH1 IH2]. split; auto. intros b. rewrite IH2.
        split; (intros [|[(f & Hf & ->) H]]; [auto|right]); [split; eauto|]. destruct Hf as [<-|Hf]; [tauto|]. split; eauto. }
      destruct (memb node_eqb (tail e, sadd (shift e) (snd vs)) this) eqn:M2; simpl.
      { apply (memb_spec _ node_eqb_spec) in M2. destruct (IH acc) as [IH1 IH2]. split; auto. intros b. rewrite IH2.
        split; (intros [|[(f & Hf & ->) H]]; [auto|right]); [split; eauto|]. destruct Hf as [<-|Hf]; [tauto|]. split; eauto. }
      apply (memb_false _ node_eqb_spec) in M1. apply (memb_false _ node_eqb_spec) in M2.
      destruct (IH (sinsert node_eqb (tail e, sadd (shift e) (snd vs)) acc)) as [IH1 IH2]. split.
      + intros N. apply IH1. apply (sinsert_NoDup _ node_eqb_spec); auto.
      + intros b. rewrite IH2, (sinsert_In _ node_eqb_spec). split.
        * intros [[->|]|[(f & Hf & ->) H]]; auto; right; split; eauto.
        * intros [|[(f & [<-|Hf] & ->) H]]; auto. right; split; eauto.
  Qed.

  (** one call of next: [last] is empty for k = 0 and the shell k-1 otherwise *)
  Lemma next_ok order a k last this :
    (forall l, Permutation (order l) l) -> is_node g a -> is_shell a k this ->
    (forall b, In b last <-> exists j, k = S j /\ distance g a b j) ->
    exists next, cs_next order g (last, this) = Ret (this, next, length next) /\ is_shell a (S k) next.
  Proof.
    intros Po Na [Nt Ht] Hl. unfold cs_next.
    match goal with |- context [foldM ?f _ _] => set (F := f) end.
    destruct (foldM_inv F (fun pre acc => NoDup acc /\ forall b, In b acc <->
        exists vs e, In vs pre /\ In e (inc g (fst vs)) /\ b = (tail e, sadd (shift e) (snd vs)) /\ ~ In b last /\ ~ In b this) (order this) [])
      as (next & E & Nn & Hn).
    - split; [constructor|]. intros b. split; [intros []|]. intros (vs & e & [] & _).
    - intros pre vs acc Hin [Na' Ha]. unfold F.
      assert (V : is_vertex g (fst vs)).
      { assert (In vs this) by (eapply Permutation_in; [apply Po|]; apply Hin, in_or_app; right; left; auto).
        apply Ht in H as [W _]. apply walk_nodes in W as [_ [V _]]; auto. }
      rewrite (incidences_vertex _ _ V). cbn [bind]. eexists. split; [reflexivity|].
      destruct (inner_shell last this vs (inc g (fst vs)) acc) as [I1 I2]. cbv zeta in I1, I2. split; auto.
      intros b. rewrite I2, Ha. split.
      + intros [(v & e & A & B)|[(e & A & B) D]]; [exists v, e|exists vs, e]; rewrite in_app_iff; simpl; tauto.
      + intros (v & e & A & B & D & F'). apply in_app_iff in A as [A|[<-|[]]]; [left; exists v, e; tauto|right].
        split; [exists e; tauto|tauto].
    - rewrite E. cbn [bind]. exists next. split; auto. split; auto. intros b. rewrite Hn. split.
      + intros (vs & e & A & B & -> & Nl & Nth). assert (In vs this) as Hvs by (eapply Permutation_in; [apply Po|auto]).
        apply Ht in Hvs as [W D]. apply inc_In in B as [B1 B2].
        assert (Nv : is_node g vs) by (apply walk_nodes in W; tauto).
        pose proof (edge_node g C vs e Nv B1) as Nb. rewrite (sadd_comm (shift e)) in *.
        assert (A1 : adjacent g vs (tail e, sadd (snd vs) (shift e))) by (apply (adjacent_dedges g C); auto; exists e; auto).
        assert (W' : walk g (S k) a (tail e, sadd (snd vs) (shift e))) by (econstructor; eauto).
        split; auto. intros j Hj Wj.
        destruct (distance_ex g C _ _ _ Wj) as (i & Hi & Di).
        assert (k <= S i).
        { destruct (le_gt_dec k (S i)); auto. exfalso. apply (D (S i)); [lia|]. destruct Di as [Wi _]. econstructor; eauto. apply adjacent_sym; auto. }
        assert (i = k \/ S i = k) as [->|Ei] by lia.
        * apply Nth, Ht. auto.
        * apply Nl, Hl. eauto.
      + intros [W D]. inversion W as [|? ? c ? Wc Nb A]; subst.
        assert (Nc : is_node g c) by (apply walk_nodes in Wc; tauto).
        assert (Dc : distance g a c k).
        { split; auto. intros j Hj Wj. apply (D (S j)); [lia|]. econstructor; eauto. }
        apply (adjacent_dedges g C) in A as (e & He & H1 & H2 & H3); auto.
        exists c, e. splits.
        * eapply Permutation_in; [apply Permutation_sym, Po|]. apply Ht; auto.
        * apply inc_In; auto.
        * destruct b; simpl in *. rewrite (sadd_comm (shift e)). congruence.
        * intros H. apply Hl in H as (j & -> & Dj & _). apply (D j); auto; lia.
        * intros H. apply Ht in H as [Dj _]. apply (D k); auto.
  Qed.

  Lemma take_ok order a n : (forall k l, Permutation (order k l) l) -> is_node g a ->
    forall k last this, is_shell a k this -> (forall b, In b last <-> exists j, k = S j /\ distance g a b j) ->
    exists items, cs_take order g n (last, this) = Ret items /\ length items = n /\
      forall i, i < n -> exists l, is_shell a (k + S i) l /\ nth i items 0 = length l.
  Proof.
    intros Po Na. induction n as [|n IH]; intros k last this Sh Hl; cbn [cs_take].
    - exists []. splits; auto. lia.
    - destruct (next_ok (order (S n)) a k last this (Po (S n)) Na Sh Hl) as (next & E & Sn). rewrite E. cbn [bind].
      destruct (IH (S k) this next Sn) as (items & E' & L & H).
      { intros b. destruct Sh as [_ Sh]. rewrite Sh. split; [eauto|]. intros (j & Ej & D). injection Ej as ->. auto. }
      rewrite E'. cbn [bind]. eexists. split; [reflexivity|]. split; [simpl; lia|].
      intros [|i] Hi.
      + exists next. rewrite Nat.add_1_r. auto.
      + destruct (H i) as (l & A & B); [lia|]. exists l. split; auto. replace (k + S (S i)) with (S k + S i) by lia. auto.
  Qed.

  Lemma shell_0 a : is_node g a -> is_shell a 0 [a].
  Proof.
    intros Na. split; [repeat constructor; auto|]. intros b. split.
    - intros [<-|[]]. split; [constructor; auto|lia].
    - intros [W _]. inversion W. left; auto.
  Qed.
End S.
