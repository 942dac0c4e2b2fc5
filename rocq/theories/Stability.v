(** Proofs about the stability predicates and edge_by_unique_delta (PGraph.v). *)
From Coq Require Import List ZArith Lia Bool PeanoNat QArith Qcanon Qround Permutation Sorted.
From Verif Require Import Base Partition Vec Elim Scalars Matrix ZQ QcTac ModSolver ModSolve OrdSet PGraph Net PGraphBase Placement Placed.
Import ListNotations.
Close Scope Q_scope. Close Scope Qc_scope.
Open Scope nat_scope.

Lemma p_eqb_spec a b : reflect (a = b) (p_eqb a b).
Proof.
  revert b; induction a as [|x a IH]; intros [|y b]; simpl; try (constructor; congruence).
  destruct (Qc_eqb_spec x y); simpl; [|constructor; congruence]. destruct (IH b); constructor; congruence.
Qed.
Lemma ps_eqb_spec a b : reflect (a = b) (ps_eqb a b).
Proof.
  revert b; induction a as [|x a IH]; intros [|y b]; simpl; try (constructor; congruence).
  destruct (p_eqb_spec x y); simpl; [|constructor; congruence]. destruct (IH b); constructor; congruence.
Qed.

(** *** fractional parts *)
Lemma floor_bounds (q : Qc) : (qc_floor q <= q)%Qc /\ (q < qc_floor q + 1)%Qc.
Proof.
  unfold qc_floor, ZQ, Qcle, Qclt. rewrite this_add, this_Q2Qc. split; [apply Qfloor_le|].
  pose proof (Qlt_floor q) as H. rewrite inject_Z_plus in H. exact H.
Qed.

Lemma floor_unique (q : Qc) z : (ZQ z <= q)%Qc -> (q < ZQ z + 1)%Qc -> Qfloor q = z.
Proof.
  intros H1 H2. destruct (floor_bounds q) as [B1 B2]. unfold qc_floor in *.
  assert (A : (ZQ z < ZQ (Qfloor q + 1))%Qc) by (rewrite ZQ_add, ZQ_1; qclra).
  assert (B : (ZQ (Qfloor q) < ZQ (z + 1))%Qc) by (rewrite ZQ_add, ZQ_1; qclra).
  rewrite ZQ_lt in A, B. lia.
Qed.

Definition frac (q : Qc) : Qc := (q - qc_floor q)%Qc.
Lemma frac_eq (p q : Qc) : frac p = frac q <-> exists z, (p - q)%Qc = ZQ z.
Proof.
  unfold frac. split.
  - intros E. exists (Qfloor p - Qfloor q)%Z. rewrite ZQ_sub. unfold qc_floor in E. qclra.
  - intros [z E]. destruct (floor_bounds q) as [B1 B2]. unfold qc_floor in *.
    assert (F : Qfloor p = (Qfloor q + z)%Z) by (apply floor_unique; rewrite ZQ_add; qclra).
    rewrite F, ZQ_add. qclra.
Qed.

(** two points differ by an integer vector *)
Definition mod1_eq (p q : point) : Prop := length p = length q /\ forall k, k < length p -> exists z, (pget p k - pget q k)%Qc = ZQ z.
Lemma map_frac_eq p q : map frac p = map frac q <-> mod1_eq p q.
Proof.
  unfold mod1_eq. revert q. induction p as [|x p IH]; intros [|y q]; simpl.
  - split; auto. intros _. split; auto. intros; lia.
  - split; [discriminate|intros [? _]; discriminate].
  - split; [discriminate|intros [? _]; discriminate].
  - split.
    + intros E. pose proof (f_equal (hd 0%Qc) E) as E1. pose proof (f_equal (@tl Qc) E) as E2. cbn [hd tl] in E1, E2. apply frac_eq in E1. apply IH in E2 as [L E2]. split; [congruence|].
      intros [|k] Hk; simpl; auto. apply E2. lia.
    + intros [L H]. f_equal; [apply frac_eq, (H 0); lia|]. apply IH. split; [congruence|]. intros k Hk. apply (H (S k)). lia.
Qed.
Lemma mod1_eq_sym p q : mod1_eq p q -> mod1_eq q p.
Proof. rewrite <- !map_frac_eq. auto. Qed.

(** *** loops that look for a repetition *)
Section Rep.
  Context {A K : Type} (eqb : K -> K -> bool) (EQ : forall x y, reflect (x = y) (eqb x y)) (key : A -> K).
  Fixpoint repeats (seen : list K) (l : list A) : bool :=
    match l with
    | [] => false
    | x :: l => memb eqb (key x) seen || repeats (sinsert eqb (key x) seen) l
    end.
  Lemma repeats_spec l seen : repeats seen l = false <-> NoDup (map key l) /\ forall x, In x l -> ~ In (key x) seen.
  Proof.
    revert seen; induction l as [|x l IH]; intros seen; simpl.
    - split; auto. intros _. split; [constructor|tauto].
    - rewrite orb_false_iff, IH, NoDup_cons_iff. split.
      + intros (M & ND & H). splits; auto.
        * intros I. apply in_map_iff in I as (y & E & Hy). apply (H y Hy). apply (sinsert_In _ EQ). auto.
        * intros y [<-|Hy]; [apply (memb_false _ EQ); auto|]. intros I. apply (H y Hy). apply (sinsert_In _ EQ). auto.
      + intros ((NI & ND) & H). splits; auto.
        * apply (memb_false _ EQ). auto.
        * intros y Hy I. apply (sinsert_In _ EQ) in I as [E|I]; [|apply (H y); auto]. apply NI. rewrite <- E. apply in_map; auto.
  Qed.
End Rep.

Lemma NoDup_map_inj {A B} (f : A -> B) l x y : NoDup (map f l) -> In x l -> In y l -> f x = f y -> x = y.
Proof.
  induction l as [|a l IH]; simpl; [tauto|]. intros ND Hx Hy E. inversion ND as [|? ? N1 N2]; subst.
  destruct Hx as [->|Hx], Hy as [->|Hy]; auto.
  - exfalso. apply N1. rewrite E. apply in_map; auto.
  - exfalso. apply N1. rewrite <- E. apply in_map; auto.
Qed.
Lemma NoDup_map_inj' {A B} (f : A -> B) l : NoDup l -> (forall x y, In x l -> In y l -> f x = f y -> x = y) -> NoDup (map f l).
Proof.
  induction 1 as [|a l N ND IH]; simpl; intros H; constructor; [|apply IH; intros; apply H; auto].
  intros I. apply in_map_iff in I as (b & E & Hb). apply N. rewrite (H a b); auto.
Qed.
Lemma not_NoDup_map {A B} (f : A -> B) l : NoDup l -> ~ NoDup (map f l) -> (forall a b : B, a = b \/ a <> b) ->
  exists x y, In x l /\ In y l /\ x <> y /\ f x = f y.
Proof.
  induction 1 as [|a l N ND IH]; simpl; intros H Dec; [exfalso; apply H; constructor|].
  assert (D : In (f a) (map f l) \/ ~ In (f a) (map f l)).
  { clear - Dec. induction l as [|b l IH]; simpl; [tauto|]. destruct (Dec (f b) (f a)), IH; tauto. }
  destruct D as [D|D].
  - apply in_map_iff in D as (b & E & Hb). exists a, b. splits; auto. intros ->. auto.
  - destruct IH as (x & y & Hx & Hy & Hn & E); auto; [|exists x, y; auto]. intros N'. apply H. constructor; auto.
Qed.
Lemma filter_single {A} (p : A -> bool) l e : filter p l = [e] -> exists l1 l2, l = l1 ++ e :: l2 /\ p e = true /\ forall f, In f (l1 ++ l2) -> p f = false.
Proof.
  induction l as [|a l IH]; simpl; [discriminate|]. destruct (p a) eqn:E.
  - intros H. injection H as -> H. exists [], l. splits; auto. simpl. intros f Hf. destruct (p f) eqn:Ef; auto. exfalso.
    assert (I : In f (filter p l)) by (apply filter_In; auto). rewrite H in I. destruct I.
  - intros H. destruct (IH H) as (l1 & l2 & -> & Pe & Pl). exists (a :: l1), l2. splits; auto. intros f [->|Hf]; auto.
Qed.

(** *** sorting *)
Lemma Qc_cmp_laws : cmp_laws qc_cmp.
Proof.
  unfold qc_cmp. split.
  - intros x y. rewrite <- Qceq_alt. tauto.
  - intros x y. unfold Qccompare. rewrite <- Qcompare_antisym. auto.
  - intros x y z. rewrite <- !Qclt_alt. apply Qclt_trans.
Qed.

Lemma p_cmp_laws : cmp_laws p_cmp.
Proof.
  split.
  - induction x as [|x a IH]; intros [|y b]; simpl; try (split; congruence).
    rewrite lex_eq, IH, (cmp_eq _ Qc_cmp_laws). split; [intros [-> ->]; auto|]. intros E. split; [exact (f_equal (hd 0%Qc) E)|exact (f_equal (@tl Qc) E)].
  - induction x as [|x a IH]; intros [|y b]; simpl; auto. rewrite lex_opp, IH, (cmp_anti _ Qc_cmp_laws). auto.
  - induction x as [|x a IH]; intros [|y b] [|z c]; simpl; try congruence.
    destruct (qc_cmp x y) eqn:E1; simpl; try discriminate.
    + apply (cmp_eq _ Qc_cmp_laws) in E1. subst y. intros H1. destruct (qc_cmp x z) eqn:E2; simpl; try discriminate; auto. intros; eauto.
    + intros _. destruct (qc_cmp y z) eqn:E2; simpl; try discriminate.
      * apply (cmp_eq _ Qc_cmp_laws) in E2. subst z. rewrite E1. auto.
      * rewrite (cmp_trans _ Qc_cmp_laws _ _ _ E1 E2). auto.
Qed.

Definition p_le (a b : point) : Prop := p_cmp a b <> Gt.
Lemma p_le_trans a b c : p_le a b -> p_le b c -> p_le a c.
Proof.
  unfold p_le. intros H1 H2. destruct (p_cmp a b) eqn:E1; [|destruct (p_cmp b c) eqn:E2|]; try congruence.
  - apply (cmp_eq _ p_cmp_laws) in E1. subst. auto.
  - apply (cmp_eq _ p_cmp_laws) in E2. subst. congruence.
  - rewrite (cmp_trans _ p_cmp_laws _ _ _ E1 E2). congruence.
Qed.
Lemma p_le_antisym a b : p_le a b -> p_le b a -> a = b.
Proof.
  unfold p_le. rewrite (cmp_anti _ p_cmp_laws a b). destruct (p_cmp a b) eqn:E; simpl; try congruence.
  intros _ _. apply (cmp_eq _ p_cmp_laws); auto.
Qed.

Lemma insert_sorted_perm x l : Permutation (x :: l) (insert_sorted x l).
Proof.
  induction l as [|y l IH]; simpl; auto. destruct (p_cmp x y); auto. rewrite perm_swap. constructor. auto.
Qed.
Lemma psort_perm l : Permutation l (psort l).
Proof. induction l as [|x l IH]; simpl; auto. rewrite <- insert_sorted_perm. constructor. auto. Qed.
Lemma insert_sorted_sorted x l : StronglySorted p_le l -> StronglySorted p_le (insert_sorted x l).
Proof.
  induction 1 as [|y l S IH F]; simpl; [repeat constructor|]. destruct (p_cmp x y) eqn:E.
  - constructor; [constructor; auto|]. apply (cmp_eq _ p_cmp_laws) in E. subst. constructor; auto. unfold p_le. 
    rewrite (proj2 (cmp_eq _ p_cmp_laws y y)); congruence.
  - assert (p_le x y) by (unfold p_le; congruence). constructor; [constructor; auto|]. constructor; auto.
    eapply Forall_impl; [|exact F]. intros z. apply p_le_trans; auto.
  - constructor; auto. apply Forall_forall. intros z Hz. apply (Permutation_in _ (Permutation_sym (insert_sorted_perm x l))) in Hz as [<-|Hz].
    + unfold p_le. rewrite (cmp_anti _ p_cmp_laws x y), E. simpl. congruence.
    + rewrite Forall_forall in F. auto.
Qed.
Lemma psort_sorted l : StronglySorted p_le (psort l).
Proof. induction l; simpl; [constructor|]. apply insert_sorted_sorted. auto. Qed.

Lemma sorted_perm_eq (l m : list point) : StronglySorted p_le l -> StronglySorted p_le m -> Permutation l m -> l = m.
Proof.
  intros Sl; revert m; induction Sl as [|x l S IH F]; intros m Sm P; [apply Permutation_nil in P; auto|].
  destruct Sm as [|y m Sm Fm]; [apply Permutation_sym, Permutation_nil in P; discriminate|].
  rewrite Forall_forall in F, Fm.
  assert (x = y) as ->.
  { assert (I1 : In x (y :: m)) by (eapply Permutation_in; [exact P|left; auto]).
    assert (I2 : In y (x :: l)) by (eapply Permutation_in; [apply Permutation_sym; exact P|left; auto]).
    destruct I1 as [->|I1]; auto. destruct I2 as [->|I2]; auto. apply p_le_antisym; auto. }
  f_equal. apply IH; auto. eapply Permutation_cons_inv; eauto.
Qed.
Lemma psort_eq l m : psort l = psort m <-> Permutation l m.
Proof.
  split; intros H.
  - rewrite (psort_perm l), H. symmetry. apply psort_perm.
  - apply sorted_perm_eq; auto using psort_sorted. rewrite <- (psort_perm l), H. apply psort_perm.
Qed.

(** *** the predicates *)
Section S.
  Variables (chk : Z -> outcome Z) (g : graph) (pos : nat -> point).
  Hypothesis C : constructed g.
  Hypothesis P : Placed chk g pos.
  Notation d := (gdim g).

  Lemma position_normalized_ret v : is_vertex g v -> position_normalized chk g v = Ret (map frac (pos v)).
  Proof. intros Hv. unfold position_normalized. rewrite (pl_ret _ _ _ P) by auto. reflexivity. Qed.

  Lemma is_stable_ret : is_stable chk g = Ret (negb (repeats p_eqb (fun v => map frac (pos v)) [] (vertices g))).
  Proof.
    unfold is_stable. assert (I : forall v, In v (vertices g) -> is_vertex g v) by (intros v; apply vertices_In).
    revert I. generalize (@nil point). induction (vertices g) as [|v vs IH]; intros seen I; cbn [repeats negb]; auto.
    rewrite position_normalized_ret by (apply I; simpl; auto). cbn [bind]. destruct (memb _ _ _); cbn [orb negb]; auto.
    apply IH. intros; apply I; simpl; auto.
  Qed.

  Lemma no_repetition_ret es seen : incl es (dedges g) -> no_repetition chk g seen es = Ret (negb (repeats p_eqb (evec d pos) seen es)).
  Proof.
    revert seen; induction es as [|e es IH]; intros seen I; cbn [no_repetition repeats negb]; auto.
    rewrite (edge_vector_ret chk g pos) by (auto; apply I; simpl; auto). cbn [bind]. destruct (memb _ _ _); cbn [orb negb]; auto.
    apply IH. intros x Hx; apply I; simpl; auto.
  Qed.

  Lemma is_locally_stable_ret : is_locally_stable chk g = Ret (forallb (fun v => negb (repeats p_eqb (evec d pos) [] (inc g v))) (vertices g)).
  Proof.
    unfold is_locally_stable. assert (I : forall v, In v (vertices g) -> is_vertex g v) by (intros v; apply vertices_In).
    revert I. induction (vertices g) as [|v vs IH]; intros I; cbn [forallb]; auto.
    rewrite incidences_vertex by (apply I; simpl; auto). cbn [bind]. rewrite no_repetition_ret by apply inc_incl. cbn [bind].
    destruct (negb _); cbn [andb]; auto. apply IH. intros; apply I; simpl; auto.
  Qed.

  Lemma mapM_evec es : incl es (dedges g) -> mapM (edge_vector chk g) es = Ret (map (evec d pos) es).
  Proof.
    induction es as [|e es IH]; intros I; simpl; auto. rewrite (edge_vector_ret chk g pos) by (auto; apply I; simpl; auto).
    cbn [bind]. rewrite IH by (intros x Hx; apply I; simpl; auto). auto.
  Qed.

  Lemma collisions_ret : has_second_order_collisions chk g =
    Ret (repeats ps_eqb (fun v => psort (map (evec d pos) (inc g v)) ++ [map frac (pos v)]) [] (vertices g)).
  Proof.
    unfold has_second_order_collisions. assert (I : forall v, In v (vertices g) -> is_vertex g v) by (intros v; apply vertices_In).
    revert I. generalize (@nil (list point)). induction (vertices g) as [|v vs IH]; intros seen I; cbn [repeats]; auto.
    rewrite incidences_vertex by (apply I; simpl; auto). cbn [bind]. rewrite mapM_evec by apply inc_incl. cbn [bind].
    rewrite position_normalized_ret by (apply I; simpl; auto). cbn [bind]. destruct (memb _ _ _); cbn [orb]; auto.
    apply IH. intros; apply I; simpl; auto.
  Qed.

  (** the only entry with vector [delta] *)
  Definition only (delta : point) (es : list edge) : option edge :=
    match filter (fun e => p_eqb delta (evec d pos e)) es with [e] => Some e | _ => None end.

  Lemma unique_deltas_ret es pre seen te : incl es (dedges g) ->
    (forall x, In x seen <-> exists e, In e pre /\ evec d pos e = x) ->
    (forall x, aget p_eqb x te = only x pre) ->
    exists r, unique_deltas chk g seen te es = Ret r /\ forall x, aget p_eqb x r = only x (pre ++ es).
  Proof.
    revert pre seen te; induction es as [|e es IH]; intros pre seen te I Hs Ht; cbn [unique_deltas].
    - exists te. split; auto. rewrite app_nil_r. auto.
    - rewrite (edge_vector_ret chk g pos) by (auto; apply I; simpl; auto). cbn [bind].
      assert (E : pre ++ e :: es = (pre ++ [e]) ++ es) by (rewrite <- app_assoc; auto). rewrite E.
      assert (On : forall x, only x (pre ++ [e]) = if p_eqb x (evec d pos e) then (match filter (fun f => p_eqb x (evec d pos f)) pre with [] => Some e | _ => None end) else only x pre).
      { intros x. unfold only. rewrite filter_app. simpl. destruct (p_eqb x (evec d pos e)).
        - destruct (filter _ pre) as [|a [|b l]]; auto.
        - rewrite app_nil_r. auto. }
      destruct (memb p_eqb (evec d pos e) seen) eqn:M.
      + apply IH; [intros x Hx; apply I; simpl; auto| |].
        * intros x. rewrite Hs. apply (memb_spec _ p_eqb_spec) in M. split.
          -- intros (f & Hf & <-). exists f. split; auto. apply in_or_app; auto.
          -- intros (f & Hf & <-). apply in_app_or in Hf as [Hf|[<-|[]]]; eauto. apply Hs; auto.
        * intros x. rewrite (aget_aremove _ p_eqb_spec), On, Ht.
          destruct (p_eqb_spec x (evec d pos e)) as [->|]; auto.
          apply (memb_spec _ p_eqb_spec) in M. apply Hs in M as (f & Hf & Ef).
          assert (If : In f (filter (fun f0 => p_eqb (evec d pos e) (evec d pos f0)) pre)).
          { apply filter_In. split; auto. rewrite Ef. destruct (p_eqb_spec (evec d pos e) (evec d pos e)); congruence. }
          destruct (filter _ pre); [destruct If|auto].
      + apply IH; [intros x Hx; apply I; simpl; auto| |].
        * intros x. rewrite (sinsert_In _ p_eqb_spec), Hs. split.
          -- intros [->|(f & Hf & <-)]; [exists e|exists f]; split; auto; apply in_or_app; simpl; auto.
          -- intros (f & Hf & <-). apply in_app_or in Hf as [Hf|[<-|[]]]; eauto.
        * intros x. rewrite (aget_aset _ p_eqb_spec), On, Ht.
          destruct (p_eqb_spec x (evec d pos e)) as [->|]; auto.
          apply (memb_false _ p_eqb_spec) in M.
          destruct (filter _ pre) as [|f l] eqn:Ef; auto. exfalso. apply M, Hs.
          assert (If : In f (filter (fun f0 => p_eqb (evec d pos e) (evec d pos f0)) pre)) by (rewrite Ef; simpl; auto).
          apply filter_In in If as [If Ev]. exists f. split; auto. destruct (p_eqb_spec (evec d pos e) (evec d pos f)); congruence.
  Qed.

  Lemma edges_by_unique_deltas_ret : exists m, edges_by_unique_deltas chk g = Ret m /\
    (forall v, ~ is_vertex g v -> aget Nat.eqb v m = None) /\
    forall v, is_vertex g v -> exists te, aget Nat.eqb v m = Some te /\ forall x, aget p_eqb x te = only x (inc g v).
  Proof.
    assert (H : forall vs, (forall v, In v vs -> is_vertex g v) -> exists m,
      foldM (fun m v => do inc <- incidences g v; do te <- unique_deltas chk g [] [] inc; Ret (aset Nat.eqb v te m)) [] vs = Ret m /\
      (forall v, ~ In v vs -> aget Nat.eqb v m = None) /\
      forall v, In v vs -> exists te, aget Nat.eqb v m = Some te /\ forall x, aget p_eqb x te = only x (inc g v)).
    { induction vs as [|v vs IH] using rev_ind; intros I.
      - exists []. splits; simpl; auto. tauto.
      - destruct IH as (m & E & H1 & H2); [intros; apply I, in_or_app; auto|]. rewrite foldM_app, E. cbn [bind foldM].
        assert (Hv : is_vertex g v) by (apply I, in_or_app; simpl; auto).
        rewrite incidences_vertex by auto. cbn [bind].
        destruct (unique_deltas_ret (inc g v) [] [] []) as (te & Et & Hte).
        + apply inc_incl.
        + intros x. simpl. split; [tauto|]. intros (e & [] & _).
        + intros x. reflexivity.
        + rewrite Et. cbn [bind]. eexists. splits; [reflexivity| |].
          * intros w Hw. rewrite (aget_aset _ Nat.eqb_spec). destruct (Nat.eqb_spec w v) as [->|]; [exfalso; apply Hw, in_or_app; simpl; auto|].
            apply H1. intros Iw. apply Hw, in_or_app. auto.
          * intros w Hw. rewrite (aget_aset _ Nat.eqb_spec). destruct (Nat.eqb_spec w v) as [->|]; [eauto|].
            apply in_app_or in Hw as [Hw|[->|[]]]; [auto|congruence]. }
    destruct (H (vertices g)) as (m & E & H1 & H2); [intros v; apply vertices_In|].
    exists m. splits; auto.
    - intros v Hv. apply H1. rewrite vertices_In. auto.
    - intros v Hv. apply H2, vertices_In. auto.
  Qed.

  Lemma edge_by_unique_delta_ret v x : edge_by_unique_delta chk g v x = Ret (if is_vertex_dec g v then only x (inc g v) else None).
  Proof.
    destruct edges_by_unique_deltas_ret as (m & E & H1 & H2). unfold edge_by_unique_delta. rewrite E. cbn [bind].
    destruct (is_vertex_dec g v) as [Hv|Hv].
    - destruct (H2 v Hv) as (te & Et & Hte). rewrite Et. rewrite Hte. auto.
    - rewrite H1 by auto. auto.
  Qed.
End S.
