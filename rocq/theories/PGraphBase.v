(** Basic facts about the model of src/pgraphs.rs: orders, equality tests,
    shifts, canonical edges, incidences. *)
From Coq Require Import List ZArith Lia Bool PeanoNat Permutation Sorted.
From Verif Require Import Base Vec Scalars OrdSet PGraph Net.
Import ListNotations.
Open Scope nat_scope.

(** *** shifts *)
Lemma sadd_vadd a b : sadd a b = vadd a b.
Proof. reflexivity. Qed.
Lemma sadd_length a b : length a = length b -> length (sadd a b) = length a.
Proof. intros E. unfold sadd. rewrite (zipw_length (R := Z)), E. lia. Qed.
Lemma ssub_length a b : length a = length b -> length (ssub a b) = length a.
Proof. intros E. unfold ssub. rewrite (zipw_length (R := Z)), E. lia. Qed.
Lemma sneg_length a : length (sneg a) = length a.
Proof. apply map_length. Qed.
Lemma szero_length d : length (szero d) = d.
Proof. apply repeat_length. Qed.

Lemma vget_sadd (a b : list Z) i : length a = length b -> vget (sadd a b) i = (vget a i + vget b i)%Z.
Proof. exact (vget_vadd (R := Z) a b i). Qed.
Lemma vget_ssub (a b : list Z) i : length a = length b -> vget (ssub a b) i = (vget a i - vget b i)%Z.
Proof.
  unfold vget, ssub. revert b i; induction a as [|x a IH]; intros [|y b] i E; simpl in *; try lia.
  - destruct i; reflexivity.
  - destruct i; auto.
Qed.
Lemma vget_sneg (a : list Z) i : vget (sneg a) i = (- vget a i)%Z.
Proof. unfold vget, sneg. revert i; induction a as [|x a IH]; intros [|i]; simpl; auto. Qed.
Lemma vget_szero d i : vget (szero d) i = 0%Z.
Proof. exact (vget_vzero (R := Z) d i). Qed.

(** equations between shifts of the same length *)
Ltac slen := repeat (rewrite sadd_length || rewrite ssub_length || rewrite sneg_length || rewrite szero_length || rewrite (vscale_length (R := Z))); try congruence; try lia.
Ltac seq := apply (vec_ext (R := Z)); [slen|intros i_ Hi_; repeat ((rewrite vget_sadd by slen) || (rewrite vget_ssub by slen) || rewrite vget_sneg || rewrite vget_szero); try lia].

Lemma sadd_comm a b : sadd a b = sadd b a.
Proof. exact (vadd_comm (R := Z) a b). Qed.
Lemma sadd_assoc a b c : sadd a (sadd b c) = sadd (sadd a b) c.
Proof. exact (vadd_assoc (R := Z) a b c). Qed.
Lemma sneg_sneg a : sneg (sneg a) = a.
Proof. unfold sneg. rewrite map_map. rewrite <- (map_id a) at 2. apply map_ext. intros; lia. Qed.
Lemma sneg_inj a b : sneg a = sneg b -> a = b.
Proof. intros E. rewrite <- (sneg_sneg a), E, sneg_sneg. auto. Qed.
Lemma sneg_szero d : sneg (szero d) = szero d.
Proof. unfold sneg, szero. induction d; simpl; congruence. Qed.
Lemma sadd_0_r d a : length a = d -> sadd a (szero d) = a.
Proof. intros. seq. Qed.
Lemma sadd_0_l d a : length a = d -> sadd (szero d) a = a.
Proof. intros. seq. Qed.
Lemma sadd_cancel_r a b c : length a = length c -> length b = length c -> sadd a c = sadd b c -> a = b.
Proof.
  intros Ha Hb E. apply (vec_ext (R := Z)); [congruence|]. intros i _.
  assert (F : vget (sadd a c) i = vget (sadd b c) i) by congruence. rewrite !vget_sadd in F by auto. lia.
Qed.

Lemma s_eqb_spec a b : reflect (a = b) (s_eqb a b).
Proof.
  revert b; induction a as [|x a IH]; intros [|y b]; simpl; try (constructor; congruence).
  destruct (Z.eqb_spec x y); simpl; [|constructor; congruence].
  destruct (IH b); constructor; congruence.
Qed.

Lemma lex_eq c d : lex c d = Eq <-> c = Eq /\ d = Eq.
Proof. destruct c, d; simpl; intuition congruence. Qed.
Lemma lex_opp c d : CompOpp (lex c d) = lex (CompOpp c) (CompOpp d).
Proof. destruct c; reflexivity. Qed.

Lemma Z_cmp_laws : cmp_laws Z.compare.
Proof.
  split.
  - intros; apply Z.compare_eq_iff.
  - intros; apply Z.compare_antisym.
  - intros x y z. rewrite !Z.compare_lt_iff. lia.
Qed.
Lemma nat_cmp_laws : cmp_laws Nat.compare.
Proof.
  split.
  - intros; apply Nat.compare_eq_iff.
  - intros; apply Nat.compare_antisym.
  - intros x y z. rewrite !Nat.compare_lt_iff. lia.
Qed.

Lemma s_cmp_laws : cmp_laws s_cmp.
Proof.
  split.
  - induction x as [|x a IH]; intros [|y b]; simpl; try (split; congruence).
    rewrite lex_eq, IH, Z.compare_eq_iff. split; [intros [-> ->]; auto|intros [= -> ->]; auto].
  - induction x as [|x a IH]; intros [|y b]; simpl; auto.
    rewrite lex_opp, <- IH, <- Z.compare_antisym. auto.
  - induction x as [|x a IH]; intros [|y b] [|z c]; simpl; auto; try discriminate.
    destruct (Z.compare_spec x y), (Z.compare_spec y z); simpl; try discriminate; subst; intros H1 H2.
    + rewrite Z.compare_refl. simpl. eauto.
    + destruct (Z.compare_spec y z); simpl; auto; lia.
    + destruct (Z.compare_spec x z); simpl; auto; lia.
    + destruct (Z.compare_spec x z); simpl; auto; lia.
Qed.

(** *** edges *)
Lemma edge_eqb_spec e f : reflect (e = f) (edge_eqb e f).
Proof.
  destruct e as [h t s], f as [h' t' s']. unfold edge_eqb; simpl.
  destruct (Nat.eqb_spec h h'); simpl; [|constructor; congruence].
  destruct (Nat.eqb_spec t t'); simpl; [|constructor; congruence].
  destruct (s_eqb_spec s s'); constructor; congruence.
Qed.

Lemma edge_cmp_laws : cmp_laws edge_cmp.
Proof.
  split; unfold edge_cmp.
  - intros [h t s] [h' t' s']; simpl. rewrite !lex_eq, (cmp_eq _ s_cmp_laws), !Nat.compare_eq_iff.
    split; [intros (-> & -> & ->); auto|intros [= -> -> ->]; auto].
  - intros [h t s] [h' t' s']; simpl. rewrite !lex_opp, <- (cmp_anti _ s_cmp_laws), <- !Nat.compare_antisym. auto.
  - intros [h t s] [h' t' s'] [h2 t2 s2]; simpl.
    destruct (Nat.compare_spec h h'), (Nat.compare_spec h' h2); simpl; try discriminate; subst.
    + rewrite Nat.compare_refl. simpl.
      destruct (Nat.compare_spec t t'), (Nat.compare_spec t' t2); simpl; try discriminate; subst; intros H1 H2.
      * rewrite Nat.compare_refl. simpl. eapply (cmp_trans _ s_cmp_laws); eauto.
      * destruct (Nat.compare_spec t' t2); simpl; auto; lia.
      * destruct (Nat.compare_spec t t2); simpl; auto; lia.
      * destruct (Nat.compare_spec t t2); simpl; auto; lia.
    + intros _ _. destruct (Nat.compare_spec h' h2); simpl; auto; lia.
    + intros _ _. destruct (Nat.compare_spec h h2); simpl; auto; lia.
    + intros _ _. destruct (Nat.compare_spec h h2); simpl; auto; lia.
Qed.

Lemma rev_rev e : rev (rev e) = e.
Proof. destruct e; unfold rev; simpl. rewrite sneg_sneg. auto. Qed.
Lemma rev_inj e f : rev e = rev f -> e = f.
Proof. intros E. rewrite <- (rev_rev e), E, rev_rev. auto. Qed.

Lemma s_neg_cases a : s_is_negative a = true /\ s_is_negative (sneg a) = false \/
  s_is_negative a = false /\ s_is_negative (sneg a) = true \/
  s_is_negative a = false /\ s_is_negative (sneg a) = false /\ sneg a = a.
Proof.
  induction a as [|x a IH]; simpl; [tauto|].
  destruct (Z.lt_trichotomy x 0) as [H|[->|H]].
  - left. replace (x <? 0)%Z with true by lia. replace (- x <? 0)%Z with false by lia. replace (- x =? 0)%Z with false by lia. auto.
  - simpl. destruct IH as [IH|[IH|(IH1 & IH2 & IH3)]]; auto.
    do 2 right. splits; auto. f_equal; auto.
  - right. left. replace (x <? 0)%Z with false by lia. replace (x =? 0)%Z with false by lia. replace (- x <? 0)%Z with true by lia. auto.
Qed.

Lemma canonical_cases e : canonical e = e \/ canonical e = rev e.
Proof. unfold canonical. destruct (_ || _); auto. Qed.

Lemma canonical_rev e : canonical (rev e) = canonical e.
Proof.
  destruct e as [h t s]. unfold canonical, rev; simpl. rewrite sneg_sneg, (Nat.eqb_sym h t).
  destruct (Nat.ltb_spec h t), (Nat.ltb_spec t h); simpl; try lia; auto.
  - destruct (Nat.eqb_spec t h); try lia; auto.
  - destruct (Nat.eqb_spec t h); try lia; auto.
  - assert (h = t) by lia. subst. rewrite Nat.eqb_refl. simpl.
    destruct (s_neg_cases s) as [[-> ->]|[[-> ->]|(-> & -> & ->)]]; auto.
Qed.

Lemma canonical_idem e : canonical (canonical e) = canonical e.
Proof. destruct (canonical_cases e) as [E|E]; rewrite E at 1; auto. apply canonical_rev. Qed.

Lemma canonical_eq e f : canonical e = canonical f <-> e = f \/ e = rev f.
Proof.
  split.
  - intros E. destruct (canonical_cases e) as [A|A], (canonical_cases f) as [B|B]; rewrite A, B in E.
    + auto. + auto. + right. rewrite <- E, rev_rev. auto. + left. apply rev_inj; auto.
  - intros [->| ->]; auto. apply canonical_rev.
Qed.

Lemma shift_rev_length e : length (shift (rev e)) = length (shift e).
Proof. apply sneg_length. Qed.
Lemma shift_canonical_length e : length (shift (canonical e)) = length (shift e).
Proof. destruct (canonical_cases e) as [->| ->]; auto using shift_rev_length. Qed.

(** *** graphs *)
Lemma gnew_edges d raw e : In e (gedges (gnew d raw)) <-> exists f, In f raw /\ e = canonical f.
Proof.
  unfold gnew; simpl. rewrite (usort_In _ edge_cmp_laws), in_map_iff. split; intros (f & A & B); exists f; auto.
Qed.

Section G.
  Variable g : graph.
  Hypothesis C : constructed g.

  Lemma c_dim e : In e (gedges g) -> length (shift e) = gdim g.
  Proof.
    destruct C as (raw & Hd & E). intros H. rewrite E in H. apply gnew_edges in H as (f & Hf & ->).
    rewrite shift_canonical_length. apply Hd; auto.
  Qed.
  Lemma c_canon e : In e (gedges g) -> canonical e = e.
  Proof.
    destruct C as (raw & Hd & E). intros H. rewrite E in H. apply gnew_edges in H as (f & Hf & ->).
    apply canonical_idem.
  Qed.
  Lemma c_sorted : StronglySorted (lt_ edge_cmp) (gedges g).
  Proof. destruct C as (raw & Hd & E). rewrite E. apply usort_sorted, edge_cmp_laws. Qed.
  Lemma c_NoDup : NoDup (gedges g).
  Proof. apply (sorted_NoDup _ edge_cmp_laws), c_sorted. Qed.
  Lemma c_new : g = gnew (gdim g) (gedges g).
  Proof.
    transitivity (Graph (gdim g) (gedges g)); [destruct g; auto|]. unfold gnew. f_equal.
    apply (sorted_unique _ edge_cmp_laws); [apply c_sorted|apply usort_sorted, edge_cmp_laws|].
    intros e. rewrite (usort_In _ edge_cmp_laws). simpl. rewrite in_map_iff. split.
    - intros H. exists e. split; auto. apply c_canon. auto.
    - intros (f & <- & Hf). rewrite c_canon by auto. auto.
  Qed.

  Definition dedges : list edge := flat_map (fun e => [e; rev e]) (gedges g).

  Lemma dedges_In f : In f dedges <-> exists e, In e (gedges g) /\ (f = e \/ f = rev e).
  Proof.
    unfold dedges. rewrite in_flat_map. split; intros (e & He & Hf); exists e; split; auto; simpl in *; intuition.
  Qed.
  Lemma dedges_rev f : In f dedges -> In (rev f) dedges.
  Proof.
    rewrite !dedges_In. intros (e & He & [->| ->]); exists e; split; auto. rewrite rev_rev. auto.
  Qed.
  Lemma dedges_dim f : In f dedges -> length (shift f) = gdim g.
  Proof. rewrite dedges_In. intros (e & He & [->| ->]); rewrite ?shift_rev_length; apply c_dim; auto. Qed.
  Lemma dedges_canonical f : In f dedges -> In (canonical f) (gedges g).
  Proof.
    rewrite dedges_In. intros (e & He & [->| ->]); rewrite ?canonical_rev, c_canon; auto.
  Qed.
End G.

Lemma vertices_In g v : In v (vertices g) <-> is_vertex g v.
Proof.
  unfold vertices. rewrite (usort_In _ nat_cmp_laws), in_flat_map. unfold is_vertex.
  split; intros (e & He & H); exists e; split; auto; simpl in *; intuition.
Qed.

Lemma vertices_dedges g v : is_vertex g v <-> exists f, In f (dedges g) /\ head f = v.
Proof.
  split.
  - intros (e & He & [->| ->]); [exists e|exists (rev e)]; split; auto; apply dedges_In; eauto.
  - intros (f & Hf & <-). apply dedges_In in Hf as (e & He & [->| ->]); exists e; split; simpl; auto.
Qed.

Lemma dedges_vertices g f : In f (dedges g) -> is_vertex g (head f) /\ is_vertex g (tail f).
Proof.
  intros H. split; apply vertices_dedges.
  - eauto.
  - exists (rev f). split; auto. apply dedges_rev; auto.
Qed.

Lemma incidence_map_get g v :
  aget Nat.eqb v (incidence_map g) =
  match filter (fun e => head e =? v) (dedges g) with [] => None | l => Some l end.
Proof.
  unfold incidence_map. change (flat_map (fun e => [e; rev e]) (gedges g)) with (dedges g).
  assert (H : forall l m pre,
    (forall v, aget Nat.eqb v m = match filter (fun e => head e =? v) pre with [] => None | l => Some l end) ->
    aget Nat.eqb v (fold_left push_edge l m) = match filter (fun e => head e =? v) (pre ++ l) with [] => None | l => Some l end).
  { clear. induction l as [|e l IH]; intros m pre H; simpl.
    - rewrite app_nil_r. auto.
    - rewrite (IH _ (pre ++ [e])).
      + rewrite <- app_assoc. auto.
      + intros u. unfold push_edge. rewrite filter_app. simpl. rewrite (H (head e)).
        destruct (Nat.eqb_spec (head e) u) as [<-|Hn].
        * destruct (filter (fun e0 => head e0 =? head e) pre) eqn:F; rewrite (aget_aset _ Nat.eqb_spec), Nat.eqb_refl; auto.
        * rewrite app_nil_r. destruct (filter (fun e0 => head e0 =? head e) pre) eqn:F;
            rewrite (aget_aset _ Nat.eqb_spec), (H u); destruct (Nat.eqb_spec u (head e)); try congruence; auto. }
  apply (H _ [] []). auto.
Qed.

Definition inc (g : graph) (v : nat) : list edge := filter (fun e => head e =? v) (dedges g).

Lemma inc_In g v e : In e (inc g v) <-> In e (dedges g) /\ head e = v.
Proof. unfold inc. rewrite filter_In, Nat.eqb_eq. tauto. Qed.

Lemma inc_nil g v : inc g v = [] <-> ~ is_vertex g v.
Proof.
  split.
  - intros E H. apply vertices_dedges in H as (f & Hf & Hv). assert (In f (inc g v)) by (apply inc_In; auto).
    rewrite E in *. contradiction.
  - intros H. destruct (inc g v) as [|f l] eqn:E; auto. exfalso. apply H. apply vertices_dedges. exists f.
    apply inc_In. rewrite E. left; auto.
Qed.

Lemma incidences_vertex g v : is_vertex g v -> incidences g v = Ret (inc g v).
Proof.
  intros H. unfold incidences. rewrite incidence_map_get. fold (inc g v).
  destruct (inc g v) eqn:E; auto. exfalso. apply inc_nil in E. auto.
Qed.
Lemma incidences_no_vertex g v : ~ is_vertex g v -> incidences g v = Panic.
Proof.
  intros H. unfold incidences. rewrite incidence_map_get. fold (inc g v). apply inc_nil in H. rewrite H. auto.
Qed.

Lemma is_vertex_dec g v : {is_vertex g v} + {~ is_vertex g v}.
Proof. destruct (in_dec Nat.eq_dec v (vertices g)) as [H|H]; rewrite vertices_In in H; auto. Qed.

(** *** nodes and walks *)
Lemma node_eqb_spec a b : reflect (a = b) (node_eqb a b).
Proof.
  destruct a as [v s], b as [w t]. unfold node_eqb; simpl. destruct (Nat.eqb_spec v w); simpl; [|constructor; congruence].
  destruct (s_eqb_spec s t); constructor; congruence.
Qed.

Lemma sinsert_In {A} (eqb : A -> A -> bool) (E : forall x y, reflect (x = y) (eqb x y)) x l y :
  In y (sinsert eqb x l) <-> y = x \/ In y l.
Proof.
  unfold sinsert. destruct (memb eqb x l) eqn:M.
  - apply (memb_spec _ E) in M. split; auto. intros [->|]; auto.
  - rewrite in_app_iff. simpl. intuition.
Qed.
Lemma NoDup_snoc {A} (l : list A) x : NoDup l -> ~ In x l -> NoDup (l ++ [x]).
Proof. intros H Hx. apply (NoDup_Add (a := x) (l := l)); [rewrite <- (app_nil_r l) at 1; apply Add_app|auto]. Qed.
Lemma sinsert_NoDup {A} (eqb : A -> A -> bool) (E : forall x y, reflect (x = y) (eqb x y)) x l :
  NoDup l -> NoDup (sinsert eqb x l).
Proof.
  unfold sinsert. intros H. destruct (memb eqb x l) eqn:M; auto. apply NoDup_snoc; auto. apply (memb_false _ E); auto.
Qed.

Section N.
  Variable g : graph.
  Hypothesis C : constructed g.

  Lemma adjacent_dedges a b : is_node g a -> is_node g b ->
    adjacent g a b <-> exists e, In e (dedges g) /\ head e = fst a /\ tail e = fst b /\ snd b = sadd (snd a) (shift e).
  Proof.
    intros [_ La] [_ Lb]. destruct a as [v s], b as [w t]; simpl in *. split.
    - intros (e & He & [(E1 & E2 & E)|(E1 & E2 & E)]); simpl in *; subst.
      + exists e. rewrite dedges_In. splits; auto. exists e; auto.
      + exists (rev e). simpl. splits; auto; [apply dedges_In; eauto|]. pose proof (c_dim _ C _ He). seq.
    - intros (f & Hf & <- & <- & ->). apply dedges_In in Hf as (e & He & [->| ->]); exists e; split; simpl in *; auto.
      right. pose proof (c_dim _ C _ He). splits; auto. seq.
  Qed.

  Lemma edge_node a e : is_node g a -> In e (dedges g) -> is_node g (tail e, sadd (snd a) (shift e)).
  Proof.
    intros [H1 H2] He. split; simpl.
    - apply (dedges_vertices g e He).
    - pose proof (dedges_dim _ C _ He). slen.
  Qed.

  Lemma walk_nodes k a b : walk g k a b -> is_node g a /\ is_node g b.
  Proof. induction 1; tauto. Qed.

  Lemma adjacent_sym a b : adjacent g a b -> adjacent g b a.
  Proof. intros (e & He & [H|H]); exists e; auto. Qed.

  Lemma walk_trans j k a b c : walk g j a b -> walk g k b c -> walk g (j + k) a c.
  Proof.
    intros H1 H2. induction H2.
    - rewrite Nat.add_0_r. auto.
    - rewrite Nat.add_succ_r. econstructor; eauto.
  Qed.
  Lemma walk_1 a b : is_node g a -> is_node g b -> adjacent g a b -> walk g 1 a b.
  Proof. intros. econstructor; eauto. constructor; auto. Qed.
  Lemma walk_sym k a b : walk g k a b -> walk g k b a.
  Proof.
    induction 1.
    - constructor; auto.
    - change (S k) with (1 + k). eapply walk_trans; eauto. apply walk_1; auto.
      + apply walk_nodes in H. tauto.
      + apply adjacent_sym; auto.
  Qed.
  Lemma joined_sym a b : joined g a b -> joined g b a.
  Proof. intros [k H]. exists k. apply walk_sym; auto. Qed.
  Lemma joined_trans a b c : joined g a b -> joined g b c -> joined g a c.
  Proof. intros [k H] [j H']. exists (k + j). eapply walk_trans; eauto. Qed.
  Lemma joined_refl a : is_node g a -> joined g a a.
  Proof. exists 0. constructor; auto. Qed.
  Lemma joined_edge a e : is_node g a -> In e (dedges g) -> head e = fst a -> joined g a (tail e, sadd (snd a) (shift e)).
  Proof.
    intros Ha He Hh. exists 1. pose proof (edge_node a e Ha He). apply walk_1; auto. apply adjacent_dedges; auto.
    exists e. auto.
  Qed.

  (** translations *)
  Lemma adjacent_translate a b t :
    adjacent g a b -> adjacent g (fst a, sadd (snd a) t) (fst b, sadd (snd b) t).
  Proof.
    intros (e & He & H). exists e. split; auto; simpl.
    assert (X : forall x, sadd (sadd x (shift e)) t = sadd (sadd x t) (shift e)).
    { intros x. rewrite <- !sadd_assoc, (sadd_comm (shift e)). auto. }
    destruct H as [(? & ? & E)|(? & ? & E)]; [left|right]; splits; auto; rewrite E; apply X.
  Qed.
  Lemma walk_translate k a b t : length t = gdim g -> walk g k a b ->
    walk g k (fst a, sadd (snd a) t) (fst b, sadd (snd b) t).
  Proof.
    intros Ht H. assert (N : forall c, is_node g c -> is_node g (fst c, sadd (snd c) t)).
    { intros c [? ?]. split; simpl; auto. slen. }
    induction H; [constructor; auto|]. econstructor; eauto. apply (adjacent_translate b c); auto.
  Qed.
  Lemma joined_translate a b t : length t = gdim g -> joined g a b -> joined g (fst a, sadd (snd a) t) (fst b, sadd (snd b) t).
  Proof. intros Ht [k H]. exists k. apply walk_translate; auto. Qed.

  (** the nodes at the end of walks of length k *)
  Fixpoint reach (k : nat) (a : node) : list node :=
    match k with
    | 0 => [a]
    | S k => flat_map (fun b => map (fun e => (tail e, sadd (snd b) (shift e))) (inc g (fst b))) (reach k a)
    end.
  Lemma reach_walk k a b : is_node g a -> In b (reach k a) <-> walk g k a b.
  Proof.
    intros Ha. revert b. induction k as [|k IH]; intros b; simpl.
    - split.
      + intros [<-|[]]. constructor; auto.
      + inversion 1; auto.
    - rewrite in_flat_map. split.
      + intros (c & Hc & Hb). apply in_map_iff in Hb as (e & <- & He). apply inc_In in He as [He Hh].
        apply IH in Hc. pose proof (proj2 (walk_nodes _ _ _ Hc)) as Nc. pose proof (edge_node c e Nc He) as Nb.
        econstructor; eauto. apply adjacent_dedges; auto. exists e; auto.
      + inversion 1 as [|? ? c ? Hc Nb A]; subst. exists c. split; [apply IH; auto|].
        pose proof (proj2 (walk_nodes _ _ _ Hc)) as Nc. apply adjacent_dedges in A as (e & He & H1 & H2 & H3); auto.
        apply in_map_iff. exists e. split; [destruct b; simpl in *; congruence|]. apply inc_In; auto.
  Qed.
  Lemma node_dec (a b : node) : {a = b} + {a <> b}.
  Proof. destruct (node_eqb_spec a b); auto. Qed.
  Lemma walk_dec k a b : is_node g a -> {walk g k a b} + {~ walk g k a b}.
  Proof.
    intros Ha. destruct (in_dec node_dec b (reach k a)) as [H|H]; rewrite reach_walk in H; auto.
  Qed.
  Lemma distance_ex k a b : walk g k a b -> exists j, j <= k /\ distance g a b j.
  Proof.
    induction k as [k IH] using (well_founded_induction lt_wf). intros H.
    assert (Ha : is_node g a) by (apply walk_nodes in H; tauto).
    assert (D : (exists j, j < k /\ walk g j a b) \/ forall j, j < k -> ~ walk g j a b).
    { clear - C Ha. induction k as [|k IH]; [right; lia|]. destruct IH as [(j & Hj & W)|Hn]; [left; exists j; auto|].
      destruct (walk_dec k a b Ha) as [W|W]; [left; eauto|]. right. intros j Hj. destruct (Nat.eq_dec j k) as [->|]; auto. apply Hn. lia. }
    destruct D as [(j & Hj & W)|Hn].
    - destruct (IH j Hj W) as (i & Hi & D). exists i. split; auto. lia.
    - exists k. split; auto. split; auto.
  Qed.
End N.
