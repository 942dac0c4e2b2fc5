(** Spanning trees without a root: every spanning tree of the quotient graph has exactly one orientation towards the first vertex. *)
From Coq Require Import List ZArith Lia Bool PeanoNat Permutation Sorted.
From Verif Require Import Base Partition Vec OrdSet PGraph Net PGraphBase Props_PGraph Props_Placement Props_Small Props_Trees.
Import ListNotations.
Local Open Scope nat_scope.
Local Open Scope list_scope.

(** ** specification *)
(** [s] is obtained from the edges of the graph by dropping some *)
Definition selection (g : graph) (s : list edge) : Prop := exists p : edge -> bool, s = filter p (gedges g).
(** a spanning tree of the quotient graph: a selection of edges that links all vertices, one less than there are vertices *)
Definition spanning (g : graph) (s : list edge) : Prop := selection g s /\ spanning_tree s (vertices g).
(** there are n of them *)
Definition spanning_count (g : graph) (n : nat) : Prop := exists ts, NoDup ts /\ (forall s, In s ts <-> spanning g s) /\ length ts = n.

(** ** proofs *)
Lemma filter_ext_inv {A} (p q : A -> bool) l : filter p l = filter q l -> forall x, In x l -> p x = q x.
Proof.
  intros E x Hx. assert (X : forall r, In x (filter r l) <-> r x = true) by (intros r; rewrite filter_In; tauto).
  apply eq_true_iff_eq. rewrite <- !X, E. tauto.
Qed.
Lemma NoDup_map_NoDup {A B} (f : A -> B) l : NoDup l -> (forall x y, In x l -> In y l -> f x = f y -> x = y) -> NoDup (map f l).
Proof.
  induction 1 as [|x l Nx Nl IH]; intros H; cbn [map]; constructor.
  - intros I. apply in_map_iff in I as (y & E & Hy). assert (y = x) by (apply H; cbn; auto). subst. auto.
  - apply IH. intros; apply H; cbn; auto.
Qed.
Lemma linked_trans es a b c : linked es a b -> linked es b c -> linked es a c.
Proof. intros H H'. induction H' as [|u w e _ IH He Ho]; auto. exact (linked_edge es a u w e IH He Ho). Qed.
Lemma linked_sym es v w : linked es v w -> linked es w v.
Proof.
  induction 1 as [|u w e H IH He Ho]; [constructor|]. apply linked_trans with u; auto.
  apply (linked_edge es w w u e); auto; [constructor|tauto].
Qed.

(** breadth first search: [leadsb] for any list of directed edges *)
Lemma leadsb_mono t v0 j k v : j <= k -> leadsb t v0 j v = true -> leadsb t v0 k v = true.
Proof.
  revert k v. induction j as [|j IH]; intros [|k] v L; cbn [leadsb]; rewrite ?orb_true_iff, ?Nat.eqb_eq; try lia; intros [->|H]; auto; try discriminate.
  right. apply existsb_exists in H as (e & He & H). apply andb_true_iff in H as [H1 H2]. apply existsb_exists. exists e. split; auto.
  rewrite H1. apply (IH k); auto. lia.
Qed.
Lemma choose_edges (P : edge -> Prop) ws : (forall w, In w ws -> exists e, head e = w /\ P e) -> exists t, map head t = ws /\ forall e, In e t -> P e.
Proof.
  induction ws as [|w ws IH]; intros H; [exists []; split; [auto|intros e []]|].
  destruct (H w (or_introl eq_refl)) as (e & Eh & He). destruct IH as (t & Et & Ht); [intros; apply H; cbn; auto|].
  exists (e :: t). cbn. split; [congruence|]. intros f [<-|I]; auto.
Qed.

Section S.
  Variables (g : graph) (v0 : nat) (ws : list nat).
  Hypotheses (C : constructed g) (O : others g v0 ws) (Hv0 : is_vertex g v0).
  Let NDw : NoDup ws. Proof. apply O. Qed.
  Let N0 : ~ In v0 ws. Proof. intros I. apply O in I as [_ I]. auto. Qed.

  Definition unroot (t : list edge) : list edge := filter (fun e => memb edge_eqb e (map canonical t)) (gedges g).
  Lemma unroot_In t e : rooted_tree g v0 ws t -> In e (unroot t) <-> In e (map canonical t).
  Proof.
    intros (_ & Hd & _). unfold unroot. rewrite filter_In, (memb_spec _ edge_eqb_spec). split; [tauto|]. intros I. split; auto.
    apply in_map_iff in I as (f & <- & Hf). apply (dedges_canonical g C). apply (directed_dedges g). auto.
  Qed.
  Lemma level t v : rooted_tree g v0 ws t -> In v (v0 :: ws) -> exists k, leadsk t v0 k v.
  Proof. intros (_ & _ & Hl) [<-|I]; [exists 0; constructor|]. apply leads_leadsk. auto. Qed.
  Lemma level_unique t k k' v : rooted_tree g v0 ws t -> leadsk t v0 k v -> leadsk t v0 k' v -> k = k'.
  Proof. intros (Hh & _ & _) H H'. apply (leadsk_unique t v0 ws Hh NDw N0 k v H k' H'). Qed.
  Lemma level_edge t k e : rooted_tree g v0 ws t -> In e t -> leadsk t v0 k (head e) -> exists j, k = S j /\ leadsk t v0 j (tail e).
  Proof.
    intros R He H. assert (Ih : In (head e) (v0 :: ws)) by (right; rewrite <- (proj1 R); apply in_map; auto).
    inversion H as [E1 E2|j f Hf Hj E1 E2].
    - exfalso. apply N0. rewrite E2. rewrite <- (proj1 R). apply in_map. auto.
    - exists j. split; auto. rewrite (head_inj t ws (proj1 R) NDw e f); auto.
  Qed.
  (** an edge and its reverse are not both in a rooted tree *)
  Lemma no_reverse t e : rooted_tree g v0 ws t -> In e t -> In (rev e) t -> False.
  Proof.
    intros R He Hr. assert (Ih : In (head e) (v0 :: ws)) by (right; rewrite <- (proj1 R); apply in_map; auto).
    destruct (level t _ R Ih) as [k Hk]. destruct (level_edge t k e R He Hk) as (j & -> & Hj).
    destruct (level_edge t j (rev e) R Hr Hj) as (i & -> & Hi). cbn [rev tail] in Hi. pose proof (level_unique t _ _ _ R Hk Hi). lia.
  Qed.
  Lemma canonical_once t e f : rooted_tree g v0 ws t -> In e t -> In f t -> canonical e = canonical f -> e = f.
  Proof. intros R He Hf E. apply canonical_eq in E as [->| ->]; auto. exfalso. apply (no_reverse t f R); auto. Qed.
  Lemma tree_NoDup t : rooted_tree g v0 ws t -> NoDup t.
  Proof. intros (Hh & _). apply (NoDup_map_inv head). rewrite Hh. auto. Qed.
  Lemma all_vertices v : In v (vertices g) <-> In v (v0 :: ws).
  Proof. rewrite vertices_In. split; [intros Hv; destruct (Nat.eq_dec v v0) as [->|]; [left; auto|right; apply O; auto]|intros [<-|I]; auto; apply O; auto]. Qed.
  Lemma vertices_length : length (vertices g) = S (length ws).
  Proof.
    change (S (length ws)) with (length (v0 :: ws)). apply Permutation_length, NoDup_Permutation; [apply (usort_NoDup _ nat_cmp_laws)|constructor; auto|]. apply all_vertices.
  Qed.
  Lemma unroot_spanning t : rooted_tree g v0 ws t -> spanning g (unroot t).
  Proof.
    intros R. split; [eexists; reflexivity|]. pose proof R as (Hh & Hd & Hl). unfold spanning_tree.
    assert (Nu : NoDup (unroot t)) by (apply NoDup_filter, c_NoDup; auto).
    assert (Nm : NoDup (map canonical t)) by (apply NoDup_map_NoDup; [apply tree_NoDup; auto|intros; eapply canonical_once; eauto]).
    splits; auto.
    - apply (usort_NoDup _ nat_cmp_laws).
    - rewrite vertices_length, <- Hh. f_equal. rewrite map_length, <- (map_length canonical t). apply Permutation_length, NoDup_Permutation; auto. intros e. apply unroot_In; auto.
    - intros e He. apply filter_In in He as [He _]. split; apply vertices_In; exists e; auto.
    - assert (L : forall v, In v (vertices g) -> linked (unroot t) v v0).
      { intros v Hv. apply all_vertices in Hv. destruct (level t v R Hv) as [k Hk]. clear Hv. induction Hk as [|k e He H IH]; [constructor|].
        apply linked_trans with (tail e); auto. assert (I : In (canonical e) (unroot t)) by (apply unroot_In; auto; apply in_map; auto).
        eapply linked_edge; [constructor|exact I|]. destruct (canonical_cases e) as [E|E]; rewrite E; cbn [rev head tail]; auto. }
      intros v w Hv Hw. apply linked_trans with v0; auto. apply linked_sym; auto.
  Qed.
  Lemma unroot_inj t t' : rooted_tree g v0 ws t -> rooted_tree g v0 ws t' -> unroot t = unroot t' -> t = t'.
  Proof.
    intros R R' E. assert (Cn : forall e, In e t -> In e t' \/ In (rev e) t').
    { intros e He. assert (I : In (canonical e) (unroot t)) by (apply unroot_In; auto; apply in_map; auto). rewrite E in I. apply unroot_In in I; auto.
      apply in_map_iff in I as (f & Ef & Hf). apply canonical_eq in Ef as [->| ->]; auto. }
    assert (K : forall k e, In e t -> leadsk t v0 k (head e) -> In e t').
    { induction k as [k IH] using lt_wf_ind. intros e He Hk. destruct (Cn e He) as [I|I]; auto. exfalso.
      destruct (level_edge t k e R He Hk) as (j & -> & Hj). inversion Hj as [E1 E2|i f Hf Hi E1 E2].
      - apply N0. rewrite E2. change (tail e) with (head (rev e)). rewrite <- (proj1 R'). apply in_map. auto.
      - (* the edge out of tail e is the same in both trees, and it is rev e *)
        rewrite <- E2 in Hj. assert (If : In f t') by (apply (IH (S i)); [lia|auto|rewrite E1; auto]).
        assert (f = rev e) by (apply (head_inj t' ws (proj1 R') NDw); auto). subst f. apply (no_reverse t e R); auto. }
    assert (K' : incl t t').
    { intros e He. assert (Ih : In (head e) (v0 :: ws)) by (right; rewrite <- (proj1 R); apply in_map; auto). destruct (level t _ R Ih) as [k Hk]. eapply K; eauto. }
    pose proof (proj1 R) as H1. pose proof (proj1 R') as H2. rewrite <- H1 in H2.
    assert (HI : forall e f, In e t' -> In f t' -> head e = head f -> e = f) by (intros; apply (head_inj t' ws (proj1 R') NDw); auto).
    clear - H2 K' HI. revert t' H2 K' HI. induction t as [|e t IH]; intros [|e' t'] H2 K HI; try discriminate; auto. cbn in H2. injection H2 as Eh Et.
    assert (e = e') by (symmetry; apply HI; auto; [left; auto|apply K; left; auto]). subst e'. f_equal. 
    (* elements of t are in t' *)
    apply IH; auto.
    - intros f Hf. destruct (K f (or_intror Hf)) as [<-|]; auto.
      apply (in_map head) in Hf. rewrite <- Et in Hf. apply in_map_iff in Hf as (f' & Ef & Hf'). rewrite (HI e f'); cbn; auto.
    - intros; apply HI; cbn; auto.
  Qed.
  Lemma orient s : spanning g s -> exists t, rooted_tree g v0 ws t /\ unroot t = s.
  Proof.
    intros ((p & Es) & ND & _ & Ls & He & Lk). set (ds := flat_map (fun e => [e; rev e]) s).
    assert (Ds : forall e, In e ds <-> exists f, In f s /\ (e = f \/ e = rev f)).
    { intros e. unfold ds. rewrite in_flat_map. split; intros (f & Hf & H); exists f; split; auto; cbn in *; intuition. }
    assert (B : forall v, In v (v0 :: ws) -> exists k, leadsb ds v0 k v = true).
    { intros v Hv. assert (L : linked s v0 v) by (apply Lk; apply all_vertices; cbn; auto). clear Hv. induction L as [|u w e L [k IH] I Ho].
      - exists 0. cbn. rewrite Nat.eqb_refl. auto.
      - exists (S k). cbn [leadsb]. rewrite orb_true_iff. right. apply existsb_exists. destruct Ho as [[E1 E2]|[E1 E2]].
        + exists (rev e). split; [apply Ds; eauto|]. cbn [rev head tail]. rewrite E2, Nat.eqb_refl, E1. auto.
        + exists e. split; [apply Ds; eauto|]. rewrite E1, Nat.eqb_refl, E2. auto. }
    destruct (choose_edges (fun e => In e ds /\ exists j, leadsb ds v0 j (tail e) = true /\ leadsb ds v0 j (head e) = false) ws) as (t & Ht & Pt).
    { intros w Hw. destruct (B w (or_intror Hw)) as [k Hk]. induction k as [|k IH].
      - cbn in Hk. rewrite orb_false_r in Hk. apply Nat.eqb_eq in Hk. subst w. exfalso. auto.
      - destruct (leadsb ds v0 k w) eqn:Ek; [auto|]. cbn [leadsb] in Hk. apply orb_true_iff in Hk as [Hk|Hk].
        + apply Nat.eqb_eq in Hk. subst w. exfalso. auto.
        + apply existsb_exists in Hk as (e & I & Hk). apply andb_true_iff in Hk as [H1 H2]. apply Nat.eqb_eq in H1. exists e. splits; auto. exists k. rewrite H1. auto. }
    assert (Inc : forall e, In e ds -> In (head e) (v0 :: ws) /\ In (tail e) (v0 :: ws)).
    { intros e I. apply Ds in I as (f & Hf & Ef). destruct (He f Hf) as [H1 H2]. apply all_vertices in H1, H2. destruct Ef as [->| ->]; cbn [rev head tail]; auto. }
    assert (R : rooted_tree g v0 ws t).
    { unfold rooted_tree. splits; auto.
      - intros e I. apply Pt in I as [I _]. apply Ds in I as (f & Hf & Ef). exists f. split; auto. rewrite Es in Hf. apply filter_In in Hf. tauto.
      - assert (K : forall k w, leadsb ds v0 k w = true -> In w (v0 :: ws) -> leads t v0 w).
        { induction k as [|k IH]; intros w Hk Hw.
          - cbn in Hk. rewrite orb_false_r in Hk. apply Nat.eqb_eq in Hk. subst w. constructor.
          - destruct Hw as [<-|Hw]; [constructor|]. rewrite <- Ht in Hw. apply in_map_iff in Hw as (e & <- & I). destruct (Pt e I) as (Ie & j & J1 & J2). constructor; auto.
            apply IH; [|apply Inc; auto]. apply (leadsb_mono ds v0 j); auto. destruct (Nat.le_gt_cases j k) as [|G]; auto. exfalso.
            rewrite (leadsb_mono ds v0 (S k) j) in J2; auto; discriminate. }
        intros w Hw. destruct (B w (or_intror Hw)) as [k Hk]. apply (K k); auto. right. auto. }
    exists t. split; auto.
    assert (Sub : incl (unroot t) s).
    { intros e I. apply unroot_In in I; auto. apply in_map_iff in I as (f & <- & Hf). apply Pt in Hf as [Hf _]. apply Ds in Hf as (f0 & Hf0 & Ef).
      assert (Cf : canonical f0 = f0) by (apply (c_canon g C); rewrite Es in Hf0; apply filter_In in Hf0; tauto). destruct Ef as [->| ->]; rewrite ?canonical_rev, Cf; auto. }
    destruct (unroot_spanning t R) as (_ & Nu & _ & Lu & _).
    assert (Sup : incl s (unroot t)) by (apply NoDup_length_incl; auto; lia).
    unfold unroot. rewrite Es. apply filter_ext_in. intros e Ig.
    assert (X : In e s <-> p e = true) by (rewrite Es, filter_In; tauto). assert (Y : In e (unroot t) <-> memb edge_eqb e (map canonical t) = true) by (unfold unroot; rewrite filter_In; tauto).
    apply eq_true_iff_eq. rewrite <- X, <- Y. split; auto.
  Qed.
  Lemma spanning_rooted n : spanning_count g n <-> tree_count g v0 ws n.
  Proof.
    split.
    - intros (ss & N & H & L).
      assert (Q : exists ts, map unroot ts = ss /\ forall t, In t ts -> rooted_tree g v0 ws t).
      { assert (Hs : forall s, In s ss -> spanning g s) by (intros; apply H; auto). clear - Hs C O Hv0 NDw N0. induction ss as [|s ss IH]; [exists []; split; [auto|intros t []]|].
        destruct IH as (ts & E & Ht); [intros; apply Hs; cbn; auto|]. destruct (orient s (Hs s (or_introl eq_refl))) as (t & R & Et). exists (t :: ts). cbn. split; [congruence|]. intros x [<-|I]; auto. }
      destruct Q as (ts & E & Ht). exists ts. splits.
      + apply (NoDup_map_inv unroot). rewrite E. auto.
      + intros t. split; auto. intros R. pose proof (unroot_spanning t R) as Sp. apply H in Sp. rewrite <- E in Sp. apply in_map_iff in Sp as (t' & Et & I).
        rewrite (unroot_inj t t'); auto.
      + rewrite <- L, <- E, map_length. auto.
    - intros (ts & N & H & L). exists (map unroot ts). splits.
      + apply NoDup_map_NoDup; auto. intros x y Hx Hy. apply unroot_inj; apply H; auto.
      + intros s. rewrite in_map_iff. split.
        * intros (t & <- & I). apply unroot_spanning. apply H; auto.
        * intros Sp. destruct (orient s Sp) as (t & R & E). exists t. split; auto. apply H; auto.
      + rewrite map_length. auto.
  Qed.
End S.
