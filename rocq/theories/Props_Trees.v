(** Property C90: which nets have no placement, in terms of spanning trees.

    The determinant [tree_number] of C33 is the number of spanning trees of the quotient graph (the matrix-tree theorem,
    proved here).  A spanning tree is given by its edges directed towards the first vertex: one edge out of every other
    vertex, such that following these edges leads from everywhere to the first vertex. *)
From Coq Require Import List ZArith Lia Bool PeanoNat QArith Qcanon Permutation Znumtheory Sorted.
From Verif Require Import Base Partition Vec Matrix ZQ ModSolver ModSolve ModFinal OrdSet PGraph Net PGraphBase Traverse Index Placement Harmonic Placed Stability
  Props_PGraph Props_Placement Props_Small.
From Verif Require ModMC TreeBound DetZ MatrixTree.
Import ListNotations.
Local Open Scope nat_scope.
Local Open Scope list_scope.

(** ** specification *)
(** following the directed edges in [t] leads from v to w *)
Inductive leads (t : list edge) (w : nat) : nat -> Prop :=
| leads_end : leads t w w
| leads_edge e : In e t -> leads t w (tail e) -> leads t w (head e).
(** the directed edges of the quotient graph: each edge in both directions *)
Definition directed (g : graph) (e : edge) : Prop := exists e', In e' (gedges g) /\ (e = e' \/ e = rev e').
(** the spanning trees with root v0: one directed edge out of each of the other vertices ws, leading to v0 *)
Definition rooted_tree (g : graph) (v0 : nat) (ws : list nat) (t : list edge) : Prop :=
  map head t = ws /\ (forall e, In e t -> directed g e) /\ forall w, In w ws -> leads t v0 w.
(** there are n spanning trees *)
Definition tree_count (g : graph) (v0 : nat) (ws : list nat) (n : nat) : Prop :=
  exists ts, NoDup ts /\ (forall t, In t ts <-> rooted_tree g v0 ws t) /\ length ts = n.

(** ** expansion of a determinant along all rows *)
Section Expand.
  Context {A : Type}.
  Variables (E : nat -> list A) (R : nat -> A -> nat -> Z) (d0 : A).
  Fixpoint pick (n : nat) : list (list A) :=
    match n with O => [[]] | S k => flat_map (fun c => map (fun e => c ++ [e]) (E k)) (pick k) end.
  Lemma pick_In n c : In c (pick n) <-> length c = n /\ forall i, i < n -> In (nth i c d0) (E i).
  Proof.
    revert c. induction n as [|n IH]; intros c; cbn [pick].
    - cbn. split; [intros [<-|[]]; split; [auto|lia]|]. intros [L _]. destruct c; [auto|discriminate].
    - rewrite in_flat_map. split.
      + intros (c' & Hc & He). apply in_map_iff in He as (e & <- & He). apply IH in Hc as [L Hc]. split; [rewrite app_length; cbn; lia|].
        intros i Hi. destruct (Nat.eq_dec i n) as [->|N].
        * rewrite app_nth2, L, Nat.sub_diag by lia. auto.
        * rewrite app_nth1 by lia. apply Hc. lia.
      + intros [L H]. destruct (exists_last (l := c)) as (c' & e & ->); [intros ->; discriminate|]. rewrite app_length in L. cbn in L.
        exists c'. split.
        * apply IH. split; [lia|]. intros i Hi. specialize (H i ltac:(lia)). rewrite app_nth1 in H by lia. auto.
        * apply in_map_iff. exists e. split; auto. specialize (H n ltac:(lia)). rewrite app_nth2 in H by lia. replace (n - length c') with 0 in H by lia. auto.
  Qed.
  Lemma pick_NoDup n : (forall i, i < n -> NoDup (E i)) -> NoDup (pick n).
  Proof.
    induction n as [|n IH]; intros H; cbn [pick]; [repeat constructor; auto|].
    assert (P : NoDup (pick n)) by (apply IH; intros; apply H; lia). specialize (H n ltac:(lia)). clear IH.
    assert (X : forall l : list (list A), NoDup l -> NoDup (flat_map (fun c => map (fun e => c ++ [e]) (E n)) l)); [|auto].
    induction 1 as [|c l Nc N IH]; cbn; [constructor|].
    assert (Dis : forall x, In x (map (fun e => c ++ [e]) (E n)) -> ~ In x (flat_map (fun c => map (fun e => c ++ [e]) (E n)) l)).
    { intros x Hx Hx'. apply in_map_iff in Hx as (e & <- & _). apply in_flat_map in Hx' as (c' & Hc' & Hx'). apply in_map_iff in Hx' as (e' & Eq & _).
      apply app_inj_tail in Eq as [-> _]. auto. }
    revert IH Dis. generalize (flat_map (fun c => map (fun e => c ++ [e]) (E n)) l). intros r Nr Dis. clear - Nr Dis H. induction H as [|e es Ne Nd IH']; cbn; auto. constructor.
    - rewrite in_app_iff. intros [I|I].
      + apply in_map_iff in I as (e' & Eq & He'). apply app_inj_tail in Eq as [_ ->]. auto.
      + apply (Dis (c ++ [e])); cbn; auto.
    - apply IH'. intros x Hx. apply Dis. cbn. auto.
  Qed.
  Lemma lsum_flat_map {B} (f : B -> Z) (h : list A -> list B) l : lsum f (flat_map h l) = lsum (fun c => lsum f (h c)) l.
  Proof. induction l as [|c l IH]; cbn [flat_map]; auto. rewrite lsum_app, IH. reflexivity. Qed.
  Lemma lsum_map {B C} (f : C -> Z) (h : B -> C) l : lsum f (map h l) = lsum (fun c => f (h c)) l.
  Proof. induction l as [|c l IH]; cbn [map]; auto. rewrite !lsum_cons, IH. reflexivity. Qed.
  Lemma lsum_ext {B} (f f' : B -> Z) l : (forall x, In x l -> f x = f' x) -> lsum f l = lsum f' l.
  Proof. induction l as [|c l IH]; intros H; auto. rewrite !lsum_cons, IH, (H c) by (cbn; auto; intros; apply H; cbn; auto). reflexivity. Qed.

  Lemma expand_row n k (f : nat -> nat -> Z) (r : A -> nat -> Z) es : k < n ->
    ModMC.zdet n (fun i j => if i =? k then lsum (fun e => r e j) es else f i j) = lsum (fun e => ModMC.zdet n (fun i j => if i =? k then r e j else f i j)) es.
  Proof.
    intros Hk. induction es as [|e es IH].
    - cbn [lsum fold_right]. apply (@MatrixTree.zdet_row_zero n _ k); auto. intros j Hj. cbn beta. rewrite Nat.eqb_refl. reflexivity.
    - rewrite lsum_cons, <- IH, <- (@MatrixTree.zdet_row_add n f k) by auto. apply DetZ.zdet_ext. intros i j _ _. rewrite lsum_cons. reflexivity.
  Qed.

  Lemma expand_rows n k : k <= n -> forall f : nat -> nat -> Z,
    ModMC.zdet n (fun i j => if i <? k then lsum (fun e => R i e j) (E i) else f i j) =
    lsum (fun c => ModMC.zdet n (fun i j => if i <? k then R i (nth i c d0) j else f i j)) (pick k).
  Proof.
    induction k as [|k IH]; intros Hk f.
    - cbn [pick]. rewrite lsum_cons. cbn [lsum fold_right]. rewrite Z.add_0_r. reflexivity.
    - rewrite (DetZ.zdet_ext (h := fun i j => if i <? k then lsum (fun e => R i e j) (E i) else if i =? k then lsum (fun e => R k e j) (E k) else f i j)).
      2:{ intros i j _ _. destruct (Nat.ltb_spec i (S k)), (Nat.ltb_spec i k), (Nat.eqb_spec i k); subst; auto; lia. }
      rewrite (IH ltac:(lia)). cbn [pick]. rewrite lsum_flat_map. apply lsum_ext. intros c Hc. apply pick_In in Hc as [Lc _].
      rewrite lsum_map.
      rewrite (DetZ.zdet_ext (h := fun i j => if i =? k then lsum (fun e => R k e j) (E k) else if i <? k then R i (nth i c d0) j else f i j)).
      2:{ intros i j _ _. destruct (Nat.ltb_spec i k), (Nat.eqb_spec i k); subst; auto; lia. }
      rewrite expand_row by lia. apply lsum_ext. intros e _. apply DetZ.zdet_ext. intros i j _ _.
      destruct (Nat.ltb_spec i (S k)), (Nat.ltb_spec i k), (Nat.eqb_spec i k); subst; auto; try lia.
      + rewrite app_nth1 by lia. auto.
      + rewrite app_nth2, Nat.sub_diag by lia. auto.
  Qed.
  Lemma expand n : ModMC.zdet n (fun i j => lsum (fun e => R i e j) (E i)) = lsum (fun c => ModMC.zdet n (fun i j => R i (nth i c d0) j)) (pick n).
  Proof.
    rewrite (DetZ.zdet_ext (h := fun i j => if i <? n then lsum (fun e => R i e j) (E i) else 0%Z)).
    2:{ intros i j Hi _. destruct (Nat.ltb_spec i n); auto; lia. }
    rewrite expand_rows by auto. apply lsum_ext. intros c _. apply DetZ.zdet_ext. intros i j Hi _. destruct (Nat.ltb_spec i n); auto; lia.
  Qed.
End Expand.

(** ** following edges *)
Section Follow.
  Variables (t : list edge) (v0 : nat) (ws : list nat).
  Hypotheses (Hh : map head t = ws) (ND : NoDup ws) (N0 : ~ In v0 ws) (Cl : forall e, In e t -> In (tail e) (v0 :: ws)).
  Fixpoint leadsb (k : nat) (v : nat) : bool :=
    (v =? v0) || match k with O => false | S k => existsb (fun e => (head e =? v) && leadsb k (tail e)) t end.
  Inductive leadsk : nat -> nat -> Prop :=
  | lk_end : leadsk 0 v0
  | lk_edge k e : In e t -> leadsk k (tail e) -> leadsk (S k) (head e).
  Lemma head_inj e e' : In e t -> In e' t -> head e = head e' -> e = e'.
  Proof.
    clear - Hh ND. subst ws. intros. apply in_split in H as (l1 & l2 & E). rewrite E in *. rewrite map_app in ND. cbn in ND. apply NoDup_remove_2 in ND.
    apply in_app_or in H0. destruct H0 as [I|[I|I]]; auto; exfalso; apply ND; rewrite H1; apply in_or_app; [left|right]; apply in_map; auto.
  Qed.
  Lemma head_ws e : In e t -> In (head e) ws.
  Proof. intros H. rewrite <- Hh. apply in_map. auto. Qed.
  Lemma leadsk_unique k v : leadsk k v -> forall k', leadsk k' v -> k = k'.
  Proof.
    induction 1 as [|k e He H IH]; intros k' H'.
    - inversion H' as [|k1 e1 He1 H1 E1 E2]; auto. exfalso. apply N0. rewrite <- E2. apply head_ws. auto.
    - inversion H' as [E1 E2|k1 e1 He1 H1 E1 E2].
      + exfalso. apply N0. rewrite E2. apply head_ws. auto.
      + f_equal. apply IH. rewrite <- (head_inj e1 e); auto.
  Qed.
  Lemma leads_leadsk v : leads t v0 v <-> exists k, leadsk k v.
  Proof.
    split.
    - induction 1 as [|e He _ [k IH]]; [exists 0; constructor|exists (S k); constructor; auto].
    - intros [k H]. induction H; econstructor; eauto.
  Qed.
  Lemma leadsk_short k v : leadsk k v -> k <= length ws.
  Proof.
    intros H. assert (X : exists l, NoDup l /\ length l = S k /\ incl l (v0 :: ws) /\ forall x, In x l -> exists j, j <= k /\ leadsk j x).
    { induction H as [|k e He H (l & Nl & Ll & Il & Hl)].
      - exists [v0]. repeat split; auto; [repeat constructor; auto|intros x [<-|[]]; cbn; auto|]. intros x [<-|[]]. exists 0. split; auto. constructor.
      - exists (head e :: l). repeat split.
        + constructor; auto. intros I. apply Hl in I as (j & Hj & Hl'). pose proof (leadsk_unique _ _ (lk_edge k e He H) _ Hl'). lia.
        + cbn. lia.
        + intros x [<-|I]; [right; apply head_ws; auto|auto].
        + intros x [<-|I]; [exists (S k); split; auto; constructor; auto|]. apply Hl in I as (j & Hj & Hx). exists j. split; auto. }
    destruct X as (l & Nl & Ll & Il & _). apply NoDup_incl_length in Il; auto. cbn in Il. lia.
  Qed.
  Lemma leadsb_spec v : leadsb (length ws) v = true <-> leads t v0 v.
  Proof.
    split.
    - generalize (length ws). intros k. revert v. induction k as [|k IH]; intros v; cbn [leadsb]; rewrite orb_true_iff, Nat.eqb_eq.
      + intros [->|H]; [constructor|discriminate].
      + intros [->|H]; [constructor|]. apply existsb_exists in H as (e & He & H). apply andb_true_iff in H as [H1 H2]. apply Nat.eqb_eq in H1. subst v.
        constructor; auto.
    - intros H. apply leads_leadsk in H as [k H]. pose proof (leadsk_short k v H) as L. revert L. generalize (length ws). intros n.
      revert n. induction H as [|k e He H IH]; intros n L; destruct n; cbn [leadsb]; try lia; rewrite ?Nat.eqb_refl; auto.
      rewrite orb_true_iff. right. apply existsb_exists. exists e. split; auto. rewrite Nat.eqb_refl, IH by lia. auto.
  Qed.
  Lemma leads_next e : In e t -> leads t v0 (head e) <-> leads t v0 (tail e).
  Proof.
    intros He. split.
    - intros H. remember (head e) as v eqn:Ev. destruct H as [|e' He' H]; [exfalso; apply N0; rewrite Ev; apply head_ws; auto|].
      rewrite <- (head_inj e' e); auto.
    - intros H. constructor; auto.
  Qed.
End Follow.

(** ** the determinant of one choice *)
Section Choice.
  Variables (n : nat) (V : nat -> nat) (v0 : nat) (d0 : edge).
  Hypotheses (Vinj : forall i j, i < n -> j < n -> V i = V j -> i = j) (V0 : forall i, i < n -> V i <> v0).
  Variable c : list edge.
  Hypotheses (Lc : length c = n) (Hc : forall i, i < n -> head (nth i c d0) = V i /\ (tail (nth i c d0) = v0 \/ exists j, j < n /\ tail (nth i c d0) = V j)).
  Let M (i j : nat) : Z := (delta (j =? i)%nat - delta (V j =? tail (nth i c d0))%nat)%Z.

  Lemma zs_le m f f' : (forall i, i < m -> (f i <= f' i)%Z) -> (zs m f <= zs m f')%Z.
  Proof. induction m as [|m IH]; intros H; cbn [zs]; [lia|]. pose proof (IH (fun i Hi => H i (Nat.lt_lt_succ_r _ _ Hi))). pose proof (H m ltac:(lia)). lia. Qed.
  Lemma at_index (x : nat -> Z) j : j < n -> zs n (fun l => (delta (V l =? V j)%nat * x l)%Z) = x j.
  Proof.
    intros Hj. rewrite (zs_single n _ j); auto.
    - rewrite Nat.eqb_refl. cbn [delta]. lia.
    - intros i Hi N. destruct (Nat.eqb_spec (V i) (V j)) as [E|]; [exfalso; apply N, Vinj; auto|cbn; lia].
  Qed.
  Lemma at_root (x : nat -> Z) : zs n (fun l => (delta (V l =? v0)%nat * x l)%Z) = 0%Z.
  Proof. apply zs_zero. intros i Hi. destruct (Nat.eqb_spec (V i) v0) as [E|]; [exfalso; apply (V0 i Hi E)|cbn; lia]. Qed.
  Lemma row_value (x : nat -> Z) i : i < n -> zs n (fun j => (M i j * x j)%Z) = (x i - zs n (fun l => delta (V l =? tail (nth i c d0))%nat * x l))%Z.
  Proof.
    intros Hi. unfold M. rewrite (zs_ext n _ (fun j => delta (j =? i)%nat * x j + (-1) * (delta (V j =? tail (nth i c d0))%nat * x j))%Z) by (intros; lia).
    rewrite zs_add, zs_scale, (zs_single n _ i); auto.
    - rewrite Nat.eqb_refl. cbn [delta]. lia.
    - intros j Hj N. destruct (Nat.eqb_spec j i); [congruence|cbn; lia].
  Qed.
  Lemma heads : map head c = map V (seq 0 n).
  Proof.
    apply nth_ext with 0 0; [rewrite !map_length, seq_length; auto|]. intros i Hi. rewrite map_length, Lc in Hi.
    rewrite (nth_indep _ 0 (head d0)) by (rewrite map_length; lia). rewrite map_nth.
    rewrite (nth_indep (map V _) 0 (V 0)) by (rewrite map_length, seq_length; lia). rewrite map_nth, seq_nth by auto. apply Hc; auto.
  Qed.
  Lemma heads_NoDup : NoDup (map V (seq 0 n)).
  Proof.
    assert (X : forall l, NoDup l -> (forall i, In i l -> i < n) -> NoDup (map V l)).
    { induction 1 as [|i l Ni N IH]; intros H; cbn; constructor.
      - intros I. apply in_map_iff in I as (j & E & Hj). apply Ni. rewrite <- (Vinj j i); auto; apply H; cbn; auto.
      - apply IH. intros; apply H; cbn; auto. }
    apply X; [apply seq_NoDup|]. intros i Hi. apply in_seq in Hi. lia.
  Qed.
  Lemma heads_root : ~ In v0 (map V (seq 0 n)).
  Proof. intros I. apply in_map_iff in I as (i & E & Hi). apply in_seq in Hi. apply (V0 i); auto. lia. Qed.

  Lemma choice_bounds : (0 <= ModMC.zdet n M <= 1)%Z.
  Proof.
    destruct (@TreeBound.zdet_bound n M) as [B1 B2].
    - intros i j Hi Hj N. unfold M. destruct (Nat.eqb_spec j i); [congruence|]. pose proof (delta_pos (V j =? tail (nth i c d0))). cbn. lia.
    - intros i Hi. pose proof (row_value (fun _ => 1%Z) i Hi) as E. rewrite (zs_ext n _ (fun j => (M i j * 1)%Z)) by (intros; lia). rewrite E.
      destruct (Hc i Hi) as [_ [->|(j & Hj & ->)]]; [rewrite at_root; lia|rewrite (at_index (fun _ => 1%Z) j Hj); lia].
    - split; auto. eapply Z.le_trans; [exact B2|].
      assert (X : forall m, m <= n -> (0 <= ModMC.bprod m (fun i => M i i) <= 1)%Z).
      { induction m as [|m IH]; intros Hm; [rewrite ModMC.bprod_0; lia|]. rewrite ModMC.bprod_S. specialize (IH ltac:(lia)).
        assert (D : (M m m = 0 \/ M m m = 1)%Z) by (unfold M; rewrite Nat.eqb_refl; destruct (_ =? _); cbn; lia).
        destruct D as [->| ->]; lia. }
      apply X. auto.
  Qed.

  Lemma choice_det : (ModMC.zdet n M = 1)%Z <-> forall i, i < n -> leads c v0 (V i).
  Proof.
    pose proof choice_bounds as B. split.
    - intros D i Hi. destruct (leadsb c v0 (length (map V (seq 0 n))) (V i)) eqn:L.
      { apply (leadsb_spec c v0 (map V (seq 0 n)) heads heads_NoDup heads_root); auto. }
      exfalso. set (bb := leadsb c v0 (length (map V (seq 0 n)))) in *.
      assert (Z0 : ModMC.zdet n M = 0%Z); [|lia].
      set (x := fun j => if bb (V j) then 0%Z else 1%Z).
      apply (@MatrixTree.zdet_null n M x i); auto; [unfold x; rewrite L; lia|]. intros k Hk. rewrite row_value by auto.
      assert (Lk : bb (V k) = true <-> bb (tail (nth k c d0)) = true).
      { unfold bb. rewrite !(leadsb_spec c v0 (map V (seq 0 n)) heads heads_NoDup heads_root). destruct (Hc k Hk) as [<- _].
        apply (leads_next c v0 (map V (seq 0 n)) heads heads_NoDup heads_root). apply nth_In. lia. }
      destruct (Hc k Hk) as [_ [E|(j & Hj & E)]]; rewrite E in *.
      + rewrite at_root. unfold x. assert (bb v0 = true) by (apply (leadsb_spec c v0 (map V (seq 0 n)) heads heads_NoDup heads_root); constructor).
        destruct (bb (V k)); [lia|]. apply Lk in H. discriminate H.
      + rewrite at_index by auto. unfold x. destruct (bb (V k)), (bb (V j)); auto; exfalso; [destruct Lk as [Lk _]|destruct Lk as [_ Lk]]; discriminate (Lk eq_refl).
    - intros H. destruct (Z.eq_dec (ModMC.zdet n M) 0) as [D|]; [|lia]. exfalso.
      apply DetZ.singular_null_vector in D as (x & (k & Hk & Nk) & Hx). apply Nk. clear Nk.
      set (y := fun u => zs n (fun l => (delta (V l =? u)%nat * x l)%Z)).
      assert (Y : forall u, leads c v0 u -> y u = 0%Z).
      { induction 1 as [|e He L IH]; [apply at_root|]. apply (In_nth _ _ d0) in He as (i & Hi & E). rewrite Lc in Hi. specialize (Hx i Hi).
        rewrite row_value in Hx by auto. rewrite E in Hx. fold (y (tail e)) in Hx. rewrite IH in Hx. destruct (Hc i Hi) as [Eh _]. rewrite E in Eh. rewrite Eh.
        unfold y. rewrite at_index by auto. lia. }
      rewrite <- (at_index x k Hk). apply (Y (V k)). apply H. auto.
  Qed.
  Lemma choice_det_0 : ~ (forall i, i < n -> leads c v0 (V i)) -> ModMC.zdet n M = 0%Z.
  Proof. intros H. pose proof choice_bounds. destruct (Z.eq_dec (ModMC.zdet n M) 1) as [D|]; [|lia]. exfalso. apply H, choice_det; auto. Qed.
End Choice.

(** ** the trees of a graph *)
Section Trees.
  Variable g : graph.
  Hypothesis C : constructed g.
  Notation Vv i := (nth (S i) (vertices g) 0%nat).
  Definition outs (v : nat) : list edge := filter (fun e => negb (tail e =? v)) (inc g v).
  Let m := length (vertices g) - 1.
  Notation d0 := (Edge 0 0 []).

  Lemma directed_dedges e : directed g e <-> In e (dedges g).
  Proof. unfold directed. rewrite dedges_In. reflexivity. Qed.
  Lemma rev_neq e : head e <> tail e -> rev e <> e.
  Proof. destruct e as [h t s]. cbn. intros N E. injection E as E _ _. congruence. Qed.
  Lemma outs_In v e : In e (outs v) <-> directed g e /\ head e = v /\ tail e <> v.
  Proof. unfold outs. rewrite filter_In, inc_In, directed_dedges, negb_true_iff, Nat.eqb_neq. tauto. Qed.
  Lemma outs_NoDup v : NoDup (outs v).
  Proof.
    assert (ND : NoDup (gedges g)) by (destruct C as (raw & Hr & ->); apply C25_stored_edges; auto).
    pose proof (c_canon g C) as K. unfold outs, inc, dedges. induction (gedges g) as [|e l IH]; cbn [flat_map app filter]; [constructor|].
    inversion ND as [|? ? Ne Nl]; subst. specialize (IH Nl (fun x Hx => K x (or_intror Hx))).
    set (r := filter _ (filter _ (flat_map _ l))) in *.
    assert (X : forall f, f = e \/ f = rev e -> ~ In f r).
    { intros f Hf I. unfold r in I. apply filter_In in I as [I _]. apply filter_In in I as [I _]. apply in_flat_map in I as (e' & He' & I).
      assert (Ec : canonical f = e') by (cbn in I; destruct I as [<-|[<-|[]]]; rewrite ?canonical_rev; apply K; right; auto).
      assert (Ec' : canonical f = e) by (destruct Hf as [->| ->]; rewrite ?canonical_rev; apply K; left; auto).
      apply Ne. congruence. }
    destruct (head e =? v) eqn:E1, (head (rev e) =? v) eqn:E2; cbn [filter]; rewrite ?head_rev, ?tail_rev in *;
      destruct e as [h t s]; cbn [head tail rev] in *; rewrite ?E1, ?E2; cbn [negb]; auto.
    - constructor; auto.
    - constructor; auto.
  Qed.

  Lemma laplacian_outs i j : i < m -> j < m -> laplacian g (Vv i) (Vv j) = lsum (fun e => (delta (j =? i)%nat - delta (Vv j =? tail e)%nat)%Z) (outs (Vv i)).
  Proof.
    intros Hi Hj. rewrite laplacian_LA by (unfold m in *; lia). unfold LA, outs. cbn [Nat.eqb].
    induction (inc g (Vv i)) as [|e es IH]; auto. cbn [filter]. rewrite lsum_cons, IH.
    destruct (Nat.eqb_spec (tail e) (Vv i)) as [E|N]; cbn [negb]; [|rewrite lsum_cons; auto].
    rewrite E. assert (Q : (j =? i) = (Vv j =? Vv i)).
    { destruct (Nat.eqb_spec j i) as [->|N]; [rewrite Nat.eqb_refl; auto|]. symmetry. apply Nat.eqb_neq. intros Q. apply N.
      apply (V_inj g) in Q; unfold m in *; lia. }
    rewrite Q. lia.
  Qed.

  Variables (v0 : nat) (ws : list nat).
  Hypotheses (F0 : first_vertex g v0) (O : others g v0 ws) (So : StronglySorted lt ws).

  Lemma vertices_split : vertices g = v0 :: ws.
  Proof.
    destruct (C26_vertices g) as (Sv & NV & Vs). pose proof (first_vertex_hd g v0 F0) as Hd. pose proof (tail_others g v0 ws F0 O) as P.
    destruct F0 as [Hv _]. apply Vs in Hv. destruct (vertices g) as [|a l] eqn:E; [destruct Hv|]. cbn in Hd, P. subst a. f_equal. symmetry.
    inversion Sv as [|? ? Sl _]; subst. clear - So Sl P. revert l Sl P. induction So as [|x xs Sx IH Fx]; intros l Sl P.
    - apply Permutation_nil in P. auto.
    - destruct l as [|y l]; [apply Permutation_sym, Permutation_nil in P; discriminate|]. inversion Sl as [|? ? Sl' Fl]; subst.
      assert (x = y).
      { rewrite Forall_forall in Fx, Fl. assert (I1 : In x (y :: l)) by (eapply Permutation_in; eauto; left; auto).
        assert (I2 : In y (x :: xs)) by (eapply Permutation_in; [apply Permutation_sym; eauto|left; auto]).
        destruct I1 as [|I1], I2 as [|I2]; auto. specialize (Fl x I1). specialize (Fx y I2). lia. }
      subst y. f_equal. apply IH; auto. apply Permutation_cons_inv in P. auto.
  Qed.

  Theorem tree_number_counts : tree_count g v0 ws (Z.to_nat (tree_number g)) /\ (0 <= tree_number g)%Z.
  Proof.
    pose proof vertices_split as VS. assert (Em : m = length ws) by (unfold m; rewrite VS; cbn; lia).
    assert (Vw : forall i, i < m -> Vv i = nth i ws 0) by (intros; rewrite VS; reflexivity).
    assert (Vinj : forall i j, i < m -> j < m -> Vv i = Vv j -> i = j) by (intros i j Hi Hj E; apply (V_inj g) in E; unfold m in *; lia).
    assert (V0 : forall i, i < m -> Vv i <> v0).
    { intros i Hi E. rewrite Vw in E by auto. assert (I : In v0 ws) by (rewrite <- E; apply nth_In; lia). apply O in I as [_ I]. auto. }
    set (R := fun i (e : edge) j => (delta (j =? i)%nat - delta (Vv j =? tail e)%nat)%Z).
    set (cs := pick (fun i => outs (Vv i)) m).
    set (D := fun c => ModMC.zdet m (fun i j => R i (nth i c d0) j)).
    assert (ET : tree_number g = lsum D cs).
    { unfold tree_number. fold m. rewrite (DetZ.zdet_ext (h := fun i j => lsum (fun e => R i e j) (outs (Vv i)))) by (intros; apply laplacian_outs; auto).
      apply (expand (fun i => outs (Vv i)) R d0). }
    assert (Ok : forall c, In c cs -> length c = m /\ forall i, i < m -> head (nth i c d0) = Vv i /\ (tail (nth i c d0) = v0 \/ exists j, j < m /\ tail (nth i c d0) = Vv j)).
    { intros c Hc. apply (pick_In _ d0) in Hc as [L Hc]. split; auto. intros i Hi. specialize (Hc i Hi). apply outs_In in Hc as (De & Eh & _). split; auto.
      apply directed_dedges in De. pose proof (dedges_vertices g _ De) as [_ Ht]. apply vertices_In in Ht. rewrite VS in Ht. destruct Ht as [Ht|Ht]; auto. right.
      apply (In_nth _ _ 0) in Ht as (j & Hj & Ej). exists j. rewrite Vw by lia. split; [lia|auto]. }
    assert (D1 : forall c, In c cs -> D c = 1%Z <-> forall i, i < m -> leads c v0 (Vv i)).
    { intros c Hc. destruct (Ok c Hc) as [L H]. apply (choice_det m (fun i => Vv i) v0 d0 Vinj V0 c L H). }
    assert (D01 : forall c, In c cs -> D c = 0%Z \/ D c = 1%Z).
    { intros c Hc. destruct (Ok c Hc) as [L H]. pose proof (choice_bounds m (fun i => Vv i) v0 d0 Vinj V0 c L H) as B. unfold D, R. lia. }
    assert (Cnt : forall l, incl l cs -> lsum D l = Z.of_nat (length (filter (fun c => Z.eqb (D c) 1) l))).
    { induction l as [|c l IH]; intros I; auto. rewrite lsum_cons, IH by (intros x Hx; apply I; right; auto). cbn [filter].
      destruct (D01 c (I c (or_introl eq_refl))) as [-> | ->]; cbn [Z.eqb Pos.eqb length]; lia. }
    rewrite ET, Cnt by (intros x; auto). split; [|lia]. rewrite Nat2Z.id.
    exists (filter (fun c => Z.eqb (D c) 1) cs). splits; auto.
    - apply NoDup_filter. apply pick_NoDup. intros. apply outs_NoDup.
    - intros t. rewrite filter_In, Z.eqb_eq. split.
      + intros [Hc E]. rewrite D1 in E by auto. destruct (Ok t Hc) as [L H]. apply (pick_In _ d0) in Hc as [_ Hc]. unfold rooted_tree. splits.
        * rewrite (heads m (fun i => Vv i) v0 d0 t L H). apply nth_ext with 0 0; [rewrite map_length, seq_length; lia|]. intros i Hi. rewrite map_length, seq_length in Hi.
          rewrite (nth_indep _ 0 (Vv 0)) by (rewrite map_length, seq_length; auto). rewrite (map_nth (fun i => Vv i)), seq_nth by auto. apply Vw. auto.
        * intros e He. apply (In_nth _ _ d0) in He as (i & Hi & <-). rewrite L in Hi. specialize (Hc i Hi). apply outs_In in Hc. apply Hc.
        * intros w Hw. apply (In_nth _ _ 0) in Hw as (i & Hi & <-). rewrite <- Vw by lia. apply E. lia.
      + intros (Hh & Hd & Hl). assert (Hc : In t cs).
        { apply (pick_In _ d0). assert (L : length t = m) by (rewrite Em, <- Hh, map_length; auto). split; auto. intros i Hi. apply outs_In.
          assert (I : In (nth i t d0) t) by (apply nth_In; lia).
          assert (Eh : head (nth i t d0) = Vv i). { rewrite Vw, <- Hh by auto. rewrite (nth_indep _ 0 (head d0)) by (rewrite map_length; lia). rewrite map_nth. auto. }
          splits; auto. intros Et.
          (* a loop never leads anywhere *)
          assert (Lp : leads t v0 (Vv i)) by (apply Hl; rewrite Vw by auto; apply nth_In; lia).
          assert (NDw : NoDup ws) by apply O. assert (N0 : ~ In v0 ws) by (intros I0; apply O in I0 as [_ I0]; auto).
          apply (leads_leadsk t v0) in Lp as [k Lk]. assert (Lk' := Lk). rewrite <- Eh in Lk'. rewrite <- Et in Lk.
          pose proof (leadsk_unique t v0 ws Hh NDw N0 _ _ Lk' _ (lk_edge t v0 k _ I Lk)). lia. }
        split; auto. apply D1; auto. intros i Hi. apply Hl. rewrite Vw by auto. apply nth_In. lia.
  Qed.
End Trees.

(** ** C90 *)
(** the determinant of C33 is the number of spanning trees *)
Theorem C90_tree_number : forall g v0 ws n, constructed g -> first_vertex g v0 -> others g v0 ws -> StronglySorted lt ws ->
  (tree_count g v0 ws n <-> tree_number g = Z.of_nat n).
Proof.
  intros g v0 ws n C F0 O So. destruct (tree_number_counts g C v0 ws F0 O So) as [(ts & N & H & L) P]. split.
  - intros (ts' & N' & H' & <-). rewrite <- (Permutation_length (l := ts) (l' := ts')); [lia|]. apply NoDup_Permutation; auto. intros t. rewrite H, H'. tauto.
  - intros E. exists ts. splits; auto. lia.
Qed.
Print Assumptions C90_tree_number.

(** there is a spanning tree exactly if the quotient graph is connected *)
Theorem C90_connected : forall g v0 ws, constructed g -> first_vertex g v0 -> others g v0 ws -> StronglySorted lt ws ->
  (connected_quotient g <-> exists t, rooted_tree g v0 ws t).
Proof.
  intros g v0 ws C F0 O So. assert (N : vertices g <> []) by (destruct F0 as [Hv _]; apply vertices_In in Hv; intros E; rewrite E in Hv; destruct Hv).
  rewrite C33_tree_number by auto. destruct (tree_number_counts g C v0 ws F0 O So) as [(ts & ND & H & L) P]. split.
  - intros Z. destruct ts as [|t ts]; [cbn in L; lia|]. exists t. apply H. left; auto.
  - intros [t Ht] Z. rewrite Z in L. cbn in L. destruct ts; [|discriminate]. apply H in Ht. destruct Ht.
Qed.
Print Assumptions C90_connected.

(** a net has a placement exactly if its number of spanning trees is not a multiple of 9999991 (0 included) *)
Theorem C90_position : forall chk g v0 ws n v, constructed g -> 0 < gdim g -> fits chk g -> first_vertex g v0 -> others g v0 ws -> StronglySorted lt ws ->
  tree_count g v0 ws n -> is_vertex g v ->
  if (Z.of_nat n mod 9999991 =? 0)%Z then position chk g v = Panic else exists p, position chk g v = Ret p.
Proof.
  intros chk g v0 ws n v C Hd F F0 O So T V. apply C90_tree_number in T; auto.
  assert (N : vertices g <> []) by (apply vertices_In in V; intros E; rewrite E in V; destruct V).
  destruct (Z.eqb_spec (Z.of_nat n mod 9999991) 0) as [E|E].
  - apply C33_panics; auto. rewrite T. apply Z.mod_divide; lia.
  - apply C33_succeeds; auto.
    + apply C33_tree_number; auto. intros Z. rewrite Z in T. rewrite <- T in E. apply E. reflexivity.
    + rewrite T. intros Dv. apply E. apply Z.mod_divide; [lia|auto].
Qed.
Print Assumptions C90_position.

(** the honeycomb net has three spanning trees: the three edges between its two vertices *)
Example C90_case : first_vertex honeycomb 1 /\ others honeycomb 1 [2] /\ StronglySorted lt [2] /\ tree_count honeycomb 1 [2] 3.
Proof.
  destruct C89_case as (F0 & O & _). splits; auto; [repeat constructor|]. 
  exists (map (fun e => [e]) (outs honeycomb 2)). splits; [|intros t; split|reflexivity].
  - apply FinFun.Injective_map_NoDup; [intros a b E; congruence|]. apply outs_NoDup, honeycomb_constructed.
  - intros I. apply in_map_iff in I as (e & <- & He). apply outs_In in He as (De & Eh & Et). unfold rooted_tree. splits.
    + cbn. rewrite Eh. auto.
    + intros e' [<-|[]]. auto.
    + intros w [<-|[]]. rewrite <- Eh. constructor; [left; auto|]. replace (tail e) with 1; [constructor|].
      assert (Ht : is_vertex honeycomb (tail e)) by (apply directed_dedges, dedges_vertices in De; apply De).
      apply vertices_In in Ht. change (vertices honeycomb) with [1; 2] in Ht. cbn in Ht. lia.
  - intros (Eh & De & Hl). destruct t as [|e [|]]; try discriminate. apply in_map_iff. exists e. split; auto. apply outs_In. splits; [apply De; left; auto|cbn in Eh; congruence|].
    intros Et. cbn in Eh. assert (E2 : head e = 2) by congruence.
    assert (X : forall v, leads [e] 1 v -> v = 1) by (induction 1 as [|f Hf _ IH]; auto; destruct Hf as [<-|[]]; lia).
    specialize (X 2 (Hl 2 (or_introl eq_refl))). discriminate X.
Qed.
