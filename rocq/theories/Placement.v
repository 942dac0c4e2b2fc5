(** Proofs about the barycentric placement (PGraph.v): the linear system, its
    solution, uniqueness for a connected quotient (maximum principle). *)
From Coq Require Import List ZArith Lia Bool PeanoNat Znumtheory QArith Qcanon.
From Verif Require Import Base Partition Vec Elim Scalars Matrix ZQ QcTac ModSolver ModSolve Dixon ModFinal OrdSet PGraph Net PGraphBase Traverse Props_ModSolver.
From Verif Require ModMC DetZ.
Import ListNotations.
Close Scope Q_scope. Close Scope Qc_scope.
Open Scope nat_scope.

(** *** sums over lists *)
Definition lsum {A} (f : A -> Z) (l : list A) : Z := fold_right (fun x s => (f x + s)%Z) 0%Z l.
Definition qsum {A} (f : A -> Qc) (l : list A) : Qc := fold_right (fun x s => (f x + s)%Qc) 0%Qc l.

Lemma lsum_app {A} (f : A -> Z) l m : lsum f (l ++ m) = (lsum f l + lsum f m)%Z.
Proof. induction l; simpl; lia. Qed.
Lemma qsum_app {A} (f : A -> Qc) l m : qsum f (l ++ m) = (qsum f l + qsum f m)%Qc.
Proof. induction l as [|x l IH]; simpl; [ring|]. rewrite IH. ring. Qed.
Lemma qsum_ext {A} (f g : A -> Qc) l : (forall x, In x l -> f x = g x) -> qsum f l = qsum g l.
Proof. induction l as [|x l IH]; simpl; intros H; auto. rewrite H, IH by auto. auto. Qed.
Lemma qsum_add {A} (f g : A -> Qc) l : qsum (fun x => f x + g x)%Qc l = (qsum f l + qsum g l)%Qc.
Proof. induction l as [|x l IH]; simpl; [ring|]. rewrite IH. ring. Qed.
Lemma qsum_sub {A} (f g : A -> Qc) l : qsum (fun x => f x - g x)%Qc l = (qsum f l - qsum g l)%Qc.
Proof. induction l as [|x l IH]; simpl; [ring|]. rewrite IH. ring. Qed.
Lemma qsum_ZQ {A} (f : A -> Z) l : qsum (fun x => ZQ (f x)) l = ZQ (lsum f l).
Proof. induction l as [|x l IH]; simpl; auto. rewrite IH, ZQ_add. auto. Qed.
Lemma qsum_zero {A} (f : A -> Qc) l : (forall x, In x l -> f x = 0%Qc) -> qsum f l = 0%Qc.
Proof. induction l as [|x l IH]; simpl; intros H; auto. rewrite H, IH by auto. ring. Qed.
Lemma lsum_abs {A} (f : A -> Z) l B : (forall x, In x l -> (Z.abs (f x) <= B)%Z) -> (Z.abs (lsum f l) <= Z.of_nat (length l) * B)%Z.
Proof.
  induction l as [|x l IH]; intros H; [simpl; lia|]. cbn [lsum fold_right length]. fold (lsum f l).
  specialize (IH (fun y Hy => H y (or_intror Hy))). specialize (H x (or_introl eq_refl)). lia.
Qed.
Lemma qsum_nonneg {A} (f : A -> Qc) l : (forall x, In x l -> (0 <= f x)%Qc) -> (0 <= qsum f l)%Qc.
Proof.
  induction l as [|x l IH]; simpl; intros H; [apply Qcle_refl|]. specialize (IH (fun y Hy => H y (or_intror Hy))).
  specialize (H x (or_introl eq_refl)). qclra.
Qed.
Lemma qsum_nonneg_zero {A} (f : A -> Qc) l : (forall x, In x l -> (0 <= f x)%Qc) -> qsum f l = 0%Qc ->
  forall x, In x l -> f x = 0%Qc.
Proof.
  induction l as [|y l IH]; simpl; intros H E x; [tauto|].
  pose proof (qsum_nonneg f l (fun y Hy => H y (or_intror Hy))) as N. pose proof (H y (or_introl eq_refl)) as M.
  assert (f y = 0%Qc /\ qsum f l = 0%Qc) as [E1 E2] by (split; qclra).
  intros [<-|Hx]; auto.
Qed.

(** *** updating tables *)
Lemma set_nth_map_seq {A} (f : nat -> A) n i y : i < n ->
  set_nth i y (map f (seq 0 n)) = map (fun j => if j =? i then y else f j) (seq 0 n).
Proof.
  intros Hi. apply nth_error_ext. intros j. rewrite nth_error_set_nth by (rewrite map_length, seq_length; auto).
  destruct (Nat.lt_ge_cases j n) as [Hj|Hj].
  - rewrite !nth_error_map_seq by auto. rewrite (Nat.eqb_sym i j). destruct (j =? i); auto.
  - assert (E1 : nth_error (map f (seq 0 n)) j = None) by (apply nth_error_None; rewrite map_length, seq_length; auto).
    assert (E2 : nth_error (map (fun j => if j =? i then y else f j) (seq 0 n)) j = None) by (apply nth_error_None; rewrite map_length, seq_length; auto).
    rewrite E1, E2. destruct (Nat.eqb_spec i j); auto; lia.
Qed.

Lemma upd_tab r c g i j f y : i < r -> j < c -> f (g i j) = Ret y ->
  upd (tab r c g) i j f = Ret (tab r c (fun i' j' => if (i' =? i) && (j' =? j) then y else g i' j')).
Proof.
  intros Hi Hj E. unfold upd. rewrite tab_row by auto. cbn [unwrap bind]. rewrite nth_error_map_seq by auto. cbn [unwrap bind]. rewrite E. cbn [bind].
  f_equal. unfold tab. rewrite set_nth_map_seq by auto. apply map_ext_in. intros i' _. rewrite set_nth_map_seq by auto.
  destruct (Nat.eqb_spec i' i) as [->|]; simpl; apply map_ext_in; intros j' _; auto.
Qed.

Lemma repeat_tab {A} (x : A) n m : repeat (repeat x m) n = tab n m (fun _ _ => x).
Proof.
  assert (E : forall (T : Type) (y : T) k s, repeat y k = map (fun _ => y) (seq s k)). { intros T y k. induction k; intros s; simpl; [auto|]. rewrite <- IHk. auto. }
  unfold tab. rewrite (E _ (repeat x m) n 0). apply map_ext. intros _. apply E.
Qed.

Definition delta (b : bool) : Z := if b then 1%Z else 0%Z.

(** *** the linear system *)
Section System.
  Variables (chk : Z -> outcome Z) (g : graph).
  Hypothesis C : constructed g.
  Notation d := (gdim g).
  Notation V := (vertices g).
  Notation n := (length V).

  Lemma V_NoDup : NoDup V.
  Proof. apply usort_NoDup, nat_cmp_laws. Qed.
  Lemma V_nth i : i < n -> is_vertex g (nth i V 0).
  Proof. intros Hi. apply vertices_In, nth_In; auto. Qed.
  Lemma V_index v : is_vertex g v -> exists i, i < n /\ nth i V 0 = v.
  Proof. intros Hv. apply vertices_In in Hv. apply (In_nth _ _ 0) in Hv as (i & Hi & E). eauto. Qed.
  Lemma V_inj i j : i < n -> j < n -> nth i V 0 = nth j V 0 -> i = j.
  Proof. intros Hi Hj. apply NoDup_nth; auto. apply V_NoDup. Qed.
  Lemma V_error i : i < n -> nth_error V i = Some (nth i V 0).
  Proof. intros. apply nth_error_nth'; auto. Qed.

  Lemma aget_combine (l : list nat) s i : NoDup l -> i < length l ->
    aget Nat.eqb (nth i l 0) (combine l (seq s (length l))) = Some (s + i).
  Proof.
    revert s i; induction l as [|x l IH]; intros s i ND Hi; simpl in *; [lia|]. inversion ND; subst.
    destruct i as [|i]; [rewrite Nat.eqb_refl; f_equal; lia|].
    destruct (Nat.eqb_spec (nth i l 0) x) as [E|].
    - exfalso. apply H1. rewrite <- E. apply nth_In. lia.
    - rewrite IH by (auto; lia). f_equal; lia.
  Qed.

  (** the entries after the incidences in [es] have been added to row i *)
  Definition LA (i j : nat) (es : list edge) : Z := lsum (fun e => (delta (j =? i)%nat - delta (nth j V 0 =? tail e)%nat)%Z) es.
  Definition LT (k : nat) (es : list edge) : Z := lsum (fun e => vget (shift e) k) es.

  Definition with_row (i : nat) (f : nat -> nat -> Z) (h : nat -> Z) (i' j' : nat) : Z := if i' =? i then (f i' j' + h j')%Z else f i' j'.

  Variable Bd : Z.
  Hypothesis chk_ok : forall z, (Z.abs z <= Bd)%Z -> chk z = Ret z.

  Lemma bp_shift i s ft : i < n -> length s = d ->
    (forall k, k < d -> (Z.abs (ft i k + vget s k) <= Bd)%Z) ->
    foldM (fun t k => do x <- unwrap (nth_error s k); upd t i k (fun y => chk (y + x)%Z)) (tab n d ft) (seq 0 d)
    = Ret (tab n d (with_row i ft (fun k => vget s k))).
  Proof.
    intros Hi Hs HB. assert (H : forall m, m <= d ->
      foldM (fun t k => do x <- unwrap (nth_error s k); upd t i k (fun y => chk (y + x)%Z)) (tab n d ft) (seq 0 m)
      = Ret (tab n d (with_row i ft (fun k => if k <? m then vget s k else 0%Z)))).
    { induction m as [|m IH]; intros Hm.
      - simpl. f_equal. apply tab_ext. intros a b _ _. unfold with_row. destruct (a =? i); simpl; lia.
      - rewrite seq_S, foldM_app, IH by lia. cbn [bind plus foldM]. rewrite (nth_error_nth' s 0%Z) by lia. cbn [unwrap bind].
        erewrite upd_tab; [cbn [bind]; f_equal| | |]; auto; try lia.
        + apply tab_ext. intros a b Ha Hb. unfold with_row.
          destruct (Nat.eqb_spec a i) as [->|]; cbn [andb]; auto.
          destruct (Nat.eqb_spec b m) as [->|].
          * destruct (Nat.ltb_spec m (S m)); [|lia]. reflexivity.
          * destruct (Nat.ltb_spec b (S m)), (Nat.ltb_spec b m); auto; lia.
        + unfold with_row. rewrite Nat.eqb_refl. destruct (Nat.ltb_spec m m); [lia|]. rewrite Z.add_0_r. apply chk_ok. apply HB. lia. }
    rewrite H by auto. f_equal. apply tab_ext. intros a b Ha Hb. unfold with_row. destruct (a =? i); auto.
    destruct (Nat.ltb_spec b d); [auto|lia].
  Qed.

  Lemma bp_ngb_ok i e fa ft : i < n -> In e (dedges g) ->
    (forall j, j < n -> (Z.abs (fa i j) + 1 <= Bd)%Z) ->
    (forall k, k < d -> (Z.abs (ft i k + vget (shift e) k) <= Bd)%Z) ->
    bp_ngb chk (combine V (seq 0 n)) d i (tab n n fa, tab n d ft) e =
    Ret (tab n n (with_row i fa (fun j => (delta (j =? i)%nat - delta (nth j V 0 =? tail e)%nat)%Z)), tab n d (with_row i ft (fun k => vget (shift e) k))).
  Proof.
    intros Hi He HA HT. unfold bp_ngb. pose proof (dedges_vertices g e He) as [_ Ht]. destruct (V_index _ Ht) as (j & Hj & Ej).
    rewrite <- Ej at 1. rewrite aget_combine by (auto using V_NoDup). cbn [unwrap bind plus].
    assert (Le : length (shift e) = d) by (apply dedges_dim; auto).
    erewrite upd_tab; [|exact Hi|exact Hj|apply chk_ok; specialize (HA j Hj); lia]. cbn [bind].
    erewrite upd_tab; [|exact Hi|exact Hi|apply chk_ok]. cbn [bind].
    2:{ rewrite Nat.eqb_refl. cbn [andb]. pose proof (HA i Hi). destruct (Nat.eqb_spec i j) as [<-|]; lia. }
    rewrite bp_shift by auto. cbn [bind]. do 2 f_equal. apply tab_ext. intros a b Ha Hb. unfold with_row.
    destruct (Nat.eqb_spec a i) as [->|]; cbn [andb]; auto.
    rewrite Nat.eqb_refl. cbn [andb]. unfold delta. rewrite <- Ej.
    assert (Eb : (nth b V 0 =? nth j V 0) = (b =? j)).
    { destruct (Nat.eqb_spec b j) as [->|Nb]; [apply Nat.eqb_refl|]. apply Nat.eqb_neq. intros E. apply Nb, V_inj; auto. }
    rewrite Eb. destruct (Nat.eqb_spec i j), (Nat.eqb_spec b i), (Nat.eqb_spec b j); subst; try congruence; try lia.
  Qed.

  Lemma LA_snoc i j es e : LA i j (es ++ [e]) = (LA i j es + (delta (j =? i)%nat - delta (nth j V 0 =? tail e)%nat))%Z.
  Proof. unfold LA. rewrite lsum_app. simpl. lia. Qed.
  Lemma LT_snoc k es e : LT k (es ++ [e]) = (LT k es + vget (shift e) k)%Z.
  Proof. unfold LT. rewrite lsum_app. simpl. lia. Qed.

  Lemma LA_bound i j es : (Z.abs (LA i j es) <= Z.of_nat (length es))%Z.
  Proof.
    unfold LA. eapply Z.le_trans; [apply lsum_abs with (B := 1%Z)|lia]. intros e _. unfold delta. destruct (_ =? _), (_ =? _); lia.
  Qed.

  Variable D : Z.
  Hypothesis HD : forall e k, In e (gedges g) -> (Z.abs (vget (shift e) k) <= D)%Z.
  Lemma HD' e k : In e (dedges g) -> (Z.abs (vget (shift e) k) <= D)%Z.
  Proof.
    intros He. apply dedges_In in He as (f & Hf & [->| ->]); auto. unfold rev; simpl. rewrite vget_sneg, Z.abs_opp. auto.
  Qed.

  Hypothesis HBd : (Z.of_nat (length (dedges g)) + 1 <= Bd /\ Z.of_nat (length (dedges g)) * D <= Bd)%Z.

  Lemma inc_length v : length (inc g v) <= length (dedges g).
  Proof. clear HBd. unfold inc. induction (dedges g) as [|e l IH]; simpl; auto. destruct (_ =? _); simpl; lia. Qed.

  Lemma LT_bound k es : incl es (dedges g) -> (Z.abs (LT k es) <= Z.of_nat (length es) * D)%Z.
  Proof. intros I. unfold LT. apply lsum_abs. intros e He. apply HD'. auto. Qed.

  Lemma bp_row_ok i es fa ft : i < n -> incl es (dedges g) -> length es <= length (dedges g) ->
    (forall j, j < n -> fa i j = 0%Z) -> (forall k, k < d -> ft i k = 0%Z) -> (0 <= D)%Z ->
    foldM (bp_ngb chk (combine V (seq 0 n)) d i) (tab n n fa, tab n d ft) es =
    Ret (tab n n (with_row i fa (fun j => LA i j es)), tab n d (with_row i ft (fun k => LT k es))).
  Proof.
    intros Hi I L Fa Ft D0. induction es as [|e es IH] using rev_ind.
    - simpl. do 2 f_equal; apply tab_ext; intros a b _ _; unfold with_row; destruct (a =? i); auto; simpl; lia.
    - rewrite app_length in L. simpl in L. rewrite foldM_app, IH by (try lia; intros x Hx; apply I, in_or_app; auto). cbn [bind foldM].
      rewrite bp_ngb_ok; auto.
      + cbn [bind]. do 2 f_equal; apply tab_ext; intros a b _ _; unfold with_row; destruct (a =? i); auto.
        * rewrite LA_snoc. lia.
        * rewrite LT_snoc. lia.
      + apply I, in_or_app. simpl; auto.
      + intros j Hj. unfold with_row. rewrite Nat.eqb_refl, Fa by auto. pose proof (LA_bound i j es). lia.
      + intros k Hk. unfold with_row. rewrite Nat.eqb_refl, Ft by auto. rewrite Z.add_0_l, <- LT_snoc.
        pose proof (LT_bound k (es ++ [e]) I). rewrite app_length in *. simpl in *. nia.
  Qed.

  (** the matrix and the right hand side *)
  Definition sysA (i j : nat) : Z := if i =? 0 then delta (j =? 0) else LA i j (inc g (nth i V 0)).
  Definition sysT (i k : nat) : Z := if i =? 0 then 0%Z else LT k (inc g (nth i V 0)).

  Lemma inc_incl v : incl (inc g v) (dedges g).
  Proof. intros e He. apply inc_In in He. exact (proj1 He). Qed.

  Lemma bp_system : 0 < n -> (0 <= D)%Z ->
    (do a <- upd (repeat (repeat 0%Z n) n) 0 0 (fun _ => Ret 1%Z);
     foldM (fun st i =>
        do v <- unwrap (nth_error V i);
        do inc <- incidences g v;
        foldM (bp_ngb chk (combine V (seq 0 n)) d i) st inc) (a, repeat (repeat 0%Z d) n) (seq 1 (n - 1)))
    = Ret (tab n n sysA, tab n d sysT).
  Proof.
    intros Hn D0. rewrite !repeat_tab. erewrite upd_tab; [|exact Hn|exact Hn|reflexivity]. cbn [bind].
    assert (H : forall m, m <= n - 1 -> foldM (fun st i =>
        do v <- unwrap (nth_error V i);
        do inc <- incidences g v;
        foldM (bp_ngb chk (combine V (seq 0 n)) d i) st inc)
        (tab n n (fun i' j' => if (i' =? 0) && (j' =? 0) then 1%Z else 0%Z), tab n d (fun _ _ => 0%Z)) (seq 1 m)
      = Ret (tab n n (fun i j => if i <=? m then sysA i j else 0%Z), tab n d (fun i j => if i <=? m then sysT i j else 0%Z))).
    { induction m as [|m IH]; intros Hm.
      - cbn [seq foldM]. assert (E1 : tab n n (fun i' j' => if (i' =? 0) && (j' =? 0) then 1%Z else 0%Z) = tab n n (fun i j => if i <=? 0 then sysA i j else 0%Z)).
        { apply tab_ext. intros a b _ _. unfold sysA. destruct a; simpl; auto. }
        assert (E2 : tab n d (fun _ _ => 0%Z) = tab n d (fun i j => if i <=? 0 then sysT i j else 0%Z)).
        { apply tab_ext. intros a b _ _. unfold sysT. destruct a; simpl; auto. }
        rewrite <- E1, <- E2. auto.
      - rewrite seq_S, foldM_app, IH by lia. cbn [bind plus foldM]. rewrite V_error by lia. cbn [unwrap bind].
        rewrite incidences_vertex by (apply V_nth; lia). cbn [bind].
        rewrite bp_row_ok; try lia; auto using inc_incl, inc_length.
        + cbn [bind]. do 2 f_equal; apply tab_ext; intros a b _ _; unfold with_row.
          * destruct (Nat.eqb_spec a (S m)) as [->|].
            -- destruct (Nat.leb_spec (S m) m), (Nat.leb_spec (S m) (S m)); try lia. unfold sysA. simpl. lia.
            -- destruct (Nat.leb_spec a m), (Nat.leb_spec a (S m)); try lia; auto.
          * destruct (Nat.eqb_spec a (S m)) as [->|].
            -- destruct (Nat.leb_spec (S m) m), (Nat.leb_spec (S m) (S m)); try lia. unfold sysT. simpl. lia.
            -- destruct (Nat.leb_spec a m), (Nat.leb_spec a (S m)); try lia; auto.
        + intros j Hj. destruct (Nat.leb_spec (S m) m); auto; lia.
        + intros j Hj. destruct (Nat.leb_spec (S m) m); auto; lia. }
    rewrite H by lia. do 2 f_equal; apply tab_ext; intros a b Ha Hb; destruct (Nat.leb_spec a (n - 1)); auto; lia.
  Qed.
End System.

(** *** the placement *)
Notation the_det g := (ModMC.zdet (length (vertices g)) (sysA g)).

(** [chk] is exact for all numbers met while placing the graph [g] *)
Definition fits (chk : Z -> outcome Z) (g : graph) : Prop :=
  (2 * Z.of_nat (length (gedges g)) < 9999991)%Z /\
  (chk = (fun z => Ret z) \/
   (chk = chk64 /\ (Z.of_nat (length (gedges g)) <= 400000)%Z /\
    exists D, (forall e x, In e (gedges g) -> In x (shift e) -> (Z.abs x <= D)%Z) /\
      (2 * Z.of_nat (length (gedges g)) * D <= 900000000000)%Z)).

Lemma dedges_length g : length (dedges g) = 2 * length (gedges g).
Proof. unfold dedges. induction (gedges g); simpl; lia. Qed.

Lemma aget_fold_aset (V : list nat) (p : list point) : NoDup V -> length p = length V ->
  forall m, m <= length V -> exists r,
  foldM (fun mp i => do v <- unwrap (nth_error V i); do x <- unwrap (nth_error p i); Ret (aset Nat.eqb v x mp)) [] (seq 0 m) = Ret r /\
  (forall i, i < m -> aget Nat.eqb (nth i V 0) r = Some (nth i p [])) /\
  (forall v, ~ In v V -> aget Nat.eqb v r = None).
Proof.
  intros ND L. induction m as [|m IH]; intros Hm.
  - exists []. splits; auto. intros; lia.
  - destruct IH as (r & E & H1 & H2); [lia|]. rewrite seq_S, foldM_app, E. cbn [bind plus foldM].
    rewrite (nth_error_nth' V 0) by lia. rewrite (nth_error_nth' p []) by lia. cbn [unwrap bind].
    eexists. splits; [reflexivity| |].
    + intros i Hi. rewrite (aget_aset _ Nat.eqb_spec). destruct (Nat.eqb_spec (nth i V 0) (nth m V 0)) as [Ei|Ni].
      * assert (i = m) as -> by (eapply NoDup_nth; eauto; lia). auto.
      * apply H1. assert (i <> m) by (intros ->; auto). lia.
    + intros v Hv. rewrite (aget_aset _ Nat.eqb_spec). destruct (Nat.eqb_spec v (nth m V 0)) as [->|]; auto.
      exfalso. apply Hv, nth_In. lia.
Qed.

Lemma at_tab n m h i j : i < n -> j < m -> at_ (tab n m h) i j = h i j.
Proof. intros Hi Hj. unfold at_. rewrite (nth_error_nth _ _ _ (tab_row n m h i Hi)). apply nth_error_nth. apply nth_error_map_seq. auto. Qed.

Lemma is_solution_ext n m a b a' b' x : (forall i j, i < n -> j < n -> at_ a i j = at_ a' i j) ->
  (forall i j, i < n -> j < m -> at_ b i j = at_ b' i j) -> is_solution n m a b x -> is_solution n m a' b' x.
Proof.
  intros Ea Eb [R H]. split; auto. intros i j Hi Hj. rewrite <- Eb by auto. rewrite <- H by auto. apply sumf_ext. intros l Hl. rewrite Ea by auto. auto.
Qed.

Lemma det_tab n h : det n (tab n n h) = ModMC.zdet n h.
Proof.
  unfold det. apply DetZ.zdet_ext. intros i j Hi Hj. apply at_tab; auto.
Qed.

Lemma placement_cases chk g : constructed g -> 0 < gdim g -> 0 < length (vertices g) -> fits chk g ->
  let n := length (vertices g) in
  (~ (9999991 | the_det g)%Z -> exists x r, is_solution n (gdim g) (tab n n (sysA g)) (tab n (gdim g) (sysT g)) x /\
     barycentric_placement chk g = Ret r /\
     (forall i, i < n -> aget Nat.eqb (nth i (vertices g) 0) r = Some (nth i x [])) /\
     (forall v, ~ is_vertex g v -> aget Nat.eqb v r = None)) /\
  ((9999991 | the_det g)%Z -> barycentric_placement chk g = Panic).
Proof.
  intros C Hd Hn F n. destruct F as [FE FC].
  assert (exists Bd D, (forall z, (Z.abs z <= Bd)%Z -> chk z = Ret z) /\ (0 <= D)%Z /\
    (forall e k, In e (gedges g) -> (Z.abs (vget (shift e) k) <= D)%Z) /\
    (Z.of_nat (length (dedges g)) + 1 <= Bd /\ Z.of_nat (length (dedges g)) * D <= Bd)%Z /\
    (chk = (fun z => Ret z) \/ chk = chk64 /\ Bd = 900000000000%Z)) as (Bd & D & K1 & D0 & K2 & K3 & K4).
  { assert (G : forall e k (D : Z), (0 <= D)%Z -> (forall x, In x (shift e) -> (Z.abs x <= D)%Z) -> (Z.abs (vget (shift e) k) <= D)%Z).
    { intros e k D D0 H. unfold vget. destruct (Nat.lt_ge_cases k (length (shift e))) as [Hk|Hk].
      - apply H, nth_In; auto.
      - rewrite nth_overflow by auto. simpl. lia. }
    rewrite dedges_length. destruct FC as [->|(-> & E4 & D & HD & B)].
    - assert (exists D, (0 <= D)%Z /\ forall e x, In e (gedges g) -> In x (shift e) -> (Z.abs x <= D)%Z) as (D & D0 & HD).
      { exists (fold_right Z.max 0%Z (flat_map (fun e => map Z.abs (shift e)) (gedges g))). 
        assert (M : forall l, (0 <= fold_right Z.max 0%Z l)%Z /\ forall x, In x l -> (x <= fold_right Z.max 0%Z l)%Z).
        { induction l as [|y l [IH1 IH2]]; simpl; [split; [lia|tauto]|]. split; [lia|]. intros x [->|Hx]; [lia|]. specialize (IH2 x Hx). lia. }
        split; [exact (proj1 (M _))|]. intros e x He Hx. apply (proj2 (M _)). apply in_flat_map. exists e. split; auto. apply in_map; auto. }
      exists (2 * Z.of_nat (length (gedges g)) + 1 + 2 * Z.of_nat (length (gedges g)) * D)%Z, D. splits; auto; try nia. intros e k He. apply G; auto. intros x Hx. eauto.
    - exists 900000000000%Z, (Z.max 0 D). splits; auto; try nia.
      + intros z Hz. unfold chk64, in64. destruct (Z.leb_spec (- 2 ^ 63) z); [|lia]. destruct (Z.ltb_spec z (2 ^ 63)); [auto|lia].
      + intros e k He. apply G; [lia|]. intros x Hx. specialize (HD e x He Hx). lia. }
  assert (E : barycentric_placement chk g =
    do r <- ms_solve chk (tab n n (sysA g)) (tab n (gdim g) (sysT g));
    do p <- unwrap r;
    foldM (fun mp i => do v <- unwrap (nth_error (vertices g) i); do x <- unwrap (nth_error p i); Ret (aset Nat.eqb v x mp)) [] (seq 0 n)).
  { pose proof (bp_system chk g C Bd K1 D K2 K3 Hn D0) as S. unfold barycentric_placement. fold n in S. fold n.
    destruct (upd _ _ _ _) as [a| |]; cbn [bind] in S |- *; try discriminate. rewrite S. cbn [bind]. auto. }
  rewrite E. clear E.
  assert (HA : forall i j, (i < n)%nat -> (j < n)%nat -> (Z.abs (sysA g i j) <= Z.of_nat (length (dedges g)) + 1)%Z).
  { intros i j Hi Hj. unfold sysA. destruct (i =? 0); [unfold delta; destruct (_ =? _); lia|].
    pose proof (LA_bound g i j (inc g (nth i (vertices g) 0))). pose proof (inc_length g (nth i (vertices g) 0)). lia. }
  assert (HT : forall i j, (i < n)%nat -> (j < gdim g)%nat -> (Z.abs (sysT g i j) <= Bd)%Z).
  { intros i j Hi Hj. unfold sysT. destruct (i =? 0); [lia|].
    pose proof (LT_bound g D K2 j (inc g (nth i (vertices g) 0)) (inc_incl g _)). pose proof (inc_length g (nth i (vertices g) 0)). nia. }
  assert (NM : forall i j, (i < n)%nat -> (j < n)%nat -> ~ negative_multiple 9999991 (at_ (tab n n (sysA g)) i j)).
  { intros i j Hi Hj [N1 N2]. rewrite at_tab in * by auto. 
    assert (L : (- (9999991) < sysA g i j)%Z).
    { unfold sysA. destruct (i =? 0); [unfold delta; destruct (_ =? _); lia|].
      pose proof (LA_bound g i j (inc g (nth i (vertices g) 0))). pose proof (inc_length g (nth i (vertices g) 0)).
      rewrite dedges_length in *. lia. }
    apply Z.divide_opp_r in N2. apply Z.divide_pos_le in N2; lia. }
  assert (ES : ms_solve chk (tab n n (sysA g)) (tab n (gdim g) (sysT g)) = ms_solve (fun z => Ret z) (tab n n (sysA g)) (tab n (gdim g) (sysT g))).
  { destruct K4 as [->|[-> EB]]; auto. destruct FC as [FC|(_ & E4 & _)].
    { exfalso. apply (f_equal (fun f => f (2 ^ 63)%Z)) in FC. vm_compute in FC. discriminate. }
    apply (C24_no_overflow n (gdim g) _ _ (Z.of_nat (length (dedges g)) + 1) Bd); auto using rect_tab.
    - intros i j Hi Hj. rewrite at_tab by auto. auto.
    - intros i j Hi Hj. rewrite at_tab by auto. auto.
    - pose proof (vertices_length g). fold n in H. rewrite dedges_length. nia.
    - lia. }
  rewrite ES. destruct (C23_solve n (gdim g) _ _ Hn Hd (rect_tab n n (sysA g)) (rect_tab n (gdim g) (sysT g)) NM) as [S1 S2].
  rewrite det_tab in S1, S2. split.
  - intros ND. destruct (S1 ND) as (x & Ex & Sol & _). rewrite Ex. cbn [bind unwrap].
    destruct (aget_fold_aset (vertices g) x (V_NoDup g) (proj1 (proj1 Sol)) n (Nat.le_refl _)) as (r & Er & R1 & R2).
    exists x, r. splits; auto. intros v Hv. apply R2. rewrite vertices_In. auto.
  - intros Dv. rewrite S2 by auto. reflexivity.
Qed.
