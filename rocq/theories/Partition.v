(** Model of src/partitions.rs and proofs of its properties. *)
From Coq Require Import List ZArith Lia Bool PeanoNat Relations Permutation.
From Verif Require Import Base.
Import ListNotations.

(** ** List helpers *)

(** partitions.rs: [v[i] = x], panics when out of bounds (checked by callers) *)
Fixpoint set_nth {A} (i : nat) (x : A) (l : list A) : list A :=
  match l, i with
  | [], _ => []
  | _ :: l', O => x :: l'
  | y :: l', S i' => y :: set_nth i' x l'
  end.

Lemma set_nth_length {A} i (x : A) l : length (set_nth i x l) = length l.
Proof. revert i; induction l; intros [|i]; simpl; auto. Qed.

Lemma nth_error_set_nth {A} i (x : A) l j :
  (i < length l)%nat ->
  nth_error (set_nth i x l) j = if Nat.eqb i j then Some x else nth_error l j.
Proof.
  revert i j; induction l as [|y l IH]; intros i j Hi; simpl in *; [lia|].
  destruct i as [|i]; destruct j as [|j]; simpl; auto.
  rewrite IH by lia. reflexivity.
Qed.

Lemma nth_error_snoc {A} (l : list A) x i :
  nth_error (l ++ [x]) i = if Nat.eqb i (length l) then Some x else nth_error l i.
Proof.
  destruct (Nat.eqb_spec i (length l)) as [->|Hn].
  - rewrite nth_error_app2, Nat.sub_diag by lia. reflexivity.
  - destruct (Nat.lt_ge_cases i (length l)).
    + rewrite nth_error_app1 by lia. reflexivity.
    + rewrite nth_error_app2 by lia.
      assert (nth_error l i = None) as -> by (apply nth_error_None; lia).
      apply nth_error_None; simpl; lia.
Qed.

Section Partition.
  (** [T: Clone + Eq + Hash]; equality is given by a boolean test *)
  Context {T : Type} (eqb : T -> T -> bool).
  Hypothesis eqb_spec : forall x y, reflect (x = y) (eqb x y).

  Local Lemma eqb_refl x : eqb x x = true.
  Proof. destruct (eqb_spec x x); congruence. Qed.

  (** partitions.rs 6-11: struct PartitionImpl.  The hash map is an
      association list (only [get] and [insert] are used on it). *)
  Record part := Part {
    p_index : list (T * nat);
    p_elements : list T;
    p_rank : list nat;
    p_parent : list nat }.

  (** partitions.rs 14-21 and 85-87: new *)
  Definition part_new : part := Part [] [] [] [].

  (** HashMap::get *)
  Fixpoint assoc (a : T) (l : list (T * nat)) : option nat :=
    match l with
    | [] => None
    | (b, i) :: l' => if eqb a b then Some i else assoc a l'
    end.

  (** partitions.rs 23-34: get_index *)
  Definition get_index (p : part) (a : T) : part * nat :=
    match assoc a (p_index p) with
    | Some x => (p, x)
    | None =>
        let i := length (p_elements p) in
        (Part ((a, i) :: p_index p) (p_elements p ++ [a])
              (p_rank p ++ [0%nat]) (p_parent p ++ [i]), i)
    end.

  (** partitions.rs 40-42: first loop of root_index; one iteration *)
  Definition climb_step (par : list nat) (root : nat) : outcome (nat + nat) :=
    do q <- unwrap (nth_error par root);
    if Nat.eqb q root then Ret (inr root) else Ret (inl q).

  (** partitions.rs 44-48: second loop (path compression); one iteration *)
  Definition compress_step (root : nat) (st : nat * list nat)
    : outcome ((nat * list nat) + list nat) :=
    let '(x, par) := st in
    if Nat.eqb x root then Ret (inr par)
    else
      do q <- unwrap (nth_error par x);
      Ret (inl (q, set_nth x root par)).

  (** partitions.rs 36-51: root_index.  The fuel of both loops is the number of
      elements (2^n iterations); it is shown to be enough. *)
  Definition root_index (p : part) (a : T) : outcome (part * nat) :=
    let '(p, x) := get_index p a in
    let n := length (p_elements p) in
    do root <- loop (climb_step (p_parent p)) n x;
    do par <- loop (compress_step root) n (x, p_parent p);
    Ret (Part (p_index p) (p_elements p) (p_rank p) par, root).

  (** partitions.rs 53-56 and 89-91: find *)
  Definition part_find (p : part) (a : T) : outcome (part * T) :=
    do (p, root) <- root_index p a;
    do e <- unwrap (nth_error (p_elements p) root);
    Ret (p, e).

  (** partitions.rs 58-75 and 93-95: unite *)
  Definition part_unite (p : part) (a b : T) : outcome part :=
    do (p, x) <- root_index p a;
    do (p, y) <- root_index p b;
    if Nat.eqb x y then Ret p
    else
      do rx <- unwrap (nth_error (p_rank p) x);
      do ry <- unwrap (nth_error (p_rank p) y);
      if Nat.ltb rx ry then
        Ret (Part (p_index p) (p_elements p) (p_rank p) (set_nth x y (p_parent p)))
      else
        let rk := if Nat.eqb rx ry then set_nth x (rx + 1) (p_rank p) else p_rank p in
        Ret (Part (p_index p) (p_elements p) rk (set_nth y x (p_parent p))).

  (** partitions.rs 101-110: one iteration of the loop in classes.  State:
      partition, class_for_rep, classes *)
  Definition classes_step (st : part * list (T * nat) * list (list T)) (e : T)
    : outcome (part * list (T * nat) * list (list T)) :=
    let '(p, cfr, cls) := st in
    do (p, rep) <- part_find p e;
    match assoc rep cfr with
    | Some cl =>
        do class <- unwrap (nth_error cls cl);
        Ret (p, cfr, set_nth cl (class ++ [e]) cls)
    | None => Ret (p, (rep, length cls) :: cfr, cls ++ [[e]])
    end.

  (** partitions.rs 97-113: classes *)
  Definition part_classes (p : part) (elms : list T) : outcome (part * list (list T)) :=
    do (p, _, cls) <- foldM classes_step (p, [], []) elms;
    Ret (p, cls).

  (** ** Invariant *)
  Record wf (p : part) : Prop := {
    wf_rank_len : length (p_rank p) = length (p_elements p);
    wf_par_len : length (p_parent p) = length (p_elements p);
    wf_index : forall a i, assoc a (p_index p) = Some i <-> nth_error (p_elements p) i = Some a;
    wf_parent : forall i q, nth_error (p_parent p) i = Some q -> (q < length (p_elements p))%nat;
    wf_ranks : forall i q, nth_error (p_parent p) i = Some q -> q <> i ->
        (nth i (p_rank p) 0 < nth q (p_rank p) 0)%nat }.

  (** root of a node in a parent array *)
  Inductive rootof (par : list nat) : nat -> nat -> Prop :=
  | root_here r : nth_error par r = Some r -> rootof par r r
  | root_up i q r : nth_error par i = Some q -> q <> i -> rootof par q r -> rootof par i r.

  Lemma rootof_fun par i r1 r2 : rootof par i r1 -> rootof par i r2 -> r1 = r2.
  Proof.
    intros H; revert r2; induction H as [r H|i q r H Hn H1 IH]; intros r2 H2;
      inversion H2; subst; try congruence.
    apply IH. congruence.
  Qed.

  Lemma rootof_root par i r : rootof par i r -> nth_error par r = Some r.
  Proof. induction 1; auto. Qed.

  (** number of nodes of larger rank *)
  Definition above (rk : list nat) (i : nat) : nat :=
    length (filter (fun r => Nat.ltb (nth i rk 0) r) rk).

  Lemma filter_le {A} (f g : A -> bool) l :
    (forall x, f x = true -> g x = true) ->
    (length (filter f l) <= length (filter g l))%nat.
  Proof.
    intros H; induction l as [|x l IH]; simpl; auto.
    destruct (f x) eqn:E.
    - rewrite (H x E). simpl. lia.
    - destruct (g x); simpl; lia.
  Qed.

  Lemma filter_lt {A} (f g : A -> bool) l x :
    (forall x, f x = true -> g x = true) ->
    In x l -> f x = false -> g x = true ->
    (length (filter f l) < length (filter g l))%nat.
  Proof.
    intros H Hin Hf Hg; induction l as [|y l IH]; simpl in *; [tauto|].
    destruct Hin as [->|Hin].
    - rewrite Hf, Hg. simpl. pose proof (filter_le f g l H). lia.
    - specialize (IH Hin). destruct (f y) eqn:E.
      + rewrite (H y E). simpl. lia.
      + destruct (g y); simpl; lia.
  Qed.

  Lemma above_lt rk i q :
    (q < length rk)%nat -> (nth i rk 0 < nth q rk 0)%nat -> (above rk q < above rk i)%nat.
  Proof.
    intros Hq H. unfold above. apply (filter_lt _ _ _ (nth q rk 0)).
    - intros x Hx. apply Nat.ltb_lt in Hx. apply Nat.ltb_lt. lia.
    - apply nth_In; auto.
    - apply Nat.ltb_ge. lia.
    - apply Nat.ltb_lt. auto.
  Qed.

  Lemma above_le rk i : (above rk i <= length rk)%nat.
  Proof.
    unfold above. generalize (fun r => Nat.ltb (nth i rk 0%nat) r). intros f.
    induction rk as [|x rk IH]; simpl; [lia|]. destruct (f x); simpl; lia.
  Qed.

  (** conditions on a parent array relative to ranks *)
  Definition okpar (rk par : list nat) : Prop :=
    length par = length rk /\
    forall i q, nth_error par i = Some q ->
      (q < length rk)%nat /\ (q <> i -> nth i rk 0 < nth q rk 0)%nat.

  Lemma wf_okpar p : wf p -> okpar (p_rank p) (p_parent p).
  Proof.
    intros [H1 H2 _ H4 H5]. split; [congruence|]. intros i q Hq.
    split; [rewrite H1; eauto|]. intros; eapply H5; eauto.
  Qed.

  Lemma rootof_ex rk par i :
    okpar rk par -> (i < length rk)%nat -> exists r, rootof par i r.
  Proof.
    intros [Hl Hp].
    remember (above rk i) as m eqn:Em. revert i Em.
    induction m as [m IH] using lt_wf_ind. intros i -> Hi.
    destruct (nth_error par i) as [q|] eqn:E.
    - destruct (Nat.eq_dec q i) as [->|Hn].
      + exists i. constructor; auto.
      + destruct (Hp _ _ E) as [Hq Hr]. specialize (Hr Hn).
        destruct (IH (above rk q) (above_lt rk i q Hq Hr) q eq_refl Hq) as [r Hrt].
        exists r. econstructor 2; eauto.
    - apply nth_error_None in E. lia.
  Qed.

  Lemma rootof_bound rk par i r : okpar rk par -> rootof par i r -> (r < length rk)%nat.
  Proof.
    intros [Hl Hp] H. apply rootof_root in H.
    destruct (Hp _ _ H); auto.
  Qed.

  Lemma rootof_rank rk par i r :
    okpar rk par -> rootof par i r -> i <> r -> (nth i rk 0 < nth r rk 0)%nat.
  Proof.
    intros Hok H; induction H as [r H|i q r H Hn H1 IH]; intros Hir; [congruence|].
    destruct Hok as [Hl Hp]. destruct (Hp _ _ H) as [_ Hq]. specialize (Hq Hn).
    destruct (Nat.eq_dec q r) as [->|Hqr]; auto. specialize (IH Hqr). lia.
  Qed.

  Lemma pow2_gt n : (Z.of_nat n < 2 ^ Z.of_nat n)%Z.
  Proof. apply Z.pow_gt_lin_r; lia. Qed.

  Lemma climb_correct rk par i :
    okpar rk par -> (i < length rk)%nat ->
    exists r, loop (climb_step par) (length rk) i = Ret r /\ rootof par i r.
  Proof.
    intros Hok Hi. destruct (rootof_ex rk par i Hok Hi) as [r0 Hr0].
    apply (loop_rule (climb_step par)
             (fun x => rootof par x r0 /\ (x < length rk)%nat)
             (fun x => Z.of_nat (above rk x)) (fun r => rootof par i r)).
    - intros x [Hx Hb]. unfold climb_step.
      inversion Hx as [r H|i' q r H Hn H1]; subst; rewrite H; simpl.
      + rewrite Nat.eqb_refl. auto.
      + assert (Nat.eqb q x = false) as -> by (apply Nat.eqb_neq; auto).
        destruct Hok as [Hl Hp]. destruct (Hp _ _ H) as [Hq Hr]. specialize (Hr Hn).
        splits; auto; try lia. pose proof (above_lt rk x q Hq Hr). lia.
    - auto.
    - pose proof (pow2_gt (length rk)). pose proof (above_le rk i). lia.
  Qed.

  (** replacing the parent of a node by its root keeps all roots *)
  Lemma okpar_set rk par x r :
    okpar rk par -> rootof par x r -> x <> r -> okpar rk (set_nth x r par).
  Proof.
    intros Hok Hx Hn. pose proof (rootof_rank _ _ _ _ Hok Hx Hn) as Hlt.
    pose proof (rootof_bound _ _ _ _ Hok Hx) as Hb.
    destruct Hok as [Hl Hp]. split; [rewrite set_nth_length; auto|].
    intros i q Hq.
    assert (Hxl : (x < length par)%nat).
    { inversion Hx; subst; apply nth_error_Some; congruence. }
    rewrite nth_error_set_nth in Hq by auto.
    destruct (Nat.eqb_spec x i) as [->|Hxi].
    - injection Hq as <-. split; auto.
    - apply Hp; auto.
  Qed.

  Lemma rootof_set par x r i s :
    rootof par x r -> x <> r -> rootof par i s -> rootof (set_nth x r par) i s.
  Proof.
    intros Hx Hn.
    assert (Hxl : (x < length par)%nat).
    { inversion Hx; subst; apply nth_error_Some; congruence. }
    intros H; induction H as [t H|j q t H Hq H1 IH].
    - assert (x <> t).
      { intros ->. inversion Hx; subst; congruence. }
      constructor. rewrite nth_error_set_nth by auto.
      destruct (Nat.eqb_spec x t); congruence.
    - destruct (Nat.eq_dec x j) as [->|Hxj].
      + assert (t = r) as ->.
        { eapply rootof_fun; [|exact Hx]. econstructor 2; eauto. }
        econstructor 2 with r; auto.
        * rewrite nth_error_set_nth, Nat.eqb_refl by auto. auto.
        * apply root_here. rewrite nth_error_set_nth by auto.
          destruct (Nat.eqb_spec j r); [congruence|]. eapply rootof_root; eauto.
      + econstructor 2 with q; auto.
        rewrite nth_error_set_nth by auto. destruct (Nat.eqb_spec x j); congruence.
  Qed.

  Lemma compress_correct rk par i r :
    okpar rk par -> rootof par i r ->
    exists par', loop (compress_step r) (length rk) (i, par) = Ret par' /\
      okpar rk par' /\ (forall j s, rootof par j s -> rootof par' j s).
  Proof.
    intros Hok Hr.
    apply (loop_rule (compress_step r)
       (fun st => okpar rk (snd st) /\ rootof (snd st) (fst st) r /\
                  (forall j s, rootof par j s -> rootof (snd st) j s))
       (fun st => Z.of_nat (above rk (fst st)))
       (fun par' => okpar rk par' /\ (forall j s, rootof par j s -> rootof par' j s))).
    - intros [x pa] (Ho & Hx & Hs). simpl in *.
      destruct (Nat.eqb_spec x r) as [->|Hn]; [auto|].
      inversion Hx as [t H|j q t H Hq H1]; subst; [congruence|].
      rewrite H. simpl. destruct Ho as [Hl Hp]. destruct (Hp _ _ H) as [Hb Hrk].
      specialize (Hrk Hq). splits.
      + apply okpar_set; auto. split; auto.
      + apply rootof_set; auto.
      + intros; apply rootof_set; auto.
      + lia.
      + pose proof (above_lt rk x q Hb Hrk). lia.
    - simpl; auto.
    - simpl. pose proof (pow2_gt (length rk)). pose proof (above_le rk i). lia.
  Qed.

  (** ** Abstract view: representative and rank of an element *)
  Definition is_rep (p : part) (a r : T) : Prop :=
    (exists i j, nth_error (p_elements p) i = Some a /\ rootof (p_parent p) i j /\
       nth_error (p_elements p) j = Some r) \/
    (~ In a (p_elements p) /\ r = a).

  (** rank of a representative, 0 for unknown elements *)
  Definition has_rank (p : part) (r : T) (k : nat) : Prop :=
    (exists i, nth_error (p_elements p) i = Some r /\ nth_error (p_rank p) i = Some k) \/
    (~ In r (p_elements p) /\ k = 0%nat).

  Lemma wf_new : wf part_new.
  Proof.
    split; simpl; auto.
    - intros a [|i]; simpl; split; discriminate.
    - intros [|i]; discriminate.
    - intros [|i]; discriminate.
  Qed.

  Lemma wf_inj p i j a : wf p ->
    nth_error (p_elements p) i = Some a -> nth_error (p_elements p) j = Some a -> i = j.
  Proof.
    intros W Hi Hj. apply (wf_index p W) in Hi. apply (wf_index p W) in Hj. congruence.
  Qed.

  Lemma wf_elements_nth p i : wf p -> (i < length (p_elements p))%nat ->
    exists a, nth_error (p_elements p) i = Some a.
  Proof.
    intros W Hi. destruct (nth_error (p_elements p) i) eqn:E; eauto.
    apply nth_error_None in E; lia.
  Qed.

  Lemma is_rep_fun p a r1 r2 : wf p -> is_rep p a r1 -> is_rep p a r2 -> r1 = r2.
  Proof.
    intros W [(i & j & Hi & Hr & Hj)|[Hn ->]] [(i' & j' & Hi' & Hr' & Hj')|[Hn' ->]]; auto.
    - pose proof (wf_inj p i i' a W Hi Hi'); subst i'.
      pose proof (rootof_fun _ _ _ _ Hr Hr'); subst j'. congruence.
    - exfalso; apply Hn'. eapply nth_error_In; eauto.
    - exfalso; apply Hn. eapply nth_error_In; eauto.
  Qed.

  Lemma is_rep_ex p a : wf p -> exists r, is_rep p a r.
  Proof.
    intros W. destruct (assoc a (p_index p)) as [i|] eqn:E.
    - apply (wf_index p W) in E.
      assert (Hi : (i < length (p_rank p))%nat).
      { rewrite (wf_rank_len p W). apply nth_error_Some; congruence. }
      destruct (rootof_ex _ _ i (wf_okpar p W) Hi) as [j Hj].
      destruct (wf_elements_nth p j W) as [r Hr].
      { rewrite <- (wf_rank_len p W). eapply rootof_bound; eauto. apply wf_okpar; auto. }
      exists r. left. eauto.
    - exists a. right. split; auto. intros Hin. apply In_nth_error in Hin as [i Hi].
      apply (wf_index p W) in Hi. congruence.
  Qed.

  (** get_index *)
  Lemma get_index_correct p a :
    wf p ->
    exists p' i, get_index p a = (p', i) /\ wf p' /\
      nth_error (p_elements p') i = Some a /\
      (forall c r, is_rep p c r <-> is_rep p' c r) /\
      (forall c k, has_rank p c k <-> has_rank p' c k).
  Proof.
    intros W. unfold get_index. destruct (assoc a (p_index p)) as [i|] eqn:E.
    - exists p, i. apply (wf_index p W) in E. splits; auto; intros; tauto.
    - assert (Ha : ~ In a (p_elements p)).
      { intros Hin. apply In_nth_error in Hin as [i Hi]. apply (wf_index p W) in Hi. congruence. }
      set (n := length (p_elements p)).
      set (p' := Part ((a, n) :: p_index p) (p_elements p ++ [a]) (p_rank p ++ [0%nat])
                      (p_parent p ++ [n])).
      assert (Hr : length (p_rank p) = n) by (apply (wf_rank_len p W)).
      assert (Hp : length (p_parent p) = n) by (apply (wf_par_len p W)).
      assert (W' : wf p').
      { split; simpl.
        - rewrite !app_length; simpl; lia.
        - rewrite !app_length; simpl; lia.
        - intros b i. rewrite nth_error_snoc. fold n.
          destruct (eqb_spec b a) as [->|Hba].
          + destruct (Nat.eqb_spec i n) as [->|Hin]; split; auto; intros H; try congruence.
            exfalso; apply Ha; eapply nth_error_In; eauto.
          + rewrite (wf_index p W).
            destruct (Nat.eqb_spec i n) as [->|Hin]; [|tauto].
            split; intros H; [|congruence].
            assert (nth_error (p_elements p) n <> None) by congruence.
            apply nth_error_Some in H0. lia.
        - intros i q. rewrite nth_error_snoc, app_length. simpl. rewrite Hp.
          destruct (Nat.eqb_spec i n); intros H.
          + injection H as <-. lia.
          + apply (wf_parent p W) in H. lia.
        - intros i q. rewrite nth_error_snoc, Hp.
          destruct (Nat.eqb_spec i n) as [->|Hin]; intros H Hq; [congruence|].
          pose proof (wf_parent p W _ _ H). pose proof (wf_ranks p W _ _ H Hq).
          assert (i < length (p_parent p))%nat by (apply nth_error_Some; congruence).
          rewrite !app_nth1 by lia. auto. }
      assert (Hroot : forall i j, (i < n)%nat -> rootof (p_parent p) i j <-> rootof (p_parent p') i j).
      { intros i j Hi. simpl. split.
        - intros H; induction H as [r H|i q r H Hn H1 IH].
          + constructor. rewrite nth_error_snoc, Hp. destruct (Nat.eqb_spec r n); [lia|auto].
          + econstructor 2; eauto.
            * rewrite nth_error_snoc, Hp. destruct (Nat.eqb_spec i n); [lia|auto].
            * apply IH. apply (wf_parent p W) in H. auto.
        - intros H; induction H as [r H|i q r H Hn H1 IH];
            rewrite nth_error_snoc, Hp in H.
          + destruct (Nat.eqb_spec r n); [lia|]. constructor; auto.
          + destruct (Nat.eqb_spec i n); [lia|]. econstructor 2; eauto.
            apply IH. apply (wf_parent p W) in H. auto. }
      assert (Hnr : rootof (p_parent p') n n).
      { constructor. simpl. rewrite nth_error_snoc, Hp, Nat.eqb_refl. auto. }
      exists p', n. splits; auto; try (intros c r; split).
      + simpl. fold n. rewrite nth_error_snoc. unfold n. rewrite Nat.eqb_refl. auto.
      + intros [(i & j & Hi & Hij & Hj)|[Hc ->]].
        * assert (i < n)%nat by (apply nth_error_Some; congruence).
          assert (j < n)%nat by (apply nth_error_Some; congruence).
          left. exists i, j. split; [|split].
          -- simpl. rewrite nth_error_app1; auto.
          -- apply Hroot; auto.
          -- simpl. rewrite nth_error_app1; auto.
        * destruct (eqb_spec c a) as [->|Hca].
          -- left. exists n, n. simpl. fold n. rewrite nth_error_snoc, Nat.eqb_refl. auto.
          -- right. split; auto. simpl. rewrite in_app_iff. simpl. intuition.
      + intros [(i & j & Hi & Hij & Hj)|[Hc ->]].
        * simpl in Hi, Hj. rewrite nth_error_snoc in Hi, Hj. fold n in Hi, Hj.
          destruct (Nat.eqb_spec i n) as [->|Hin].
          -- pose proof (rootof_fun _ _ _ _ Hij Hnr); subst j.
             rewrite Nat.eqb_refl in Hj. right. split; congruence.
          -- assert (i < n)%nat by (apply nth_error_Some; congruence).
             apply Hroot in Hij; auto.
             assert (j < n)%nat.
             { rewrite <- Hr. eapply rootof_bound; eauto. apply wf_okpar; auto. }
             destruct (Nat.eqb_spec j n); [lia|]. left. exists i, j. auto.
        * right. split; auto. simpl in Hc. rewrite in_app_iff in Hc. tauto.
      + intros [(i & Hi & Hk)|[Hc ->]].
        * assert (i < n)%nat by (apply nth_error_Some; congruence).
          left. exists i. simpl. rewrite !nth_error_app1 by lia. auto.
        * destruct (eqb_spec c a) as [->|Hca].
          -- left. exists n. simpl. fold n. rewrite !nth_error_snoc, Hr, Nat.eqb_refl. unfold n. rewrite Nat.eqb_refl. auto.
          -- right. split; auto. simpl. rewrite in_app_iff. simpl. intuition.
      + intros [(i & Hi & Hk)|[Hc ->]].
        * simpl in Hi, Hk. rewrite nth_error_snoc in Hi. rewrite nth_error_snoc in Hk. fold n in Hi. rewrite Hr in Hk.
          destruct (Nat.eqb_spec i n) as [Hin|Hin].
          -- right. split; congruence.
          -- left. exists i. auto.
        * right. split; auto. simpl in Hc. rewrite in_app_iff in Hc. tauto.
  Qed.

  Definition same_view (p p' : part) : Prop :=
    (forall c r, is_rep p c r <-> is_rep p' c r) /\
    (forall c k, has_rank p c k <-> has_rank p' c k).

  Lemma same_view_refl p : same_view p p.
  Proof. split; tauto. Qed.
  Lemma same_view_trans p1 p2 p3 : same_view p1 p2 -> same_view p2 p3 -> same_view p1 p3.
  Proof.
    intros [A B] [C D]. split; intros.
    - rewrite A; auto.
    - rewrite B; auto.
  Qed.
  Lemma same_view_sym p1 p2 : same_view p1 p2 -> same_view p2 p1.
  Proof. intros [A B]. split; intros; symmetry; auto. Qed.

  Lemma root_index_correct p a :
    wf p ->
    exists p' j r, root_index p a = Ret (p', j) /\ wf p' /\ same_view p p' /\
      nth_error (p_elements p') j = Some r /\ is_rep p a r /\
      nth_error (p_parent p') j = Some j /\
      exists i, nth_error (p_elements p') i = Some a /\ rootof (p_parent p') i j.
  Proof.
    intros W. destruct (get_index_correct p a W) as (p1 & i & E & W1 & Hi & Hrep & Hrk).
    unfold root_index. rewrite E.
    assert (Hlen : length (p_elements p1) = length (p_rank p1)) by (symmetry; apply wf_rank_len; auto).
    assert (Hib : (i < length (p_rank p1))%nat).
    { rewrite <- Hlen. apply nth_error_Some; congruence. }
    pose proof (wf_okpar p1 W1) as Hok.
    rewrite Hlen.
    destruct (climb_correct _ _ i Hok Hib) as (j & -> & Hj). simpl.
    destruct (compress_correct _ _ _ _ Hok Hj) as (par & -> & Hok' & Hsame). simpl.
    set (p2 := Part (p_index p1) (p_elements p1) (p_rank p1) par).
    assert (Hroots : forall k s, rootof (p_parent p1) k s <-> rootof par k s).
    { intros k s; split; auto. intros Hk.
      assert (Hkb : (k < length (p_rank p1))%nat).
      { destruct Hok' as [<- _]. inversion Hk; subst; apply nth_error_Some; congruence. }
      destruct (rootof_ex _ _ k Hok Hkb) as [s' Hs'].
      pose proof (rootof_fun _ _ _ _ (Hsame _ _ Hs') Hk). congruence. }
    assert (W2 : wf p2).
    { destruct Hok' as [Hl Hp]. split; simpl; auto.
      - congruence.
      - apply W1.
      - intros k q Hq. rewrite Hlen. eapply Hp; eauto.
      - intros k q Hq. eapply Hp; eauto. }
    assert (V : same_view p p2).
    { split; intros c x.
      - rewrite Hrep. unfold is_rep. simpl. split; intros [(k & l & H1 & H2 & H3)|H]; auto;
          left; exists k, l; splits; auto; apply Hroots; auto.
      - rewrite Hrk. unfold has_rank. simpl. tauto. }
    pose proof (rootof_bound _ _ _ _ Hok Hj) as Hjb.
    destruct (wf_elements_nth p1 j W1) as [r Hr]; [lia|].
    exists p2, j, r. split; [auto|]. split; [auto|]. split; [auto|]. split; [auto|].
    split; [|split].
    - apply Hrep. left. exists i, j. auto.
    - simpl. eapply rootof_root. apply Hroots. eauto.
    - exists i. split; auto.
  Qed.

  Lemma find_correct p a :
    wf p -> exists p' r, part_find p a = Ret (p', r) /\ wf p' /\ same_view p p' /\ is_rep p a r.
  Proof.
    intros W. destruct (root_index_correct p a W) as (p' & j & r & E & W' & V & Hj & Hr & _).
    unfold part_find. rewrite E. simpl. rewrite Hj. simpl. eauto 10.
  Qed.

  (** ** unite on the abstract view *)
  Definition unite_spec (p p' : part) (a b : T) : Prop :=
    forall ra rb ka kb, is_rep p a ra -> is_rep p b rb -> has_rank p ra ka -> has_rank p rb kb ->
      (ra = rb -> same_view p p') /\
      (ra <> rb ->
         let '(win, lose) := if Nat.ltb ka kb then (rb, ra) else (ra, rb) in
         (forall c r, is_rep p c r -> is_rep p' c (if eqb r lose then win else r)) /\
         (forall c k, has_rank p c k ->
            has_rank p' c (if eqb c ra && Nat.eqb ka kb then (k + 1)%nat else k))).

  Lemma has_rank_fun p c k1 k2 : wf p -> has_rank p c k1 -> has_rank p c k2 -> k1 = k2.
  Proof.
    intros W [(i & Hi & Hk)|[Hn ->]] [(i' & Hi' & Hk')|[Hn' ->]]; auto.
    - pose proof (wf_inj p i i' c W Hi Hi'); subst. congruence.
    - exfalso; apply Hn'; eapply nth_error_In; eauto.
    - exfalso; apply Hn; eapply nth_error_In; eauto.
  Qed.

  Lemma has_rank_ex p c : wf p -> exists k, has_rank p c k.
  Proof.
    intros W. destruct (assoc c (p_index p)) as [i|] eqn:E.
    - apply (wf_index p W) in E.
      destruct (nth_error (p_rank p) i) as [k|] eqn:K.
      + exists k. left. eauto.
      + apply nth_error_None in K. rewrite (wf_rank_len p W) in K.
        assert (nth_error (p_elements p) i <> None) by congruence. apply nth_error_Some in H. lia.
    - exists 0%nat. right. split; auto. intros Hin. apply In_nth_error in Hin as [i Hi].
      apply (wf_index p W) in Hi. congruence.
  Qed.

  (** linking root [x] below root [y] of larger rank *)
  Lemma link_correct p x y rx ry rk' :
    wf p -> x <> y ->
    nth_error (p_parent p) x = Some x -> nth_error (p_parent p) y = Some y ->
    nth_error (p_elements p) x = Some rx -> nth_error (p_elements p) y = Some ry ->
    length rk' = length (p_rank p) ->
    (nth x rk' 0 < nth y rk' 0)%nat ->
    (forall i, i <> y -> nth i rk' 0 = nth i (p_rank p) 0)%nat ->
    (nth y (p_rank p) 0 <= nth y rk' 0)%nat ->
    let p' := Part (p_index p) (p_elements p) rk' (set_nth x y (p_parent p)) in
    wf p' /\ (forall c r, is_rep p c r -> is_rep p' c (if eqb r rx then ry else r)).
  Proof.
    intros W Hxy Px Py Ex Ey Hlen Hlt Hsame Hge p'.
    assert (Hxl : (x < length (p_parent p))%nat) by (apply nth_error_Some; congruence).
    assert (W' : wf p').
    { split; simpl.
      - rewrite Hlen. apply W.
      - rewrite set_nth_length. apply W.
      - apply W.
      - intros i q. rewrite nth_error_set_nth by auto.
        destruct (Nat.eqb_spec x i); intros H.
        + injection H as <-. apply nth_error_Some. congruence.
        + eapply wf_parent; eauto.
      - intros i q. rewrite nth_error_set_nth by auto.
        destruct (Nat.eqb_spec x i) as [->|Hxi]; intros H Hq.
        + injection H as <-. auto.
        + pose proof (wf_ranks p W _ _ H Hq) as Hr.
          destruct (Nat.eq_dec i y) as [->|Hiy]; [congruence|].
          rewrite (Hsame i) by auto.
          destruct (Nat.eq_dec q y) as [->|Hqy]; [lia|]. rewrite Hsame; auto. }
    split; auto.
    assert (Hroot : forall i r, rootof (p_parent p) i r ->
               rootof (set_nth x y (p_parent p)) i (if Nat.eqb r x then y else r)).
    { assert (Hy : rootof (set_nth x y (p_parent p)) y y).
      { constructor. rewrite nth_error_set_nth by auto.
        destruct (Nat.eqb_spec x y); congruence. }
      intros i r H; induction H as [r H|i q r H Hn H1 IH].
      - destruct (Nat.eqb_spec r x) as [->|Hrx].
        + econstructor 2 with y; auto. rewrite nth_error_set_nth, Nat.eqb_refl by auto. auto.
        + constructor. rewrite nth_error_set_nth by auto.
          destruct (Nat.eqb_spec x r); congruence.
      - econstructor 2; eauto. rewrite nth_error_set_nth by auto.
        destruct (Nat.eqb_spec x i); [congruence|auto]. }
    intros c r [(i & j & Hi & Hij & Hj)|[Hn ->]].
    - left. exists i, (if Nat.eqb j x then y else j). simpl. split; auto. split; auto.
      destruct (Nat.eqb_spec j x) as [->|Hjx].
      + assert (r = rx) as -> by congruence. rewrite eqb_refl. auto.
      + destruct (eqb_spec r rx) as [->|]; auto. exfalso. apply Hjx. eapply wf_inj; eauto.
    - right. simpl. split; auto. destruct (eqb_spec c rx) as [->|]; auto.
      exfalso. apply Hn. eapply nth_error_In; eauto.
  Qed.

  Lemma nth_error_nth_eq {A} (l : list A) i x d : nth_error l i = Some x -> nth i l d = x.
  Proof. revert i; induction l as [|y l IH]; intros [|i] H; simpl in *; try discriminate; [congruence|auto]. Qed.

  Lemma nth_set_nth {A} (l : list A) i j x d :
    (i < length l)%nat -> nth j (set_nth i x l) d = if Nat.eqb i j then x else nth j l d.
  Proof.
    revert i j; induction l as [|y l IH]; intros i j Hi; simpl in *; [lia|].
    destruct i as [|i]; destruct j as [|j]; simpl; auto. rewrite IH by lia. reflexivity.
  Qed.

  Lemma unite_correct p a b :
    wf p -> exists p', part_unite p a b = Ret p' /\ wf p' /\ unite_spec p p' a b.
  Proof.
    intros W. unfold part_unite.
    destruct (root_index_correct p a W) as (p1 & x & ra & -> & W1 & V1 & Hx & Hra & Px & ia & Hia & Ria).
    simpl.
    destruct (root_index_correct p1 b W1) as (p2 & y & rb & E2 & W2 & V2 & Hy & Hrb & Py & ib & Hib & Rib).
    rewrite E2. simpl.
    pose proof (same_view_trans _ _ _ V1 V2) as V.
    (* x is still a root in p2 and has element ra *)
    assert (Hx2 : nth_error (p_elements p2) x = Some ra /\ nth_error (p_parent p2) x = Some x).
    { assert (Hrep : is_rep p1 ra ra) by (left; exists x, x; splits; auto; constructor; auto).
      apply (proj1 V2) in Hrep. clear -E2 W1 Hx Px W2 Hrep.
      unfold root_index in E2. unfold get_index in E2.
      destruct (assoc b (p_index p1)) as [i|] eqn:Eb.
      - apply bind_Ret_inv in E2 as (r & _ & E2). apply bind_Ret_inv in E2 as (par & _ & E2).
        injection E2 as <- <-. simpl in *. split; auto.
        destruct Hrep as [(i1 & j1 & H1 & H2 & H3)|[Hn _]].
        + simpl in *.
          assert (i1 = x) as -> by (eapply (wf_inj p1); eauto).
          assert (j1 = x) as -> by (eapply (wf_inj p1); eauto).
          eapply rootof_root; eauto.
        + exfalso; apply Hn; simpl; eapply nth_error_In; eauto.
      - apply bind_Ret_inv in E2 as (r & _ & E2). apply bind_Ret_inv in E2 as (par & _ & E2).
        injection E2 as <- <-. simpl in *.
        assert (Hx' : nth_error (p_elements p1 ++ [b]) x = Some ra).
        { rewrite nth_error_app1; auto. apply nth_error_Some; congruence. }
        split; auto.
        destruct Hrep as [(i1 & j1 & H1 & H2 & H3)|[Hn _]].
        + simpl in *.
          assert (i1 = x) as -> by (eapply (wf_inj _ i1 x ra W2); eauto).
          assert (j1 = x) as -> by (eapply (wf_inj _ j1 x ra W2); eauto).
          eapply rootof_root; eauto.
        + exfalso; apply Hn; simpl; eapply nth_error_In; eauto. }
    destruct Hx2 as [Hx2 Px2].
    assert (Hrb' : is_rep p b rb) by (apply (proj1 V1); auto).
    destruct (nth_error (p_rank p2) x) as [rx|] eqn:Rx.
    2: { apply nth_error_None in Rx. rewrite (wf_rank_len p2 W2) in Rx.
         assert (nth_error (p_elements p2) x <> None) as HH by congruence. apply nth_error_Some in HH. lia. }
    destruct (nth_error (p_rank p2) y) as [ry|] eqn:Ry.
    2: { apply nth_error_None in Ry. rewrite (wf_rank_len p2 W2) in Ry.
         assert (nth_error (p_elements p2) y <> None) as HH by congruence. apply nth_error_Some in HH. lia. }
    assert (Kx : has_rank p ra rx) by (apply (proj2 V); left; eauto).
    assert (Ky : has_rank p rb ry) by (apply (proj2 V); left; eauto).
    assert (Hspec : forall p', wf p' ->
        (ra = rb -> same_view p p') ->
        (ra <> rb ->
         let '(win, lose) := if Nat.ltb rx ry then (rb, ra) else (ra, rb) in
         (forall c r, is_rep p2 c r -> is_rep p' c (if eqb r lose then win else r)) /\
         (forall c k, has_rank p2 c k ->
            has_rank p' c (if eqb c ra && Nat.eqb rx ry then (k + 1)%nat else k))) ->
        unite_spec p p' a b).
    { intros p' W' H1 H2 ra' rb' ka kb A1 A2 A3 A4.
      assert (ra' = ra) as -> by (eapply is_rep_fun; [| |exact Hra]; eauto).
      assert (rb' = rb) as -> by (eapply is_rep_fun; [| |exact Hrb']; eauto).
      assert (ka = rx) as -> by (eapply has_rank_fun; [| |exact Kx]; eauto).
      assert (kb = ry) as -> by (eapply has_rank_fun; [| |exact Ky]; eauto).
      split; auto. intros Hne. specialize (H2 Hne).
      destruct (if Nat.ltb rx ry then (rb, ra) else (ra, rb)) as [win lose].
      destruct H2 as [H2 H3]. split; intros.
      - apply H2. apply (proj1 V); auto.
      - apply H3. apply (proj2 V); auto. }
    destruct (Nat.eqb_spec x y) as [<-|Hxy].
    { exists p2. split; auto. split; auto. apply Hspec; auto.
      intros Hne. congruence. }
    assert (Hne : ra <> rb).
    { intros ->. apply Hxy. eapply wf_inj; eauto. }
    simpl. rewrite (nth_error_nth_eq _ _ _ 0%nat Rx), (nth_error_nth_eq _ _ _ 0%nat Ry) || idtac.
    destruct (Nat.ltb_spec rx ry) as [Hlt|Hge].
    - destruct (link_correct p2 x y ra rb (p_rank p2) W2 Hxy Px2 Py Hx2 Hy eq_refl) as [W' Hrep'].
      { rewrite (nth_error_nth_eq _ _ _ 0%nat Rx), (nth_error_nth_eq _ _ _ 0%nat Ry). auto. }
      { auto. } { auto. }
      eexists. split; [reflexivity|]. split; [exact W'|]. apply Hspec; auto.
      + congruence.
      + intros _. split; auto. intros c k Hk.
        assert (Nat.eqb rx ry = false) as -> by (apply Nat.eqb_neq; lia).
        rewrite andb_false_r. exact Hk.
    - set (rk' := if Nat.eqb rx ry then set_nth x (rx + 1) (p_rank p2) else p_rank p2).
      assert (Hxl : (x < length (p_rank p2))%nat) by (apply nth_error_Some; congruence).
      assert (Hnx : forall i, nth i rk' 0%nat =
                if Nat.eqb rx ry && Nat.eqb x i then (rx + 1)%nat else nth i (p_rank p2) 0%nat).
      { intros i. unfold rk'. destruct (Nat.eqb rx ry); simpl; auto. rewrite nth_set_nth; auto. }
      destruct (link_correct p2 y x rb ra rk' W2) as [W' Hrep']; auto.
      { unfold rk'. destruct (Nat.eqb rx ry); auto. rewrite set_nth_length; auto. }
      { rewrite !Hnx, Nat.eqb_refl, andb_true_r.
        rewrite (nth_error_nth_eq _ _ _ 0%nat Rx), (nth_error_nth_eq _ _ _ 0%nat Ry).
        destruct (Nat.eqb_spec x y); [congruence|]. rewrite andb_false_r.
        destruct (Nat.eqb_spec rx ry); lia. }
      { intros i Hi. rewrite Hnx. destruct (Nat.eqb_spec x i); [congruence|].
        rewrite andb_false_r. auto. }
      { rewrite Hnx, Nat.eqb_refl, andb_true_r. rewrite (nth_error_nth_eq _ _ _ 0%nat Rx).
        destruct (Nat.eqb rx ry); lia. }
      eexists. split; [reflexivity|]. split; [exact W'|]. apply Hspec; auto.
      + congruence.
      + intros _. split; auto. intros c k [(i & Hi & Hk)|[Hn ->]].
        * left. exists i. simpl. split; auto. fold rk'. unfold rk'.
          destruct (eqb_spec c ra) as [->|Hc].
          -- assert (i = x) as -> by (eapply wf_inj; eauto).
             assert (k = rx) as -> by congruence. simpl.
             destruct (Nat.eqb rx ry); auto.
             rewrite nth_error_set_nth, Nat.eqb_refl by auto. auto.
          -- simpl. destruct (Nat.eqb rx ry); auto.
             rewrite nth_error_set_nth by auto. destruct (Nat.eqb_spec x i); auto.
             subst i. exfalso. apply Hc. congruence.
        * right. simpl. split; auto. destruct (eqb_spec c ra) as [->|]; auto.
          exfalso; apply Hn; eapply nth_error_In; eauto.
  Qed.

  (** unite determines the new view *)
  Lemma unite_view_fun p q p' q' a b :
    wf p -> wf q -> wf p' -> wf q' -> same_view p q ->
    unite_spec p p' a b -> unite_spec q q' a b -> same_view p' q'.
  Proof.
    intros Wp Wq Wp' Wq' V Sp Sq.
    destruct (is_rep_ex p a Wp) as [ra Ha]. destruct (is_rep_ex p b Wp) as [rb Hb].
    destruct (has_rank_ex p ra Wp) as [ka Ka]. destruct (has_rank_ex p rb Wp) as [kb Kb].
    destruct (Sp ra rb ka kb Ha Hb Ka Kb) as [S1 S2].
    destruct (Sq ra rb ka kb) as [Q1 Q2]; try (apply V; auto).
    destruct (eqb_spec ra rb) as [->|Hne].
    - eapply same_view_trans; [apply same_view_sym; auto|].
      eapply same_view_trans; [exact V|]. auto.
    - specialize (S2 Hne). specialize (Q2 Hne).
      destruct (if Nat.ltb ka kb then (rb, ra) else (ra, rb)) as [win lose].
      destruct S2 as [S2 S3]. destruct Q2 as [Q2 Q3].
      assert (R : forall c r, is_rep p' c r <-> is_rep q' c r).
      { intros c r. destruct (is_rep_ex p c Wp) as [r0 Hr0].
        pose proof (S2 _ _ Hr0) as A. pose proof (Q2 c r0 (proj1 (proj1 V c r0) Hr0)) as B.
        split; intros H.
        - rewrite (is_rep_fun _ _ _ _ Wp' H A). auto.
        - rewrite (is_rep_fun _ _ _ _ Wq' H B). auto. }
      assert (K : forall c r, has_rank p' c r <-> has_rank q' c r).
      { intros c r. destruct (has_rank_ex p c Wp) as [r0 Hr0].
        pose proof (S3 _ _ Hr0) as A. pose proof (Q3 c r0 (proj1 (proj2 V c r0) Hr0)) as B.
        split; intros H.
        - rewrite (has_rank_fun _ _ _ _ Wp' H A). auto.
        - rewrite (has_rank_fun _ _ _ _ Wq' H B). auto. }
      split; auto.
  Qed.

  (** ** classes *)

  (** specification: elements of [l] without later repetitions *)
  Fixpoint firsts (l : list T) : list T :=
    match l with
    | [] => []
    | x :: l' => x :: filter (fun y => negb (eqb x y)) (firsts l')
    end.

  Lemma firsts_In x l : In x (firsts l) <-> In x l.
  Proof.
    induction l as [|y l IH]; simpl; [tauto|].
    rewrite filter_In, IH. destruct (eqb_spec y x); simpl; intuition congruence.
  Qed.

  Lemma firsts_NoDup l : NoDup (firsts l).
  Proof.
    induction l as [|y l IH]; simpl; constructor.
    - rewrite filter_In, eqb_refl. simpl. intuition congruence.
    - apply NoDup_filter; auto.
  Qed.

  Lemma firsts_snoc l x :
    firsts (l ++ [x]) = if existsb (eqb x) l then firsts l else firsts l ++ [x].
  Proof.
    induction l as [|y l IH]; simpl; auto. rewrite IH.
    destruct (eqb_spec x y) as [->|Hn]; simpl.
    - destruct (existsb (eqb y) l); auto.
      rewrite filter_app. simpl. rewrite eqb_refl. simpl. rewrite app_nil_r. auto.
    - destruct (existsb (eqb x) l); auto.
      rewrite filter_app. simpl. destruct (eqb_spec y x); [congruence|]. auto.
  Qed.

  Definition class_of (rep : T -> T) (elms : list T) (r : T) : list T :=
    filter (fun e => eqb (rep e) r) elms.

  Lemma nth_error_map_ex {A B} (f : A -> B) l i y :
    nth_error (map f l) i = Some y -> exists x, nth_error l i = Some x /\ y = f x.
  Proof.
    revert i; induction l as [|z l IH]; intros [|i]; simpl; try discriminate.
    - intros [= <-]. eauto.
    - intros H; apply IH; auto.
  Qed.

  Lemma set_nth_map {A B} (f g : A -> B) l i x :
    nth_error l i = Some x ->
    (forall j y, nth_error l j = Some y -> j <> i -> f y = g y) ->
    set_nth i (g x) (map f l) = map g l.
  Proof.
    revert i; induction l as [|z l IH]; intros [|i] Hi Hj; simpl in *; try discriminate.
    - injection Hi as ->. f_equal. apply map_ext_in. intros y Hy.
      apply In_nth_error in Hy as [j Hy]. apply (Hj (S j)); auto.
    - f_equal.
      + apply (Hj 0%nat); auto.
      + apply IH; auto. intros j y Hy Hn. apply (Hj (S j)); auto.
  Qed.

  Lemma classes_correct p elms (rep : T -> T) :
    wf p -> (forall a, is_rep p a (rep a)) ->
    exists p' , part_classes p elms = Ret (p', map (class_of rep elms) (firsts (map rep elms)))
      /\ wf p' /\ same_view p p'.
  Proof.
    intros W Hrep. unfold part_classes.
    destruct (foldM_inv classes_step
      (fun pre st => let '(q, cfr, cls) := st in
         wf q /\ same_view p q /\
         cls = map (class_of rep pre) (firsts (map rep pre)) /\
         (forall r i, assoc r cfr = Some i <-> nth_error (firsts (map rep pre)) i = Some r))
      elms (p, [], [])) as ([[q cfr] cls] & E & Wq & Vq & Hcls & _).
    - simpl. splits; auto using same_view_refl; try discriminate.
      intros r [|i]; split; discriminate.
    - intros pre e [[q cfr] cls] _ (Wq & Vq & Hcls & Hcfr). unfold classes_step.
      destruct (find_correct q e Wq) as (q' & r & -> & Wq' & Vq' & Hr). simpl.
      assert (r = rep e) as ->.
      { eapply is_rep_fun; [exact W| |apply Hrep]. apply (proj1 Vq); auto. }
      assert (V' : same_view p q') by (eapply same_view_trans; eauto).
      set (fs := firsts (map rep pre)) in *.
      assert (Hfs : firsts (map rep (pre ++ [e])) =
                if existsb (eqb (rep e)) (map rep pre) then fs else fs ++ [rep e]).
      { rewrite map_app. simpl. apply firsts_snoc. }
      assert (Hco : forall r', class_of rep (pre ++ [e]) r' =
                 class_of rep pre r' ++ if eqb (rep e) r' then [e] else []).
      { intros r'. unfold class_of. rewrite filter_app. simpl. destruct (eqb (rep e) r'); auto. }
      destruct (assoc (rep e) cfr) as [i|] eqn:Ea.
      + apply Hcfr in Ea as Hi.
        assert (Hex : existsb (eqb (rep e)) (map rep pre) = true).
        { apply existsb_exists. exists (rep e). split; [|apply eqb_refl].
          apply firsts_In. eapply nth_error_In; eauto. }
        rewrite Hex in Hfs.
        assert (Hc : nth_error cls i = Some (class_of rep pre (rep e))).
        { rewrite Hcls. apply map_nth_error; auto. }
        rewrite Hc. simpl. eexists. split; [reflexivity|].
        rewrite Hfs. splits; auto; try apply V'; try apply Hcfr; auto.
        rewrite Hcls.
        replace (class_of rep pre (rep e) ++ [e]) with (class_of rep (pre ++ [e]) (rep e))
          by (rewrite Hco, eqb_refl; auto).
        apply set_nth_map with (x := rep e); auto.
        intros j y Hy Hji. rewrite Hco. destruct (eqb_spec (rep e) y) as [<-|]; [|rewrite app_nil_r; auto].
        exfalso. apply Hji. pose proof (firsts_NoDup (map rep pre)) as ND. fold fs in ND.
        rewrite NoDup_nth_error in ND. apply ND; [apply nth_error_Some; congruence|congruence].
      + assert (Hno : ~ In (rep e) fs).
        { intros Hin. apply In_nth_error in Hin as [i Hi]. apply Hcfr in Hi. congruence. }
        assert (Hex : existsb (eqb (rep e)) (map rep pre) = false).
        { destruct (existsb _ _) eqn:X; auto. apply existsb_exists in X as (y & Hy & Hye).
          exfalso. apply Hno. apply firsts_In. destruct (eqb_spec (rep e) y); congruence. }
        rewrite Hex in Hfs.
        eexists. split; [reflexivity|].
        rewrite Hfs. split; [auto|]. split; [auto|]. split.
        * rewrite map_app. simpl. rewrite Hcls. f_equal.
          -- apply map_ext_in. intros y Hy. rewrite Hco.
             destruct (eqb_spec (rep e) y); [congruence|]. rewrite app_nil_r; auto.
          -- rewrite Hco, eqb_refl.
             assert (class_of rep pre (rep e) = []) as ->; [|auto].
             unfold class_of. clear -Hno eqb_spec. subst fs.
             assert (H : forall y, In y (map rep pre) -> y <> rep e).
             { intros y Hy ->. apply Hno. apply firsts_In; auto. }
             clear Hno. induction pre as [|z pre IH]; simpl in *; auto.
             destruct (eqb_spec (rep z) (rep e)) as [Hz|]; [exfalso; eapply H; eauto|].
             apply IH; auto.
        * intros r i. simpl. rewrite nth_error_snoc.
          assert (Hl : length cls = length fs) by (rewrite Hcls, map_length; auto).
          rewrite Hl. destruct (eqb_spec r (rep e)) as [->|Hre].
          -- destruct (Nat.eqb_spec i (length fs)) as [->|Hi]; split; auto; intros HH; try congruence.
             exfalso; apply Hno; eapply nth_error_In; eauto.
          -- rewrite Hcfr. destruct (Nat.eqb_spec i (length fs)) as [->|Hi]; [|tauto].
             split; intros HH; [|congruence].
             assert (nth_error fs (length fs) <> None) as X by congruence.
             apply nth_error_Some in X; lia.
    - rewrite E. simpl. exists q. rewrite Hcls. auto.
  Qed.

  (** ** Histories *)
  Inductive op := OpUnite (a b : T) | OpFind (a : T) | OpClasses (l : list T).

  (** answer of a call, as seen by the caller *)
  Inductive answer := AUnit | AElem (a : T) | AClasses (l : list (list T)).

  Definition run_op (p : part) (o : op) : outcome (part * answer) :=
    match o with
    | OpUnite a b => do q <- part_unite p a b; Ret (q, AUnit)
    | OpFind a => do (q, r) <- part_find p a; Ret (q, AElem r)
    | OpClasses l => do (q, c) <- part_classes p l; Ret (q, AClasses c)
    end.

  (** state after a sequence of calls on a fresh Partition *)
  Definition run (ops : list op) : outcome part :=
    foldM (fun p o => omap fst (run_op p o)) part_new ops.

  (** pairs passed to unite *)
  Fixpoint united (ops : list op) (a b : T) : Prop :=
    match ops with
    | [] => False
    | OpUnite x y :: ops' => (a = x /\ b = y) \/ united ops' a b
    | _ :: ops' => united ops' a b
    end.

  (** the smallest equivalence relation containing the united pairs *)
  Definition equivalent (ops : list op) : T -> T -> Prop :=
    clos_refl_sym_trans T (united ops).

  Lemma united_app o1 o2 a b : united (o1 ++ o2) a b <-> united o1 a b \/ united o2 a b.
  Proof.
    induction o1 as [|[x y|x|l] o1 IH]; simpl; try rewrite IH; tauto.
  Qed.

  Lemma clos_mono {A} (R1 R2 : A -> A -> Prop) a b :
    (forall x y, R1 x y -> R2 x y) -> clos_refl_sym_trans A R1 a b -> clos_refl_sym_trans A R2 a b.
  Proof.
    intros H; induction 1; [apply rst_step; auto|apply rst_refl|apply rst_sym; auto|eapply rst_trans; eauto].
  Qed.

  Definition good (ops : list op) (p : part) : Prop :=
    wf p /\
    (forall a b ra rb, is_rep p a ra -> is_rep p b rb -> (ra = rb <-> equivalent ops a b)) /\
    (forall a ra, is_rep p a ra -> equivalent ops a ra).

  Lemma good_read ops o p p' :
    good ops p -> wf p' -> same_view p p' ->
    (forall a b, united [o] a b -> False) -> good (ops ++ [o]) p'.
  Proof.
    intros (W & H1 & H2) W' V Ho.
    assert (E : forall a b, equivalent ops a b <-> equivalent (ops ++ [o]) a b).
    { intros a b; split; apply clos_mono; intros x y; rewrite united_app; auto.
      intros [|C]; auto. exfalso; eauto. }
    split; [auto|split].
    - intros a b ra rb Ha Hb. rewrite <- E. apply H1; apply V; auto.
    - intros a ra Ha. rewrite <- E. apply H2; apply V; auto.
  Qed.

  Lemma good_unite ops a b p p' :
    good ops p -> wf p' -> unite_spec p p' a b -> good (ops ++ [OpUnite a b]) p'.
  Proof.
    intros (W & H1 & H2) W' Hs.
    destruct (is_rep_ex p a W) as [ra Ha]. destruct (is_rep_ex p b W) as [rb Hb].
    destruct (has_rank_ex p ra W) as [ka Ka]. destruct (has_rank_ex p rb W) as [kb Kb].
    destruct (Hs _ _ _ _ Ha Hb Ka Kb) as [S1 S2]. clear Hs.
    set (ops' := ops ++ [OpUnite a b]).
    assert (Hinc : forall x y, equivalent ops x y -> equivalent ops' x y).
    { intros x y; apply clos_mono. intros; apply united_app; auto. }
    assert (Hab : equivalent ops' a b).
    { apply rst_step. apply united_app. right. simpl; auto. }
    (* the new representative function *)
    assert (Hnew : exists f, (forall c r, is_rep p c r -> is_rep p' c (f r)) /\
        f ra = f rb /\ (forall r, f r = r \/ (f r = ra /\ r = rb) \/ (f r = rb /\ r = ra))).
    { destruct (eqb_spec ra rb) as [Heq|Hne].
      - exists (fun r => r). subst rb. splits; auto. intros c r Hc. apply S1; auto.
      - specialize (S2 Hne). destruct (Nat.ltb ka kb).
        + exists (fun r => if eqb r ra then rb else r). destruct S2 as [S2 _]. splits; auto.
          * rewrite eqb_refl. destruct (eqb_spec rb ra); congruence.
          * intros r. destruct (eqb_spec r ra); auto.
        + exists (fun r => if eqb r rb then ra else r). destruct S2 as [S2 _]. splits; auto.
          * rewrite eqb_refl. destruct (eqb_spec ra rb); congruence.
          * intros r. destruct (eqb_spec r rb); auto. }
    destruct Hnew as (f & Hf & Hfab & Hfr).
    assert (Hrarb : equivalent ops' ra rb).
    { eapply rst_trans; [apply rst_sym; apply Hinc; apply H2; eauto|].
      eapply rst_trans; [exact Hab|]. apply Hinc; auto. }
    assert (Hfe : forall r, equivalent ops' r (f r)).
    { intros r. destruct (Hfr r) as [->|[[-> ->]|[-> ->]]]; [apply rst_refl|apply rst_sym; auto|auto]. }
    assert (Hmem : forall c rc, is_rep p' c rc -> equivalent ops' c rc).
    { intros c rc Hc. destruct (is_rep_ex p c W) as [r0 Hr0].
      rewrite (is_rep_fun p' c rc (f r0) W' Hc (Hf _ _ Hr0)).
      eapply rst_trans; [apply Hinc; apply H2; eauto|apply Hfe]. }
    split; [auto|split; [|auto]].
    intros c d rc rd Hc Hd. split.
    - intros ->. eapply rst_trans; [apply Hmem; eauto|]. apply rst_sym. apply Hmem; auto.
    - intros He.
      assert (G : forall x y, equivalent ops' x y -> forall rx ry,
                 is_rep p x rx -> is_rep p y ry -> f rx = f ry).
      { clear -W H1 Ha Hb Hfab ops'. intros x y H. induction H as [x y H|x|x y H IH|x y z H IH H' IH'];
          intros rx ry Hx Hy.
        - apply united_app in H as [H|H].
          + assert (rx = ry) as ->; auto. apply (H1 x y); auto. apply rst_step; auto.
          + simpl in H. destruct H as [[-> ->]|[]].
            rewrite (is_rep_fun p a rx ra W Hx Ha), (is_rep_fun p b ry rb W Hy Hb). auto.
        - rewrite (is_rep_fun p x rx ry W Hx Hy). auto.
        - symmetry; auto.
        - destruct (is_rep_ex p y W) as [r Hr]. rewrite (IH rx r); auto. }
      destruct (is_rep_ex p c W) as [r0 Hr0]. destruct (is_rep_ex p d W) as [r1 Hr1].
      rewrite (is_rep_fun p' c rc (f r0) W' Hc (Hf _ _ Hr0)).
      rewrite (is_rep_fun p' d rd (f r1) W' Hd (Hf _ _ Hr1)). eauto.
  Qed.

  Lemma rep_fun_ex p l : wf p ->
    exists rep : T -> T, forall a, In a l -> is_rep p a (rep a).
  Proof.
    intros W. induction l as [|x l [rep IH]].
    - exists (fun a => a). simpl; tauto.
    - destruct (is_rep_ex p x W) as [r Hr].
      exists (fun a => if eqb a x then r else rep a). intros a [->|Ha].
      + rewrite eqb_refl; auto.
      + destruct (eqb_spec a x) as [->|]; auto.
  Qed.

  (** find as a total function of the state *)
  Definition rep_of (p : part) (a : T) : T :=
    match part_find p a with Ret (_, r) => r | _ => a end.

  Lemma rep_of_spec p a : wf p -> is_rep p a (rep_of p a).
  Proof.
    intros W. unfold rep_of. destruct (find_correct p a W) as (q & r & -> & _ & _ & H). auto.
  Qed.

  Lemma run_op_correct ops o p :
    good ops p -> exists p' ans, run_op p o = Ret (p', ans) /\ good (ops ++ [o]) p' /\
      (match o with OpUnite a b => unite_spec p p' a b | _ => same_view p p' end).
  Proof.
    intros G. pose proof (proj1 G) as W. destruct o as [a b|a|l]; simpl.
    - destruct (unite_correct p a b W) as (p' & -> & W' & Hs). simpl.
      exists p', AUnit. splits; auto; eapply good_unite; eauto.
    - destruct (find_correct p a W) as (p' & r & -> & W' & V & _). simpl.
      exists p', (AElem r). split; auto. split; auto. eapply good_read; eauto.
    - destruct (classes_correct p l (rep_of p) W (fun a => rep_of_spec p a W)) as (p' & -> & W' & V).
      simpl. eexists p', _. split; [reflexivity|]. split; auto. eapply good_read; eauto.
  Qed.

  Lemma run_snoc ops o : run (ops ++ [o]) = do p <- run ops; omap fst (run_op p o).
  Proof.
    unfold run. rewrite foldM_app. simpl.
    destruct (foldM _ _ ops); simpl; auto. destruct (omap fst (run_op a o)); auto.
  Qed.

  Lemma good_new : good [] part_new.
  Proof.
    split; [apply wf_new|]. split.
    - intros a b ra rb [(i & j & Hi & _)|[_ ->]] [(i' & j' & Hi' & _)|[_ ->]];
        try (destruct i; discriminate); try (destruct i'; discriminate).
      split; [intros ->; apply rst_refl|].
      intros H. induction H; simpl in *; try tauto; congruence.
    - intros a ra [(i & j & Hi & _)|[_ ->]]; [destruct i; discriminate|]. apply rst_refl.
  Qed.

  Lemma run_correct ops : exists p, run ops = Ret p /\ good ops p.
  Proof.
    induction ops as [|o ops IH] using rev_ind.
    - exists part_new. split; [reflexivity|]. apply good_new.
    - destruct IH as (p & E & G).
      destruct (run_op_correct ops o p G) as (p' & ans & Eo & G' & _).
      exists p'. rewrite run_snoc, E. simpl. rewrite Eo. simpl. auto.
  Qed.

  Definition is_unite (o : op) : bool := match o with OpUnite _ _ => true | _ => false end.

  Lemma run_filter_view ops :
    exists p q, run ops = Ret p /\ run (filter is_unite ops) = Ret q /\
      good ops p /\ good (filter is_unite ops) q /\ same_view p q.
  Proof.
    induction ops as [|o ops IH] using rev_ind.
    - exists part_new, part_new. simpl. splits; try apply good_new; try reflexivity; apply same_view_refl.
    - destruct IH as (p & q & E & F & G & H & V).
      destruct (run_op_correct ops o p G) as (p' & ans & Eo & G' & So).
      rewrite filter_app, run_snoc, E. simpl. rewrite Eo. simpl.
      destruct o as [a b|a|l]; simpl.
      + destruct (run_op_correct _ (OpUnite a b) q H) as (q' & ans' & Fo & H' & Sq).
        exists p', q'. rewrite run_snoc, F. cbn [bind]. rewrite Fo. simpl.
        splits; auto; try apply G'; try apply H';
          eapply unite_view_fun; try apply V; try apply So; try apply Sq;
          try apply G; try apply H; try apply G'; try apply H'; auto.
      + rewrite app_nil_r. exists p', q. split; auto. split; auto. split; auto. split; auto.
        eapply same_view_trans; [apply same_view_sym; exact So|auto].
      + rewrite app_nil_r. exists p', q. split; auto. split; auto. split; auto. split; auto.
        eapply same_view_trans; [apply same_view_sym; exact So|auto].
  Qed.

  (** ** The three properties *)

  Lemma find_iff_equivalent ops :
    exists p, run ops = Ret p /\
      forall a, exists p' r, part_find p a = Ret (p', r) /\ equivalent ops a r /\
        forall b, exists p'' s, part_find p' b = Ret (p'', s) /\
          (r = s <-> equivalent ops a b).
  Proof.
    destruct (run_correct ops) as (p & E & W & H1 & H2). exists p. split; auto.
    intros a. destruct (find_correct p a W) as (p' & r & Ea & W' & V & Hr).
    exists p', r. split; auto. split; eauto.
    intros b. destruct (find_correct p' b W') as (p'' & s & Eb & W'' & V' & Hs).
    exists p'', s. split; auto. apply H1; auto. apply V; auto.
  Qed.

  Lemma find_ignores_reads ops a :
    exists p q, run ops = Ret p /\ run (filter is_unite ops) = Ret q /\
      exists p' q' r, part_find p a = Ret (p', r) /\ part_find q a = Ret (q', r).
  Proof.
    destruct (run_filter_view ops) as (p & q & E & F & G & H & V).
    exists p, q. split; auto. split; auto.
    destruct (find_correct p a (proj1 G)) as (p' & r & Ea & W' & _ & Hr).
    destruct (find_correct q a (proj1 H)) as (q' & s & Eb & W'' & _ & Hs).
    exists p', q', r. split; auto. rewrite Eb. repeat f_equal.
    apply (is_rep_fun p a); auto; [apply G|]. apply V; auto.
  Qed.

  Lemma classes_of_history ops elms :
    exists p, run ops = Ret p /\
      exists p' rep, (forall a, exists q, part_find p a = Ret (q, rep a)) /\
        (forall a b, rep a = rep b <-> equivalent ops a b) /\
        part_classes p elms =
          Ret (p', map (fun r => filter (fun e => eqb (rep e) r) elms) (firsts (map rep elms))).
  Proof.
    destruct (run_correct ops) as (p & E & W & H1 & H2). exists p. split; auto.
    destruct (classes_correct p elms (rep_of p) W (fun a => rep_of_spec p a W)) as (p' & Ec & _ & _).
    exists p', (rep_of p). split; [|split; auto].
    - intros a. unfold rep_of. destruct (find_correct p a W) as (q & r & -> & _). eauto.
    - intros a b. apply H1; apply rep_of_spec; auto.
  Qed.

  Lemma class_list_nonempty (rep : T -> T) elms :
    Forall (fun c => c <> []) (map (class_of rep elms) (firsts (map rep elms))).
  Proof.
    apply Forall_forall. intros c Hc. apply in_map_iff in Hc as (r & <- & Hr).
    rewrite firsts_In in Hr. apply in_map_iff in Hr as (e & <- & He).
    intros H. assert (In e (class_of rep elms (rep e))) as Hin.
    { apply filter_In. split; auto. apply eqb_refl. }
    rewrite H in Hin. destruct Hin.
  Qed.

  Lemma concat_filter_perm (rep : T -> T) fs elms :
    NoDup fs -> (forall e, In e elms -> In (rep e) fs) ->
    Permutation (concat (map (class_of rep elms) fs)) elms.
  Proof.
    intros ND. revert elms; induction ND as [|r fs Hr ND IH]; intros elms H.
    - destruct elms as [|e]; simpl; auto. exfalso; apply (H e); simpl; auto.
    - simpl.
      assert (E : map (class_of rep elms) fs =
                  map (class_of rep (filter (fun e => negb (eqb (rep e) r)) elms)) fs).
      { apply map_ext_in. intros x Hx. unfold class_of.
        clear -Hx Hr eqb_spec. induction elms as [|e elms IH]; simpl; auto.
        destruct (eqb_spec (rep e) r) as [He|He]; simpl.
        - destruct (eqb_spec (rep e) x) as [He'|]; auto. congruence.
        - destruct (eqb (rep e) x); congruence. }
      rewrite E, IH.
      + unfold class_of. clear. induction elms as [|e elms IH]; simpl; auto.
        destruct (eqb (rep e) r); simpl.
        * apply perm_skip; auto.
        * rewrite <- Permutation_middle. apply perm_skip; auto.
      + intros e He. apply filter_In in He as [He Hne].
        destruct (H e He) as [->|]; auto. rewrite eqb_refl in Hne. discriminate.
  Qed.

  Lemma class_list_perm (rep : T -> T) elms :
    Permutation (concat (map (class_of rep elms) (firsts (map rep elms)))) elms.
  Proof.
    apply concat_filter_perm; [apply firsts_NoDup|].
    intros e He. apply firsts_In. apply in_map; auto.
  Qed.
End Partition.
