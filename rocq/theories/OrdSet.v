(** Ordered sets and maps of the Rust standard library: BTreeSet and
    "HashSet, then sorted" as strictly sorted lists; BTreeMap/HashMap as
    association lists (only get, insert and remove are used). *)
From Coq Require Import List Lia Bool PeanoNat Sorted Permutation.
Import ListNotations.

(** *** strictly sorted lists for a total comparison *)
Section Sort.
  Context {A : Type} (cmp : A -> A -> comparison).

  Definition lt_ (x y : A) : Prop := cmp x y = Lt.
  Record cmp_laws : Prop := {
    cmp_eq : forall x y, cmp x y = Eq <-> x = y;
    cmp_anti : forall x y, cmp y x = CompOpp (cmp x y);
    cmp_trans : forall x y z, cmp x y = Lt -> cmp y z = Lt -> cmp x z = Lt }.

  Fixpoint insert_uniq (x : A) (l : list A) : list A :=
    match l with
    | [] => [x]
    | y :: l' => match cmp x y with Lt => x :: l | Eq => l | Gt => y :: insert_uniq x l' end
    end.
  (** collect into a set, sorted *)
  Definition usort (l : list A) : list A := fold_right insert_uniq [] l.

  Hypothesis L : cmp_laws.

  Lemma insert_uniq_In x y l : In y (insert_uniq x l) <-> x = y \/ In y l.
  Proof.
    induction l as [|z l IH]; simpl; [tauto|]. destruct (cmp x z) eqn:E; simpl.
    - apply (cmp_eq L) in E. subst. tauto.
    - tauto.
    - rewrite IH. tauto.
  Qed.
  Lemma usort_In y l : In y (usort l) <-> In y l.
  Proof. induction l as [|x l IH]; simpl; [tauto|]. rewrite insert_uniq_In, IH. tauto. Qed.

  Lemma insert_uniq_sorted x l : StronglySorted lt_ l -> StronglySorted lt_ (insert_uniq x l).
  Proof.
    induction 1 as [|y l S IH F]; simpl; [repeat constructor|]. destruct (cmp x y) eqn:E.
    - constructor; auto.
    - constructor; [constructor; auto|]. constructor; auto. eapply Forall_impl; [|exact F]. intros z. apply (cmp_trans L); auto.
    - constructor; auto. apply Forall_forall. intros z Hz. apply insert_uniq_In in Hz as [<-|Hz].
      + unfold lt_. rewrite (cmp_anti L), E. reflexivity.
      + rewrite Forall_forall in F. auto.
  Qed.
  Lemma usort_sorted l : StronglySorted lt_ (usort l).
  Proof. induction l; simpl; [constructor|]. apply insert_uniq_sorted. auto. Qed.

  Lemma lt_irrefl x : ~ lt_ x x.
  Proof. unfold lt_. intros H. assert (E : cmp x x = Eq) by (apply (cmp_eq L); auto). congruence. Qed.

  Lemma sorted_NoDup l : StronglySorted lt_ l -> NoDup l.
  Proof.
    induction 1 as [|x l S IH F]; constructor; auto. intros Hx. rewrite Forall_forall in F. exact (lt_irrefl _ (F _ Hx)).
  Qed.
  Lemma usort_NoDup l : NoDup (usort l).
  Proof. apply sorted_NoDup, usort_sorted. Qed.

  Lemma sorted_unique l l' : StronglySorted lt_ l -> StronglySorted lt_ l' -> (forall x, In x l <-> In x l') -> l = l'.
  Proof.
    intros S. revert l'. induction S as [|x l S IH F]; intros l' S' H.
    - destruct l' as [|y l']; auto. exfalso. apply (H y). left; auto.
    - destruct S' as [|y l' S' F'].
      { exfalso. apply (H x). left; auto. }
      rewrite Forall_forall in F, F'.
      assert (x = y).
      { assert (Hx : In x (y :: l')) by (apply H; left; auto). assert (Hy : In y (x :: l)) by (apply H; left; auto).
        destruct Hx as [|Hx]; auto. destruct Hy as [|Hy]; auto. exfalso.
        apply (lt_irrefl x). eapply (cmp_trans L); [apply F; exact Hy|apply F'; auto]. }
      subst y. f_equal. apply IH; auto. intros z. specialize (H z). simpl in H.
      split; intros Hz.
      + assert (E : x = z \/ In z l') by tauto. destruct E as [<-|]; auto. exfalso. exact (lt_irrefl _ (F _ Hz)).
      + assert (E : x = z \/ In z l) by tauto. destruct E as [<-|]; auto. exfalso. exact (lt_irrefl _ (F' _ Hz)).
  Qed.

  Lemma usort_ext l l' : (forall x, In x l <-> In x l') -> usort l = usort l'.
  Proof. intros H. apply sorted_unique; auto using usort_sorted. intros x. rewrite !usort_In. auto. Qed.
End Sort.

(** lexicographic comparisons *)
Definition lex (c d : comparison) : comparison := match c with Eq => d | _ => c end.

(** *** association lists *)
Section Maps.
  Context {K V : Type} (eqb : K -> K -> bool).

  Fixpoint aget (k : K) (m : list (K * V)) : option V :=
    match m with
    | [] => None
    | (k', v) :: m' => if eqb k k' then Some v else aget k m'
    end.
  (** insert or replace *)
  Fixpoint aset (k : K) (v : V) (m : list (K * V)) : list (K * V) :=
    match m with
    | [] => [(k, v)]
    | (k', v') :: m' => if eqb k k' then (k, v) :: m' else (k', v') :: aset k v m'
    end.
  Definition aremove (k : K) (m : list (K * V)) : list (K * V) := filter (fun p => negb (eqb k (fst p))) m.

  Hypothesis eqb_spec : forall x y, reflect (x = y) (eqb x y).

  Lemma aget_aset k v m k' : aget k' (aset k v m) = if eqb k' k then Some v else aget k' m.
  Proof.
    induction m as [|[a b] m IH]; simpl; [destruct (eqb_spec k' k); auto|].
    destruct (eqb_spec k a) as [<-|Hn]; simpl.
    - destruct (eqb_spec k' k); auto.
    - rewrite IH. destruct (eqb_spec k' a) as [->|]; auto. destruct (eqb_spec a k); congruence.
  Qed.
  Lemma aget_aremove k m k' : aget k' (aremove k m) = if eqb k' k then None else aget k' m.
  Proof.
    induction m as [|[a b] m IH]; simpl; [destruct (eqb_spec k' k); auto|].
    destruct (eqb_spec k a) as [<-|Hn]; simpl.
    - rewrite IH. destruct (eqb_spec k' k); auto.
    - rewrite IH. destruct (eqb_spec k' a) as [->|]; auto. destruct (eqb_spec a k); congruence.
  Qed.
  Lemma aget_In k v m : aget k m = Some v -> In (k, v) m.
  Proof.
    induction m as [|[a b] m IH]; simpl; [discriminate|]. destruct (eqb_spec k a) as [<-|]; auto. intros [= ->]. auto.
  Qed.
  Lemma aget_None k m : aget k m = None <-> ~ In k (map fst m).
  Proof.
    induction m as [|[a b] m IH]; simpl; [tauto|]. destruct (eqb_spec k a) as [<-|].
    - split; [discriminate|tauto].
    - rewrite IH. firstorder congruence.
  Qed.
  Lemma In_aget k v m : NoDup (map fst m) -> In (k, v) m -> aget k m = Some v.
  Proof.
    induction m as [|[a b] m IH]; simpl; [tauto|]. intros ND [E|H]; inversion ND as [|? ? Hn ND']; subst.
    - injection E as -> ->. destruct (eqb_spec k k); congruence.
    - destruct (eqb_spec k a) as [<-|]; auto. exfalso. apply Hn. apply in_map_iff. exists (k, v). auto.
  Qed.
  Lemma aset_keys k v m : forall x, In x (map fst (aset k v m)) <-> x = k \/ In x (map fst m).
  Proof.
    intros x. induction m as [|[a b] m IH]; simpl; [firstorder|]. destruct (eqb_spec k a) as [<-|]; simpl; [|rewrite IH]; firstorder.
  Qed.
  Lemma aset_NoDup k v m : NoDup (map fst m) -> NoDup (map fst (aset k v m)).
  Proof.
    induction m as [|[a b] m IH]; simpl; [repeat constructor; auto|]. intros ND. inversion ND as [|? ? Hn ND']; subst.
    destruct (eqb_spec k a) as [<-|]; simpl; constructor; auto. rewrite aset_keys. intros [->|]; congruence.
  Qed.
End Maps.

(** *** membership *)
Section Mem.
  Context {A : Type} (eqb : A -> A -> bool).
  Definition memb (x : A) (l : list A) : bool := existsb (eqb x) l.
  Hypothesis eqb_spec : forall x y, reflect (x = y) (eqb x y).
  Lemma memb_spec x l : memb x l = true <-> In x l.
  Proof.
    unfold memb. rewrite existsb_exists. split.
    - intros (y & Hy & E). destruct (eqb_spec x y); subst; auto; discriminate.
    - intros H. exists x. split; auto. destruct (eqb_spec x x); congruence.
  Qed.
  Lemma memb_false x l : memb x l = false <-> ~ In x l.
  Proof. rewrite <- memb_spec. destruct (memb x l); split; congruence. Qed.
End Mem.
