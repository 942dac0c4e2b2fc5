(** Basic vocabulary shared by all models: results of Rust functions that may
    panic or run forever, and a loop combinator. *)
From Coq Require Import List ZArith Lia Bool PeanoNat.
Import ListNotations.

Ltac splits := repeat match goal with |- _ /\ _ => split end.

(** [Ret a]: the Rust function returns [a].  [Panic]: it panics (index out of
    bounds, failed assert, unwrap of None, division by zero).  [Timeout]: the
    fuel given to a loop of the model was used up before the loop ended. *)
Inductive outcome (A : Type) : Type :=
| Ret (a : A)
| Panic
| Timeout.
Arguments Ret {A} a.
Arguments Panic {A}.
Arguments Timeout {A}.

Definition bind {A B} (m : outcome A) (f : A -> outcome B) : outcome B :=
  match m with
  | Ret a => f a
  | Panic => Panic
  | Timeout => Timeout
  end.

Declare Scope out_scope.
Delimit Scope out_scope with out.
Notation "'do' x <- m ; k" := (bind m (fun x => k))
  (at level 200, x pattern, m at level 100, k at level 200, right associativity) : out_scope.
Open Scope out_scope.

(** [Option::unwrap], slice indexing: panic on [None]. *)
Definition unwrap {A} (o : option A) : outcome A :=
  match o with Some a => Ret a | None => Panic end.

Definition omap {A B} (f : A -> B) (m : outcome A) : outcome B :=
  bind m (fun a => Ret (f a)).

(** [assert!(b)] *)
Definition assert (b : bool) : outcome unit := if b then Ret tt else Panic.

(** iterate an outcome-valued function over a list, left to right *)
Fixpoint mapM {A B} (f : A -> outcome B) (l : list A) : outcome (list B) :=
  match l with
  | [] => Ret []
  | x :: xs => do y <- f x; do ys <- mapM f xs; Ret (y :: ys)
  end.

Fixpoint foldM {A S} (f : S -> A -> outcome S) (s : S) (l : list A) : outcome S :=
  match l with
  | [] => Ret s
  | x :: xs => do s' <- f s x; foldM f s' xs
  end.

Lemma bind_Ret_inv {A B} (m : outcome A) (f : A -> outcome B) b :
  bind m f = Ret b -> exists a, m = Ret a /\ f a = Ret b.
Proof. destruct m; simpl; intros H; try discriminate. eauto. Qed.

Lemma mapM_Ret {A B} (f : A -> outcome B) (g : A -> B) l :
  (forall x, In x l -> f x = Ret (g x)) -> mapM f l = Ret (map g l).
Proof.
  induction l as [|x xs IH]; intros H; simpl; auto.
  rewrite H by (left; auto). simpl. rewrite IH by (intros; apply H; right; auto). reflexivity.
Qed.

Lemma mapM_ext {A B} (f g : A -> outcome B) l :
  (forall x, In x l -> f x = g x) -> mapM f l = mapM g l.
Proof.
  induction l as [|x xs IH]; intros H; simpl; auto.
  rewrite H by (left; auto). rewrite IH by (intros; apply H; right; auto). reflexivity.
Qed.

Lemma mapM_Ret_inv {A B} (f : A -> outcome B) l ys :
  mapM f l = Ret ys -> Forall2 (fun x y => f x = Ret y) l ys.
Proof.
  revert ys; induction l as [|x xs IH]; simpl; intros ys H.
  - injection H as <-. constructor.
  - apply bind_Ret_inv in H as (y & Hy & H). apply bind_Ret_inv in H as (zs & Hz & H).
    injection H as <-. constructor; auto.
Qed.

Lemma foldM_app {A S} (f : S -> A -> outcome S) s l1 l2 :
  foldM f s (l1 ++ l2) = bind (foldM f s l1) (fun s' => foldM f s' l2).
Proof.
  revert s; induction l1 as [|x xs IH]; intros s; simpl; auto.
  destruct (f s x); simpl; auto.
Qed.

(** foldM keeps an invariant and does not fail, if each step does so *)
Lemma foldM_inv {A S} (f : S -> A -> outcome S) (I : list A -> S -> Prop) l s0 :
  I [] s0 ->
  (forall pre x s, incl (pre ++ [x]) l -> I pre s -> exists s', f s x = Ret s' /\ I (pre ++ [x]) s') ->
  exists s, foldM f s0 l = Ret s /\ I l s.
Proof.
  intros H0 Hs.
  assert (Haux : forall rest pre s, incl (pre ++ rest) l -> I pre s ->
            exists s', foldM f s rest = Ret s' /\ I (pre ++ rest) s').
  { induction rest as [|x xs IH]; intros pre s Hi HI; simpl.
    - rewrite app_nil_r. eauto.
    - destruct (Hs pre x s) as (s' & E & HI'); auto.
      { intros y Hy. apply Hi. rewrite in_app_iff in *. simpl in *. intuition. }
      rewrite E. simpl. destruct (IH (pre ++ [x]) s') as (s2 & E2 & HI2); auto.
      { rewrite <- app_assoc. auto. }
      rewrite <- app_assoc in HI2. eauto. }
  destruct (Haux l [] s0) as (s & E & HI); auto. apply incl_refl. eauto.
Qed.

(** *** Loops

    [body s] is one iteration: [Ret (inl s')] goes on with state [s'],
    [Ret (inr r)] leaves the loop with result [r].  [whl n] performs up to
    [2^n] iterations, so that realistic iteration counts need little fuel. *)
Section Loops.
  Context {S R : Type} (body : S -> outcome (S + R)).

  Fixpoint whl (n : nat) (s : S) : outcome (S + R) :=
    match n with
    | O => body s
    | Datatypes.S n' =>
        match whl n' s with
        | Ret (inl s') => whl n' s'
        | x => x
        end
    end.

  Definition loop (n : nat) (s : S) : outcome R :=
    match whl n s with
    | Ret (inr r) => Ret r
    | Ret (inl _) => Timeout
    | Panic => Panic
    | Timeout => Timeout
    end.

  (** total correctness with a measure *)
  Lemma loop_rule (Inv : S -> Prop) (m : S -> Z) (Post : R -> Prop) n s :
    (forall s, Inv s ->
       match body s with
       | Ret (inl s') => Inv s' /\ (0 <= m s' < m s)%Z
       | Ret (inr r) => Post r
       | _ => False
       end) ->
    Inv s -> (m s < 2 ^ Z.of_nat n)%Z ->
    exists r, loop n s = Ret r /\ Post r.
  Proof.
    intros Hb HI Hm.
    assert (H : forall n s, Inv s ->
       match whl n s with
       | Ret (inl s') => Inv s' /\ (0 <= m s' /\ m s' + 2 ^ Z.of_nat n <= m s)%Z
       | Ret (inr r) => Post r
       | _ => False
       end).
    { clear n s HI Hm. induction n as [|n IH]; intros s HI.
      - simpl. specialize (Hb s HI). destruct (body s) as [[s'|r]| |]; auto.
        change (2 ^ Z.of_nat 0)%Z with 1%Z. intuition lia.
      - cbn [whl]. pose proof (IH s HI) as H1.
        destruct (whl n s) as [[s'|r]| |]; auto.
        destruct H1 as [HI' H1]. pose proof (IH s' HI') as H2.
        destruct (whl n s') as [[s''|r]| |]; auto.
        rewrite Nat2Z.inj_succ, Z.pow_succ_r by lia. intuition lia. }
    specialize (H n s HI). unfold loop. destruct (whl n s) as [[s'|r]| |]; try tauto.
    - lia.
    - eauto.
  Qed.

  (** partial correctness *)
  Lemma loop_partial (Inv : S -> Prop) (Post : R -> Prop) n s r :
    (forall s, Inv s ->
       match body s with
       | Ret (inl s') => Inv s'
       | Ret (inr r) => Post r
       | _ => True
       end) ->
    Inv s -> loop n s = Ret r -> Post r.
  Proof.
    intros Hb HI Hl.
    assert (H : forall n s, Inv s ->
       match whl n s with
       | Ret (inl s') => Inv s'
       | Ret (inr r) => Post r
       | _ => True
       end).
    { clear n s HI Hl. induction n as [|n IH]; intros s HI.
      - simpl. apply Hb; auto.
      - cbn [whl]. pose proof (IH s HI) as H1.
        destruct (whl n s) as [[s'|r']| |]; auto. apply IH; auto. }
    specialize (H n s HI). unfold loop in Hl.
    destruct (whl n s) as [[s'|r']| |]; try discriminate. congruence.
  Qed.

  (** the same loop counted in single steps *)
  Fixpoint iter (k : nat) (s : S) : outcome (S + R) :=
    match k with
    | O => Ret (inl s)
    | Datatypes.S k' =>
        match body s with
        | Ret (inl s') => iter k' s'
        | x => x
        end
    end.

  Lemma iter_add k1 k2 s :
    iter (k1 + k2) s = match iter k1 s with Ret (inl s') => iter k2 s' | x => x end.
  Proof.
    revert s; induction k1 as [|k1 IH]; intros s; simpl; auto.
    destruct (body s) as [[s'|r]| |]; auto.
  Qed.

  Lemma whl_iter n s : whl n s = iter (2 ^ n) s.
  Proof.
    revert s; induction n as [|n IH]; intros s.
    - simpl. destruct (body s) as [[s'|r]| |]; auto.
    - cbn [whl]. replace (2 ^ Datatypes.S n)%nat with (2 ^ n + 2 ^ n)%nat by (simpl; lia).
      rewrite iter_add, IH. destruct (iter (2 ^ n) s) as [[s'|r]| |]; auto.
  Qed.

  Lemma iter_loop k s x :
    iter k s = x -> (forall s', x <> Ret (inl s')) ->
    forall n, (k <= 2 ^ n)%nat -> whl n s = x.
  Proof.
    intros Hk Hx n Hn. rewrite whl_iter.
    replace (2 ^ n)%nat with (k + (2 ^ n - k))%nat by lia.
    rewrite iter_add, Hk. destruct x as [[s'|r]| |]; auto. exfalso; eapply Hx; eauto.
  Qed.

  Lemma iter_loop_Ret k s r :
    iter k s = Ret (inr r) -> forall n, (k <= 2 ^ n)%nat -> loop n s = Ret r.
  Proof.
    intros Hk n Hn. unfold loop. erewrite (iter_loop k s (Ret (inr r))); eauto. discriminate.
  Qed.

  (** total correctness for loops whose number of iterations has no simple
      bound: some amount of fuel is enough, and so is any larger amount *)
  Lemma loop_wf (Inv : S -> Prop) (lt : S -> S -> Prop) (Post : R -> Prop) s :
    (forall s, Inv s ->
       match body s with
       | Ret (inl s') => Inv s' /\ lt s' s
       | Ret (inr r) => Post r
       | _ => False
       end) ->
    Inv s -> Acc lt s ->
    exists n0 r, (forall n, (n0 <= n)%nat -> loop n s = Ret r) /\ Post r.
  Proof.
    intros Hb HI Ha.
    assert (H : exists k r, iter k s = Ret (inr r) /\ Post r).
    { revert HI. induction Ha as [s _ IH]; intros HI.
      specialize (Hb s HI) as Hs. destruct (body s) as [[s'|r]| |] eqn:E; try tauto.
      - destruct Hs as [HI' Hlt]. destruct (IH s' Hlt HI') as (k & r & Hk & Hp).
        exists (Datatypes.S k), r. simpl. rewrite E. auto.
      - exists 1%nat, r. simpl. rewrite E. auto. }
    destruct H as (k & r & Hk & Hp). exists k, r. split; auto.
    intros n Hn. eapply iter_loop_Ret; eauto.
    pose proof (Nat.pow_gt_lin_r 2 n). lia.
  Qed.

  Lemma loop_mono n n' s r : (n <= n')%nat -> loop n s = Ret r -> loop n' s = Ret r.
  Proof.
    intros Hn. unfold loop at 1. destruct (whl n s) as [[s'|r']| |] eqn:E; try discriminate.
    intros [= ->]. rewrite whl_iter in E. eapply iter_loop_Ret; eauto.
    apply Nat.pow_le_mono_r; lia.
  Qed.
End Loops.
