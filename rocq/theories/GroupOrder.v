(** Counting in finite groups that are given as lists: facts for C100.  Nothing here models code. *)
From Coq Require Import List Lia Bool PeanoNat Permutation.
Import ListNotations.

Lemma filter_app_length {A} (p : A -> bool) l l' : length (filter p (l ++ l')) = length (filter p l) + length (filter p l').
Proof. rewrite filter_app, app_length. auto. Qed.
Lemma NoDup_map_filter {A B} (f : A -> B) (p : A -> bool) l : NoDup (map f l) -> NoDup (map f (filter p l)).
Proof.
  induction l as [|a l IH]; intros H; cbn [filter]; [constructor|]. inversion H as [|? ? N ND]; subst. destruct (p a); auto. cbn [map]. constructor; auto.
  intros I. apply N. apply in_map_iff in I as (b & E & I). apply filter_In in I as [I _]. apply in_map_iff. eauto.
Qed.
(** if the values of f on l are in c, which has no repetitions, and each is taken k times, then l has k times as many elements as c *)
Lemma fibres {A X} (dec : forall x y : X, {x = y} + {x <> y}) (f : A -> X) (k : nat) (c : list X) : NoDup c -> forall l,
  (forall a, In a l -> In (f a) c) -> (forall w, In w c -> length (filter (fun a => if dec (f a) w then true else false) l) = k) ->
  length l = length c * k.
Proof.
  intros ND. induction ND as [|w c N ND IH]; intros l Hl Hk.
  - destruct l as [|a l]; auto. destruct (Hl a); simpl; auto.
  - set (p := fun a => if dec (f a) w then true else false). assert (E : length l = length (filter p l) + length (filter (fun a => negb (p a)) l)).
    { clear. induction l as [|a l IH]; auto. cbn [filter]. destruct (p a); simpl; lia. }
    rewrite E. rewrite (IH (filter (fun a => negb (p a)) l)).
    + unfold p. rewrite (Hk w) by (simpl; auto). simpl. lia.
    + intros a Ha. apply filter_In in Ha as [Ha Np]. destruct (Hl a Ha) as [Ew|]; auto. unfold p in Np. destruct (dec (f a) w); [discriminate|congruence].
    + intros u Hu. rewrite <- (Hk u) by (simpl; auto).
      clear - N Hu. induction l as [|a l IH]; auto. cbn [filter]. unfold p at 1. destruct (dec (f a) w) as [Ew|Ew]; cbn [negb].
      * destruct (dec (f a) u) as [Eu|]; [|exact IH]. subst u. rewrite Ew in Hu. tauto.
      * cbn [filter]. destruct (dec (f a) u); cbn [length]; rewrite IH; auto.
Qed.

(** a list of permutations of D, closed under products and inverses *)
Section Action.
  Context {A E : Type} (G : list A) (D : list E) (act : A -> E -> E).
  Hypothesis into : forall a e, In a G -> In e D -> In (act a e) D.
  Hypothesis distinct : NoDup (map (fun a => map (act a) D) G).
  Hypothesis mul : forall a b, In a G -> In b G -> exists c, In c G /\ forall e, In e D -> act c e = act a (act b e).
  Hypothesis inv : forall a, In a G -> exists b, In b G /\ forall e, In e D -> act b (act a e) = e /\ act a (act b e) = e.

  (** multiplication by t takes the elements with p to elements with q, so the latter are at least as many *)
  Lemma count_le t (p q : A -> bool) : In t G ->
    (forall a c, In a G -> In c G -> (forall e, In e D -> act c e = act t (act a e)) -> p a = true -> q c = true) ->
    length (filter p G) <= length (filter q G).
  Proof.
    intros Ht H. rewrite <- (map_length (fun a => map (fun e => act t (act a e)) D) (filter p G)), <- (map_length (fun a => map (act a) D) (filter q G)).
    apply NoDup_incl_length.
    - destruct (inv t Ht) as (b & Hb & Eb). pose proof (NoDup_map_filter _ p G distinct) as ND.
      assert (Q : forall l, incl l G -> NoDup (map (fun a => map (act a) D) l) -> NoDup (map (fun a => map (fun e => act t (act a e)) D) l)).
      { induction l as [|a l IH]; intros Hl N; cbn [map]; [constructor|]. inversion N as [|? ? N1 N2]; subst. constructor; [|apply IH; auto; intros x Hx; apply Hl; simpl; auto].
        intros I. apply N1. apply in_map_iff in I as (x & Ex & Hx). apply in_map_iff. exists x. split; auto.
        apply map_ext_in. intros e He. assert (Ee : act t (act x e) = act t (act a e)) by (exact (ext_in_map Ex e He)).
        rewrite <- (proj1 (Eb (act x e) (into x e (Hl x (or_intror Hx)) He))), <- (proj1 (Eb (act a e) (into a e (Hl a (or_introl eq_refl)) He))), Ee. auto. }
      apply Q; auto. intros x Hx. apply filter_In in Hx. tauto.
    - intros k Hk. apply in_map_iff in Hk as (a & <- & Ha). apply filter_In in Ha as [Ha Pa]. destruct (mul t a Ht Ha) as (c & Hc & Ec).
      apply in_map_iff. exists c. split; [apply map_ext_in; auto|]. apply filter_In. split; auto. apply (H a c); auto.
  Qed.

  (** orbit and stabiliser: f sends an element to a place; the places are those in c; elements with equal effect have equal place; p holds for
      the elements that go to a fixed place v *)
  Context {X : Type} (dec : forall x y : X, {x = y} + {x <> y}) (f : A -> X) (c : list X) (p : A -> bool).
  Hypothesis NDc : NoDup c.
  Hypothesis onto : forall w, In w c -> exists t, In t G /\ f t = w.
  Hypothesis within : forall a, In a G -> In (f a) c.
  Hypothesis right : forall t a b, In t G -> In a G -> In b G -> p a = true -> (forall e, In e D -> act b e = act t (act a e)) -> f b = f t.
  Hypothesis left : forall t s a b, In t G -> In s G -> In a G -> In b G -> (forall e, In e D -> act s (act t e) = e /\ act t (act s e) = e) -> f a = f t ->
    (forall e, In e D -> act b e = act s (act a e)) -> p b = true.
  Lemma orbit_stabiliser : length G = length c * length (filter p G).
  Proof.
    apply (fibres dec f); auto. intros w Hw. destruct (onto w Hw) as (t & Ht & Et). destruct (inv t Ht) as (s & Hs & Es).
    apply Nat.le_antisymm.
    - apply (count_le s); auto. intros a b Ha Hb Eb Pa. destruct (dec (f a) w) as [Ea|]; [|discriminate].
      apply (left t s a b); auto. congruence.
    - apply (count_le t); auto. intros a b Ha Hb Eb Pa. rewrite (right t a b) by auto. destruct (dec (f t) w); auto.
  Qed.
End Action.
