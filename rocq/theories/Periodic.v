(** A map of a finite connected graph into itself that is injective on the
    edges at each vertex is a permutation of the vertices and of the edges. *)
From Coq Require Import List ZArith Lia Bool PeanoNat.
From Verif Require Import Base Vec OrdSet PGraph Net PGraphBase Traverse.
Import ListNotations.

Fixpoint iter {A} (n : nat) (f : A -> A) (x : A) : A := match n with O => x | S n => f (iter n f x) end.

Lemma iter_add' {A} (f : A -> A) m n x : iter (m + n) f x = iter m f (iter n f x).
Proof. induction m as [|m IH]; cbn; auto. rewrite IH. auto. Qed.
Lemma iter_S' {A} (f : A -> A) n x : iter (S n) f x = iter n f (f x).
Proof. replace (S n) with (n + 1) by lia. rewrite iter_add'. reflexivity. Qed.
Lemma iter_mul {A} (f : A -> A) p x n : iter p f x = x -> iter (n * p) f x = x.
Proof. intros E. induction n as [|n IH]; cbn; auto. rewrite iter_add', IH. auto. Qed.
Lemma iter_iter {A} (f : A -> A) p n x : iter n (fun y => iter p f y) x = iter (n * p) f x.
Proof. induction n as [|n IH]; cbn; auto. rewrite iter_add', IH. auto. Qed.
Lemma iter_in {A} (f : A -> A) (l : list A) n x : (forall y, In y l -> In (f y) l) -> In x l -> In (iter n f x) l.
Proof. intros H Hx. induction n; cbn; auto. Qed.

Section Finite.
  Context {A : Type} (dec : forall x y : A, {x = y} + {x <> y}) (f : A -> A) (l : list A).
  Hypothesis into : forall y, In y l -> In (f y) l.

  Lemma pigeon (h : nat -> A) n : (forall i, i < n -> In (h i) l) -> length l < n -> exists i j, i < j /\ j < n /\ h i = h j.
  Proof.
    intros Hin Hn. assert (N : ~ NoDup (map h (seq 0 n))).
    { intros ND. apply NoDup_incl_length with (l' := l) in ND; [rewrite map_length, seq_length in ND; lia|].
      intros y Hy. apply in_map_iff in Hy as (i & <- & Hi). apply in_seq in Hi. apply Hin. lia. }
    clear Hn Hin. induction n as [|n IH]; [destruct N; constructor|].
    rewrite seq_S, map_app in N. cbn [map Nat.add] in N.
    destruct (in_dec dec (h n) (map h (seq 0 n))) as [I|I].
    - apply in_map_iff in I as (i & E & Hi). apply in_seq in Hi. exists i, n. splits; auto; lia.
    - destruct IH as (i & j & H1 & H2 & H3); [|exists i, j; splits; auto; lia].
      intros ND. apply N. apply NoDup_snoc; auto.
  Qed.

  Lemma eventually_periodic x : In x l -> exists i p, 0 < p /\ iter p f (iter i f x) = iter i f x.
  Proof.
    intros Hx. destruct (pigeon (fun i => iter i f x) (S (length l))) as (i & j & H1 & H2 & E); [intros; apply iter_in; auto|lia|].
    exists i, (j - i). split; [lia|]. rewrite <- iter_add'. replace (j - i + i) with j by lia. auto.
  Qed.

  Hypothesis inj : forall y z, In y l -> In z l -> f y = f z -> y = z.
  Lemma iter_inj n y z : In y l -> In z l -> iter n f y = iter n f z -> y = z.
  Proof. intros Hy Hz. induction n as [|n IH]; cbn; auto. intros E. apply IH. apply inj; auto; apply iter_in; auto. Qed.
  Lemma periodic x : In x l -> exists p, 0 < p /\ iter p f x = x.
  Proof.
    intros Hx. destruct (eventually_periodic x Hx) as (i & p & Hp & E). exists p. split; auto.
    apply (iter_inj i); auto; [apply iter_in; auto|]. rewrite <- !iter_add' in *. rewrite Nat.add_comm. auto.
  Qed.
  Lemma inj_surj y : In y l -> exists x, In x l /\ f x = y.
  Proof.
    intros Hy. destruct (periodic y Hy) as (p & Hp & E). destruct p as [|p]; [lia|]. exists (iter p f y). split; [apply iter_in; auto|exact E].
  Qed.
End Finite.

Lemma periodic_inj {A} (f : A -> A) x y p q : 0 < p -> 0 < q -> iter p f x = x -> iter q f y = y -> f x = f y -> x = y.
Proof.
  intros Hp Hq Ex Ey E. rewrite <- (iter_mul f p x q Ex), <- (iter_mul f q y p Ey). rewrite (Nat.mul_comm p q).
  destruct (q * p) as [|n] eqn:En; [nia|]. rewrite !iter_S', E. auto.
Qed.

Section Graph.
  Variables (g : graph) (f : nat -> nat) (F : edge -> edge).
  Hypothesis conn : forall v w, is_vertex g v -> is_vertex g w -> linked (gedges g) v w.
  Hypothesis F_in : forall e, In e (dedges g) -> In (F e) (dedges g).
  Hypothesis F_head : forall e, In e (dedges g) -> head (F e) = f (head e).
  Hypothesis F_tail : forall e, In e (dedges g) -> tail (F e) = f (tail e).
  Hypothesis F_loc : forall e e', In e (dedges g) -> In e' (dedges g) -> head e = head e' -> F e = F e' -> e = e'.

  Lemma Fi_in n e : In e (dedges g) -> In (iter n F e) (dedges g).
  Proof. apply iter_in. auto. Qed.
  Lemma Fi_head n e : In e (dedges g) -> head (iter n F e) = iter n f (head e).
  Proof. intros He. induction n; cbn; auto. rewrite F_head by (apply Fi_in; auto). congruence. Qed.
  Lemma Fi_tail n e : In e (dedges g) -> tail (iter n F e) = iter n f (tail e).
  Proof. intros He. induction n; cbn; auto. rewrite F_tail by (apply Fi_in; auto). congruence. Qed.
  Lemma Fi_loc n e e' : In e (dedges g) -> In e' (dedges g) -> head e = head e' -> iter n F e = iter n F e' -> e = e'.
  Proof.
    intros He He' Eh. induction n as [|n IH]; cbn; auto. intros E. apply IH. apply F_loc; auto using Fi_in. rewrite !Fi_head by auto. congruence.
  Qed.

  Lemma edge_dec (e e' : edge) : {e = e'} + {e <> e'}.
  Proof. destruct (edge_eqb_spec e e'); auto. Qed.

  Lemma f_in v : is_vertex g v -> is_vertex g (f v).
  Proof.
    intros Hv. apply vertices_dedges in Hv as (e & He & <-). apply vertices_dedges. exists (F e). split; auto.
  Qed.

  Definition vper (v : nat) : Prop := exists p, 0 < p /\ iter p f v = v.
  Lemma eper_at v : vper v -> forall e, In e (inc g v) -> exists p, 0 < p /\ iter p F e = e.
  Proof.
    intros (p & Hp & Ev) e He.
    destruct (periodic edge_dec (fun e => iter p F e) (inc g v)) with (x := e) as (q & Hq & E); auto.
    - intros y Hy. apply inc_In in Hy as [Hy Eh]. apply inc_In. split; [apply Fi_in; auto|]. rewrite Fi_head by auto. congruence.
    - intros y z Hy Hz E. apply inc_In in Hy as [Hy Eh]. apply inc_In in Hz as [Hz Eh']. apply (Fi_loc p); auto. congruence.
    - exists (q * p). split; [nia|]. rewrite <- iter_iter. auto.
  Qed.
  Lemma vper_tail v e : vper v -> In e (inc g v) -> vper (tail e).
  Proof.
    intros Hv He. destruct (eper_at v Hv e He) as (p & Hp & E). exists p. split; auto. apply inc_In in He as [He _].
    rewrite <- Fi_tail by auto. rewrite E. auto.
  Qed.
  Lemma vper_linked v w : linked (gedges g) v w -> vper v -> vper w.
  Proof.
    induction 1 as [|u w e L IH He Hh]; auto. intros Hv. specialize (IH Hv).
    destruct Hh as [[H1 H2]|[H1 H2]]; subst.
    - apply (vper_tail (head e)); auto. apply inc_In. split; auto. apply dedges_In. eauto.
    - apply (vper_tail (tail e) (rev e)); auto. apply inc_In. split; auto. apply dedges_In. eauto.
  Qed.
  Lemma all_vper v : is_vertex g v -> vper v.
  Proof.
    intros Hv. destruct (eventually_periodic Nat.eq_dec f (vertices g)) with (x := v) as (i & p & Hp & E).
    - intros y. rewrite !vertices_In. apply f_in.
    - apply vertices_In; auto.
    - apply (vper_linked (iter i f v) v); [|exists p; auto]. apply conn; auto. apply vertices_In. apply iter_in; [|apply vertices_In; auto].
      intros y. rewrite !vertices_In. apply f_in.
  Qed.
  Lemma all_eper e : In e (dedges g) -> exists p, 0 < p /\ iter p F e = e.
  Proof. intros He. apply (eper_at (head e)); [apply all_vper, dedges_vertices; auto|]. apply inc_In; auto. Qed.

  Lemma f_inj v w : is_vertex g v -> is_vertex g w -> f v = f w -> v = w.
  Proof. intros Hv Hw. destruct (all_vper v Hv) as (p & Hp & E). destruct (all_vper w Hw) as (q & Hq & E'). exact (periodic_inj _ _ _ _ _ Hp Hq E E'). Qed.
  Lemma F_inj e e' : In e (dedges g) -> In e' (dedges g) -> F e = F e' -> e = e'.
  Proof. intros He He'. destruct (all_eper e He) as (p & Hp & E). destruct (all_eper e' He') as (q & Hq & E'). exact (periodic_inj _ _ _ _ _ Hp Hq E E'). Qed.
  Lemma f_surj w : is_vertex g w -> exists v, is_vertex g v /\ f v = w.
  Proof.
    intros Hw. destruct (all_vper w Hw) as (p & Hp & E). destruct p as [|p]; [lia|]. exists (iter p f w). split; [|exact E].
    apply vertices_In, iter_in; [|apply vertices_In; auto]. intros y. rewrite !vertices_In. apply f_in.
  Qed.
  Lemma F_surj e : In e (dedges g) -> exists e', In e' (dedges g) /\ F e' = e.
  Proof.
    intros He. destruct (all_eper e He) as (p & Hp & E). destruct p as [|p]; [lia|]. exists (iter p F e). split; [|exact E]. apply Fi_in; auto.
  Qed.
End Graph.
