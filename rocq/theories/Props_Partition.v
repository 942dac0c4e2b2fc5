(** Properties C01-C03 of src/partitions.rs.  The definitions used in the
    statements: [run] (a history of public calls on a fresh Partition),
    [part_find], [part_classes] (the modelled methods), [equivalent ops] (the
    reflexive, symmetric and transitive closure of the pairs passed to unite
    in [ops]) and [firsts] (a list without later repetitions). *)
From Coq Require Import List ZArith Lia Bool PeanoNat Relations Permutation.
From Verif Require Import Base Partition.
Import ListNotations.

(** C01: after any history, find terminates without panic, returns a member
    of the class, and two finds agree exactly for equivalent elements. *)
Theorem C01_find_decides_equivalence_closure :
  forall (T : Type) (eqb : T -> T -> bool) (eqb_spec : forall x y, reflect (x = y) (eqb x y))
         (ops : list (op (T := T))),
  exists p, run eqb ops = Ret p /\
    forall a, exists p' r, part_find eqb p a = Ret (p', r) /\ equivalent ops a r /\
      forall b, exists p'' s, part_find eqb p' b = Ret (p'', s) /\
        (r = s <-> equivalent ops a b).
Proof. intros. apply find_iff_equivalent; auto. Qed.
Print Assumptions C01_find_decides_equivalence_closure.

(** C02: the answer of find after a history is the same value as after the
    history with all find and classes calls removed. *)
Theorem C02_reads_do_not_change_answers :
  forall (T : Type) (eqb : T -> T -> bool) (eqb_spec : forall x y, reflect (x = y) (eqb x y))
         (ops : list (op (T := T))) (a : T),
  exists p q, run eqb ops = Ret p /\ run eqb (filter is_unite ops) = Ret q /\
    exists p' q' r, part_find eqb p a = Ret (p', r) /\ part_find eqb q a = Ret (q', r).
Proof. intros. apply find_ignores_reads; auto. Qed.
Print Assumptions C02_reads_do_not_change_answers.

(** C03: classes(elms) is, for the representatives (the values of find) in
    order of first appearance, the list of the elements with that
    representative in the order of elms; classes are non-empty and together
    contain every occurrence exactly once. *)
Theorem C03_classes_are_the_equivalence_classes_in_order :
  forall (T : Type) (eqb : T -> T -> bool) (eqb_spec : forall x y, reflect (x = y) (eqb x y))
         (ops : list (op (T := T))) (elms : list T),
  exists p, run eqb ops = Ret p /\
    exists p' cls rep,
      part_classes eqb p elms = Ret (p', cls) /\
      (forall a, exists q, part_find eqb p a = Ret (q, rep a)) /\
      (forall a b, rep a = rep b <-> equivalent ops a b) /\
      cls = map (fun r => filter (fun e => eqb (rep e) r) elms) (firsts eqb (map rep elms)) /\
      Forall (fun c => c <> []) cls /\
      Permutation (concat cls) elms.
Proof.
  intros. destruct (classes_of_history eqb eqb_spec ops elms) as (p & E & p' & rep & H1 & H2 & H3).
  exists p. split; auto. eexists p', _, rep. split; [exact H3|]. splits; auto.
  - apply class_list_nonempty; auto.
  - apply class_list_perm; auto.
Qed.
Print Assumptions C03_classes_are_the_equivalence_classes_in_order.

(** Non-trivial instance: the history of the repository's own test, with reads
    in between.  The theorems have no hypotheses besides a correct equality
    test. *)
Example partition_example :
  let ops := [OpUnite 1 2; OpFind 7; OpUnite 3 4; OpUnite 5 6; OpClasses [1; 3; 2];
              OpUnite 7 8; OpUnite 2 3; OpFind 4; OpUnite 1 6] in
  (do p <- run Nat.eqb ops; omap snd (part_classes Nat.eqb p [0; 1; 2; 3; 4; 5; 6; 7; 8; 9]))
  = Ret [[0]; [1; 2; 3; 4; 5; 6]; [7; 8]; [9]].
Proof. vm_compute. reflexivity. Qed.

Example partition_eqb_ok : forall x y, reflect (x = y) (Nat.eqb x y).
Proof. exact Nat.eqb_spec. Qed.
