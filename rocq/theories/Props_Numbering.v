(** Property C94: the symmetries that symmetries (src/symmetries.rs) finds, and with them vertex_orbits and edge_orbits
    (src/pgraphs.rs), depend on how the vertices are numbered. *)
From Coq Require Import List ZArith Lia Bool PeanoNat QArith Qcanon Permutation.
From Verif Require Import Base Partition Vec Elim Scalars Matrix LinAlg Geometry ZQ ModSolver ModSolve OrdSet PGraph Net PGraphBase Traverse Placement Placed Symmetries Orbits.
From Verif Require Import Props_Placement Props_Symmetries.
Import ListNotations.
Close Scope Q_scope. Close Scope Qc_scope.
Open Scope nat_scope.

(** ** specification *)
(** the same graph with vertex number r v instead of v *)
Definition renumbered (r : nat -> nat) (g : graph) : graph :=
  gnew (gdim g) (map (fun e => Edge (r (head e)) (r (tail e)) (shift e)) (gedges g)).
Definition one_to_one (r : nat -> nat) : Prop := forall v w, r v = r w -> v = w.

(** ** witnesses *)
Definition swap12 (v : nat) : nat := match v with 1 => 2 | 2 => 1 | _ => v end.
Lemma swap12_inj : one_to_one swap12.
Proof. intros [|[|[|v]]] [|[|[|w]]] E; simpl in E; congruence. Qed.

(** a plane net with three vertices, two of which are equivalent *)
Definition kite : graph := gnew 2 [Edge 1 2 [0; 0]; Edge 1 2 [1; 0]; Edge 1 3 [1; 0]; Edge 1 3 [1; 1]; Edge 2 3 [0; 1]]%Z.
Ltac sound_case v0 :=
  split; [| | |vm_compute; reflexivity|vm_compute; reflexivity|];
  [ eexists; split; [|reflexivity]; intros e He; vm_compute in He; repeat (destruct He as [<-|He]; [reflexivity|]); destruct He
  | vm_compute; lia
  | split; [vm_compute; reflexivity|]; right; splits; auto; [vm_compute; discriminate|]; exists 1%Z; split; [|vm_compute; discriminate];
    intros e x He Hx; vm_compute in He; repeat (destruct He as [<-|He]; [simpl in Hx; intuition lia|]); destruct He
  | exists v0; apply vertices_In; vm_compute; auto ].
Lemma kite_sound : sound chk64 kite.
Proof. sound_case 1. Qed.
Lemma kite_sound' : sound chk64 (renumbered swap12 kite).
Proof. sound_case 1. Qed.

(** the number of symmetries, the vertex orbits and the number of edge orbits, computed together *)
Definition summary (g : graph) : outcome (nat * list (list nat) * nat) :=
  do syms <- symmetries chk64 g;
  do vo <- (do p <- foldM (fun p phi => foldM (fun p v => do w <- unwrap (aget Nat.eqb v (vmap phi)); part_unite Nat.eqb p v w) p (vertices g)) part_new syms;
            omap snd (part_classes Nat.eqb p (vertices g)));
  do eo <- (do p <- foldM (fun p phi => foldM (fun p e => do f <- unwrap (aget edge_eqb e (emap phi)); part_unite edge_eqb p e (canonical f)) p (gedges g)) part_new syms;
            omap snd (part_classes edge_eqb p (gedges g)));
  Ret (length syms, vo, length eo).
Lemma summary_ret g n vo k : summary g = Ret (n, vo, k) ->
  (exists s, symmetries chk64 g = Ret s /\ length s = n) /\ vertex_orbits chk64 g = Ret vo /\ (exists o, edge_orbits chk64 g = Ret o /\ length o = k).
Proof.
  unfold summary, vertex_orbits, edge_orbits. destruct (symmetries chk64 g) as [s| |]; cbn [bind]; try discriminate.
  match goal with |- context [do vo <- ?x; _] => destruct x as [v| |] eqn:Ev end; cbn [bind]; try discriminate.
  match goal with |- context [do eo <- ?x; _] => destruct x as [e| |] eqn:Ee end; cbn [bind]; try discriminate.
  intros E. injection E as <- <- <-. splits; eauto.
Qed.
Lemma kite_summary : summary kite = Ret (2, [[1]; [2; 3]], 3).
Proof. vm_compute. reflexivity. Qed.
Lemma kite_summary' : summary (renumbered swap12 kite) = Ret (1, [[1]; [2]; [3]], 5).
Proof. vm_compute. reflexivity. Qed.

(** ** C94 *)
(** other vertex numbers can change how many kinds of vertices are reported *)
Theorem C94_vertex_orbits_refuted :
  ~ (forall chk g r o o', sound chk g -> one_to_one r -> sound chk (renumbered r g) ->
       vertex_orbits chk g = Ret o -> vertex_orbits chk (renumbered r g) = Ret o' -> length o = length o').
Proof.
  intros H. destruct (summary_ret _ _ _ _ kite_summary) as (_ & E & _). destruct (summary_ret _ _ _ _ kite_summary') as (_ & E' & _).
  specialize (H chk64 kite swap12 _ _ kite_sound swap12_inj kite_sound' E E'). discriminate H.
Qed.
Print Assumptions C94_vertex_orbits_refuted.

(** and how many kinds of edges *)
Theorem C94_edge_orbits_refuted :
  ~ (forall chk g r o o', sound chk g -> one_to_one r -> sound chk (renumbered r g) ->
       edge_orbits chk g = Ret o -> edge_orbits chk (renumbered r g) = Ret o' -> length o = length o').
Proof.
  intros H. destruct (summary_ret _ _ _ _ kite_summary) as (_ & _ & o & E & L). destruct (summary_ret _ _ _ _ kite_summary') as (_ & _ & o' & E' & L').
  specialize (H chk64 kite swap12 _ _ kite_sound swap12_inj kite_sound' E E'). rewrite L, L' in H. discriminate H.
Qed.
Print Assumptions C94_edge_orbits_refuted.

(** and how many symmetries are found *)
Theorem C94_symmetries_refuted :
  ~ (forall chk g r s s', sound chk g -> one_to_one r -> sound chk (renumbered r g) ->
       symmetries chk g = Ret s -> symmetries chk (renumbered r g) = Ret s' -> length s = length s').
Proof.
  intros H. destruct (summary_ret _ _ _ _ kite_summary) as ((s & E & L) & _ & _). destruct (summary_ret _ _ _ _ kite_summary') as ((s' & E' & L') & _ & _).
  specialize (H chk64 kite swap12 _ _ kite_sound swap12_inj kite_sound' E E'). rewrite L, L' in H. discriminate H.
Qed.
Print Assumptions C94_symmetries_refuted.

(** the same net, numbered in two ways; both nets are stable, and with the second numbering the mirror line is missed *)
Example C94_case : gedges (renumbered swap12 kite) = [Edge 1 2 [-1; 0]; Edge 1 2 [0; 0]; Edge 1 3 [0; 1]; Edge 2 3 [1; 0]; Edge 2 3 [1; 1]]%Z /\
  is_stable chk64 kite = Ret true /\ vertex_orbits chk64 kite = Ret [[1]; [2; 3]] /\
  is_stable chk64 (renumbered swap12 kite) = Ret true /\ vertex_orbits chk64 (renumbered swap12 kite) = Ret [[1]; [2]; [3]].
Proof.
  splits; [vm_compute; reflexivity|vm_compute; reflexivity|apply (summary_ret _ _ _ _ kite_summary)|vm_compute; reflexivity|apply (summary_ret _ _ _ _ kite_summary')].
Qed.
