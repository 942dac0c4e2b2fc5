(** Property C27 of src/pgraphs.rs: the caches of Graph are not observable.

    [prog auto A] are the clients of a graph: they call the methods vertices,
    incidences, position, edge_by_unique_delta and symmetries, each call depending on the
    earlier results, and end with a value, a panic or without end.  [auto] is the type of
    automorphisms and [syms] the function symmetries of symmetries.rs, which is a
    client of the other four methods. *)
From Coq Require Import List ZArith Lia Bool PeanoNat QArith Qcanon.
From Verif Require Import Base Partition Vec Elim Scalars ZQ QcTac ModSolver ModSolve OrdSet PGraph Net PGraphCache Props_Placement.
Import ListNotations.
Close Scope Q_scope. Close Scope Qc_scope.
Open Scope nat_scope.

Section C27.
  Variables (auto : Type) (chk : Z -> outcome Z) (g : graph) (syms : prog auto (list auto)).
  Hypothesis syms_client : no_calls auto true true false syms.

  (** the states of the caches after any history of clients, including those that panicked *)
  Inductive reachable : cache auto -> Prop :=
  | reach_new : reachable (fresh auto)
  | reach_client A (p : prog auto A) s : reachable s -> reachable (snd (run_cached auto chk g syms p s)).

  Lemma reachable_valid s : reachable s -> Valid auto chk g syms s.
  Proof. induction 1; [apply fresh_valid|]. eapply agrees_cached; eauto. Qed.

  (** every client gets the result it would get on a graph that never stores anything *)
  Theorem C27_caches_transparent A (p : prog auto A) s : reachable s ->
    fst (run_cached auto chk g syms p s) = run_uncached auto chk g syms p.
  Proof. intros H. apply (agrees_cached auto chk g syms syms_client p s (reachable_valid s H)). Qed.

  (** hence the same as on a new graph with the same edges *)
  Theorem C27_as_fresh A (p : prog auto A) s : reachable s ->
    fst (run_cached auto chk g syms p s) = fst (run_cached auto chk g syms p (fresh auto)).
  Proof. intros H. rewrite !C27_caches_transparent; auto. apply reach_new. Qed.

  (** the four methods, called in any reachable state *)
  Theorem C27_methods s : reachable s ->
    fst (m_vertices auto g s) = Ret (vertices g) /\
    (forall v, fst (m_incidences auto g v s) = incidences g v) /\
    (forall v, fst (m_position auto chk g v s) = position chk g v) /\
    (forall v d, fst (m_lookup auto chk g v d s) = edge_by_unique_delta chk g v d).
  Proof.
    intros H. apply reachable_valid in H. splits.
    - eapply agrees_vertices; eauto.
    - intros v. eapply agrees_incidences; eauto.
    - intros v. eapply agrees_position; eauto.
    - intros v d. eapply agrees_lookup; eauto.
  Qed.
End C27.
Print Assumptions C27_caches_transparent.
Print Assumptions C27_as_fresh.
Print Assumptions C27_methods.

(** a client of the honeycomb net that fills all caches, one that panics, and the first
    one again; automorphisms are left out (auto = unit, one element) *)
Definition c27_client : prog unit (list edge * option edge * list unit) :=
  CallLookup unit _ 1 [- (ZQ 1 / ZQ 3); - (ZQ 1 / ZQ 3)]%Qc (fun e =>
  CallIncidences unit _ 2 (fun l => CallSymmetries unit _ (fun a => Done unit _ (Ret (l, e, a))))).
Definition c27_bad : prog unit nat := CallVertices unit _ (fun vs => CallIncidences unit _ 7 (fun _ => Done unit _ (Ret 0))).
Definition c27_syms : prog unit (list unit) := CallVertices unit _ (fun vs => CallPosition unit _ (hd 0 vs) (fun _ => Done unit _ (Ret [tt]))).
Example C27_case :
  let s1 := snd (run_cached unit chk64 honeycomb c27_syms c27_bad (fresh unit)) in
  let r := run_cached unit chk64 honeycomb c27_syms c27_client s1 in
  no_calls unit true true false c27_syms /\
  reachable unit chk64 honeycomb c27_syms s1 /\ reachable unit chk64 honeycomb c27_syms (snd r) /\
  fst (run_cached unit chk64 honeycomb c27_syms c27_bad (fresh unit)) = Panic /\
  c_verts unit s1 = Some [1; 2] /\ c_incs unit s1 = [] /\
  fst r = Ret ([Edge 2 1 [0; 0]; Edge 2 1 [0; -1]; Edge 2 1 [-1; 0]]%Z, Some (Edge 1 2 [0; 0]%Z), [tt]) /\
  length (c_incs unit (snd r)) = 2 /\ length (c_poss unit (snd r)) = 2 /\ length (c_lookup unit (snd r)) = 2 /\ c_syms unit (snd r) = [tt].
Proof.
  cbv zeta. splits.
  - constructor. intros vs. constructor; auto. intros x. constructor.
  - repeat constructor.
  - repeat constructor.
  - vm_compute; reflexivity.
  - vm_compute; reflexivity.
  - vm_compute; reflexivity.
  - vm_compute; reflexivity.
  - vm_compute; reflexivity.
  - vm_compute; reflexivity.
  - vm_compute; reflexivity.
  - vm_compute; reflexivity.
Qed.
