(** Model of the caches of Graph in src/pgraphs.rs (the UnsafeCell fields) and
    of the methods that read and fill them.

    A client of a graph is a program that calls the methods vertices,
    incidences, position, edge_by_unique_delta and symmetries in any order, where each
    call may depend on the results of the earlier ones.  The methods that fill
    the caches are themselves such clients (barycentric_placement calls
    vertices and incidences, edges_by_unique_deltas calls vertices, incidences and
    position, symmetries calls all of them). *)
From Coq Require Import List ZArith Lia Bool PeanoNat QArith Qcanon.
From Verif Require Import Base Partition Vec Elim Scalars ZQ ModSolver ModSolve OrdSet PGraph.
Import ListNotations.
Close Scope Q_scope. Close Scope Qc_scope.
Open Scope nat_scope.

Section Cache.
  (** [auto]: the type Automorphism (Symmetries.v) *)
  Variable auto : Type.

  (** clients *)
  Inductive prog (A : Type) : Type :=
  | Done (o : outcome A)
  | CallVertices (k : list nat -> prog A)
  | CallIncidences (v : nat) (k : list edge -> prog A)
  | CallPosition (v : nat) (k : point -> prog A)
  | CallLookup (v : nat) (x : point) (k : option edge -> prog A)
  | CallSymmetries (k : list auto -> prog A).
  Arguments Done {A}. Arguments CallVertices {A}. Arguments CallIncidences {A}. Arguments CallPosition {A}.
  Arguments CallLookup {A}. Arguments CallSymmetries {A}.

  Fixpoint pbind {A B} (p : prog A) (f : A -> prog B) : prog B :=
    match p with
    | Done (Ret a) => f a
    | Done Panic => Done Panic
    | Done Timeout => Done Timeout
    | CallVertices k => CallVertices (fun x => pbind (k x) f)
    | CallIncidences v k => CallIncidences v (fun x => pbind (k x) f)
    | CallPosition v k => CallPosition v (fun x => pbind (k x) f)
    | CallLookup v d k => CallLookup v d (fun x => pbind (k x) f)
    | CallSymmetries k => CallSymmetries (fun x => pbind (k x) f)
    end.
  Fixpoint pfold {A B} (f : A -> B -> prog A) (a : A) (l : list B) : prog A :=
    match l with [] => Done (Ret a) | x :: l => pbind (f a x) (fun a => pfold f a l) end.

  Section G.
  Variables (chk : Z -> outcome Z) (g : graph).

  (** pgraphs.rs 739-777: barycentric_placement as a client (cf. PGraph.v) *)
  Definition placement_prog : prog (list (nat * point)) :=
    CallVertices (fun verts =>
      let vidcs := combine verts (seq 0 (length verts)) in
      let n := length verts in
      let d := gdim g in
      pbind (Done (upd (repeat (repeat 0%Z n) n) 0 0 (fun _ => Ret 1%Z))) (fun a =>
      pbind (pfold (fun st i =>
          pbind (Done (unwrap (nth_error verts i))) (fun v =>
          CallIncidences v (fun inc =>
          Done (foldM (bp_ngb chk vidcs d i) st inc)))) (a, repeat (repeat 0%Z d) n) (seq 1 (n - 1))) (fun at_ =>
      Done (do r <- ms_solve chk (fst at_) (snd at_);
            do p <- unwrap r;
            foldM (fun m i => do v <- unwrap (nth_error verts i);
                              do x <- unwrap (nth_error p i);
                              Ret (aset Nat.eqb v x m)) [] (seq 0 n))))).

  (** pgraphs.rs 403-412: edge_vector as a client *)
  Definition edge_vector_prog (e : edge) : prog point :=
    CallPosition (head e) (fun p => CallPosition (tail e) (fun q =>
      Done (mapM (fun i => do qi <- unwrap (nth_error q i);
                   do si <- unwrap (nth_error (shift e) i);
                   do pi <- unwrap (nth_error p i);
                   Ret (qi + ZQ si - pi)%Qc) (seq 0 (gdim g))))).

  (** pgraphs.rs 780-806: edges_by_unique_deltas as a client *)
  Fixpoint unique_deltas_prog (seen : list point) (to_edge : list (point * edge)) (es : list edge) : prog (list (point * edge)) :=
    match es with
    | [] => Done (Ret to_edge)
    | e :: es =>
        pbind (edge_vector_prog e) (fun delta =>
        if memb p_eqb delta seen then unique_deltas_prog seen (aremove p_eqb delta to_edge) es
        else unique_deltas_prog (sinsert p_eqb delta seen) (aset p_eqb delta e to_edge) es)
    end.
  Definition lookup_prog : prog (list (nat * list (point * edge))) :=
    CallVertices (fun vs =>
      pfold (fun m v => CallIncidences v (fun inc =>
                        pbind (unique_deltas_prog [] [] inc) (fun te => Done (Ret (aset Nat.eqb v te m))))) [] vs).

  (** the client that computes the symmetries (symmetries.rs 129-171); any client *)
  Variable symmetries_prog : prog (list auto).

  (** pgraphs.rs 284-292: the caches *)
  Record cache := Cache {
    c_verts : option (list nat);
    c_incs : list (nat * list edge);
    c_poss : list (nat * point);
    c_lookup : list (nat * list (point * edge));
    c_syms : list auto }.
  (** pgraphs.rs 309-316: new *)
  Definition fresh : cache := Cache None [] [] [] [].

  (** a method call: result and new contents of the caches; a panic keeps what
      has been stored *)
  Definition act (A : Type) := cache -> outcome A * cache.
  Definition abind {A B} (m : act A) (f : A -> act B) : act B :=
    fun s => match m s with (Ret a, s) => f a s | (Panic, s) => (Panic, s) | (Timeout, s) => (Timeout, s) end.

  (** pgraphs.rs 319-333 *)
  Definition m_vertices : act (list nat) := fun s =>
    match c_verts s with
    | Some vs => (Ret vs, s)
    | None => (Ret (vertices g), Cache (Some (vertices g)) (c_incs s) (c_poss s) (c_lookup s) (c_syms s))
    end.
  (** pgraphs.rs 340-363 *)
  Definition m_incidences (v : nat) : act (list edge) := fun s =>
    match aget Nat.eqb v (c_incs s) with
    | Some l => (Ret l, s)
    | None => match aget Nat.eqb v (incidence_map g) with
              | Some l => (Ret l, Cache (c_verts s) (incidence_map g) (c_poss s) (c_lookup s) (c_syms s))
              | None => (Panic, s)
              end
    end.

  (** running a client, given the methods position, edge_by_unique_delta, symmetries *)
  Section Run.
    Variables (m_pos : nat -> act point) (m_look : nat -> point -> act (option edge)) (m_syms : act (list auto)).
    Fixpoint run {A} (p : prog A) : act A :=
      match p with
      | Done o => fun s => (o, s)
      | CallVertices k => abind m_vertices (fun x => run (k x))
      | CallIncidences v k => abind (m_incidences v) (fun x => run (k x))
      | CallPosition v k => abind (m_pos v) (fun x => run (k x))
      | CallLookup v d k => abind (m_look v d) (fun x => run (k x))
      | CallSymmetries k => abind m_syms (fun x => run (k x))
      end.
  End Run.
  Definition never {A} : act A := fun s => (Panic, s).

  (** pgraphs.rs 365-374 *)
  Definition m_position (v : nat) : act point := fun s =>
    match aget Nat.eqb v (c_poss s) with
    | Some p => (Ret p, s)
    | None => abind (run (fun _ => never) (fun _ _ => never) never placement_prog) (fun m s =>
        match aget Nat.eqb v m with
        | Some p => (Ret p, Cache (c_verts s) (c_incs s) m (c_lookup s) (c_syms s))
        | None => (Panic, s)
        end) s
    end.
  (** pgraphs.rs 376-386 *)
  Definition m_lookup (v : nat) (x : point) : act (option edge) :=
    abind (fun s => match aget Nat.eqb v (c_lookup s) with
                    | None => abind (run m_position (fun _ _ => never) never lookup_prog) (fun m s =>
                        (Ret tt, Cache (c_verts s) (c_incs s) (c_poss s) m (c_syms s))) s
                    | Some _ => (Ret tt, s)
                    end)
          (fun _ s => (Ret (match aget Nat.eqb v (c_lookup s) with Some te => aget p_eqb x te | None => None end), s)).
  (** pgraphs.rs 388-397 *)
  Definition m_symmetries : act (list auto) := fun s =>
    match c_syms s with
    | [] => abind (run m_position m_lookup never symmetries_prog) (fun syms s =>
              (Ret syms, Cache (c_verts s) (c_incs s) (c_poss s) (c_lookup s) syms)) s
    | syms => (Ret syms, s)
    end.

  (** running any client on the graph *)
  Definition run_cached {A} : prog A -> act A := run m_position m_lookup m_symmetries.

  (** the same client on a graph without caches: every call computes its result from the edges *)
  Section Pure.
    Variable p_syms : outcome (list auto).
    Fixpoint pure {A} (p : prog A) : outcome A :=
      match p with
      | Done o => o
      | CallVertices k => pure (k (vertices g))
      | CallIncidences v k => do x <- incidences g v; pure (k x)
      | CallPosition v k => do x <- position chk g v; pure (k x)
      | CallLookup v d k => do x <- edge_by_unique_delta chk g v d; pure (k x)
      | CallSymmetries k => do x <- p_syms; pure (k x)
      end.
  End Pure.
  (** symmetries_prog does not call the method symmetries *)
  Definition run_uncached {A} : prog A -> outcome A := pure (pure Panic symmetries_prog).

  (** *** proofs *)
  Definition is_prog_of {A} (o : outcome A) (p : prog A) : Prop := forall ps, pure ps p = o.

  Lemma pure_bind {A B} ps (p : prog A) (f : A -> prog B) : pure ps (pbind p f) = do x <- pure ps p; pure ps (f x).
  Proof.
    induction p as [o|k IH|v k IH|v k IH|v d k IH|k IH]; cbn [pbind pure].
    - destruct o; reflexivity.
    - apply IH.
    - destruct (incidences g v); cbn [bind]; auto.
    - destruct (position chk g v); cbn [bind]; auto.
    - destruct (edge_by_unique_delta chk g v d); cbn [bind]; auto.
    - destruct ps; cbn [bind]; auto.
  Qed.
  Lemma pure_fold {A B} ps (f : A -> B -> prog A) l : forall a, pure ps (pfold f a l) = foldM (fun a x => pure ps (f a x)) a l.
  Proof.
    induction l as [|x l IH]; intros a; cbn [pfold foldM]; auto. rewrite pure_bind. destruct (pure ps (f a x)); cbn [bind]; auto.
  Qed.

  Lemma foldM_ext' {A B} (f h : A -> B -> outcome A) l : (forall a x, f a x = h a x) -> forall a, foldM f a l = foldM h a l.
  Proof. intros H. induction l as [|x l IH]; intros a; cbn [foldM]; auto. rewrite H. destruct (h a x); cbn [bind]; auto. Qed.

  Lemma placement_pure ps : pure ps placement_prog = barycentric_placement chk g.
  Proof.
    unfold placement_prog, barycentric_placement. cbn [pure]. rewrite pure_bind. cbn [pure]. destruct (upd _ _ _ _); cbn [bind]; auto.
    rewrite pure_bind, pure_fold. cbn [pure].
    erewrite foldM_ext'; [|intros st i; rewrite pure_bind; cbn [pure]; reflexivity].
    destruct (foldM _ _ _) as [[a' t']| |]; cbn [bind]; auto.
  Qed.

  Lemma edge_vector_pure ps e : pure ps (edge_vector_prog e) = edge_vector chk g e.
  Proof. reflexivity. Qed.
  Lemma unique_deltas_pure ps es : forall seen te, pure ps (unique_deltas_prog seen te es) = unique_deltas chk g seen te es.
  Proof.
    induction es as [|e es IH]; intros seen te; cbn [unique_deltas_prog unique_deltas]; auto.
    rewrite pure_bind, edge_vector_pure. destruct (edge_vector chk g e); cbn [bind]; auto. destruct (memb _ _ _); auto.
  Qed.
  Lemma lookup_pure ps : pure ps lookup_prog = edges_by_unique_deltas chk g.
  Proof.
    unfold lookup_prog, edges_by_unique_deltas. cbn [pure]. rewrite pure_fold. apply foldM_ext'. intros m v. cbn [pure].
    destruct (incidences g v); cbn [bind]; auto. rewrite pure_bind, unique_deltas_pure. reflexivity.
  Qed.

  (** each cache is empty or complete *)
  Record Valid (s : cache) : Prop := {
    v_verts : c_verts s = None \/ c_verts s = Some (vertices g);
    v_incs : c_incs s = [] \/ c_incs s = incidence_map g;
    v_poss : c_poss s = [] \/ barycentric_placement chk g = Ret (c_poss s);
    v_lookup : c_lookup s = [] \/ edges_by_unique_deltas chk g = Ret (c_lookup s);
    v_syms : c_syms s = [] \/ pure Panic symmetries_prog = Ret (c_syms s) }.

  Definition agrees {A} (m : act A) (o : outcome A) : Prop := forall s, Valid s -> fst (m s) = o /\ Valid (snd (m s)).

  Lemma agrees_bind {A B} (m : act A) o (f : A -> act B) (h : A -> outcome B) : agrees m o -> (forall a, agrees (f a) (h a)) ->
    agrees (abind m f) (do x <- o; h x).
  Proof.
    intros Hm Hf s V. destruct (Hm s V) as [E V']. unfold abind. destruct (m s) as [o' s']. cbn [fst snd] in *. subst o'.
    destruct o; cbn [bind]; auto. apply Hf; auto.
  Qed.

  Lemma agrees_vertices : agrees m_vertices (Ret (vertices g)).
  Proof.
    intros s V. unfold m_vertices. destruct (c_verts s) eqn:E.
    - split; auto. cbn. destruct (v_verts s V); congruence.
    - split; auto. destruct V. split; cbn; auto.
  Qed.
  Lemma agrees_incidences v : agrees (m_incidences v) (incidences g v).
  Proof.
    intros s V. unfold m_incidences, incidences. destruct (aget Nat.eqb v (c_incs s)) eqn:E.
    - cbn. split; auto. destruct (v_incs s V) as [E'|E']; rewrite E' in E; [discriminate|]. rewrite E. auto.
    - destruct (aget Nat.eqb v (incidence_map g)); cbn; split; auto. destruct V; split; cbn; auto.
  Qed.

  Lemma agrees_run {A} m_pos m_look m_syms ps (p : prog A) :
    (forall v, agrees (m_pos v) (position chk g v)) -> (forall v d, agrees (m_look v d) (edge_by_unique_delta chk g v d)) -> agrees m_syms ps ->
    agrees (run m_pos m_look m_syms p) (pure ps p).
  Proof.
    intros H1 H2 H3. induction p as [o|k IH|v k IH|v k IH|v d k IH|k IH]; cbn [run pure].
    - intros s V. auto.
    - exact (agrees_bind m_vertices (Ret (vertices g)) _ (fun x => pure ps (k x)) agrees_vertices IH).
    - apply agrees_bind; auto using agrees_incidences.
    - apply agrees_bind; auto.
    - apply agrees_bind; auto.
    - apply agrees_bind; auto.
  Qed.

  (** clients that do not call some of the methods *)
  Inductive no_calls (pos look syms : bool) {A} : prog A -> Prop :=
  | nc_done o : no_calls pos look syms (Done o)
  | nc_vertices k : (forall x, no_calls pos look syms (k x)) -> no_calls pos look syms (CallVertices k)
  | nc_incidences v k : (forall x, no_calls pos look syms (k x)) -> no_calls pos look syms (CallIncidences v k)
  | nc_position v k : pos = true -> (forall x, no_calls pos look syms (k x)) -> no_calls pos look syms (CallPosition v k)
  | nc_lookup v d k : look = true -> (forall x, no_calls pos look syms (k x)) -> no_calls pos look syms (CallLookup v d k)
  | nc_symmetries k : syms = true -> (forall x, no_calls pos look syms (k x)) -> no_calls pos look syms (CallSymmetries k).

  Lemma no_calls_bind {A B} pos look syms (p : prog A) (f : A -> prog B) : no_calls pos look syms p -> (forall x, no_calls pos look syms (f x)) ->
    no_calls pos look syms (pbind p f).
  Proof. intros H Hf. induction H; cbn [pbind]; try (constructor; auto). destruct o; auto; constructor. Qed.
  Lemma no_calls_fold {A B} pos look syms (f : A -> B -> prog A) l : (forall a x, no_calls pos look syms (f a x)) -> forall a, no_calls pos look syms (pfold f a l).
  Proof. intros H. induction l as [|x l IH]; intros a; cbn [pfold]; [constructor|]. apply no_calls_bind; auto. Qed.

  Lemma placement_no_calls : no_calls false false false placement_prog.
  Proof.
    constructor. intros vs. apply no_calls_bind; [constructor|]. intros a. apply no_calls_bind; [|constructor].
    apply no_calls_fold. intros st i. apply no_calls_bind; [constructor|]. intros v. constructor. constructor.
  Qed.
  Lemma unique_deltas_no_calls es : forall seen te, no_calls true false false (unique_deltas_prog seen te es).
  Proof.
    induction es as [|e es IH]; intros seen te; cbn [unique_deltas_prog]; [constructor|]. apply no_calls_bind.
    - repeat (constructor; auto).
    - intros x. destruct (memb _ _ _); auto.
  Qed.
  Lemma lookup_no_calls : no_calls true false false lookup_prog.
  Proof.
    constructor. intros vs. apply no_calls_fold. intros m v. constructor. intros inc. apply no_calls_bind; [apply unique_deltas_no_calls|constructor].
  Qed.

  Lemma agrees_run_no_calls {A} pos look syms m_pos m_look m_syms ps (p : prog A) : no_calls pos look syms p ->
    (pos = true -> forall v, agrees (m_pos v) (position chk g v)) ->
    (look = true -> forall v d, agrees (m_look v d) (edge_by_unique_delta chk g v d)) ->
    (syms = true -> agrees m_syms ps) ->
    agrees (run m_pos m_look m_syms p) (pure ps p).
  Proof.
    intros H H1 H2 H3. induction H; cbn [run pure].
    - intros s V. auto.
    - exact (agrees_bind m_vertices (Ret (vertices g)) _ (fun x => pure ps (k x)) agrees_vertices H0).
    - apply agrees_bind; auto using agrees_incidences.
    - apply agrees_bind; auto.
    - apply agrees_bind; auto.
    - apply agrees_bind; auto.
  Qed.

  Lemma agrees_position v : agrees (m_position v) (position chk g v).
  Proof.
    intros s V. unfold m_position, position. destruct (aget Nat.eqb v (c_poss s)) as [p|] eqn:E.
    - cbn. split; auto. destruct (v_poss s V) as [E'|E']; [rewrite E' in E; discriminate|]. rewrite E'. cbn [bind]. rewrite E. auto.
    - destruct (agrees_run_no_calls false false false (fun _ => never) (fun _ _ => never) never Panic placement_prog placement_no_calls
        ltac:(discriminate) ltac:(discriminate) ltac:(discriminate) s V) as [E1 V1].
      rewrite placement_pure in E1. unfold abind. destruct (run _ _ _ placement_prog s) as [o s']. cbn [fst snd] in *. subst o.
      destruct (barycentric_placement chk g) as [m| |] eqn:Eb; cbn [bind]; auto.
      destruct (aget Nat.eqb v m); cbn; auto. split; auto. destruct V1; split; cbn; auto.
  Qed.

  Lemma agrees_lookup v d : agrees (m_lookup v d) (edge_by_unique_delta chk g v d).
  Proof.
    intros s V. unfold edge_by_unique_delta.
    destruct (aget Nat.eqb v (c_lookup s)) as [te|] eqn:E.
    - assert (Em : m_lookup v d s = (Ret (aget p_eqb d te), s)) by (unfold m_lookup, abind; rewrite E, E; reflexivity).
      rewrite Em. cbn [fst snd]. split; auto. destruct (v_lookup s V) as [E'|E']; [rewrite E' in E; discriminate|]. rewrite E'. cbn [bind]. rewrite E. auto.
    - destruct (agrees_run_no_calls true false false m_position (fun _ _ => never) never Panic lookup_prog lookup_no_calls
        ltac:(intros; apply agrees_position) ltac:(discriminate) ltac:(discriminate) s V) as [E1 V1].
      rewrite lookup_pure in E1. unfold m_lookup, abind. rewrite E. destruct (run _ _ _ lookup_prog s) as [o s']. cbn [fst snd] in *. subst o.
      destruct (edges_by_unique_deltas chk g) as [m| |] eqn:Eb; cbn [bind fst snd]; auto.
      split; auto. destruct V1; split; cbn; auto.
  Qed.

  Hypothesis symmetries_no_calls : no_calls true true false symmetries_prog.

  Lemma pure_no_syms {A} ps ps' (p : prog A) : no_calls true true false p -> pure ps p = pure ps' p.
  Proof.
    induction 1; cbn [pure]; auto.
    - destruct (incidences g v); cbn [bind]; auto.
    - destruct (position chk g v); cbn [bind]; auto.
    - destruct (edge_by_unique_delta chk g v d); cbn [bind]; auto.
    - discriminate.
  Qed.

  Lemma agrees_symmetries : agrees m_symmetries (pure Panic symmetries_prog).
  Proof.
    intros s V. unfold m_symmetries. destruct (c_syms s) as [|a l] eqn:E.
    - destruct (agrees_run_no_calls true true false m_position m_lookup never Panic symmetries_prog symmetries_no_calls
        ltac:(intros; apply agrees_position) ltac:(intros; apply agrees_lookup) ltac:(discriminate) s V) as [E1 V1].
      unfold abind. destruct (run _ _ _ symmetries_prog s) as [o s']. cbn [fst snd] in *. subst o.
      destruct (pure Panic symmetries_prog) eqn:Es; cbn [bind fst snd]; auto. split; auto. destruct V1; split; cbn; auto.
    - cbn. split; auto. destruct (v_syms s V) as [E'|E']; [rewrite E' in E; discriminate|]. rewrite E', E. auto.
  Qed.

  Lemma agrees_cached {A} (p : prog A) : agrees (run_cached p) (run_uncached p).
  Proof. unfold run_cached, run_uncached. apply agrees_run; auto using agrees_position, agrees_lookup, agrees_symmetries. Qed.

  Lemma fresh_valid : Valid fresh.
  Proof. split; cbn; auto. Qed.
  End G.
End Cache.
