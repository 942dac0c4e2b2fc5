(** Model of src/pgraphs.rs: edges, graphs, traversal, coordination sequences,
    barycentric placement, stability predicates (symmetries are in
    Symmetries.v).

    Conventions.  A vertex (u32) is a [nat].  The Rust code is generic in the
    label vector type T (LabelVector2d, LabelVector3d); here a shift is a list
    of [Z] and the graph carries its dimension, so every dimension is covered.
    i32 overflow of shifts is not modelled.  BTreeMap/HashMap/HashSet are
    association lists / lists without repetition; where the Rust code iterates
    over a HashSet the order is a parameter of the model.  This file holds the
    functions without their caches; PGraphCache.v has the caches. *)
From Coq Require Import List ZArith Lia Bool PeanoNat QArith Qcanon Qround.
From Verif Require Import Base Partition Vec Elim Scalars ZQ ModSolver ModSolve OrdSet.
Import ListNotations.
Close Scope Q_scope.
Open Scope nat_scope.

(** *** label vectors *)
Notation shiftv := (list Z).

(** pgraphs.rs 54-56 and 134-136: zero *)
Definition szero (d : nat) : shiftv := repeat 0%Z d.
(** pgraphs.rs 90-96 and 177-188: Add *)
Definition sadd (a b : shiftv) : shiftv := zipw Z.add a b.
(** pgraphs.rs 98-104 and 190-201: Sub *)
Definition ssub (a b : shiftv) : shiftv := zipw Z.sub a b.
(** pgraphs.rs 82-88 and 164-175: Neg *)
Definition sneg (a : shiftv) : shiftv := map Z.opp a.
(** pgraphs.rs 58-60 and 138-140: is_zero *)
Definition s_is_zero (a : shiftv) : bool := forallb (fun x => Z.eqb x 0) a.
(** pgraphs.rs 62-65 and 142-146: is_negative (the first nonzero component is
    negative; [s_is_negative_2d], [s_is_negative_3d] below are the code's
    expressions) *)
Fixpoint s_is_negative (a : shiftv) : bool :=
  match a with
  | [] => false
  | x :: a' => (x <? 0)%Z || (x =? 0)%Z && s_is_negative a'
  end.
(** pgraphs.rs 67-70 and 148-152: is_positive *)
Fixpoint s_is_positive (a : shiftv) : bool :=
  match a with
  | [] => false
  | x :: a' => (x >? 0)%Z || (x =? 0)%Z && s_is_positive a'
  end.
(** pgraphs.rs 34-39 and 113-119: the derived Ord (PhantomData is always equal) *)
Fixpoint s_cmp (a b : shiftv) : comparison :=
  match a, b with
  | [], [] => Eq
  | [], _ => Lt
  | _, [] => Gt
  | x :: a', y :: b' => lex (Z.compare x y) (s_cmp a' b')
  end.
(** the derived PartialEq *)
Fixpoint s_eqb (a b : shiftv) : bool :=
  match a, b with
  | [], [] => true
  | x :: a', y :: b' => Z.eqb x y && s_eqb a' b'
  | _, _ => false
  end.

(** *** edges *)
(** pgraphs.rs 220-234: Edge *)
Record edge := Edge { head : nat; tail : nat; shift : shiftv }.
(** pgraphs.rs 236-249: Neg *)
Definition rev (e : edge) : edge := Edge (tail e) (head e) (sneg (shift e)).
(** pgraphs.rs 256-264: canonical *)
Definition canonical (e : edge) : edge :=
  if (tail e <? head e) || (tail e =? head e) && s_is_negative (shift e) then rev e else e.
(** pgraphs.rs 220: derived PartialEq and Ord, in the order of the fields *)
Definition edge_eqb (e f : edge) : bool :=
  (head e =? head f) && (tail e =? tail f) && s_eqb (shift e) (shift f).
Definition edge_cmp (e f : edge) : comparison :=
  lex (Nat.compare (head e) (head f)) (lex (Nat.compare (tail e) (tail f)) (s_cmp (shift e) (shift f))).

(** *** graphs *)
(** pgraphs.rs 278-292: Graph without the caches *)
Record graph := Graph { gdim : nat; gedges : list edge }.

(** pgraphs.rs 301-317: new *)
Definition gnew (d : nat) (raw : list edge) : graph :=
  Graph d (usort edge_cmp (map canonical raw)).

(** pgraphs.rs 319-333: vertices *)
Definition vertices (g : graph) : list nat :=
  usort Nat.compare (flat_map (fun e => [head e; tail e]) (gedges g)).

(** pgraphs.rs 344-355: the map built by incidences *)
Definition push_edge (m : list (nat * list edge)) (e : edge) : list (nat * list edge) :=
  match aget Nat.eqb (head e) m with
  | None => aset Nat.eqb (head e) [e] m
  | Some l => aset Nat.eqb (head e) (l ++ [e]) m
  end.
Definition incidence_map (g : graph) : list (nat * list edge) :=
  fold_left push_edge (flat_map (fun e => [e; rev e]) (gedges g)) [].

(** pgraphs.rs 340-363: incidences; [incidences[v]] panics for a missing key *)
Definition incidences (g : graph) (v : nat) : outcome (list edge) :=
  unwrap (aget Nat.eqb v (incidence_map g)).

(** pgraphs.rs 335-338: directed_edges *)
Definition directed_edges (g : graph) : outcome (list edge) :=
  omap (@concat edge) (mapM (incidences g) (vertices g)).

(** *** nodes of the net, coordination sequence *)
Notation node := (nat * list Z)%type.
Definition node_eqb (a b : node) : bool := (fst a =? fst b) && s_eqb (snd a) (snd b).

(** insertion into a HashSet *)
Definition sinsert {A} (eqb : A -> A -> bool) (x : A) (l : list A) : list A :=
  if memb eqb x l then l else l ++ [x].

(** pgraphs.rs 540-561: CoordinationSequence, new; (last_shell, this_shell) *)
Definition cs_new (g : graph) (v0 : nat) : list node * list node := ([], [(v0, szero (gdim g))]).

(** pgraphs.rs 570-587: next; [order] is the order in which the HashSet
    this_shell is iterated; the item returned is the size of the new this_shell *)
Definition cs_next (order : list node -> list node) (g : graph) (st : list node * list node)
  : outcome (list node * list node * nat) :=
  let '(last, this) := st in
  do next <- foldM (fun acc vs =>
      do inc <- incidences g (fst vs);
      Ret (fold_left (fun acc e =>
        let w := (tail e, sadd (shift e) (snd vs)) in
        if negb (memb node_eqb w last) && negb (memb node_eqb w this)
        then sinsert node_eqb w acc else acc) inc acc)) [] (order this);
  Ret (this, next, length next).

(** *** traversal *)
(** pgraphs.rs 672-700: traverse_with_shift_adjustments.
    State: shifts, seen, queue, result. *)
Definition tstate := (list (nat * shiftv) * list edge * list nat * list edge)%type.

Definition tr_edge (st : tstate) (e : edge) : outcome tstate :=
  let '(shifts, seen, queue, result) := st in
  do (shifts, queue) <-
    match aget Nat.eqb (tail e) shifts with
    | None => do sv <- unwrap (aget Nat.eqb (head e) shifts);
              Ret (aset Nat.eqb (tail e) (sadd sv (shift e)) shifts, queue ++ [tail e])
    | Some _ => Ret (shifts, queue)
    end;
  let e := canonical e in
  if memb edge_eqb e seen then Ret (shifts, seen, queue, result)
  else
    do sh <- unwrap (aget Nat.eqb (head e) shifts);
    do st <- unwrap (aget Nat.eqb (tail e) shifts);
    Ret (shifts, sinsert edge_eqb e seen, queue, result ++ [Edge (head e) (tail e) (ssub (sadd sh (shift e)) st)]).

Definition tr_body (g : graph) (st : tstate) : outcome (tstate + list edge) :=
  let '(shifts, seen, queue, result) := st in
  match queue with
  | [] => Ret (inr result)
  | v :: queue =>
      do inc <- incidences g v;
      omap inl (foldM tr_edge (shifts, seen, queue, result) inc)
  end.

Definition traverse (g : graph) (v0 : nat) : outcome (list edge) :=
  loop (tr_body g) (length (gedges g) + 2) ([(v0, szero (gdim g))], [], [v0], []).

(** pgraphs.rs 473-488: shift_normalized *)
Definition shift_normalized (g : graph) : outcome graph :=
  do (_, es) <- foldM (fun st v =>
      let '(seen, es) := st in
      if memb Nat.eqb v seen then Ret (seen, es)
      else do t <- traverse g v;
           Ret (fold_left (fun s e => sinsert Nat.eqb (tail e) (sinsert Nat.eqb (head e) s)) t seen, es ++ t))
    ([], []) (vertices g);
  Ret (gnew (gdim g) es).

(** pgraphs.rs 703-736: graph_component_measures *)
Definition component_measures (g : graph) (v0 : nat) : outcome (nat * nat * option Z) :=
  do es <- traverse g v0;
  let vs := usort Nat.compare (flat_map (fun e => [head e; tail e]) es) in
  do basis <- foldM (fun bs e => extend_basis (shift e) bs) [] es;
  let rank := length basis in
  do mult <-
    (if rank =? gdim g then
       do d <- foldM (fun d i => do row <- unwrap (nth_error basis i);
                                 do x <- unwrap (nth_error row i); Ret (d * x)%Z) 1%Z (seq 0 (length basis));
       Ret (Some (Z.abs d))
     else Ret None);
  Ret (length vs, rank, mult).

(** pgraphs.rs 490-497: is_connected *)
Definition is_connected (g : graph) : outcome bool :=
  match vertices g with
  | [] => Ret true
  | v0 :: _ =>
      do (size, _, mult) <- component_measures g v0;
      Ret ((size =? length (vertices g)) && match mult with Some m => Z.eqb m 1 | None => false end)
  end.

(** *** barycentric placement *)
Notation point := (list Qc).
Definition q_eqb := Qc_eqb.
Fixpoint p_eqb (a b : point) : bool :=
  match a, b with
  | [], [] => true
  | x :: a', y :: b' => Qc_eqb x y && p_eqb a' b'
  | _, _ => false
  end.
(** num_rational: floor *)
Definition qc_floor (q : Qc) : Qc := ZQ (Qfloor q).

(** replace entry j of row i by f of it; panics if out of bounds *)
Definition upd (a : zmat) (i j : nat) (f : Z -> outcome Z) : outcome zmat :=
  do row <- unwrap (nth_error a i);
  do x <- unwrap (nth_error row j);
  do y <- f x;
  Ret (set_nth i (set_nth j y row) a).

Section Placement.
  Variable chk : Z -> outcome Z.

  (** pgraphs.rs 756-766: the entries contributed by one incidence *)
  Definition bp_ngb (vidcs : list (nat * nat)) (d i : nat) (st : zmat * zmat) (ngb : edge) : outcome (zmat * zmat) :=
    let '(a, t) := st in
    do j <- unwrap (aget Nat.eqb (tail ngb) vidcs);
    do a <- upd a i j (fun x => chk (x - 1)%Z);
    do a <- upd a i i (fun x => chk (x + 1)%Z);
    do t <- foldM (fun t k => do s <- unwrap (nth_error (shift ngb) k); upd t i k (fun x => chk (x + s)%Z)) t (seq 0 d);
    Ret (a, t).

  (** pgraphs.rs 739-777: barycentric_placement *)
  Definition barycentric_placement (g : graph) : outcome (list (nat * point)) :=
    let verts := vertices g in
    let vidcs := combine verts (seq 0 (length verts)) in
    let n := length verts in
    let d := gdim g in
    do a <- upd (repeat (repeat 0%Z n) n) 0 0 (fun _ => Ret 1%Z);
    do (a, t) <- foldM (fun st i =>
        do v <- unwrap (nth_error verts i);
        do inc <- incidences g v;
        foldM (bp_ngb vidcs d i) st inc) (a, repeat (repeat 0%Z d) n) (seq 1 (n - 1));
    do r <- ms_solve chk a t;
    do p <- unwrap r;
    foldM (fun m i => do v <- unwrap (nth_error verts i);
                      do x <- unwrap (nth_error p i);
                      Ret (aset Nat.eqb v x m)) [] (seq 0 n).

  (** pgraphs.rs 365-374: position *)
  Definition position (g : graph) (v : nat) : outcome point :=
    do m <- barycentric_placement g; unwrap (aget Nat.eqb v m).

  (** pgraphs.rs 399-401: position_normalized *)
  Definition position_normalized (g : graph) (v : nat) : outcome point :=
    do p <- position g v; Ret (map (fun q => q - qc_floor q)%Qc p).

  (** pgraphs.rs 403-412: edge_vector *)
  Definition edge_vector (g : graph) (e : edge) : outcome point :=
    do p <- position g (head e);
    do q <- position g (tail e);
    mapM (fun i => do qi <- unwrap (nth_error q i);
                   do si <- unwrap (nth_error (shift e) i);
                   do pi <- unwrap (nth_error p i);
                   Ret (qi + ZQ si - pi)%Qc) (seq 0 (gdim g)).

  (** pgraphs.rs 414-426: is_stable *)
  Definition is_stable (g : graph) : outcome bool :=
    (fix go seen vs := match vs with
       | [] => Ret true
       | v :: vs => do p <- position_normalized g v;
                    if memb p_eqb p seen then Ret false else go (sinsert p_eqb p seen) vs
       end) [] (vertices g).

  (** the inner loop of is_locally_stable *)
  Fixpoint no_repetition (g : graph) (seen : list point) (es : list edge) : outcome bool :=
    match es with
    | [] => Ret true
    | e :: es => do q <- edge_vector g e;
                 if memb p_eqb q seen then Ret false else no_repetition g (sinsert p_eqb q seen) es
    end.
  (** pgraphs.rs 428-443: is_locally_stable *)
  Definition is_locally_stable (g : graph) : outcome bool :=
    (fix go vs := match vs with
       | [] => Ret true
       | v :: vs => do inc <- incidences g v;
                    do b <- no_repetition g [] inc;
                    if b : bool then go vs else Ret false
       end) (vertices g).

  (** Ord of BigRational and of Vec *)
  Definition qc_cmp (a b : Qc) : comparison := (a ?= b)%Qc.
  Fixpoint p_cmp (a b : point) : comparison :=
    match a, b with
    | [], [] => Eq
    | [], _ => Lt
    | _, [] => Gt
    | x :: a', y :: b' => lex (qc_cmp x y) (p_cmp a' b')
    end.
  (** slice::sort, keeping repetitions *)
  Fixpoint insert_sorted (x : point) (l : list point) : list point :=
    match l with
    | [] => [x]
    | y :: l' => match p_cmp x y with Gt => y :: insert_sorted x l' | _ => x :: l end
    end.
  Definition psort (l : list point) : list point := fold_right insert_sorted [] l.
  Fixpoint ps_eqb (a b : list point) : bool :=
    match a, b with
    | [], [] => true
    | x :: a', y :: b' => p_eqb x y && ps_eqb a' b'
    | _, _ => false
    end.

  (** pgraphs.rs 445-465: has_second_order_collisions *)
  Definition has_second_order_collisions (g : graph) : outcome bool :=
    (fix go seen vs := match vs with
       | [] => Ret false
       | v :: vs => do inc <- incidences g v;
                    do deltas <- mapM (edge_vector g) inc;
                    do p <- position_normalized g v;
                    let key := psort deltas ++ [p] in
                    if memb ps_eqb key seen then Ret true else go (sinsert ps_eqb key seen) vs
       end) [] (vertices g).

  (** pgraphs.rs 792-800: the inner loop of edges_by_unique_deltas *)
  Fixpoint unique_deltas (g : graph) (seen : list point) (to_edge : list (point * edge)) (es : list edge)
    : outcome (list (point * edge)) :=
    match es with
    | [] => Ret to_edge
    | e :: es =>
        do delta <- edge_vector g e;
        if memb p_eqb delta seen then unique_deltas g seen (aremove p_eqb delta to_edge) es
        else unique_deltas g (sinsert p_eqb delta seen) (aset p_eqb delta e to_edge) es
    end.
  (** pgraphs.rs 780-806: edges_by_unique_deltas *)
  Definition edges_by_unique_deltas (g : graph) : outcome (list (nat * list (point * edge))) :=
    foldM (fun m v => do inc <- incidences g v;
                      do te <- unique_deltas g [] [] inc;
                      Ret (aset Nat.eqb v te m)) [] (vertices g).

  (** pgraphs.rs 376-386: edge_by_unique_delta *)
  Definition edge_by_unique_delta (g : graph) (v : nat) (delta : point) : outcome (option edge) :=
    do m <- edges_by_unique_deltas g;
    Ret (match aget Nat.eqb v m with Some te => aget p_eqb delta te | None => None end).
End Placement.

(** the first n items of the iterator, [coordination_sequence(v).take(n)]; the
    HashSets may be iterated in a different order each time *)
Fixpoint cs_take (order : nat -> list node -> list node) (g : graph) (n : nat) (st : list node * list node)
  : outcome (list nat) :=
  match n with
  | 0 => Ret []
  | S n' => do (st', x) <- cs_next (order n) g st; do xs <- cs_take order g n' st'; Ret (x :: xs)
  end.
