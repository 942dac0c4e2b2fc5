(** Model of src/symmetries.rs and of the type Automorphism and the orbit
    functions in src/pgraphs.rs. *)
From Coq Require Import List ZArith Lia Bool PeanoNat QArith Qcanon Qround.
From Verif Require Import Base Partition Vec Elim Scalars Matrix LinAlg Geometry ZQ ModSolver ModSolve OrdSet Lattices PGraph.
Import ListNotations.
Close Scope Q_scope. Close Scope Qc_scope.
Open Scope nat_scope.

Notation affmap := (@affine Qc).

(** pgraphs.rs 591-600: Automorphism *)
Record auto := Auto { vmap : list (nat * nat); emap : list (edge * edge); xform : affmap }.

(** geometry.rs 547 (derived PartialEq of AffineMap) *)
Definition aff_eqb (a b : affmap) : bool := mat_eqb (lin a) (lin b) && mat_eqb (Geometry.shift a) (Geometry.shift b).
(** HashMap::eq: as many keys, and every entry found in the other map *)
Definition map_eqb {K V} (keqb : K -> K -> bool) (veqb : V -> V -> bool) (a b : list (K * V)) : bool :=
  (length a =? length b) &&
  forallb (fun kv => match aget keqb (fst kv) b with Some v => veqb (snd kv) v | None => false end) a.
(** pgraphs.rs 591 (derived PartialEq of Automorphism); the Hash at 659-668 depends on
    less than the equality, so it does not matter for HashSets *)
Definition auto_eqb (a b : auto) : bool :=
  map_eqb Nat.eqb Nat.eqb (vmap a) (vmap b) && map_eqb edge_eqb edge_eqb (emap a) (emap b) && aff_eqb (xform a) (xform b).

(** geometry.rs 676-684: affine map times vector, on coordinate lists *)
Definition aff_apply (a : affmap) (v : point) : outcome point :=
  do c <- vec_new v; do r <- aff_vector a c; Ret (data r).

(** pgraphs.rs 617-630: Automorphism::identity *)
Definition auto_identity (g : graph) : outcome auto :=
  do t <- aff_identity (gdim g);
  do es <- directed_edges g;
  Ret (Auto (map (fun v => (v, v)) (vertices g)) (map (fun e => (e, e)) es) t).

(** pgraphs.rs 634-656: composition *)
Definition auto_mul (a b : auto) : outcome auto :=
  do t <- aff_mul (xform a) (xform b);
  do vm <- mapM (fun kv => do x <- unwrap (aget Nat.eqb (fst kv) (vmap b));
                           do y <- unwrap (aget Nat.eqb x (vmap a));
                           Ret (fst kv, y)) (vmap a);
  do em <- mapM (fun kv => do x <- unwrap (aget edge_eqb (fst kv) (emap b));
                           do y <- unwrap (aget edge_eqb x (emap a));
                           Ret (fst kv, y)) (emap a);
  Ret (Auto vm em t).

(** symmetries.rs 282-284 and 295-299: [x % 1] (the remainder has the sign of x) *)
Definition qrem1 (x : Qc) : Qc := (x - ZQ (Z.quot (Qnum x) (Zpos (Qden x))))%Qc.
Definition mod1 (p : point) : point := map qrem1 p.

(** Matrix of an edge list and tests *)
(** symmetries.rs 213-217: is_unimodular *)
Definition is_unimodular (m : mat Qc) : outcome bool :=
  do d <- determinant m;
  Ret (forallb (fun x => Qc_eqb (qrem1 x) 0%Qc) (data m) && Qc_eqb (if q_neg d then (- d)%Qc else d) 1%Qc).

(** itertools: combinations(k) and permutations of all elements, in lexicographic order of the indices *)
Fixpoint combinations {A} (k : nat) (l : list A) : list (list A) :=
  match k, l with
  | 0, _ => [[]]
  | S _, [] => []
  | S k', x :: l' => map (cons x) (combinations k' l') ++ combinations k l'
  end.
Fixpoint picks {A} (pre l : list A) : list (A * list A) :=
  match l with
  | [] => []
  | x :: l' => (x, pre ++ l') :: picks (pre ++ [x]) l'
  end.
Fixpoint permutations {A} (n : nat) (l : list A) : list (list A) :=
  match n with
  | 0 => [[]]
  | S n' => flat_map (fun xr => map (cons (fst xr)) (permutations n' (snd xr))) (picks [] l)
  end.

(** derived PartialEq of Vec<Edge> *)
Fixpoint edges_eqb (a b : list edge) : bool :=
  match a, b with
  | [], [] => true
  | x :: a', y :: b' => edge_eqb x y && edges_eqb a' b'
  | _, _ => false
  end.

(** symmetries.rs 174-194: multiplicative_group.  State: result, queue.  The order of
    the result is that of insertion; in the code it is arbitrary. *)
Definition mg_step (phi : auto) (st : list auto * list auto) (psi : auto) : outcome (list auto * list auto) :=
  let '(result, queue) := st in
  do product <- auto_mul phi psi;
  if memb auto_eqb product result then Ret (result, queue) else Ret (result ++ [product], queue ++ [product]).
Definition mg_body (gens : list auto) (st : list auto * list auto) : outcome ((list auto * list auto) + list auto) :=
  let '(result, queue) := st in
  match queue with
  | [] => Ret (inr result)
  | phi :: queue => omap inl (foldM (mg_step phi) (result, queue) gens)
  end.
Definition multiplicative_group (fuel : nat) (id : auto) (gens : list auto) : outcome (list auto) :=
  loop (mg_body gens) fuel ([id], [id]).

Section Sym.
  Variable chk : Z -> outcome Z.

  (** symmetries.rs 335-346: the loop over the incidences of vsrc; None stands for "return None" *)
  Fixpoint au_edges (g : graph) (aff : affmap) (vimg : nat) (es : list edge) (em : list (edge * edge)) (queue : list (nat * nat))
    : outcome (option (list (edge * edge) * list (nat * nat))) :=
    match es with
    | [] => Ret (Some (em, queue))
    | esrc :: es =>
        do dsrc <- edge_vector chk g esrc;
        do dimg <- aff_apply aff dsrc;
        do r <- edge_by_unique_delta chk g vimg dimg;
        match r with
        | None => Ret None
        | Some eimg => au_edges g aff vimg es (aset edge_eqb esrc eimg em) (queue ++ [(tail esrc, tail eimg)])
        end
    end.
  Definition austate := (list (nat * nat) * list (edge * edge) * list (nat * nat))%type.
  Definition au_body (g : graph) (aff : affmap) (st : austate) : outcome (austate + option auto) :=
    let '(vm, em, queue) := st in
    match queue with
    | [] => Ret (inr (Some (Auto vm em aff)))
    | (vsrc, vimg) :: queue =>
        match aget Nat.eqb vsrc vm with
        | Some w => if w =? vimg then Ret (inl (vm, em, queue)) else Ret (inr None)
        | None =>
            do inc <- incidences g vsrc;
            do r <- au_edges g aff vimg inc em queue;
            match r with
            | None => Ret (inr None)
            | Some (em, queue) => Ret (inl (aset Nat.eqb vsrc vimg vm, em, queue))
            end
        end
    end.
  (** symmetries.rs 315-353: automorphism *)
  Definition automorphism (g : graph) (seed_src seed_img : nat) (aff : affmap) : outcome (option auto) :=
    loop (au_body g aff) (length (gedges g) + 2) ([], [], [(seed_src, seed_img)]).

  (** symmetries.rs 438-453: are_linearly_independent *)
  Definition are_linearly_independent (g : graph) (es : list edge) : outcome bool :=
    do basis <- foldM (fun bs e => do v <- edge_vector chk g e; extend_basis v bs) [] es;
    Ret (length basis =? length es).

  (** symmetries.rs 419-435: good_combinations *)
  Definition good_combinations (g : graph) (edges : list edge) : outcome (list (list edge)) :=
    foldM (fun result es =>
      do b <- are_linearly_independent g es;
      Ret (if b : bool then result ++ permutations (gdim g) es else result)) [] (combinations (gdim g) edges).

  (** symmetries.rs 395-416: generate_edge_chain_extensions; [n] is the number of missing edges *)
  Fixpoint chain_extensions (g : graph) (n : nat) (edges : list edge) (result : list (list edge)) : outcome (list (list edge)) :=
    match n with
    | 0 => Ret (result ++ [edges])
    | S n' =>
        do e0 <- unwrap (nth_error edges (length edges - 1));
        do inc <- incidences g (tail e0);
        foldM (fun result e =>
          let next := edges ++ [e] in
          do b <- are_linearly_independent g next;
          if b : bool then chain_extensions g n' next result else Ret result) result inc
    end.
  (** symmetries.rs 381-392: good_edge_chains *)
  Definition good_edge_chains (g : graph) : outcome (list (list edge)) :=
    do es <- directed_edges g;
    foldM (fun result e => chain_extensions g (gdim g - 1) [e] result) [] es.

  (** symmetries.rs 356-378: characteristic_edge_lists *)
  Definition characteristic_edge_lists (g : graph) : outcome (list (list edge)) :=
    do result <- foldM (fun result v => do inc <- incidences g v; do ess <- good_combinations g inc; Ret (result ++ ess)) [] (vertices g);
    do result <- match result with [] => good_edge_chains g | _ => Ret result end;
    match result with [] => do es <- directed_edges g; good_combinations g es | _ => Ret result end.

  (** symmetries.rs 197-210: matrix_from_edge_list *)
  Definition matrix_from_edge_list (g : graph) (es : list edge) : outcome (mat Qc) :=
    do rows <- mapM (fun e => do v <- edge_vector chk g e; mat_row v) es; vstack rows.

  (** symmetries.rs 148-168: one round of the loop over the edge lists *)
  Definition sy_step (g : graph) (lists : list (list edge)) (seeds : list nat) (bases : list (mat Qc)) (inv_b : mat Qc)
    (st : part (T := list edge) * list auto) (i : nat) : outcome (part (T := list edge) * list auto) :=
    let '(p, gens) := st in
    do li <- unwrap (nth_error lists i);
    do l0 <- unwrap (nth_error lists 0);
    do (p, ri) <- part_find edges_eqb p li;
    do (p, r0) <- part_find edges_eqb p l0;
    if edges_eqb ri r0 then Ret (p, gens)
    else
      do bi <- unwrap (nth_error bases i);
      do m <- mat_mul bi inv_b;
      do u <- is_unimodular m;
      if u : bool then
        do z <- vec_zero (gdim g);
        do aff <- aff_new m z;
        do s0 <- unwrap (nth_error seeds 0);
        do si <- unwrap (nth_error seeds i);
        do iso <- automorphism g s0 si aff;
        match iso with
        | None => Ret (p, gens)
        | Some iso =>
            do p <- foldM (fun p lk =>
                do mapped <- mapM (fun e => unwrap (aget edge_eqb e (emap iso))) lk;
                part_unite edges_eqb p lk mapped) p lists;
            Ret (p, gens ++ [iso])
        end
      else Ret (p, gens).

  (** enough fuel for multiplicative_group, see Group.v *)
  Definition group_fuel (g : graph) : nat := let k := 2 * length (gedges g) in k * k + 2.

  (** symmetries.rs 129-171: symmetries *)
  Definition symmetries (g : graph) : outcome (list auto) :=
    do stable <- is_locally_stable chk g;
    do _ <- assert stable;
    do lists <- characteristic_edge_lists g;
    do seeds <- mapM (fun es => do e <- unwrap (nth_error es 0); Ret (head e)) lists;
    do bases <- mapM (matrix_from_edge_list g) lists;
    do b0 <- unwrap (nth_error bases 0);
    do oi <- inverse b0;
    do inv_b <- unwrap oi;
    do (_, gens) <- foldM (sy_step g lists seeds bases inv_b) (part_new, []) (seq 0 (length lists));
    do id <- auto_identity g;
    multiplicative_group (group_fuel g) id gens.

  (** pgraphs.rs 499-509: vertex_orbits *)
  Definition vertex_orbits (g : graph) : outcome (list (list nat)) :=
    do syms <- symmetries g;
    do p <- foldM (fun p phi => foldM (fun p v => do w <- unwrap (aget Nat.eqb v (vmap phi)); part_unite Nat.eqb p v w) p (vertices g))
      part_new syms;
    omap snd (part_classes Nat.eqb p (vertices g)).
  (** pgraphs.rs 511-521: edge_orbits *)
  Definition edge_orbits (g : graph) : outcome (list (list edge)) :=
    do syms <- symmetries g;
    do p <- foldM (fun p phi => foldM (fun p e => do f <- unwrap (aget edge_eqb e (emap phi)); part_unite edge_eqb p e (canonical f)) p (gedges g))
      part_new syms;
    omap snd (part_classes edge_eqb p (gedges g)).

  (** symmetries.rs 259-279: raw_translational_equivalences *)
  Definition raw_translational_equivalences (g : graph) : outcome (part (T := nat)) :=
    do id <- aff_identity (gdim g);
    let verts := vertices g in
    foldM (fun p v =>
      do v0 <- unwrap (nth_error verts 0);
      do (p, r0) <- part_find Nat.eqb p v0;
      do (p, r) <- part_find Nat.eqb p v;
      if r0 =? r then Ret p
      else
        do iso <- automorphism g v0 v id;
        match iso with
        | None => Ret p
        | Some iso => foldM (fun p w => do x <- unwrap (aget Nat.eqb w (vmap iso)); part_unite Nat.eqb p w x) p verts
        end) part_new verts.

  (** symmetries.rs 250-256: raw_translational_orbits *)
  Definition raw_translational_orbits (g : graph) : outcome (list (list nat)) :=
    do p <- raw_translational_equivalences g; omap snd (part_classes Nat.eqb p (vertices g)).

  (** symmetries.rs 287-303: extended_translation_basis *)
  Definition extended_translation_basis (g : graph) (orbit : list nat) : outcome (list point) :=
    do v0 <- unwrap (nth_error orbit 0);
    do p0 <- position chk g v0;
    do deltas <- mapM (fun v => do p <- position chk g v; Ret (mod1 (lsub p p0))) (skipn 1 orbit);
    rational_lattice_basis deltas.

  (** symmetries.rs 46-48 and 230: some vertex of the list, other than the first, has the same position modulo 1 as the first *)
  Definition same_place (g : graph) (orbit : list nat) : outcome bool :=
    do v0 <- unwrap (nth_error orbit 0);
    do p <- position chk g v0;
    let p0 := mod1 p in
    (fix go vs := match vs with
       | [] => Ret false
       | v :: vs => do q <- position chk g v; if p_eqb (mod1 q) p0 then Ret true else go vs
       end) (skipn 1 orbit).

  (** symmetries.rs 220-247: translational_equivalences *)
  Definition translational_equivalences (g : graph) : outcome (part (T := nat)) :=
    do equivs <- raw_translational_equivalences g;
    do (equivs, cls) <- part_classes Nat.eqb equivs (vertices g);
    do orbit <- unwrap (nth_error cls 0);
    do v0 <- unwrap (nth_error orbit 0);
    do pos0 <- position chk g v0;
    let p0 := mod1 pos0 in
    do id <- aff_identity (gdim g);
    do b <- same_place g orbit;
    if b : bool then
      do basis <- extended_translation_basis g orbit;
      foldM (fun p b =>
        do v <- (fix go vs := match vs with
                   | [] => Panic
                   | v :: vs => do q <- position chk g v; if p_eqb (mod1 (ladd q b)) p0 then Ret v else go vs
                   end) orbit;
        do oiso <- automorphism g v0 v id;
        do iso <- unwrap oiso;
        foldM (fun p w => do x <- unwrap (aget Nat.eqb w (vmap iso)); part_unite Nat.eqb p w x) p (vertices g)) part_new basis
    else Ret equivs.

  (** symmetries.rs 119-126: translational_orbits *)
  Definition translational_orbits (g : graph) : outcome (list (list nat)) :=
    do stable <- is_locally_stable chk g;
    do _ <- assert stable;
    do p <- translational_equivalences g;
    omap snd (part_classes Nat.eqb p (vertices g)).

  (** symmetries.rs 53-60: is_minimal *)
  Definition is_minimal (g : graph) : outcome bool :=
    do stable <- is_locally_stable chk g;
    do _ <- assert stable;
    do orbits <- translational_orbits g;
    do o <- unwrap (nth_error orbits 0);
    Ret (length o =? 1).

  (** symmetries.rs 35-50: is_ladder *)
  Definition is_ladder (g : graph) : outcome bool :=
    do lstable <- is_locally_stable chk g;
    do _ <- assert lstable;
    do stable <- is_stable chk g;
    if stable : bool then Ret false
    else
      do orbits <- raw_translational_orbits g;
      do orbit <- unwrap (nth_error orbits 0);
      same_place g orbit.

  (** symmetries.rs 17-32: ladder_symmetries *)
  Definition ladder_symmetries (g : graph) : outcome (list auto) :=
    do lstable <- is_locally_stable chk g;
    do _ <- assert lstable;
    do orbits <- raw_translational_orbits g;
    do orbit <- unwrap (nth_error orbits 0);
    do v0 <- unwrap (nth_error orbit 0);
    do pos0 <- position chk g v0;
    let p0 := mod1 pos0 in
    do id <- aff_identity (gdim g);
    foldM (fun result v =>
      do q <- position chk g v;
      if p_eqb (mod1 q) p0 then
        do oiso <- automorphism g v0 v id; do iso <- unwrap oiso; Ret (result ++ [iso])
      else Ret result) [] (skipn 1 orbit).

  (** symmetries.rs 63-116: minimal_image; the vertices of the image are numbered from 1 *)
  Definition minimal_image (g : graph) : outcome (option graph) :=
    do stable <- is_locally_stable chk g;
    do _ <- assert stable;
    do orbits <- translational_orbits g;
    do o0 <- unwrap (nth_error orbits 0);
    if length o0 =? 1 then Ret None
    else
      do b <- extended_translation_basis g o0;
      do rows <- mapM mat_row b;
      do mb <- vstack rows;
      do om <- inverse mb;
      do m <- unwrap om;
      do z <- vec_zero (gdim g);
      do aff <- aff_new m z;
      do tabs <- foldM (fun st iorb =>
          let '(i, orb) := iorb in
          do v0 <- unwrap (nth_error orb 0);
          do p0 <- position chk g v0;
          foldM (fun st v =>
            let '(imgs, shifts) := st in
            do p <- position chk g v;
            Ret (aset Nat.eqb v (i + 1) imgs, aset Nat.eqb v (lsub p p0) shifts)) st orb)
        ([], []) (combine (seq 0 (length orbits)) orbits);
      let '(imgs, shifts) := tabs in
      do es <- directed_edges g;
      do edges <- foldM (fun edges e =>
          if edge_eqb e (canonical e) then
            do h <- unwrap (aget Nat.eqb (head e) imgs);
            do t <- unwrap (aget Nat.eqb (tail e) imgs);
            do st <- unwrap (aget Nat.eqb (tail e) shifts);
            do sh <- unwrap (aget Nat.eqb (head e) shifts);
            do s <- aff_apply aff (lsub (ladd (map ZQ (shift e)) st) sh);
            do s <- mapM (fun x => unwrap (r_to_i32 x)) s;
            Ret (edges ++ [Edge h t s])
          else Ret edges) [] es;
      Ret (Some (gnew (gdim g) edges)).
End Sym.
