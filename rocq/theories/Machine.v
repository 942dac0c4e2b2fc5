(** The integer code with machine integers: every addition, subtraction,
    negation, multiplication and division of the Rust code on i32 or i64 goes
    through [chk], which stands for the overflow behaviour of the build:
    [checked 32], [checked 64] panic on overflow (debug builds), [wrapping 32]
    wraps around (release builds).  The functions repeat those of Scalars.v,
    Elim.v, LinAlg.v and PGraph.v, which use unbounded integers, in the order
    of evaluation of the code. *)
From Coq Require Import List ZArith Lia Bool PeanoNat.
From Verif Require Import Base Vec Elim Scalars Matrix LinAlg OrdSet PGraph.
Import ListNotations.
Open Scope Z_scope.

(** integer arithmetic of Rust with overflow checks, [bits] = 32 or 64 *)
Definition fits_bits (bits : Z) (z : Z) : bool := (- 2 ^ (bits - 1) <=? z) && (z <? 2 ^ (bits - 1)).
Definition checked (bits : Z) (z : Z) : outcome Z := if fits_bits bits z then Ret z else Panic.
(** without overflow checks: two's complement *)
Definition wrapping (bits : Z) (z : Z) : outcome Z := Ret ((z + 2 ^ (bits - 1)) mod 2 ^ bits - 2 ^ (bits - 1)).

Section Machine.
  Variable chk : Z -> outcome Z.

  (** division and remainder panic for a zero divisor, and overflow for MIN / -1 *)
  Definition m_quot (x y : Z) : outcome Z := if y =? 0 then Panic else chk (Z.quot x y).
  Definition m_rem (x y : Z) : outcome Z := if y =? 0 then Panic else do _ <- chk (Z.quot x y); Ret (Z.rem x y).
  (** [a - q * b] and [x * y + z * w] *)
  Definition m_submul (a q b : Z) : outcome Z := do p <- chk (q * b); chk (a - p).
  Definition m_dot2 (x y z w : Z) : outcome Z := do p <- chk (x * y); do q <- chk (z * w); chk (p + q).

  (** *** linear_algebra.rs *)

  (** linear_algebra.rs 19-24: one iteration of gcdx *)
  Definition m_gcdx_step (st : gstate) : outcome (gstate + (Z * Z * Z * Z * Z)) :=
    let '(a, an, r, rn, s, sn) := st in
    if an =? 0 then Ret (inr (a, r, s, rn, sn))
    else
      do q <- m_quot a an;
      do a' <- m_submul a q an;
      do r' <- m_submul r q rn;
      do s' <- m_submul s q sn;
      Ret (inl (an, a', rn, r', sn, s')).
  (** linear_algebra.rs 10-27: gcdx *)
  Definition m_gcdx (a b : Z) : outcome (Z * Z * Z * Z * Z) :=
    loop m_gcdx_step (Z.to_nat (Z.log2 (Z.abs b)) + 1) (gcdx_init a b).

  (** linear_algebra.rs 150-154: the loop of clear_column_primitive_int; [k]
      columns are still to be skipped *)
  Fixpoint m_clear_from (r s t u det : Z) (k : nat) (v b : list Z) : outcome (list Z * list Z) :=
    match v, b with
    | [], _ => Ret ([], b)
    | _ :: _, [] => Panic
    | x :: v', y :: b' =>
        do (x', y') <- match k with
          | S _ => Ret (x, y)
          | O => do w <- m_dot2 y r x s;
                 do tmp <- chk (det * w);
                 do x' <- m_dot2 y t x u;
                 Ret (x', tmp)
          end;
        do (v'', b'') <- m_clear_from r s t u det (pred k) v' b';
        Ret (x' :: v'', y' :: b'')
    end.
  (** linear_algebra.rs 144-155: clear_column_primitive_int *)
  Definition m_clear (col : nat) (v b : list Z) : outcome (list Z * list Z) :=
    do bc <- unwrap (nth_error b col);
    do vc <- unwrap (nth_error v col);
    do (_, r, s, t, u) <- m_gcdx bc vc;
    do ru <- chk (r * u);
    do det <- m_submul ru s t;
    m_clear_from r s t u det col v b.

  (** linear_algebra.rs 160-162: negating a row from column [k] on *)
  Fixpoint m_neg_from (k : nat) (v : list Z) : outcome (list Z) :=
    match v with
    | [] => Ret []
    | x :: v' =>
        do x' <- match k with O => chk (- x) | S _ => Ret x end;
        do r <- m_neg_from (pred k) v';
        Ret (x' :: r)
    end.
  (** linear_algebra.rs 157-164: normalize_column_primitive_int *)
  Definition m_normalize (col : nat) (v : list Z) : outcome (list Z) :=
    do vc <- unwrap (nth_error v col);
    if vc <? 0 then m_neg_from col v else Ret v.

  (** linear_algebra.rs 174-176: [v[k] -= b[k] * f] from column [k] on *)
  Fixpoint m_sub_from (f : Z) (k : nat) (v b : list Z) : outcome (list Z) :=
    match v, b with
    | [], _ => Ret []
    | _ :: _, [] => Panic
    | x :: v', y :: b' =>
        do x' <- match k with O => m_submul x y f | S _ => Ret x end;
        do r <- m_sub_from f (pred k) v' b';
        Ret (x' :: r)
    end.
  (** linear_algebra.rs 166-178: reduce_column_primitive_int *)
  Definition m_reduce (col : nat) (v b : list Z) : outcome (list Z) :=
    do vc <- unwrap (nth_error v col);
    do bc <- unwrap (nth_error b col);
    do q <- m_quot vc bc;
    do f <- chk (q - (if vc <? 0 then 1 else 0));
    if f =? 0 then Ret v else m_sub_from f col v b.

  (** linear_algebra.rs 188-191: [t -= a[i] * x[i][col]] *)
  Fixpoint m_residual (a : list Z) (x : list (list Z)) (col : nat) (t : Z) : outcome Z :=
    match x with
    | [] => Ret t
    | xi :: x' =>
        match a with
        | [] => Panic
        | ai :: a' => do c <- unwrap (nth_error xi col); do t' <- m_submul t ai c; m_residual a' x' col t'
        end
    end.
  (** linear_algebra.rs 180-199: solve_row_primitive_int *)
  Fixpoint m_solve_row_from (a : list Z) (x : list (list Z)) (col : nat) (b : list Z) : outcome (option (list Z)) :=
    match b with
    | [] => Ret (Some [])
    | bc :: b' =>
        do t <- m_residual a x col bc;
        do ak <- unwrap (nth_error a (length x));
        do m <- m_rem t ak;
        if m =? 0 then
          do q <- m_quot t ak;
          do rest <- m_solve_row_from a x (S col) b';
          Ret (option_map (cons q) rest)
        else Ret None
    end.

  (** linear_algebra.rs 103-141: impl Scalar for i32, i64 *)
  Definition m_scalar : Scalar Z := {|
    s_clear := m_clear;
    s_normalize := m_normalize;
    s_reduce := m_reduce;
    s_solve_row := fun a x b => m_solve_row_from a x 0 b |}.

  (** linear_algebra.rs 202-233: extend_basis *)
  Fixpoint m_extend_basis (v : list Z) (bs : list (list Z)) : outcome (list (list Z)) :=
    match bs with
    | [] => match pivot v with Some _ => Ret [v] | None => Ret [] end
    | b :: bs' =>
        do _ <- assert (Nat.eqb (length b) (length v));
        match pivot v with
        | None => Ret bs
        | Some col =>
            do col_b <- unwrap (pivot b);
            if Nat.ltb col col_b then
              do v' <- (if Nat.odd (length bs) then mapM (fun x => chk (- x)) v else Ret v);
              Ret (v' :: bs)
            else if Nat.eqb col col_b then
              do (v', b') <- m_clear col v b;
              do r <- m_extend_basis v' bs';
              Ret (b' :: r)
            else
              do r <- m_extend_basis v bs';
              Ret (b :: r)
        end
    end.
  Definition m_extend_all (bs rows : list (list Z)) : outcome (list (list Z)) :=
    foldM (fun bs v => m_extend_basis v bs) bs rows.

  (** linear_algebra.rs 252-260: rank *)
  Definition m_rank (m : mat Z) : outcome nat :=
    do rows <- get_rows m; do bs <- m_extend_all [] rows; Ret (length bs).

  (** linear_algebra.rs 289-293 *)
  Definition m_diag_product (n : nat) (bs : list (list Z)) : outcome Z :=
    foldM (fun det i => do b <- unwrap (nth_error bs i); do x <- unwrap (nth_error b i); chk (det * x)) 1 (seq 0 n).

  (** linear_algebra.rs 262-297: determinant *)
  Definition m_mul3 (x y z : Z) : outcome Z := do p <- chk (x * y); chk (p * z).
  Definition m_determinant (m : mat Z) : outcome Z :=
    do _ <- assert (Nat.eqb (nrows m) (ncols m));
    let e := index m in
    match nrows m with
    | 0%nat => Ret 1
    | 1%nat => e 0%nat 0%nat
    | 2%nat =>
        do a <- e 0%nat 0%nat; do b <- e 0%nat 1%nat; do c <- e 1%nat 0%nat; do d <- e 1%nat 1%nat;
        do p <- chk (a * d); do q <- chk (b * c); chk (p - q)
    | 3%nat =>
        do a00 <- e 0%nat 0%nat; do a01 <- e 0%nat 1%nat; do a02 <- e 0%nat 2%nat;
        do a10 <- e 1%nat 0%nat; do a11 <- e 1%nat 1%nat; do a12 <- e 1%nat 2%nat;
        do a20 <- e 2%nat 0%nat; do a21 <- e 2%nat 1%nat; do a22 <- e 2%nat 2%nat;
        do t1 <- m_mul3 a00 a11 a22;
        do t2 <- m_mul3 a01 a12 a20;
        do s2 <- chk (t1 + t2);
        do t3 <- m_mul3 a02 a10 a21;
        do s3 <- chk (s2 + t3);
        do t4 <- m_mul3 a02 a11 a20;
        do s4 <- chk (s3 - t4);
        do t5 <- m_mul3 a00 a12 a21;
        do s5 <- chk (s4 - t5);
        do t6 <- m_mul3 a01 a10 a22;
        chk (s5 - t6)
    | n =>
        do rows <- get_rows m;
        do bs <- m_extend_all [] rows;
        if Nat.ltb (length bs) n then Ret 0 else m_diag_product n bs
    end.

  (** linear_algebra.rs 299-324: reduced_basis; the loop [reduce_rows] of
      Elim.v with the operations above *)
  Definition m_reduced_basis (m : mat Z) : outcome (mat Z) :=
    do rows <- get_rows m;
    do bs <- m_extend_all [] rows;
    do rs <- @reduce_rows Z _ m_scalar [] bs 0;
    do ms <- mapM mat_row rs;
    vstack ms.

  (** matrices.rs 522-551: product *)
  Definition m_mul_entry (a b : mat Z) (i j : nat) : outcome Z :=
    foldM (fun s k => do x <- index a i k; do y <- index b k j; do p <- chk (x * y); chk (s + p)) 0 (seq 0 (ncols a)).
  Definition m_mat_mul (a b : mat Z) : outcome (mat Z) :=
    do _ <- assert (Nat.eqb (ncols a) (nrows b));
    do rows <- mapM (fun i => mapM (fun j => m_mul_entry a b i j) (seq 0 (ncols b))) (seq 0 (nrows a));
    mat_new (ncols b) (concat rows).

  (** linear_algebra.rs 326-362: solve; [solve_rows] of LinAlg.v with the
      operations above *)
  Definition m_solve (lft rgt : mat Z) : outcome (option (mat Z)) :=
    do _ <- assert (Nat.eqb (nrows lft) (nrows rgt));
    do h <- hstack [lft; rgt];
    do t <- m_reduced_basis h;
    if Nat.eqb (nrows t) 0 then
      do z <- mat_zero (ncols lft) (ncols rgt); Ret (Some z)
    else
      do l <- submatrix t 0 (nrows t) 0 (ncols lft);
      do r <- submatrix t 0 (nrows t) (ncols lft) (ncols t);
      do rk <- m_rank l;
      if Nat.ltb rk (nrows l) then Ret None
      else
        do lt <- transpose l;
        do id <- identity (ncols l);
        do h2 <- hstack [lt; id];
        do t2 <- m_reduced_basis h2;
        do b0 <- submatrix t2 0 (nrows t2) 0 (nrows l);
        do b <- transpose b0;
        do u0 <- submatrix t2 0 (nrows t2) (nrows l) (ncols t2);
        do u <- transpose u0;
        do ox <- @solve_rows Z _ m_scalar b r (seq 0 (nrows r)) [];
        match ox with
        | None => Ret None
        | Some x =>
            do ms <- mapM mat_row (x ++ repeat (repeat r0 (ncols r)) (ncols u - nrows r));
            do xm <- vstack ms;
            do y <- m_mat_mul u xm;
            Ret (Some y)
        end.

  (** linear_algebra.rs 364-377: null_space *)
  Definition m_null_space (a : mat Z) : outcome (option (mat Z)) :=
    do m <- transpose a;
    do id <- identity (nrows m);
    do h <- hstack [m; id];
    do t <- m_reduced_basis h;
    do l <- submatrix t 0 (nrows t) 0 (ncols m);
    do r <- submatrix t 0 (nrows t) (ncols m) (ncols t);
    do k <- m_rank l;
    if Nat.ltb k (nrows r) then
      do s <- submatrix r k (nrows r) 0 (ncols r);
      do st <- transpose s;
      Ret (Some st)
    else Ret None.

  (** linear_algebra.rs 379-383: inverse *)
  Definition m_inverse (a : mat Z) : outcome (option (mat Z)) :=
    do _ <- assert (Nat.eqb (nrows a) (ncols a));
    do id <- identity (nrows a);
    m_solve a id.

  (** *** pgraphs.rs *)

  (** pgraphs.rs 82-104 and 164-201: operators on label vectors *)
  Definition m_sadd (a b : shiftv) : outcome shiftv := mapM chk (sadd a b).
  Definition m_ssub (a b : shiftv) : outcome shiftv := mapM chk (ssub a b).
  Definition m_sneg (a : shiftv) : outcome shiftv := mapM chk (sneg a).

  (** pgraphs.rs 236-249: Neg for Edge *)
  Definition m_rev (e : edge) : outcome edge := do s <- m_sneg (shift e); Ret (Edge (tail e) (head e) s).
  (** pgraphs.rs 256-264: canonical *)
  Definition m_canonical (e : edge) : outcome edge :=
    if (tail e <? head e)%nat || (tail e =? head e)%nat && s_is_negative (shift e) then m_rev e else Ret e.
  (** pgraphs.rs 301-317: Graph::new *)
  Definition m_gnew (d : nat) (raw : list edge) : outcome graph :=
    do es <- mapM m_canonical raw; Ret (Graph d (usort edge_cmp es)).

  (** pgraphs.rs 340-363: incidences *)
  Definition m_incidence_map (g : graph) : outcome (list (nat * list edge)) :=
    do es <- mapM (fun e => do r <- m_rev e; Ret [e; r]) (gedges g);
    Ret (fold_left push_edge (concat es) []).
  Definition m_incidences (g : graph) (v : nat) : outcome (list edge) :=
    do m <- m_incidence_map g; unwrap (aget Nat.eqb v m).
  (** pgraphs.rs 335-338: directed_edges *)
  Definition m_directed_edges (g : graph) : outcome (list edge) :=
    omap (@concat edge) (mapM (m_incidences g) (vertices g)).

  (** pgraphs.rs 570-587: next of CoordinationSequence *)
  Definition m_cs_next (order : list node -> list node) (g : graph) (st : list node * list node)
    : outcome (list node * list node * nat) :=
    let '(last, this) := st in
    do next <- foldM (fun acc vs =>
        do inc <- m_incidences g (fst vs);
        foldM (fun acc e =>
          do s <- m_sadd (shift e) (snd vs);
          let w := (tail e, s) in
          Ret (if negb (memb node_eqb w last) && negb (memb node_eqb w this)
               then sinsert node_eqb w acc else acc)) acc inc) [] (order this);
    Ret (this, next, length next).

  (** the first [n] items of the sequence, as [cs_take] of PGraph.v *)
  Fixpoint m_cs_take (order : nat -> list node -> list node) (g : graph) (n : nat) (st : list node * list node) : outcome (list nat) :=
    match n with
    | O => Ret []
    | S n' => do (st', x) <- m_cs_next (order n) g st; do xs <- m_cs_take order g n' st'; Ret (x :: xs)
    end.

  (** pgraphs.rs 684-697: the body of the traversal *)
  Definition m_tr_edge (st : tstate) (e : edge) : outcome tstate :=
    let '(shifts, seen, queue, result) := st in
    do (shifts, queue) <-
      match aget Nat.eqb (tail e) shifts with
      | None => do sv <- unwrap (aget Nat.eqb (head e) shifts);
                do s <- m_sadd sv (shift e);
                Ret (aset Nat.eqb (tail e) s shifts, queue ++ [tail e])
      | Some _ => Ret (shifts, queue)
      end;
    do e <- m_canonical e;
    if memb edge_eqb e seen then Ret (shifts, seen, queue, result)
    else
      do sh <- unwrap (aget Nat.eqb (head e) shifts);
      do a <- m_sadd sh (shift e);
      do st <- unwrap (aget Nat.eqb (tail e) shifts);
      do b <- m_ssub a st;
      Ret (shifts, sinsert edge_eqb e seen, queue, result ++ [Edge (head e) (tail e) b]).
  Definition m_tr_body (g : graph) (st : tstate) : outcome (tstate + list edge) :=
    let '(shifts, seen, queue, result) := st in
    match queue with
    | [] => Ret (inr result)
    | v :: queue =>
        do inc <- m_incidences g v;
        omap inl (foldM m_tr_edge (shifts, seen, queue, result) inc)
    end.
  (** pgraphs.rs 672-700: traverse_with_shift_adjustments *)
  Definition m_traverse (g : graph) (v0 : nat) : outcome (list edge) :=
    loop (m_tr_body g) (length (gedges g) + 2) ([(v0, szero (gdim g))], [], [v0], []).

  (** pgraphs.rs 473-488: shift_normalized *)
  Definition m_shift_normalized (g : graph) : outcome graph :=
    do (_, es) <- foldM (fun st v =>
        let '(seen, es) := st in
        if memb Nat.eqb v seen then Ret (seen, es)
        else do t <- m_traverse g v;
             Ret (fold_left (fun s e => sinsert Nat.eqb (tail e) (sinsert Nat.eqb (head e) s)) t seen, es ++ t))
      ([], []) (vertices g);
    m_gnew (gdim g) es.

  (** pgraphs.rs 703-736: graph_component_measures *)
  Definition m_component_measures (g : graph) (v0 : nat) : outcome (nat * nat * option Z) :=
    do es <- m_traverse g v0;
    let vs := usort Nat.compare (flat_map (fun e => [head e; tail e]) es) in
    do basis <- foldM (fun bs e => m_extend_basis (shift e) bs) [] es;
    let rank := length basis in
    do mult <-
      (if (rank =? gdim g)%nat then
         do d <- m_diag_product (length basis) basis;
         do a <- chk (Z.abs d);
         Ret (Some a)
       else Ret None);
    Ret (length vs, rank, mult).

  (** pgraphs.rs 490-497: is_connected *)
  Definition m_is_connected (g : graph) : outcome bool :=
    match vertices g with
    | [] => Ret true
    | v0 :: _ =>
        do (size, _, mult) <- m_component_measures g v0;
        Ret ((size =? length (vertices g))%nat && match mult with Some m => m =? 1 | None => false end)
    end.
End Machine.
