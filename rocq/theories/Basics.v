(** Model of src/spacegroups/basics.rs over BigRational ([Qc]).

    HashSet<AffineMap> is a list with a membership test: Hash and Eq are derived
    on the same fields (geometry.rs 547-551, matrices.rs 10-15), so membership is
    equality of all fields. *)
From Coq Require Import List ZArith Lia Bool PeanoNat QArith Qcanon Qround.
From Verif Require Import Base Vec Elim Scalars Matrix LinAlg Geometry ZQ Lattices.
Import ListNotations.
Close Scope Q_scope. Close Scope Qc_scope.
Open Scope nat_scope.

Notation aff := (@affine Qc).

(** num_rational: [x % BigRational::one()] is x minus x rounded towards zero *)
Definition q_rem1 (x : Qc) : Qc := if q_neg x then (x + ZQ (Qfloor (- x)%Qc))%Qc else (x - ZQ (Qfloor x))%Qc.

(** geometry.rs 118-124: ModZ for Vector *)
Definition vec_mod_z (v : mat Qc) : outcome (mat Qc) := vec_new (map q_rem1 (data v)).
(** geometry.rs 639-645: ModZ for AffineMap *)
Definition aff_mod_z (a : aff) : outcome aff := do s <- vec_mod_z (shift a); aff_new (lin a) s.

(** derived equality of AffineMap *)
Definition aff_eqb (a b : aff) : bool := mat_eqb (lin a) (lin b) && mat_eqb (shift a) (shift b).
(** geometry.rs 554-556: dim *)
Definition aff_dim (a : aff) : nat := vdim (shift a).

(** basics.rs 34-40: the for loop over the generators *)
Definition gen_step (a : aff) (st : list aff * list aff) (b : aff) : outcome (list aff * list aff) :=
  let '(seen, result) := st in
  do p <- aff_mul a b;
  do ab <- aff_mod_z p;
  if existsb (aff_eqb ab) seen then Ret (seen, result) else Ret (ab :: seen, result ++ [ab]).
(** basics.rs 30-41: the while loop; the state is (i, seen, result) *)
Definition gen_body (gens : list aff) (st : nat * (list aff * list aff)) : outcome ((nat * (list aff * list aff)) + list aff) :=
  let '(i, (seen, result)) := st in
  if i <? length result then
    do a <- unwrap (nth_error result i);
    do st' <- foldM (gen_step a) (seen, result) gens;
    Ret (inl (i + 1, st'))
  else Ret (inr result).
(** basics.rs 14-44: generate *)
Definition generate (fuel : nat) (gens : list aff) : outcome (list aff) :=
  do g0 <- unwrap (nth_error gens 0);
  do id <- aff_identity (aff_dim g0);
  loop (gen_body gens) fuel (0, ([id], [id])).

(** basics.rs 47-51: PrimitiveSetting *)
Record primitive := Primitive { p_cell : list (mat Qc); p_to : @cmap Qc; p_ops : list aff }.
(** basics.rs 66-71: the translations *)
Definition translations (id : mat Qc) (s0 : mat Qc) (ops : list aff) : list (list Qc) :=
  flat_map (fun op => if mat_eqb (lin op) id && negb (mat_eqb (shift op) s0) then [data (shift op)] else []) ops.
(** basics.rs 76-85: the distinct transformed operators *)
Definition prim_step (to : @cmap Qc) (st : list aff * list aff) (op : aff) : outcome (list aff * list aff) :=
  let '(seen, ops) := st in
  do p <- cmap_affine to op;
  do t <- aff_mod_z p;
  if existsb (aff_eqb t) seen then Ret (seen, ops) else Ret (t :: seen, ops ++ [t]).
(** basics.rs 59-88: PrimitiveSetting::new *)
Definition primitive_new (ops_all : list aff) : outcome primitive :=
  do op0 <- unwrap (nth_error ops_all 0);
  let dim := aff_dim op0 in
  do id <- identity dim;
  do s0 <- vec_zero dim;
  do rows <- rational_lattice_basis (translations id s0 ops_all);
  do cell <- mapM vec_new rows;
  do to <- cmap_to_basis cell;
  do st <- foldM (prim_step to) ([], []) ops_all;
  Ret (Primitive cell to (snd st)).

(** basics.rs 99-108: numbering of the entries (i, j) with i <= j; [k] is a table of all entries *)
Definition upper (dim : nat) : list (nat * nat) := flat_map (fun i => map (fun j => (i, j)) (seq i (dim - i))) (seq 0 dim).
Definition k_table (dim : nat) : (nat -> nat -> nat) * nat :=
  fold_left (fun km ij =>
    let '(k, m) := km in let '(i, j) := ij in
    (fun a b => if (a =? i) && (b =? j) || (a =? j) && (b =? i) then m else k a b, m + 1)) (upper dim) (fun _ _ => 0, 0).
Fixpoint add_at (k : nat) (x : Qc) (l : list Qc) : list Qc :=
  match l, k with
  | [], _ => []
  | y :: l', 0 => (y + x)%Qc :: l'
  | y :: l', S k' => y :: add_at k' x l'
  end.
(** basics.rs 120-126: one equation *)
Definition gram_eqn (dim : nat) (k : nat -> nat -> nat) (m : nat) (s : mat Qc) (iab : nat * nat) : outcome (list Qc) :=
  let '(ia, ib) := iab in
  do eqn <- foldM (fun eqn jab => do x <- index s ia (fst jab); do y <- index s ib (snd jab); Ret (add_at (k (fst jab) (snd jab)) (x * y)%Qc eqn))
    (repeat 0%Qc m) (list_prod (seq 0 dim) (seq 0 dim));
  Ret (add_at (k ia ib) (- (1))%Qc eqn).
(** basics.rs 92-138: gram_matrix_configuration_space *)
Definition gram_space (ops : list aff) : outcome (option (mat Qc)) :=
  do op0 <- unwrap (nth_error ops 0);
  let dim := aff_dim op0 in
  let '(k, m) := k_table dim in
  do eqns <- foldM (fun eqns op => foldM (fun eqns iab => do e <- gram_eqn dim k m (lin op) iab; extend_basis e eqns) eqns (upper dim)) [] ops;
  match eqns with
  | [] => omap Some (identity m)
  | _ => do rows <- mapM mat_row eqns; do e <- vstack rows; null_space e
  end.

(** basics.rs 141-157: shift_space *)
Definition shift_space (ops : list aff) : outcome (option (mat Qc)) :=
  do op0 <- unwrap (nth_error ops 0);
  do id <- identity (aff_dim op0);
  do eqns <- foldM (fun eqns op => do l <- mat_sub (lin op) id; do rows <- get_rows l; foldM (fun eqns row => extend_basis row eqns) eqns rows) [] ops;
  do rows <- mapM mat_row eqns; do e <- vstack rows; null_space e.
