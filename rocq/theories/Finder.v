(** Model of src/spacegroups/finder.rs: what it finds out about a single matrix, the crystal system and a basis of a plane group.

    The code is generic over the trait Coord; modelled for BigRational, whose epsilon is 0. *)
From Coq Require Import String Ascii List ZArith NArith Lia Bool PeanoNat QArith Qcanon.
From Verif Require Import Base Vec Elim Scalars Matrix MatrixMore LinAlg ZQ Lattices Geometry Text ParseOp Table.
Import ListNotations.
Close Scope Q_scope. Close Scope Qc_scope.
Local Open Scope list_scope.
Open Scope nat_scope.

(** finder.rs 9-16: OperatorDetails *)
Record details := Details {
  od_matrix : mat Qc; od_dimension : nat; od_axis : option (list Qc); od_order : nat;
  od_preserving : bool; od_clockwise : bool }.

(** finder.rs 67-76: positive_direction *)
Definition positive_direction (v : list Qc) : list Qc :=
  match find (fun x => negb (Qc_eqb x 0%Qc)) v with
  | Some x => if q_neg x then map Qcopp v else v
  | None => v
  end.

(** finder.rs 79-90: dot.  [fdot] is the loop, used where both vectors are known to have the same length *)
Definition fdot (v w : list Qc) : Qc := fold_left (fun s p => (s + fst p * snd p)%Qc) (combine v w) 0%Qc.
Definition dot (v w : list Qc) : outcome Qc := do _ <- assert (length v =? length w); Ret (fdot v w).

(** finder.rs 93-97: are_orthogonal *)
Definition are_orthogonal (v w : list Qc) : outcome bool := do x <- dot v w; Ret (Qc_eqb x 0%Qc).
(** finder.rs 100-104: are_collinear *)
Definition are_collinear (v w : list Qc) : outcome bool :=
  do a <- dot v w; do b <- dot v w; do c <- dot v v; do d <- dot w w; Ret (Qc_eqb (a * b)%Qc (c * d)%Qc).

(** finder.rs 116-121: the loop of matrix_order; [i] is the next exponent *)
Fixpoint order_loop (m id a : mat Qc) (i : nat) (todo : nat) : outcome nat :=
  match todo with
  | 0 => Ret 0
  | S todo => do a' <- mat_mul a m; if mat_eqb a' id then Ret i else order_loop m id a' (S i) todo
  end.
(** finder.rs 107-124: matrix_order *)
Definition matrix_order (m : mat Qc) (max : nat) : outcome nat :=
  do _ <- assert (nrows m =? ncols m);
  do id <- identity (nrows m);
  order_loop m id id 1 max.

(** finder.rs 127-133: is_left_handed *)
Definition is_left_handed (m : mat Qc) : outcome bool := do d <- determinant m; Ret (q_neg d).

(** finder.rs 136-157: operator_axis *)
Definition operator_axis (m : mat Qc) : outcome (option (list Qc)) :=
  do _ <- assert (nrows m =? ncols m);
  let dim := nrows m in
  do lh <- (if dim mod 2 =? 0 then Ret false else is_left_handed m);
  do id <- identity dim;
  do r <- (if lh : bool then mat_add m id else mat_sub m id);
  do o <- null_space r;
  match o with
  | Some z => if ncols z =? 1 then do c <- get_col z 0; Ret (Some (positive_direction c)) else Ret None
  | None => Ret None
  end.

(** finder.rs 42-50: the orientation of (axis, v, m v) *)
Definition turns_clockwise (m : mat Qc) (axis : list Qc) : outcome bool :=
  let u0 := [1; 0; 0]%Qc in
  let u1 := [0; 1; 0]%Qc in
  do c <- are_collinear axis u0;
  do v <- mat_col (if c : bool then u1 else u0);
  do w <- mat_mul m v;
  do x <- mat_col axis;
  do a <- hstack [x; v; w];
  do l <- is_left_handed a;
  Ret (negb l).

(** finder.rs 23-63: OperatorDetails::from *)
Definition details_from (m : mat Qc) : outcome details :=
  do _ <- assert (nrows m =? ncols m);
  do _ <- assert ((1 <=? nrows m) && (nrows m <=? 3));
  let dimension := nrows m in
  do l <- is_left_handed m;
  let preserving := negb l in
  do order <- matrix_order m 6;
  do axis <- operator_axis m;
  do clockwise <-
    (if dimension =? 2 then
       if negb preserving then Ret false
       else if (order =? 0) || (2 <? order) then do x <- index m 0 1; Ret (negb (q_neg x))
       else Ret true
     else
       match axis with
       | Some a => if (order =? 0) || (2 <? order) then turns_clockwise m a else Ret true
       | None => Ret true
       end);
  Ret (Details m dimension axis order preserving clockwise).

(** finder.rs 185-240: crystal_system_and_basis_2d *)
Definition list_max_opt (l : list nat) : option nat :=
  match l with [] => None | x :: r => Some (fold_left Nat.max r x) end.

(** finder.rs 197-208: n, m and the crystal system *)
Definition system_of (n : nat) (mirrors : list details) : crystal_system :=
  match n with
  | 3 | 6 => Hexagonal
  | 4 => Square
  | _ => match mirrors with [] => Oblique | _ :: _ => Rectangular end
  end.

(** finder.rs 210-214: x *)
Definition first_axis (mirrors : list details) : outcome (mat Qc) :=
  match mirrors with
  | [] => mat_col [1; 0]%Qc
  | o :: _ => do a <- unwrap (od_axis o); mat_col a
  end.

(** finder.rs 216-234: y *)
Definition second_axis (ops mirrors : list details) (m : nat) (x : mat Qc) : outcome (mat Qc) :=
  if 3 <=? m then
    do s <- unwrap (find (fun s => od_preserving s && od_clockwise s && (od_order s =? m)) ops);
    mat_mul (od_matrix s) x
  else
    match mirrors with
    | _ :: o :: _ => do a <- unwrap (od_axis o); mat_col a
    | _ =>
        do x0 <- index x 0 0;
        do t <- (if Qc_eqb x0 0%Qc then mat_col [1; 0]%Qc else mat_col [0; 1]%Qc);
        match mirrors with
        | o :: _ => do u <- mat_mul (od_matrix o) t; mat_sub t u
        | [] => Ret t
        end
    end.

Definition crystal_system_and_basis_2d (ops : list (mat Qc)) : outcome (crystal_system * list (mat Qc)) :=
  do ds <- mapM details_from ops;
  let mirrors := filter (fun o => negb (od_preserving o)) ds in
  do n <- unwrap (list_max_opt (map od_order ds));
  let m := if n =? 6 then 3 else n in
  do x <- first_axis mirrors;
  do y <- second_axis ds mirrors m x;
  do b <- hstack [x; y];
  do l <- is_left_handed b;
  if l : bool then do y' <- mat_neg y; Ret (system_of n mirrors, [x; y'])
  else Ret (system_of n mirrors, [x; y]).

(** finder.rs 351-362: from_columns, as_columns *)
Definition from_columns (cols : list (mat Qc)) : list (list Qc) := map data cols.
Definition as_columns (vs : list (list Qc)) : outcome (list (mat Qc)) := mapM mat_col vs.

(** finder.rs 243-262: primitive_cell *)
Definition cell_step (id : mat Qc) (cell : list (list Qc)) (op : @affine Qc) : outcome (list (list Qc)) :=
  if existsb (fun x => negb (Qc_eqb x 0%Qc)) (data (shift op)) && mat_eqb (lin op) id
  then extend_basis (data (shift op)) cell
  else Ret cell.
Definition primitive_cell (ops : list (@affine Qc)) : outcome (list (mat Qc)) :=
  do op0 <- unwrap (nth_error ops 0);
  do id <- identity (vdim (shift op0));
  do cell <- get_rows id;
  do cell <- foldM (cell_step id) cell ops;
  as_columns cell.

(** finder.rs 327-348: apply_operator *)
Definition apply_row (b : list Qc) (n : nat) (rs : list Qc * Qc) : outcome Qc :=
  do _ <- assert (length (fst rs) =? n);
  do x <- foldM (fun x i => do c <- unwrap (nth_error (fst rs) i); do y <- unwrap (nth_error b i); Ret (x + c * y)%Qc) 0%Qc (seq 0 n);
  Ret (x + snd rs)%Qc.
Definition apply_operator (op : text) (b : list Qc) : outcome (list Qc) :=
  do o <- parse_operator op;
  do r <- unwrap o;
  let '(_, (m, s)) := r in
  do _ <- assert (length s =? length m);
  mapM (apply_row b (length m)) (combine m s).

(** finder.rs 265-324: normalized_basis_2d; the fuel is that of the lattice reduction *)
Definition two_columns (op1 op2 : string) (v1 v2 : list Qc) : outcome (list (mat Qc)) :=
  do u <- apply_operator (str op1) v1; do w <- apply_operator (str op2) v2; as_columns [u; w].
Definition nz (v : list Qc) (i : nat) : outcome bool := do x <- unwrap (nth_error v i); Ret (negb (Qc_eqb x 0%Qc)).
Definition both_nz (v : list Qc) : outcome bool := do p <- nz v 0; if p : bool then nz v 1 else Ret false.

Definition normalized_basis_2d (fuel : nat) (crys : crystal_system) (basis_in : list (mat Qc)) : outcome (list (mat Qc) * centering) :=
  do o <- reduced_lattice_basis fdot 0%Qc fuel (from_columns basis_in);
  do b <- unwrap o;
  match crys with
  | Oblique => do c <- as_columns b; Ret (c, Primitive2d)
  | Rectangular =>
      do b0 <- unwrap (nth_error b 0);
      do p <- both_nz b0;
      if p : bool then do c <- two_columns "0, 2y" "2x, 0" b0 b0; Ret (c, Centered2d) else
      do b1 <- unwrap (nth_error b 1);
      do p <- both_nz b1;
      if p : bool then do c <- two_columns "0, 2y" "2x, 0" b1 b1; Ret (c, Centered2d) else
      do p <- nz b0 1;
      if negb p then do c <- two_columns "x, y" "-x, -y" b1 b0; Ret (c, Primitive2d) else
      do c <- as_columns b; Ret (c, Primitive2d)
  | Square => do b0 <- unwrap (nth_error b 0); do c <- two_columns "x, y" "-y, x" b0 b0; Ret (c, Primitive2d)
  | Hexagonal => do b0 <- unwrap (nth_error b 0); do c <- two_columns "x, y" "-y, x-y" b0 b0; Ret (c, Primitive2d)
  | _ => Panic
  end.

(** finder.rs 160-182: identitify_spacegroup_2d.  Its last expression is todo!(), which panics, so that the type of the
    result does not matter *)
Definition identify_spacegroup_2d (fuel : nat) (ops : list (@affine Qc)) : outcome unit :=
  do r <- crystal_system_and_basis_2d (map (@lin Qc) ops);
  do basis <- hstack (snd r);
  do t <- transpose basis; do i <- inverse t; do m <- unwrap i;
  do cell <- primitive_cell ops;
  do pcell <- mapM (mat_mul m) cell;
  do nb <- normalized_basis_2d fuel (fst r) pcell;
  do normalized <- hstack (fst nb);
  do p <- mat_mul normalized basis; do t <- transpose p; do i <- inverse t; do m <- unwrap i;
  do _ <- cmap_from m;
  Panic.
