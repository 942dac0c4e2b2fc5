(** Model of the Display implementations and of the program's report (src/main.rs). *)
From Coq Require Import String Ascii List ZArith NArith Lia Bool PeanoNat QArith Qcanon.
From Verif Require Import Base Vec Elim Scalars Matrix LinAlg ZQ Lattices Geometry Basics ModSolver OrdSet PGraph Text ParseOp Table.
Import ListNotations.
Close Scope Q_scope. Close Scope Qc_scope.
Local Open Scope list_scope.
Open Scope nat_scope.

Notation nl := 10%N (only parsing).
(** the standard library's Display of u32, i32, i64, and that of BigInt *)
Definition show_Z (z : Z) : text := if (z <? 0)%Z then chr "-" :: digits (- z)%Z else digits z.
Definition show_nat (n : nat) : text := show_Z (Z.of_nat n).
Definition show_bool (b : bool) : text := if b then str "true" else str "false".
(** num-rational: Display of Ratio: the numerator, and the denominator unless it is 1 *)
Definition show_Q (q : Qc) : text := show_Z (Qnum q) ++ (if (Z.pos (Qden q) =? 1)%Z then [] else chr "/" :: show_Z (Z.pos (Qden q))).
(** slice::join(", ") *)
Fixpoint commas (ts : list text) : text := match ts with [] => [] | [t] => t | t :: r => t ++ str ", " ++ commas r end.

(** pgraphs.rs 106-110 and 203-207: Display of LabelVector2d and LabelVector3d *)
Definition display_label (s : shiftv) : text := str "(" ++ commas (map show_Z s) ++ str ")".
(** pgraphs.rs 267-275: Display of Edge *)
Definition display_edge (e : edge) : text :=
  show_nat (head e) ++ str " --" ++ display_label (PGraph.shift e) ++ str "-> " ++ show_nat (tail e).
(** pgraphs.rs 524-537: Display of Graph *)
Definition display_graph (g : graph) : text := concat (map (fun e => display_edge e ++ [nl]) (gedges g)).

Section Matrices.
  Context {R : Type}.
  (** Display of the entries *)
  Variable show : R -> text.
  (** matrices.rs 51-64: Display of Matrix; geometry.rs 40-44, 304-308, 488-492: Vector, Point and ScalarProduct print their matrix *)
  Definition display_mat (m : mat R) : outcome text :=
    do rows <- mapM (fun i =>
      do xs <- mapM (fun j => do x <- index m i j; Ret (str " " ++ show x)) (seq 0 (ncols m));
      Ret (concat xs ++ [nl])) (seq 0 (nrows m));
    Ret (concat rows).
  (** geometry.rs 559-574: Display of AffineMap; [dim] is the dimension of the shift *)
  Definition display_aff (a : @affine R) : outcome text :=
    let n := vdim (Geometry.shift a) in
    do rows <- mapM (fun i =>
      do xs <- mapM (fun j => do x <- index (lin a) i j; Ret (str " " ++ show x)) (seq 0 n);
      do t <- index (Geometry.shift a) i 0;
      Ret (concat xs ++ str "    " ++ show t ++ [nl])) (seq 0 n);
    Ret (concat rows).
  (** geometry.rs 725-729: Display of CoordinateMap *)
  Definition display_cmap (c : @cmap R) : outcome text := display_aff (Geometry.fwd c).
End Matrices.

(** parse_table.rs 51-70: write_op, with the case of more than 3 dimensions *)
Definition write_op_any (op : @affine Qc) : outcome text :=
  do t <- write_op op;
  match t with Some t => Ret t | None => do t <- display_aff show_Q op; Ret (t ++ [nl]) end.
(** parse_table.rs 34-48: Display of TableEntry *)
Definition display_entry (e : table_entry) : outcome text :=
  do tr <- write_op_any (Geometry.fwd (te_transform e));
  do ops <- mapM (fun op => do t <- write_op_any op; Ret (t ++ [nl])) (te_operators e);
  Ret (str "Setting Name: " ++ te_name e ++ [nl] ++ str "Group name: " ++ te_canonical e ++ [nl] ++
       str "Transform: " ++ tr ++ [nl] ++ str "Operators:" ++ [nl] ++ concat ops).
(** parse_table.rs 113-123: Display of Lookup *)
Definition display_lookup (l : lookup_entry) : outcome text :=
  do tr <- write_op_any (Geometry.fwd (lk_from_std l));
  Ret (str "Lookup name: " ++ lk_name l ++ [nl] ++ str "Crystal system: " ++ write_system (lk_system l) ++ [nl] ++
       str "Centering: " ++ write_centering (lk_centering l) ++ [nl] ++ str "Transform: " ++ tr ++ [nl]).

(** main.rs 180-186: point_to_string and vector_to_string *)
Definition point_to_string (p : point) : text := commas (map show_Q p).
Section Report.
  Variable chk : Z -> outcome Z.
  (** the order in which the HashSets of the coordination sequence of a vertex are iterated *)
  Variable order : nat -> nat -> list node -> list node.
  (** main.rs 139-145: the lines of the coordination sequences *)
  Definition report_sequence (g : graph) (v : nat) : outcome text :=
    do items <- cs_take (order v) g 20 (cs_new g v);
    Ret (show_nat v ++ str ": " ++ concat (map (fun n => str " " ++ show_nat n) items) ++ [nl]).
  (** main.rs 152-154: the lines of the positions *)
  Definition report_position (g : graph) (v : nat) : outcome text :=
    do p <- position chk g v;
    Ret (str "pos(" ++ show_nat v ++ str ") = (" ++ point_to_string p ++ str ")" ++ [nl]).
  (** main.rs 164-171: the lines of the edges at a vertex *)
  Definition report_neighbour (g : graph) (v : nat) (ngb : edge) : outcome text :=
    do delta <- edge_vector chk g ngb;
    do oe <- edge_by_unique_delta chk g v delta;
    Ret (show_nat v ++ str " => (" ++ point_to_string delta ++ str ") => " ++
         (match oe with Some e => display_edge e | None => str "None" end) ++ [nl]).
  Definition report_neighbours (g : graph) (v : nat) : outcome text :=
    do es <- incidences g v; omap (@concat N) (mapM (report_neighbour g v) es).
  (** main.rs 151-173 *)
  Definition report_connected (g : graph) : outcome text :=
    do pos <- mapM (report_position g) (vertices g);
    do s <- is_stable chk g;
    do l <- is_locally_stable chk g;
    do c <- has_second_order_collisions chk g;
    do ngbs <- mapM (report_neighbours g) (vertices g);
    Ret (concat pos ++ [nl] ++ str "Stable: " ++ show_bool s ++ [nl] ++ str "Locally stable: " ++ show_bool l ++ [nl] ++
         str "Second order collisions: " ++ show_bool c ++ [nl] ++ [nl] ++ concat ngbs).
  (** main.rs 127-178 (and examples/graph_properties.rs): test_graph.  The text is printed piece by piece; a panic means that the
      program ends with a part of it. *)
  Definition report (g : graph) : outcome text :=
    do g' <- shift_normalized g;
    do seqs <- mapM (report_sequence g) (vertices g);
    do b <- is_connected g;
    do more <- (if b then report_connected g else Ret []);
    Ret (str "Graph:" ++ [nl] ++ display_graph g ++ [nl] ++ str "With normalized shifts:" ++ [nl] ++ display_graph g' ++ [nl] ++
         str "Coordination sequences:" ++ [nl] ++ concat seqs ++ [nl] ++ str "Connected: " ++ show_bool b ++ [nl] ++ [nl] ++ more ++ [nl] ++
         str "==========" ++ [nl] ++ [nl]).
  (** main.rs 97-124: graph2d and graph3d *)
  Definition graph2d (spec : list (nat * nat * Z * Z)) : graph := gnew 2 (map (fun '(u, v, x, y) => Edge u v [x; y]) spec).
  Definition graph3d (spec : list (nat * nat * Z * Z * Z)) : graph := gnew 3 (map (fun '(u, v, x, y, z) => Edge u v [x; y; z]) spec).
  (** main.rs 12-90: test_graph_examples *)
  Definition example_graphs : list graph :=
    [
      graph2d [(1, 2, 0%Z, 0%Z); (1, 2, 1%Z, 0%Z); (1, 2, 0%Z, 1%Z)];
      graph3d [(1, 2, 0%Z, 0%Z, 0%Z); (1, 2, 0%Z, 1%Z, 0%Z); (1, 2, 0%Z, 0%Z, 1%Z)];
      graph3d [(1, 2, 0%Z, 0%Z, 0%Z); (1, 2, 1%Z, 0%Z, 0%Z); (1, 2, 0%Z, 1%Z, 0%Z); (1, 2, 0%Z, 0%Z, 1%Z)];
      graph2d [(1, 1, 1%Z, 0%Z); (1, 1, 0%Z, 1%Z); (1, 2, 0%Z, 0%Z); (1, 2, 1%Z, 1%Z); (1, 3, 0%Z, 0%Z); (1, 3, 1%Z, (-1)%Z)];
      graph2d [(1, 1, 1%Z, 0%Z); (1, 1, 0%Z, 1%Z); (1, 2, 0%Z, 0%Z); (1, 2, 1%Z, 1%Z); (1, 3, 0%Z, 0%Z); (1, 3, 1%Z, (-1)%Z); (1, 4, 0%Z, 0%Z); (1, 4, 1%Z, (-1)%Z)];
      graph3d [(1, 1, (-1)%Z, 1%Z, 1%Z); (1, 1, 0%Z, (-1)%Z, 1%Z); (1, 1, 0%Z, 0%Z, (-1)%Z)];
      graph3d [(1, 2, 0%Z, 0%Z, 0%Z); (1, 2, 2%Z, 0%Z, 0%Z); (1, 2, 0%Z, 2%Z, 0%Z); (1, 2, 0%Z, 0%Z, 2%Z)];
      graph3d [(1, 3, 0%Z, 0%Z, 0%Z); (1, 3, 2%Z, 0%Z, 0%Z); (1, 3, 0%Z, 2%Z, 0%Z); (1, 3, 0%Z, 0%Z, 2%Z); (2, 4, 0%Z, 0%Z, 0%Z); (2, 4, 2%Z, 0%Z, 0%Z); (2, 4, 0%Z, 2%Z, 0%Z); (2, 4, 0%Z, 0%Z, 2%Z)];
      graph3d [(1, 2, 0%Z, 0%Z, 0%Z); (2, 3, 0%Z, 0%Z, 0%Z); (3, 4, 0%Z, 0%Z, 0%Z); (4, 5, 0%Z, 0%Z, 0%Z); (5, 6, 0%Z, 0%Z, 0%Z); (6, 1, 0%Z, 0%Z, 0%Z); (1, 2, 1%Z, 0%Z, 0%Z); (2, 3, 0%Z, 1%Z, 0%Z); (3, 4, 0%Z, 0%Z, 1%Z); (4, 5, (-1)%Z, 0%Z, 0%Z); (5, 6, 0%Z, (-1)%Z, 0%Z); (6, 1, 0%Z, 0%Z, (-1)%Z)] ].
  (** main.rs 7-9: main *)
  Definition main_output : outcome text := omap (@concat N) (mapM report example_graphs).
End Report.
