(** Model of src/spacegroups/parse_operator.rs and of the printing of operators in
    src/spacegroups/parse_table.rs.

    Ratio<i32> is [Qc] (both keep reduced fractions with positive denominators); the range
    checks of checked_add are explicit. *)
From Coq Require Import String Ascii List ZArith NArith Lia Bool PeanoNat QArith Qcanon.
From Verif Require Import Base Vec Elim Scalars Matrix LinAlg ZQ Lattices Geometry Basics Text.
Import ListNotations.
Close Scope Q_scope. Close Scope Qc_scope.
Local Open Scope list_scope.
Open Scope nat_scope.

(** parse_operator.rs 13-19: Axis; the numbers 0, 1, 2 stand for X, Y, Z *)
Notation axis_t := (option nat) (only parsing).
Notation term_t := (Qc * option nat)%type.
Notation coordinate_t := (list Qc * Qc)%type.

(** parse_operator.rs 160-166 (and parse_cgd_line.rs 118-124): map_integer *)
Definition map_integer (ds : text) : option Z :=
  if length ds <=? 9 then Some (fold_left (fun n c => n * 10 + (Z.of_N c - 48))%Z ds 0%Z) else None.
(** parse_operator.rs 101-103: integer; n as i32 is n, since n < 10^9 *)
Definition integer_p : parser Z := map_opt digit1 map_integer.
(** num-rational: Ratio::new panics if the denominator is zero *)
Definition ratio_new (n d : Z) : outcome Qc := if Z.eqb d 0 then Panic else Ret (ZQ n / ZQ d)%Qc.
(** parse_operator.rs 78-88: unsigned_fraction *)
Definition unsigned_fraction : parser Qc :=
  alt
    (map_out (separated_pair integer_p (pair_ space0 (pair_ (char_ (chr "/")) space0)) integer_p)
       (fun nd => omap Some (ratio_new (fst nd) (snd nd))))
    (map_opt integer_p (fun n => Some (ZQ n))).
(** parse_operator.rs 141-147: map_sign *)
Definition map_sign (c : char) : option Z :=
  if N.eqb c (chr "+") then Some 1%Z else if N.eqb c (chr "-") then Some (-1)%Z else None.
(** parse_operator.rs 150-157: map_axis; the result is the axis *)
Definition map_axis (c : char) : option axis_t :=
  if N.eqb c (chr "x") then Some (Some 0) else if N.eqb c (chr "y") then Some (Some 1) else if N.eqb c (chr "z") then Some (Some 2) else None.
(** parse_operator.rs 91-98: sign, axis *)
Definition sign_p : parser Z := map_opt (one_of [chr "+"; chr "-"]) map_sign.
Definition axis_p : parser axis_t := map_opt (one_of [chr "x"; chr "y"; chr "z"]) map_axis.
(** parse_operator.rs 62-75: unsigned_term *)
Definition unsigned_term : parser term_t :=
  alt (map_opt (separated_pair unsigned_fraction (char_ (chr "*")) axis_p) (fun qa => Some qa))
  (alt (map_opt (separated_pair unsigned_fraction space0 axis_p) (fun qa => Some qa))
  (alt (map_opt unsigned_fraction (fun q => Some (q, None)))
       (map_opt axis_p (fun a => Some (1%Qc, a))))).
(** parse_operator.rs 54-59: signed_term; the product with 1 or -1 does not overflow *)
Definition signed_term : parser term_t :=
  map_opt (separated_pair sign_p space0 unsigned_term) (fun sqa => Some ((ZQ (fst sqa) * fst (snd sqa))%Qc, snd (snd sqa))).
(** parse_operator.rs 49-51: term *)
Definition term_p : parser term_t := alt signed_term unsigned_term.

(** num-rational: checked_add of Ratio<i32> *)
Definition i32 (z : Z) : option Z := if (Z.leb (- 2 ^ 31) z && Z.ltb z (2 ^ 31))%bool then Some z else None.
Definition obind {A B} (o : option A) (f : A -> option B) : option B := match o with Some a => f a | None => None end.
Definition checked_add (p q : Qc) : option Qc :=
  let dp := Z.pos (Qden p) in let dq := Z.pos (Qden q) in
  obind (i32 (dp / Z.gcd dp dq * dq)%Z) (fun lcm =>
  obind (i32 (lcm / dp * Qnum p)%Z) (fun a =>
  obind (i32 (lcm / dq * Qnum q)%Z) (fun b =>
  obind (i32 (a + b)%Z) (fun s => Some (ZQ s / ZQ lcm)%Qc)))).
(** parse_operator.rs 124-138: collect_terms; the first component has length 3 *)
Definition collect_step (rs : coordinate_t) (t : term_t) : option coordinate_t :=
  let '(row, shift) := rs in let '(q, a) := t in
  match a with
  | Some k => obind (checked_add q (nth k row 0%Qc)) (fun x => Some (firstn k row ++ x :: skipn (S k) row, shift))
  | None => obind (checked_add q shift) (fun x => Some (row, x))
  end.
Definition collect_terms (ts : list term_t) : option coordinate_t :=
  fold_left (fun o t => obind o (fun rs => collect_step rs t)) ts (Some ([0%Qc; 0%Qc; 0%Qc], 0%Qc)).
(** parse_operator.rs 41-46: coordinate *)
Definition coordinate_p : parser coordinate_t :=
  map_opt (pair_ term_p (many0 (preceded space0 signed_term))) (fun ft => collect_terms (fst ft :: snd ft)).
(** parse_operator.rs 36-38: operator *)
Definition operator_p : parser (list coordinate_t) :=
  separated_list1 (pair_ space0 (pair_ (char_ (chr ",")) space0)) coordinate_p.
(** parse_operator.rs 106-121: convert_operator *)
Definition convert_operator (op : list coordinate_t) : list (list Qc) * list Qc :=
  let shift := map snd op in (map (fun r => firstn (length shift) (fst r)) op, shift).
(** parse_operator.rs 27-33: parse_operator; None is Err *)
Definition parse_operator (i : text) : outcome (option (text * (list (list Qc) * list Qc))) :=
  match delimited space0 operator_p space0 i with
  | POk rest op => Ret (Some (rest, convert_operator op))
  | PError | PFailure => Ret None
  | PPanic => Panic
  end.

(** parse_table.rs 185-200: AffineMap::from_string; promote is the embedding of Ratio<i32> into BigRational *)
Definition aff_from_string (i : text) : outcome (option aff) :=
  do r <- parse_operator i;
  match r with
  | None => Ret None
  | Some (_, (linear, shift)) =>
    if negb (length linear =? length shift) then Ret None else
    do rows <- mapM mat_row linear;
    do a <- vstack rows;
    do t <- vec_new shift;
    omap Some (aff_new a t)
  end.
(** parse_table.rs 208-212: CoordinateMap::from_string *)
Definition cmap_from_string (i : text) : outcome (option (@cmap Qc)) :=
  do o <- aff_from_string i;
  match o with None => Ret None | Some a => omap Some (cmap_new a) end.

(** decimal digits of a natural number (Display of BigInt) *)
Fixpoint digits_ (fuel : nat) (n : Z) : text :=
  match fuel with
  | 0 => []
  | S f => (if (n <? 10)%Z then [] else digits_ f (n / 10)%Z) ++ [Z.to_N (48 + n mod 10)]
  end.
Definition digits (n : Z) : text := digits_ (S (Z.to_nat (Z.log2 n))) n.
(** Display of a non-negative BigRational *)
Definition print_abs (q : Qc) : text :=
  digits (Z.abs (Qnum q)) ++ (if (Z.pos (Qden q) =? 1)%Z then [] else chr "/" :: digits (Z.pos (Qden q))).

(** parse_table.rs 73-102: write_op_row; for rows of length at most 3 *)
Definition print_part (k : nat) (part : Qc * text) : text :=
  let '(val, axis) := part in
  (if (0 <? k) && (0 <? Qnum val)%Z then [chr "+"] else if (Qnum val <? 0)%Z then [chr "-"] else []) ++
  (if Qc_eq_bool (if (Qnum val <? 0)%Z then (- val)%Qc else val) 1%Qc then [] else print_abs val) ++ axis.
Fixpoint print_parts (k : nat) (parts : list (Qc * text)) : text :=
  match parts with [] => [] | p :: ps => print_part k p ++ print_parts (S k) ps end.
Definition op_parts (row : list Qc) (scalar : Qc) : list (Qc * text) :=
  filter (fun p => negb (Qc_eq_bool (fst p) 0%Qc)) (combine row [[chr "x"]; [chr "y"]; [chr "z"]] ++ [(scalar, [])]).
Definition write_op_row (row : list Qc) (scalar : Qc) : text :=
  match op_parts row scalar with [] => [chr "0"] | parts => print_parts 0 parts end.
(** parse_table.rs 51-70: write_op for dimensions up to 3; beyond, it uses Display of AffineMap, which is not modelled (None) *)
Definition write_op (op : aff) : outcome (option text) :=
  let d := aff_dim op in
  if 3 <? d then Ret None else
  do parts <- mapM (fun i => do row <- get_row (lin op) i; do s <- index (shift op) i 0; Ret ((if 0 <? i then [chr ","] else []) ++ write_op_row row s)) (seq 0 d);
  Ret (Some (concat parts)).
