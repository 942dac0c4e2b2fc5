(** Model of src/spacegroups/parse_table.rs 105-270 and of the enums of src/spacegroups/types.rs: the table of space groups.

    The function str::to_lowercase is a parameter, as in Cgd.v.  A HashMap is a list of keys and values; only [get] is used to look at it. *)
From Coq Require Import String Ascii List ZArith NArith Lia Bool PeanoNat QArith Qcanon.
From Verif Require Import Base Scalars Matrix Geometry Text ParseOp Cgd.
Import ListNotations.
Close Scope Q_scope. Close Scope Qc_scope.
Local Open Scope list_scope.
Open Scope nat_scope.

(** types.rs 54-69: CrystalSystem *)
Inductive crystal_system := Oblique | Rectangular | Square | Hexagonal | Cubic | Orthorhombic | Tetragonal | Trigonal | Monoclinic | Triclinic.
(** types.rs 72-85: Centering *)
Inductive centering := Primitive2d | Centered2d | Primitive | FaceCentered | BodyCentered | Rhombohedral | AFaceCentered | BFaceCentered | CFaceCentered.
Scheme Equality for crystal_system.
Scheme Equality for centering.
(** types.rs 98-114: Display for CrystalSystem *)
Definition write_system (s : crystal_system) : text :=
  match s with
  | Oblique => str "oblique" | Rectangular => str "rectangular" | Square => str "square" | Cubic => str "cubic" | Orthorhombic => str "orthorhombic"
  | Hexagonal => str "hexagonal" | Tetragonal => str "tetragonal" | Trigonal => str "trigonal" | Monoclinic => str "monoclinic" | Triclinic => str "triclinic"
  end.
(** types.rs 117-132: Display for Centering *)
Definition write_centering (c : centering) : text :=
  match c with
  | Primitive2d => str "p" | Centered2d => str "c" | Primitive => str "P" | FaceCentered => str "F" | BodyCentered => str "I" | Rhombohedral => str "R"
  | AFaceCentered => str "A" | BFaceCentered => str "B" | CFaceCentered => str "C"
  end.
Definition text_eqb (a b : text) : bool := if list_eq_dec N.eq_dec a b then true else false.
(** match on string literals: the first literal that is equal *)
Fixpoint match_text {A} (s : text) (cases : list (text * A)) : option A :=
  match cases with [] => None | (t, a) :: r => if text_eqb s t then Some a else match_text s r end.
(** parse_table.rs 148-164: CrystalSystem::from_string *)
Definition system_from_string (lower : text -> text) (s : text) : option crystal_system :=
  match_text (lower s)
    [(str "square", Square); (str "rectangular", Rectangular); (str "oblique", Oblique); (str "cubic", Cubic); (str "orthorhombic", Orthorhombic); (str "hexagonal", Hexagonal);
     (str "tetragonal", Tetragonal); (str "trigonal", Trigonal); (str "monoclinic", Monoclinic); (str "triclinic", Triclinic)].
(** parse_table.rs 167-182: Centering::from_string *)
Definition centering_from_string (s : text) : option centering :=
  match_text s
    [(str "p", Primitive2d); (str "c", Centered2d); (str "P", Primitive); (str "F", FaceCentered); (str "I", BodyCentered); (str "R", Rhombohedral); (str "A", AFaceCentered);
     (str "B", BFaceCentered); (str "C", CFaceCentered)].

(** parse_table.rs 26-31: TableEntry *)
Record table_entry := TableEntry { te_name : text; te_canonical : text; te_transform : @cmap Qc; te_operators : list (@affine Qc) }.
(** parse_table.rs 105-110: Lookup *)
Record lookup_entry := LookupEntry { lk_name : text; lk_system : crystal_system; lk_centering : centering; lk_from_std : @cmap Qc }.
(** parse_table.rs 126-130: Tables *)
Record tables := Tables { settings : list (text * table_entry); alias : list (text * text); lookup : list lookup_entry }.
(** parse_table.rs 133-145: lookup_settings *)
Definition lookup_settings (t : tables) (s : crystal_system) (c : centering) : list (text * @cmap Qc) :=
  flat_map (fun l => if crystal_system_beq s (lk_system l) && centering_beq c (lk_centering l) then [(lk_name l, lk_from_std l)] else []) (lookup t).

(** HashMap::get, HashMap::insert, and the update through HashMap::get_mut *)
Fixpoint get {A} (k : text) (m : list (text * A)) : option A :=
  match m with [] => None | (k', a) :: r => if text_eqb k k' then Some a else get k r end.
Definition insert {A} (k : text) (a : A) (m : list (text * A)) : list (text * A) := (k, a) :: filter (fun p => negb (text_eqb k (fst p))) m.

(** char::is_whitespace: the characters with the property White_Space of Unicode *)
Definition is_white (c : char) : bool :=
  ((9 <=? c) && (c <=? 13) || (c =? 32) || (c =? 133) || (c =? 160) || (c =? 5760) || (8192 <=? c) && (c <=? 8202) || (c =? 8232) || (c =? 8233) || (c =? 8239) || (c =? 8287) || (c =? 12288))%N.
Fixpoint drop_white (t : text) : text := match t with c :: r => if is_white c then drop_white r else t | [] => [] end.
(** str::trim *)
Definition trim (t : text) : text := rev (drop_white (rev (drop_white t))).
(** str::split_whitespace; w is the word read so far *)
Fixpoint split_white (w : text) (t : text) : list text :=
  match t with
  | [] => match w with [] => [] | _ => [w] end
  | c :: r => if is_white c then match w with [] => split_white [] r | _ => w :: split_white [] r end else split_white (w ++ [c]) r
  end.
Definition split_whitespace (t : text) : list text := split_white [] t.
(** [T]::join(" ") *)
Fixpoint join (ws : list text) : text := match ws with [] => [] | [w] => w | w :: r => w ++ [32%N] ++ join r end.
(** fields[i] and fields[i..] *)
Definition field_at (fields : list text) (i : nat) : outcome text := match nth_error fields i with Some w => Ret w | None => Panic end.
Definition fields_from (fields : list text) (i : nat) : outcome (list text) := if i <=? length fields then Ret (skipn i fields) else Panic.
(** the operator ? *)
Definition question {A B} (o : option A) (f : A -> outcome (option B)) : outcome (option B) := match o with Some a => f a | None => Ret None end.

Section Lower.
  Variable lower : text -> text.
  (** parse_table.rs 262-270: make_lookup_entry *)
  Definition make_lookup_entry (fields : list text) : outcome (option lookup_entry) :=
    do name <- field_at fields 1;
    do spec <- fields_from fields 4;
    do m <- cmap_from_string (join spec);
    question m (fun from_std =>
    do f2 <- field_at fields 2;
    question (system_from_string lower f2) (fun system =>
    do f3 <- field_at fields 3;
    question (centering_from_string f3) (fun centering =>
    Ret (Some (LookupEntry name system centering from_std))))).

  (** parse_table.rs 215-259: the state of parse_space_group_table *)
  Record table_state := State { st_settings : list (text * table_entry); st_alias : list (text * text); st_lookup : list lookup_entry; st_canonical : text; st_current : text }.
  Definition starts_with (c : char) (t : text) : bool := match t with x :: _ => N.eqb x c | [] => false end.
  (** parse_table.rs 222-255: the body of the loop *)
  Definition table_step (st : table_state) (l : option text) : outcome (option table_state) :=
    question l (fun line =>
    let content := trim line in
    if (match content with [] => true | _ => false end) || starts_with (chr "#") content then Ret (Some st)
    else if starts_with (chr " ") line then
      do o <- aff_from_string content;
      question o (fun op =>
      question (get (st_current st) (st_settings st)) (fun e =>
      let e' := TableEntry (te_name e) (te_canonical e) (te_transform e) (te_operators e ++ [op]) in
      Ret (Some (State (insert (st_current st) e' (st_settings st)) (st_alias st) (st_lookup st) (st_canonical st) (st_current st)))))
    else
      let fields := split_whitespace content in
      do f0 <- field_at fields 0;
      if text_eqb (lower f0) (str "alias") then
        do f1 <- field_at fields 1; do f2 <- field_at fields 2;
        Ret (Some (State (st_settings st) (insert f1 f2 (st_alias st)) (st_lookup st) (st_canonical st) (st_current st)))
      else if text_eqb (lower f0) (str "lookup") then
        do o <- make_lookup_entry fields;
        question o (fun e => Ret (Some (State (st_settings st) (st_alias st) (st_lookup st ++ [e]) (st_canonical st) (st_current st))))
      else
        do rest <- fields_from fields 1;
        do o <- cmap_from_string (join rest);
        question o (fun transform =>
        do id <- cmap_is_identity transform;
        let canonical := if id then f0 else st_canonical st in
        Ret (Some (State (insert f0 (TableEntry f0 canonical transform []) (st_settings st)) (st_alias st) (st_lookup st) canonical f0)))).
  Fixpoint table_loop (st : table_state) (ls : list (option text)) : outcome (option table_state) :=
    match ls with
    | [] => Ret (Some st)
    | l :: r => do o <- table_step st l; question o (fun st' => table_loop st' r)
    end.
  (** parse_table.rs 215-259: parse_space_group_table, for bytes in memory *)
  Definition parse_space_group_table (bytes : list N) : outcome (option tables) :=
    do o <- table_loop (State [] [] [] [] []) (input_lines bytes);
    question o (fun st => Ret (Some (Tables (st_settings st) (st_alias st) (st_lookup st)))).
End Lower.
