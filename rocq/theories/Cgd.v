(** Model of src/io/parse_cgd_line.rs and src/io/parse_cgd_blocks.rs.

    Two functions of Rust's standard library are parameters of the model: the conversion of a
    decimal number to f64, and str::to_lowercase.  The theorems hold for all values of these
    parameters, except where a hypothesis says otherwise. *)
From Coq Require Import String Ascii List ZArith NArith Lia Bool PeanoNat QArith Qcanon.
From Verif Require Import Base Scalars ZQ Text ParseOp.
Import ListNotations.
Close Scope Q_scope. Close Scope Qc_scope.
Local Open Scope list_scope.
Open Scope nat_scope.

(** f64, with one zero and one NaN *)
Inductive f64 := Finite (q : Qc) | Infinite (negative : bool) | NotANumber.
(** parse_cgd_line.rs 15-22: enum Field *)
Inductive field := Fraction (q : Qc) | Int (n : Z) | Double (x : f64) | Key (s : text) | Name (s : text).

(** parse_cgd_line.rs 104-106: unsigned_integer *)
Definition unsigned_integer : parser Z := map_opt digit1 map_integer.
(** parse_cgd_line.rs 86-91: integer *)
Definition integer_s : parser Z :=
  alt (map_opt unsigned_integer (fun n => Some n)) (map_opt (preceded (char_ (chr "-")) unsigned_integer) (fun n => Some (- n)%Z)).
(** parse_cgd_line.rs 78-83: fraction; Ratio::new panics if the denominator is zero *)
Definition fraction_p : parser Qc :=
  map_out (separated_pair integer_s (char_ (chr "/")) unsigned_integer) (fun nd => omap Some (ratio_new (fst nd) (snd nd))).
(** parse_cgd_line.rs 94-96: quoted_string *)
Definition dquote : char := 34%N.
Definition quoted_string : parser text := delimited (char_ dquote) (take_until1 dquote) (char_ dquote).
(** parse_cgd_line.rs 99-101: name; [c as u8] keeps the lowest eight bits of the character *)
Definition stops_name (c : char) : bool := N.eqb c dquote || N.eqb c (chr "#") || is_blank (c mod 256)%N.
Definition name_p : parser text := take_till1 stops_name.
(** nom::character::is_alphabetic, on the first byte of the UTF-8 form of a text: only characters below 128 have a first byte that is a letter *)
Definition is_letter (c : char) : bool := (N.leb 65 c && N.leb c 90) || (N.leb 97 c && N.leb c 122).
(** parse_cgd_line.rs 57-65: key *)
Definition key_p : parser text := map_opt name_p (fun s => match s with c :: _ => if is_letter c then Some s else None | [] => None end).
(** parse_cgd_line.rs 52-54: comment *)
Definition comment_p : parser unit := map_opt (pair_ (char_ (chr "#")) rest_) (fun _ => Some tt).

(** nom::number::complete::recognize_float; the parts are kept, instead of the recognized text *)
Definition digits_value (ds : text) : Z := fold_left (fun n c => n * 10 + (Z.of_N c - 48))%Z ds 0%Z.
Definition sign_char : parser char := one_of [chr "+"; chr "-"].
Definition mantissa_p : parser (text * text) :=
  alt (map_opt (pair_ digit1 (opt (preceded (char_ (chr ".")) (opt digit1)))) (fun p => Some (fst p, match snd p with Some (Some f) => f | _ => [] end)))
      (map_opt (preceded (char_ (chr ".")) digit1) (fun f => Some ([], f))).
Definition exponent_p : parser (option (option char * text)) :=
  opt (preceded (one_of [chr "e"; chr "E"]) (pair_ (opt sign_char) (cut digit1))).
Definition float_parts : parser (option char * ((text * text) * option (option char * text))) :=
  pair_ (opt sign_char) (pair_ mantissa_p exponent_p).
(** the number written *)
Definition sign_value (s : option char) : Z := match s with Some c => if N.eqb c (chr "-") then (-1)%Z else 1%Z | None => 1%Z end.
Definition power10 (e : Z) : Qc := if (e <? 0)%Z then (1 / ZQ (10 ^ (- e)))%Qc else ZQ (10 ^ e).
Definition float_value (p : option char * ((text * text) * option (option char * text))) : Qc :=
  let '(s, ((a, f), x)) := p in
  let e := match x with Some (es, ed) => (sign_value es * digits_value ed)%Z | None => 0%Z end in
  (ZQ (sign_value s * digits_value (a ++ f)) * power10 (e - Z.of_nat (length f)))%Qc.
(** nom::bytes::complete::tag_no_case, for a tag of three lower case letters other than k: other characters than these letters and their capitals do not match *)
Definition lower_ascii (c : char) : char := if N.leb 65 c && N.leb c 90 then (c + 32)%N else c.
Definition tag_no_case (tag : text) : parser text :=
  fun i => if Nat.leb (length tag) (length i) && (if list_eq_dec N.eq_dec (map lower_ascii (firstn (length tag) i)) tag then true else false)
           then POk (skipn (length tag) i) (firstn (length tag) i) else PError.

Section Parameters.
  (** the f64 nearest to a number, or None if the number is too large *)
  Variable rnd : Qc -> option Qc.
  (** str::to_lowercase *)
  Variable lower : text -> text.

  Definition to_f64 (q : Qc) : f64 := match rnd q with Some x => Finite x | None => Infinite (Qnum q <? 0)%Z end.
  (** nom::number::complete::double; of the tags only inf is ever used for infinity, as it comes first *)
  Definition double_p : parser f64 :=
    alt (map_opt float_parts (fun p => Some (to_f64 (float_value p))))
    (alt (map_opt (tag_no_case (str "nan")) (fun _ => Some NotANumber))
    (alt (map_opt (tag_no_case (str "inf")) (fun _ => Some (Infinite false)))
         (map_opt (tag_no_case (str "infinity")) (fun _ => Some (Infinite false))))).
  (** parse_cgd_line.rs 109-115: double_to_field; f equals (f as i32) as f64 exactly for integers in the range of i32 *)
  Definition double_to_field (x : f64) : field :=
    match x with
    | Finite q => if Pos.eqb (Qden q) 1 then match i32 (Qnum q) with Some n => Int n | None => Double x end else Double x
    | _ => Double x
    end.
  (** parse_cgd_line.rs 68-75: field *)
  Definition field_p : parser field :=
    alt (map_opt fraction_p (fun f => Some (Fraction f)))
    (alt (map_opt double_p (fun x => Some (double_to_field x)))
    (alt (map_opt quoted_string (fun s => Some (Name s)))
         (map_opt name_p (fun s => Some (Name s))))).
  (** parse_cgd_line.rs 38-49: line_content *)
  Definition line_content : parser (list field) :=
    alt (map_opt (separated_pair key_p space1 (separated_list0 space1 field_p)) (fun kr => Some (Key (fst kr) :: snd kr)))
    (alt (map_opt key_p (fun k => Some [Key k]))
         (separated_list0 space1 field_p)).
  (** parse_cgd_line.rs 33-35: line *)
  Definition line_p : parser (list field) := delimited space0 line_content (pair_ space0 (opt comment_p)).
  (** parse_cgd_line.rs 25-30: parse_cgd_line; None is Err *)
  Definition parse_cgd_line (i : text) : outcome (option (text * list field)) :=
    match line_p i with POk rest fs => Ret (Some (rest, fs)) | PError | PFailure => Ret None | PPanic => Panic end.

  (** parse_cgd_blocks.rs 6-16: EntryType, Note; the messages are constructors *)
  Inductive entry_type := Begin | End | Data | Empty | Error.
  Inductive note :=
  | NotReadable            (* error: the line is not valid UTF-8 *)
  | NotParsed              (* error: parse_cgd_line failed *)
  | UnparsedEnding (rest : text)  (* error *)
  | VoidBlock              (* error: "block has no type or content" *)
  | TextAfterEnd           (* warning: "text after 'end' ignored" *)
  | TextAfterType          (* warning: "text after block type ignored" *)
  | DataBeforeBlock        (* error: "data found before block start" *)
  | MissingEnd.            (* error: "final block is missing an 'end' statement" *)
  (** parse_cgd_blocks.rs 19-50: Entry *)
  Record entry := Entry { kind : entry_type; key : option text; fields : list field; notes : list note; line_number : nat; content : option text }.
  Definition add_note (n : note) (e : entry) : entry := Entry (kind e) (key e) (fields e) (notes e ++ [n]) (line_number e) (content e).
  Definition set_key (k : option text) (e : entry) : entry := Entry (kind e) k (fields e) (notes e) (line_number e) (content e).
  Definition set_kind (k : entry_type) (e : entry) : entry := Entry k (key e) (fields e) (notes e) (line_number e) (content e).
  (** parse_cgd_blocks.rs 53-71: Block *)
  Record block := Block { block_type : text; lineno_start : nat; lineno_end : nat; entries : list entry }.
  Definition block_new : block := Block [] 0 0 [].
  Definition push (e : entry) (b : block) : block := Block (block_type b) (lineno_start b) (lineno_end b) (entries b ++ [e]).

  (** parse_cgd_blocks.rs 155-189: the body of the loop of parse_lines *)
  Definition parse_line (lineno : nat) (line : option text) : outcome entry :=
    match line with
    | None => Ret (Entry Error None [] [NotReadable] lineno None)
    | Some s =>
      do r <- parse_cgd_line s;
      match r with
      | None => Ret (Entry Error None [] [NotParsed] lineno (Some s))
      | Some (rest, fs) =>
        let ns := if 0 <? length rest then [UnparsedEnding rest] else [] in
        match fs with
        | [] => Ret (Entry Empty None [] ns lineno (Some s))
        | Key k :: fs' => Ret (Entry Data (Some (lower k)) fs' ns lineno (Some s))
        | _ => Ret (Entry Data None fs ns lineno (Some s))
        end
      end
    end.
  Fixpoint parse_from (lineno : nat) (lines : list (option text)) : outcome (list entry) :=
    match lines with
    | [] => Ret []
    | l :: ls => do e <- parse_line lineno l; do es <- parse_from (S lineno) ls; Ret (e :: es)
    end.

  (** parse_cgd_blocks.rs 81-135: the body of the loop of parse_blocks; the state is (blocks, current_block, current_key, in_block) *)
  Definition block_state : Type := list block * block * option text * bool.
  Definition block_step (st : block_state) (e : entry) : block_state :=
    let '(blocks, cur, ck, inb) := st in
    match kind e with
    | Empty => if 0 <? length (notes e) then (blocks, push e cur, ck, inb) else st
    | Error => (blocks, push e cur, ck, inb)
    | Begin | End => st
    | Data =>
      match key e with
      | Some s =>
        let k := lower s in
        let e1 := set_key (Some k) e in
        if list_eq_dec N.eq_dec k (str "end") then
          let e2 := set_kind End e1 in
          let cur1 := if inb then cur else Block (str "--void--") (line_number e) (lineno_end cur) (entries cur) in
          let e3 := if inb then e2 else add_note VoidBlock e2 in
          let cur2 := Block (block_type cur1) (lineno_start cur1) (line_number e) (entries cur1) in
          let e4 := if 1 <? length (fields e) then add_note TextAfterEnd e3 else e3 in
          (blocks ++ [push e4 cur2], block_new, ck, false)
        else if negb inb then
          let e2 := set_kind Begin e1 in
          let cur1 := Block k (line_number e) (lineno_end cur) (entries cur) in
          let e3 := if 1 <? length (fields e) then add_note TextAfterType e2 else e2 in
          (blocks, push e3 cur1, None, true)
        else (blocks, push e1 cur, Some k, inb)
      | None =>
        let e1 := set_key ck e in
        let e2 := if negb inb then add_note DataBeforeBlock e1 else e1 in
        (blocks, push e2 cur, ck, inb)
      end
    end.
  (** parse_cgd_blocks.rs 138-147: the end of parse_blocks *)
  Definition finish (st : block_state) : outcome (list block) :=
    let '(blocks, cur, ck, inb) := st in
    if inb then
      match rev (entries cur) with
      | [] => Panic
      | e :: before => Ret (blocks ++ [Block (block_type cur) (lineno_start cur) (line_number e) (rev before ++ [add_note MissingEnd e])])
      end
    else Ret blocks.
  Definition blocks_of (es : list entry) : outcome (list block) := finish (fold_left block_step es ([], block_new, None, false)).
End Parameters.

(** std::io::BufRead::lines for bytes in memory: a line ends with a line feed, which is removed together with a
    carriage return before it; there is no line after the last line feed *)
Fixpoint split_lines (line : list N) (i : list N) : list (list N) :=
  match i with
  | [] => match line with [] => [] | _ => [line] end
  | c :: i' => if N.eqb c 10 then (match rev line with 13%N :: l => rev l | _ => line end) :: split_lines [] i' else split_lines (line ++ [c]) i'
  end.
(** the characters of bytes in UTF-8, None if they are not valid; a character has at most 21 bits, is not a surrogate, and has its shortest form *)
Definition continues (b : N) : bool := N.leb 128 b && N.ltb b 192.
Fixpoint utf8_decode (fuel : nat) (bs : list N) : option text :=
  match fuel with
  | 0 => Some []
  | S fuel =>
    match bs with
    | [] => Some []
    | b :: r =>
      if (b <? 128)%N then obind (utf8_decode fuel r) (fun t => Some (b :: t))
      else match r with
      | b1 :: r1 =>
        if (194 <=? b)%N && (b <? 224)%N && continues b1 then obind (utf8_decode fuel r1) (fun t => Some (((b - 192) * 64 + (b1 - 128))%N :: t))
        else match r1 with
        | b2 :: r2 =>
          let c3 := ((b - 224) * 4096 + (b1 - 128) * 64 + (b2 - 128))%N in
          if (224 <=? b)%N && (b <? 240)%N && continues b1 && continues b2 then
            if (2048 <=? c3)%N && negb ((55296 <=? c3)%N && (c3 <? 57344)%N) then obind (utf8_decode fuel r2) (fun t => Some (c3 :: t)) else None
          else match r2 with
          | b3 :: r3 =>
            let c4 := ((b - 240) * 262144 + (b1 - 128) * 4096 + (b2 - 128) * 64 + (b3 - 128))%N in
            if (240 <=? b)%N && (b <? 248)%N && continues b1 && continues b2 && continues b3 then
              if (65536 <=? c4)%N && (c4 <? 1114112)%N then obind (utf8_decode fuel r3) (fun t => Some (c4 :: t)) else None
            else None
          | [] => None
          end
        | [] => None
        end
      | [] => None
      end
    end
  end.
(** parse_cgd_blocks.rs 150-194: parse_lines, for bytes in memory (reading them does not fail) *)
Definition input_lines (bytes : list N) : list (option text) := map (fun l => utf8_decode (length l) l) (split_lines [] bytes).
Definition parse_lines rnd lower (bytes : list N) : outcome (list entry) := parse_from rnd lower 0 (input_lines bytes).
(** parse_cgd_blocks.rs 74-147: parse_blocks *)
Definition parse_blocks rnd lower (bytes : list N) : outcome (list block) := do es <- parse_lines rnd lower bytes; blocks_of lower es.
