(** Specification for the cgd parser: lines of a file, UTF-8, and which texts denote which fields. *)
From Coq Require Import String Ascii List ZArith NArith Lia Bool PeanoNat QArith Qcanon.
From Verif Require Import ZQ Text OpGrammar Cgd.
Import ListNotations.
Close Scope Q_scope. Close Scope Qc_scope.
Local Open Scope list_scope.
Open Scope nat_scope.

(** ** lines *)
(** lines end with LF or CR LF; only the last one may lack an ending *)
Inductive lines_of : list N -> list (list N) -> Prop :=
| lines_none : lines_of [] []
| lines_last l : l <> [] -> ~ In 10%N l -> lines_of l [l]
| lines_lf l rest ls : ~ In 10%N l -> (forall l', l <> l' ++ [13%N]) -> lines_of rest ls -> lines_of (l ++ [10%N] ++ rest) (l :: ls)
| lines_crlf l rest ls : ~ In 10%N l -> lines_of rest ls -> lines_of (l ++ [13%N; 10%N] ++ rest) (l :: ls).

(** ** UTF-8 *)
Definition scalar (c : N) : Prop := (c < 55296 \/ 57344 <= c < 1114112)%N.
Definition utf8_char (c : N) : list N :=
  (if c <? 128 then [c]
   else if c <? 2048 then [192 + c / 64; 128 + c mod 64]
   else if c <? 65536 then [224 + c / 4096; 128 + c / 64 mod 64; 128 + c mod 64]
   else [240 + c / 262144; 128 + c / 4096 mod 64; 128 + c / 64 mod 64; 128 + c mod 64])%N.
Definition utf8 (t : text) : list N := flat_map utf8_char t.

(** ** fields *)
Inductive sign_text : text -> Z -> Prop :=
| sign_none : sign_text [] 1
| sign_plus : sign_text [chr "+"] 1
| sign_minus : sign_text [chr "-"] (-1).
(** digits with an optional decimal point: the number without the point, and the number of digits after the point *)
Inductive mantissa_text : text -> Z -> nat -> Prop :=
| mantissa_whole ds n : numeral ds n -> mantissa_text ds n 0
| mantissa_point ds n : numeral ds n -> mantissa_text (ds ++ [chr "."]) n 0
| mantissa_decimals a f n : numeral (a ++ f) n -> f <> [] -> mantissa_text (a ++ [chr "."] ++ f) n (length f).
Inductive exponent_text : text -> Z -> Prop :=
| exponent_none : exponent_text [] 0
| exponent_some c s k ds n : In c [chr "e"; chr "E"] -> sign_text s k -> numeral ds n -> exponent_text (c :: s ++ ds) (k * n).
Definition ten_to (e : Z) : Qc := match e with Z0 => 1%Qc | Zpos p => ZQ (10 ^ Zpos p) | Zneg p => (1 / ZQ (10 ^ Zpos p))%Qc end.
Inductive number_text : text -> Qc -> Prop :=
| number_parts s k m n places x e : sign_text s k -> mantissa_text m n places -> exponent_text x e ->
    number_text (s ++ m ++ x) (ZQ (k * n) * ten_to (e - Z.of_nat places))%Qc.
(** integers and fractions of numbers with at most nine digits *)
Inductive quotient_text : text -> Qc -> Prop :=
| quotient_plus a n b m : numeral a n -> short a -> numeral b m -> short b -> m <> 0%Z -> quotient_text (a ++ [chr "/"] ++ b) (ZQ n / ZQ m)%Qc
| quotient_minus a n b m : numeral a n -> short a -> numeral b m -> short b -> m <> 0%Z -> quotient_text ([chr "-"] ++ a ++ [chr "/"] ++ b) (ZQ (- n) / ZQ m)%Qc.
(** words: no quotation mark, no #, no blank; the program also takes characters for blanks whose number is 9 or 32 modulo 256 *)
Definition word_char (c : N) : Prop := c <> 34%N /\ c <> chr "#" /\ ~ blank (c mod 256)%N.
Definition word (s : text) : Prop := s <> [] /\ Forall word_char s.
Definition letter (c : N) : Prop := (65 <= c <= 90 \/ 97 <= c <= 122)%N.
Definition key_word (s : text) : Prop := word s /\ exists c r, s = c :: r /\ letter c.
(** three letters, in lower or upper case *)
Definition same_letter (a b : N) : Prop := a = b \/ (a + 32)%N = b.
Definition spells (t w : text) : Prop := Forall2 same_letter t w.

Section Field.
  Variable rnd : Qc -> option Qc.
  (** how a number is stored: as an integer if its f64 is one in the range of i32 *)
  Inductive number_field (q : Qc) : field -> Prop :=
  | number_int n : rnd q = Some (ZQ n) -> i32_range n -> number_field q (Int n)
  | number_double x : rnd q = Some x -> (forall n, i32_range n -> x <> ZQ n) -> number_field q (Double (Finite x))
  | number_large : rnd q = None -> number_field q (Double (Infinite (Qnum q <? 0)%Z)).
  Inductive field_text : text -> field -> Prop :=
  | field_fraction t q : quotient_text t q -> field_text t (Fraction q)
  | field_number t q f : number_text t q -> number_field q f -> field_text t f
  | field_nan t : spells t (str "nan") -> field_text t (Double NotANumber)
  | field_inf t : spells t (str "inf") -> field_text t (Double (Infinite false))
  | field_quoted s : s <> [] -> ~ In 34%N s -> field_text ([34%N] ++ s ++ [34%N]) (Name s)
  | field_word s : word s -> field_text s (Name s).
  (** fields separated by blanks *)
  Inductive fields_text : text -> list field -> Prop :=
  | fields_none : fields_text [] []
  | fields_one t f : field_text t f -> fields_text t [f]
  | fields_more t f b u fs : field_text t f -> blanks b -> b <> [] -> fields_text u fs -> fs <> [] -> fields_text (t ++ b ++ u) (f :: fs).
  (** a key may come first *)
  Inductive content_text : text -> list field -> Prop :=
  | content_key k : key_word k -> content_text k [Key k]
  | content_key_fields k b u fs : key_word k -> blanks b -> b <> [] -> fields_text u fs -> content_text (k ++ b ++ u) (Key k :: fs)
  | content_fields u fs : fields_text u fs -> content_text u fs.
End Field.
(** what may come at the end of a line *)
Definition comment_text (t : text) : Prop := t = [] \/ exists r, t = chr "#" :: r.

(** words that cannot be mistaken for numbers *)
Definition looks_numeric (s : text) : Prop :=
  (exists sg k c r d, sign_text sg k /\ digit c d /\ (s = sg ++ c :: r \/ s = sg ++ chr "." :: c :: r)) \/
  (exists a r, (spells a (str "nan") \/ spells a (str "inf")) /\ s = a ++ r).
Inductive clear_field rnd : text -> field -> Prop :=
| clear_fraction t q : quotient_text t q -> clear_field rnd t (Fraction q)
| clear_number t q f : number_text t q -> number_field rnd q f -> clear_field rnd t f
| clear_nan t : spells t (str "nan") -> clear_field rnd t (Double NotANumber)
| clear_inf t : spells t (str "inf") -> clear_field rnd t (Double (Infinite false))
| clear_quoted s : s <> [] -> ~ In 34%N s -> clear_field rnd ([34%N] ++ s ++ [34%N]) (Name s)
| clear_word s : word s -> ~ looks_numeric s -> clear_field rnd s (Name s).
Inductive clear_fields rnd : text -> list field -> Prop :=
| clear_one t f : clear_field rnd t f -> clear_fields rnd t [f]
| clear_more t f b u fs : clear_field rnd t f -> blanks b -> b <> [] -> clear_fields rnd u fs -> clear_fields rnd (t ++ b ++ u) (f :: fs).
Inductive clear_content rnd : text -> list field -> Prop :=
| clear_empty : clear_content rnd [] []
| clear_key k : key_word k -> clear_content rnd k [Key k]
| clear_key_fields k b u fs : key_word k -> blanks b -> b <> [] -> clear_fields rnd u fs -> clear_content rnd (k ++ b ++ u) (Key k :: fs)
| clear_only_fields u fs : clear_fields rnd u fs -> (forall c r, u = c :: r -> ~ letter c) -> clear_content rnd u fs.
(** texts with a fraction with denominator 0, and texts with a number followed by an incomplete exponent *)
Definition zero_quotient (i : text) : Prop := exists pre a n b post, numeral a n /\ numeral b 0 /\ i = pre ++ a ++ [chr "/"] ++ b ++ post.
Definition cut_exponent (i : text) : Prop := exists pre m n places c s k post, mantissa_text m n places /\ In c [chr "e"; chr "E"] /\ sign_text s k /\
  (forall x d r, post = x :: r -> ~ digit x d) /\ i = pre ++ m ++ c :: s ++ post.
