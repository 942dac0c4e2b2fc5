(** Specification for the operator parser: which texts denote which operators. *)
From Coq Require Import String Ascii List ZArith NArith Lia Bool PeanoNat QArith Qcanon.
From Verif Require Import ZQ Text.
Import ListNotations.
Close Scope Q_scope. Close Scope Qc_scope.
Local Open Scope list_scope.
Open Scope nat_scope.

Definition blank (c : N) : Prop := c = 32%N \/ c = 9%N.
Definition blanks (t : text) : Prop := Forall blank t.
(** the character of a digit *)
Definition digit (c : N) (k : Z) : Prop := (0 <= k <= 9)%Z /\ c = Z.to_N (48 + k).
(** decimal notation, leading zeros allowed *)
Inductive numeral : text -> Z -> Prop :=
| numeral_one c k : digit c k -> numeral [c] k
| numeral_more ds n c k : numeral ds n -> digit c k -> numeral (ds ++ [c]) (10 * n + k)%Z.
(** numbers of at most nine digits, and fractions of them *)
Definition short (t : text) : Prop := length t <= 9.
Inductive fraction_text : text -> Qc -> Prop :=
| fraction_integer ds n : numeral ds n -> short ds -> fraction_text ds (ZQ n)
| fraction_quotient a n b1 b2 b m : numeral a n -> short a -> blanks b1 -> blanks b2 -> numeral b m -> short b -> (m <> 0)%Z ->
    fraction_text (a ++ b1 ++ [chr "/"] ++ b2 ++ b) (ZQ n / ZQ m)%Qc.
Inductive axis_letter : N -> nat -> Prop :=
| axis_x : axis_letter (chr "x") 0
| axis_y : axis_letter (chr "y") 1
| axis_z : axis_letter (chr "z") 2.
(** a term: a coefficient, and an axis unless it is constant *)
Inductive unsigned_text : text -> Qc -> option nat -> Prop :=
| unsigned_times f q c k : fraction_text f q -> axis_letter c k -> unsigned_text (f ++ [chr "*"; c]) q (Some k)
| unsigned_next f q b c k : fraction_text f q -> blanks b -> axis_letter c k -> unsigned_text (f ++ b ++ [c]) q (Some k)
| unsigned_constant f q : fraction_text f q -> unsigned_text f q None
| unsigned_axis c k : axis_letter c k -> unsigned_text [c] 1%Qc (Some k).
Inductive signed_text : text -> Qc -> option nat -> Prop :=
| signed_plus b u q a : blanks b -> unsigned_text u q a -> signed_text ([chr "+"] ++ b ++ u) q a
| signed_minus b u q a : blanks b -> unsigned_text u q a -> signed_text ([chr "-"] ++ b ++ u) (- q)%Qc a.
Inductive more_terms : text -> list (Qc * option nat) -> Prop :=
| no_more_terms : more_terms [] []
| one_more_term b s q a t ts : blanks b -> signed_text s q a -> more_terms t ts -> more_terms (b ++ s ++ t) ((q, a) :: ts).
(** a coordinate is a sum of terms *)
Inductive coordinate_text : text -> list (Qc * option nat) -> Prop :=
| coordinate_signed s q a t ts : signed_text s q a -> more_terms t ts -> coordinate_text (s ++ t) ((q, a) :: ts)
| coordinate_unsigned s q a t ts : unsigned_text s q a -> more_terms t ts -> coordinate_text (s ++ t) ((q, a) :: ts).
(** coordinates are separated by commas *)
Inductive operator_text : text -> list (list (Qc * option nat)) -> Prop :=
| operator_last t c : coordinate_text t c -> operator_text t [c]
| operator_comma t c b1 b2 u cs : coordinate_text t c -> blanks b1 -> blanks b2 -> operator_text u cs ->
    operator_text (t ++ b1 ++ [chr ","] ++ b2 ++ u) (c :: cs).

(** the sum of the coefficients of an axis (Some k), or of the constants (None) *)
Definition same_axis (a b : option nat) : bool :=
  match a, b with Some i, Some j => i =? j | None, None => true | _, _ => false end.
Definition coefficient (a : option nat) (ts : list (Qc * option nat)) : Qc :=
  fold_right (fun t s => if same_axis a (snd t) then (fst t + s)%Qc else s) 0%Qc ts.
(** the operator with n coordinates: its matrix has min(n, 3) columns *)
Definition meaning (cs : list (list (Qc * option nat))) : list (list Qc) * list Qc :=
  (map (fun c => map (fun k => coefficient (Some k) c) (seq 0 (Nat.min (length cs) 3))) cs, map (coefficient None) cs).
(** the numbers that appear when p and q are added as fractions with their least common denominator are in the range of i32 *)
Definition i32_range (z : Z) : Prop := (- 2 ^ 31 <= z < 2 ^ 31)%Z.
Definition addition_fits (p q : Qc) : Prop :=
  let l := Z.lcm (Z.pos (Qden p)) (Z.pos (Qden q)) in
  i32_range l /\ forall a b, (ZQ a = p * ZQ l -> ZQ b = q * ZQ l -> i32_range a /\ i32_range b /\ i32_range (a + b))%Qc.
(** adding up each coefficient from left to right stays in this range *)
Definition sums_fit (c : list (Qc * option nat)) : Prop :=
  forall pre q a post, c = pre ++ (q, a) :: post -> addition_fits q (coefficient a pre).
(** what may follow an operator: the end of the text, or a character that cannot continue it *)
Definition ends_operator (rest : text) : Prop :=
  forall c t, rest = c :: t -> ~ In c (str " 0123456789xyz+-*/,") /\ c <> 9%N.
(** texts that contain a fraction with denominator 0 *)
Definition zero_fraction (t : text) : Prop :=
  exists a n b1 b2 b, numeral a n /\ blanks b1 /\ blanks b2 /\ numeral b 0 /\ t = a ++ b1 ++ [chr "/"] ++ b2 ++ b.
Definition has_zero (i : text) : Prop := exists pre z post, zero_fraction z /\ i = pre ++ z ++ post.
