(** Texts and the parser combinators of the crate nom (version 7.1.3) that the code uses.

    A &str is a list of Unicode scalar values, given by their numbers. *)
From Coq Require Import String Ascii List ZArith NArith Lia Bool PeanoNat.
From Verif Require Import Base.
Import ListNotations.
Local Open Scope list_scope.
Open Scope nat_scope.

Notation char := N (only parsing).
Notation text := (list N).
(** the text of a Coq string, for examples *)
Definition str (s : string) : text := map N_of_ascii (list_ascii_of_string s).
Definition chr (a : ascii) : char := N_of_ascii a.

(** IResult: the remaining input and a value, Err::Error (alternatives are tried), Err::Failure
    (the whole parser fails), or a panic.  The error values are not modelled. *)
Inductive presult (A : Type) : Type :=
| POk (rest : text) (a : A)
| PError
| PFailure
| PPanic.
Arguments POk {A} rest a.
Arguments PError {A}.
Arguments PFailure {A}.
Arguments PPanic {A}.
Notation parser A := (text -> presult A).

Definition pbind {A B} (m : presult A) (f : text -> A -> presult B) : presult B :=
  match m with POk rest a => f rest a | PError => PError | PFailure => PFailure | PPanic => PPanic end.
(** nom::combinator::map_opt *)
Definition map_opt {A B} (p : parser A) (f : A -> option B) : parser B :=
  fun i => pbind (p i) (fun r a => match f a with Some b => POk r b | None => PError end).
(** map_opt with a function that may panic *)
Definition map_out {A B} (p : parser A) (f : A -> outcome (option B)) : parser B :=
  fun i => pbind (p i) (fun r a => match f a with Ret (Some b) => POk r b | Ret None => PError | _ => PPanic end).
(** nom::branch::alt, for two parsers *)
Definition alt {A} (p q : parser A) : parser A :=
  fun i => match p i with PError => q i | r => r end.
(** nom::sequence *)
Definition pair_ {A B} (p : parser A) (q : parser B) : parser (A * B) :=
  fun i => pbind (p i) (fun r a => pbind (q r) (fun r' b => POk r' (a, b))).
Definition preceded {A B} (p : parser A) (q : parser B) : parser B :=
  fun i => pbind (p i) (fun r _ => q r).
Definition separated_pair {A B C} (p : parser A) (s : parser B) (q : parser C) : parser (A * C) :=
  fun i => pbind (p i) (fun r a => pbind (s r) (fun r' _ => pbind (q r') (fun r'' c => POk r'' (a, c)))).
Definition delimited {A B C} (p : parser A) (q : parser B) (s : parser C) : parser B :=
  fun i => pbind (p i) (fun r _ => pbind (q r) (fun r' b => pbind (s r') (fun r'' _ => POk r'' b))).
(** nom::combinator::opt *)
Definition opt {A} (p : parser A) : parser (option A) :=
  fun i => match p i with POk r a => POk r (Some a) | PError => POk i None | PFailure => PFailure | PPanic => PPanic end.
(** nom::combinator::cut *)
Definition cut {A} (p : parser A) : parser A :=
  fun i => match p i with PError => PFailure | r => r end.
(** nom::multi::many0; each round must consume something, so as many rounds as there are characters are enough *)
Fixpoint many0_ {A} (fuel : nat) (p : parser A) (acc : list A) (i : text) : presult (list A) :=
  match p i with
  | PError => POk i acc
  | PFailure => PFailure
  | PPanic => PPanic
  | POk r a => if Nat.eqb (length r) (length i) then PError else
      match fuel with 0 => PError | S fuel' => many0_ fuel' p (acc ++ [a]) r end
  end.
Definition many0 {A} (p : parser A) : parser (list A) := fun i => many0_ (length i) p [] i.
(** nom::multi: the loop of separated_list0 and separated_list1 after the first element *)
Fixpoint sep_loop {A B} (fuel : nat) (s : parser B) (p : parser A) (acc : list A) (i : text) : presult (list A) :=
  match s i with
  | PError => POk i acc
  | PFailure => PFailure
  | PPanic => PPanic
  | POk r _ => if Nat.eqb (length r) (length i) then PError else
      match p r with
      | PError => POk i acc
      | PFailure => PFailure
      | PPanic => PPanic
      | POk r' a => match fuel with 0 => PError | S fuel' => sep_loop fuel' s p (acc ++ [a]) r' end
      end
  end.
Definition separated_list1 {A B} (s : parser B) (p : parser A) : parser (list A) :=
  fun i => pbind (p i) (fun r a => sep_loop (length r) s p [a] r).
Definition separated_list0 {A B} (s : parser B) (p : parser A) : parser (list A) :=
  fun i => match p i with PError => POk i [] | PFailure => PFailure | PPanic => PPanic | POk r a => sep_loop (length r) s p [a] r end.

(** the longest prefix whose characters satisfy f, and the rest *)
Fixpoint span (f : char -> bool) (i : text) : text * text :=
  match i with
  | [] => ([], [])
  | c :: i' => if f c then let '(a, b) := span f i' in (c :: a, b) else ([], i)
  end.
(** nom::character::complete: space0 and space1 accept blanks and tabulators, digit1 the digits 0-9 *)
Definition is_blank (c : char) : bool := N.eqb c 32 || N.eqb c 9.
Definition is_digit (c : char) : bool := N.leb 48 c && N.leb c 57.
Definition space0 : parser text := fun i => let '(a, r) := span is_blank i in POk r a.
Definition space1 : parser text := fun i => match span is_blank i with ([], _) => PError | (a, r) => POk r a end.
Definition digit1 : parser text := fun i => match span is_digit i with ([], _) => PError | (a, r) => POk r a end.
Definition char_ (c : char) : parser char := fun i => match i with x :: r => if N.eqb x c then POk r x else PError | [] => PError end.
Definition one_of (cs : text) : parser char := fun i => match i with x :: r => if existsb (N.eqb x) cs then POk r x else PError | [] => PError end.
(** nom::bytes::complete::take_till1: the longest non-empty prefix without a character that satisfies f *)
Definition take_till1 (f : char -> bool) : parser text :=
  fun i => match span (fun c => negb (f c)) i with ([], _) => PError | (a, r) => POk r a end.
(** nom::bytes::complete::take_until1, for a text of one character: the non-empty text before its first occurrence *)
Definition take_until1 (c : char) : parser text :=
  fun i => match span (fun x => negb (N.eqb x c)) i with ([], _) => PError | (_, []) => PError | (a, r) => POk r a end.
(** nom::combinator::rest *)
Definition rest_ : parser text := fun i => POk [] i.
