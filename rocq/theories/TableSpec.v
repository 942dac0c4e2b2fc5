(** Specification for the table of space groups: what the lines of the file say, and the table they describe. *)
From Coq Require Import String Ascii List ZArith NArith Lia Bool PeanoNat QArith Qcanon.
From Verif Require Import Base Scalars Matrix Shapes Geometry Text ParseOp Table.
Import ListNotations.
Close Scope Q_scope. Close Scope Qc_scope.
Local Open Scope list_scope.
Open Scope nat_scope.

(** ** words *)
Definition white (c : N) : Prop :=
  (9 <= c <= 13)%N \/ In c [32; 133; 160; 5760; 8232; 8233; 8239; 8287; 12288]%N \/ (8192 <= c <= 8202)%N.
(** b is what is left of a text without white space at both ends *)
Definition ends_solid (t : text) : Prop := forall c, (hd_error t = Some c \/ hd_error (rev t) = Some c) -> ~ white c.
Definition trimmed (t u : text) : Prop := exists a b, t = a ++ u ++ b /\ Forall white a /\ Forall white b /\ ends_solid u.
(** the words of a text *)
Inductive words_of : text -> list text -> Prop :=
| words_none t : Forall white t -> words_of t []
| words_more b w t ws : Forall white b -> w <> [] -> Forall (fun c => ~ white c) w -> (forall c r, t = c :: r -> white c) -> words_of t ws -> words_of (b ++ w ++ t) (w :: ws).

(** ** lines *)
Inductive item :=
| Nothing
| Operator (op : @affine Qc)
| Alias (a b : text)
| LookupLine (e : lookup_entry)
| Header (name : text) (transform : @cmap Qc).
(** a line says something, or reading the table fails there, or it panics there *)
Inductive line_result := Says (i : item) | Fails | Panics.
Definition begins (c : N) (t : text) : Prop := exists r, t = c :: r.
(** the coordinate change denoted by words, with single blanks between them *)
Definition change_text (ws : list text) : outcome (option (@cmap Qc)) := cmap_from_string (join ws).
Section Lines.
  Variable lower : text -> text.
  (** lookup lines: the name, the crystal system, the centering, and the coordinate change *)
  Inductive lookup_line : list text -> line_result -> Prop :=
  | lookup_says w name s c rest system centr m : change_text rest = Ret (Some m) -> system_from_string lower s = Some system -> centering_from_string c = Some centr ->
      lookup_line (w :: name :: s :: c :: rest) (Says (LookupLine (LookupEntry name system centr m)))
  | lookup_short ws : length ws < 4 -> lookup_line ws Panics
  | lookup_panics w name s c rest : change_text rest = Panic -> lookup_line (w :: name :: s :: c :: rest) Panics
  | lookup_fails w name s c rest o : change_text rest = Ret o -> (o = None \/ system_from_string lower s = None \/ centering_from_string c = None) -> lookup_line (w :: name :: s :: c :: rest) Fails.
  Inductive table_line : text -> line_result -> Prop :=
  | line_blank t : Forall white t -> table_line t (Says Nothing)
  | line_comment t u : trimmed t u -> begins (chr "#") u -> table_line t (Says Nothing)
  | line_operator t u op : trimmed t u -> u <> [] -> ~ begins (chr "#") u -> begins 32%N t -> aff_from_string u = Ret (Some op) -> table_line t (Says (Operator op))
  | line_operator_fails t u : trimmed t u -> u <> [] -> ~ begins (chr "#") u -> begins 32%N t -> aff_from_string u = Ret None -> table_line t Fails
  | line_operator_panics t u : trimmed t u -> u <> [] -> ~ begins (chr "#") u -> begins 32%N t -> aff_from_string u = Panic -> table_line t Panics
  | line_alias t u w a b ws : trimmed t u -> ~ begins (chr "#") u -> ~ begins 32%N t -> words_of t (w :: a :: b :: ws) -> lower w = str "alias" -> table_line t (Says (Alias a b))
  | line_alias_short t u w ws : trimmed t u -> ~ begins (chr "#") u -> ~ begins 32%N t -> words_of t (w :: ws) -> lower w = str "alias" -> length ws < 2 -> table_line t Panics
  | line_lookup t u w ws r : trimmed t u -> ~ begins (chr "#") u -> ~ begins 32%N t -> words_of t (w :: ws) -> lower w = str "lookup" -> lookup_line (w :: ws) r -> table_line t r
  | line_header t u w ws m : trimmed t u -> ~ begins (chr "#") u -> ~ begins 32%N t -> words_of t (w :: ws) -> lower w <> str "alias" -> lower w <> str "lookup" ->
      change_text ws = Ret (Some m) -> table_line t (Says (Header w m))
  | line_header_fails t u w ws : trimmed t u -> ~ begins (chr "#") u -> ~ begins 32%N t -> words_of t (w :: ws) -> lower w <> str "alias" -> lower w <> str "lookup" ->
      change_text ws = Ret None -> table_line t Fails
  | line_header_panics t u w ws : trimmed t u -> ~ begins (chr "#") u -> ~ begins 32%N t -> words_of t (w :: ws) -> lower w <> str "alias" -> lower w <> str "lookup" ->
      change_text ws = Panic -> table_line t Panics.
End Lines.

(** ** the table described by items *)
Definition is_header (i : item) : Prop := exists n m, i = Header n m.
(** every operator comes after a header *)
Definition attached (items : list item) : Prop := forall a op b, items = a ++ Operator op :: b -> exists i, In i a /\ is_header i.
(** a map that leaves all coordinates unchanged *)
Definition identity_map (m : @cmap Qc) : Prop :=
  nrows (lin (fwd m)) = ncols (lin (fwd m)) /\
  (forall i j, i < nrows (lin (fwd m)) -> j < ncols (lin (fwd m)) -> ent (lin (fwd m)) i j = if i =? j then 1%Qc else 0%Qc) /\
  (forall i, i < nrows (shift (fwd m)) -> ent (shift (fwd m)) i 0 = 0%Qc).
(** the name of the last header with such a map; no name if there is none *)
Definition canonical_name (items : list item) (c : text) : Prop :=
  (exists a m b, items = a ++ Header c m :: b /\ identity_map m /\ forall n m', In (Header n m') b -> ~ identity_map m') \/
  ((forall n m', In (Header n m') items -> ~ identity_map m') /\ c = []).
(** the operators before the next header *)
Definition operators_of (items : list item) : list (@affine Qc) := flat_map (fun i => match i with Operator op => [op] | _ => [] end) items.
Definition following_operators (items : list item) (ops : list (@affine Qc)) : Prop :=
  exists a b, items = a ++ b /\ (forall i, In i a -> ~ is_header i) /\ (b = [] \/ exists i r, b = i :: r /\ is_header i) /\ ops = operators_of a.
(** the setting with a given name: the last header with this name *)
Definition describes (items : list item) (n : text) (e : table_entry) : Prop :=
  exists a b, items = a ++ Header n (te_transform e) :: b /\ (forall m, ~ In (Header n m) b) /\ te_name e = n /\
    canonical_name (a ++ [Header n (te_transform e)]) (te_canonical e) /\ following_operators b (te_operators e).
Definition table_of (items : list item) (t : tables) : Prop :=
  (forall n e, get n (settings t) = Some e <-> describes items n e) /\
  (forall a b, get a (alias t) = Some b <-> exists x y, items = x ++ Alias a b :: y /\ forall b', ~ In (Alias a b') y) /\
  lookup t = flat_map (fun i => match i with LookupLine e => [e] | _ => [] end) items.
