(** Specification vocabulary for periodic graphs: which edge lists are valid
    input, and the infinite periodic net a graph stands for.  Independent of
    the algorithms in PGraph.v. *)
From Coq Require Import List ZArith Lia Bool PeanoNat.
From Verif Require Import Base Vec OrdSet PGraph.
Import ListNotations.

(** all shifts have dimension d (in Rust: by typing) *)
Definition edges_of_dim (d : nat) (es : list edge) : Prop := forall e, In e es -> length (shift e) = d.

(** the graphs a user can construct *)
Definition constructed (g : graph) : Prop := exists raw, edges_of_dim (gdim g) raw /\ g = gnew (gdim g) raw.

(** a vertex is an end point of an edge *)
Definition is_vertex (g : graph) (v : nat) : Prop := exists e, In e (gedges g) /\ (v = head e \/ v = tail e).

(** The net: its nodes are pairs of a vertex and a vector; an edge (h,t,s)
    joins (h,x) and (t,x+s) for every x. *)
Definition is_node (g : graph) (a : node) : Prop := is_vertex g (fst a) /\ length (snd a) = gdim g.

Definition adjacent (g : graph) (a b : node) : Prop :=
  exists e, In e (gedges g) /\
    ((fst a = head e /\ fst b = tail e /\ snd b = sadd (snd a) (shift e)) \/
     (fst b = head e /\ fst a = tail e /\ snd a = sadd (snd b) (shift e))).

(** walks of length k between nodes *)
Inductive walk (g : graph) : nat -> node -> node -> Prop :=
| walk_0 a : is_node g a -> walk g 0 a a
| walk_S k a b c : walk g k a b -> is_node g c -> adjacent g b c -> walk g (S k) a c.

Definition joined (g : graph) (a b : node) : Prop := exists k, walk g k a b.

(** graph distance *)
Definition distance (g : graph) (a b : node) (k : nat) : Prop :=
  walk g k a b /\ forall j, j < k -> ~ walk g j a b.

(** the quotient graph: vertices linked by edges of a list, in any direction *)
Inductive linked (es : list edge) (v : nat) : nat -> Prop :=
| linked_refl : linked es v v
| linked_edge u w e : linked es v u -> In e es -> (head e = u /\ tail e = w \/ head e = w /\ tail e = u) -> linked es v w.

(** the edge list es is a spanning tree of the vertices vs: it links all of them and
    has one edge less than there are vertices *)
Definition spanning_tree (es : list edge) (vs : list nat) : Prop :=
  NoDup es /\ NoDup vs /\ S (length es) = length vs /\
  (forall e, In e es -> In (head e) vs /\ In (tail e) vs) /\
  forall v w, In v vs -> In w vs -> linked es v w.
