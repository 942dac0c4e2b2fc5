(** Specification for the shipped table of space groups: the group of a setting.

    The points are lists of coordinates; plus, coordinate and from_coordinates are from Props_Lattices.v. *)
From Coq Require Import List ZArith Lia Bool PeanoNat QArith Qcanon.
From Verif Require Import Base Vec Scalars ZQ Matrix Geometry Text ParseOp Cgd Table Lattices Props_Lattices.
Import ListNotations.
Close Scope Q_scope. Close Scope Qc_scope.
Open Scope nat_scope.

(** the image of a point: the i-th coordinate is the sum of m_ij x_j, plus the i-th coordinate of the shift *)
Definition moved (n : nat) (a : @affine Qc) (x : list Qc) : list Qc :=
  from_coordinates n (fun i => (fold_right Qcplus 0 (map (fun j => ent (lin a) i j * coordinate j x) (seq 0 n)) + ent (shift a) i 0)%Qc).
(** an integer vector *)
Definition whole (n : nat) (z : list Z) : list Qc := from_coordinates n (fun i => ZQ (nth i z 0%Z)).
(** The group of a list of operators: every operator, followed by a translation by an integer vector. *)
Definition in_group (n : nat) (ops : list (@affine Qc)) (f : list Qc -> list Qc) : Prop :=
  exists op z, In op ops /\ forall x, point n x -> f x = plus n (moved n op x) (whole n z).
(** a map that undoes f and that f undoes *)
Definition undoes (n : nat) (f g : list Qc -> list Qc) : Prop := forall x, point n x -> f (g x) = x /\ g (f x) = x.
(** Two operators that differ by a translation by an integer vector *)
Definition same_up_to_translation (n : nat) (a b : @affine Qc) : Prop := exists z, forall x, point n x -> moved n a x = plus n (moved n b x) (whole n z).
(** the operators of a setting: affine maps of the dimension n with integers in the linear part; together with the integer translations they form a group; none is listed twice *)
Definition integral (n : nat) (a : @affine Qc) : Prop := forall i j, i < n -> j < n -> exists z, ent (lin a) i j = ZQ z.
Record space_group (n : nat) (ops : list (@affine Qc)) : Prop := {
  sg_integral : Forall (integral n) ops;
  sg_identity : in_group n ops (fun x => x);
  sg_product : forall f g, in_group n ops f -> in_group n ops g -> in_group n ops (fun x => f (g x));
  sg_inverse : forall f, in_group n ops f -> exists g, in_group n ops g /\ undoes n f g;
  sg_once : forall i j a b, i < j -> nth_error ops i = Some a -> nth_error ops j = Some b -> ~ same_up_to_translation n a b }.
(** Two lists of operators describe the same group in different coordinates; the map t leads from the coordinates of the first to those of the second, u leads back. *)
Definition same_group (n : nat) (t u : list Qc -> list Qc) (ops1 ops2 : list (@affine Qc)) : Prop :=
  undoes n t u /\
  (forall f, in_group n ops1 f -> in_group n ops2 (fun x => t (f (u x)))) /\
  (forall g, in_group n ops2 g -> in_group n ops1 (fun x => u (g (t x)))).

(** matrices and shifts of the dimension n *)
Definition sized (n : nat) (a : @affine Qc) : Prop := nrows (lin a) = n /\ ncols (lin a) = n /\ nrows (shift a) = n /\ ncols (shift a) = 1.

(** ** centerings: the translations of a cell modulo the integer translations *)
Local Open Scope Z_scope.
Definition fraction (a b : Z) : Qc := (ZQ a / ZQ b)%Qc.
Definition centering_vectors (c : centering) : list (list Qc) :=
  let o := ZQ 0 in let half := fraction 1 2 in let third := fraction 1 3 in let two_thirds := fraction 2 3 in
  match c with
  | Primitive2d => [[o; o]]
  | Centered2d => [[o; o]; [half; half]]
  | Primitive => [[o; o; o]]
  | BodyCentered => [[o; o; o]; [half; half; half]]
  | FaceCentered => [[o; o; o]; [o; half; half]; [half; o; half]; [half; half; o]]
  | AFaceCentered => [[o; o; o]; [o; half; half]]
  | BFaceCentered => [[o; o; o]; [half; o; half]]
  | CFaceCentered => [[o; o; o]; [half; half; o]]
  | Rhombohedral => [[o; o; o]; [two_thirds; third; third]; [third; two_thirds; two_thirds]]
  end.
Close Scope Z_scope.
(** In the coordinates reached with t (u leads back) the translations of the group are exactly those of the centering. *)
Definition centered (n : nat) (t u : list Qc -> list Qc) (ops : list (@affine Qc)) (c : centering) : Prop :=
  forall v, point n v -> (in_group n ops (fun x => u (plus n (t x) v)) <-> exists w z, In w (centering_vectors c) /\ v = plus n w (whole n z)).

(** ** crystal systems in space: the rotation of an operator is its linear part, multiplied by the determinant; the trace of the rotation is
    3, -1, 0, 1, 2 for rotations of order 1, 2, 3, 4, 6 *)
Definition determinant3 (m : mat Qc) : Qc :=
  (ent m 0 0 * (ent m 1 1 * ent m 2 2 - ent m 1 2 * ent m 2 1) - ent m 0 1 * (ent m 1 0 * ent m 2 2 - ent m 1 2 * ent m 2 0) + ent m 0 2 * (ent m 1 0 * ent m 2 1 - ent m 1 1 * ent m 2 0))%Qc.
Definition rotation_trace (op : @affine Qc) : Qc := (determinant3 (lin op) * (ent (lin op) 0 0 + ent (lin op) 1 1 + ent (lin op) 2 2))%Qc.
Definition with_trace (ops : list (@affine Qc)) (t : Z) : nat := length (filter (fun op => Qc_eqb (rotation_trace op) (ZQ t)) ops).
(** the number of rotations of the group with this trace: every rotation comes from the same number of operators *)
Definition rotations (ops : list (@affine Qc)) (t : Z) (k : nat) : Prop := with_trace ops t = k * with_trace ops 3%Z.
Definition no_more (ops : list (@affine Qc)) (ts : list Z) : Prop := Forall (fun t => with_trace ops t = 0) ts.
(** triclinic: no rotation; monoclinic: one rotation of order 2; orthorhombic: three rotations of order 2; tetragonal: two rotations of order 4;
    trigonal: two rotations of order 3; hexagonal: two rotations of order 6; cubic: eight rotations of order 3 *)
Definition system3 (ops : list (@affine Qc)) (s : crystal_system) : Prop :=
  0 < with_trace ops 3%Z /\
  match s with
  | Triclinic => no_more ops [-1; 0; 1; 2]%Z
  | Monoclinic => rotations ops (-1)%Z 1 /\ no_more ops [0; 1; 2]%Z
  | Orthorhombic => rotations ops (-1)%Z 3 /\ no_more ops [0; 1; 2]%Z
  | Tetragonal => rotations ops 1%Z 2 /\ no_more ops [0; 2]%Z
  | Trigonal => rotations ops 0%Z 2 /\ no_more ops [1; 2]%Z
  | Hexagonal => rotations ops 2%Z 2 /\ no_more ops [1]%Z
  | Cubic => rotations ops 0%Z 8 /\ no_more ops [2]%Z
  | Oblique | Rectangular | Square => False
  end.
