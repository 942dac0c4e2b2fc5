(** Model of src/spacegroups/lattices.rs over BigRational ([Qc]), the only type
    that implements Coord (types.rs 32).

    The scalar product is a function argument in the code and in the model.
    Vectors are lists; the code indexes the second vector with the indices of
    the first one, the model pairs the entries (same for vectors of equal
    length, which dirichlet_vectors asserts).  Loops without an obvious bound
    take the fuel as an argument: a Timeout for every fuel is a run that does
    not end. *)
From Coq Require Import List ZArith Lia Bool PeanoNat QArith Qcanon Qround.
From Verif Require Import Base Vec Elim Scalars ZQ OrdSet.
Import ListNotations.
Close Scope Q_scope. Close Scope Qc_scope.
Open Scope nat_scope.

Notation qvec := (list Qc).

(** lattices.rs 189-214: neg, add, sub, mul *)
Definition lneg (v : qvec) : qvec := map Qcopp v.
Definition ladd (v w : qvec) : qvec := zipw Qcplus v w.
Definition lsub (v w : qvec) : qvec := zipw Qcminus v w.
Definition lmulc (v : qvec) (t : Qc) : qvec := map (fun x => x * t)%Qc v.

(** comparisons of BigRational *)
Definition q_ltb (a b : Qc) : bool := match (a ?= b)%Qc with Lt => true | _ => false end.
Definition q_pos (a : Qc) : bool := q_ltb 0%Qc a.
Definition q_neg (a : Qc) : bool := q_ltb a 0%Qc.
(** types.rs 33-35: round (num_rational: to the nearest integer, halves away from zero) *)
Definition q_round (a : Qc) : Qc :=
  if q_neg a then Qcopp (ZQ (Qfloor (- a + Q2Qc (1 # 2))%Qc)) else ZQ (Qfloor (a + Q2Qc (1 # 2))%Qc).

(** num_rational: division panics for a zero divisor *)
Definition q_div (a b : Qc) : outcome Qc := if Qc_eqb b 0%Qc then Panic else Ret (a / b)%Qc.

Section Dot.
  Variables (dot : qvec -> qvec -> Qc) (eps : Qc).

  (** lattices.rs 12-36: shift_for_dirichlet_domain; one run of the for loop *)
  Definition sd_pass (pos : qvec) (vs : list qvec) (st : qvec * bool) : outcome (qvec * bool) :=
    foldM (fun st v =>
      let '(shift, proceed) := st in
      do t <- q_div (dot (ladd pos shift) v) (dot v v);
      let t2 := (t + t)%Qc in
      Ret (if q_ltb t2 (-(1))%Qc || q_ltb (1 + eps)%Qc t2 then (lsub shift (lmulc v (q_round t)), true) else (shift, proceed))) st vs.
  Definition sd_body (pos : qvec) (vs : list qvec) (shift : qvec) : outcome (qvec + qvec) :=
    do (shift', proceed) <- sd_pass pos vs (shift, false);
    Ret (if proceed then inl shift' else inr shift').
  Definition shift_for_dirichlet_domain (fuel : nat) (p : qvec) (vs : list qvec) : outcome qvec :=
    loop (sd_body p vs) fuel (repeat 0%Qc (length p)).

  (** lattices.rs 106-130: lagrange_reduced *)
  Definition lr_body (st : qvec * qvec) : outcome ((qvec * qvec) + (qvec * qvec)) :=
    let '(u, v) := st in
    if q_ltb (dot u u) (dot v v * (1 - eps))%Qc then
      do t <- q_div (dot u v) (dot u u);
      Ret (inl (lsub v (lmulc u (q_round t)), u))
    else Ret (inr (u, v)).
  Definition lagrange_reduced (fuel : nat) (u v : qvec) : outcome (qvec * qvec) :=
    let '(u, v) := if q_ltb (dot v v) (dot u u) then (v, u) else (u, v) in
    do (u, v) <- loop lr_body fuel (u, v);
    Ret (u, if q_pos (dot u v) then lneg v else v).

  (** lattices.rs 133-163: selling_reduced *)
  Definition sel (vs : list qvec) (k : nat) : qvec := nth k vs [].
  Definition selling_step (st : list qvec * bool) (ij : nat * nat) : list qvec * bool :=
    let '(vs, changed) := st in
    let '(i, j) := ij in
    if q_ltb eps (dot (sel vs i) (sel vs j)) then
      (map (fun k => if k =? i then lneg (sel vs i) else if k =? j then sel vs j else ladd (sel vs k) (sel vs i)) (seq 0 4), true)
    else (vs, changed).
  Definition selling_pairs : list (nat * nat) :=
    flat_map (fun i => map (fun j => (i, j)) (seq (i + 1) (4 - (i + 1)))) (seq 0 3).
  Definition selling_body (vs : list qvec) : outcome (list qvec + list qvec) :=
    let '(vs', changed) := fold_left selling_step selling_pairs (vs, false) in
    Ret (if changed then inl vs' else inr vs').
  Definition selling_reduced (fuel : nat) (u v w : qvec) : outcome (qvec * qvec * qvec) :=
    let s := lneg (ladd (ladd u v) w) in
    do vs <- loop selling_body fuel [u; v; w; s];
    Ret (sel vs 0, sel vs 1, sel vs 2).

  (** lattices.rs 77-103: dirichlet_vectors *)
  Definition dirichlet_vectors (fuel : nat) (basis : list qvec) : outcome (list qvec) :=
    do _ <- assert (forallb (fun v => length v =? length basis) basis);
    match basis with
    | [] => Ret basis
    | [_] => Ret basis
    | [b0; b1] => do (u, v) <- lagrange_reduced fuel b0 b1;
                  Ret [u; v; ladd u v]
    | [b0; b1; b2] => do (u, v, w) <- selling_reduced fuel b0 b1 b2;
                      let uv := ladd u v in
                      Ret [u; v; w; uv; ladd u w; ladd v w; ladd uv w]
    | _ => Panic
    end.

  (** lattices.rs 177-186: positive_direction *)
  Definition positive_direction (v : qvec) : qvec :=
    match find (fun x => negb (Qc_eqb x 0%Qc)) v with
    | Some x => if q_neg x then lneg v else v
    | None => v
    end.
  (** PartialOrd of Vec *)
  Fixpoint qv_cmp (a b : qvec) : comparison :=
    match a, b with
    | [], [] => Eq
    | [], _ => Lt
    | _, [] => Gt
    | x :: a', y :: b' => lex (x ?= y)%Qc (qv_cmp a' b')
    end.
  (** lattices.rs 47-54: the order used for sorting *)
  Definition rl_cmp (v w : qvec) : comparison :=
    lex (dot v v ?= dot w w)%Qc (qv_cmp (positive_direction w) (positive_direction v)).
  (** slice::sort_by (stable) *)
  Fixpoint insert_by (cmp : qvec -> qvec -> comparison) (x : qvec) (l : list qvec) : list qvec :=
    match l with
    | [] => [x]
    | y :: l' => match cmp x y with Gt => y :: insert_by cmp x l' | _ => x :: l end
    end.
  Definition sort_by (cmp : qvec -> qvec -> comparison) (l : list qvec) : list qvec := fold_right (insert_by cmp) [] l.

  (** lattices.rs 166-174: rank *)
  Definition lrank (vs : list qvec) : outcome nat := omap (@length qvec) (extend_all [] vs).

  (** lattices.rs 56-71: the loop of reduced_lattice_basis; [a] are the vectors kept so far *)
  Fixpoint rl_loop (dim : nat) (a : list qvec) (ws : list qvec) : outcome (option (list qvec)) :=
    match ws with
    | [] => Ret None
    | w :: ws =>
        let w := map (fun x => if q_ltb (if q_neg x then (- x)%Qc else x) eps then 0%Qc else x) w in
        let w' := match a with
                  | [] => w
                  | a0 :: _ => if q_pos (dot a0 w) then lneg w else w
                  end in
        let a' := a ++ [w'] in
        do r <- lrank a';
        if r <? length a' then rl_loop dim a ws
        else if dim <=? length a' then Ret (Some a')
        else rl_loop dim a' ws
    end.
  (** lattices.rs 39-74: reduced_lattice_basis *)
  Definition reduced_lattice_basis (fuel : nat) (vs : list qvec) : outcome (option (list qvec)) :=
    do v0 <- unwrap (nth_error vs 0);
    do ws <- dirichlet_vectors fuel vs;
    rl_loop (length v0) [] (sort_by rl_cmp ws).
End Dot.

(** num_traits: BigInt::to_i32 *)
Definition to_i32 (z : Z) : option Z := if ((-2 ^ 31 <=? z) && (z <? 2 ^ 31))%Z then Some z else None.
(** lattices.rs 254-260 and symmetries.rs 306-312: r_to_i32 *)
Definition r_to_i32 (x : Qc) : option Z := if (Qden x =? 1)%positive then to_i32 (Qnum x) else None.

(** lattices.rs 221-227: the least common denominator *)
Definition common_denom (vs : list qvec) : Z :=
  fold_left (fun c (x : Qc) => c * (Zpos (Qden x) / Z.gcd c (Zpos (Qden x))))%Z (concat vs) 1%Z.

(** lattices.rs 217-251: rational_lattice_basis.  The i32 arithmetic of extend_basis is
    unbounded here (see C04 for the size of its coefficients). *)
Definition rational_lattice_basis (vs : list qvec) : outcome (list qvec) :=
  do v0 <- unwrap (nth_error vs 0);
  let dim := length v0 in
  do c <- unwrap (to_i32 (common_denom vs));
  let f := ZQ c in
  do basis <- foldM (fun bs k => extend_basis (map (fun j => if j =? k then c else 0%Z) (seq 0 dim)) bs) [] (seq 0 dim);
  do basis <- foldM (fun bs d => do d' <- mapM (fun x => unwrap (r_to_i32 (x * f)%Qc)) d; extend_basis d' bs) basis vs;
  Ret (map (map (fun x => ZQ x / f)%Qc) basis).
