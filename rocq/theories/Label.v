(** Model of the label vectors of src/pgraphs.rs 18-206, with their i32 components: LabelVector2d and LabelVector3d.  The arithmetic panics
    on overflow, as in a build with overflow checks.  Hash is not modelled, Display is in Display.v. *)
From Coq Require Import List ZArith Lia Bool PeanoNat.
From Verif Require Import Base OrdSet PGraph.
Import ListNotations.
Open Scope Z_scope.

(** an i32 result *)
Definition i32 (z : Z) : outcome Z := if (- 2 ^ 31 <=? z) && (z <? 2 ^ 31) then Ret z else Panic.

(** pgraphs.rs 34-45: LabelVector2d *)
Record lv2 := LV2 { x2 : Z; y2 : Z }.
(** pgraphs.rs 54-56: zero *)
Definition zero2 : lv2 := LV2 0 0.
(** pgraphs.rs 58-60: is_zero *)
Definition is_zero2 (v : lv2) : bool := (x2 v =? 0) && (y2 v =? 0).
(** pgraphs.rs 62-65: is_negative *)
Definition is_negative2 (v : lv2) : bool := (x2 v <? 0) || (x2 v =? 0) && (y2 v <? 0).
(** pgraphs.rs 67-70: is_positive *)
Definition is_positive2 (v : lv2) : bool := (x2 v >? 0) || (x2 v =? 0) && (y2 v >? 0).
(** pgraphs.rs 72-74: to_vec *)
Definition to_vec2 (v : lv2) : list Z := [x2 v; y2 v].
(** pgraphs.rs 76-79: from_vec *)
Definition from_vec2 (l : list Z) : outcome lv2 :=
  do _ <- assert (length l =? 2)%nat; do x <- unwrap (nth_error l 0); do y <- unwrap (nth_error l 1); Ret (LV2 x y).
(** pgraphs.rs 82-88: Neg *)
Definition neg2 (v : lv2) : outcome lv2 := do x <- i32 (- x2 v); do y <- i32 (- y2 v); Ret (LV2 x y).
(** pgraphs.rs 90-96: Add *)
Definition add2 (a b : lv2) : outcome lv2 := do x <- i32 (x2 a + x2 b); do y <- i32 (y2 a + y2 b); Ret (LV2 x y).
(** pgraphs.rs 98-104: Sub *)
Definition sub2 (a b : lv2) : outcome lv2 := do x <- i32 (x2 a - x2 b); do y <- i32 (y2 a - y2 b); Ret (LV2 x y).
(** pgraphs.rs 34: the derived Ord and Eq, in the order of the fields *)
Definition cmp2 (a b : lv2) : comparison := lex (x2 a ?= x2 b) (y2 a ?= y2 b).
Definition eqb2 (a b : lv2) : bool := (x2 a =? x2 b) && (y2 a =? y2 b).

(** pgraphs.rs 113-125: LabelVector3d *)
Record lv3 := LV3 { x3 : Z; y3 : Z; z3 : Z }.
(** pgraphs.rs 134-136: zero *)
Definition zero3 : lv3 := LV3 0 0 0.
(** pgraphs.rs 138-140: is_zero *)
Definition is_zero3 (v : lv3) : bool := (x3 v =? 0) && (y3 v =? 0) && (z3 v =? 0).
(** pgraphs.rs 142-146: is_negative *)
Definition is_negative3 (v : lv3) : bool := (x3 v <? 0) || (x3 v =? 0) && (y3 v <? 0) || (x3 v =? 0) && (y3 v =? 0) && (z3 v <? 0).
(** pgraphs.rs 148-152: is_positive *)
Definition is_positive3 (v : lv3) : bool := (x3 v >? 0) || (x3 v =? 0) && (y3 v >? 0) || (x3 v =? 0) && (y3 v =? 0) && (z3 v >? 0).
(** pgraphs.rs 154-156: to_vec *)
Definition to_vec3 (v : lv3) : list Z := [x3 v; y3 v; z3 v].
(** pgraphs.rs 158-161: from_vec *)
Definition from_vec3 (l : list Z) : outcome lv3 :=
  do _ <- assert (length l =? 3)%nat; do x <- unwrap (nth_error l 0); do y <- unwrap (nth_error l 1); do z <- unwrap (nth_error l 2); Ret (LV3 x y z).
(** pgraphs.rs 164-175: Neg *)
Definition neg3 (v : lv3) : outcome lv3 := do x <- i32 (- x3 v); do y <- i32 (- y3 v); do z <- i32 (- z3 v); Ret (LV3 x y z).
(** pgraphs.rs 177-188: Add *)
Definition add3 (a b : lv3) : outcome lv3 := do x <- i32 (x3 a + x3 b); do y <- i32 (y3 a + y3 b); do z <- i32 (z3 a + z3 b); Ret (LV3 x y z).
(** pgraphs.rs 190-201: Sub *)
Definition sub3 (a b : lv3) : outcome lv3 := do x <- i32 (x3 a - x3 b); do y <- i32 (y3 a - y3 b); do z <- i32 (z3 a - z3 b); Ret (LV3 x y z).
(** pgraphs.rs 113: the derived Ord and Eq *)
Definition cmp3 (a b : lv3) : comparison := lex (x3 a ?= x3 b) (lex (y3 a ?= y3 b) (z3 a ?= z3 b)).
Definition eqb3 (a b : lv3) : bool := (x3 a =? x3 b) && (y3 a =? y3 b) && (z3 a =? z3 b).
