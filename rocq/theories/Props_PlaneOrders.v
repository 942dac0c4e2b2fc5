(** Property C104: the order of a plane point group and the crystal system reported for it (src/spacegroups/finder.rs). *)
From Coq Require Import String Ascii List ZArith NArith Lia Bool PeanoNat Permutation QArith Qcanon.
From Verif Require Import Base QcTac Vec Elim Scalars Matrix MatrixMore LinAlg ZQ Lattices Reduce Geometry Text ParseOp Table Basics Generate Group Crystal Rotation Finder Details Sense Plane CrystalSys PlaneOrders.
From Verif Require Import Props_Geometry Props_Finder Props_Crystal Props_Basics Props_Orders Props_OperatorGroups.
Import ListNotations.
Close Scope Q_scope. Close Scope Qc_scope.
Local Open Scope list_scope.
Open Scope nat_scope.

(** ** specification.  finite_group, has_order, has_mirror are in Props_Crystal.v, mat_dec in Props_Orders.v, unimodular in Props_Basics.v. *)
(** the numbers of matrices in the plane point groups of a crystal system: rotations only, and with reflections *)
Definition rotation_orders (s : crystal_system) : list nat :=
  match s with Oblique => [1; 2] | Square => [4] | Hexagonal => [3; 6] | _ => [] end.
Definition mirror_orders (s : crystal_system) : list nat :=
  match s with Rectangular => [2; 4] | Square => [8] | Hexagonal => [6; 12] | _ => [] end.

(** ** proofs *)
Lemma nodup_map_length {A B} (da : forall x y : A, {x = y} + {x <> y}) (db : forall x y : B, {x = y} + {x <> y}) (f : A -> B) l :
  (forall x y, f x = f y -> x = y) -> length (nodup db (map f l)) = length (nodup da l).
Proof.
  intros I. induction l as [|x l IH]; auto. cbn [map nodup]. destruct (in_dec db (f x) (map f l)) as [H|H], (in_dec da x l) as [H'|H']; cbn [length]; auto.
  - exfalso. apply H'. apply in_map_iff in H as (y & E & Hy). apply I in E. subst. auto.
  - exfalso. apply H. apply in_map. auto.
Qed.

(** ** C104.  For every finite group of 2x2 rational matrices the crystal system that crystal_system_and_basis_2d reports fits the number
    of different matrices: these are the ten plane point groups. *)
Theorem C104_orders : forall ops, finite_group ops -> exists s b, crystal_system_and_basis_2d ops = Ret (s, b) /\ let n := length (nodup mat_dec ops) in
  (~ has_mirror ops -> In n (rotation_orders s)) /\ (has_mirror ops -> In n (mirror_orders s)).
Proof.
  intros ops Fg. destruct (group_gs ops Fg) as [E G]. set (gs := map to2 ops) in *. destruct (crystal_total gs G) as (s & b & Es & Sy). rewrite <- E in Es. exists s, b. split; auto. intros n.
  assert (En : n = length (nodup m2_dec gs)) by (unfold n; rewrite E; apply nodup_map_length; apply of2_inj). rewrite En. clear n En. rewrite E.
  rewrite has_mirror_2 by auto. pose proof (group2_nodup gs G) as G'. pose proof (NoDup_nodup m2_dec gs) as N. set (hs := nodup m2_dec gs) in *.
  assert (I : forall a, In a hs <-> In a gs) by (intros; apply nodup_In). setoid_rewrite <- I.
  assert (C : In (length (rot2 hs)) (match s with Oblique => [1; 2] | Rectangular => [1; 2] | Square => [4] | Hexagonal => [3; 6] | _ => [] end)).
  { assert (Y : (forall a, In a gs -> pow2 a 2 = id2) -> length (rot2 hs) = 1 \/ length (rot2 hs) = 2).
    { intros Sq. apply rot_12; auto; intros c Hc O; (eapply (square_not c); [exact O|lia|apply Sq, I; auto]). }
    destruct s; cbn [system_spec] in Sy; try contradiction.
    - destruct Sy as [_ Sq]. destruct (Y Sq) as [-> | ->]; simpl; auto.
    - destruct Sy as [_ Sq]. destruct (Y Sq) as [-> | ->]; simpl; auto.
    - destruct Sy as (a & Ha & O). rewrite (rot_4 hs G' N a) by (auto; apply I; auto). simpl. auto.
    - destruct Sy as (a & Ha & O). destruct (rot_3 hs G' N a) as [-> | ->]; auto; [apply I; auto|simpl; auto|simpl; auto]. }
  split.
  - intros Nm. rewrite (no_mirrors hs) by (intros a Ha; destruct (Qc_eq_dec (det2 a) 1%Qc) as [|X]; auto; exfalso; apply Nm; eauto).
    destruct s; cbn [rotation_orders] in *; auto. exfalso. destruct Sy as [(a & Ha & D) _]. apply Nm. exists a. split; auto. apply I. auto.
  - intros (m & Hm & D). rewrite (mirrors_half hs G' N m Hm D). destruct s; cbn [mirror_orders] in *; try contradiction.
    + exfalso. apply D. apply (proj1 Sy). apply I. auto.
    + destruct C as [<-|[<-|[]]]; simpl; auto.
    + destruct C as [<-|[]]; simpl; auto.
    + destruct C as [<-|[<-|[]]]; simpl; auto.
Qed.
Print Assumptions C104_orders.
Lemma aff_mul_lin d f s g t p : 0 < d -> aff_mul (am d f s) (am d g t) = Ret p -> mat_mul (lin (am d f s)) (lin (am d g t)) = Ret (lin p).
Proof. intros Hd E. rewrite aff_mul_am in E by auto. injection E as <-. unfold am. cbn [lin]. apply mul_mk. auto. Qed.
(** The linear parts of the operators that generate returns for plane generators are such a group: the crystal system of the group is always
    determined, and fits the number of linear parts. *)
Theorem C104_generated : forall fuel gens r, gens <> [] -> Forall (unimodular 2) gens -> generate fuel gens = Ret r ->
  finite_group (map lin r) /\ exists s b, crystal_system_and_basis_2d (map lin r) = Ret (s, b) /\ let n := length (linear_parts r) in
    (~ has_mirror (map lin r) -> In n (rotation_orders s)) /\ (has_mirror (map lin r) -> In n (mirror_orders s)).
Proof.
  intros fuel gens r Ne U Er. assert (Fg : finite_group (map lin r)); [|split; auto; apply (C104_orders _ Fg)].
  assert (Hd : 0 < 2) by lia. assert (F : Forall (affine_map 2) gens) by (revert U; apply Forall_impl; intros a Ha; apply Ha).
  destruct (C48_generate 2 fuel gens r Hd Ne F Er) as ((e & Ee & E0) & _ & Af & _ & _). destruct (C48_group 2 fuel gens r Hd Ne U Er) as (M & I).
  assert (Am : forall a, In a r -> exists f s, a = am 2 f s) by (intros a Ha; apply affine_am; auto; apply Af; auto).
  assert (Ide : is_identity 2 (lin e)).
  { rewrite aff_identity_am in Ee by auto. injection Ee as <-. apply identity_is; auto. }
  constructor.
  - intros m Hm. apply in_map_iff in Hm as (a & <- & Ha). destruct (Am a Ha) as (f & s & ->). unfold am, square_matrix. cbn [lin]. splits; auto. apply mk_wf. lia.
  - exists (lin e). split; auto. apply in_map. apply (nth_error_In _ _ E0).
  - intros a b c Ha Hb E. apply in_map_iff in Ha as (x & <- & Hx), Hb as (y & <- & Hy). destruct (M x y Hx Hy) as (p & z & Ep & Hz & (_ & _ & El & _)).
    destruct (Am x Hx) as (f & s & ->), (Am y Hy) as (g & t & ->). rewrite (aff_mul_lin 2 f s g t p Hd Ep) in E. assert (c = lin p) as -> by congruence. rewrite <- El. apply in_map, Hz.
  - intros a Ha. apply in_map_iff in Ha as (x & <- & Hx). destruct (I x Hx) as (y & xy & yx & e' & Hy & _ & Eyx & Ee' & _ & (_ & _ & El & _)).
    exists (lin y), (lin e). split; [apply in_map; auto|]. split; auto. assert (e' = e) as -> by congruence. rewrite <- El.
    destruct (Am x Hx) as (f & s & ->), (Am y Hy) as (g & t & ->). apply (aff_mul_lin 2 g t f s yx Hd Eyx).
Qed.
Print Assumptions C104_generated.

(** ** cases: all ten plane point groups occur *)
Definition plane_op (l : list Z) : aff := int_op 2 l [0%Qc; 0%Qc].
Definition quarter : aff := plane_op [0; -1; 1; 0]%Z.
Definition sixth : aff := plane_op [1; -1; 1; 0]%Z.
Definition third : aff := plane_op [0; -1; 1; -1]%Z.
Definition halfturn : aff := plane_op [-1; 0; 0; -1]%Z.
Definition mirror_x : aff := plane_op [-1; 0; 0; 1]%Z.
Definition mirror_d : aff := plane_op [0; 1; 1; 0]%Z.
Definition no_turn : aff := plane_op [1; 0; 0; 1]%Z.
Definition system_and_order (gens : list aff) : outcome (crystal_system * nat) :=
  do r <- generate 8 gens; do sb <- crystal_system_and_basis_2d (map lin r); Ret (fst sb, length (linear_parts r)).
Example C104_cases : map system_and_order [[no_turn]; [halfturn]; [mirror_x]; [mirror_x; halfturn]; [quarter]; [quarter; mirror_x]; [third]; [third; mirror_d]; [sixth]; [sixth; mirror_d]] =
  map Ret [(Oblique, 1); (Oblique, 2); (Rectangular, 2); (Rectangular, 4); (Square, 4); (Square, 8); (Hexagonal, 3); (Hexagonal, 6); (Hexagonal, 6); (Hexagonal, 12)].
Proof. vm_compute. reflexivity. Qed.
Example C104_case : Forall (unimodular 2) [sixth; mirror_d].
Proof. repeat (constructor; [unimodular_op|]); constructor. Qed.
