(** Property C69: the symmetries of symmetries.rs are the automorphisms of the infinite net that respect its translations. *)
From Coq Require Import List ZArith Lia Bool PeanoNat QArith Qcanon Permutation.
From Verif Require Import Base Partition Vec Elim Scalars Matrix LinAlg Geometry ZQ QcTac ModSolver ModSolve OrdSet PGraph Net PGraphBase Traverse Placement Placed Stability Lattices RatLattice Periodic Symmetries Automorph Group SymFront Orbits NetAuto.
From Verif Require Import Props_Placement Props_Symmetries.
Import ListNotations.
Close Scope Q_scope. Close Scope Qc_scope.
Open Scope nat_scope.

(** ** specification.  The vocabulary is in Net.v (is_node, adjacent), NetAuto.v (net_isomorphism, periodic_map, induces, translate)
    and Props_Symmetries.v (sound, symmetry, represents). *)
Definition rational (M : nat -> nat -> Z) (i j : nat) : Qc := ZQ (M i j).

(** ** C69.  A symmetry of the quotient graph, as C36-C38 find them, comes from an automorphism of the infinite net; its matrix is integral.
    The image of one node can be prescribed. *)
Theorem C69_lift : forall chk g m f F a0 b0, sound chk g -> injective (gdim g) m -> symmetry chk g m f F ->
  is_node g a0 -> is_node g b0 -> fst b0 = f (fst a0) ->
  exists M phi, (forall i j, i < gdim g -> j < gdim g -> m i j = rational M i j) /\
    net_isomorphism g g phi /\ periodic_map g M phi /\ induces g phi f F /\ phi a0 = b0.
Proof.
  intros chk g m f F a0 b0 So I Sy Ha Hb E. destruct (setup chk g So) as (pos & P & CC & LS). apply injective_linj in I.
  pose proof (so_constructed _ _ So) as C. apply (symmetry_hom chk g pos So P CC LS) in Sy; auto.
  exists (imat m), (phi g pos m f b0 a0). splits.
  - intros i j Hi Hj. apply (imat_ok g pos C CC m f F Sy b0 Hb a0 Ha E); auto.
  - apply (phi_iso g pos C CC LS m f F I Sy b0 Hb a0 Ha E).
  - apply (phi_periodic g pos C CC m f F Sy b0 Hb a0 Ha E).
  - apply (phi_induces g pos C CC m f F Sy b0 Hb a0 Ha E).
  - apply (phi_img g pos m f b0 a0). apply img0; auto.
Qed.
(** Every automorphism of the net that respects the translations induces such a symmetry: edges keep their barycentric vectors
    up to the matrix. *)
Theorem C69_descend : forall chk g M phi, sound chk g -> net_isomorphism g g phi -> periodic_map g M phi ->
  injective (gdim g) (rational M) /\ exists f F, symmetry chk g (rational M) f F /\ induces g phi f F.
Proof.
  intros chk g M phi So Iso Per. destruct (setup chk g So) as (pos & P & CC & LS). pose proof (so_constructed _ _ So) as C. destruct (so_vertex _ _ So) as [v Hv].
  assert (I : linj (gdim g) (rational M)) by (exact (M_linj g phi M Iso Per v Hv)).
  split; [apply injective_linj; auto|]. exists (ff g phi), (FF g phi M). split.
  - apply (symmetry_hom chk g pos So P CC LS); auto. apply (FF_hom chk g pos C P CC LS phi M Iso Per).
  - apply (FF_induces g C phi M Iso Per).
Qed.
(** It is determined by what it induces and by the image of one node. *)
Theorem C69_unique : forall chk g phi psi f F a0, sound chk g -> net_isomorphism g g phi -> net_isomorphism g g psi -> induces g phi f F -> induces g psi f F ->
  is_node g a0 -> phi a0 = psi a0 -> forall a, is_node g a -> phi a = psi a.
Proof.
  intros chk g phi psi f F a0 So Ip Iq [_ Hp] [_ Hq] N0 E0 a Na. destruct (setup chk g So) as (pos & P & CC & LS). pose proof (so_constructed _ _ So) as C.
  destruct (CC a0 a N0 Na) as [n W]. clear Na. induction W as [|n a0 b c W IH Nc A]; auto. specialize (IH N0 E0). destruct (walk_nodes g n a0 b W) as [_ Nb].
  apply (adjacent_dedges g C) in A as (e & He & Eh & Et & Es); auto. destruct b as [v s], c as [w t]. cbn [fst snd] in *. subst v w t.
  destruct Nb as [_ Ls]. cbn [snd] in Ls. rewrite (Hp e s), (Hq e s) by (auto; apply dedges_In; auto). rewrite IH. auto.
Qed.
(** In the barycentric placement it is an affine map with matrix M. *)
Theorem C69_affine : forall chk g M phi, sound chk g -> net_isomorphism g g phi -> periodic_map g M phi -> exists s : nat -> Qc,
  forall v x, is_node g (v, x) -> exists p q, position chk g v = Ret p /\ position chk g (fst (phi (v, x))) = Ret q /\
    forall k, k < gdim g -> (coord k q + ZQ (nth k (snd (phi (v, x))) 0%Z) =
      coord k (times (gdim g) (rational M) (map (fun j => coord j p + ZQ (nth j x 0%Z))%Qc (seq 0 (gdim g)))) + s k)%Qc.
Proof.
  intros chk g M phi So Iso Per. destruct (setup chk g So) as (pos & P & CC & LS). pose proof (so_constructed _ _ So) as C. destruct (so_vertex _ _ So) as [v0 Hv0].
  set (a0 := (v0, szero (gdim g)) : node). assert (N0 : is_node g a0) by (apply nodeO; auto).
  exists (fun k => npt pos (phi a0) k - lapp (gdim g) (rational M) (npt pos a0) k)%Qc. intros v x Na. exists (pos v), (pos (fst (phi (v, x)))). splits.
  - apply (pl_ret _ _ _ P). apply Na.
  - apply (pl_ret _ _ _ P). apply (ni_node _ _ _ Iso _ Na).
  - intros k Hk. pose proof (phi_affine chk g pos C P CC LS phi M Iso Per a0 (v, x) k N0 Na Hk) as A.
    rewrite times_mapp. change (coord k (mapp (gdim g) (rational M) (map (fun j => coord j (pos v) + ZQ (nth j x 0%Z))%Qc (seq 0 (gdim g))))) with
      (vget (mapp (gdim g) (rational M) (map (npt pos (v, x)) (seq 0 (gdim g)))) k).
    rewrite <- lapp_list by auto. change (coord k (pos (fst (phi (v, x)))) + ZQ (nth k (snd (phi (v, x))) 0%Z))%Qc with (npt pos (phi (v, x)) k).
    unfold rational. qclra.
Qed.
(** Hence the search of C37 finds every automorphism of the net that respects the translations ... *)
Theorem C69_automorphism : forall chk g M phi v w s, sound chk g -> net_isomorphism g g phi -> periodic_map g M phi -> is_vertex g v ->
  fst (phi (v, repeat 0%Z (gdim g))) = w -> exists a f F, automorphism chk g v w (affine_map (gdim g) (rational M) s) = Ret (Some a) /\ represents g a f F /\ induces g phi f F.
Proof.
  intros chk g M phi v w s So Iso Per Hv Ew. destruct (C69_descend chk g M phi So Iso Per) as (I & f & F & Sy & In).
  destruct (C37_automorphism_complete chk g (rational M) s v w So I Hv) as (r & Er & H & _).
  destruct (H f F Sy) as (a & -> & R & _). { rewrite <- Ew, (proj1 In); [auto|]. split; auto. apply repeat_length. }
  exists a, f, F. splits; auto.
Qed.
(** ... and every element of symmetries() is induced by one. *)
Theorem C69_symmetries : forall chk g syms a, sound chk g -> symmetries chk g = Ret syms -> In a syms ->
  exists M phi f F, net_isomorphism g g phi /\ periodic_map g M phi /\ induces g phi f F /\ represents g a f F /\
    xform a = affine_map (gdim g) (rational M) (fun _ => 0%Qc).
Proof.
  intros chk g syms a So Es Ha. destruct (C38_symmetries chk g So) as (syms' & E & H & _). rewrite Es in E. injection E as <-.
  destruct (H a Ha) as (m & f & F & I & Sy & R & X). destruct (so_vertex _ _ So) as [v Hv].
  destruct (C69_lift chk g m f F (v, szero (gdim g)) (f v, szero (gdim g)) So I Sy) as (M & phi & EM & Iso & Per & In & _); auto.
  { apply nodeO; auto. } { apply nodeO. apply (sym_vertex _ _ _ _ _ Sy); auto. }
  exists M, phi, f, F. splits; auto. rewrite X. unfold affine_map. f_equal. apply mk_ext. intros i j Hi Hj. apply EM; auto.
Qed.
Print Assumptions C69_lift.
Print Assumptions C69_descend.
Print Assumptions C69_unique.
Print Assumptions C69_affine.
Print Assumptions C69_automorphism.
Print Assumptions C69_symmetries.

(** ** example: the inversion of the honeycomb net, which swaps its two vertices *)
Definition inversion (a : node) : node := (3 - fst a, sneg (snd a)).
Definition minus_one (i j : nat) : Z := if i =? j then (-1)%Z else 0%Z.
Lemma honeycomb_edge e : In e (gedges honeycomb) -> head e = 1 /\ tail e = 2 /\ length (shift e) = 2.
Proof. intros He. vm_compute in He. repeat (destruct He as [<-|He]; [splits; reflexivity|]). destruct He. Qed.
Lemma honeycomb_vertex v : is_vertex honeycomb v <-> v = 1 \/ v = 2.
Proof.
  rewrite <- vertices_In. assert (E : vertices honeycomb = [1; 2]) by (vm_compute; reflexivity). rewrite E. simpl. intuition.
Qed.
Lemma inversion_node a : is_node honeycomb a -> is_node honeycomb (inversion a) /\ inversion (inversion a) = a.
Proof.
  intros [Hv L]. destruct a as [v s]. cbn [fst snd] in *. apply honeycomb_vertex in Hv. unfold inversion. cbn [fst snd]. split; [split|].
  - cbn [fst]. apply honeycomb_vertex. lia.
  - cbn [snd]. rewrite sneg_length. auto.
  - f_equal; [lia|]. seq.
Qed.
Lemma inversion_adjacent a b : is_node honeycomb a -> is_node honeycomb b -> adjacent honeycomb a b -> adjacent honeycomb (inversion a) (inversion b).
Proof.
  intros [_ La] [_ Lb] (e & He & H). destruct (honeycomb_edge e He) as (E1 & E2 & Ls). exists e. split; auto. change (gdim honeycomb) with 2 in *. rewrite E1, E2 in *.
  destruct a as [v s], b as [w t]. unfold inversion. cbn [fst snd] in *. destruct H as [(-> & -> & ->)|(-> & -> & ->)]; [right|left]; splits; auto; seq.
Qed.
Example C69_example : net_isomorphism honeycomb honeycomb inversion /\ periodic_map honeycomb minus_one inversion /\ fst (inversion (1, repeat 0%Z 2)) = 2.
Proof.
  splits; [split| |reflexivity].
  - intros a Na. apply inversion_node; auto.
  - intros a b Na Nb E. rewrite <- (proj2 (inversion_node a Na)), <- (proj2 (inversion_node b Nb)). congruence.
  - intros b Nb. exists (inversion b). apply inversion_node; auto.
  - intros a b Na Nb. split; [apply inversion_adjacent; auto|]. intros A. rewrite <- (proj2 (inversion_node a Na)), <- (proj2 (inversion_node b Nb)).
    apply inversion_adjacent; auto; apply inversion_node; auto.
  - intros [v s] t [Hv L] Lt. change (gdim honeycomb) with 2 in *. cbn [fst snd] in *. unfold inversion, translate. cbn [fst snd]. f_equal.
    destruct s as [|x [|y [|? ?]]]; try discriminate L. destruct t as [|x' [|y' [|? ?]]]; try discriminate Lt.
    unfold ztimes, minus_one, sneg, sadd. cbn [seq map fold_right zipw Nat.eqb nth]. repeat (apply (f_equal2 cons); [lia|]). reflexivity.
Qed.
