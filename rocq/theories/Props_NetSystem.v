(** Property C105: the crystal system of a plane net (src/symmetries.rs with src/spacegroups/finder.rs). *)
From Coq Require Import List ZArith Lia Bool PeanoNat Permutation QArith Qcanon.
From Verif Require Import Base Partition Vec Elim Scalars Matrix LinAlg Geometry ZQ QcTac ModSolver ModSolve OrdSet PGraph Net PGraphBase Traverse Placement Placed Stability Lattices RatLattice Periodic Symmetries Automorph Group SymFront Orbits NetAuto Invariance SymComplete GroupOrder.
From Verif Require Import MatrixMore Text ParseOp Table Crystal Rotation Finder Details Sense.
From Verif Require Import Props_PGraph Props_Placement Props_Finder Props_Crystal Props_PlaneOrders Props_Symmetries Props_Complete Props_Net Props_MinImage Props_NetSymmetry Props_Orders Props_Restriction Props_PointGroup.
Import ListNotations.
Close Scope Q_scope. Close Scope Qc_scope.
Open Scope nat_scope.

(** ** specification.  point_matrices is in Props_PointGroup.v, rotation_orders and mirror_orders in Props_PlaneOrders.v. *)
Definition matrices (syms : list auto) : list (mat Qc) := map (fun a => lin (xform a)) syms.

Section S.
  Variables (chk : Z -> outcome Z) (g : graph) (syms : list auto).
  Hypothesis So : sound chk g.
  Hypothesis Es : symmetries chk g = Ret syms.

  Lemma net_group : gdim g = 2 -> finite_group (matrices syms).
  Proof.
    intros D. destruct (group_facts chk g syms So Es) as (pos & id & gens & P & CC & LS & Aid & Avid & Cl). pose proof (so_constructed _ _ So) as C.
    pose proof (span_edges g pos C CC (so_vertex _ _ So)) as Sp.
    assert (In_m : forall m, In m (matrices syms) <-> exists a, In a syms /\ lin (xform a) = m) by (intros m; unfold matrices; rewrite in_map_iff; split; intros (a & H1 & H2); eauto).
    assert (X : forall a m, Valid g pos a m -> lin (xform a) = mk 2 2 m) by (intros a m V; rewrite (va_x _ _ _ _ V), D; reflexivity).
    assert (Mul : forall a b c ma mb mc, Valid g pos a ma -> Valid g pos b mb -> Valid g pos c mc -> (forall e, In e (dedges g) -> act c e = act a (act b e)) ->
      mat_mul (lin (xform a)) (lin (xform b)) = Ret (lin (xform c))).
    { intros a b c ma mb mc Va Vb Vc E. rewrite (X a ma Va), (X b mb Vb), (X c mc Vc), mul_mk by lia. f_equal. apply mk_ext. rewrite <- D. intros i j Hi Hj. symmetry.
      revert i j Hi Hj. apply (matrix_determined g pos Sp). intros e He. rewrite mapp_mul.
      destruct (va_hom _ _ _ _ Vc e He) as (_ & _ & _ & <-). destruct (va_hom _ _ _ _ Vb e He) as (Ib & _ & _ & <-). destruct (va_hom _ _ _ _ Va _ Ib) as (_ & _ & _ & <-). rewrite E; auto. }
    assert (Ide : is_identity 2 (lin (xform id))).
    { destruct (cl_valid _ _ _ _ _ Cl id (cl_id _ _ _ _ _ Cl)) as (m & V). apply identity_is; [lia|]. rewrite (X id m V). apply mk_ext. rewrite <- D. apply (matrix_determined g pos Sp). intros e He.
      rewrite mapp_delta by apply evec_length. destruct (va_hom _ _ _ _ V e He) as (_ & _ & _ & <-). rewrite Aid. auto. }
    constructor.
    - intros m Hm. apply In_m in Hm as (a & Ha & <-). destruct (cl_valid _ _ _ _ _ Cl a Ha) as (m & V). rewrite (X a m V). unfold square_matrix. splits; auto. apply mk_wf. lia.
    - exists (lin (xform id)). split; auto. apply In_m. exists id. split; auto. apply (cl_id _ _ _ _ _ Cl).
    - intros x y z Hx Hy E. apply In_m in Hx as (a & Ha & <-), Hy as (b & Hb & <-). destruct (res_mul g pos id gens syms Cl a b Ha Hb) as (c & Hc & Ec & _).
      destruct (cl_valid _ _ _ _ _ Cl a Ha) as (ma & Va), (cl_valid _ _ _ _ _ Cl b Hb) as (mb & Vb), (cl_valid _ _ _ _ _ Cl c Hc) as (mc & Vc).
      rewrite (Mul a b c ma mb mc Va Vb Vc Ec) in E. injection E as <-. apply In_m. eauto.
    - intros x Hx. apply In_m in Hx as (a & Ha & <-). destruct (res_inv g pos CC LS id gens syms Aid Cl a Ha) as (b & Hb & Eb & _). exists (lin (xform b)), (lin (xform id)). split; [apply In_m; eauto|]. split; auto.
      destruct (cl_valid _ _ _ _ _ Cl a Ha) as (ma & Va), (cl_valid _ _ _ _ _ Cl b Hb) as (mb & Vb), (cl_valid _ _ _ _ _ Cl id (cl_id _ _ _ _ _ Cl)) as (mi & Vi).
      apply (Mul b a id mb ma mi Vb Va Vi). intros e He. rewrite Aid. symmetry. apply Eb. auto.
  Qed.
  Lemma same_count : length (nodup mat_dec (matrices syms)) = length (point_matrices syms).
  Proof.
    destruct (group_facts chk g syms So Es) as (pos & id & gens & P & CC & LS & Aid & Avid & Cl). unfold point_matrices, matrices. rewrite <- (map_map xform lin).
    assert (I : forall x y, In x (map xform syms) -> In y (map xform syms) -> lin x = lin y -> x = y).
    { intros x y Hx Hy E. apply in_map_iff in Hx as (a & <- & Ha), Hy as (b & <- & Hb). destruct (cl_valid _ _ _ _ _ Cl a Ha) as (ma & Va), (cl_valid _ _ _ _ _ Cl b Hb) as (mb & Vb).
      rewrite (va_x _ _ _ _ Va), (va_x _ _ _ _ Vb) in *. unfold am in *. cbn [lin] in E. congruence. }
    revert I. generalize (map xform syms). induction l as [|x l IH]; intros I; auto. cbn [map nodup].
    assert (IH' : length (nodup mat_dec (map lin l)) = length (nodup aff_dec l)) by (apply IH; intros; apply I; simpl; auto).
    destruct (in_dec mat_dec (lin x) (map lin l)) as [H|H], (in_dec aff_dec x l) as [H'|H']; cbn [length]; auto.
    - exfalso. apply H'. apply in_map_iff in H as (y & E & Hy). rewrite (I x y); simpl; auto.
    - exfalso. apply H. apply in_map. auto.
  Qed.
End S.

(** ** C105.  For a net in the plane the matrices of the symmetries are a finite group, so crystal_system_and_basis_2d determines its crystal system,
    and the number of symmetries is the order of a plane point group of that system times the number of translations among them. *)
Theorem C105_plane_nets : forall chk g syms, sound chk g -> gdim g = 2 -> symmetries chk g = Ret syms ->
  finite_group (matrices syms) /\ exists s b n, crystal_system_and_basis_2d (matrices syms) = Ret (s, b) /\
    length syms = n * count_occ aff_dec (map xform syms) (translation_map 2) /\
    (~ has_mirror (matrices syms) -> In n (rotation_orders s)) /\ (has_mirror (matrices syms) -> In n (mirror_orders s)).
Proof.
  intros chk g syms So D Es. pose proof (net_group chk g syms So Es D) as Fg. split; auto. destruct (C104_orders _ Fg) as (s & b & E & H). exists s, b, (length (point_matrices syms)).
  rewrite (same_count chk g syms So Es) in H. cbn zeta in H. destruct H as [H1 H2]. splits; auto. pose proof (C100_point_group chk g syms So Es) as L. fold (point_matrices syms) in L. rewrite D in L. exact L.
Qed.
Print Assumptions C105_plane_nets.
(** the honeycomb net is hexagonal *)
Example C105_case : exists syms, symmetries chk64 honeycomb = Ret syms /\ omap fst (crystal_system_and_basis_2d (matrices syms)) = Ret Hexagonal /\ length (point_matrices syms) = 12.
Proof. eexists. split; [vm_compute; reflexivity|]. split; vm_compute; reflexivity. Qed.
