(** Property C102: the order of the point group of a net of dimension at most 3. *)
From Coq Require Import List ZArith Lia Bool PeanoNat QArith Qcanon Permutation.
From Verif Require Import Base Partition Vec Elim Scalars Matrix LinAlg Geometry ZQ QcTac ModSolver ModSolve OrdSet PGraph Net PGraphBase Traverse Placement Placed Stability Lattices RatLattice Periodic Symmetries Automorph Group SymFront Orbits NetAuto Invariance SymComplete GroupOrder Cube CubeMC PointGroup Flat.
From Verif Require Import Props_PGraph Props_Placement Props_Symmetries Props_Complete Props_Net Props_MinImage Props_NetSymmetry Props_Orders Props_Restriction.
Import ListNotations.
Close Scope Q_scope. Close Scope Qc_scope.
Open Scope nat_scope.

(** ** specification.  sound is in Props_Symmetries.v; aff_dec (equality of affine maps) and translation_map in Props_Orders.v. *)
(** the different matrices among those of the symmetries *)
Definition point_matrices (syms : list auto) : list affmap := nodup aff_dec (map xform syms).

(** ** proofs *)
Definition cube_map (d : nat) (x : affmap) : M3 := cube_of (padz d (fun i j => Qnum (Matrix.ent (lin x) i j))).

Section S.
  Variables (chk : Z -> outcome Z) (g : graph) (syms : list auto).
  Hypothesis So : sound chk g.
  Hypothesis Es : symmetries chk g = Ret syms.
  Hypothesis D3 : gdim g <= 3.
  Notation cubes := (map (cube_map (gdim g)) (point_matrices syms)).

  Lemma dim_pos : 0 < gdim g. Proof. apply (so_dim _ _ So). Qed.
  Lemma cube_ext a b : (forall i j, i < 3 -> j < 3 -> ZQ (ent a i j) = ZQ (ent b i j)) -> a = b.
  Proof.
    intros H. destruct a, b. f_equal; apply ZQ_inj;
      [apply (H 0 0)|apply (H 0 1)|apply (H 0 2)|apply (H 1 0)|apply (H 1 1)|apply (H 1 2)|apply (H 2 0)|apply (H 2 1)|apply (H 2 2)]; lia.
  Qed.
  Lemma ent_one i j : i < 3 -> j < 3 -> ZQ (ent one3 i j) = identity_matrix i j.
  Proof. intros Hi Hj. destruct (below3 i Hi) as [->|[->| ->]], (below3 j Hj) as [->|[->| ->]]; reflexivity. Qed.
  Lemma padded_identity d i j : padded d identity_matrix i j = identity_matrix i j.
  Proof. unfold padded. destruct ((i <? d) && (j <? d)); auto. Qed.
  Lemma num_entries pos a m : (forall x y, is_node g x -> is_node g y -> joined g x y) -> Valid g pos a m ->
    forall i j, i < gdim g -> j < gdim g -> m i j = ZQ (Qnum (Matrix.ent (lin (xform a)) i j)).
  Proof.
    intros CC V. destruct (hom_integral g pos (so_constructed _ _ So) CC (so_vertex _ _ So) m _ _ (va_hom _ _ _ _ V)) as (u & Hu).
    intros i j Hi Hj. rewrite (va_x _ _ _ _ V). unfold am. cbn [lin]. rewrite mk_ent, Hu by auto. f_equal. destruct (ZQ_den (u i j)) as [_ ->]. auto.
  Qed.
  (** the entries of the cube of a symmetry *)
  Lemma cube_entries pos a m : (forall x y, is_node g x -> is_node g y -> joined g x y) -> Valid g pos a m ->
    forall i j, i < 3 -> j < 3 -> ZQ (ent (cube_map (gdim g) (xform a)) i j) = padded (gdim g) m i j.
  Proof.
    intros CC V i j Hi Hj. unfold cube_map. rewrite ent_cube by auto. unfold padz, padded.
    destruct (Nat.ltb_spec i (gdim g)), (Nat.ltb_spec j (gdim g)); cbn [andb]; try (unfold identity_matrix; destruct (i =? j); reflexivity).
    symmetry. apply (num_entries pos); auto.
  Qed.
  Lemma cube_inj pos a ma b mb : (forall x y, is_node g x -> is_node g y -> joined g x y) -> Valid g pos a ma -> Valid g pos b mb ->
    cube_map (gdim g) (xform a) = cube_map (gdim g) (xform b) -> xform a = xform b.
  Proof.
    intros CC Va Vb E. rewrite (va_x _ _ _ _ Va), (va_x _ _ _ _ Vb). apply am_ext; auto. intros i j Hi Hj.
    pose proof (cube_entries pos a ma CC Va i j ltac:(lia) ltac:(lia)) as A. pose proof (cube_entries pos b mb CC Vb i j ltac:(lia) ltac:(lia)) as B.
    rewrite E, B in A. unfold padded in A. rewrite (proj2 (Nat.ltb_lt _ _) Hi), (proj2 (Nat.ltb_lt _ _) Hj) in A. auto.
  Qed.

  Lemma in_cubes c : In c cubes <-> exists a, In a syms /\ cube_map (gdim g) (xform a) = c.
  Proof.
    rewrite in_map_iff. unfold point_matrices. split.
    - intros (x & <- & Hx). apply nodup_In, in_map_iff in Hx as (a & <- & Ha). eauto.
    - intros (a & Ha & <-). exists (xform a). split; auto. apply nodup_In, in_map, Ha.
  Qed.

  Lemma cube_group : NoDup cubes /\ In one3 cubes /\ (forall a b, In a cubes -> In b cubes -> In (mul3 a b) cubes) /\
    forall a, In a cubes -> exists p, 0 < p /\ pow3 a p = one3.
  Proof.
    destruct (group_facts chk g syms So Es) as (pos & id & gens & P & CC & LS & Aid & Avid & Cl). pose proof (so_constructed _ _ So) as C.
    pose proof (span_edges g pos C CC (so_vertex _ _ So)) as Sp. pose proof dim_pos as Hd. splits.
    - assert (Q : forall l, incl l (point_matrices syms) -> NoDup l -> NoDup (map (cube_map (gdim g)) l)).
      { induction l as [|x l IH]; intros I N; cbn [map]; [constructor|]. inversion N as [|? ? N1 N2]; subst. constructor; [|apply IH; auto; intros y Hy; apply I; simpl; auto].
        intros J. apply in_map_iff in J as (y & E & Hy). apply N1. assert (Hx := I x (or_introl eq_refl)). assert (Hy' := I y (or_intror Hy)).
        unfold point_matrices in Hx, Hy'. apply nodup_In, in_map_iff in Hx as (a & <- & Ha). apply nodup_In, in_map_iff in Hy' as (b & <- & Hb).
        destruct (cl_valid _ _ _ _ _ Cl a Ha) as (ma & Va), (cl_valid _ _ _ _ _ Cl b Hb) as (mb & Vb). rewrite (cube_inj pos a ma b mb CC Va Vb); auto. }
      apply Q; [apply incl_refl|apply NoDup_nodup].
    - apply in_cubes. exists id. split; [apply (cl_id _ _ _ _ _ Cl)|]. destruct (cl_valid _ _ _ _ _ Cl id (cl_id _ _ _ _ _ Cl)) as (m & V).
      apply cube_ext. intros i j Hi Hj. rewrite (cube_entries pos id m CC V), ent_one, <- (padded_identity (gdim g)) by auto. unfold padded.
      destruct (Nat.ltb_spec i (gdim g)), (Nat.ltb_spec j (gdim g)); cbn [andb]; auto. rewrite identity_delta.
      revert i j Hi Hj H H0. assert (X := matrix_determined g pos Sp m Matrix.delta). intros i j _ _ Hi Hj. apply X; auto. intros e He.
      rewrite mapp_delta by apply evec_length. destruct (va_hom _ _ _ _ V e He) as (_ & _ & _ & <-). rewrite Aid. auto.
    - intros x y Hx Hy. apply in_cubes in Hx as (a & Ha & <-), Hy as (b & Hb & <-). destruct (res_mul g pos id gens syms Cl a b Ha Hb) as (c & Hc & E & _). apply in_cubes. exists c. split; auto.
      destruct (cl_valid _ _ _ _ _ Cl a Ha) as (ma & Va), (cl_valid _ _ _ _ _ Cl b Hb) as (mb & Vb), (cl_valid _ _ _ _ _ Cl c Hc) as (mc & Vc).
      assert (Em : forall i j, i < gdim g -> j < gdim g -> mc i j = product (gdim g) ma mb i j).
      { intros i j Hi Hj. rewrite product_lmul. revert i j Hi Hj. apply (matrix_determined g pos Sp). intros e He. rewrite mapp_mul.
        destruct (va_hom _ _ _ _ Vc e He) as (_ & _ & _ & <-). destruct (va_hom _ _ _ _ Vb e He) as (Ib & _ & _ & <-). destruct (va_hom _ _ _ _ Va _ Ib) as (_ & _ & _ & <-). rewrite E; auto. }
      apply cube_ext. intros i j Hi Hj. rewrite (cube_entries pos c mc CC Vc) by auto. rewrite ent_prod, !ZQ_add, !ZQ_mul, !(cube_entries pos a ma CC Va), !(cube_entries pos b mb CC Vb) by (auto; lia).
      rewrite <- padded_product by (auto; lia). unfold padded. destruct (Nat.ltb_spec i (gdim g)), (Nat.ltb_spec j (gdim g)); cbn [andb]; auto.
    - intros x Hx. apply in_cubes in Hx as (a & Ha & <-). destruct (cl_valid _ _ _ _ _ Cl a Ha) as (m & V).
      destruct (C101_symmetries chk g syms a So D3 Es Ha) as (k & m' & f & F & Hk & _ & X & Pk & _). exists k. split; [destruct Hk as [<-|[<-|[<-|[<-|[<-|[]]]]]]; lia|].
      assert (Em : forall i j, i < gdim g -> j < gdim g -> m i j = m' i j).
      { rewrite (va_x _ _ _ _ V) in X. exact (mk_inj (gdim g) (gdim g) m m' (f_equal (fun x => lin x) X)). }
      apply cube_ext. intros i j Hi Hj. unfold cube_map. rewrite (cube_power (gdim g) m') by (auto; intros; rewrite <- Em by auto; apply (num_entries pos); auto).
      rewrite ent_one, <- (padded_identity (gdim g)) by auto. unfold padded. destruct (Nat.ltb_spec i (gdim g)), (Nat.ltb_spec j (gdim g)); cbn [andb]; auto.
  Qed.

  Lemma divisors_48 n : Nat.divide n 48 -> In n [1; 2; 3; 4; 6; 8; 12; 16; 24; 48].
  Proof.
    intros [q Hq]. assert (L : n <= 48) by (destruct q; lia). assert (Hn : 0 < n) by (destruct n; lia).
    assert (T : forallb (fun n => negb (48 mod n =? 0) || existsb (Nat.eqb n) [1; 2; 3; 4; 6; 8; 12; 16; 24; 48]) (seq 1 48) = true) by (vm_compute; reflexivity).
    rewrite forallb_forall in T. specialize (T n ltac:(apply in_seq; lia)). assert (M : 48 mod n = 0) by (rewrite Hq; apply Nat.mod_mul; lia). rewrite M in T. cbn [Nat.eqb negb orb] in T.
    apply existsb_exists in T as (x & Hx & E). apply Nat.eqb_eq in E. subst. auto.
  Qed.
  Lemma point_orders : In (length (point_matrices syms)) [1; 2; 3; 4; 6; 8; 12; 16; 24; 48] /\
    (gdim g <= 2 -> In (length (point_matrices syms)) [1; 2; 3; 4; 6; 8; 12]) /\ (gdim g = 1 -> length (point_matrices syms) <= 2).
  Proof.
    destruct cube_group as (ND & One & Mul & Fin). rewrite <- (map_length (cube_map (gdim g)) (point_matrices syms)). split; [|split].
    - apply divisors_48, order_48; auto.
    - intros D2. apply flat_order; auto. intros a Ha. apply in_map_iff in Ha as (x & <- & _). unfold flat, cube_map, cube_of, padz. cbn [e02 e12 e20 e21 e22].
      assert (L : (2 <? gdim g) = false) by (apply Nat.ltb_ge; lia). rewrite L, !andb_false_r. cbn [andb Nat.eqb]. auto 6.
    - intros D1. apply (NoDup_incl_length (l' := [one3; mkM3 (-1) 0 0 0 1 0 0 0 1])); auto. intros c Hc.
      destruct (signs _ Fin c Hc) as [Dt _]. apply in_map_iff in Hc as (x & <- & _). unfold cube_map in *. rewrite D1 in *. unfold cube_of, padz, det3 in *. cbn [e00 e01 e02 e10 e11 e12 e20 e21 e22 Nat.ltb Nat.leb andb Nat.eqb] in *.
      unfold one3. destruct Dt as [E|E]; [left|right; left]; f_equal; lia.
  Qed.
End S.

(** ** C102.  The number of different matrices among the symmetries is the order of a crystallographic point group: it divides 48 in
    dimension 3, it is 1, 2, 3, 4, 6, 8 or 12 in dimension 2, and it is 1 or 2 in dimension 1, *)
Theorem C102_point_group : forall chk g syms, sound chk g -> symmetries chk g = Ret syms -> let n := length (point_matrices syms) in
  (gdim g = 3 -> In n [1; 2; 3; 4; 6; 8; 12; 16; 24; 48]) /\ (gdim g = 2 -> In n [1; 2; 3; 4; 6; 8; 12]) /\ (gdim g = 1 -> In n [1; 2]).
Proof.
  intros chk g syms So Es n. splits; intros D; (destruct (point_orders chk g syms So Es) as (P1 & P2 & P3); [lia|]); auto.
  - apply P2. lia.
  - specialize (P3 D). assert (n <> 0) by (intros E; unfold n in E; rewrite E in P1; simpl in P1; lia). unfold n in *. simpl. lia.
Qed.
Print Assumptions C102_point_group.
Lemma points_48 chk g syms : sound chk g -> gdim g <= 3 -> symmetries chk g = Ret syms ->
  Nat.divide (length (point_matrices syms)) 48 /\ (gdim g <= 2 -> In (length (point_matrices syms)) [1; 2; 3; 4; 6; 8; 12]).
Proof.
  intros So D3 Es. destruct (point_orders chk g syms So Es D3) as (P1 & P2 & _). split; auto.
  repeat (destruct P1 as [<-|P1]; [match goal with |- Nat.divide ?n _ => exists (48 / n); reflexivity end|]). destruct P1.
Qed.
(** so there are at most 48 times as many symmetries as translations among them, and at most 48 times as many as vertices. *)
Theorem C102_bound : forall chk g syms, sound chk g -> gdim g <= 3 -> symmetries chk g = Ret syms ->
  length syms <= 48 * count_occ aff_dec (map xform syms) (translation_map (gdim g)) /\ (is_ladder chk g = Ret false -> length syms <= 48 * length (vertices g)).
Proof.
  intros chk g syms So D3 Es. destruct (points_48 chk g syms So D3 Es) as [[q Hq] _]. pose proof (C100_point_group chk g syms So Es) as E. fold (point_matrices syms) in E.
  assert (B : length (point_matrices syms) <= 48) by (destruct q; lia). split; [rewrite E; nia|]. intros La.
  destruct (C41_translational_orbits chk g So La) as (cls & Et & _). pose proof (C100_vertices chk g syms cls So La Es Et) as V.
  assert (length cls > 0). { destruct cls; cbn [length] in *; [|lia]. destruct (so_vertex _ _ So) as (v & Hv). apply vertices_In in Hv. destruct (vertices g); [destruct Hv|discriminate V]. }
  rewrite E, V. nia.
Qed.
Print Assumptions C102_bound.
(** For a minimal net that is not a ladder the number of symmetries divides 48 (and is 1, 2, 3, 4, 6, 8 or 12 in dimension 2), and so does the size of every orbit. *)
Theorem C102_minimal : forall chk g syms, sound chk g -> gdim g <= 3 -> is_ladder chk g = Ret false -> is_minimal chk g = Ret true -> symmetries chk g = Ret syms ->
  Nat.divide (length syms) 48 /\ (gdim g = 2 -> In (length syms) [1; 2; 3; 4; 6; 8; 12]) /\
  (forall cls c, vertex_orbits chk g = Ret cls -> In c cls -> Nat.divide (length c) 48) /\ (forall cls c, edge_orbits chk g = Ret cls -> In c cls -> Nat.divide (length c) 48).
Proof.
  intros chk g syms So D3 La Mi Es. destruct (points_48 chk g syms So D3 Es) as (B1 & B2). pose proof (C100_point_group chk g syms So Es) as E. fold (point_matrices syms) in E.
  assert (One : count_occ aff_dec (map xform syms) (translation_map (gdim g)) = 1).
  { destruct (C41_translational_orbits chk g So La) as (cls & Et & Hp). destruct (C41_is_minimal chk g So La) as (b & Eb & Hb). rewrite Mi in Eb. injection Eb as <-.
    pose proof (C100_vertices chk g syms cls So La Es Et) as V. destruct (so_vertex _ _ So) as (v & Hv). apply vertices_In in Hv.
    assert (Hc : exists c, In c cls /\ In v c). { destruct Hp as (Pm & _). apply in_concat. eapply Permutation_in; [apply Permutation_sym; eauto|auto]. }
    destruct Hc as (c & Hc & Hvc). destruct (part_class _ _ _ c v Hp (usort_NoDup _ nat_cmp_laws _) Hc Hvc) as (NDc & Hin).
    rewrite <- (C100_translations chk g syms cls c So La Es Et Hc).
    assert (length c <= 1).
    { apply (NoDup_incl_length (l' := [v])); auto. intros w Hw. apply Hin in Hw as (Hw & f & F & Sy & Ew). left. rewrite <- Ew. symmetry. apply (proj1 Hb eq_refl f F Sy). apply vertices_In; auto. }
    destruct c; [destruct Hvc|cbn [length] in *; lia]. }
  rewrite One, Nat.mul_1_r in E. rewrite E. splits; auto.
  - intros D2. apply B2. lia.
  - intros cls c Ec Hc. destruct c as [|v c'].
    { exfalso. destruct (C40_vertex_orbits chk g So) as (_ & cls' & _ & Ec' & (_ & Ne & _)). rewrite Ec in Ec'. injection Ec' as <-. rewrite Forall_forall in Ne. apply (Ne [] Hc eq_refl). }
    pose proof (C100_vertex_orbit chk g syms cls (v :: c') v So Es Ec Hc (or_introl eq_refl)) as O. rewrite E in O. eapply Nat.divide_trans; [|exact B1]. exists (length (filter (keeps_vertex v) syms)). lia.
  - intros cls c Ec Hc. destruct c as [|e c'].
    { exfalso. destruct (C40_edge_orbits chk g So) as (_ & cls' & _ & Ec' & (_ & Ne & _)). rewrite Ec in Ec'. injection Ec' as <-. rewrite Forall_forall in Ne. apply (Ne [] Hc eq_refl). }
    pose proof (C100_edge_orbit chk g syms cls (e :: c') e So Es Ec Hc (or_introl eq_refl)) as O. rewrite E in O. eapply Nat.divide_trans; [|exact B1]. exists (length (filter (keeps_edge e) syms)). lia.
Qed.
Print Assumptions C102_minimal.

(** ** cases: the bound 48 is attained by the primitive cubic net, and 12 by the honeycomb net *)
Definition pcu : graph := gnew 3 [Edge 1 1 [1; 0; 0]; Edge 1 1 [0; 1; 0]; Edge 1 1 [0; 0; 1]]%Z.
Lemma pcu_sound : sound chk64 pcu.
Proof.
  split; [| | |vm_compute; reflexivity|vm_compute; reflexivity|].
  - eexists. split; [|reflexivity]. intros e He. repeat (destruct He as [<-|He]; [reflexivity|]). destruct He.
  - vm_compute; lia.
  - split; [vm_compute; reflexivity|]. right. splits; auto; [vm_compute; discriminate|]. exists 1%Z. split; [|vm_compute; discriminate].
    intros e x He Hx. vm_compute in He. repeat (destruct He as [<-|He]; [simpl in Hx; intuition lia|]). destruct He.
  - exists 1. apply vertices_In. vm_compute. auto.
Qed.
Example C102_case : exists syms, symmetries chk64 pcu = Ret syms /\ length (point_matrices syms) = 48 /\ is_ladder chk64 pcu = Ret false /\ is_minimal chk64 pcu = Ret true.
Proof. eexists. split; [vm_compute; reflexivity|]. splits; vm_compute; reflexivity. Qed.
Example C102_case_honeycomb : exists syms, symmetries chk64 honeycomb = Ret syms /\ length (point_matrices syms) = 12.
Proof. eexists. split; vm_compute; reflexivity. Qed.
