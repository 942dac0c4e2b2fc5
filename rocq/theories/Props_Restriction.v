(** Property C101: symmetries of nets of dimension at most 3 have the orders 1, 2, 3, 4 and 6 (crystallographic restriction). *)
From Coq Require Import List ZArith Lia Bool PeanoNat QArith Qcanon Permutation.
From Verif Require Import Base Partition Vec Elim Scalars Matrix LinAlg Geometry ZQ QcTac ModSolver ModSolve OrdSet PGraph Net PGraphBase Traverse Placement Placed Stability Lattices RatLattice Periodic Symmetries Automorph Group SymFront Orbits NetAuto Invariance SymComplete GroupOrder Cube CubeMC.
From Verif Require Import Props_PGraph Props_Placement Props_Symmetries Props_Complete Props_Net Props_MinImage Props_NetSymmetry.
Import ListNotations.
Close Scope Q_scope. Close Scope Qc_scope.
Open Scope nat_scope.

(** ** specification.  sound, symmetry, injective, identity_matrix, affine_map, represents are in Props_Symmetries.v, iter in Periodic.v: [iter k f]
    applies f k times. *)
Definition product (d : nat) (a b : nat -> nat -> Qc) (i j : nat) : Qc := total (fun k => a i k * b k j)%Qc (seq 0 d).
(** the k-th power of the d x d matrix m *)
Fixpoint power (d : nat) (m : nat -> nat -> Qc) (k : nat) : nat -> nat -> Qc := match k with O => identity_matrix | S k => product d m (power d m k) end.

(** ** proofs *)
Lemma identity_delta i j : identity_matrix i j = (@Matrix.delta Qc _) i j.
Proof. unfold identity_matrix, Matrix.delta. rewrite Nat.eqb_sym. destruct (j =? i); reflexivity. Qed.
Lemma product_lmul d a b i j : product d a b i j = lmul d a b i j.
Proof. unfold product, lmul. rewrite total_sumf. reflexivity. Qed.
Lemma hom_power g pos m f F k : hom g pos (mapp (gdim g) m) f F -> hom g pos (mapp (gdim g) (power (gdim g) m k)) (iter k f) (iter k F).
Proof.
  intros H. induction k as [|k IH].
  - apply (hom_ext g pos (fun x => x)).
    + intros x Lx. rewrite (mapp_ext (gdim g) (power (gdim g) m 0) Matrix.delta); [symmetry; apply mapp_delta; auto|]. intros; apply identity_delta.
    + apply trans_id.
  - cbn [iter]. apply (hom_ext g pos (mapp (gdim g) (lmul (gdim g) m (power (gdim g) m k)))).
    + intros x Lx. apply mapp_ext. intros i j Hi Hj. symmetry. apply product_lmul.
    + apply (hom_compose g pos m (power (gdim g) m k) f F (iter k f) (iter k F)); auto.
Qed.
Lemma common_period {A} (f : A -> A) l : (forall x, In x l -> exists p, 0 < p /\ iter p f x = x) -> exists p, 0 < p /\ forall x, In x l -> iter p f x = x.
Proof.
  induction l as [|x l IH]; intros H; [exists 1; split; [lia|intros ? []]|]. destruct (H x) as (p & Hp & Ep); [simpl; auto|]. destruct IH as (q & Hq & Eq); [intros; apply H; simpl; auto|].
  exists (q * p). split; [nia|]. intros y [<-|Hy]; [apply iter_mul; auto|]. rewrite Nat.mul_comm. apply iter_mul; auto.
Qed.

(** padding to three dimensions *)
Definition padded (d : nat) (m : nat -> nat -> Qc) (i j : nat) : Qc := if (i <? d) && (j <? d) then m i j else identity_matrix i j.
Definition padz (d : nat) (u : nat -> nat -> Z) (i j : nat) : Z := if (i <? d) && (j <? d) then u i j else if i =? j then 1%Z else 0%Z.
Definition cube_of (u : nat -> nat -> Z) : M3 := mkM3 (u 0 0) (u 0 1) (u 0 2) (u 1 0) (u 1 1) (u 1 2) (u 2 0) (u 2 1) (u 2 2).
Lemma below3 i : i < 3 -> i = 0 \/ i = 1 \/ i = 2. Proof. lia. Qed.
Lemma ent_prod a b i j : i < 3 -> j < 3 -> ent (mul3 a b) i j = (ent a i 0 * ent b 0 j + ent a i 1 * ent b 1 j + ent a i 2 * ent b 2 j)%Z.
Proof. intros Hi Hj. destruct (below3 i Hi) as [->|[->| ->]], (below3 j Hj) as [->|[->| ->]]; reflexivity. Qed.
Lemma ent_cube u i j : i < 3 -> j < 3 -> ent (cube_of u) i j = u i j.
Proof. intros Hi Hj. destruct (below3 i Hi) as [->|[->| ->]], (below3 j Hj) as [->|[->| ->]]; reflexivity. Qed.
Lemma padded_product d a b i j : 0 < d <= 3 -> i < 3 -> j < 3 ->
  padded d (product d a b) i j = (padded d a i 0 * padded d b 0 j + padded d a i 1 * padded d b 1 j + padded d a i 2 * padded d b 2 j)%Qc.
Proof.
  intros Hd Hi Hj. assert (D : d = 1 \/ d = 2 \/ d = 3) by lia.
  destruct (below3 i Hi) as [->|[->| ->]], (below3 j Hj) as [->|[->| ->]], D as [->|[->| ->]]; unfold padded, product, identity_matrix;
    cbn [Nat.ltb Nat.leb andb Nat.eqb seq total fold_right]; ring.
Qed.
Lemma cube_power d m u : 0 < d <= 3 -> (forall i j, i < d -> j < d -> m i j = ZQ (u i j)) ->
  forall k i j, i < 3 -> j < 3 -> ZQ (ent (pow3 (cube_of (padz d u)) k) i j) = padded d (power d m k) i j.
Proof.
  intros Hd Hu. induction k as [|k IH]; intros i j Hi Hj.
  - cbn [pow3 power]. unfold padded. assert (E : (if (i <? d) && (j <? d) then identity_matrix i j else identity_matrix i j) = identity_matrix i j) by (destruct ((i <? d) && (j <? d)); auto).
    rewrite E. destruct (below3 i Hi) as [->|[->| ->]], (below3 j Hj) as [->|[->| ->]]; reflexivity.
  - cbn [pow3 power]. rewrite ent_prod, padded_product by auto. rewrite !ZQ_add, !ZQ_mul, !IH by lia.
    assert (E : forall l, l < 3 -> ZQ (ent (cube_of (padz d u)) i l) = padded d m i l).
    { intros l Hl. rewrite ent_cube by auto. unfold padz, padded. destruct (Nat.ltb_spec i d), (Nat.ltb_spec l d); cbn [andb]; try (rewrite Hu by auto; reflexivity); unfold identity_matrix; destruct (i =? l); reflexivity. }
    rewrite !E by lia. reflexivity.
Qed.

Lemma order_facts chk g m f F : sound chk g -> injective (gdim g) m -> symmetry chk g m f F -> exists p, 0 < p /\ (forall e, directed g e -> iter p F e = e) /\
  (forall v, is_vertex g v -> iter p f v = v) /\ forall i j, i < gdim g -> j < gdim g -> power (gdim g) m p i j = identity_matrix i j.
Proof.
  intros So I Sy. destruct (setup chk g So) as (pos & P & CC & LS). apply injective_linj in I. pose proof (so_constructed _ _ So) as C.
  apply (symmetry_hom chk g pos So P CC LS) in Sy; auto.
  destruct (common_period F (dedges g)) as (p & Hp & Ep).
  { intros e He. apply (periodic edge_dec F (dedges g)); auto; [intros x Hx; apply (Sy x Hx)|]. intros x y Hx Hy. apply (hom_F_inj g pos (conn g CC) LS (mapp (gdim g) m) f F); auto. }
  pose proof (hom_power g pos m f F p Sy) as Hk. exists p. splits; auto.
  - intros e He. apply Ep. apply directed_In; auto.
  - intros v Hv. apply vertices_dedges in Hv as (e & He & <-). destruct (Hk e He) as (_ & <- & _). rewrite Ep; auto.
  - intros i j Hi Hj. rewrite identity_delta. revert i j Hi Hj. apply (matrix_determined g pos (span_edges g pos C CC (so_vertex _ _ So))). intros e He.
    rewrite mapp_delta by apply evec_length. destruct (Hk e He) as (_ & _ & _ & <-). rewrite Ep; auto.
Qed.

(** ** C101.  In every dimension a symmetry has finite order. *)
Theorem C101_finite : forall chk g m f F, sound chk g -> injective (gdim g) m -> symmetry chk g m f F -> exists p, 0 < p /\
  (forall v, is_vertex g v -> iter p f v = v) /\ (forall e, directed g e -> iter p F e = e) /\
  forall i j, i < gdim g -> j < gdim g -> power (gdim g) m p i j = identity_matrix i j.
Proof. intros chk g m f F So I Sy. destruct (order_facts chk g m f F So I Sy) as (p & H1 & H2 & H3 & H4). exists p. auto. Qed.
Print Assumptions C101_finite.
(** In at most three dimensions the matrix has order 1, 2, 3, 4 or 6. *)
Theorem C101_order : forall chk g m f F, sound chk g -> gdim g <= 3 -> injective (gdim g) m -> symmetry chk g m f F ->
  exists k, In k [1; 2; 3; 4; 6] /\ forall i j, i < gdim g -> j < gdim g -> power (gdim g) m k i j = identity_matrix i j.
Proof.
  intros chk g m f F So D3 I Sy. destruct (order_facts chk g m f F So I Sy) as (p & Hp & _ & _ & Ep). pose proof (so_dim _ _ So) as Hd. pose proof (so_constructed _ _ So) as C.
  destruct (setup chk g So) as (pos & P & CC & LS). assert (L : linj (gdim g) m) by (apply injective_linj; auto). apply (symmetry_hom chk g pos So P CC LS) in Sy; auto.
  destruct (hom_integral g pos C CC (so_vertex _ _ So) m f F Sy) as (u & Hu).
  pose proof (cube_power (gdim g) m u (conj Hd D3) Hu) as Cp. set (A := cube_of (padz (gdim g) u)) in *.
  assert (One : forall B, (forall i j, i < 3 -> j < 3 -> ZQ (ent B i j) = identity_matrix i j) -> B = one3).
  { intros [a b c d e h i j k] H. pose proof (fun i j Hi Hj => H i j Hi Hj) as H'. unfold one3. f_equal; apply ZQ_inj;
      [apply (H' 0 0)|apply (H' 0 1)|apply (H' 0 2)|apply (H' 1 0)|apply (H' 1 1)|apply (H' 1 2)|apply (H' 2 0)|apply (H' 2 1)|apply (H' 2 2)]; lia. }
  destruct (@finite_order_3 A p Hp) as (k & Hk & Ek).
  { apply One. intros i j Hi Hj. rewrite Cp by auto. unfold padded. destruct (Nat.ltb_spec i (gdim g)), (Nat.ltb_spec j (gdim g)); cbn [andb]; auto. }
  exists k. split; auto. intros i j Hi Hj. specialize (Cp k i j ltac:(lia) ltac:(lia)). unfold padded in Cp.
  rewrite (proj2 (Nat.ltb_lt _ _) Hi), (proj2 (Nat.ltb_lt _ _) Hj) in Cp. cbn [andb] in Cp. rewrite <- Cp, Ek.
  assert (Hi3 : i < 3) by lia. assert (Hj3 : j < 3) by lia. destruct (below3 i Hi3) as [->|[->| ->]], (below3 j Hj3) as [->|[->| ->]]; reflexivity.
Qed.
Print Assumptions C101_order.
(** This applies to the elements of symmetries(): applying one k times gives a translation, *)
Theorem C101_symmetries : forall chk g syms a, sound chk g -> gdim g <= 3 -> symmetries chk g = Ret syms -> In a syms ->
  exists k m f F, In k [1; 2; 3; 4; 6] /\ represents g a f F /\ xform a = affine_map (gdim g) m (fun _ => 0%Qc) /\
    (forall i j, i < gdim g -> j < gdim g -> power (gdim g) m k i j = identity_matrix i j) /\ symmetry chk g identity_matrix (iter k f) (iter k F).
Proof.
  intros chk g syms a So D3 Es Ha. destruct (C38_symmetries chk g So) as (syms' & Es' & H & _). rewrite Es in Es'. injection Es' as <-.
  destruct (H a Ha) as (m & f & F & I & Sy & R & X). destruct (C101_order chk g m f F So D3 I Sy) as (k & Hk & Ek). exists k, m, f, F. splits; auto.
  destruct (setup chk g So) as (pos & P & CC & LS). assert (L : linj (gdim g) m) by (apply injective_linj; auto). apply (symmetry_hom chk g pos So P CC LS) in Sy; auto.
  apply (hom_power g pos m f F k) in Sy. apply (translation_trans chk g pos So P CC LS). apply trans_delta. apply (hom_ext g pos (mapp (gdim g) (power (gdim g) m k))); auto.
  intros x Lx. apply mapp_ext. intros i j Hi Hj. rewrite Ek by auto. apply identity_delta.
Qed.
Print Assumptions C101_symmetries.
(** and the identity if the net is minimal and not a ladder. *)
Theorem C101_minimal : forall chk g syms a, sound chk g -> gdim g <= 3 -> is_ladder chk g = Ret false -> is_minimal chk g = Ret true -> symmetries chk g = Ret syms -> In a syms ->
  exists k f F, In k [1; 2; 3; 4; 6] /\ represents g a f F /\ (forall v, is_vertex g v -> iter k f v = v) /\ (forall e, directed g e -> iter k F e = e).
Proof.
  intros chk g syms a So D3 La Mi Es Ha. destruct (C101_symmetries chk g syms a So D3 Es Ha) as (k & m & f & F & Hk & R & _ & _ & T). exists k, f, F.
  destruct (C41_is_minimal chk g So La) as (b & Eb & Hb). rewrite Mi in Eb. injection Eb as <-. pose proof (proj1 Hb eq_refl _ _ T) as Hv. splits; auto.
  intros e He. destruct (setup chk g So) as (pos & P & CC & LS). apply (translation_trans chk g pos So P CC LS) in T. apply directed_In in He. destruct (T e He) as (A1 & A2 & A3 & A4).
  apply (same_edge g pos LS); auto. rewrite A2. apply Hv. apply (dedges_vertices g e He).
Qed.
Print Assumptions C101_minimal.

(** ** cases *)
(** the orders in which the powers of m are the identity *)
Definition is_order (d : nat) (m : nat -> nat -> Qc) (k : nat) : bool :=
  forallb (fun i => forallb (fun j => Qc_eqb (power d m k i j) (identity_matrix i j)) (seq 0 d)) (seq 0 d).
(** a rotation of order 6 among the symmetries of the honeycomb net *)
Definition sixfold : nat -> nat -> Qc := of_rows [[1; 1]; [-1; 0]]%Z.
Example C101_case : exists syms, symmetries chk64 honeycomb = Ret syms /\ is_ladder chk64 honeycomb = Ret false /\ is_minimal chk64 honeycomb = Ret true /\
  existsb (fun a => aff_eqb (xform a) (affine_map 2 sixfold (fun _ => 0%Qc))) syms = true /\ map (is_order 2 sixfold) [1; 2; 3; 4; 6] = [false; false; false; false; true].
Proof. eexists. split; [vm_compute; reflexivity|]. splits; vm_compute; reflexivity. Qed.

(** In four dimensions there are other orders: the net with two vertices and five edges between them has a symmetry of order 5. *)
Definition diamond4 : graph := gnew 4 [Edge 1 2 [0; 0; 0; 0]; Edge 1 2 [1; 0; 0; 0]; Edge 1 2 [0; 1; 0; 0]; Edge 1 2 [0; 0; 1; 0]; Edge 1 2 [0; 0; 0; 1]]%Z.
Definition fivefold : nat -> nat -> Qc := of_rows [[-1; -1; -1; -1]; [1; 0; 0; 0]; [0; 1; 0; 0]; [0; 0; 1; 0]]%Z.
Lemma diamond4_sound : sound chk64 diamond4.
Proof.
  split; [| | |vm_compute; reflexivity|vm_compute; reflexivity|].
  - eexists. split; [|reflexivity]. intros e He. repeat (destruct He as [<-|He]; [reflexivity|]). destruct He.
  - vm_compute; lia.
  - split; [vm_compute; reflexivity|]. right. splits; auto; [vm_compute; discriminate|]. exists 1%Z. split; [|vm_compute; discriminate].
    intros e x He Hx. vm_compute in He. repeat (destruct He as [<-|He]; [simpl in Hx; intuition lia|]). destruct He.
  - exists 1. apply vertices_In. vm_compute. auto.
Qed.
Lemma fivefold_injective : injective 4 fivefold.
Proof.
  intros [|x [|y [|z [|w [|? ?]]]]] [|x' [|y' [|z' [|w' [|? ?]]]]] Lx Ly E; try discriminate. unfold times, total, fivefold, of_rows in E. cbn [map seq fold_right nth coord] in E.
  pose proof (f_equal (fun l => nth 0 l 0%Qc) E) as E1. pose proof (f_equal (fun l => nth 1 l 0%Qc) E) as E2. pose proof (f_equal (fun l => nth 2 l 0%Qc) E) as E3. pose proof (f_equal (fun l => nth 3 l 0%Qc) E) as E4.
  unfold coord in E1, E2, E3, E4. cbn [nth] in E1, E2, E3, E4. change (ZQ (-1)) with (- (1))%Qc in *. change (ZQ 1) with 1%Qc in *. change (ZQ 0) with 0%Qc in *.
  assert (x = x') by qclra. assert (y = y') by qclra. assert (z = z') by qclra. assert (w = w') by qclra. congruence.
Qed.
Theorem C101_four_dimensions_refuted : ~ (forall chk g m f F, sound chk g -> injective (gdim g) m -> symmetry chk g m f F ->
  exists k, In k [1; 2; 3; 4; 6] /\ forall i j, i < gdim g -> j < gdim g -> power (gdim g) m k i j = identity_matrix i j).
Proof.
  intros H. assert (A : exists a, automorphism chk64 diamond4 1 1 (affine_map 4 fivefold (fun _ => 0%Qc)) = Ret (Some a)) by (eexists; vm_compute; reflexivity).
  destruct A as (a & A). destruct (C36_automorphism chk64 diamond4 fivefold (fun _ => 0%Qc) 1 1 a diamond4_sound fivefold_injective) as (f & F & Sy & _); [apply vertices_In; vm_compute; auto|exact A|].
  destruct (H chk64 diamond4 fivefold f F diamond4_sound fivefold_injective Sy) as (k & Hk & E). specialize (E 0 0). change (gdim diamond4) with 4 in E.
  assert (N : forallb (fun k => negb (Qc_eqb (power 4 fivefold k 0 0) (identity_matrix 0 0))) [1; 2; 3; 4; 6] = true) by (vm_compute; reflexivity).
  rewrite forallb_forall in N. specialize (N k Hk). rewrite E in N by lia. destruct (Qc_eqb_spec (identity_matrix 0 0) (identity_matrix 0 0)); [discriminate|congruence].
Qed.
Print Assumptions C101_four_dimensions_refuted.
Example C101_case_four : is_order 4 fivefold 5 = true. Proof. vm_compute. reflexivity. Qed.
