(** Property C107 of src/spacegroups/finder.rs: handedness of the normalized bases of plane lattices. *)
From Coq Require Import String Ascii List ZArith NArith Lia Bool PeanoNat QArith Qcanon.
From Verif Require Import Base QcTac Vec Scalars Matrix LinAlg ZQ Lattices Props_Lattices Geometry Text ParseOp Table Props_Finder Finder Crystal Details Sense Plane CrystalSys Props_Crystal NormBasis Props_Normalized SgTable.
Import ListNotations.
Close Scope Q_scope. Close Scope Qc_scope.
Local Open Scope list_scope.
Open Scope nat_scope.

(** ** specification *)
Definition right_handed (u w : list Qc) : Prop := (0 < area2 u w)%Qc.
Definition left_handed (u w : list Qc) : Prop := (area2 u w < 0)%Qc.

(** ** proofs *)
Lemma rot_positive u : u <> zv2 -> (0 < ar u (rot u))%Qc.
Proof. intros N. pose proof (sq_pos u N) as P. assert (E : ar u (rot u) = sq u) by (unfold ar, rot, sq, dt; cbn [wx wy]; ring). rewrite E. exact P. Qed.
Lemma third_positive u : u <> zv2 -> (0 < ar u (third u))%Qc.
Proof.
  intros N. pose proof (sq_pos u N) as P. pose proof (Qc_sq_nonneg (wx u - wy u)) as S. assert (E : (ar u (third u) + ar u (third u))%Qc = (sq u + (wx u - wy u) * (wx u - wy u))%Qc) by (unfold ar, third, sq, dt; cbn [wx wy]; ring).
  revert P S E. generalize (ar u (third u)) (sq u) ((wx u - wy u) * (wx u - wy u))%Qc. intros. qclra.
Qed.

(** ** C107.  The basis that is made from the first vector and its image, in the square and the hexagonal system, is right-handed for every lattice. *)
Theorem C107_right_handed s vs cols : In s [Square; Hexagonal] -> is_basis 2 vs -> columns vs cols ->
  exists enough u w out, (forall fuel, enough <= fuel -> normalized_basis_2d fuel s cols = Ret (out, Primitive2d)) /\ columns [u; w] out /\ right_handed u w.
Proof.
  intros Hs B C. destruct (reduced2 vs B) as (k & u & w & E & R & _). destruct (red_nz u w R) as [Nu _]. destruct Hs as [<-|[<-|[]]].
  - exists k, (lv u), (lv (rot u)), [col2 u; col2 (rot u)]. split; [|split; [apply columns_lv|]].
    + intros fuel Hf. unfold normalized_basis_2d. rewrite (from_columns_ok vs cols (ba_points 2 vs B) C), (E fuel Hf). cbn [bind unwrap nth_error]. rewrite (two_columns_lv _ _ u u _ _ (apply_xy u) (apply_rot u)). reflexivity.
    + exact (rot_positive u Nu).
  - exists k, (lv u), (lv (third u)), [col2 u; col2 (third u)]. split; [|split; [apply columns_lv|]].
    + intros fuel Hf. unfold normalized_basis_2d. rewrite (from_columns_ok vs cols (ba_points 2 vs B) C), (E fuel Hf). cbn [bind unwrap nth_error]. rewrite (two_columns_lv _ _ u u _ _ (apply_xy u) (apply_third u)). reflexivity.
    + exact (third_positive u Nu).
Qed.
Print Assumptions C107_right_handed.

(** In the other two systems it may be left-handed although the vectors that are given are right-handed: an oblique lattice, a primitive and a centered rectangular one. *)
Theorem C107_left_handed_refuted : forall s c, In (s, c) [(Oblique, Primitive2d); (Rectangular, Primitive2d); (Rectangular, Centered2d)] ->
  exists x y mx my u w mu mw, is_basis 2 [x; y] /\ right_handed x y /\ mat_col x = Ret mx /\ mat_col y = Ret my /\ (s = Rectangular -> closed_under 2 mirrored [x; y]) /\
    (forall fuel, 10 <= fuel -> normalized_basis_2d fuel s [mx; my] = Ret ([mu; mw], c)) /\ mat_col u = Ret mu /\ mat_col w = Ret mw /\ left_handed u w.
Proof.
  pose (v := fun a b : Z => V2 (ZQ a) (ZQ b)).
  assert (K : forall s c a b, is_basis 2 [lv a; lv b] -> (0 < ar a b)%Qc -> (s = Rectangular -> closed_under 2 mirrored [lv a; lv b]) ->
    forall p q, normalized_basis_2d 10 s [col2 a; col2 b] = Ret ([col2 p; col2 q], c) -> (ar p q < 0)%Qc ->
    exists x y mx my u w mu mw, is_basis 2 [x; y] /\ right_handed x y /\ mat_col x = Ret mx /\ mat_col y = Ret my /\ (s = Rectangular -> closed_under 2 mirrored [x; y]) /\
      (forall fuel, 10 <= fuel -> normalized_basis_2d fuel s [mx; my] = Ret ([mu; mw], c)) /\ mat_col u = Ret mu /\ mat_col w = Ret mw /\ left_handed u w).
  { intros s c a b B Pa Cl p q E N. exists (lv a), (lv b), (col2 a), (col2 b), (lv p), (lv q), (col2 p), (col2 q). splits; auto. intros fuel Hf. exact (normalized_mono 10 fuel _ _ _ Hf E). }
  assert (Ind : forall a b, (0 < ar a b)%Qc -> is_basis 2 [lv a; lv b]). { intros a b H. apply is_basis_ar. intros Z. rewrite Z in H. discriminate H. }
  assert (M : forall a b i j k l, mir a = comb2 i a j b -> mir b = comb2 k a l b -> closed_under 2 mirrored [lv a; lv b]).
  { intros a b i j k l Ea Eb x Hx. destruct (in_lattice_point _ _ _ Hx) as (z & -> & (m & n & ->)). change (mirrored (lv ?z)) with (lv (mir z)). apply in_lattice_lat2. exists (m * i + n * k)%Z, (m * j + n * l)%Z.
    assert (E1 := f_equal wx Ea). assert (E2 := f_equal wy Ea). assert (E3 := f_equal wx Eb). assert (E4 := f_equal wy Eb). cbn [mir comb2 wx wy] in E1, E2, E3, E4.
    apply v2_eq; cbn [mir comb2 wx wy]; rewrite !ZQ_add, !ZQ_mul.
    - transitivity (ZQ m * (- wx a) + ZQ n * (- wx b))%Qc; [ring|]. rewrite E1, E3. ring.
    - transitivity (ZQ m * (ZQ i * wy a + ZQ j * wy b) + ZQ n * (ZQ k * wy a + ZQ l * wy b))%Qc; [rewrite <- E2, <- E4; ring|ring]. }
  intros s c [H|[H|[H|[]]]]; injection H as <- <-.
  - refine (K Oblique Primitive2d (v 2 0)%Z (v 1 3)%Z _ _ _ (v 2 0)%Z (v (-1) (-3))%Z _ _); [apply Ind; qc_compute|qc_compute|discriminate|qc_compute|qc_compute].
  - refine (K Rectangular Primitive2d (v 2 0)%Z (v 0 1)%Z _ _ _ (v 0 1)%Z (v 2 0)%Z _ _); [apply Ind; qc_compute|qc_compute|intros _; apply (M _ _ (-1) 0 0 1)%Z; qc_compute|qc_compute|qc_compute].
  - refine (K Rectangular Centered2d (v 1 1)%Z (v (-1) 1)%Z _ _ _ (v 0 2)%Z (v 2 0)%Z _ _); [apply Ind; qc_compute|qc_compute|intros _; apply (M _ _ 0 1 1 0)%Z; qc_compute|qc_compute|qc_compute].
Qed.
Print Assumptions C107_left_handed_refuted.
(** lattices that meet the hypotheses *)
Example C107_case : is_basis 2 [lv (V2 (ZQ 1) (ZQ 0)); lv (V2 (ZQ 1) (ZQ 2))] /\ columns [lv (V2 (ZQ 1) (ZQ 0)); lv (V2 (ZQ 1) (ZQ 2))] [col2 (V2 (ZQ 1) (ZQ 0)); col2 (V2 (ZQ 1) (ZQ 2))].
Proof. split; [apply is_basis_ar; intros C; discriminate C|apply columns_lv]. Qed.
