(** Property C103: the operators that generate (src/spacegroups/basics.rs) returns have crystallographic point groups. *)
From Coq Require Import List ZArith Lia Bool PeanoNat QArith Qcanon Permutation.
From Verif Require Import Base QcTac Vec Elim Scalars Matrix MatrixMore LinAlg ZQ Lattices Reduce Geometry Basics Generate Periodic.
From Verif Require Import Lattices RatLattice Crystal Rotation Finder MinImage Details Sense Cube CubeMC PointGroup Flat.
From Verif Require Import Props_Geometry Props_Finder Props_Basics Props_Orders Props_Restriction Props_PointGroup.
Import ListNotations.
Close Scope Q_scope. Close Scope Qc_scope.
Open Scope nat_scope.

(** ** specification.  unimodular, product_of and congruent are in Props_Basics.v; mat_dec (equality of matrices) in Props_Orders.v. *)
(** the different linear parts of the operators *)
Definition linear_parts (ops : list aff) : list (mat Qc) := nodup mat_dec (map lin ops).

(** ** proofs *)
Definition mat_cube (d : nat) (m : mat Qc) : M3 := cube_of (padz d (fun i j => Qnum (Matrix.ent m i j))).

Lemma cube_same a b : (forall i j, i < 3 -> j < 3 -> ZQ (ent a i j) = ZQ (ent b i j)) -> a = b.
Proof.
  intros H. destruct a, b. f_equal; apply ZQ_inj;
    [apply (H 0 0)|apply (H 0 1)|apply (H 0 2)|apply (H 1 0)|apply (H 1 1)|apply (H 1 2)|apply (H 2 0)|apply (H 2 1)|apply (H 2 2)]; lia.
Qed.
Lemma entry_one i j : i < 3 -> j < 3 -> ZQ (ent one3 i j) = Props_Symmetries.identity_matrix i j.
Proof. intros Hi Hj. destruct (below3 i Hi) as [->|[->| ->]], (below3 j Hj) as [->|[->| ->]]; reflexivity. Qed.

Lemma divide_48 n : Nat.divide n 48 -> In n [1; 2; 3; 4; 6; 8; 12; 16; 24; 48].
Proof.
  intros [q Hq]. assert (L : n <= 48) by (destruct q; lia). assert (Hn : 0 < n) by (destruct n; lia).
  assert (T : forallb (fun n => negb (48 mod n =? 0) || existsb (Nat.eqb n) [1; 2; 3; 4; 6; 8; 12; 16; 24; 48]) (seq 1 48) = true) by (vm_compute; reflexivity).
  rewrite forallb_forall in T. specialize (T n ltac:(apply in_seq; lia)). assert (M : 48 mod n = 0) by (rewrite Hq; apply Nat.mod_mul; lia). rewrite M in T. cbn [Nat.eqb negb orb] in T.
  apply existsb_exists in T as (x & Hx & E). apply Nat.eqb_eq in E. subst. auto.
Qed.

Section S.
  Variables (d fuel : nat) (gens r : list aff).
  Hypothesis D3 : 1 <= d <= 3.
  Hypothesis Ne : gens <> [].
  Hypothesis U : Forall (unimodular d) gens.
  Hypothesis Er : generate fuel gens = Ret r.
  Notation cubes := (map (mat_cube d) (linear_parts r)).

  Lemma Hd : 0 < d. Proof. lia. Qed.
  Lemma gens_affine : Forall (affine_map d) gens. Proof. revert U. apply Forall_impl. intros a Ha. apply Ha. Qed.
  Lemma gens_int : Forall (int_inv d) gens. Proof. revert U. apply Forall_impl. intros a Ha. apply unimodular_inv; auto using Hd. Qed.
  (** an operator of the result has an integral linear part *)
  Lemma op_int a : In a r -> exists f s, a = am d f s /\ forall i j, i < d -> j < d -> f i j = ZQ (Qnum (f i j)).
  Proof.
    intros Ha. pose proof (isam_all d gens Hd gens_affine) as G. pose proof (generate_post d gens Hd G fuel r Ne Er) as GP.
    destruct (gp_word d gens r GP a Ha) as (w & Ww & (f & s & g & t & -> & -> & E & _)). exists f, s. split; auto. intros i j Hi Hj.
    destruct (word_int_inv d gens Hd gens_int _ Ww) as [I _]. rewrite E by auto. apply (proj1 (intlin_am d g t)) with (i := i) (j := j) in I; auto. destruct I as [z ->].
    destruct (ZQ_den z) as [_ ->]. auto.
  Qed.
  Lemma op_entries a : In a r -> forall i j, i < 3 -> j < 3 -> ZQ (ent (mat_cube d (lin a)) i j) = padded d (Matrix.ent (lin a)) i j.
  Proof.
    intros Ha i j Hi Hj. destruct (op_int a Ha) as (f & s & -> & I). unfold mat_cube. rewrite ent_cube by auto. unfold padz, padded, am. cbn [lin].
    destruct (Nat.ltb_spec i d), (Nat.ltb_spec j d); cbn [andb]; try (unfold Props_Symmetries.identity_matrix; destruct (i =? j); reflexivity). rewrite mk_ent by auto. symmetry. auto.
  Qed.
  Lemma op_inj a b : In a r -> In b r -> mat_cube d (lin a) = mat_cube d (lin b) -> lin a = lin b.
  Proof.
    intros Ha Hb E. pose proof (op_entries a Ha) as A. pose proof (op_entries b Hb) as B. rewrite E in A.
    destruct (op_int a Ha) as (f & s & -> & _), (op_int b Hb) as (g & t & -> & _). unfold am in *. cbn [lin] in *. apply mk_ext. intros i j Hi Hj.
    specialize (A i j ltac:(lia) ltac:(lia)). specialize (B i j ltac:(lia) ltac:(lia)). rewrite A in B. unfold padded in B. rewrite (proj2 (Nat.ltb_lt _ _) Hi), (proj2 (Nat.ltb_lt _ _) Hj) in B. cbn [andb] in B.
    rewrite !mk_ent in B by auto. auto.
  Qed.
  Lemma in_parts m : In m (linear_parts r) <-> exists a, In a r /\ lin a = m.
  Proof. unfold linear_parts. rewrite nodup_In, in_map_iff. split; intros (a & H1 & H2); eauto. Qed.
  Lemma in_op_cubes c : In c cubes <-> exists a, In a r /\ mat_cube d (lin a) = c.
  Proof. rewrite in_map_iff. split; [intros (m & <- & H); apply in_parts in H as (a & Ha & <-); eauto|intros (a & Ha & <-); exists (lin a); split; auto; apply in_parts; eauto]. Qed.

  Lemma cube_one e : aff_identity d = Ret e -> mat_cube d (lin e) = one3.
  Proof.
    intros E. rewrite aff_identity_am in E by apply Hd. injection E as <-. unfold am, mat_cube. cbn [lin]. apply cube_same. intros i j Hi Hj. rewrite ent_cube by auto.
    rewrite entry_one by auto. unfold padz, Props_Symmetries.identity_matrix. destruct (Nat.ltb_spec i d), (Nat.ltb_spec j d); cbn [andb]; try (destruct (i =? j); reflexivity).
    rewrite mk_ent by auto. unfold Matrix.delta. rewrite (Nat.eqb_sym j i). destruct (i =? j); reflexivity.
  Qed.
  Lemma cube_mul a b p c : In a r -> In b r -> In c r -> aff_mul a b = Ret p -> lin c = lin p -> mat_cube d (lin c) = mul3 (mat_cube d (lin a)) (mat_cube d (lin b)).
  Proof.
    intros Ha Hb Hc E Ec. pose proof (op_entries a Ha) as A. pose proof (op_entries b Hb) as B. pose proof (op_entries c Hc) as C.
    apply cube_same. intros i j Hi Hj. rewrite C, ent_prod, !ZQ_add, !ZQ_mul, !A, !B by (auto; lia). rewrite <- padded_product by (auto; lia). unfold padded.
    destruct (Nat.ltb_spec i d), (Nat.ltb_spec j d); cbn [andb]; auto. rewrite Ec.
    destruct (op_int a Ha) as (f & s & -> & _), (op_int b Hb) as (g & t & -> & _). rewrite aff_mul_am in E by apply Hd. injection E as <-. unfold am. cbn [lin]. rewrite mk_ent by auto.
    rewrite product_lmul. unfold lmul. apply sumf_ext. intros k Hk. rewrite !mk_ent by lia. auto.
  Qed.
  Lemma op_id : exists e, In e r /\ mat_cube d (lin e) = one3.
  Proof.
    destruct (C48_generate d fuel gens r Hd Ne gens_affine Er) as ((e & Ee & E0) & _). exists e. split; [apply (nth_error_In _ _ E0)|apply cube_one; auto].
  Qed.
  Lemma op_mul a b : In a cubes -> In b cubes -> In (mul3 a b) cubes.
  Proof.
    intros Ha Hb. apply in_op_cubes in Ha as (x & Hx & <-), Hb as (y & Hy & <-). destruct (C48_group d fuel gens r Hd Ne U Er) as (M & _). destruct (M x y Hx Hy) as (p & c & Ep & Hc & (_ & _ & El & _)).
    apply in_op_cubes. exists c. split; auto. apply (cube_mul x y p c); auto.
  Qed.
  Lemma op_inverse a : In a cubes -> exists b, In b cubes /\ mul3 b a = one3.
  Proof.
    intros Ha. apply in_op_cubes in Ha as (x & Hx & <-). destruct (C48_group d fuel gens r Hd Ne U Er) as (_ & I). destruct (I x Hx) as (y & xy & yx & e & Hy & _ & Eyx & Ee & _ & (_ & _ & El & _)).
    exists (mat_cube d (lin y)). split; [apply in_op_cubes; eauto|]. 
    destruct (C48_generate d fuel gens r Hd Ne gens_affine Er) as ((e' & Ee' & E0) & _). assert (e' = e) as -> by congruence. rewrite <- (cube_one e Ee). symmetry. apply (cube_mul y x yx e); auto. apply (nth_error_In _ _ E0).
  Qed.
  Lemma op_group : NoDup cubes /\ In one3 cubes /\ (forall a b, In a cubes -> In b cubes -> In (mul3 a b) cubes) /\
    forall a, In a cubes -> exists p, 0 < p /\ pow3 a p = one3.
  Proof.
    assert (One : In one3 cubes) by (destruct op_id as (e & He & E); apply in_op_cubes; eauto). splits; auto using op_mul.
    - assert (Q : forall l, incl l (linear_parts r) -> NoDup l -> NoDup (map (mat_cube d) l)).
      { induction l as [|x l IH]; intros I N; cbn [map]; [constructor|]. inversion N as [|? ? N1 N2]; subst. constructor; [|apply IH; auto; intros y Hy; apply I; simpl; auto].
        intros J. apply in_map_iff in J as (y & E & Hy). apply N1. assert (Hx := I x (or_introl eq_refl)). assert (Hy' := I y (or_intror Hy)).
        apply in_parts in Hx as (a & Ha & <-), Hy' as (b & Hb & <-). rewrite (op_inj a b); auto. }
      apply Q; [apply incl_refl|apply NoDup_nodup].
    - intros a Ha. destruct (periodic cube_dec (mul3 a) cubes) with (x := one3) as (p & Hp & E); auto using op_mul.
      + intros y z Hy Hz E. destruct (op_inverse a Ha) as (b & _ & Eb). rewrite <- (mul3_1l y), <- (mul3_1l z), <- Eb, <- !mul3_assoc, E. auto.
      + exists p. split; auto. etransitivity; [|exact E]. clear. induction p as [|p IH]; auto. cbn [pow3 iter]. rewrite IH. auto.
  Qed.
  Lemma cube_flat m : d <= 2 -> flat (mat_cube d m).
  Proof.
    intros D2. unfold flat, mat_cube, cube_of, padz. cbn [e02 e12 e20 e21 e22].
    assert (L : (2 <? d) = false) by (apply Nat.ltb_ge; lia). rewrite L, !andb_false_r. cbn [andb Nat.eqb]. auto 6.
  Qed.
  Lemma part_orders : In (length (linear_parts r)) [1; 2; 3; 4; 6; 8; 12; 16; 24; 48] /\
    (d <= 2 -> In (length (linear_parts r)) [1; 2; 3; 4; 6; 8; 12]) /\ (d = 1 -> length (linear_parts r) <= 2).
  Proof.
    destruct op_group as (ND & One & Mul & Fin). rewrite <- (map_length (mat_cube d) (linear_parts r)). split; [|split].
    - apply divide_48, order_48; auto.
    - intros D2. apply flat_order; auto. intros a Ha. apply in_map_iff in Ha as (x & <- & _). apply cube_flat. auto.
    - intros D1. apply (NoDup_incl_length (l' := [one3; mkM3 (-1) 0 0 0 1 0 0 0 1])); auto. intros c Hc.
      destruct (signs _ Fin c Hc) as [Dt _]. apply in_map_iff in Hc as (x & <- & _). unfold mat_cube in *. rewrite D1 in *. unfold cube_of, padz, det3 in *. cbn [e00 e01 e02 e10 e11 e12 e20 e21 e22 Nat.ltb Nat.leb andb Nat.eqb] in *.
      unfold one3. destruct Dt as [E|E]; [left|right; left]; f_equal; lia.
  Qed.
End S.
Lemma powf_power d f k : meq d (powf d f k) (Props_Restriction.power d f k).
Proof.
  induction k as [|k IH]; [intros i j _ _; symmetry; apply identity_delta|].
  assert (One : meq d (powf d f 1) f) by (intros i j Hi Hj; cbn [powf]; apply (lmul_delta_l (R := Qc)); auto).
  change (S k) with (1 + k). eapply meq_trans; [apply powf_add|]. eapply meq_trans; [apply meq_lmul; [exact One|exact IH]|]. intros i j Hi Hj. cbn [Props_Restriction.power Nat.add]. symmetry. apply product_lmul.
Qed.
Lemma op_order d fuel gens r a o : 1 <= d <= 3 -> gens <> [] -> Forall (unimodular d) gens -> generate fuel gens = Ret r -> In a r ->
  details_from (lin a) = Ret o -> od_order o <> 0.
Proof.
  intros D3 Ne U Er Ha Eo Zo. destruct (op_group d fuel gens r D3 Ne U Er) as (_ & _ & _ & Fin). destruct (Fin (mat_cube d (lin a))) as (p & Hp & E); [apply in_op_cubes; eauto|].
  destruct (op_int d fuel gens r D3 Ne U Er a Ha) as (f & s & -> & I). unfold am in *. cbn [lin] in *.
  destruct (details_ok d f D3) as (ax & n & c & E' & On & _). rewrite Eo in E'. injection E' as ->. cbn [od_order] in Zo. subst n.
  destruct On as [[_ N]|[N _]]; [|lia]. apply (N p Hp). eapply meq_trans; [apply powf_power|]. intros i j Hi Hj.
  pose proof (cube_power d f (fun i j => Qnum (f i j)) ltac:(lia) I p i j ltac:(lia) ltac:(lia)) as C.
  assert (X : cube_of (padz d (fun i j => Qnum (f i j))) = mat_cube d (mk d d f)).
  { unfold mat_cube. apply cube_same. intros i' j' Hi' Hj'. rewrite !ent_cube by auto. unfold padz. destruct (Nat.ltb_spec i' d), (Nat.ltb_spec j' d); cbn [andb]; auto. rewrite mk_ent by auto. auto. }
  rewrite X, E, entry_one in C by lia. unfold padded in C. rewrite (proj2 (Nat.ltb_lt _ _) Hi), (proj2 (Nat.ltb_lt _ _) Hj) in C. cbn [andb] in C. rewrite <- C. apply identity_delta.
Qed.

(** ** shifts with a common denominator *)
Lemma clear_denominators (l : list Qc) : exists n : Z, (0 < n)%Z /\ forall q, In q l -> isint (ZQ n * q)%Qc.
Proof.
  induction l as [|q l (n & Hn & H)]; [exists 1%Z; split; [lia|intros ? []]|].
  exists (Zpos (Qden q) * n)%Z. split; [lia|]. intros x [<-|Hx].
  - rewrite ZQ_mul. exists (n * Qnum q)%Z. rewrite ZQ_mul.
    assert (E : (ZQ (Zpos (Qden q)) * q)%Qc = ZQ (Qnum q)).
    { apply Qc_is_canon. unfold ZQ, Qcmult, Q2Qc. cbn [this]. rewrite !Qred_correct. destruct q as [[a b] c]. cbn [this Qden Qnum]. unfold Qeq, Qmult, inject_Z. cbn [Qnum Qden]. lia. }
    rewrite <- E. ring.
  - rewrite ZQ_mul, <- Qcmult_assoc. apply isint_mul; [eexists; eauto|auto].
Qed.
Fixpoint tuples {A} (l : list A) (n : nat) : list (list A) := match n with O => [[]] | S n => flat_map (fun x => map (cons x) (tuples l n)) l end.
Lemma tuples_from {A} (l : list A) n (f : nat -> A) : (forall i, i < n -> In (f i) l) -> In (map f (seq 0 n)) (tuples l n).
Proof.
  revert f. induction n as [|n IH]; intros f H; cbn [seq map tuples]; [simpl; auto|]. apply in_flat_map. exists (f 0). split; [apply H; lia|]. apply in_map.
  rewrite <- seq_shift, map_map. apply (IH (fun i => f (S i))). intros i Hi. apply H. lia.
Qed.
Section T.
  Variables (d : nat) (gens : list aff).
  Hypothesis Hd : 0 < d.
  Hypothesis U : Forall (unimodular d) gens.
  Lemma gens_common : exists n : Z, (0 < n)%Z /\ forall b, In b gens -> forall i, i < d -> isint (ZQ n * Matrix.ent (shift b) i 0)%Qc.
  Proof.
    destruct (clear_denominators (flat_map (fun b => map (fun i => Matrix.ent (shift b) i 0) (seq 0 d)) gens)) as (n & Hn & H). exists n. split; auto.
    intros b Hb i Hi. apply H, in_flat_map. exists b. split; auto. apply in_map_iff. exists i. split; auto. apply in_seq. lia.
  Qed.
  Lemma word_common n w : (forall b, In b gens -> forall i, i < d -> isint (ZQ n * Matrix.ent (shift b) i 0)%Qc) -> word d gens w ->
    forall i, i < d -> isint (ZQ n * Matrix.ent (shift w) i 0)%Qc.
  Proof.
    intros Hn Hw. assert (I : Forall (int_inv d) gens) by (revert U; apply Forall_impl; intros a Ha; apply unimodular_inv; auto).
    assert (G : Forall (isam d) gens) by (revert U; apply Forall_impl; intros a Ha; apply isam_affine; auto; apply Ha).
    induction Hw as [e E|a b p Ha IH Hb E]; intros i Hi.
    - rewrite aff_identity_am in E by auto. injection E as <-. unfold am. cbn [shift]. unfold cv. rewrite mk_ent by lia. exists 0%Z. change (Q2Qc 0) with 0%Qc. rewrite Qcmult_0_r. reflexivity.
    - destruct (word_int_inv d gens Hd I a Ha) as [La _]. destruct La as (f & s & -> & If). rewrite Forall_forall in G. destruct (G b Hb) as (g & t & ->).
      rewrite aff_mul_am in E by auto. injection E as <-. specialize (Hn _ Hb). unfold am in *. cbn [shift] in *. unfold cv in *. rewrite mk_ent by lia. cbn [radd Qc_dom].
      specialize (IH i Hi). rewrite mk_ent in IH by lia. rewrite Qcmult_plus_distr_r. apply isint_add; auto.
      assert (L : (ZQ n * lapp d f t i)%Qc = lapp d f (fun k => ZQ n * t k)%Qc i).
      { unfold lapp. clear. induction d as [|k IH]; cbn [sumf]; [apply Qcmult_0_r|]. cbn [radd rmul Qc_dom] in *. rewrite <- IH. ring. }
      rewrite L. apply lapp_int; auto. intros k Hk. specialize (Hn k Hk). rewrite mk_ent in Hn by lia. auto.
  Qed.
End T.

(** ** C103.  If generate returns, the number of different linear parts among its operators is the order of a crystallographic point group, *)
Theorem C103_linear_parts : forall d fuel gens r, gens <> [] -> Forall (unimodular d) gens -> generate fuel gens = Ret r -> let n := length (linear_parts r) in
  (d = 3 -> In n [1; 2; 3; 4; 6; 8; 12; 16; 24; 48]) /\ (d = 2 -> In n [1; 2; 3; 4; 6; 8; 12]) /\ (d = 1 -> In n [1; 2]).
Proof.
  intros d fuel gens r Ne U Er n. splits; intros D; (destruct (part_orders d fuel gens r) as (P1 & P2 & P3); [lia|auto|auto|auto|]); auto.
  - apply P2. lia.
  - specialize (P3 D). assert (n <> 0) by (intros E; unfold n in E; rewrite E in P1; simpl in P1; lia). unfold n in *. simpl. lia.
Qed.
Print Assumptions C103_linear_parts.
(** and the order that OperatorDetails::from reports for the linear part of an operator in the result is 1, 2, 3, 4 or 6, never infinite. *)
Theorem C103_orders : forall d fuel gens r a, 1 <= d <= 3 -> gens <> [] -> Forall (unimodular d) gens -> generate fuel gens = Ret r -> In a r ->
  exists o, details_from (lin a) = Ret o /\ In (od_order o) [1; 2; 3; 4; 6].
Proof.
  intros d fuel gens r a D3 Ne U Er Ha. destruct (op_int d fuel gens r D3 Ne U Er a Ha) as (f & s & E & I).
  destruct (details_ok d f D3) as (ax & n & c & E' & On & _). assert (El : lin a = mk d d f) by (subst a; reflexivity). rewrite <- El in E'.
  eexists. split; [exact E'|]. cbn [od_order]. pose proof (op_order d fuel gens r a _ D3 Ne U Er Ha E') as Z. cbn [od_order] in Z.
  destruct (order_values d f n ltac:(lia) On) as [<-|V]; [congruence|exact V].
Qed.
Print Assumptions C103_orders.
(** So generate never returns if a product of the generators has infinite order, whatever the translations are. *)
Theorem C103_infinite : forall d fuel gens w o, 1 <= d <= 3 -> Forall (unimodular d) gens -> product_of d gens w -> details_from (lin w) = Ret o -> od_order o = 0 ->
  forall r, generate fuel gens <> Ret r.
Proof.
  intros d fuel gens w o D3 U Hw Eo Zo r Er. assert (Ne : gens <> []) by (intros ->; discriminate Er).
  destruct (C48_generate d fuel gens r ltac:(lia) Ne (gens_affine d gens U) Er) as (_ & _ & _ & W & _). destruct (W w Hw) as (a & Ha & (_ & _ & El & _)).
  rewrite <- El in Eo. apply (op_order d fuel gens r a o D3 Ne U Er Ha Eo Zo).
Qed.
Print Assumptions C103_infinite.
(** In any dimension, generate terminates if and only if only finitely many matrices are linear parts of products of the generators:
    rational translations cannot keep it from terminating. *)
Theorem C103_terminates : forall d gens, 0 < d -> gens <> [] -> Forall (unimodular d) gens ->
  (exists r enough, forall fuel, enough <= fuel -> generate fuel gens = Ret r) <-> (exists matrices, forall w, product_of d gens w -> In (lin w) matrices).
Proof.
  intros d gens Hd Ne U. assert (F : Forall (affine_map d) gens) by (revert U; apply Forall_impl; intros a Ha; apply Ha). rewrite (C48_terminates d gens Hd Ne F). split.
  - intros (cls & H). exists (map lin cls). intros w Hw. destruct (H w Hw) as (c & Hc & (_ & _ & E & _)). rewrite E. apply in_map, Hc.
  - intros (ms & H). destruct (gens_common d gens Hd) as (n & Hn & Hg).
    exists (flat_map (fun m => map (fun t => Affine m (cv d (fun i => nth i t 0%Qc))) (tuples (map (fun k => (ZQ (Z.of_nat k) / ZQ n)%Qc) (seq 0 (Z.to_nat n))) d)) ms).
    intros w Hw. pose proof (H w Hw) as Lw. apply product_word in Hw. pose proof (word_common d gens Hd U n w Hg Hw) as I. assert (G := isam_all d gens Hd F). destruct (word_isam d gens Hd G w Hw) as (f & s & ->).
    assert (Nz : ZQ n <> 0%Qc) by (intros C; change (ZQ n = ZQ 0) in C; apply ZQ_inj in C; lia).
    set (frac := fun q : Qc => (ZQ (Qnum (ZQ n * q)%Qc mod n) / ZQ n)%Qc). exists (am d f (fun i => frac (s i))). split.
    + apply in_flat_map. exists (mk d d f). split; [exact Lw|]. apply in_map_iff. exists (map (fun i => frac (s i)) (seq 0 d)). split.
      * unfold am. f_equal. apply mk_ext. intros i j Hi Hj. rewrite nth_map_seq by auto. auto.
      * apply tuples_from. intros i Hi. apply in_map_iff. exists (Z.to_nat (Qnum (ZQ n * s i)%Qc mod n)). pose proof (Z.mod_pos_bound (Qnum (ZQ n * s i)%Qc) n Hn). rewrite Z2Nat.id by lia. split; auto.
        apply in_seq. lia.
    + apply congruent_cong; auto. apply cong_am. split; auto. intros i Hi. specialize (I i Hi). unfold am, cv in I. cbn [shift] in I. rewrite mk_ent in I by lia. destruct I as [z Ez].
      unfold frac. rewrite Ez. destruct (ZQ_den z) as [_ ->]. exists (z / n)%Z. assert (Es : s i = (ZQ z / ZQ n)%Qc) by (rewrite <- Ez; field; auto). rewrite Es.
      rewrite (Z.div_mod z n) at 1 by lia. rewrite ZQ_add, ZQ_mul. field. auto.
Qed.
Print Assumptions C103_terminates.

(** ** copies of an operator *)
Fixpoint picks {A} (l : list (A * A)) : list (list A) := match l with [] => [[]] | (x, y) :: l => map (cons x) (picks l) ++ map (cons y) (picks l) end.
Lemma picks_length {A} (l : list (A * A)) : length (picks l) = 2 ^ length l.
Proof. induction l as [|[x y] l IH]; auto. cbn [picks length Nat.pow]. rewrite app_length, !map_length, IH. lia. Qed.
Lemma in_picks {A} (p : nat -> A * A) (h : nat -> A) l : (forall i, In i l -> h i = fst (p i) \/ h i = snd (p i)) -> In (map h l) (picks (map p l)).
Proof.
  induction l as [|i l IH]; intros H; cbn [map picks]; [simpl; auto|]. destruct (p i) as [x y] eqn:E. apply in_app_iff.
  assert (I : In (map h l) (picks (map p l))) by (apply IH; intros; apply H; simpl; auto).
  destruct (H i (or_introl eq_refl)) as [D|D]; rewrite E in D; cbn [fst snd] in D; rewrite D; [left|right]; apply in_map; auto.
Qed.
Lemma unit_shifts (x y : Qc) : isint (x - y)%Qc -> (-(1) < x)%Qc -> (x < 1)%Qc -> (-(1) < y)%Qc -> (y < 1)%Qc -> x = y \/ x = (if q_neg y then (y + 1)%Qc else (y - 1)%Qc).
Proof.
  intros [z E] X1 X2 Y1 Y2. assert (Ex : x = (y + ZQ z)%Qc) by (rewrite <- E; ring). subst x. clear E.
  assert (B : (-2 < z < 2)%Z).
  { assert (H1 : (ZQ (-2) < ZQ z)%Qc) by (change (ZQ (-2)) with (-(1) - 1)%Qc; qclra). assert (H2 : (ZQ z < ZQ 2)%Qc) by (change (ZQ 2) with (1 + 1)%Qc; qclra). pose proof (proj1 (ZQ_lt (-2) z) H1). pose proof (proj1 (ZQ_lt z 2) H2). lia. }
  assert (C : z = (-1)%Z \/ z = 0%Z \/ z = 1%Z) by lia. destruct C as [->|[->| ->]].
  - change (ZQ (-1)) with (-(1))%Qc in *. destruct (q_neg_spec y) as [N|N]; [exfalso; qclra|right; ring].
  - left. change (ZQ 0) with 0%Qc. ring.
  - change (ZQ 1) with 1%Qc in *. destruct (q_neg_spec y) as [N|N]; [right; ring|exfalso; apply Qcnot_lt_le in N; qclra].
Qed.
(** C49, what is true: an operator has at most 2^d copies, up to integer translations, in the result of generate. *)
Theorem C49_copies : forall d fuel gens r w copies, 0 < d -> gens <> [] -> Forall (affine_map d) gens -> generate fuel gens = Ret r ->
  NoDup copies -> (forall a, In a copies -> In a r /\ congruent d a w) -> length copies <= 2 ^ d.
Proof.
  intros d fuel gens r w copies Hd Ne F E ND H. destruct copies as [|a0 l0]; [cbn [length]; lia|]. set (copies := a0 :: l0) in *.
  destruct (C48_generate d fuel gens r Hd Ne F E) as (_ & _ & Sm & _ & _). destruct (H a0 (or_introl eq_refl)) as [R0 C0].
  set (y := fun i => Matrix.ent (shift a0) i 0). set (p := fun i => (y i, if q_neg (y i) then (y i + 1)%Qc else (y i - 1)%Qc)).
  assert (L : length (map (fun t => Affine (lin a0) (cv d (fun i => nth i t 0%Qc))) (picks (map p (seq 0 d)))) = 2 ^ d) by (rewrite map_length, picks_length, map_length, seq_length; auto).
  rewrite <- L. apply NoDup_incl_length; auto. intros a Ha. destruct (H a Ha) as [Ra Ca].
  apply congruent_cong in C0, Ca; auto. pose proof (cong_trans d _ _ _ Ca (cong_sym d _ _ C0)) as (f & s & g & t & Ea & E0 & Hl & Hs).
  apply in_map_iff. exists (map s (seq 0 d)). split.
  - rewrite Ea, E0. unfold am. cbn [lin]. f_equal; [apply mk_ext; intros i j Hi Hj; symmetry; auto|]. unfold cv. apply mk_ext. intros i j Hi Hj. rewrite nth_map_seq by auto. auto.
  - apply in_picks. intros i Hi. apply in_seq in Hi. unfold p. cbn [fst snd]. assert (Hi' : i < d) by lia.
    destruct (Sm a Ra) as (_ & Ba & _), (Sm a0 R0) as (_ & B0 & _). specialize (Ba i Hi'). specialize (B0 i Hi').
    assert (Ya : Matrix.ent (shift a) i 0 = s i) by (rewrite Ea; unfold am, cv; cbn [shift]; rewrite mk_ent by lia; auto).
    assert (Y0 : y i = t i) by (unfold y; rewrite E0; unfold am, cv; cbn [shift]; rewrite mk_ent by lia; auto).
    rewrite Ya in Ba. fold (y i) in B0. rewrite Y0 in *. apply unit_shifts; try tauto. apply Hs. auto.
Qed.
Print Assumptions C49_copies.
(** the bound is attained in dimension 1 by two operators of the result in C49_one_per_class_refuted *)
Definition shifted (num : Z) : aff := Affine (Mat 1 1 [ZQ 1]) (Mat 1 1 [Q2Qc (num # 2)]).
Example C49_copies_case : exists r, generate 10 [Affine (Mat 1 1 [ZQ (-1)]) (Mat 1 1 [Q2Qc (1 # 2)]); Affine (Mat 1 1 [ZQ 1]) (Mat 1 1 [Q2Qc (1 # 2)])] = Ret r /\
  existsb (aff_eqb (shifted 1)) r = true /\ existsb (aff_eqb (shifted (-1))) r = true.
Proof. eexists. split; [vm_compute; reflexivity|]. split; vm_compute; reflexivity. Qed.


(** ** cases: the group of the honeycomb net with a centering, the group of the cube with a body centering, and a shear *)
Definition int_op (d : nat) (l : list Z) (s : list Qc) : aff := Affine (Mat d d (map ZQ l)) (Mat d 1 s).
Definition half : Qc := Q2Qc (1 # 2).
Ltac unimodular_op := split; [unfold affine_map, column, wfm, int_op; cbn; splits; auto; discriminate|split; [integers|eexists; split; [qc_compute|integers]]].
Definition hexagonal_ops : list aff := [int_op 2 [1; -1; 1; 0]%Z [0; 0]%Qc; int_op 2 [0; 1; 1; 0]%Z [0; 0]%Qc; int_op 2 [1; 0; 0; 1]%Z [half; 0]%Qc].
Example C103_case_hexagonal : Forall (unimodular 2) hexagonal_ops /\ exists r, generate 10 hexagonal_ops = Ret r /\ length (linear_parts r) = 12.
Proof. split; [repeat (constructor; [unimodular_op|]); constructor|]. eexists. split; [vm_compute; reflexivity|vm_compute; reflexivity]. Qed.
Definition cubic_ops : list aff :=
  [int_op 3 [0; -1; 0; 1; 0; 0; 0; 0; 1]%Z [0; 0; half]%Qc; int_op 3 [0; 0; 1; 1; 0; 0; 0; 1; 0]%Z [0; 0; 0]%Qc; int_op 3 [-1; 0; 0; 0; -1; 0; 0; 0; -1]%Z [0; 0; 0]%Qc].
Example C103_case_cubic : Forall (unimodular 3) cubic_ops /\ exists r, generate 12 cubic_ops = Ret r /\ length (linear_parts r) = 48.
Proof. split; [repeat (constructor; [unimodular_op|]); constructor|]. eexists. split; [vm_compute; reflexivity|vm_compute; reflexivity]. Qed.
Definition shear : aff := int_op 2 [1; 1; 0; 1]%Z [0; 0]%Qc.
Example C103_case_shear : Forall (unimodular 2) [shear] /\ product_of 2 [shear] shear /\ omap od_order (details_from (lin shear)) = Ret 0.
Proof.
  split; [repeat (constructor; [unimodular_op|]); constructor|]. split; [|vm_compute; reflexivity].
  eapply product_times; [apply product_empty; reflexivity|simpl; auto|]. qc_compute.
Qed.
