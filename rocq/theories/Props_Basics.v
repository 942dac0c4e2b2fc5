(** Properties C48-C51 and C57 of src/spacegroups/basics.rs.  Operators are affine maps with rational entries. *)
From Coq Require Import List ZArith Lia Bool PeanoNat QArith Qcanon Qround.
From Verif Require Import Base QcTac Vec Elim Scalars Matrix MatrixMore LinAlg ZQ Lattices Reduce Props_Lattices Geometry Props_Geometry Basics Generate Gram.
Import ListNotations.
Close Scope Q_scope. Close Scope Qc_scope.
Open Scope nat_scope.

(** ** specification *)
Definition integer (q : Qc) : Prop := exists z : Z, q = ZQ z.
(** the same linear part, and shifts that differ by integers *)
Definition congruent (d : nat) (a b : aff) : Prop :=
  affine_map d a /\ affine_map d b /\ lin a = lin b /\ forall i, i < d -> integer (ent (shift a) i 0 - ent (shift b) i 0)%Qc.
(** the products of generators; by C15, aff_mul is composition and aff_identity is the identity map *)
Inductive product_of (d : nat) (gens : list aff) : aff -> Prop :=
| product_empty e : aff_identity d = Ret e -> product_of d gens e
| product_times a b ab : product_of d gens a -> In b gens -> aff_mul a b = Ret ab -> product_of d gens ab.
(** integral entries in the linear parts of the map and its inverse *)
Definition unimodular (d : nat) (a : aff) : Prop :=
  affine_map d a /\ (forall i j, i < d -> j < d -> integer (ent (lin a) i j)) /\
  exists b, aff_inverse a = Ret (Some b) /\ forall i j, i < d -> j < d -> integer (ent (lin b) i j).

(** ** from the specification to the proofs *)
Lemma congruent_cong d a b : 0 < d -> congruent d a b <-> cong d a b.
Proof.
  intros Hd. split.
  - intros (A & B & E & H). apply affine_am in A as (f & s & ->), B as (g & t & ->); auto. cbn [am lin shift] in E, H. apply cong_am. split.
    + apply (am_inj d f g s s). unfold am. congruence.
    + intros i Hi. specialize (H i Hi). unfold cv in H. rewrite !mk_ent in H by lia. exact H.
  - intros (f & s & g & t & -> & -> & H1 & H2). unfold congruent. splits.
    + apply affine_am; eauto.
    + apply affine_am; eauto.
    + cbn [am lin]. apply mk_ext. auto.
    + intros i Hi. cbn [am shift]. unfold cv. rewrite !mk_ent by lia. apply H2; auto.
Qed.
Lemma product_word d gens w : product_of d gens w <-> word d gens w.
Proof. split; induction 1; [eapply word_id|eapply word_mul|eapply product_empty|eapply product_times]; eauto. Qed.
Lemma isam_affine d a : 0 < d -> isam d a <-> affine_map d a.
Proof. intros Hd. symmetry. apply affine_am. auto. Qed.
Lemma isam_all d l : 0 < d -> Forall (affine_map d) l -> Forall (isam d) l.
Proof. intros Hd. apply Forall_impl. intros a. apply isam_affine. auto. Qed.
Lemma unimodular_inv d a : 0 < d -> unimodular d a -> int_inv d a.
Proof.
  intros Hd (A & I & b & E & J). pose proof A as A'. apply affine_am in A' as (f & s & ->); auto.
  destruct (C15_inverse d _ Hd A) as (r & e & Er & Ee & H). rewrite E in Er. injection Er as <-. destruct H as (B & _ & M & _).
  apply affine_am in B as (g & t & ->); auto. split.
  - apply intlin_am. intros i j Hi Hj. specialize (I i j Hi Hj). cbn [am lin] in I. rewrite mk_ent in I by auto. exact I.
  - exists (am d g t). split.
    + apply intlin_am. intros i j Hi Hj. specialize (J i j Hi Hj). cbn [am lin] in J. rewrite mk_ent in J by auto. exact J.
    + apply (word_ide_eq d Hd) in Ee as ->. auto.
Qed.

(** ** C48 *)
Theorem C48_panics_without_generators fuel : generate fuel [] = Panic.
Proof. reflexivity. Qed.

(** What the result contains: the identity first, no element twice, each product of generators up to integer
    translations, nothing else; and it is closed under multiplication by generators. *)
Theorem C48_generate d fuel gens r : 0 < d -> gens <> [] -> Forall (affine_map d) gens -> generate fuel gens = Ret r ->
  (exists e, aff_identity d = Ret e /\ nth_error r 0 = Some e) /\ NoDup r /\
  (forall a, In a r -> affine_map d a /\ (forall i, i < d -> (-(1) < ent (shift a) i 0)%Qc /\ (ent (shift a) i 0 < 1)%Qc) /\
     exists w, product_of d gens w /\ congruent d a w) /\
  (forall w, product_of d gens w -> exists a, In a r /\ congruent d a w) /\
  (forall a b, In a r -> In b gens -> exists ab c, aff_mul a b = Ret ab /\ In c r /\ congruent d c ab).
Proof.
  intros Hd Ne F E. pose proof (isam_all d gens Hd F) as G. pose proof (generate_post d gens Hd G fuel r Ne E) as [P1 P2 P3 P4 P5]. splits; auto.
  - eexists. split; [exact (aff_identity_am d Hd)|exact P2].
  - intros a Ha. destruct (P3 a Ha) as (f & s & -> & Hs). splits.
    + apply affine_am; eauto.
    + intros i Hi. cbn [am shift]. unfold cv. rewrite mk_ent by lia. auto.
    + destruct (P4 _ Ha) as (w & Ww & Cw). exists w. split; [apply product_word; auto|apply congruent_cong; auto].
  - intros w Hw. apply product_word in Hw. destruct (post_words d gens Hd G r (generate_post d gens Hd G fuel r Ne E) w Hw) as (a & Ha & Ca). exists a. split; auto. apply congruent_cong; auto.
  - intros a b Ha Hb. destruct (P5 a b Ha Hb) as (c & Hc & p & Ep & Ec). exists p, c. splits; auto. apply congruent_cong; auto.
    destruct (mul_isam d a b Hd) as (p' & Ep' & Ip); [apply (small_isam d); auto|apply (gens_isam d gens G); auto|].
    assert (p' = p) as -> by congruence. destruct (mod_z_cong d p Ip) as (c' & Ec' & Cc). congruence.
Qed.
Print Assumptions C48_generate.

(** It terminates exactly if there are finitely many products of generators up to integer translations. *)
Theorem C48_terminates d gens : 0 < d -> gens <> [] -> Forall (affine_map d) gens ->
  (exists r enough, forall fuel, enough <= fuel -> generate fuel gens = Ret r) <->
  (exists classes, forall w, product_of d gens w -> exists c, In c classes /\ congruent d w c).
Proof.
  intros Hd Ne F. pose proof (isam_all d gens Hd F) as G. split.
  - intros (r & n & E). exists r. intros w Hw. specialize (E n (le_n n)). apply product_word in Hw.
    destruct (post_words d gens Hd G r (generate_post d gens Hd G n r Ne E) w Hw) as (a & Ha & Ca). exists a. split; auto. apply congruent_cong; auto. apply cong_sym. auto.
  - intros (cls & H). apply (generate_total d gens Hd G cls Ne). intros w Hw. apply product_word in Hw. destruct (H w Hw) as (c & Hc & Cc). exists c. split; auto. apply congruent_cong; auto.
Qed.
Print Assumptions C48_terminates.

(** For unimodular generators the result is a group up to integer translations. *)
Theorem C48_group d fuel gens r : 0 < d -> gens <> [] -> Forall (unimodular d) gens -> generate fuel gens = Ret r ->
  (forall a b, In a r -> In b r -> exists ab c, aff_mul a b = Ret ab /\ In c r /\ congruent d c ab) /\
  (forall a, In a r -> exists b ab ba e, In b r /\ aff_mul a b = Ret ab /\ aff_mul b a = Ret ba /\ aff_identity d = Ret e /\ congruent d ab e /\ congruent d ba e).
Proof.
  intros Hd Ne U E. assert (F : Forall (affine_map d) gens) by (revert U; apply Forall_impl; intros a Ha; apply Ha).
  pose proof (isam_all d gens Hd F) as G. pose proof (generate_post d gens Hd G fuel r Ne E) as GP.
  assert (HI : Forall (int_inv d) gens) by (revert U; apply Forall_impl; intros a Ha; apply unimodular_inv; auto).
  assert (mulc : forall a b wa wb, word d gens wa -> cong d a wa -> cong d b wb -> exists p q, aff_mul a b = Ret p /\ aff_mul wa wb = Ret q /\ cong d p q).
  { intros a b wa wb Wa Ca Cb. destruct (cong_mul_r d a wa b Hd Ca) as (p & p1 & E1 & E2 & C1); [apply (cong_isam d b wb Cb)|].
    destruct (word_int_inv d gens Hd HI wa Wa) as [Iw _]. destruct (cong_mul_l d wa b wb Hd Iw Cb) as (p2 & q & E3 & E4 & C2).
    exists p, q. splits; auto. apply cong_trans with p1; auto. congruence. }
  split.
  - intros a b Ha Hb. destruct (gp_word d gens r GP a Ha) as (wa & Wa & Ca). destruct (gp_word d gens r GP b Hb) as (wb & Wb & Cb).
    destruct (mulc a b wa wb Wa Ca Cb) as (p & q & E1 & E2 & C). destruct (word_concat d gens Hd G wa wb Wa Wb) as (q' & E3 & Wq). assert (q' = q) as -> by congruence.
    destruct (post_words d gens Hd G r GP q Wq) as (c & Hc & Cc). exists p, c. splits; auto. apply congruent_cong; auto. apply cong_trans with q; auto. apply cong_sym. auto.
  - intros a Ha. destruct (gp_word d gens r GP a Ha) as (w & Ww & Cw). destruct (word_inverse d gens Hd G HI r w GP Ww) as (v & p & Wv & Ep & Cp).
    destruct (word_inverse d gens Hd G HI r v GP Wv) as (u & q & Wu & Eq & Cq).
    assert (Iw := word_isam d gens Hd G w Ww). assert (Iv := word_isam d gens Hd G v Wv). assert (Iu := word_isam d gens Hd G u Wu).
    assert (Cwu : cong d w u).
    { destruct (mul_isam d p u Hd) as (x & Ex & _); [apply (cong_isam d _ _ Cp)|auto|]. destruct (mul_assoc d Hd w v u p x Iw Iv Iu Ep Ex) as (q' & E1 & E2).
      assert (q' = q) as -> by congruence. destruct (word_int_inv d gens Hd HI w Ww) as [Lw _].
      destruct (cong_mul_l d w q (ide d) Hd Lw Cq) as (x1 & x2 & F1 & F2 & C1). destruct (mul_id d Hd w Iw) as [_ M]. assert (x2 = w) as -> by congruence.
      destruct (cong_mul_r d p (ide d) u Hd Cp Iu) as (y1 & y2 & F3 & F4 & C2). destruct (mul_id d Hd u Iu) as [M2 _]. assert (y2 = u) as -> by congruence.
      assert (x1 = x) as -> by congruence. assert (y1 = x) as -> by congruence. apply cong_trans with x; auto. apply cong_sym. auto. }
    destruct (post_words d gens Hd G r GP v Wv) as (b & Hb & Cb).
    destruct (mulc a b w v Ww Cw Cb) as (ab & p' & E1 & E2 & C1). assert (p' = p) as -> by congruence.
    destruct (mulc b a v u Wv Cb) as (ba & q' & E3 & E4 & C2); [apply cong_trans with w; auto|]. assert (q' = q) as -> by congruence.
    exists b, ab, ba, (ide d). splits; auto; [exact (aff_identity_am d Hd)| |]; apply congruent_cong; auto; [apply cong_trans with p|apply cong_trans with q]; auto.
Qed.
Print Assumptions C48_group.

Lemma integer_den q : Qden (this q) = 1%positive -> integer q.
Proof. intros H. exists (Qnum (this q)). apply Qc_is_canon. unfold ZQ. cbn [this Q2Qc]. rewrite Qred_correct. destruct q as [[n dd] C]. cbn in *. subst. reflexivity. Qed.
Ltac integers := intros i j Hi Hj; repeat (destruct i as [|i]; [|try lia]); repeat (destruct j as [|j]; [|try lia]); apply integer_den; vm_compute; reflexivity.
(** the generators of the code's own test: a mirror and a centering; there are 4 classes of products and the result has 6 elements *)
Definition mirror : aff := Affine (Mat 2 2 [ZQ (-1); ZQ 0; ZQ 0; ZQ 1]) (Mat 2 1 [ZQ 0; ZQ 0]).
Definition centering : aff := Affine (Mat 2 2 [ZQ 1; ZQ 0; ZQ 0; ZQ 1]) (Mat 2 1 [Q2Qc (1 # 2); Q2Qc (1 # 2)]).
Example C48_case : Forall (unimodular 2) [mirror; centering] /\ omap (@length aff) (generate 10 [mirror; centering]) = Ret 6.
Proof.
  split.
  - constructor; [|constructor; [|constructor]].
    + unfold unimodular. splits.
      * unfold affine_map, column, wfm. cbn. splits; auto; discriminate.
      * integers.
      * eexists. split; [qc_compute|]. integers.
    + unfold unimodular. splits.
      * unfold affine_map, column, wfm. cbn. splits; auto; discriminate.
      * integers.
      * eexists. split; [qc_compute|]. integers.
  - vm_compute. reflexivity.
Qed.

(** ** C49 *)
(** The claim that no two elements of the result are congruent fails. *)
Theorem C49_one_per_class_refuted : ~ forall d fuel gens r, 0 < d -> gens <> [] -> Forall (unimodular d) gens -> generate fuel gens = Ret r ->
  forall a b, In a r -> In b r -> congruent d a b -> a = b.
Proof.
  intros H. set (h := Q2Qc (1 # 2)). set (g1 := Affine (Mat 1 1 [ZQ (-1)]) (Mat 1 1 [h])). set (g2 := Affine (Mat 1 1 [ZQ 1]) (Mat 1 1 [h])).
  set (a := Affine (Mat 1 1 [ZQ 1]) (Mat 1 1 [h])). set (b := Affine (Mat 1 1 [ZQ 1]) (Mat 1 1 [(- h)%Qc])).
  assert (U : Forall (unimodular 1) [g1; g2]).
  { repeat constructor; try (cbn; discriminate); try integers;
      (eexists; split; [qc_compute|integers]). }
  assert (C : congruent 1 a b).
  { clear. assert (A : affine_map 1 a /\ affine_map 1 b) by (unfold affine_map, column, wfm, a, b; cbn [lin shift nrows ncols data length Nat.mul Nat.add]; repeat split; auto; discriminate).
    destruct A as [A B]. split; [exact A|split; [exact B|split; [reflexivity|]]]. intros [|i] Hi; [|lia]. apply integer_den. vm_compute. reflexivity. }
  destruct (generate 10 [g1; g2]) as [r| |] eqn:E; [|vm_compute in E; discriminate|vm_compute in E; discriminate].
  assert (M : existsb (aff_eqb a) r = true /\ existsb (aff_eqb b) r = true).
  { assert (E' : r = match generate 10 [g1; g2] with Ret r => r | _ => [] end) by (rewrite E; auto). rewrite E'. vm_compute. auto. }
  destruct M as [Ma Mb]. apply existsb_exists in Ma as (a' & Ia & Ea), Mb as (b' & Ib & Eb). apply aff_eqb_eq in Ea as <-, Eb as <-.
  specialize (H 1 10 [g1; g2] r ltac:(lia) ltac:(discriminate) U E a b Ia Ib C). apply (f_equal (fun x : aff => Qnum (this (hd 0%Qc (data (shift x)))))) in H. vm_compute in H. discriminate H.
Qed.
Print Assumptions C49_one_per_class_refuted.

(** ** solutions of linear equations *)
(** vs is a basis of the set of vectors of length n that satisfy P *)
Record basis_of (n : nat) (P : list Qc -> Prop) (vs : list (list Qc)) : Prop := {
  bo_points : Forall (point n) vs;
  bo_independent : forall cs, length cs = length vs -> combination n cs vs = origin n -> Forall (fun c => c = 0%Qc) cs;
  bo_spans : forall x, point n x -> (P x <-> in_space n vs x) }.
(** the columns of a matrix as vectors *)
Definition columns (m : mat Qc) : list (list Qc) := map (fun j => map (fun i => ent m i j) (seq 0 (nrows m))) (seq 0 (ncols m)).
(** the answers of null_space: a matrix whose columns are a basis, or None if 0 is the only solution *)
Definition solution_space (n : nat) (P : list Qc -> Prop) (r : option (mat Qc)) : Prop :=
  match r with
  | Some m => wfm m /\ nrows m = n /\ 0 < ncols m /\ basis_of n P (columns m)
  | None => forall x, point n x -> (P x <-> x = origin n)
  end.

Lemma nth_map_seq {A} (f : nat -> A) n i (d : A) : i < n -> nth i (map f (seq 0 n)) d = f i.
Proof. intros H. rewrite nth_indep with (d' := f 0) by (rewrite map_length, seq_length; auto). rewrite map_nth, seq_nth by auto. reflexivity. Qed.
Lemma of_columns_shape n bs : lens n bs -> nrows (of_columns n bs) = n /\ ncols (of_columns n bs) = length bs /\ columns (of_columns n bs) = bs /\ (bs <> [] -> wfm (of_columns n bs)).
Proof.
  intros L. assert (R : nrows (of_columns n bs) = n) by (unfold of_columns, mrows; cbn [nrows]; apply cols_length). assert (C : ncols (of_columns n bs) = length bs) by reflexivity.
  assert (M : of_columns n bs = mk n (length bs) (fun i j => vget (nth j bs []) i)).
  { unfold of_columns. rewrite mrows_mk by apply cols_lens. rewrite cols_length. apply mk_ext. intros i j Hi Hj. rewrite nth_cols by auto. unfold vget.
    rewrite nth_indep with (d' := (fun v => nth i v r0) []) by (rewrite map_length; auto). rewrite (map_nth (fun v => nth i v r0)). auto. }
  splits; auto.
  - unfold columns. rewrite R, C, M. apply nth_ext with (d := []) (d' := []); [rewrite map_length, seq_length; auto|]. intros j Hj. rewrite map_length, seq_length in Hj.
    rewrite nth_map_seq by auto. apply (ext_lt n); [rewrite map_length, seq_length; auto|exact (lens_In _ _ _ L (nth_In bs [] Hj))|]. intros i Hi.
    rewrite nth_map_seq by auto. rewrite mk_ent by auto. reflexivity.
  - intros Ne. rewrite M. apply mk_wf. destruct bs; [congruence|cbn; lia].
Qed.
Lemma kernel_basis_of n rows bs (P : list Qc -> Prop) : kernel_basis n rows bs -> (forall x, point n x -> (P x <-> forall b, In b rows -> dot b x = 0%Qc)) -> basis_of n P bs.
Proof.
  intros (L & Ind & K) H. constructor; auto.
  - intros cs Lc E. rewrite combination_lincomb, origin_zero, <- vzero_rep in E by auto. apply Ind in E; auto. rewrite E, vzero_rep. apply Forall_forall. intros c Hc. apply repeat_spec in Hc. auto.
  - intros x Lx. rewrite (H x Lx), in_space_span by auto. apply K. auto.
Qed.
Lemma kernel_none n rows (P : list Qc -> Prop) : kernel_basis n rows [] -> (forall x, point n x -> (P x <-> forall b, In b rows -> dot b x = 0%Qc)) -> forall x, point n x -> (P x <-> x = origin n).
Proof.
  intros K H x Lx. destruct (kernel_basis_of n rows [] P K H) as [_ _ B]. rewrite (B x Lx), in_space_span by constructor. rewrite span_nil, origin_zero, vzero_rep. tauto.
Qed.

(** ** C51 *)
(** the vector is fixed by the linear parts of the operators: S x = x *)
Definition fixed_by (d : nat) (ops : list aff) (x : list Qc) : Prop :=
  forall op i, In op ops -> i < d -> total d (fun j => ent (lin op) i j * coordinate j x)%Qc = coordinate i x.

Theorem C51_shift_space d ops : 0 < d -> ops <> [] -> Forall (affine_map d) ops ->
  (exists op, In op ops /\ exists i j, i < d /\ j < d /\ ent (lin op) i j <> (if i =? j then 1%Qc else 0%Qc)) ->
  exists r, shift_space ops = Ret r /\ solution_space d (fixed_by d ops) r.
Proof.
  intros Hd Ne F (op & Hop & i & j & Hi & Hj & Nij). pose proof (isam_all d ops Hd F) as G. destruct ops as [|op0 ops0] eqn:Eo; [congruence|]. rewrite <- Eo in *.
  unfold shift_space. rewrite Eo. cbn [nth_error unwrap bind]. rewrite <- Eo.
  assert (G0 : isam d op0) by (rewrite Forall_forall in G; apply G; rewrite Eo; left; auto).
  assert (Id : exists id, identity (R := Qc) (aff_dim op0) = Ret id). { destruct G0 as (f0 & s0 & ->). unfold aff_dim, vdim. cbn [am shift nrows cv mk]. rewrite identity_mk by auto. eauto. }
  destruct Id as [id Eid]. pose proof (shift_space_rows d op0 ops Hd G0 G) as SR. rewrite Eid in SR |- *. cbn [bind] in SR |- *. rewrite SR. set (rows := flat_map (shift_rows d) ops) in *.
  assert (L : lens d rows). { apply Forall_forall. intros v Hv. apply in_flat_map in Hv as (o & _ & Hv). pose proof (frows_lens d d (fun i j => (linf o i j - delta i j)%Qc)) as Q. unfold lens in Q. rewrite Forall_forall in Q. auto. }
  destruct (solve_rows d rows Hd L) as (eqns & Ee & [[-> Z]|(Nn & r & Er & Hr)]).
  - exfalso. apply Nij. assert (R : In (frow d (fun i j => (linf op i j - delta i j)%Qc) i) rows).
    { apply in_flat_map. exists op. split; auto. unfold shift_rows, frows. apply in_map_iff. exists i. split; auto. apply in_seq. lia. }
    specialize (Z _ (span_In d rows _ L R)). apply (f_equal (fun v => vget v j)) in Z. unfold frow in Z. rewrite (vget_map_seq d (fun j => (linf op i j - delta i j)%Qc) j Hj) in Z.
    unfold vzero, vget in Z. rewrite nth_repeat in Z. unfold linf, delta in Z. cbn [r0 r1 Qc_dom] in Z. rewrite (Nat.eqb_sym i j). destruct (j =? i); qclra.
  - rewrite Ee. cbn [bind]. exists r. split; auto.
    assert (K : forall x, point d x -> (fixed_by d ops x <-> forall b, In b rows -> dot b x = 0%Qc)).
    { intros x Lx. unfold rows. rewrite shift_kernel by auto. unfold fixed_by. split; intros H o k Ho Hk; specialize (H o k Ho Hk); rewrite ?total_sumf in *; exact H. }
    destruct Hr as [(bs & Nb & -> & Kb)|(-> & Kb)]; cbn [solution_space].
    + pose proof (proj1 Kb) as Lb. destruct (of_columns_shape d bs Lb) as (S1 & S2 & S3 & S4). splits; auto. { rewrite S2. destruct bs; [congruence|cbn; lia]. }
      rewrite S3. apply (kernel_basis_of d rows); auto.
    + apply (kernel_none d rows); auto.
Qed.
Print Assumptions C51_shift_space.
Theorem C51_panics_without_operators : shift_space [] = Panic.
Proof. reflexivity. Qed.

(** If all linear parts are the identity, the answer is None although all vectors are fixed. *)
Theorem C51_identity_only d ops : 0 < d -> ops <> [] -> Forall (affine_map d) ops ->
  (forall op i j, In op ops -> i < d -> j < d -> ent (lin op) i j = (if i =? j then 1%Qc else 0%Qc)) ->
  shift_space ops = Ret None /\ forall x, point d x -> fixed_by d ops x.
Proof.
  intros Hd Ne F H. pose proof (isam_all d ops Hd F) as G. destruct ops as [|op0 ops0] eqn:Eo; [congruence|]. rewrite <- Eo in *. split.
  - unfold shift_space. rewrite Eo. cbn [nth_error unwrap bind]. rewrite <- Eo.
    assert (G0 : isam d op0) by (rewrite Forall_forall in G; apply G; rewrite Eo; left; auto).
    assert (Id : exists id, identity (R := Qc) (aff_dim op0) = Ret id). { destruct G0 as (f0 & s0 & ->). unfold aff_dim, vdim. cbn [am shift nrows cv mk]. rewrite identity_mk by auto. eauto. }
    destruct Id as [id Eid]. pose proof (shift_space_rows d op0 ops Hd G0 G) as SR. rewrite Eid in SR |- *. cbn [bind] in SR |- *. rewrite SR.
    assert (L : lens d (flat_map (shift_rows d) ops)). { apply Forall_forall. intros v Hv. apply in_flat_map in Hv as (o & _ & Hv). pose proof (frows_lens d d (fun i j => (linf o i j - delta i j)%Qc)) as Q. unfold lens in Q. rewrite Forall_forall in Q. auto. }
    destruct (extend_all_span d _ L) as (eqns & Ee & Le & Ech & Sp & _). assert (eqns = []) as ->.
    { destruct eqns as [|e es]; auto. exfalso. assert (Se : span d (flat_map (shift_rows d) ops) e) by (apply Sp; apply span_In; auto; left; auto).
      assert (Ze : e = vzero d).
      { revert e Se Le Ech Ee Sp. intros e Se _ _ _ _. revert e Se. apply (span_ind d (flat_map (shift_rows d) ops) (fun e => e = vzero d)); auto.
        - intros x y -> ->. exact (vadd_vzero (R := Qc) d).
        - intros c x ->. exact (vscale_vzero (R := Qc) c d).
        - intros v Hv. apply in_flat_map in Hv as (o & Ho & Hv). unfold shift_rows, frows in Hv. apply in_map_iff in Hv as (i & <- & Hi). apply in_seq in Hi.
          apply (ext_lt d); [apply frow_length|apply vzero_length|]. intros k Hk. unfold frow. rewrite nth_map_seq by auto. unfold vzero. rewrite nth_repeat. unfold linf, delta. rewrite H by (auto; lia).
          rewrite (Nat.eqb_sym i k). cbn [r0 r1 Qc_dom]. destruct (k =? i); ring. }
      unfold echelon in Ech. inversion Ech as [|? p ? ? Pv]. subst. apply pivot_Some in Pv as (_ & P2 & _). apply P2. unfold vzero, vget. apply nth_repeat. }
    rewrite Ee. reflexivity.
  - intros x Lx op i Hop Hi. rewrite total_sumf. pose proof (lapp_delta d (fun k => coordinate k x) i Hi) as D. etransitivity; [|exact D]. unfold lapp. apply sumf_ext. intros k Hk. rewrite H by auto. unfold delta. rewrite (Nat.eqb_sym i k). reflexivity.
Qed.
Print Assumptions C51_identity_only.
Theorem C51_always_fixed_space_refuted : ~ forall d ops, 0 < d -> ops <> [] -> Forall (affine_map d) ops -> exists r, shift_space ops = Ret r /\ solution_space d (fixed_by d ops) r.
Proof.
  intros H. set (op := Affine (Mat 1 1 [1%Qc]) (Mat 1 1 [0%Qc])). assert (A : affine_map 1 op) by (unfold affine_map, column, wfm; cbn [lin shift nrows ncols data length Nat.mul Nat.add]; repeat split; auto; discriminate).
  assert (F : Forall (affine_map 1) [op]) by (constructor; auto).
  destruct (H 1 [op] ltac:(lia) ltac:(discriminate) F) as (r & E & S).
  destruct (C51_identity_only 1 [op] ltac:(lia) ltac:(discriminate) F) as [E' Fx]. { intros op' [|i] [|j] [<-|[]] Hi Hj; try lia. reflexivity. }
  rewrite E' in E. injection E as <-. cbn [solution_space] in S. specialize (Fx [1%Qc] eq_refl). apply S in Fx; [|reflexivity]. apply (f_equal (hd 0%Qc)) in Fx. discriminate Fx.
Qed.
Example C51_case : Forall (affine_map 2) [mirror] /\ shift_space [mirror] = Ret (Some (Mat 2 1 [ZQ 0; ZQ 1])).
Proof. split; [|qc_compute]. constructor; auto. unfold affine_map, column, wfm, mirror; cbn [lin shift nrows ncols data length Nat.mul Nat.add]; repeat split; auto; discriminate. Qed.

(** ** C50 *)
(** the entries G(i,j) with i <= j < d, row by row *)
Definition upper_triangle (d : nat) (G : nat -> nat -> Qc) : list Qc := flat_map (fun i => map (fun j => G i j) (seq i (d - i))) (seq 0 d).
(** S G S^T = G for the linear parts S of the operators *)
Definition kept_by (d : nat) (ops : list aff) (G : nat -> nat -> Qc) : Prop :=
  forall op a b, In op ops -> a < d -> b < d -> total d (fun i => total d (fun j => ent (lin op) a i * G i j * ent (lin op) b j)%Qc) = G a b.
(** S^T G S = G: the scalar product with Gram matrix G is invariant *)
Definition invariant_under (d : nat) (ops : list aff) (G : nat -> nat -> Qc) : Prop :=
  forall op a b, In op ops -> a < d -> b < d -> total d (fun i => total d (fun j => ent (lin op) i a * G i j * ent (lin op) j b)%Qc) = G a b.
Definition symmetric_entries (G : nat -> nat -> Qc) : Prop := forall i j, G i j = G j i.

Lemma tri_value d : 2 * tri d = d * (d + 1).
Proof.
  assert (H : forall k, k <= d -> 2 * length (flat_map (fun i => map (fun j => (i, j)) (seq i (d - i))) (seq 0 k)) = k * (2 * d + 1 - k)).
  { induction k as [|k IH]; intros Hk; auto. rewrite seq_S, flat_map_app, app_length. cbn [flat_map Nat.add]. rewrite app_nil_r, map_length, seq_length.
    assert (E := IH ltac:(lia)). replace (2 * d + 1 - k) with (2 * (d - k) + k + 1) in E by lia. replace (2 * d + 1 - S k) with (2 * (d - k) + k) by lia. nia. }
  unfold tri, upper. rewrite H by auto. replace (2 * d + 1 - d) with (d + 1) by lia. auto.
Qed.
Lemma tri_half d : tri d = d * (d + 1) / 2.
Proof. apply (Nat.div_unique_exact _ 2); [lia|]. symmetry. apply tri_value. Qed.
Lemma triangle_onto d x : length x = tri d -> exists g, (forall i j, g i j = g j i) /\ triangle d g = x.
Proof.
  intros L. destruct (k_table_ok d) as [_ K]. pose (k := fst (k_table d)).
  assert (S : forall p i j, nth_error (upper d) p = Some (i, j) -> k i j = p /\ k j i = p).
  { unfold k. rewrite k_table_fold. apply kstep_fold; [apply upper_NoDup|]. intros i j H. apply upper_In in H. lia. }
  exists (fun i j => nth (k (Nat.min i j) (Nat.max i j)) x 0%Qc). split; [intros; rewrite Nat.min_comm, Nat.max_comm; auto|].
  apply (ext_lt (tri d)); auto; [apply triangle_length|]. intros p Hp. rewrite triangle_map.
  rewrite nth_indep with (d' := (fun ij => nth (k (Nat.min (fst ij) (snd ij)) (Nat.max (fst ij) (snd ij))) x 0%Qc) (0, 0)) by (rewrite map_length; auto).
  rewrite (map_nth (fun ij => nth (k (Nat.min (fst ij) (snd ij)) (Nat.max (fst ij) (snd ij))) x 0%Qc)).
  destruct (nth p (upper d) (0, 0)) as [i j] eqn:E. assert (Ep : nth_error (upper d) p = Some (i, j)) by (rewrite <- E; apply nth_error_nth'; auto).
  pose proof (nth_error_In _ _ Ep) as I. apply upper_In in I. cbn [fst snd]. rewrite Nat.min_l, Nat.max_r by lia. destruct (S p i j Ep) as [-> _]. auto.
Qed.

Theorem C50_gram_space d ops : 0 < d -> ops <> [] -> Forall (affine_map d) ops ->
  exists r, gram_space ops = Ret r /\
    solution_space (d * (d + 1) / 2) (fun x => exists G, symmetric_entries G /\ x = upper_triangle d G /\ kept_by d ops G) r.
Proof.
  intros Hd Ne F. pose proof (isam_all d ops Hd F) as G. destruct ops as [|op0 ops0] eqn:Eo; [congruence|]. rewrite <- Eo in *.
  assert (G0 : isam d op0) by (rewrite Forall_forall in G; apply G; rewrite Eo; left; auto).
  destruct (gram_rows d op0 ops Hd G0 G) as (rows & L & E & H). rewrite <- tri_half.
  assert (Hn : 0 < tri d) by (pose proof (tri_value d); nia).
  unfold gram_space. rewrite Eo. cbn [nth_error unwrap bind]. rewrite <- Eo. destruct (k_table (aff_dim op0)) as [k m] eqn:Ek. rewrite E.
  assert (Em : m = tri d). { destruct (k_table_ok d) as [Km _]. destruct G0 as (f0 & s0 & ->). unfold aff_dim, vdim in Ek. cbn [am shift nrows cv mk] in Ek. rewrite Ek in Km. auto. }
  assert (K : forall x, point (tri d) x -> ((exists G, symmetric_entries G /\ x = upper_triangle d G /\ kept_by d ops G) <-> forall b, In b rows -> dot b x = 0%Qc)).
  { assert (P : forall op g a b, total d (fun i => total d (fun j => (ent (lin op) a i * g i j * ent (lin op) b j)%Qc)) = prodsum d (linf op) g a b).
    { intros. unfold prodsum. rewrite total_sumf. apply sumf_ext. intros i _. rewrite total_sumf. apply sumf_ext. intros j _. unfold linf. ring. }
    intros x Lx. split.
    - intros (g & Sg & -> & Kg). apply (H g Sg). intros op a b Hop Ha Hb. rewrite <- P. apply Kg; auto.
    - intros Hx. destruct (triangle_onto d x Lx) as (g & Sg & Eg). exists g. splits; auto. intros op a b Hop Ha Hb. rewrite P. rewrite <- Eg in Hx. apply (proj1 (H g Sg) Hx); auto. }
  destruct (solve_rows (tri d) rows Hn L) as (eqns & Ee & [[-> Z]|(Nn & r & Er & Hr)]); rewrite Ee; cbn [bind].
  - rewrite Em. rewrite identity_mk by auto. cbn [omap bind]. eexists. split; [reflexivity|]. cbn [solution_space].
    set (bs := map (fun k => map (fun i => if i =? k then 1%Qc else 0%Qc) (seq 0 (tri d))) (seq 0 (tri d))).
    assert (Lb : lens (tri d) bs). { apply Forall_forall. intros v Hv. apply in_map_iff in Hv as (k0 & <- & _). rewrite map_length, seq_length. auto. }
    assert (Cb : columns (mk (tri d) (tri d) delta) = bs).
    { unfold columns, bs. cbn [nrows ncols mk]. apply map_ext_in. intros j Hj. apply map_ext_in. intros i Hi. apply in_seq in Hi, Hj. rewrite mk_ent by lia. unfold delta. rewrite Nat.eqb_sym. auto. }
    splits; auto; [apply mk_wf; auto|]. rewrite Cb.
    assert (Cc : forall cs, length cs = tri d -> combination (tri d) cs bs = cs).
    { intros cs Lc. rewrite combination_lincomb by auto. apply lincomb_units. auto. }
    assert (Lbs : length bs = tri d) by (unfold bs; rewrite map_length, seq_length; auto).
    constructor; auto.
    + intros cs Lc Ec. rewrite Cc in Ec by congruence. rewrite Ec. apply Forall_forall. intros c Hc. unfold origin, from_coordinates in Hc. apply in_map_iff in Hc as (? & <- & _). auto.
    + intros x Lx. split; [intros _; exists x; split; [unfold point in Lx; congruence|symmetry; apply Cc; auto]|]. intros _. apply K; auto. intros b Hb.
      rewrite (Z b); [|apply span_In; auto]. exact (dot_vzero_l (R := Qc) _ _).
  - destruct eqns as [|e0 es] eqn:Eqn; [congruence|]. rewrite Er. exists r. split; auto.
    destruct Hr as [(bs & Nb & -> & Kb)|(-> & Kb)]; cbn [solution_space].
    + pose proof (proj1 Kb) as Lb. destruct (of_columns_shape (tri d) bs Lb) as (S1 & S2 & S3 & S4). splits; auto. { rewrite S2. destruct bs; [congruence|cbn; lia]. }
      rewrite S3. apply (kernel_basis_of (tri d) rows); auto.
    + apply (kernel_none (tri d) rows); auto.
Qed.
Print Assumptions C50_gram_space.
Theorem C50_panics_without_operators : gram_space [] = Panic.
Proof. reflexivity. Qed.

(** The claim that these are the Gram matrices invariant under the operators fails: for a three-fold rotation with matrix
    (0 -1; 1 -1) the result is the matrix (1 1/2; 1/2 1), which is not invariant, while the invariant (1 -1/2; -1/2 1) is missing. *)
Definition hexagonal : aff := Affine (Mat 2 2 [ZQ 0; ZQ (-1); ZQ 1; ZQ (-1)]) (Mat 2 1 [ZQ 0; ZQ 0]).
Lemma hexagonal_map : Forall (affine_map 2) [hexagonal].
Proof. constructor; auto. unfold affine_map, column, wfm, hexagonal; cbn [lin shift nrows ncols data length Nat.mul Nat.add]; repeat split; auto; discriminate. Qed.
Example C50_case : gram_space [hexagonal] = Ret (Some (Mat 3 1 [ZQ 1; Q2Qc (1 # 2); ZQ 1])).
Proof. qc_compute. Qed.
Theorem C50_invariant_products_refuted : ~ forall d ops r, 0 < d -> ops <> [] -> Forall (affine_map d) ops -> gram_space ops = Ret r ->
  solution_space (d * (d + 1) / 2) (fun x => exists G, symmetric_entries G /\ x = upper_triangle d G /\ invariant_under d ops G) r.
Proof.
  intros H. specialize (H 2 [hexagonal] _ ltac:(lia) ltac:(discriminate) hexagonal_map C50_case). cbn [solution_space] in H. destruct H as (_ & _ & _ & B).
  set (x := [ZQ 1; Q2Qc (1 # 2); ZQ 1]). assert (X : columns (Mat 3 1 x) = [x]) by reflexivity. unfold x in X at 1. rewrite X in B. destruct B as [_ _ B].
  assert (I : in_space 3 [x] x). { exists [1%Qc]. split; auto. }
  apply B in I; [|reflexivity]. destruct I as (G & SG & EG & IG). specialize (IG hexagonal 0 1 (or_introl eq_refl) ltac:(lia) ltac:(lia)).
  unfold upper_triangle in EG. cbn [flat_map map seq Nat.sub app] in EG.
  assert (E1 : G 0 1 = Q2Qc (1 # 2)) by (symmetry; exact (f_equal (fun l => nth 1 l 0%Qc) EG)).
  assert (E2 : G 1 1 = ZQ 1) by (symmetry; exact (f_equal (fun l => nth 2 l 0%Qc) EG)).
  cbn [total] in IG. rewrite (SG 1 0), E1, E2 in IG.
  replace (ent (lin hexagonal) 0 0) with 0%Qc in IG by qc_compute. replace (ent (lin hexagonal) 1 0) with 1%Qc in IG by qc_compute.
  replace (ent (lin hexagonal) 0 1) with (-(1))%Qc in IG by qc_compute. replace (ent (lin hexagonal) 1 1) with (-(1))%Qc in IG by qc_compute.
  apply (f_equal (fun q : Qc => Qnum (this q))) in IG. vm_compute in IG. discriminate IG.
Qed.
Print Assumptions C50_invariant_products_refuted.
