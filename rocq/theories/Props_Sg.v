(** C97: the table of space groups that comes with the crate (src/data/sgtable.data, read with src/spacegroups/parse_table.rs).

    The file is in SgData.v, the specification is in SgSpec.v.  str::to_lowercase is any function that turns the letters A-Z of a text in ASCII into a-z. *)
From Coq Require Import String Ascii List ZArith NArith Lia Bool PeanoNat QArith Qcanon.
From Verif Require Import Base Scalars ZQ Matrix Geometry Text ParseOp Cgd Table TableProof Lattices Props_Lattices Finder SgSpec SgCheck SgCenter SgData SgTable.
Import ListNotations.
Close Scope Q_scope. Close Scope Qc_scope.
Local Open Scope list_scope.
Open Scope nat_scope.

Definition shipped_table (t : tables) : Prop := exists lower, ascii_lower lower /\ parse_space_group_table lower shipped = Ret (Some t).
Lemma the_facts t : shipped_table t -> exists infos, facts t infos.
Proof. intros (lower & A & E). destruct (shipped_facts lower A) as (t' & infos & E' & F). rewrite E in E'. injection E' as <-. eauto. Qed.
Lemma get_map {A B} (f : A -> B) k m : get k (map (fun p => (fst p, f (snd p))) m) = option_map f (get k m).
Proof. induction m as [|[k' a] m IH]; auto. cbn [map get fst snd]. destruct (text_eqb k k'); auto. Qed.
Lemma get_settings t infos k : facts t infos -> get k (settings t) = option_map (fun c => fst (fst c)) (get k infos).
Proof. intros F. rewrite <- (f_settings _ _ F). apply (get_map (fun c : checked => fst (fst c))). Qed.
Lemma get_in_infos t infos k e : facts t infos -> get k (settings t) = Some e -> exists n i, In (k, (e, n, i)) infos.
Proof. intros F H. rewrite (get_settings t infos k F) in H. destruct (get k infos) as [[[e' n] i]|] eqn:E; [|discriminate H]. injection H as ->. exists n, i. apply get_in. auto. Qed.
Lemma in_infos_get t infos k e n i : facts t infos -> In (k, (e, n, i)) infos -> get k (settings t) = Some e.
Proof. intros F H. apply in_get; [apply F|]. rewrite <- (f_settings _ _ F). apply in_map_iff. exists (k, (e, n, i)). auto. Qed.
Lemma in_infos_same t infos k e n i e' n' i' : facts t infos -> In (k, (e, n, i)) infos -> get k infos = Some (e', n', i') -> e' = e /\ n' = n /\ i' = i.
Proof.
  intros F H G. assert (N : NoDup (map fst infos)) by (pose proof (f_nodup _ _ F) as N; rewrite <- (f_settings _ _ F), map_map in N; exact N). rewrite (in_get k infos _ N H) in G. injection G as -> -> ->. auto.
Qed.
Lemma check_parts n k e i ec nc ic : setting_check n k e i ec nc ic = true ->
  k = te_name e /\ 1 <= n <= 3 /\ nc = n /\ te_canonical ec = te_canonical e /\ (forall x, point n x -> moved n (fwd (te_transform ec)) x = x) /\
  Forall (sized n) (te_operators e) /\ sized n (fwd (te_transform e)) /\ sized n (bwd (te_transform e)) /\ change_check n (fwd (te_transform e)) (bwd (te_transform e)) i ic = true.
Proof.
  unfold setting_check. rewrite !andb_true_iff. intros (((((((((H1 & H2) & H3) & H4) & H5) & H6) & H7) & H8) & H9) & H10).
  destruct (text_eqb_spec k (te_name e)); [|discriminate]. apply Nat.leb_le in H2. apply Nat.leb_le in H3. apply Nat.eqb_eq in H4. destruct (text_eqb_spec (te_canonical ec) (te_canonical e)); [|discriminate].
  apply sized_b_ok in H8. apply sized_b_ok in H9.
  assert (Id : forall x, point n x -> moved n (fwd (te_transform ec)) x = x).
  { intros x Hx. unfold identity_rows in H6. destruct (rows_of n 1 24 (fwd (te_transform ec))) as [p|] eqn:E; [|discriminate]. apply rows_eqb_ok in H6. subst p. apply op_rows in E as [_ A]. rewrite <- A by auto. apply one_ok. auto. }
  assert (S : Forall (sized n) (te_operators e)) by (rewrite forallb_forall in H7; apply Forall_forall; intros op Ho; apply sized_b_ok; auto).
  tauto.
Qed.

(** The file is accepted: 549 settings, 52 aliases, 247 lookup entries. *)
Theorem C97_accepted lower : ascii_lower lower -> exists t, parse_space_group_table lower shipped = Ret (Some t) /\
  length (settings t) = 549 /\ NoDup (map fst (settings t)) /\ length (alias t) = 52 /\ length (lookup t) = 247.
Proof. intros A. destruct (shipped_facts lower A) as (t & infos & E & F). exists t. split; auto. destruct (f_counts _ _ F) as (L1 & L2 & L3). pose proof (f_nodup _ _ F). auto. Qed.
Print Assumptions C97_accepted.
(** In every setting the operators, together with the integer translations, form a group; the linear parts are integral, no operator is listed twice. *)
Theorem C97_groups t name e : shipped_table t -> get name (settings t) = Some e ->
  te_name e = name /\ exists n, 1 <= n <= 3 /\ Forall (sized n) (te_operators e) /\ space_group n (te_operators e).
Proof.
  intros T G. destruct (the_facts t T) as (infos & F). destruct (get_in_infos t infos name e F G) as (n & i & H). destruct (f_good _ _ F _ _ _ _ H) as (O & ec & nc & ic & _ & C). destruct (check_parts _ _ _ _ _ _ _ C) as (-> & Hn & _ & _ & _ & S & _).
  split; auto. exists n. split; [exact Hn|]. split; [exact S|]. apply (checked_space_group n _ i O).
Qed.
Print Assumptions C97_groups.
(** The canonical setting of a setting exists, its transformation is the identity, and the transformation of the setting leads from the operators of the setting to those of the canonical setting. *)
Theorem C97_settings_agree t name e : shipped_table t -> get name (settings t) = Some e ->
  exists n ec, get (te_canonical e) (settings t) = Some ec /\ te_canonical ec = te_canonical e /\
    sized n (fwd (te_transform e)) /\ sized n (bwd (te_transform e)) /\ (forall x, point n x -> moved n (fwd (te_transform ec)) x = x) /\
    Forall (sized n) (te_operators e) /\ Forall (sized n) (te_operators ec) /\
    same_group n (moved n (fwd (te_transform e))) (moved n (bwd (te_transform e))) (te_operators e) (te_operators ec).
Proof.
  intros T G. destruct (the_facts t T) as (infos & F). destruct (get_in_infos t infos name e F G) as (n & i & H). destruct (f_good _ _ F _ _ _ _ H) as (O & ec & nc & ic & H2 & C).
  destruct (check_parts _ _ _ _ _ _ _ C) as (_ & Hn & -> & Ec & Id & S & S1 & S2 & Ch). destruct (f_good _ _ F _ _ _ _ H2) as (O2 & ec2 & nc2 & ic2 & _ & C2). destruct (check_parts _ _ _ _ _ _ _ C2) as (_ & _ & _ & _ & _ & S' & _).
  exists n, ec. split; [eapply in_infos_get; eauto|]. do 6 (split; [assumption|]). apply (checked_same_group n _ _ _ _ i ic O O2 Ch).
Qed.
Print Assumptions C97_settings_agree.
(** The type of the transformation, CoordinateMap<Group, Setting>, says the opposite: that it leads from the canonical setting to the setting.  This is false, for example for the setting P112 of the group P121. *)
Theorem C97_transform_refuted t : shipped_table t -> exists name e ec n, get name (settings t) = Some e /\ get (te_canonical e) (settings t) = Some ec /\ sized n (fwd (te_transform e)) /\
  ~ same_group n (moved n (fwd (te_transform e))) (moved n (bwd (te_transform e))) (te_operators ec) (te_operators e).
Proof.
  intros T. destruct (the_facts t T) as (infos & F). pose proof (f_opposite _ _ F) as H. unfold opposite_check in H. destruct (get (str "P112") infos) as [[[e n] i]|] eqn:E1; [|discriminate H].
  destruct (get (te_canonical e) infos) as [[[ec n2] ic]|] eqn:E2; [|discriminate H]. exists (str "P112"), e, ec, n. apply get_in in E1. pose proof (get_in _ _ _ E2) as E2'.
  destruct (f_good _ _ F _ _ _ _ E1) as (O & ec' & nc & ic' & H2 & C). destruct (in_infos_same _ _ _ _ _ _ _ _ _ F H2 E2) as (-> & -> & ->). destruct (check_parts _ _ _ _ _ _ _ C) as (_ & _ & -> & _ & _ & _ & S1 & _).
  destruct (f_good _ _ F _ _ _ _ E2') as (O2 & _). split; [eapply in_infos_get; eauto|]. split; [eapply in_infos_get; eauto|]. split; [exact S1|]. apply (differ_check_ok n _ _ _ _ _ i O2 O H).
Qed.
Print Assumptions C97_transform_refuted.
(** An alias is not the name of a setting; except for six of them, aliases name a setting. *)
Definition dangling_aliases : list (text * text) :=
  [(str "Pn3", str "Pn-3"); (str "Fd3", str "Fd-3"); (str "Pn3n", str "Pn-3n"); (str "Pn3m", str "Pn-3m"); (str "Fd3m", str "Fd-3m"); (str "Fd3c", str "Fd-3c")].
Lemma none_settings t infos k : facts t infos -> (get k (settings t) = None <-> is_none (get k infos) = true).
Proof. intros F. rewrite (get_settings t infos k F). destruct (get k infos); cbn; split; congruence. Qed.
Theorem C97_aliases t a b : shipped_table t -> In (a, b) (alias t) ->
  get a (settings t) = None /\ (~ In (a, b) dangling_aliases -> exists e, get b (settings t) = Some e).
Proof.
  intros T H. destruct (the_facts t T) as (infos & F). pose proof (f_alias _ _ F _ H) as C. unfold alias_check in C. cbn [fst snd] in C. apply andb_prop in C as [C1 C2]. split; [apply (none_settings t infos a F); auto|].
  intros N. destruct (mem_alias (a, b) dangling) eqn:M; [apply mem_alias_in in M; contradiction|]. destruct (get b (settings t)) as [e|] eqn:E; [eauto|]. apply (none_settings t infos b F) in E. rewrite E in C1. discriminate C1.
Qed.
Print Assumptions C97_aliases.
Theorem C97_alias_refuted t a b : shipped_table t -> In (a, b) dangling_aliases -> In (a, b) (alias t) /\ get b (settings t) = None.
Proof.
  intros T H. destruct (the_facts t T) as (infos & F). pose proof (f_dangling _ _ F _ H) as I. split; auto. pose proof (f_alias _ _ F _ I) as C. unfold alias_check in C. cbn [fst snd] in C. apply andb_prop in C as [C1 _].
  apply mem_alias_in in H. change dangling_aliases with dangling in H. rewrite H in C1. apply (none_settings t infos b F). auto.
Qed.
Print Assumptions C97_alias_refuted.
(** Every lookup entry names a canonical setting; its map leads to coordinates in which the translations of the group are those of the centering of the entry; the crystal system of the
    entry is that of the group: in the plane it is the one that crystal_system_and_basis_2d finds. *)
Definition dimension_of (c : centering) : nat := match c with Primitive2d | Centered2d => 2 | _ => 3 end.
Theorem C97_lookup t l : shipped_table t -> In l (lookup t) ->
  exists n e, n = dimension_of (lk_centering l) /\ get (lk_name l) (settings t) = Some e /\ te_canonical e = lk_name l /\ Forall (sized n) (te_operators e) /\ sized n (fwd (lk_from_std l)) /\ sized n (bwd (lk_from_std l)) /\
    undoes n (moved n (fwd (lk_from_std l))) (moved n (bwd (lk_from_std l))) /\ centered n (moved n (fwd (lk_from_std l))) (moved n (bwd (lk_from_std l))) (te_operators e) (lk_centering l) /\
    (n = 2 -> exists basis, crystal_system_and_basis_2d (map lin (te_operators e)) = Ret (lk_system l, basis)) /\
    (n = 3 -> system3 (te_operators e) (lk_system l)).
Proof.
  intros T H. destruct (the_facts t T) as (infos & F). pose proof (f_lookup _ _ F _ H) as C. unfold lookup_check in C. destruct (get (lk_name l) infos) as [[[e n] i]|] eqn:E; [|discriminate C].
  rewrite !andb_true_iff in C. destruct C as (((((C1 & C2) & C3) & C4) & C5) & C6). apply get_in in E. destruct (f_good _ _ F _ _ _ _ E) as (O & ec & nc & ic & _ & C). destruct (check_parts _ _ _ _ _ _ _ C) as (_ & _ & _ & _ & _ & S & _).
  destruct (text_eqb_spec (te_canonical e) (lk_name l)) as [Ec|]; [|discriminate C1]. apply Nat.eqb_eq in C2. destruct (centered_check_ok n _ _ _ i _ O C5) as [U V].
  exists n, e. split; [exact C2|]. split; [eapply in_infos_get; eauto|]. split; [exact Ec|]. split; [exact S|]. split; [apply sized_b_ok; auto|]. split; [apply sized_b_ok; auto|]. split; [exact U|]. split.
  { intros v Hv. rewrite (V v Hv). rewrite (parts_ok (lk_centering l)). rewrite <- C2. split.
    - intros (c & z & Hc & Ev). exists (part24 n c), z. split; auto. apply in_map. auto.
    - intros (w & z & Hw & Ev). apply in_map_iff in Hw as (c & <- & Hc). eauto. }
  split; intros En; rewrite En in C6; cbn [Nat.eqb] in C6.
  - apply andb_prop in C6 as [C6 _]. unfold system2_b in C6. destruct (crystal_system_and_basis_2d _) as [[s b]| |]; try discriminate C6. apply internal_crystal_system_dec_bl in C6. subst s. eauto.
  - apply system3_b_ok. auto.
Qed.
Print Assumptions C97_lookup.
(** The plane groups: the function that identifies them (identitify_spacegroup_2d) classifies the groups of the table as its lookup entries say, except for cm and c2mm. *)
Lemma plane_facts t infos l e : facts t infos -> In l (lookup t) -> dimension_of (lk_centering l) = 2 -> get (lk_name l) (settings t) = Some e -> plane_check l (te_operators e) = true.
Proof.
  intros F H D G. pose proof (f_lookup _ _ F _ H) as C. unfold lookup_check in C. rewrite (get_settings t infos _ F) in G. destruct (get (lk_name l) infos) as [[[e' n] i]|]; [|discriminate C]. injection G as ->.
  rewrite !andb_true_iff in C. destruct C as (((((C1 & C2) & C3) & C4) & C5) & C6). apply Nat.eqb_eq in C2. change (centering_dim (lk_centering l)) with (dimension_of (lk_centering l)) in C2. rewrite D in C2. subst n. cbn [Nat.eqb] in C6. apply andb_prop in C6. apply C6.
Qed.
Theorem C97_plane_groups t l e : shipped_table t -> In l (lookup t) -> dimension_of (lk_centering l) = 2 -> get (lk_name l) (settings t) = Some e -> ~ In (lk_name l) [str "cm"; str "c2mm"] ->
  exists enough basis, forall fuel, enough <= fuel -> classify_2d fuel (te_operators e) = Ret (lk_system l, basis, lk_centering l).
Proof.
  intros T H D G N. destruct (the_facts t T) as (infos & F). pose proof (plane_facts t infos l e F H D G) as C. unfold plane_check in C. unfold classify_2d. destruct (plane_cell (te_operators e)) as [[s pcell]| |]; [| |discriminate C].
  - apply andb_prop in C as [C C2]. apply andb_prop in C as [_ C1]. apply internal_crystal_system_dec_bl in C1. subst s. destruct (normalized_basis_2d 4 (lk_system l) pcell) as [[basis c]| |] eqn:E; try discriminate C2.
    destruct (text_eqb_spec (lk_name l) (str "c2mm")) as [X|_]; [exfalso; apply N; rewrite X; right; left; reflexivity|]. apply internal_centering_dec_bl in C2. subst c.
    exists 4, basis. intros fuel Hf. cbn [bind fst snd]. rewrite (normalized_mono 4 fuel _ _ _ Hf E). reflexivity.
  - exfalso. apply andb_prop in C as [C _]. destruct (text_eqb_spec (lk_name l) (str "cm")) as [X|_]; [|discriminate C]. apply N. rewrite X. left. reflexivity.
Qed.
Print Assumptions C97_plane_groups.
(** cm and c2mm are centered; the function panics for cm, and finds no centering for c2mm. *)
Lemma named_entry t infos k : facts t infos -> In k [str "cm"; str "c2mm"] -> exists l e, In l (lookup t) /\ lk_name l = k /\ get k (settings t) = Some e.
Proof.
  intros F H. pose proof (f_plane _ _ F k H) as I. apply in_map_iff in I as (l & <- & Hl). pose proof (f_lookup _ _ F _ Hl) as C. unfold lookup_check in C. destruct (get (lk_name l) infos) as [[[e n] i]|] eqn:E; [|discriminate C].
  apply get_in in E. exists l, e. split; auto. split; auto. eapply in_infos_get; eauto.
Qed.
Theorem C97_plane_refuted t : shipped_table t ->
  (exists l e, In l (lookup t) /\ lk_name l = str "cm" /\ get (lk_name l) (settings t) = Some e /\ lk_centering l = Centered2d /\ forall fuel, classify_2d fuel (te_operators e) = Panic) /\
  (exists l e enough basis, In l (lookup t) /\ lk_name l = str "c2mm" /\ get (lk_name l) (settings t) = Some e /\ lk_centering l = Centered2d /\
    forall fuel, enough <= fuel -> classify_2d fuel (te_operators e) = Ret (lk_system l, basis, Primitive2d)).
Proof.
  intros T. destruct (the_facts t T) as (infos & F). split.
  - destruct (named_entry t infos (str "cm") F) as (l & e & Hl & El & G); [left; reflexivity|]. rewrite <- El in G. exists l, e. pose proof (f_two _ _ F l Hl) as D. rewrite El in D. specialize (D (or_introl eq_refl)).
    pose proof (plane_facts t infos l e F Hl D G) as C. unfold plane_check in C. rewrite El in C. split; auto. split; auto. split; auto. destruct (plane_cell (te_operators e)) as [[s pcell]| |] eqn:E; [| |discriminate C].
    + exfalso. destruct (text_eqb_spec (str "cm") (str "cm")) as [_|X]; [|congruence]. discriminate C.
    + apply andb_prop in C as [_ C]. apply internal_centering_dec_bl in C. split; auto. intros fuel. unfold classify_2d. rewrite E. reflexivity.
  - destruct (named_entry t infos (str "c2mm") F) as (l & e & Hl & El & G); [right; left; reflexivity|]. rewrite <- El in G. pose proof (f_two _ _ F l Hl) as D. rewrite El in D. specialize (D (or_intror (or_introl eq_refl))).
    pose proof (plane_facts t infos l e F Hl D G) as C. unfold plane_check in C. rewrite El in C. destruct (plane_cell (te_operators e)) as [[s pcell]| |] eqn:E; [| |discriminate C].
    + apply andb_prop in C as [C C2]. apply andb_prop in C as [_ C1]. apply internal_crystal_system_dec_bl in C1. subst s. destruct (normalized_basis_2d 4 (lk_system l) pcell) as [[basis c]| |] eqn:En; try discriminate C2.
      destruct (text_eqb_spec (str "c2mm") (str "c2mm")) as [_|X]; [|congruence]. apply andb_prop in C2 as [C2 C3]. apply internal_centering_dec_bl in C2. apply internal_centering_dec_bl in C3. subst c.
      exists l, e, 4, basis. repeat (split; [assumption|]). intros fuel Hf. unfold classify_2d. rewrite E. cbn [bind fst snd]. rewrite (normalized_mono 4 fuel _ _ _ Hf En). reflexivity.
    + exfalso. destruct (text_eqb_spec (str "c2mm") (str "cm")) as [X|_]; [discriminate X|]. discriminate C.
Qed.
Print Assumptions C97_plane_refuted.
(** Every canonical setting of the dimension two or three has exactly one lookup entry. *)
Theorem C97_lookup_complete t name e n : shipped_table t -> get name (settings t) = Some e -> te_canonical e = name -> 2 <= n -> sized n (fwd (te_transform e)) ->
  exists! l, In l (lookup t) /\ lk_name l = name.
Proof.
  intros T G Ec Hn S. destruct (the_facts t T) as (infos & F). destruct (get_in_infos t infos name e F G) as (n' & i & H). destruct (f_good _ _ F _ _ _ _ H) as (O & ec & nc & ic & _ & C). destruct (check_parts _ _ _ _ _ _ _ C) as (_ & _ & _ & _ & _ & _ & S1 & _).
  assert (En : n' = n) by (destruct S, S1; congruence). subst n'. pose proof (f_canonical _ _ F _ _ _ _ H Ec Hn) as I. apply in_map_iff in I as (l & El & Hl). exists l. split; auto. intros l' [Hl' El'].
  pose proof (f_once _ _ F) as N. clear - N Hl Hl' El El'. subst name. induction (lookup t) as [|x r IH]; [destruct Hl|]. cbn [map] in N. inversion N; subst. destruct Hl as [->|Hl], Hl' as [->|Hl']; auto.
  - exfalso. apply H1. rewrite <- El'. apply in_map. auto.
  - exfalso. apply H1. rewrite El'. apply in_map. auto.
Qed.
Print Assumptions C97_lookup_complete.

(** ** the hypotheses are met *)
Example shipped_example : exists t, shipped_table t.
Proof. assert (A : ascii_lower (map lower_ascii)) by (intros t _; reflexivity). destruct (C97_accepted _ A) as (t & E & _). exists t, (map lower_ascii). auto. Qed.
Example setting_example : exists t e, shipped_table t /\ get (str "P112") (settings t) = Some e.
Proof.
  destruct shipped_example as (t & T). exists t. destruct (the_facts t T) as (infos & F). pose proof (f_opposite _ _ F) as H. unfold opposite_check in H. destruct (get (str "P112") infos) as [[[e n] i]|] eqn:E; [|discriminate H].
  exists e. split; auto. apply get_in in E. eapply in_infos_get; eauto.
Qed.
Example alias_example : In (str "Fd3m", str "Fd-3m") dangling_aliases.
Proof. cbn. tauto. Qed.
(** the size of the file *)
Example shipped_size : N.of_nat (length shipped) = 155601%N.
Proof. vm_compute. reflexivity. Qed.
