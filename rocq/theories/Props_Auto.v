(** Property C75: Automorphism values (src/pgraphs.rs 591-668). *)
From Coq Require Import List ZArith Lia Bool PeanoNat QArith Qcanon Permutation.
From Verif Require Import Base Partition Vec Elim Scalars Matrix LinAlg Geometry ZQ ModSolver ModSolve OrdSet Lattices PGraph PGraphBase Symmetries.
From Verif Require Group Props_Geometry Props_Symmetries.
Import ListNotations.
Close Scope Q_scope. Close Scope Qc_scope.
Open Scope nat_scope.

(** ** specification *)
Definition vertex_image (a : auto) (v : nat) : option nat := aget Nat.eqb v (vmap a).
Definition edge_image (a : auto) (e : edge) : option edge := aget edge_eqb e (emap a).
(** the two hash maps have at most one entry for each key *)
Definition proper (a : auto) : Prop := NoDup (map fst (vmap a)) /\ NoDup (map fst (emap a)).
(** pgraphs.rs 660-669: what Hash feeds to the hasher: the transform and the entries of the vertex map in sorted order *)
Definition pair_cmp (p q : nat * nat) : comparison := lex (Nat.compare (fst p) (fst q)) (Nat.compare (snd p) (snd q)).
Definition hash_input (a : auto) : affmap * list (nat * nat) := (xform a, usort pair_cmp (vmap a)).

(** ** proofs *)
Section M.
  Context {K V : Type} (eqb : K -> K -> bool) (veqb : V -> V -> bool).
  Hypothesis Eq : forall x y, reflect (x = y) (eqb x y).
  Hypothesis VEq : forall x y, reflect (x = y) (veqb x y).
  Lemma aget_In_NoDup (m : list (K * V)) k v : NoDup (map fst m) -> In (k, v) m -> aget eqb k m = Some v.
  Proof.
    induction m as [|[k' v'] m IH]; intros N []; inversion N as [|? ? N1 N2]; subst; cbn [aget].
    - injection H as -> ->. destruct (Eq k k); congruence.
    - destruct (Eq k k') as [->|]; auto. exfalso. apply N1. apply in_map_iff. exists (k', v). auto.
  Qed.
  Lemma map_eqb_spec (m m' : list (K * V)) : NoDup (map fst m) -> NoDup (map fst m') -> map_eqb eqb veqb m m' = true <-> forall k, aget eqb k m = aget eqb k m'.
  Proof.
    intros N N'. unfold map_eqb. rewrite andb_true_iff, Nat.eqb_eq, forallb_forall. split.
    - intros [L H].
      assert (S : forall k v, aget eqb k m = Some v -> aget eqb k m' = Some v).
      { intros k v E. apply (aget_In eqb Eq) in E. specialize (H _ E). cbn [fst snd] in H. destruct (aget eqb k m') as [w|]; [|discriminate H]. destruct (VEq v w); congruence. }
      assert (I : incl (map fst m') (map fst m)).
      { apply NoDup_length_incl; auto; [rewrite !map_length; lia|]. intros k Hk. apply (Group.aget_keys _ Eq) in Hk as (v & E). apply (Group.aget_keys _ Eq). exists v. auto. }
      intros k. destruct (aget eqb k m) as [v|] eqn:E; [symmetry; auto|]. symmetry. apply (aget_None eqb Eq). apply (aget_None eqb Eq) in E. auto.
    - intros H. assert (Len : forall a b : list (K * V), NoDup (map fst a) -> (forall k, aget eqb k a = aget eqb k b) -> length a <= length b).
      { intros a b Na Hab. rewrite <- (map_length fst a), <- (map_length fst b). apply NoDup_incl_length; auto. intros k Hk. apply (Group.aget_keys _ Eq). apply (Group.aget_keys _ Eq) in Hk as (v & E). exists v. congruence. }
      split; [apply Nat.le_antisymm; apply Len; auto|]. intros [k v] Hk. cbn [fst snd]. rewrite <- H, (aget_In_NoDup m k v) by auto. destruct (VEq v v); congruence.
  Qed.
End M.
Lemma pair_cmp_laws : cmp_laws pair_cmp.
Proof.
  unfold pair_cmp. split.
  - intros [x y] [x' y']. cbn [fst snd]. rewrite lex_eq, !Nat.compare_eq_iff. split; [intros [-> ->]; auto|intros [= -> ->]; auto].
  - intros [x y] [x' y']. cbn [fst snd]. rewrite lex_opp, <- !Nat.compare_antisym. auto.
  - intros [x y] [x' y'] [x'' y'']. cbn [fst snd]. destruct (Nat.compare_spec x x') as [->|H|H]; cbn [lex]; try discriminate; destruct (Nat.compare_spec x' x'') as [->|H'|H']; cbn [lex]; try discriminate.
    + rewrite !Nat.compare_lt_iff. lia.
    + auto.
    + intros _ _. rewrite (proj2 (Nat.compare_lt_iff x x'')); auto.
    + intros _ _. rewrite (proj2 (Nat.compare_lt_iff x x'')); auto. lia.
Qed.
Lemma aff_eqb_spec (a b : affmap) : aff_eqb a b = true <-> a = b.
Proof.
  unfold aff_eqb. rewrite andb_true_iff, !Props_Geometry.mat_eqb_spec. destruct a as [l s], b as [l' s']; cbn. split; [intros [-> ->]; auto|intros E; injection E as -> ->; auto].
Qed.

(** ** C75 *)
(** Two values compare equal exactly if they have the same transform, and the same vertex and edge images everywhere. *)
Theorem C75_equality : forall a b, proper a -> proper b ->
  auto_eqb a b = true <-> xform a = xform b /\ (forall v, vertex_image a v = vertex_image b v) /\ (forall e, edge_image a e = edge_image b e).
Proof.
  intros a b [Na1 Na2] [Nb1 Nb2]. unfold auto_eqb. rewrite !andb_true_iff, aff_eqb_spec, (map_eqb_spec _ _ Nat.eqb_spec Nat.eqb_spec), (map_eqb_spec _ _ edge_eqb_spec edge_eqb_spec) by auto. unfold vertex_image, edge_image. tauto.
Qed.
Print Assumptions C75_equality.
(** equal values feed the same input to the hasher, as the HashSets in symmetries.rs need *)
Theorem C75_hash : forall a b, proper a -> proper b -> auto_eqb a b = true -> hash_input a = hash_input b.
Proof.
  intros a b Pa Pb E. apply C75_equality in E as (Ex & Ev & _); auto. unfold hash_input. rewrite Ex. f_equal. apply (usort_ext _ pair_cmp_laws). destruct Pa as [Na _], Pb as [Nb _].
  intros [k v]. unfold vertex_image in Ev. split; intros H; apply (aget_In_NoDup _ Nat.eqb_spec) in H; auto; apply (aget_In _ Nat.eqb_spec); congruence.
Qed.
Print Assumptions C75_hash.
(** The product applies the right factor first.  It is defined exactly if the affine maps can be multiplied, each key of the left factor is a key of
    the right one, and the image there is again a key of the left factor. *)
Definition composable (a b : auto) : Prop :=
  (forall v, vertex_image a v <> None -> exists w, vertex_image b v = Some w /\ vertex_image a w <> None) /\
  (forall e, edge_image a e <> None -> exists f, edge_image b e = Some f /\ edge_image a f <> None).
Section P.
  Context {K : Type} (eqb : K -> K -> bool).
  Hypothesis Eq : forall x y, reflect (x = y) (eqb x y).
  Lemma product_map (a b : list (K * K)) :
    (exists c, mapM (fun kv => do x <- unwrap (aget eqb (fst kv) b); do y <- unwrap (aget eqb x a); Ret (fst kv, y)) a = Ret c /\ map fst c = map fst a /\
       (forall k, aget eqb k a <> None -> exists w, aget eqb k b = Some w /\ aget eqb w a <> None) /\
       forall k, aget eqb k c = match aget eqb k a with None => None | Some _ => match aget eqb k b with None => None | Some w => aget eqb w a end end) \/
    mapM (fun kv => do x <- unwrap (aget eqb (fst kv) b); do y <- unwrap (aget eqb x a); Ret (fst kv, y)) a = Panic /\
      ~ (forall k, aget eqb k a <> None -> exists w, aget eqb k b = Some w /\ aget eqb w a <> None).
  Proof.
    set (f := fun kv : K * K => do x <- unwrap (aget eqb (fst kv) b); do y <- unwrap (aget eqb x a); Ret (fst kv, y)).
    assert (G : forall l, incl l a -> (exists c, mapM f l = Ret c /\ map fst c = map fst l /\ (forall k, In k (map fst l) -> exists w, aget eqb k b = Some w /\ aget eqb w a <> None) /\
        forall k, In k (map fst l) -> aget eqb k c = match aget eqb k b with None => None | Some w => aget eqb w a end) \/
      mapM f l = Panic /\ exists k, In k (map fst a) /\ forall w, aget eqb k b = Some w -> aget eqb w a = None).
    { induction l as [|[k v] l IH]; intros Hl; cbn [mapM].
      - left. exists []. splits; auto; intros ? [].
      - assert (Hk : In k (map fst a)) by (apply in_map_iff; exists (k, v); split; auto; apply Hl; simpl; auto). unfold f at 1 3. cbn [fst].
        destruct (aget eqb k b) as [w|] eqn:Eb; cbn [unwrap bind]; [|right; split; auto; exists k; split; auto; intros w Hw; congruence].
        destruct (aget eqb w a) as [y|] eqn:Ew; cbn [unwrap bind]; [|right; split; auto; exists k; split; auto; intros w' Hw; congruence].
        destruct IH as [(c & -> & Fc & D & H)|[-> X]]; [intros x Hx; apply Hl; simpl; auto| |right; auto]. left. eexists. split; [reflexivity|]. cbn [map fst]. splits.
        + rewrite Fc. auto.
        + intros k' [<-|Hk']; auto. exists w. split; congruence.
        + intros k' Hk'. cbn [aget]. destruct (Eq k' k) as [->|N]; [rewrite Eb; auto|]. apply H. destruct Hk'; congruence. }
    destruct (G a (incl_refl a)) as [(c & E & Fc & D & H)|[E (k & Hk & N)]]; [left|right].
    - exists c. splits; auto.
      + intros k Hk. apply D. apply (Group.aget_keys _ Eq). destruct (aget eqb k a) as [v|]; [eauto|congruence].
      + intros k. destruct (aget eqb k a) as [v|] eqn:Ea; [apply H; apply (Group.aget_keys _ Eq); eauto|]. apply (aget_None eqb Eq). rewrite Fc. apply (aget_None eqb Eq). auto.
    - split; auto. intros H. apply (Group.aget_keys _ Eq) in Hk as (v & Ev). destruct (H k) as (w & Ew & Nw); [congruence|]. apply Nw. auto.
  Qed.
End P.
Theorem C75_product : forall a b,
  (forall c, auto_mul a b = Ret c -> aff_mul (xform a) (xform b) = Ret (xform c) /\ (proper a -> proper c) /\
     (forall v, vertex_image c v = match vertex_image a v with None => None | Some _ => match vertex_image b v with None => None | Some w => vertex_image a w end end) /\
     (forall e, edge_image c e = match edge_image a e with None => None | Some _ => match edge_image b e with None => None | Some f => edge_image a f end end)) /\
  ((exists c, auto_mul a b = Ret c) <-> (exists t, aff_mul (xform a) (xform b) = Ret t) /\ composable a b).
Proof.
  intros a b. unfold auto_mul.
  destruct (product_map _ Nat.eqb_spec (vmap a) (vmap b)) as [(vc & Ev & Fv & Dv & Hv)|[Ev Nv]]; rewrite Ev; destruct (product_map _ edge_eqb_spec (emap a) (emap b)) as [(ec & Ee & Fe & De & He)|[Ee Ne]]; rewrite Ee;
    destruct (aff_mul (xform a) (xform b)) as [t| |]; cbn [bind]; (split; [intros c E; try discriminate E|split; [intros (c & E); try discriminate E|intros [(t' & E) [C1 C2]]; try discriminate E]]); auto; try contradiction.
  - injection E as <-. unfold proper, vertex_image, edge_image. cbn [vmap emap xform]. rewrite Fv, Fe. splits; auto.
  - injection E as <-. split; eauto. split; auto.
  - eauto.
Qed.
Print Assumptions C75_product.
(** affine maps compare equal exactly if they are equal *)
Theorem C75_affine_equality : forall a b : affmap, aff_eqb a b = true <-> a = b.
Proof. exact aff_eqb_spec. Qed.
(** a non-trivial case: the rotation of the honeycomb net by 120 degrees; its cube is the identity *)
Example C75_case : exists id r r2 r3, auto_identity Props_Placement.honeycomb = Ret id /\
  automorphism chk64 Props_Placement.honeycomb 1 1 (Props_Symmetries.affine_map 2 (Props_Symmetries.of_rows [[-1; -1]; [1; 0]]%Z) (fun _ => 0%Qc)) = Ret (Some r) /\
  auto_mul r r = Ret r2 /\ auto_mul r r2 = Ret r3 /\ auto_eqb r3 id = true /\ auto_eqb r2 r = false /\ auto_eqb r2 id = false /\ NoDup (map fst (vmap r)) /\ length (emap r) = 6.
Proof. eexists _, _, _, _. splits; try (vm_compute; reflexivity). vm_compute. repeat constructor; simpl; intuition discriminate. Qed.
