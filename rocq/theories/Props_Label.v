(** Property C74: label vectors (src/pgraphs.rs 18-206). *)
From Coq Require Import List ZArith Lia Bool PeanoNat.
From Verif Require Import Base Vec OrdSet PGraph PGraphBase Label.
Import ListNotations.
Open Scope Z_scope.

(** ** specification: vectors of integers *)
Definition in_i32 (z : Z) : Prop := - 2 ^ 31 <= z < 2 ^ 31.
(** the components of the two vectors, combined by f *)
Definition componentwise (f : Z -> Z -> Z) (a b c : list Z) : Prop :=
  length c = length a /\ length c = length b /\ forall i, (i < length c)%nat -> nth i c 0 = f (nth i a 0) (nth i b 0).
(** a < b in lexicographic order: at the first place where they differ, a is smaller *)
Definition lex_lt (a b : list Z) : Prop :=
  length a = length b /\ exists i, (i < length a)%nat /\ nth i a 0 < nth i b 0 /\ forall j, (j < i)%nat -> nth j a 0 = nth j b 0.

(** what a type of label vectors of dimension d has to do; [vec] is to_vec *)
Record label_vectors (T : Type) (d : nat) (vec : T -> list Z) (zero : T) (is_zero is_negative is_positive : T -> bool) (from : list Z -> outcome T)
    (neg : T -> outcome T) (add sub : T -> T -> outcome T) (cmp : T -> T -> comparison) (eqb : T -> T -> bool) : Prop := {
  lv_vec_length : forall v, length (vec v) = d;
  lv_vec_inj : forall v w, vec v = vec w -> v = w;
  lv_from : forall l, from l = Panic /\ length l <> d \/ exists v, from l = Ret v /\ vec v = l;
  lv_zero : forall i, nth i (vec zero) 0 = 0;
  lv_is_zero : forall v, is_zero v = true <-> v = zero;
  lv_is_negative : forall v, is_negative v = true <-> lex_lt (vec v) (vec zero);
  lv_is_positive : forall v, is_positive v = true <-> lex_lt (vec zero) (vec v);
  lv_add : forall a b, (exists c, add a b = Ret c /\ componentwise Z.add (vec a) (vec b) (vec c) /\ Forall in_i32 (vec c)) \/
    add a b = Panic /\ exists i, ~ in_i32 (nth i (vec a) 0 + nth i (vec b) 0);
  lv_sub : forall a b, (exists c, sub a b = Ret c /\ componentwise Z.sub (vec a) (vec b) (vec c) /\ Forall in_i32 (vec c)) \/
    sub a b = Panic /\ exists i, ~ in_i32 (nth i (vec a) 0 - nth i (vec b) 0);
  lv_neg : forall a, (exists c, neg a = Ret c /\ componentwise Z.sub (vec zero) (vec a) (vec c) /\ Forall in_i32 (vec c)) \/
    neg a = Panic /\ exists i, ~ in_i32 (- nth i (vec a) 0);
  lv_eqb : forall a b, eqb a b = true <-> a = b;
  lv_cmp_lt : forall a b, cmp a b = Lt <-> lex_lt (vec a) (vec b);
  lv_cmp_gt : forall a b, cmp a b = Gt <-> lex_lt (vec b) (vec a);
  lv_cmp_eq : forall a b, cmp a b = Eq <-> a = b }.

(** ** proofs *)
Lemma i32_spec z : i32 z = Ret z /\ in_i32 z \/ i32 z = Panic /\ ~ in_i32 z.
Proof.
  unfold i32, in_i32. destruct (Z.leb_spec (- 2 ^ 31) z), (Z.ltb_spec z (2 ^ 31)); cbn [andb]; [left|right|right|right]; split; auto; lia.
Qed.
Lemma lex_lt_nil : lex_lt [] [] <-> False.
Proof. split; [|tauto]. intros (_ & i & Hi & _). cbn in Hi. lia. Qed.
Lemma lex_lt_cons x y a b : lex_lt (x :: a) (y :: b) <-> (x < y /\ length a = length b) \/ (x = y /\ lex_lt a b).
Proof.
  unfold lex_lt. cbn [length]. split.
  - intros (L & [|i] & Hi & H & Hj); cbn [nth] in H; [left; split; lia|]. right. pose proof (Hj 0%nat ltac:(lia)) as E. cbn [nth] in E. split; auto. split; [lia|]. exists i. split; [lia|]. split; auto.
    intros j Hji. apply (Hj (S j)). lia.
  - intros [[H L]|[-> (L & i & Hi & H & Hj)]].
    + split; [lia|]. exists 0%nat. split; [lia|]. split; auto. intros j Hj. lia.
    + split; [lia|]. exists (S i). split; [lia|]. split; auto. intros [|j] Hji; auto. cbn [nth]. apply Hj. lia.
Qed.
Lemma componentwise_nil f : componentwise f [] [] [].
Proof. split; auto. split; auto. intros i Hi. cbn in Hi. lia. Qed.
Lemma componentwise_cons f x y z a b c : componentwise f (x :: a) (y :: b) (z :: c) <-> z = f x y /\ componentwise f a b c.
Proof.
  unfold componentwise. cbn [length]. split.
  - intros (L1 & L2 & H). split; [apply (H 0%nat); lia|]. split; [lia|]. split; [lia|]. intros i Hi. apply (H (S i)). lia.
  - intros (E & L1 & L2 & H). split; [lia|]. split; [lia|]. intros [|i] Hi; cbn [nth]; auto. apply H. lia.
Qed.
Ltac overflow := repeat match goal with |- context [i32 ?z] => let R := fresh in let I := fresh in destruct (i32_spec z) as [[R I]|[R I]]; rewrite R; cbn [bind] end.
Ltac too_large := right; split; auto; match goal with H : ~ in_i32 ?z |- exists i, ~ in_i32 (@?f i) => first [exists 0%nat; exact H|exists 1%nat; exact H|exists 2%nat; exact H] end.
Ltac fine := left; eexists; split; [reflexivity|]; split; [rewrite !componentwise_cons; repeat (split; [cbn; lia|]); apply componentwise_nil|repeat (constructor; auto)].
Ltac signs := repeat match goal with |- context [?a <? ?b] => destruct (Z.ltb_spec a b) | |- context [?a >? ?b] => rewrite Z.gtb_ltb; destruct (Z.ltb_spec b a) | |- context [?a =? ?b] => destruct (Z.eqb_spec a b) end; cbn [andb orb].
Ltac compares := repeat match goal with |- context [?a ?= ?b] => destruct (Z.compare_spec a b) end; cbn [lex].
Ltac lexes := rewrite ?lex_lt_cons, ?lex_lt_nil; cbn [length].

Theorem C74_2d : label_vectors lv2 2 to_vec2 zero2 is_zero2 is_negative2 is_positive2 from_vec2 neg2 add2 sub2 cmp2 eqb2.
Proof.
  split; try (intros [x y] [x' y']); try (intros [x y]); unfold to_vec2, is_zero2, is_negative2, is_positive2, neg2, add2, sub2, cmp2, eqb2, zero2; cbn [x2 y2].
  - reflexivity.
  - congruence.
  - intros [|x [|y [|z l]]]; unfold from_vec2; cbn [length Nat.eqb assert bind nth_error unwrap]; [left; split; auto; discriminate|left; split; auto; discriminate|right; eexists; split; reflexivity|left; split; auto; cbn; lia].
  - intros [|[|[|i]]]; reflexivity.
  - signs; split; intros H; try discriminate H; auto; try (injection H as ? ?); try congruence; lia.
  - lexes. signs; split; intros H'; auto; try discriminate H'; try lia.
  - lexes. signs; split; intros H'; auto; try discriminate H'; try lia.
  - overflow; first [fine|too_large].
  - overflow; first [fine|too_large].
  - overflow; first [fine|too_large].
  - signs; split; intros H; try discriminate H; auto; try (injection H as ? ?); try congruence; try lia.
  - lexes. compares; split; intros H'; auto; try discriminate H'; try lia.
  - lexes. compares; split; intros H'; auto; try discriminate H'; try lia.
  - compares; split; intros H'; auto; try discriminate H'; try (injection H' as ? ?); try congruence; try lia.
Qed.
Theorem C74_3d : label_vectors lv3 3 to_vec3 zero3 is_zero3 is_negative3 is_positive3 from_vec3 neg3 add3 sub3 cmp3 eqb3.
Proof.
  split; try (intros [x y z] [x' y' z']); try (intros [x y z]); unfold to_vec3, is_zero3, is_negative3, is_positive3, neg3, add3, sub3, cmp3, eqb3, zero3; cbn [x3 y3 z3].
  - reflexivity.
  - congruence.
  - intros [|x [|y [|z [|u l]]]]; unfold from_vec3; cbn [length Nat.eqb assert bind nth_error unwrap];
      [left; split; auto; discriminate|left; split; auto; discriminate|left; split; auto; discriminate|right; eexists; split; reflexivity|left; split; auto; cbn; lia].
  - intros [|[|[|[|i]]]]; reflexivity.
  - signs; split; intros H; try discriminate H; auto; try (injection H as ? ? ?); try congruence; lia.
  - lexes. signs; split; intros H'; auto; try discriminate H'; try lia.
  - lexes. signs; split; intros H'; auto; try discriminate H'; try lia.
  - overflow; first [fine|too_large].
  - overflow; first [fine|too_large].
  - overflow; first [fine|too_large].
  - signs; split; intros H; try discriminate H; auto; try (injection H as ? ? ?); try congruence; try lia.
  - lexes. compares; split; intros H'; auto; try discriminate H'; try lia.
  - lexes. compares; split; intros H'; auto; try discriminate H'; try lia.
  - compares; split; intros H'; auto; try discriminate H'; try (injection H' as ? ? ?); try congruence; try lia.
Qed.
Print Assumptions C74_2d.
Print Assumptions C74_3d.

(** ** consequences for every such type: an ordered group, as long as nothing overflows *)
Section Laws.
  Variables (T : Type) (d : nat) (vec : T -> list Z) (zero : T) (is_zero is_negative is_positive : T -> bool) (from : list Z -> outcome T)
    (neg : T -> outcome T) (add sub : T -> T -> outcome T) (cmp : T -> T -> comparison) (eqb : T -> T -> bool).
  Hypothesis LV : label_vectors T d vec zero is_zero is_negative is_positive from neg add sub cmp eqb.
  Notation nv v i := (nth i (vec v) 0).
  Lemma lv_ext a b : (forall i, nv a i = nv b i) -> a = b.
  Proof.
    intros H. apply (lv_vec_inj _ _ _ _ _ _ _ _ _ _ _ _ _ LV). apply nth_ext with (d := 0) (d' := 0); auto. rewrite !(lv_vec_length _ _ _ _ _ _ _ _ _ _ _ _ _ LV). reflexivity.
  Qed.
  Lemma lv_over a i : (d <= i)%nat -> nv a i = 0.
  Proof. intros H. apply nth_overflow. rewrite (lv_vec_length _ _ _ _ _ _ _ _ _ _ _ _ _ LV). auto. Qed.
  Lemma comp_nth f a b c : f 0 0 = 0 -> componentwise f (vec a) (vec b) (vec c) -> forall i, nv c i = f (nv a i) (nv b i).
  Proof.
    intros F (_ & _ & H) i. rewrite (lv_vec_length _ _ _ _ _ _ _ _ _ _ _ _ _ LV) in H. destruct (Nat.lt_ge_cases i d) as [Hi|Hi]; auto. rewrite !lv_over by auto. auto.
  Qed.
  Lemma add_nth a b c : add a b = Ret c -> forall i, nv c i = nv a i + nv b i.
  Proof. intros E. destruct (lv_add _ _ _ _ _ _ _ _ _ _ _ _ _ LV a b) as [(c' & E' & H & _)|[E' _]]; rewrite E in E'; [|discriminate]. injection E' as <-. apply (comp_nth Z.add); auto. Qed.
  Lemma sub_nth a b c : sub a b = Ret c -> forall i, nv c i = nv a i - nv b i.
  Proof. intros E. destruct (lv_sub _ _ _ _ _ _ _ _ _ _ _ _ _ LV a b) as [(c' & E' & H & _)|[E' _]]; rewrite E in E'; [|discriminate]. injection E' as <-. apply (comp_nth Z.sub); auto. Qed.
  Lemma neg_nth a c : neg a = Ret c -> forall i, nv c i = - nv a i.
  Proof.
    intros E i. destruct (lv_neg _ _ _ _ _ _ _ _ _ _ _ _ _ LV a) as [(c' & E' & H & _)|[E' _]]; rewrite E in E'; [|discriminate]. injection E' as <-.
    rewrite (comp_nth Z.sub zero a c eq_refl H). rewrite (lv_zero _ _ _ _ _ _ _ _ _ _ _ _ _ LV). reflexivity.
  Qed.

  Theorem C74_group : forall a b c ab bc r s na nb sb,
    (add a b = Ret ab -> add b a = Ret ab) /\
    (add a b = Ret ab -> add b c = Ret bc -> add ab c = Ret r -> add a bc = Ret s -> r = s) /\
    (Forall in_i32 (vec a) -> add a zero = Ret a /\ sub a zero = Ret a /\ sub a a = Ret zero) /\
    (neg a = Ret na -> Forall in_i32 (vec a) -> add a na = Ret zero /\ neg na = Ret a) /\
    (neg b = Ret nb -> sub a b = Ret sb -> add a nb = Ret sb).
  Proof.
    assert (A : forall u v w, (forall i, nv w i = nv u i + nv v i) -> Forall in_i32 (vec w) -> add u v = Ret w).
    { intros u v w Hw F. destruct (lv_add _ _ _ _ _ _ _ _ _ _ _ _ _ LV u v) as [(w' & E & H & _)|[_ (i & N)]].
      - rewrite E. f_equal. apply lv_ext. intros i. rewrite Hw. apply (comp_nth Z.add); auto.
      - exfalso. apply N. rewrite <- Hw. destruct (Nat.lt_ge_cases i d) as [Hi|Hi]; [|rewrite lv_over by auto; unfold in_i32; lia]. rewrite Forall_forall in F. apply F. apply nth_In. rewrite (lv_vec_length _ _ _ _ _ _ _ _ _ _ _ _ _ LV). auto. }
    assert (S : forall u v w, (forall i, nv w i = nv u i - nv v i) -> Forall in_i32 (vec w) -> sub u v = Ret w).
    { intros u v w Hw F. destruct (lv_sub _ _ _ _ _ _ _ _ _ _ _ _ _ LV u v) as [(w' & E & H & _)|[_ (i & N)]].
      - rewrite E. f_equal. apply lv_ext. intros i. rewrite Hw. apply (comp_nth Z.sub); auto.
      - exfalso. apply N. rewrite <- Hw. destruct (Nat.lt_ge_cases i d) as [Hi|Hi]; [|rewrite lv_over by auto; unfold in_i32; lia]. rewrite Forall_forall in F. apply F. apply nth_In. rewrite (lv_vec_length _ _ _ _ _ _ _ _ _ _ _ _ _ LV). auto. }
    assert (G : forall u w, (forall i, nv w i = - nv u i) -> Forall in_i32 (vec w) -> neg u = Ret w).
    { intros u w Hw F. destruct (lv_neg _ _ _ _ _ _ _ _ _ _ _ _ _ LV u) as [(w' & E & H & _)|[_ (i & N)]].
      - rewrite E. f_equal. apply lv_ext. intros i. rewrite Hw. apply (neg_nth u); auto.
      - exfalso. apply N. rewrite <- Hw. destruct (Nat.lt_ge_cases i d) as [Hi|Hi]; [|rewrite lv_over by auto; unfold in_i32; lia]. rewrite Forall_forall in F. apply F. apply nth_In. rewrite (lv_vec_length _ _ _ _ _ _ _ _ _ _ _ _ _ LV). auto. }
    assert (Z0 : forall i, nv zero i = 0) by (apply (lv_zero _ _ _ _ _ _ _ _ _ _ _ _ _ LV)).
    assert (Zf : Forall in_i32 (vec zero)). { apply Forall_forall. intros x Hx. apply In_nth with (d := 0) in Hx as (i & _ & <-). rewrite Z0. unfold in_i32. lia. }
    assert (Ra : forall u v w, add u v = Ret w -> Forall in_i32 (vec w)) by (intros u v w E; destruct (lv_add _ _ _ _ _ _ _ _ _ _ _ _ _ LV u v) as [(w' & E' & _ & F)|[E' _]]; congruence).
    assert (Rs : forall u v w, sub u v = Ret w -> Forall in_i32 (vec w)) by (intros u v w E; destruct (lv_sub _ _ _ _ _ _ _ _ _ _ _ _ _ LV u v) as [(w' & E' & _ & F)|[E' _]]; congruence).
    intros a b c ab bc r s na nb sb. splits.
    - intros E. apply A; [|eauto]. intros i. rewrite (add_nth a b ab E). lia.
    - intros E1 E2 E3 E4. apply lv_ext. intros i. rewrite (add_nth _ _ _ E3), (add_nth _ _ _ E4), (add_nth _ _ _ E1), (add_nth _ _ _ E2). lia.
    - intros F. splits; [apply A|apply S|apply S]; auto; intros i; rewrite Z0; lia.
    - intros E F. split; [apply A|apply G]; auto; intros i; rewrite (neg_nth a na E), ?Z0; lia.
    - intros E1 E2. apply A; [|eauto]. intros i. rewrite (sub_nth _ _ _ E2), (neg_nth _ _ E1). lia.
  Qed.
  (** the order: total, transitive, and compatible with addition; every vector has exactly one sign *)
  Lemma lex_lt_irrefl l : ~ lex_lt l l.
  Proof. intros (_ & i & _ & H & _). lia. Qed.
  Theorem C74_order : forall a b c,
    (exists s, In s [Lt; Eq; Gt] /\ cmp a b = s /\ cmp b a = CompOpp s) /\
    (cmp a b = Lt -> cmp b c = Lt -> cmp a c = Lt) /\
    (forall ac bc, add a c = Ret ac -> add b c = Ret bc -> cmp ac bc = cmp a b) /\
    In (is_negative a, is_zero a, is_positive a) [(true, false, false); (false, true, false); (false, false, true)] /\
    (forall na, neg a = Ret na -> is_positive na = is_negative a /\ is_negative na = is_positive a).
  Proof.
    pose proof (lv_cmp_lt _ _ _ _ _ _ _ _ _ _ _ _ _ LV) as HL. pose proof (lv_cmp_gt _ _ _ _ _ _ _ _ _ _ _ _ _ LV) as HG. pose proof (lv_cmp_eq _ _ _ _ _ _ _ _ _ _ _ _ _ LV) as HE.
    pose proof (lv_vec_length _ _ _ _ _ _ _ _ _ _ _ _ _ LV) as Len.
    assert (Sgn : forall u v, cmp v u = CompOpp (cmp u v)).
    { intros u v. destruct (cmp u v) eqn:E; cbn [CompOpp]; [apply HE; symmetry; apply HE; auto|apply HG, HL; auto|apply HL, HG; auto]. }
    assert (Lt_nth : forall u v u' v', (forall i, nv u' i - nv v' i = nv u i - nv v i) -> lex_lt (vec u) (vec v) -> lex_lt (vec u') (vec v')).
    { intros u v u' v' H (_ & i & Hi & L & Hj). split; [rewrite !Len; auto|]. exists i. rewrite Len in *. split; auto. pose proof (H i). split; [lia|]. intros j Hji. pose proof (H j). pose proof (Hj j Hji). lia. }
    assert (Neg : forall v, is_negative v = true <-> cmp v zero = Lt) by (intros v; rewrite (lv_is_negative _ _ _ _ _ _ _ _ _ _ _ _ _ LV), HL; tauto).
    assert (Pos : forall v, is_positive v = true <-> cmp v zero = Gt) by (intros v; rewrite (lv_is_positive _ _ _ _ _ _ _ _ _ _ _ _ _ LV), HG; tauto).
    assert (Zer : forall v, is_zero v = true <-> cmp v zero = Eq) by (intros v; rewrite (lv_is_zero _ _ _ _ _ _ _ _ _ _ _ _ _ LV), HE; tauto).
    assert (Shf : forall u v u' v', (forall i, nv u' i - nv v' i = nv u i - nv v i) -> cmp u' v' = cmp u v).
    { intros u v u' v' H. destruct (cmp u v) eqn:E.
      - apply HE. apply HE in E. subst v. apply lv_ext. intros i. specialize (H i). lia.
      - apply HL. apply HL in E. revert E. apply Lt_nth. auto.
      - apply HG. apply HG in E. revert E. apply Lt_nth. intros i. specialize (H i). lia. }
    intros a b c. splits.
    - exists (cmp a b). splits; auto. destruct (cmp a b); cbn; auto.
    - rewrite !HL. intros (_ & i & Hi & L1 & H1) (_ & j & Hj & L2 & H2). split; [rewrite !Len; auto|]. rewrite Len in *. destruct (Nat.lt_total i j) as [K|[->|K]].
      + exists i. split; auto. rewrite <- (H2 i K). split; auto. intros k Hk. rewrite H1 by auto. apply H2. lia.
      + exists j. split; auto. split; [lia|]. intros k Hk. rewrite H1 by auto. apply H2. auto.
      + exists j. split; auto. rewrite (H1 j K). split; auto. intros k Hk. rewrite H1 by lia. apply H2. auto.
    - intros ac bc E1 E2. apply Shf. intros i. rewrite (add_nth _ _ _ E1), (add_nth _ _ _ E2). lia.
    - specialize (Neg a). specialize (Pos a). specialize (Zer a).
      destruct (cmp a zero); destruct (is_negative a), (is_zero a), (is_positive a); cbn;
        try (exfalso; assert (true = true) by reflexivity; intuition discriminate); auto;
        exfalso; try (apply Neg in H); intuition discriminate.
    - intros na E. pose proof (neg_nth _ _ E) as N. pose proof (lv_zero _ _ _ _ _ _ _ _ _ _ _ _ _ LV) as Z0. assert (Q : cmp na zero = cmp zero a) by (apply Shf; intros i; rewrite N, Z0; lia). rewrite (Sgn a zero) in Q.
      split; apply eq_true_iff_eq; rewrite ?Neg, ?Pos, Q; destruct (cmp a zero); cbn; intuition congruence.
  Qed.
End Laws.
Print Assumptions C74_group.
Print Assumptions C74_order.

(** ** the rest of the model (PGraph.v) uses lists of integers for label vectors of any dimension; on two and three components it is the same thing *)
Theorem C74_lists : forall x y z x' y' z',
  (is_zero2 (LV2 x y) = s_is_zero [x; y] /\ is_negative2 (LV2 x y) = s_is_negative [x; y] /\ is_positive2 (LV2 x y) = s_is_positive [x; y] /\
   cmp2 (LV2 x y) (LV2 x' y') = s_cmp [x; y] [x'; y'] /\ eqb2 (LV2 x y) (LV2 x' y') = s_eqb [x; y] [x'; y'] /\ to_vec2 zero2 = szero 2 /\
   (forall c, add2 (LV2 x y) (LV2 x' y') = Ret c -> to_vec2 c = sadd [x; y] [x'; y']) /\
   (forall c, sub2 (LV2 x y) (LV2 x' y') = Ret c -> to_vec2 c = ssub [x; y] [x'; y']) /\
   (forall c, neg2 (LV2 x y) = Ret c -> to_vec2 c = sneg [x; y])) /\
  (is_zero3 (LV3 x y z) = s_is_zero [x; y; z] /\ is_negative3 (LV3 x y z) = s_is_negative [x; y; z] /\ is_positive3 (LV3 x y z) = s_is_positive [x; y; z] /\
   cmp3 (LV3 x y z) (LV3 x' y' z') = s_cmp [x; y; z] [x'; y'; z'] /\ eqb3 (LV3 x y z) (LV3 x' y' z') = s_eqb [x; y; z] [x'; y'; z'] /\ to_vec3 zero3 = szero 3 /\
   (forall c, add3 (LV3 x y z) (LV3 x' y' z') = Ret c -> to_vec3 c = sadd [x; y; z] [x'; y'; z']) /\
   (forall c, sub3 (LV3 x y z) (LV3 x' y' z') = Ret c -> to_vec3 c = ssub [x; y; z] [x'; y'; z']) /\
   (forall c, neg3 (LV3 x y z) = Ret c -> to_vec3 c = sneg [x; y; z])).
Proof.
  intros x y z x' y' z'.
  unfold is_zero2, is_negative2, is_positive2, cmp2, eqb2, add2, sub2, neg2, to_vec2, is_zero3, is_negative3, is_positive3, cmp3, eqb3, add3, sub3, neg3, to_vec3, s_is_zero.
  cbn [x2 y2 x3 y3 z3 forallb s_is_negative s_is_positive s_cmp s_eqb sadd ssub sneg zipw map].
  split; splits; auto; try (intros c; overflow; intros E; try discriminate E; injection E as <-; reflexivity).
  all: signs; auto; compares; auto.
Qed.
Print Assumptions C74_lists.
Example C74_case : add2 (LV2 3 (-5)) (LV2 4 5) = Ret (LV2 7 0) /\ add3 (LV3 1 2 2147483647) (LV3 0 0 1) = Panic /\ neg2 (LV2 (-2147483648) 0) = Panic /\
  neg2 (LV2 2147483647 1) = Ret (LV2 (-2147483647) (-1)) /\ cmp3 (LV3 1 2 3) (LV3 1 2 (-4)) = Gt /\ is_negative3 (LV3 0 0 (-1)) = true /\ from_vec2 [1; 2; 3] = Panic.
Proof. splits; reflexivity. Qed.
