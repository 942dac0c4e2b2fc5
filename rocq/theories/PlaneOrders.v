(** The number of rotations in a finite group of 2 x 2 rational matrices.  Mathematics for C104. *)
From Coq Require Import List ZArith Lia Bool PeanoNat Permutation QArith Qcanon.
From Verif Require Import Base QcTac Vec Elim Scalars Matrix MatrixMore LinAlg ZQ Lattices Reduce Geometry Text ParseOp Table Generate Group Crystal Rotation Finder Details Sense Plane CrystalSys.
Import ListNotations.
Close Scope Q_scope. Close Scope Qc_scope.
Local Open Scope list_scope.
Open Scope nat_scope.

Definition adj2 (a : m2) : m2 := M2 (e11 a) (- e01 a)%Qc (- e10 a)%Qc (e00 a).
Lemma form_disc f : positive f -> (fp f * fr f - fq f * fq f)%Qc <> 0%Qc.
Proof.
  intros P C. pose proof (positive_p f P) as Np. assert (H : (0 < bil f (V2 (- fq f)%Qc (fp f)) (V2 (- fq f)%Qc (fp f)))%Qc).
  { apply P. intros E. apply Np. exact (f_equal wy E). }
  apply (Qc_pos_nz _ H). unfold bil. cbn [wx wy]. transitivity (fp f * (fp f * fr f - fq f * fq f))%Qc; [ring|]. rewrite C. ring.
Qed.
Lemma height2 f a : det2 a = 1%Qc -> invariant f a ->
  ((1 + 1) * (1 + 1) * (e10 a * e10 a) * (fp f * fr f - fq f * fq f))%Qc = (fp f * fp f * ((1 + 1) * (1 + 1) - tr2 a * tr2 a))%Qc.
Proof.
  intros D I. destruct (invariant_adj f a D I) as [A B]. unfold det2, tr2 in *. revert A B D. generalize (e00 a), (e01 a), (e10 a), (e11 a), (fp f), (fq f), (fr f). clear. intros x y z w p q r A B D.
  transitivity ((1 + 1) * (1 + 1) * (p * p) * (x * w - y * z) - p * p * ((x + w) * (x + w)))%Qc; [|rewrite D; ring].
  transitivity ((1 + 1) * (1 + 1) * p * (- (p * y) * z) - (p * (x - w)) * (p * (x - w)))%Qc; [rewrite A, B; ring|ring].
Qed.
Lemma same_trace2 f a b : positive f -> det2 a = 1%Qc -> det2 b = 1%Qc -> invariant f a -> invariant f b -> tr2 a = tr2 b -> b = a \/ b = adj2 a.
Proof.
  intros P Da Db Ia Ib T. pose proof (form_disc f P) as Nd. apply positive_p in P. destruct (invariant_adj f a Da Ia) as [A1 A2]. destruct (invariant_adj f b Db Ib) as [B1 B2].
  assert (E : (e10 b * e10 b)%Qc = (e10 a * e10 a)%Qc).
  { apply (Qcmult_cancel ((1 + 1) * (1 + 1))%Qc); [intros X; discriminate X|]. apply (Qcmult_cancel (fp f * fr f - fq f * fq f)%Qc); auto.
    transitivity ((1 + 1) * (1 + 1) * (e10 b * e10 b) * (fp f * fr f - fq f * fq f))%Qc; [ring|]. rewrite height2, <- T, <- (height2 f a) by auto. ring. }
  assert (X : ((e10 b - e10 a) * (e10 b + e10 a))%Qc = 0%Qc) by (transitivity (e10 b * e10 b - e10 a * e10 a)%Qc; [ring|rewrite E; ring]).
  assert (T2 : (1 + 1)%Qc <> 0%Qc) by (intros C; discriminate C). unfold tr2 in T.
  destruct (Qcmult_integral _ _ X) as [Z|Z]; [left|right].
  - assert (H : e10 b = e10 a) by (apply Qc_sub_eq; auto). rewrite H in B1, B2.
    assert (S : (e00 b - e11 b)%Qc = (e00 a - e11 a)%Qc) by (apply (Qcmult_cancel (fp f)); auto; congruence).
    apply m2_eq; auto.
    + apply (Qcmult_cancel (1 + 1)%Qc); auto. transitivity ((e00 b + e11 b) + (e00 b - e11 b))%Qc; [ring|]. rewrite S, <- T. ring.
    + apply (Qcmult_cancel (fp f)); auto. congruence.
    + apply (Qcmult_cancel (1 + 1)%Qc); auto. transitivity ((e00 b + e11 b) - (e00 b - e11 b))%Qc; [ring|]. rewrite S, <- T. ring.
  - assert (H : e10 b = (- e10 a)%Qc) by (apply Qc_sub_eq; rewrite <- Z; ring). rewrite H in B1, B2.
    assert (S : (e00 b - e11 b)%Qc = (e11 a - e00 a)%Qc).
    { apply (Qcmult_cancel (fp f)); auto. rewrite B1. transitivity (- (fp f * (e00 a - e11 a)))%Qc; [rewrite A1; ring|ring]. }
    unfold adj2. apply m2_eq; cbn [e00 e01 e10 e11]; auto.
    + apply (Qcmult_cancel (1 + 1)%Qc); auto. transitivity ((e00 b + e11 b) + (e00 b - e11 b))%Qc; [ring|]. rewrite S, <- T. ring.
    + apply (Qcmult_cancel (fp f)); auto. rewrite B2. transitivity (- (fp f * e01 a))%Qc; [rewrite A2; ring|ring].
    + apply (Qcmult_cancel (1 + 1)%Qc); auto. transitivity ((e00 b + e11 b) - (e00 b - e11 b))%Qc; [ring|]. rewrite S, <- T. ring.
Qed.
Lemma neg2_det a : det2 (neg2 a) = det2 a. Proof. m2ring. Qed.
Lemma neg2_tr a : tr2 (neg2 a) = (- tr2 a)%Qc. Proof. m2ring. Qed.
Lemma adj2_det a : det2 (adj2 a) = det2 a. Proof. unfold adj2. m2ring. Qed.
Lemma adj2_tr a : tr2 (adj2 a) = tr2 a. Proof. unfold adj2. m2ring. Qed.
Lemma neg2_neg a : neg2 (neg2 a) = a. Proof. apply m2_eq; m2ring. Qed.
Lemma neg2_mul a : mul2 (neg2 id2) a = neg2 a. Proof. apply m2_eq; m2ring. Qed.
Lemma adj2_mul a : det2 a = 1%Qc -> mul2 a (adj2 a) = id2.
Proof. intros D. unfold det2 in D. unfold adj2. apply m2_eq; unfold mul2, id2; cbn [e00 e01 e10 e11]; try ring; transitivity (e00 a * e11 a - e01 a * e10 a)%Qc; try ring; auto. Qed.
Lemma adj2_neq a : ~ scalar2 a -> adj2 a <> a.
Proof.
  intros N E. apply N. assert (H : forall x : Qc, (- x)%Qc = x -> x = 0%Qc) by (intros; qclra).
  unfold scalar2. splits; [apply H; exact (f_equal e01 E)|apply H; exact (f_equal e10 E)|exact (f_equal e11 E)].
Qed.

(** the members of an explicit list are distinct because their traces differ, or because of N: a' <> a *)
Ltac distinct N neq := repeat (apply NoDup_cons; [cbn [In]; intros C; repeat (destruct C as [C|C];
  [first [exfalso; revert C; neq; fail | apply N; congruence | apply (f_equal neg2) in C; rewrite !neg2_neg in C; apply N; congruence]|]); exact C|]); apply NoDup_nil.

Section G.
  Variable gs : list m2.
  Hypothesis G : group2 gs.
  Hypothesis ND : NoDup gs.
  Definition rot2 : list m2 := filter (fun a => if Qc_eq_dec (det2 a) 1%Qc then true else false) gs.
  Lemma in_rot a : In a rot2 <-> In a gs /\ det2 a = 1%Qc.
  Proof. unfold rot2. rewrite filter_In. destruct (Qc_eq_dec (det2 a) 1%Qc); intuition discriminate. Qed.
  Lemma rot_NoDup : NoDup rot2. Proof. apply NoDup_filter, ND. Qed.
  Lemma adj_in a : In a gs -> det2 a = 1%Qc -> In (adj2 a) gs.
  Proof. intros Ha D. destruct (g_inv gs G a Ha) as (b & Hb & E). replace (adj2 a) with b; auto. rewrite <- (mul2_1l (adj2 a)), <- E, mul2_assoc, adj2_mul, mul2_1r by auto. auto. Qed.
  Lemma neg_in a : In (neg2 id2) gs -> In a gs -> In (neg2 a) gs.
  Proof. intros N Ha. rewrite <- neg2_mul. apply (g_mul gs G); auto. Qed.
  Lemma det_pow a k : det2 a = 1%Qc -> det2 (pow2 a k) = 1%Qc.
  Proof. intros D. induction k as [|k IH]; [reflexivity|]. cbn [pow2]. rewrite det2_mul, IH, D. reflexivity. Qed.
  Lemma order_power a n k m : ord2 a n -> 0 < m -> (forall j, Nat.divide n (k * j) <-> Nat.divide m j) -> ord2 (pow2 a k) m.
  Proof.
    intros O Hm H. unfold ord2. splits; auto.
    - rewrite <- pow2_mul. apply (ord2_divide a n _ O), H. exists 1. lia.
    - intros j Hj C. rewrite <- pow2_mul in C. apply (ord2_divide a n _ O), H in C as [q Hq]. destruct q; cbn [Nat.mul] in Hq; lia.
  Qed.
  Lemma rot_shape b : In b gs -> det2 b = 1%Qc -> b = id2 \/ b = neg2 id2 \/ ord2 b 3 \/ ord2 b 4 \/ (In (neg2 id2) gs /\ In (neg2 b) gs /\ ord2 (neg2 b) 3).
  Proof.
    intros Hb D. destruct (finite_order gs b G Hb) as (n & O). destruct (restriction2 b n O) as [Hn _]. cbn [In] in Hn.
    destruct Hn as [<-|[<-|[<-|[<-|[<-|[]]]]]]; auto.
    - left. destruct O as (_ & P & _). rewrite pow2_1 in P. auto.
    - right. left. apply order2_ok; auto.
    - do 4 right. assert (E : pow2 b 3 = neg2 id2).
      { apply order2_ok; [apply det_pow; auto|]. apply (order_power b 6); auto. intros j. split; intros [q Hq]; exists q; lia. }
      assert (N : In (neg2 id2) gs) by (rewrite <- E; apply pow2_in; auto). splits; auto; [apply neg_in; auto|].
      assert (E4 : pow2 b 4 = neg2 b) by (change (pow2 b 4) with (mul2 (pow2 b 3) b); rewrite E; apply neg2_mul). rewrite <- E4.
      apply (order_power b 6); [auto|lia|]. intros j. split; intros [q Hq]; [|exists (2 * q); lia]. exists (j - q). lia.
  Qed.
  Lemma det_order a n : ord2 a n -> 2 < n -> det2 a = 1%Qc.
  Proof. intros O Hn. destruct (Qc_eq_dec (det2 a) 1%Qc) as [|N]; auto. pose proof (reflection_order a n O N). lia. Qed.
  Lemma like3 a b : In a gs -> In b gs -> ord2 a 3 -> ord2 b 3 -> b = a \/ b = adj2 a.
  Proof.
    intros Ha Hb Oa Ob. destruct (invariant_form gs G) as (f & P & I). pose proof (det_order a 3 Oa ltac:(lia)) as Da. pose proof (det_order b 3 Ob ltac:(lia)) as Db.
    apply (same_trace2 f); auto. rewrite !order3_ok by auto. auto.
  Qed.
  Lemma like4 a b : In a gs -> In b gs -> ord2 a 4 -> ord2 b 4 -> b = a \/ b = adj2 a.
  Proof.
    intros Ha Hb Oa Ob. destruct (invariant_form gs G) as (f & P & I). pose proof (det_order a 4 Oa ltac:(lia)) as Da. pose proof (det_order b 4 Ob ltac:(lia)) as Db.
    apply (same_trace2 f); auto. rewrite !order4_ok by auto. auto.
  Qed.
  Lemma same_length (k : list m2) : NoDup k -> (forall a, In a k <-> In a rot2) -> length rot2 = length k.
  Proof.
    intros N H. assert (length rot2 <= length k) by (apply NoDup_incl_length; [apply rot_NoDup|intros a Ha; apply H; auto]).
    assert (length k <= length rot2) by (apply NoDup_incl_length; [auto|intros a Ha; apply H; auto]). lia.
  Qed.
  Lemma rot_3 a : In a gs -> ord2 a 3 -> length rot2 = 3 \/ length rot2 = 6.
  Proof.
    intros Ha Oa. pose proof (det_order a 3 Oa ltac:(lia)) as Da. pose proof (order3_ok a Da Oa) as Ta. pose proof (adj2_neq a (not_scalar a 3 Da Oa ltac:(lia))) as Na.
    assert (T1 : tr2 id2 = (1 + 1)%Qc) by reflexivity. pose proof (adj2_tr a) as T2. pose proof (neg2_tr a) as T3. pose proof (neg2_tr (adj2 a)) as T4. pose proof (neg2_tr id2) as T5. rewrite T2 in T4. rewrite Ta in T2, T3, T4. rewrite T1 in T5.
    assert (Tn : forall x y, tr2 x <> tr2 y -> x <> y) by congruence.
    assert (N3 : NoDup [id2; a; adj2 a]).
    { distinct Na ltac:(apply Tn; rewrite ?T1, ?Ta, ?T2; discriminate). }
    assert (No4 : forall b, In b gs -> ord2 b 4 -> False) by (intros b Hb Ob; apply (three_four gs a b G Ha Hb Oa Ob Da (det_order b 4 Ob ltac:(lia)))).
    destruct (in_dec m2_dec (neg2 id2) gs) as [I|I].
    - right. apply (same_length [id2; a; adj2 a; neg2 id2; neg2 a; neg2 (adj2 a)]).
      + distinct Na ltac:(apply Tn; rewrite ?T1, ?Ta, ?T2, ?T3, ?T4, ?T5; discriminate).
      + intros b. rewrite in_rot. split.
        * cbn [In]. intros [<-|[<-|[<-|[<-|[<-|[<-|[]]]]]]]; rewrite ?neg2_det, ?adj2_det; split; auto using adj_in, neg_in; apply G.
        * intros [Hb Db]. destruct (rot_shape b Hb Db) as [->|[->|[O|[O|(_ & Hn & O)]]]]; [simpl; auto|simpl; auto 6| |exfalso; eauto|].
          { destruct (like3 a b) as [->| ->]; simpl; auto. }
          { destruct (like3 a (neg2 b)) as [E|E]; auto; apply (f_equal neg2) in E; rewrite neg2_neg in E; subst b; simpl; auto 8. }
    - left. apply (same_length [id2; a; adj2 a]); auto. intros b. rewrite in_rot. split.
      + cbn [In]. intros [<-|[<-|[<-|[]]]]; rewrite ?adj2_det; split; auto using adj_in; apply G.
      + intros [Hb Db]. destruct (rot_shape b Hb Db) as [->|[->|[O|[O|(N & _)]]]]; [simpl; auto|contradiction| |exfalso; eauto|contradiction].
        destruct (like3 a b) as [->| ->]; simpl; auto.
  Qed.
  Lemma rot_4 a : In a gs -> ord2 a 4 -> length rot2 = 4.
  Proof.
    intros Ha Oa. pose proof (det_order a 4 Oa ltac:(lia)) as Da. pose proof (order4_ok a Da Oa) as Ta. pose proof (adj2_neq a (not_scalar a 4 Da Oa ltac:(lia))) as Na.
    assert (T1 : tr2 id2 = (1 + 1)%Qc) by reflexivity. pose proof (adj2_tr a) as T2. pose proof (neg2_tr id2) as T5. rewrite Ta in T2. rewrite T1 in T5.
    assert (Tn : forall x y, tr2 x <> tr2 y -> x <> y) by congruence.
    assert (No3 : forall b, In b gs -> ord2 b 3 -> False) by (intros b Hb Ob; apply (three_four gs b a G Hb Ha Ob Oa (det_order b 3 Ob ltac:(lia)) Da)).
    assert (E : pow2 a 2 = neg2 id2).
    { apply order2_ok; [apply det_pow; auto|]. apply (order_power a 4); auto. intros j. split; intros [q Hq]; exists q; lia. }
    assert (I : In (neg2 id2) gs) by (rewrite <- E; apply pow2_in; auto).
    apply (same_length [id2; a; adj2 a; neg2 id2]).
    - distinct Na ltac:(apply Tn; rewrite ?T1, ?Ta, ?T2, ?T5; discriminate).
    - intros b. rewrite in_rot. split.
      + cbn [In]. intros [<-|[<-|[<-|[<-|[]]]]]; rewrite ?neg2_det, ?adj2_det; split; auto using adj_in, neg_in; apply G.
      + intros [Hb Db]. destruct (rot_shape b Hb Db) as [->|[->|[O|[O|(_ & Hn & O)]]]]; [simpl; auto|simpl; auto 6|exfalso; eauto| |exfalso; eauto].
        destruct (like4 a b) as [->| ->]; simpl; auto.
  Qed.
  Lemma rot_12 : (forall b, In b gs -> ~ ord2 b 3) -> (forall b, In b gs -> ~ ord2 b 4) -> length rot2 = 1 \/ length rot2 = 2.
  Proof.
    intros N3 N4. destruct (in_dec m2_dec (neg2 id2) gs) as [I|I].
    - right. apply (same_length [id2; neg2 id2]).
      + repeat constructor; simpl; intros C; decompose [or] C; try contradiction. discriminate H.
      + intros b. rewrite in_rot. split.
        * cbn [In]. intros [<-|[<-|[]]]; split; auto; apply G.
        * intros [Hb Db]. destruct (rot_shape b Hb Db) as [->|[->|[O|[O|(_ & Hn & O)]]]]; [simpl; auto|simpl; auto 6|exfalso; eapply N3; eauto|exfalso; eapply N4; eauto|exfalso; eapply N3; eauto].
    - left. apply (same_length [id2]).
      + repeat constructor; auto.
      + intros b. rewrite in_rot. split.
        * cbn [In]. intros [<-|[]]; split; auto; apply G.
        * intros [Hb Db]. destruct (rot_shape b Hb Db) as [->|[->|[O|[O|(X & Hn & O)]]]]; [simpl; auto|contradiction|exfalso; eapply N3; eauto|exfalso; eapply N4; eauto|contradiction].
  Qed.
  Lemma no_mirrors : (forall a, In a gs -> det2 a = 1%Qc) -> length gs = length rot2.
  Proof.
    intros H. unfold rot2. clear G ND. induction gs as [|x k IH]; auto. cbn [filter]. destruct (Qc_eq_dec (det2 x) 1%Qc) as [|N]; [|destruct N; apply H; simpl; auto].
    cbn [length]. f_equal. apply IH. intros; apply H; simpl; auto.
  Qed.
  Lemma mirrors_half m : In m gs -> det2 m <> 1%Qc -> length gs = 2 * length rot2.
  Proof.
    intros Hm Dm. set (others := filter (fun a => negb (if Qc_eq_dec (det2 a) 1%Qc then true else false)) gs).
    assert (Sp : length gs = length rot2 + length others).
    { unfold others, rot2. clear. induction gs as [|x k IH]; [reflexivity|]. cbn [filter length]. destruct (Qc_eq_dec (det2 x) 1%Qc); cbn [negb length]; lia. }
    assert (Dt : forall a, In a gs -> det2 a = 1%Qc \/ det2 a = (- (1))%Qc) by (intros a Ha; destruct (finite_order gs a G Ha) as (n & O); apply (restriction2 a n O)).
    assert (Dm' : det2 m = (- (1))%Qc) by (destruct (Dt m Hm); congruence).
    assert (Io : forall a, In a others <-> In a gs /\ det2 a = (- (1))%Qc).
    { intros a. unfold others. rewrite filter_In. split.
      - intros [Ha N]. split; auto. destruct (Dt a Ha) as [D|D]; auto. destruct (Qc_eq_dec (det2 a) 1%Qc); [discriminate|contradiction].
      - intros [Ha D]. split; auto. rewrite D. reflexivity. }
    assert (Inj : forall k, NoDup k -> NoDup (map (mul2 m) k)).
    { intros k Nk. apply FinFun.Injective_map_NoDup; auto. destruct (g_inv gs G m Hm) as (b & _ & E). intros x y H. rewrite <- (mul2_1l x), <- (mul2_1l y), <- E, !mul2_assoc, H. auto. }
    assert (length (map (mul2 m) rot2) <= length others).
    { apply NoDup_incl_length; [apply Inj, rot_NoDup|]. intros x Hx. apply in_map_iff in Hx as (a & <- & Ha). apply in_rot in Ha as [Ha D]. apply Io. split; [apply (g_mul gs G); auto|]. rewrite det2_mul, Dm', D. reflexivity. }
    assert (length (map (mul2 m) others) <= length rot2).
    { apply NoDup_incl_length; [apply Inj, NoDup_filter, ND|]. intros x Hx. apply in_map_iff in Hx as (a & <- & Ha). apply Io in Ha as [Ha D]. apply in_rot. split; [apply (g_mul gs G); auto|]. rewrite det2_mul, Dm', D. reflexivity. }
    rewrite map_length in *. lia.
  Qed.
End G.
