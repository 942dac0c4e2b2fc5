(** Finite groups of 2 x 2 rational matrices: orders, rotations commute, invariant forms.  Mathematics for finder.rs. *)
From Coq Require Import List ZArith Lia Bool PeanoNat Permutation QArith Qcanon.
From Verif Require Import Base QcTac Vec Elim Scalars Matrix MatrixMore LinAlg ZQ Geometry Group Crystal Rotation Details Sense.
Import ListNotations.
Close Scope Q_scope. Close Scope Qc_scope.
Local Open Scope list_scope.
Open Scope nat_scope.

Record m2 := M2 { e00 : Qc; e01 : Qc; e10 : Qc; e11 : Qc }.
Definition mul2 (a b : m2) : m2 := M2
  (e00 a * e00 b + e01 a * e10 b)%Qc (e00 a * e01 b + e01 a * e11 b)%Qc
  (e10 a * e00 b + e11 a * e10 b)%Qc (e10 a * e01 b + e11 a * e11 b)%Qc.
Definition id2 : m2 := M2 1%Qc 0%Qc 0%Qc 1%Qc.
Definition neg2 (a : m2) : m2 := M2 (- e00 a)%Qc (- e01 a)%Qc (- e10 a)%Qc (- e11 a)%Qc.
Definition det2 (a : m2) : Qc := (e00 a * e11 a - e01 a * e10 a)%Qc.
Definition tr2 (a : m2) : Qc := (e00 a + e11 a)%Qc.
Fixpoint pow2 (a : m2) (k : nat) : m2 := match k with 0 => id2 | S k => mul2 (pow2 a k) a end.
Record v2 := V2 { wx : Qc; wy : Qc }.
Definition app2 (a : m2) (v : v2) : v2 := V2 (e00 a * wx v + e01 a * wy v)%Qc (e10 a * wx v + e11 a * wy v)%Qc.
Definition neg_v (v : v2) : v2 := V2 (- wx v)%Qc (- wy v)%Qc.
Definition zv2 : v2 := V2 0%Qc 0%Qc.
Definition ar (v w : v2) : Qc := (wx v * wy w - wy v * wx w)%Qc.
Ltac m2ring := unfold mul2, id2, neg2, det2, tr2, app2, neg_v, zv2, ar in *; cbn [e00 e01 e10 e11 wx wy] in *; first [ring | f_equal; ring].

Lemma m2_eq a b : e00 a = e00 b -> e01 a = e01 b -> e10 a = e10 b -> e11 a = e11 b -> a = b.
Proof. destruct a, b. cbn. intros -> -> -> ->. auto. Qed.
Lemma v2_eq a b : wx a = wx b -> wy a = wy b -> a = b.
Proof. destruct a, b. cbn. intros -> ->. auto. Qed.
Lemma m2_dec (a b : m2) : {a = b} + {a <> b}.
Proof. decide equality; apply Qc_eq_dec. Qed.
Lemma v2_dec (a b : v2) : {a = b} + {a <> b}.
Proof. decide equality; apply Qc_eq_dec. Qed.
Lemma mul2_assoc a b c : mul2 (mul2 a b) c = mul2 a (mul2 b c). Proof. m2ring. Qed.
Lemma mul2_1l a : mul2 id2 a = a. Proof. apply m2_eq; m2ring. Qed.
Lemma mul2_1r a : mul2 a id2 = a. Proof. apply m2_eq; m2ring. Qed.
Lemma det2_mul a b : det2 (mul2 a b) = (det2 a * det2 b)%Qc. Proof. m2ring. Qed.
Lemma app2_mul a b v : app2 (mul2 a b) v = app2 a (app2 b v). Proof. m2ring. Qed.
Lemma app2_1 v : app2 id2 v = v. Proof. apply v2_eq; m2ring. Qed.
Lemma pow2_add a i j : pow2 a (i + j) = mul2 (pow2 a i) (pow2 a j).
Proof. induction j as [|j IH]; [rewrite Nat.add_0_r, mul2_1r; auto|]. rewrite Nat.add_succ_r. cbn [pow2]. rewrite IH. apply mul2_assoc. Qed.
Lemma pow2_mul a i j : pow2 a (i * j) = pow2 (pow2 a i) j.
Proof. induction j as [|j IH]; [rewrite Nat.mul_0_r; auto|]. rewrite Nat.mul_succ_r. cbn [pow2]. rewrite pow2_add, IH. auto. Qed.
Lemma pow2_id k : pow2 id2 k = id2. Proof. induction k as [|k IH]; auto. cbn [pow2]. rewrite IH. apply mul2_1l. Qed.
Lemma pow2_comm a b k : mul2 a b = mul2 b a -> pow2 (mul2 a b) k = mul2 (pow2 a k) (pow2 b k).
Proof.
  intros C. assert (B : forall j, mul2 (pow2 b j) a = mul2 a (pow2 b j)).
  { induction j as [|j IH]; [cbn; rewrite mul2_1l, mul2_1r; auto|]. cbn [pow2]. rewrite mul2_assoc, <- C, <- mul2_assoc, IH, mul2_assoc. auto. }
  induction k as [|k IH]; [cbn; rewrite mul2_1l; auto|]. cbn [pow2]. rewrite IH. rewrite !mul2_assoc. f_equal. rewrite <- !mul2_assoc. rewrite B. auto.
Qed.
(** Cayley-Hamilton: a a = t a - det *)
Definition lin2 (x : Qc) (a : m2) (y : Qc) : m2 := M2 (x * e00 a + y)%Qc (x * e01 a)%Qc (x * e10 a)%Qc (x * e11 a + y)%Qc.
Lemma ch2 a : mul2 a a = lin2 (tr2 a) a (- det2 a)%Qc. Proof. unfold lin2. m2ring. Qed.
Lemma lin2_mul x a y : det2 a = 1%Qc -> mul2 (lin2 x a y) a = lin2 (x * tr2 a + y)%Qc a (- x)%Qc.
Proof.
  intros D. assert (E : mul2 (lin2 x a y) a = lin2 (x * tr2 a + y)%Qc a (- (x * det2 a))%Qc) by (unfold lin2; m2ring). rewrite E, D. f_equal. ring.
Qed.
Definition scalar2 (a : m2) : Prop := e01 a = 0%Qc /\ e10 a = 0%Qc /\ e00 a = e11 a.
Lemma lin2_scalar x a y z : lin2 x a y = M2 z 0%Qc 0%Qc z -> ~ scalar2 a -> x = 0%Qc /\ y = z.
Proof.
  intros E N. assert (X : x = 0%Qc).
  { destruct (Qc_eq_dec x 0%Qc) as [|Nx]; auto. exfalso. apply N. pose proof (f_equal e00 E) as A. pose proof (f_equal e01 E) as B. pose proof (f_equal e10 E) as C. pose proof (f_equal e11 E) as D. cbn in A, B, C, D. unfold scalar2. splits.
    - destruct (Qcmult_integral _ _ B); auto. contradiction.
    - destruct (Qcmult_integral _ _ C); auto. contradiction.
    - apply (Qcmult_cancel x); auto. apply Qc_sub_eq. transitivity ((x * e00 a + y) - (x * e11 a + y))%Qc; [ring|]. rewrite A, D. ring. }
  split; auto. pose proof (f_equal e00 E) as A. cbn in A. rewrite X in A. rewrite <- A. ring.
Qed.
Lemma scalar2_det a : scalar2 a -> det2 a = 1%Qc -> a = id2 \/ a = neg2 id2.
Proof.
  intros (A & B & C) D. unfold det2 in D. rewrite A, B, C in D. assert (S : ((e11 a - 1) * (e11 a + 1))%Qc = 0%Qc) by (transitivity (e11 a * e11 a - 0 * 0 - 1)%Qc; [ring|rewrite D; ring]).
  destruct (Qcmult_integral _ _ S) as [Z|Z]; [left|right]; (assert (V : e11 a = 1%Qc) by (apply Qc_sub_eq; auto)) || (assert (V : e11 a = (- (1))%Qc) by (apply Qc_sub_eq; rewrite <- Z; ring)); apply m2_eq; cbn [id2 neg2 e00 e01 e10 e11]; rewrite ?A, ?B, ?C, ?V; try reflexivity; ring.
Qed.
Definition ord2 (a : m2) (n : nat) : Prop := 0 < n /\ pow2 a n = id2 /\ forall j, 0 < j < n -> pow2 a j <> id2.
Lemma pow2_1 a : pow2 a 1 = a. Proof. apply mul2_1l. Qed.
Lemma pow2_2 a : pow2 a 2 = mul2 a a. Proof. cbn [pow2]. rewrite mul2_1l. auto. Qed.
Lemma order2_ok a : det2 a = 1%Qc -> ord2 a 2 -> a = neg2 id2.
Proof.
  intros D (_ & P & N). rewrite pow2_2, ch2, D in P. destruct (m2_dec a (neg2 id2)) as [|C]; auto. exfalso.
  assert (S : ~ scalar2 a). { intros S. destruct (scalar2_det a S D) as [E|E]; auto. apply (N 1); [lia|]. rewrite pow2_1. auto. }
  destruct (lin2_scalar _ _ _ _ P S) as [_ W]. discriminate W.
Qed.
Lemma not_scalar a n : det2 a = 1%Qc -> ord2 a n -> 2 < n -> ~ scalar2 a.
Proof.
  intros D (_ & P & N) Hn S. destruct (scalar2_det a S D) as [-> | ->]; [apply (N 1); [lia|reflexivity]|apply (N 2); [lia|reflexivity]].
Qed.
Lemma order3_ok a : det2 a = 1%Qc -> ord2 a 3 -> tr2 a = (- (1))%Qc.
Proof.
  intros D O. pose proof (not_scalar a 3 D O ltac:(lia)) as S. destruct O as (_ & P & _). cbn [pow2] in P. rewrite mul2_1l, ch2, D, lin2_mul in P by auto.
  destruct (lin2_scalar _ _ _ _ P S) as [_ W]. qclra.
Qed.
Lemma order4_ok a : det2 a = 1%Qc -> ord2 a 4 -> tr2 a = 0%Qc.
Proof.
  intros D O. pose proof (not_scalar a 4 D O ltac:(lia)) as S. destruct O as (_ & P & _). cbn [pow2] in P. rewrite mul2_1l, ch2, D, !lin2_mul in P by auto.
  destruct (lin2_scalar _ _ _ _ P S) as [_ W]. assert (Z : (tr2 a * tr2 a)%Qc = 0%Qc) by (revert W; generalize (tr2 a); clear; intros; qclra). destruct (Qcmult_integral _ _ Z); auto.
Qed.

(** ** invariant forms *)
Record form2 := F2 { fp : Qc; fq : Qc; fr : Qc }.
Definition bil (f : form2) (v w : v2) : Qc := (fp f * (wx v * wx w) + fq f * (wx v * wy w + wy v * wx w) + fr f * (wy v * wy w))%Qc.
Definition invariant (f : form2) (a : m2) : Prop := forall v w, bil f (app2 a v) (app2 a w) = bil f v w.
Definition positive (f : form2) : Prop := forall v, v <> zv2 -> (0 < bil f v v)%Qc.
Lemma bil_sym f v w : bil f v w = bil f w v. Proof. unfold bil. ring. Qed.
Lemma invariant_adj f a : det2 a = 1%Qc -> invariant f a -> (fp f * (e00 a - e11 a))%Qc = (- ((1 + 1) * fq f * e10 a))%Qc /\ (fp f * e01 a)%Qc = (- (fr f * e10 a))%Qc.
Proof.
  intros D I. pose proof (I (V2 1%Qc 0%Qc) (V2 1%Qc 0%Qc)) as I1. pose proof (I (V2 1%Qc 0%Qc) (V2 0%Qc 1%Qc)) as I2. pose proof (I (V2 0%Qc 1%Qc) (V2 0%Qc 1%Qc)) as I3.
  unfold bil, app2 in I1, I2, I3. cbn [wx wy] in I1, I2, I3. unfold det2 in D. revert D I1 I2 I3. generalize (e00 a), (e01 a), (e10 a), (e11 a), (fp f), (fq f), (fr f). clear. intros x y z w p q r D I1 I2 I3.
  assert (J1 : (p * x * x + (1 + 1) * q * x * z + r * z * z)%Qc = p) by (etransitivity; [etransitivity; [|exact I1]; ring|ring]).
  assert (J2 : (p * x * y + q * (x * w + z * y) + r * z * w)%Qc = q) by (etransitivity; [etransitivity; [|exact I2]; ring|ring]).
  split.
  - (* p x + q z = w p - z q *)
    apply Qc_sub_eq. transitivity ((p * x * x + (1 + 1) * q * x * z + r * z * z) * w - (p * x * y + q * (x * w + z * y) + r * z * w) * z - (p * x + q * z) * (x * w - y * z - 1) + (q * z - p * w) )%Qc; [ring|]. rewrite J1, J2, D. ring.
  - apply Qc_sub_eq. transitivity (- ((p * x * x + (1 + 1) * q * x * z + r * z * z) * y) + (p * x * y + q * (x * w + z * y) + r * z * w) * x - (q * x + r * z) * (x * w - y * z - 1) - q * x + p * y)%Qc; [ring|]. rewrite J1, J2, D. ring.
Qed.
Lemma positive_p f : positive f -> fp f <> 0%Qc.
Proof. intros P. assert (H : (0 < bil f (V2 1%Qc 0%Qc) (V2 1%Qc 0%Qc))%Qc) by (apply P; intros C; discriminate C). unfold bil in H. cbn [wx wy] in H. intros C. rewrite C in H. revert H. generalize (fq f) (fr f). clear. intros. apply (Qc_pos_nz _ H). ring. Qed.
Lemma rotations_commute f a b : positive f -> det2 a = 1%Qc -> det2 b = 1%Qc -> invariant f a -> invariant f b -> mul2 a b = mul2 b a.
Proof.
  intros P Da Db Ia Ib. apply positive_p in P. destruct (invariant_adj f a Da Ia) as [A1 A2]. destruct (invariant_adj f b Db Ib) as [B1 B2].
  assert (C1 : (e01 a * e10 b)%Qc = (e01 b * e10 a)%Qc). { apply (Qcmult_cancel (fp f)); auto. transitivity (fp f * e01 a * e10 b)%Qc; [ring|]. rewrite A2. transitivity ((fp f * e01 b) * e10 a)%Qc; [rewrite B2; ring|ring]. }
  assert (C2 : (e10 a * (e00 b - e11 b))%Qc = (e10 b * (e00 a - e11 a))%Qc). { apply (Qcmult_cancel (fp f)); auto. transitivity (e10 a * (fp f * (e00 b - e11 b)))%Qc; [ring|]. rewrite B1. transitivity (e10 b * (fp f * (e00 a - e11 a)))%Qc; [rewrite A1; ring|ring]. }
  assert (C3 : (e01 a * (e00 b - e11 b))%Qc = (e01 b * (e00 a - e11 a))%Qc). { apply (Qcmult_cancel (fp f)); auto. apply (Qcmult_cancel (fp f)); auto. transitivity ((fp f * e01 a) * (fp f * (e00 b - e11 b)))%Qc; [ring|]. rewrite A2, B1. transitivity ((fp f * e01 b) * (fp f * (e00 a - e11 a)))%Qc; [rewrite A1, B2; ring|ring]. }
  revert C1 C2 C3. clear. unfold mul2. destruct a as [a b1 c d], b as [a' b' c' d']. cbn [e00 e01 e10 e11]. intros C1 C2 C3. f_equal.
  - rewrite C1. ring.
  - apply Qc_sub_eq. transitivity (b' * (a - d) - b1 * (a' - d'))%Qc; [ring|]. rewrite C3. ring.
  - apply Qc_sub_eq. transitivity (c * (a' - d') - c' * (a - d))%Qc; [ring|]. rewrite C2. ring.
  - apply Qc_sub_eq. transitivity (b' * c - b1 * c')%Qc; [ring|]. rewrite C1. ring.
Qed.

(** ** finite groups *)
Record group2 (gs : list m2) : Prop := {
  g_id : In id2 gs;
  g_mul : forall a b, In a gs -> In b gs -> In (mul2 a b) gs;
  g_inv : forall a, In a gs -> exists b, In b gs /\ mul2 b a = id2 }.
Definition add_form (f g : form2) : form2 := F2 (fp f + fp g)%Qc (fq f + fq g)%Qc (fr f + fr g)%Qc.
Definition own_form (a : m2) : form2 := F2 (e00 a * e00 a + e10 a * e10 a)%Qc (e00 a * e01 a + e10 a * e11 a)%Qc (e01 a * e01 a + e11 a * e11 a)%Qc.
Definition sum_form (gs : list m2) : form2 := fold_right (fun a f => add_form (own_form a) f) (F2 0%Qc 0%Qc 0%Qc) gs.
Definition eu (v w : v2) : Qc := (wx v * wx w + wy v * wy w)%Qc.
Lemma sum_form_bil gs v w : bil (sum_form gs) v w = fold_right (fun a s => (eu (app2 a v) (app2 a w) + s)%Qc) 0%Qc gs.
Proof.
  induction gs as [|a gs IH]; cbn [sum_form fold_right]; [unfold bil; cbn; ring|]. fold (sum_form gs). rewrite <- IH. unfold bil, add_form, own_form, eu, app2. cbn [fp fq fr wx wy]. ring.
Qed.
Lemma sum_perm (h : m2 -> Qc) l l' : Permutation l l' -> fold_right (fun a s => (h a + s)%Qc) 0%Qc l = fold_right (fun a s => (h a + s)%Qc) 0%Qc l'.
Proof. induction 1; cbn [fold_right]; try congruence. ring. Qed.
Lemma sum_map_form (h : m2 -> Qc) (g : m2 -> m2) l : fold_right (fun a s => (h a + s)%Qc) 0%Qc (map g l) = fold_right (fun a s => (h (g a) + s)%Qc) 0%Qc l.
Proof. induction l as [|x l IH]; cbn [map fold_right]; congruence. Qed.
Lemma inv_unique gs a b : group2 gs -> In a gs -> In b gs -> mul2 b a = id2 -> mul2 a b = id2.
Proof.
  intros G Ha Hb E. destruct (g_inv gs G b Hb) as (c & Hc & Ec). assert (c = a) as ->; auto. rewrite <- (mul2_1r c), <- E, <- mul2_assoc, Ec, mul2_1l. auto.
Qed.
Lemma sum_form_invariant gs a : group2 gs -> NoDup gs -> In a gs -> invariant (sum_form gs) a.
Proof.
  intros G N Ha v w. rewrite !sum_form_bil. destruct (g_inv gs G a Ha) as (b & Hb & E). pose proof (inv_unique gs a b G Ha Hb E) as E'.
  assert (P : Permutation gs (map (fun g => mul2 g a) gs)).
  { symmetry. apply NoDup_Permutation_bis; auto.
    - apply FinFun.Injective_map_NoDup; auto. intros x y Hxy. rewrite <- (mul2_1r x), <- (mul2_1r y), <- E', <- !mul2_assoc, Hxy. auto.
    - rewrite map_length. auto.
    - intros x Hx. apply in_map_iff in Hx as (y & <- & Hy). apply (g_mul gs G); auto. }
  rewrite (sum_perm (fun g => eu (app2 g v) (app2 g w)) gs _ P), sum_map_form. clear. induction gs as [|x gs IH]; cbn [fold_right]; auto. rewrite IH, !app2_mul. auto.
Qed.
Lemma eu_pos v : (0 <= eu v v)%Qc /\ (v <> zv2 -> (0 < eu v v)%Qc).
Proof.
  unfold eu. assert (A : (0 <= wx v * wx v)%Qc) by (generalize (wx v); clear; intros; qcnra). assert (B : (0 <= wy v * wy v)%Qc) by (generalize (wy v); clear; intros; qcnra). split; [qclra|].
  intros N. destruct (Qc_eq_dec (wx v * wx v + wy v * wy v)%Qc 0%Qc) as [Z|Z].
  - exfalso. apply N. assert (Z1 : (wx v * wx v)%Qc = 0%Qc) by qclra. assert (Z2 : (wy v * wy v)%Qc = 0%Qc) by qclra. apply v2_eq; [destruct (Qcmult_integral _ _ Z1)|destruct (Qcmult_integral _ _ Z2)]; auto.
  - assert (Q : (0 <= wx v * wx v + wy v * wy v)%Qc) by qclra. destruct (Qcle_lt_or_eq _ _ Q); auto. congruence.
Qed.
Lemma sum_form_positive gs : In id2 gs -> positive (sum_form gs).
Proof.
  intros H v N. rewrite sum_form_bil. assert (P : forall l, (0 <= fold_right (fun a s => (eu (app2 a v) (app2 a v) + s)%Qc) 0%Qc l)%Qc).
  { induction l as [|x l IH]; cbn [fold_right]; [apply Qcle_refl|]. pose proof (proj1 (eu_pos (app2 x v))). qclra. }
  induction gs as [|x gs IH]; [destruct H|]. cbn [fold_right]. destruct H as [->|H].
  - rewrite app2_1. pose proof (proj2 (eu_pos v) N). pose proof (P gs). qclra.
  - specialize (IH H). pose proof (proj1 (eu_pos (app2 x v))). qclra.
Qed.
Lemma group2_nodup gs : group2 gs -> group2 (nodup m2_dec gs).
Proof. intros [A B C]. constructor; intros; rewrite ?nodup_In in *; auto. destruct (C a H) as (b & Hb & E). exists b. rewrite nodup_In. auto. Qed.
Theorem invariant_form gs : group2 gs -> exists f, positive f /\ forall a, In a gs -> invariant f a.
Proof.
  intros G. exists (sum_form (nodup m2_dec gs)). split.
  - apply sum_form_positive. rewrite nodup_In. apply G.
  - intros a Ha. apply sum_form_invariant; [apply group2_nodup; auto|apply NoDup_nodup|rewrite nodup_In; auto].
Qed.
Lemma pow2_in gs a k : group2 gs -> In a gs -> In (pow2 a k) gs.
Proof. intros G Ha. induction k as [|k IH]; [apply G|]. cbn [pow2]. apply (g_mul gs G); auto. Qed.
Lemma finite_order gs a : group2 gs -> In a gs -> exists n, ord2 a n.
Proof.
  intros G Ha. assert (exists i j, i < j /\ pow2 a i = pow2 a j) as (i & j & Hij & E).
  { destruct (ListDec.NoDup_dec m2_dec (map (pow2 a) (seq 0 (S (length gs))))) as [N|N].
    - exfalso. assert (L : length (map (pow2 a) (seq 0 (S (length gs)))) <= length gs). { apply NoDup_incl_length; auto. intros x Hx. apply in_map_iff in Hx as (k & <- & _). apply pow2_in; auto. }
      rewrite map_length, seq_length in L. lia.
    - assert (I : forall n m, ~ NoDup (map (pow2 a) (seq m n)) -> exists i j, i < j /\ pow2 a i = pow2 a j).
      { induction n as [|n IH]; intros m H; [exfalso; apply H; constructor|]. cbn [seq map] in H. destruct (in_dec m2_dec (pow2 a m) (map (pow2 a) (seq (S m) n))) as [Hi|Hi].
        - apply in_map_iff in Hi as (j & Ej & Hj). apply in_seq in Hj. exists m, j. split; [lia|auto].
        - apply (IH (S m)). intros C. apply H. constructor; auto. }
      apply (I _ _ N). }
  assert (P : pow2 a (j - i) = id2).
  { destruct (g_inv gs G (pow2 a i) (pow2_in gs a i G Ha)) as (b & _ & Eb). replace j with (i + (j - i)) in E by lia. rewrite pow2_add in E.
    rewrite <- (mul2_1l (pow2 a (j - i))), <- Eb, mul2_assoc, <- E. auto. }
  assert (M : forall k, 0 < k -> pow2 a k = id2 -> exists n, ord2 a n).
  { intros k. induction k as [k IH] using lt_wf_ind. intros Hk Pk.
    destruct (existsb (fun j => if m2_dec (pow2 a j) id2 then true else false) (seq 1 (k - 1))) eqn:X.
    - apply existsb_exists in X as (l & Hl & X). apply in_seq in Hl. destruct (m2_dec (pow2 a l) id2) as [Y|]; [|discriminate X]. apply (IH l); auto; lia.
    - exists k. unfold ord2. splits; auto. intros l Hl C. assert (existsb (fun j => if m2_dec (pow2 a j) id2 then true else false) (seq 1 (k - 1)) = true); [|congruence].
      apply existsb_exists. exists l. split; [apply in_seq; lia|]. destruct (m2_dec (pow2 a l) id2); auto. }
  apply (M (j - i)); auto. lia.
Qed.
Lemma ord2_divide a n k : ord2 a n -> pow2 a k = id2 <-> Nat.divide n k.
Proof.
  intros (Hn & P & Mn). split.
  - intros H. apply Nat.mod_divide; [lia|]. destruct (Nat.eq_dec (k mod n) 0) as [|C]; auto. exfalso. apply (Mn (k mod n)); [pose proof (Nat.mod_upper_bound k n ltac:(lia)); lia|].
    pose proof (Nat.div_mod k n ltac:(lia)) as E. rewrite E in H. rewrite pow2_add, pow2_mul, P, pow2_id, mul2_1l in H. auto.
  - intros (j & ->). rewrite Nat.mul_comm, pow2_mul, P. apply pow2_id.
Qed.
Lemma ord2_unique a n m : ord2 a n -> ord2 a m -> n = m.
Proof. intros A B. apply Nat.divide_antisym; [apply (ord2_divide a n m A); apply B|apply (ord2_divide a m n B); apply A]. Qed.

(** relation with the functions of Details.v *)
Definition ent2 (a : m2) : nat -> nat -> Qc := fun i j => match i, j with 0, 0 => e00 a | 0, _ => e01 a | _, 0 => e10 a | _, _ => e11 a end.
Lemma ent2_mul a b : meq 2 (ent2 (mul2 a b)) (lmul 2 (ent2 a) (ent2 b)).
Proof. intros i j Hi Hj. unfold lmul. rewrite sumf_2. destruct i as [|[|i]], j as [|[|j]]; try lia; reflexivity. Qed.
Lemma ent2_id : meq 2 (ent2 id2) delta.
Proof. intros i j Hi Hj. destruct i as [|[|i]], j as [|[|j]]; try lia; reflexivity. Qed.
Lemma ent2_inj a b : meq 2 (ent2 a) (ent2 b) -> a = b.
Proof. intros H. apply m2_eq; [apply (H 0 0)|apply (H 0 1)|apply (H 1 0)|apply (H 1 1)]; lia. Qed.
Lemma ent2_pow a k : meq 2 (ent2 (pow2 a k)) (powf 2 (ent2 a) k).
Proof. induction k as [|k IH]; [apply ent2_id|]. cbn [pow2 powf]. eapply meq_trans; [apply ent2_mul|]. apply meq_lmul; auto. apply meq_refl. Qed.
Lemma ent2_pow_id a k : meq 2 (powf 2 (ent2 a) k) delta <-> pow2 a k = id2.
Proof.
  split; intros H.
  - apply ent2_inj. eapply meq_trans; [apply ent2_pow|]. eapply meq_trans; [exact H|]. apply meq_sym. apply ent2_id.
  - eapply meq_trans; [apply meq_sym; apply ent2_pow|]. rewrite H. apply ent2_id.
Qed.
Lemma ent2_order a n : is_order 2 (ent2 a) n -> 0 < n -> ord2 a n.
Proof. intros [[-> _]|(H1 & H2 & H3)] Hn; [lia|]. unfold ord2. splits; auto; [apply ent2_pow_id; auto|]. intros j Hj C. apply (H3 j Hj). apply ent2_pow_id. auto. Qed.
Lemma ent2_det a : detd 2 (ent2 a) = det2 a. Proof. reflexivity. Qed.
Lemma restriction2 a n : ord2 a n -> In n [1; 2; 3; 4; 6] /\ (det2 a = 1%Qc \/ det2 a = (- (1))%Qc).
Proof.
  intros (Hn & P & M). assert (Pf : meq 2 (powf 2 (ent2 a) n) delta) by (apply ent2_pow_id; auto). split; [|exact (finite_det 2 (ent2 a) n ltac:(lia) Hn Pf)].
  assert (In n [0; 1; 2; 3; 4; 6]). { apply (order_values 2 (ent2 a)); [lia|]. right. splits; auto. intros j Hj C. apply (M j Hj). apply ent2_pow_id. auto. }
  cbn [In] in *. lia.
Qed.
(** no group contains elements of order 3 and of order 4 *)
Theorem three_four gs a b : group2 gs -> In a gs -> In b gs -> ord2 a 3 -> ord2 b 4 -> det2 a = 1%Qc -> det2 b = 1%Qc -> False.
Proof.
  intros G Ha Hb Oa Ob Da Db. destruct (invariant_form gs G) as (f & P & I). pose proof (rotations_commute f a b P Da Db (I a Ha) (I b Hb)) as C.
  destruct (finite_order gs (mul2 a b) G (g_mul gs G a b Ha Hb)) as (n & On). destruct (restriction2 _ _ On) as [Hn _]. pose proof On as (_ & Pn & _).
  assert (A : pow2 (mul2 a b) 4 <> id2). { rewrite pow2_comm by auto. destruct Ob as (_ & -> & _). rewrite mul2_1r. intros E. apply (ord2_divide a 3 4 Oa) in E as (k & E). lia. }
  assert (B : pow2 (mul2 a b) 6 <> id2). { rewrite pow2_comm by auto. assert (E3 : pow2 a 6 = id2) by (apply (ord2_divide a 3 6 Oa); exists 2; auto). rewrite E3, mul2_1l. intros E. apply (ord2_divide b 4 6 Ob) in E as (k & E). lia. }
  rewrite (ord2_divide _ n 4 On) in A. rewrite (ord2_divide _ n 6 On) in B. cbn [In] in Hn. destruct Hn as [<-|[<-|[<-|[<-|[<-|[]]]]]]; [apply A; exists 4|apply A; exists 2|apply B; exists 2|apply A; exists 1|apply B; exists 1]; auto.
Qed.
