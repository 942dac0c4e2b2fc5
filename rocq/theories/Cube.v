(** Integer 3 x 3 matrices of finite order: facts for C101.  Nothing here models code. *)
From Coq Require Import List ZArith Lia Bool PeanoNat.
Import ListNotations.
Local Open Scope Z_scope.

Record M3 := mkM3 { e00 : Z; e01 : Z; e02 : Z; e10 : Z; e11 : Z; e12 : Z; e20 : Z; e21 : Z; e22 : Z }.
Definition mul3 (a b : M3) : M3 :=
  mkM3 (e00 a * e00 b + e01 a * e10 b + e02 a * e20 b) (e00 a * e01 b + e01 a * e11 b + e02 a * e21 b) (e00 a * e02 b + e01 a * e12 b + e02 a * e22 b)
       (e10 a * e00 b + e11 a * e10 b + e12 a * e20 b) (e10 a * e01 b + e11 a * e11 b + e12 a * e21 b) (e10 a * e02 b + e11 a * e12 b + e12 a * e22 b)
       (e20 a * e00 b + e21 a * e10 b + e22 a * e20 b) (e20 a * e01 b + e21 a * e11 b + e22 a * e21 b) (e20 a * e02 b + e21 a * e12 b + e22 a * e22 b).
Definition one3 : M3 := mkM3 1 0 0 0 1 0 0 0 1.
(** x a + y b + z c *)
Definition comb (x : Z) (a : M3) (y : Z) (b : M3) (z : Z) (c : M3) : M3 :=
  mkM3 (x * e00 a + y * e00 b + z * e00 c) (x * e01 a + y * e01 b + z * e01 c) (x * e02 a + y * e02 b + z * e02 c)
       (x * e10 a + y * e10 b + z * e10 c) (x * e11 a + y * e11 b + z * e11 c) (x * e12 a + y * e12 b + z * e12 c)
       (x * e20 a + y * e20 b + z * e20 c) (x * e21 a + y * e21 b + z * e21 c) (x * e22 a + y * e22 b + z * e22 c).
Definition tr3 (a : M3) : Z := e00 a + e11 a + e22 a.
Definition minors (a : M3) : Z := e00 a * e11 a - e01 a * e10 a + (e00 a * e22 a - e02 a * e20 a) + (e11 a * e22 a - e12 a * e21 a).
Definition det3 (a : M3) : Z :=
  e00 a * (e11 a * e22 a - e12 a * e21 a) - e01 a * (e10 a * e22 a - e12 a * e20 a) + e02 a * (e10 a * e21 a - e11 a * e20 a).
Fixpoint pow3 (a : M3) (n : nat) : M3 := match n with O => one3 | S n => mul3 a (pow3 a n) end.

Ltac cube := intros; repeat match goal with a : M3 |- _ => destruct a end; unfold mul3, comb, one3, tr3, minors, det3; cbn [e00 e01 e02 e10 e11 e12 e20 e21 e22];
  try (f_equal; ring); try ring.
Ltac ents Q := pose proof (f_equal e00 Q) as Q00; pose proof (f_equal e01 Q) as Q01; pose proof (f_equal e02 Q) as Q02; pose proof (f_equal e10 Q) as Q10;
  pose proof (f_equal e11 Q) as Q11; pose proof (f_equal e12 Q) as Q12; pose proof (f_equal e20 Q) as Q20; pose proof (f_equal e21 Q) as Q21; pose proof (f_equal e22 Q) as Q22;
  clear Q; unfold comb, one3 in *; cbn [e00 e01 e02 e10 e11 e12 e20 e21 e22] in *.
Lemma mul3_assoc a b c : mul3 a (mul3 b c) = mul3 (mul3 a b) c. Proof. cube. Qed.
Lemma mul3_1l a : mul3 one3 a = a. Proof. cube. Qed.
Lemma mul3_1r a : mul3 a one3 = a. Proof. cube. Qed.
Lemma mul3_comb a x b y c z e : mul3 a (comb x b y c z e) = comb x (mul3 a b) y (mul3 a c) z (mul3 a e). Proof. cube. Qed.
Lemma tr_comb x a y b z c : tr3 (comb x a y b z c) = x * tr3 a + y * tr3 b + z * tr3 c. Proof. cube. Qed.
Lemma tr_swap a b : tr3 (mul3 a b) = tr3 (mul3 b a). Proof. cube. Qed.
Lemma det_mul a b : det3 (mul3 a b) = det3 a * det3 b. Proof. cube. Qed.
Lemma tr_square a : tr3 (mul3 a a) = tr3 a * tr3 a - 2 * minors a. Proof. cube. Qed.
Lemma minors_square a : minors (mul3 a a) = minors a * minors a - 2 * det3 a * tr3 a. Proof. cube. Qed.
Lemma cayley a : mul3 a (mul3 a a) = comb (tr3 a) (mul3 a a) (- minors a) a (det3 a) one3. Proof. cube. Qed.

Lemma pow3_add a m n : pow3 a (m + n) = mul3 (pow3 a m) (pow3 a n).
Proof. induction m as [|m IH]; cbn [pow3 Nat.add]; [rewrite mul3_1l; auto|]. rewrite IH, mul3_assoc. auto. Qed.
Lemma pow3_mul a m n : pow3 (pow3 a m) n = pow3 a (m * n).
Proof. induction n as [|n IH]; cbn [pow3]; [rewrite Nat.mul_0_r; auto|]. rewrite IH, <- pow3_add. f_equal. lia. Qed.
Lemma pow3_one n : pow3 one3 n = one3.
Proof. induction n as [|n IH]; cbn [pow3]; auto. rewrite IH. apply mul3_1l. Qed.
Lemma det_pow a n : det3 (pow3 a n) = det3 a ^ Z.of_nat n.
Proof. induction n as [|n IH]; [reflexivity|]. cbn [pow3]. rewrite det_mul, IH, Nat2Z.inj_succ, Z.pow_succ_r by lia. ring. Qed.
Lemma pow3_2 a : pow3 a 2 = mul3 a a. Proof. cbn [pow3]. rewrite mul3_1r. auto. Qed.

(** the matrices with determinant 1 and sum of minors equal to the trace *)
Definition turn (a : M3) : Prop := det3 a = 1 /\ minors a = tr3 a.
Lemma step_comb a b c t : mul3 (comb t b (- t) a 1 one3) c = comb t (mul3 b c) (- t) (mul3 a c) 1 c. Proof. cube. Qed.
Definition u (a : M3) (n : nat) : Z := tr3 (pow3 a n) - 1.

  Lemma step a n : turn a -> pow3 a (3 + n) = comb (tr3 a) (pow3 a (2 + n)) (- tr3 a) (pow3 a (1 + n)) 1 (pow3 a n).
  Proof. intros [D S]. rewrite !pow3_add. cbn [pow3]. rewrite !mul3_1r, cayley, D, S. apply step_comb. Qed.
  Lemma u_step a n : turn a -> u a (2 + n) = (tr3 a - 1) * u a (1 + n) - u a n.
  Proof.
    intros T. pose proof T as [D S].
    unfold u. induction n as [|n IH].
    - replace (2 + 0)%nat with 2%nat by auto. rewrite pow3_2, tr_square, S. cbn [pow3 Nat.add]. rewrite mul3_1r. change (tr3 one3) with 3. ring.
    - replace (2 + Datatypes.S n)%nat with (3 + n)%nat by lia. rewrite step, tr_comb by auto. replace (1 + Datatypes.S n)%nat with (2 + n)%nat by lia. change (Datatypes.S n) with (1 + n)%nat. lia.
  Qed.
  Lemma u_0 a : u a 0 = 2. Proof. reflexivity. Qed.
  Lemma u_1 a : u a 1 = tr3 a - 1. Proof. unfold u. cbn [pow3]. rewrite mul3_1r. auto. Qed.
  Lemma u_grows a n : turn a -> 3 <= Z.abs (tr3 a - 1) -> 2 <= Z.abs (u a n) /\ Z.abs (u a n) < Z.abs (u a (1 + n)).
  Proof.
    intros T H. induction n as [|n [IH1 IH2]].
    - rewrite u_0. cbn [Nat.add]. rewrite u_1. lia.
    - change (Datatypes.S n) with (1 + n)%nat. split; [lia|]. replace (1 + (1 + n))%nat with (2 + n)%nat by lia. rewrite u_step by auto.
      assert (3 * Z.abs (u a (1 + n)) <= Z.abs ((tr3 a - 1) * u a (1 + n))) by (rewrite Z.abs_mul; nia). lia.
  Qed.

  Lemma trace_bound a p : turn a -> (0 < p)%nat -> pow3 a p = one3 -> -1 <= tr3 a <= 3.
  Proof.
    intros T Hp Fin. assert (N : ~ 3 <= Z.abs (tr3 a - 1)); [|lia]. intros H. destruct p as [|q]; [lia|]. destruct (u_grows a q T H) as [H1 H2].
    change (1 + q)%nat with (Datatypes.S q) in H2. unfold u in H2 at 2. rewrite Fin in H2. change (tr3 one3) with 3 in H2. lia.
  Qed.
  (** trace 3: the matrix is the identity *)
  Lemma unipotent a p : turn a -> (0 < p)%nat -> pow3 a p = one3 -> tr3 a = 3 -> a = one3.
  Proof.
    intros [D S] Hp Fin T. set (k := comb 1 a (-1) one3 0 one3).
    assert (K3 : mul3 k (mul3 k k) = comb 0 one3 0 one3 0 one3).
    { assert (E := cayley a). rewrite D, S, T in E. unfold k. clearbody k. clear - E. assert (X : mul3 (comb 1 a (-1) one3 0 one3) (mul3 (comb 1 a (-1) one3 0 one3) (comb 1 a (-1) one3 0 one3)) =
        comb 1 (mul3 a (mul3 a a)) 1 (comb (-3) (mul3 a a) 3 a (-1) one3) 0 one3) by (clear; cube).
      rewrite X, E. clear. cube. }
    assert (P : forall n, comb 2 (pow3 a n) 0 one3 0 one3 = comb 2 one3 (2 * Z.of_nat n) k (Z.of_nat n * (Z.of_nat n - 1)) (mul3 k k)).
    { induction n as [|n IH]; [cbn [pow3]; generalize k; cube|]. rewrite Nat2Z.inj_succ. cbn [pow3].
      assert (E1 : comb 2 (mul3 a (pow3 a n)) 0 one3 0 one3 = mul3 a (comb 2 (pow3 a n) 0 one3 0 one3)) by (generalize (pow3 a n); clear; cube).
      rewrite E1, IH. assert (Ea : a = comb 1 k 1 one3 0 one3) by (unfold k; clear; cube). rewrite Ea. rewrite mul3_comb.
      assert (E2 : mul3 (comb 1 k 1 one3 0 one3) (mul3 k k) = comb 1 (mul3 k (mul3 k k)) 1 (mul3 k k) 0 one3) by (generalize k; clear; cube).
      rewrite E2, K3. clearbody k. clear. generalize (Z.of_nat n). intros x. cube. }
    pose proof (P p) as Ep. rewrite Fin in Ep. assert (Pp : 0 < Z.of_nat p) by lia. revert Ep Pp. generalize (Z.of_nat p). intros z Ep Pp.
    (* first k k = 0, then k = 0 *)
    assert (E1 : comb (2 * z) k (z * (z - 1)) (mul3 k k) 0 one3 = comb 0 one3 0 one3 0 one3).
    { transitivity (comb 1 (comb 2 one3 (2 * z) k (z * (z - 1)) (mul3 k k)) (-2) one3 0 one3); [generalize (mul3 k k); clearbody k; clear; cube|]. rewrite <- Ep. clear. cube. }
    assert (E2 : comb (2 * z) (mul3 k k) 0 one3 0 one3 = comb 0 one3 0 one3 0 one3).
    { pose proof (f_equal (mul3 k) E1) as Q. rewrite !mul3_comb, K3 in Q. etransitivity; [|etransitivity; [exact Q|]]; generalize (mul3 k k); clearbody k; clear; cube. }
    assert (Z1 : forall b, comb (2 * z) b 0 one3 0 one3 = comb 0 one3 0 one3 0 one3 -> b = comb 0 one3 0 one3 0 one3).
    { clear - Pp. assert (W : forall x, 2 * z * x = 0 -> x = 0) by (intros x Hx; apply Z.mul_eq_0 in Hx; lia). intros b Q. ents Q. destruct b. cbn [e00 e01 e02 e10 e11 e12 e20 e21 e22] in *. f_equal; rewrite ?Z.mul_0_l, ?Z.mul_0_r, ?Z.add_0_r in *; apply W; auto. }
    apply Z1 in E2. rewrite E2 in E1.
    assert (E3 : comb (2 * z) k 0 one3 0 one3 = comb 0 one3 0 one3 0 one3) by (etransitivity; [|exact E1]; clearbody k; clear; cube).
    apply Z1 in E3. unfold k in E3. clear - E3. ents E3. destruct a. cbn [e00 e01 e02 e10 e11 e12 e20 e21 e22] in *. f_equal; lia.
  Qed.

Lemma turn_order a p : det3 a = 1 -> minors a = tr3 a -> (0 < p)%nat -> pow3 a p = one3 -> exists k, In k [1; 2; 3; 4; 6]%nat /\ pow3 a k = one3.
Proof.
  intros D S Hp Fin. pose proof (conj D S : turn a) as Tu. pose proof (trace_bound a p Tu Hp Fin) as B.
  assert (C : tr3 a = -1 \/ tr3 a = 0 \/ tr3 a = 1 \/ tr3 a = 2 \/ tr3 a = 3) by lia. pose proof (fun n => step a n Tu) as St.
  destruct C as [T|[T|[T|[T|T]]]]; rewrite T in St; pose proof (St 0%nat) as St0; pose proof (St 1%nat) as St1; pose proof (St 2%nat) as St2; pose proof (St 3%nat) as St3; cbn [Nat.add] in *.
  - exists 2%nat. split; [simpl; auto|]. rewrite pow3_2. apply unipotent with (p := p); auto.
    + split; [rewrite det_mul, D; reflexivity|]. rewrite minors_square, tr_square, S, T, D. reflexivity.
    + rewrite <- pow3_2, pow3_mul, Nat.mul_comm, <- pow3_mul, Fin. apply pow3_one.
    + rewrite tr_square, S, T. reflexivity.
  - exists 3%nat. split; [simpl; auto|]. rewrite St0. cbn [pow3 Nat.add]. rewrite mul3_1r. generalize (mul3 a a). clear. cube.
  - exists 4%nat. split; [simpl; auto|]. rewrite St1, St0. cbn [pow3 Nat.add]. rewrite mul3_1r. generalize (mul3 a a). clear. cube.
  - exists 6%nat. split; [simpl; auto 9|]. rewrite St3, St2, St1, St0. cbn [pow3 Nat.add]. rewrite mul3_1r. generalize (mul3 a a). clear. cube.
  - exists 1%nat. split; [simpl; auto|]. cbn [pow3]. rewrite mul3_1r. apply unipotent with (p := p); auto.
Qed.

(** any determinant; the condition on the minors says that the inverse has the same trace *)
Definition neg3 (a : M3) : M3 := comb (-1) a 0 one3 0 one3.
Lemma neg_pow a n : pow3 (neg3 a) (2 * n) = pow3 a (2 * n).
Proof. rewrite <- !pow3_mul. f_equal. rewrite !pow3_2. unfold neg3. clear. cube. Qed.
Lemma finite_signs a p : (0 < p)%nat -> pow3 a p = one3 -> tr3 (pow3 a (p - 1)) = tr3 a -> (det3 a = 1 \/ det3 a = -1) /\ minors a = det3 a * tr3 a.
Proof.
  intros Hp Fin Tr. assert (Dt : det3 a = 1 \/ det3 a = -1).
  { pose proof (f_equal det3 Fin) as E. replace p with (S (p - 1)) in E by lia. cbn [pow3] in E. rewrite det_mul in E. apply Z.mul_eq_1 in E. auto. }
  split; auto.
  assert (X : mul3 a (pow3 a (p - 1)) = one3) by (rewrite <- Fin; replace p with (S (p - 1)) at 2 by lia; auto).
  pose proof (cayley a) as Cy. pose proof (f_equal (fun b => tr3 (mul3 (pow3 a (p - 1)) b)) Cy) as E. cbn beta in E.
  assert (Y : mul3 (pow3 a (p - 1)) a = one3) by (rewrite <- Fin; replace p with (p - 1 + 1)%nat at 2 by lia; rewrite pow3_add; cbn [pow3]; rewrite mul3_1r; auto).
  rewrite mul3_comb, tr_comb, mul3_1r, !mul3_assoc, Y, mul3_1l, Tr, tr_square in E. change (tr3 one3) with 3 in E. lia.
Qed.
Lemma finite_order a p : (0 < p)%nat -> pow3 a p = one3 -> tr3 (pow3 a (p - 1)) = tr3 a -> exists k, In k [1; 2; 3; 4; 6]%nat /\ pow3 a k = one3.
Proof.
  intros Hp Fin Tr. destruct (finite_signs a p Hp Fin Tr) as [Dt Sm].
  destruct Dt as [Dt|Dt].
  - apply turn_order with (p := p); auto. rewrite Sm, Dt. ring.
  - destruct (turn_order (neg3 a) (2 * p)) as (k & Hk & E).
    + transitivity (- det3 a); [unfold neg3; clear; cube|lia].
    + transitivity (minors a); [unfold neg3; clear; cube|]. transitivity (- tr3 a); [lia|unfold neg3; clear; cube].
    + lia.
    + rewrite neg_pow. replace (2 * p)%nat with (p * 2)%nat by lia. rewrite <- pow3_mul, Fin. apply pow3_one.
    + assert (H2 : pow3 a (2 * k) = one3) by (rewrite <- neg_pow; replace (2 * k)%nat with (k * 2)%nat by lia; rewrite <- pow3_mul, E; apply pow3_one).
      destruct Hk as [<-|[<-|[<-|[<-|[<-|[]]]]]].
      * exists 2%nat. simpl; auto.
      * exists 2%nat. split; [simpl; auto|]. exact (eq_trans (eq_sym (neg_pow a 1)) E).
      * exists 6%nat. simpl; auto 9.
      * exists 4%nat. split; [simpl; auto|]. exact (eq_trans (eq_sym (neg_pow a 2)) E).
      * exists 6%nat. split; [simpl; auto 9|]. exact (eq_trans (eq_sym (neg_pow a 3)) E).
Qed.
