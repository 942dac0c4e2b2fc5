(** The crystallographic restriction: a rational 3 x 3 matrix of finite order with determinant 1 has order 1, 2, 3, 4 or 6.
    Pure mathematics used by the proofs about finder.rs; it models no code. *)
From Coq Require Import List ZArith QArith Qcanon Lia Bool PeanoNat Znumtheory Zpow_facts.
From Verif Require Import Base QcTac ZQ.
Import ListNotations.
Close Scope Q_scope.
Open Scope nat_scope.

(** ** second order recurrences *)
Section Recurrence.
  Variable s : Qc.
  (** V 0 = 0, V 1 = 1, V (n+2) = s V (n+1) - V n *)
  Fixpoint VV (n : nat) : Qc * Qc := match n with 0 => (0, 1)%Qc | S n => let p := VV n in (snd p, s * snd p - fst p)%Qc end.
  Definition V (n : nat) : Qc := fst (VV n).
  Lemma V_0 : V 0 = 0%Qc. Proof. reflexivity. Qed.
  Lemma V_1 : V 1 = 1%Qc. Proof. reflexivity. Qed.
  Lemma V_SS n : V (S (S n)) = (s * V (S n) - V n)%Qc. Proof. reflexivity. Qed.

  Lemma rec_V (b : nat -> Qc) : (forall j, b (S (S j)) = (s * b (S j) - b j)%Qc) -> forall n j, b (S (n + j)) = (V (S n) * b (S j) - V n * b j)%Qc.
  Proof.
    intros H n. enough (G : forall j, b (S (n + j)) = (V (S n) * b (S j) - V n * b j)%Qc /\ b (S (S (n + j))) = (V (S (S n)) * b (S j) - V (S n) * b j)%Qc) by (intros j; apply G).
    induction n as [|n IH]; intros j.
    - cbn [plus]. rewrite V_SS, V_0, V_1. rewrite (H j). split; ring.
    - destruct (IH j) as [I1 I2]. split; [exact I2|]. cbn [plus]. rewrite H. cbn [plus] in I2. rewrite I2, I1. rewrite (V_SS (S n)), (V_SS n). ring.
  Qed.

  Lemma Qc_pow_1 (c : Qc) k : 0 < k -> (c ^ k)%Qc = 1%Qc -> c = 1%Qc \/ c = (- (1))%Qc.
  Proof.
    intros Hk H. assert (A : forall x : Qc, (0 <= x)%Qc -> (x ^ k)%Qc = 1%Qc -> x = 1%Qc).
    { intros x Hx E. destruct k as [|k]; [lia|].
      assert (L : forall y n, (0 <= y)%Qc -> (y < 1)%Qc -> (0 <= y ^ n)%Qc /\ (y ^ S n <= y)%Qc).
      { intros y n H0 H1. induction n as [|n [I1 I2]]; [cbn; split; qclra|]. cbn [Qcpower] in *. split; [qcnra|]. qcnra. }
      assert (G : forall y n, (1 < y)%Qc -> (1 <= y ^ n)%Qc /\ (y <= y ^ S n)%Qc).
      { intros y n H1. induction n as [|n [I1 I2]]; [cbn; split; qclra|]. cbn [Qcpower] in *. split; qcnra. }
      destruct (Qc_dec x 1) as [[C|C]|C]; auto.
      - destruct (L x k Hx C). rewrite E in *. exfalso. qclra.
      - destruct (G x k C). rewrite E in *. exfalso. qclra. }
    destruct (Qc_le_lt_dec 0 c) as [P|N]; [left; auto|].
    right. assert (S2 : (c * c)%Qc = 1%Qc).
    { apply A; [apply Qc_sq_nonneg|]. replace ((c * c) ^ k)%Qc with ((c ^ k) * (c ^ k))%Qc; [rewrite H; ring|].
      clear. induction k as [|k IH]; cbn; [ring|]. rewrite <- IH. ring. }
    qcnra.
  Qed.

  (** a rational s with V k = 0 is an integer *)
  Lemma V_num (p q : Z) n : (q <> 0)%Z -> (s * ZQ q)%Qc = ZQ p -> exists z1 z2, (V (S n) * ZQ (q ^ Z.of_nat n))%Qc = ZQ (p ^ Z.of_nat n + q * z1)%Z /\ (V (S (S n)) * ZQ (q ^ Z.of_nat (S n)))%Qc = ZQ (p ^ Z.of_nat (S n) + q * z2)%Z.
  Proof.
    intros Hq Hs. induction n as [|n (z1 & z2 & I1 & I2)].
    - exists 0%Z, 0%Z. rewrite V_SS, V_1, V_0. cbn [Z.of_nat]. rewrite !Z.pow_0_r, !Z.pow_1_r.
      replace (1 + q * 0)%Z with 1%Z by ring. replace (p + q * 0)%Z with p by ring. split; [change (ZQ 1) with 1%Qc; ring|]. rewrite <- Hs. ring.
    - exists z2. assert (E1 : Z.of_nat (S (S n)) = (Z.of_nat n + 2)%Z) by lia. assert (E2 : Z.of_nat (S n) = (Z.of_nat n + 1)%Z) by lia.
      exists (p * z2 - q * p ^ Z.of_nat n - q * q * z1)%Z. split; auto. rewrite V_SS. rewrite E1. rewrite E2 in I2.
      rewrite Z.pow_add_r in I2 |- * by lia. rewrite Z.pow_1_r in *. rewrite (Z.pow_add_r p) in I2 by lia. rewrite Z.pow_1_r in I2.
      replace (p ^ (Z.of_nat n + 2))%Z with (p ^ Z.of_nat n * (p * p))%Z by (rewrite Z.pow_add_r by lia; ring).
      replace (q ^ 2)%Z with (q * q)%Z by ring.
      replace ((s * V (S (S n)) - V (S n)) * ZQ (q ^ Z.of_nat n * (q * q)))%Qc with
        ((s * ZQ q) * (V (S (S n)) * ZQ (q ^ Z.of_nat n * q)) - (V (S n) * ZQ (q ^ Z.of_nat n)) * ZQ (q * q))%Qc.
      + rewrite I1, I2, Hs. rewrite <- !ZQ_mul, <- ZQ_sub. f_equal. ring.
      + rewrite !ZQ_mul. ring.
  Qed.

  Lemma V_grows z n : s = ZQ z -> (2 <= Z.abs z)%Z -> exists a b, V n = ZQ a /\ V (S n) = ZQ b /\ (Z.abs a + 1 <= Z.abs b)%Z /\ (Z.of_nat n <= Z.abs a)%Z.
  Proof.
    intros Es Hz. induction n as [|n (a & b & Ea & Eb & H1 & H2)].
    - exists 0%Z, 1%Z. rewrite V_0, V_1. splits; auto; lia.
    - exists b, (z * b - a)%Z. splits; auto; [|nia|lia]. rewrite V_SS, Eb, Ea, Es, <- ZQ_mul, <- ZQ_sub. auto.
  Qed.

  Lemma V_root k : 0 < k -> V k = 0%Qc -> s = 0%Qc \/ s = 1%Qc \/ s = (- (1))%Qc.
  Proof.
    intros Hk H. assert (I : exists z, s = ZQ z).
    { destruct k as [|[|n]]; [lia|rewrite V_1 in H; discriminate H|].
      set (p := Qnum s). set (q := Zpos (Qden s)). assert (Hs : (s * ZQ q)%Qc = ZQ p).
      { apply Qc_is_canon. rewrite this_mul. unfold ZQ. rewrite !this_Q2Qc. unfold p, q, Qeq, Qmult. cbn [Qnum Qden inject_Z]. rewrite Pos.mul_1_r. ring. }
      destruct (V_num p q n ltac:(discriminate) Hs) as (z1 & z2 & _ & E). rewrite H in E. rewrite Qcmult_0_l in E. symmetry in E. apply (ZQ_eq0 _) in E.
      assert (G : Z.gcd p q = 1%Z). { unfold p, q. destruct s as [[sn sd] Hsd]. cbn. cbn in Hsd. clear -Hsd.
        pose proof (Z.ggcd_gcd sn (Zpos sd)) as Eg. pose proof (Z.ggcd_correct_divisors sn (Zpos sd)) as Ed. unfold Qred in Hsd.
        destruct (Z.ggcd sn (Zpos sd)) as (g & aa & bb). cbn in *. destruct Ed as [E1 E2]. injection Hsd as X1 X2. subst aa.
        assert (0 <= g)%Z by (subst g; apply Z.gcd_nonneg). rewrite <- Eg. destruct (Z.eq_dec sn 0) as [-> | ]; [|nia].
        assert (bb = 1 \/ bb <> 1)%Z as [-> | ] by lia; nia. }
      assert (D : (q | p ^ Z.of_nat (S n))%Z) by (exists (- z2)%Z; lia).
      assert (R : rel_prime q (p ^ Z.of_nat (S n))).
      { apply rel_prime_Zpower_r; [lia|]. apply rel_prime_sym. apply Zgcd_1_rel_prime. auto. }
      assert (q = 1)%Z. { apply rel_prime_sym in R. destruct R as [_ _ R]. specialize (R q D (Z.divide_refl q)). apply Z.divide_1_r_nonneg in R; [auto|discriminate]. }
      exists p. rewrite <- Hs, H0. change (ZQ 1) with 1%Qc. ring. }
    destruct I as (z & Ez). destruct (Z_le_gt_dec 2 (Z.abs z)) as [C|C].
    - destruct (V_grows z k Ez C) as (a & b & Ea & _ & _ & Ha). rewrite H in Ea. symmetry in Ea. apply (ZQ_eq0 _) in Ea. lia.
    - assert (z = 0 \/ z = 1 \/ z = -1)%Z as [-> | [-> | ->]] by lia; rewrite Ez; auto.
  Qed.

  (** uniform behaviour of all k-periodic solutions *)
  Lemma periodic_cases k : 0 < k -> (s = 0%Qc \/ s = 1%Qc \/ s = (- (1))%Qc) \/
    exists c, (c = 1%Qc \/ c = (- (1))%Qc \/ c = 0%Qc) /\
      forall b : nat -> Qc, (forall j, b (S (S j)) = (s * b (S j) - b j)%Qc) -> (forall j, b (k + j) = b j) -> forall j, b (S j) = (c * b j)%Qc.
  Proof.
    intros Hk. destruct (Qc_eq_dec (V k) 0%Qc) as [Z|N]; [left; eapply V_root; eauto|right].
    destruct k as [|n]; [lia|]. set (c := ((1 + V n) / V (S n))%Qc).
    assert (R : forall b : nat -> Qc, (forall j, b (S (S j)) = (s * b (S j) - b j)%Qc) -> (forall j, b (S n + j) = b j) -> forall j, b (S j) = (c * b j)%Qc).
    { intros b Hb Pb j. pose proof (rec_V b Hb n j) as E. cbn [plus] in Pb. rewrite Pb in E. unfold c. field_simplify_eq; [|exact N]. rewrite E at 2. ring. }
    assert (Pw : forall b : nat -> Qc, (forall j, b (S j) = (c * b j)%Qc) -> forall m j, b (m + j) = (c ^ m * b j)%Qc).
    { intros b Hb m j. induction m as [|m IH]; cbn [plus Qcpower]; [ring|]. rewrite Hb, IH. ring. }
    destruct (Qc_eq_dec (c ^ S n) 1%Qc) as [E|NE].
    - exists c. split; auto. apply (Qc_pow_1 c (S n)) in E; [tauto|lia].
    - exists 0%Qc. split; auto. intros b Hb Pb j. pose proof (R b Hb Pb) as Rb. pose proof (Pw b Rb (S n) j) as E2. rewrite Pb in E2.
      assert (Z0 : b j = 0%Qc). { assert (Z : ((1 - c ^ S n) * b j)%Qc = 0%Qc) by (replace ((1 - c ^ S n) * b j)%Qc with (b j - c ^ S n * b j)%Qc by ring; rewrite <- E2; ring).
        apply Qcmult_integral in Z as [Z|Z]; auto. exfalso. apply NE. replace (c ^ S n)%Qc with (1 - (1 - c ^ S n))%Qc by ring. rewrite Z. ring. }
      rewrite (Rb j), Z0. ring.
  Qed.
End Recurrence.

(** ** 3 x 3 matrices *)
Record m3 := M3 { c00 : Qc; c01 : Qc; c02 : Qc; c10 : Qc; c11 : Qc; c12 : Qc; c20 : Qc; c21 : Qc; c22 : Qc }.
Local Open Scope Qc_scope.
Definition mul3 (a b : m3) : m3 := M3
  (c00 a * c00 b + c01 a * c10 b + c02 a * c20 b) (c00 a * c01 b + c01 a * c11 b + c02 a * c21 b) (c00 a * c02 b + c01 a * c12 b + c02 a * c22 b)
  (c10 a * c00 b + c11 a * c10 b + c12 a * c20 b) (c10 a * c01 b + c11 a * c11 b + c12 a * c21 b) (c10 a * c02 b + c11 a * c12 b + c12 a * c22 b)
  (c20 a * c00 b + c21 a * c10 b + c22 a * c20 b) (c20 a * c01 b + c21 a * c11 b + c22 a * c21 b) (c20 a * c02 b + c21 a * c12 b + c22 a * c22 b).
Definition id3 : m3 := M3 1 0 0 0 1 0 0 0 1.
Definition tr3 (a : m3) : m3 := M3 (c00 a) (c10 a) (c20 a) (c01 a) (c11 a) (c21 a) (c02 a) (c12 a) (c22 a).
Definition add3 (a b : m3) : m3 := M3 (c00 a + c00 b) (c01 a + c01 b) (c02 a + c02 b) (c10 a + c10 b) (c11 a + c11 b) (c12 a + c12 b) (c20 a + c20 b) (c21 a + c21 b) (c22 a + c22 b).
Definition scale3 (k : Qc) (a : m3) : m3 := M3 (k * c00 a) (k * c01 a) (k * c02 a) (k * c10 a) (k * c11 a) (k * c12 a) (k * c20 a) (k * c21 a) (k * c22 a).
Definition zero3 : m3 := M3 0 0 0 0 0 0 0 0 0.
Definition adj3 (a : m3) : m3 := M3
  (c11 a * c22 a - c12 a * c21 a) (c02 a * c21 a - c01 a * c22 a) (c01 a * c12 a - c02 a * c11 a)
  (c12 a * c20 a - c10 a * c22 a) (c00 a * c22 a - c02 a * c20 a) (c02 a * c10 a - c00 a * c12 a)
  (c10 a * c21 a - c11 a * c20 a) (c01 a * c20 a - c00 a * c21 a) (c00 a * c11 a - c01 a * c10 a).
Definition det3 (a : m3) : Qc := c00 a * (c11 a * c22 a - c12 a * c21 a) - c01 a * (c10 a * c22 a - c12 a * c20 a) + c02 a * (c10 a * c21 a - c11 a * c20 a).
Definition trace3 (a : m3) : Qc := c00 a + c11 a + c22 a.
Local Close Scope Qc_scope.

Ltac m3ring := unfold mul3, id3, tr3, add3, scale3, zero3, adj3, det3, trace3; cbn [c00 c01 c02 c10 c11 c12 c20 c21 c22];
  match goal with |- @eq m3 _ _ => f_equal; ring | _ => ring end.

Lemma mul3_assoc a b c : mul3 (mul3 a b) c = mul3 a (mul3 b c). Proof. m3ring. Qed.
Lemma mul3_1l a : mul3 id3 a = a. Proof. destruct a; m3ring. Qed.
Lemma mul3_1r a : mul3 a id3 = a. Proof. destruct a; m3ring. Qed.
Lemma det3_mul a b : det3 (mul3 a b) = (det3 a * det3 b)%Qc. Proof. m3ring. Qed.
Lemma mul3_adj a : mul3 a (adj3 a) = scale3 (det3 a) id3. Proof. m3ring. Qed.
Lemma tr3_mul a b : tr3 (mul3 a b) = mul3 (tr3 b) (tr3 a). Proof. m3ring. Qed.
Lemma mul3_add_l a b c : mul3 (add3 a b) c = add3 (mul3 a c) (mul3 b c). Proof. m3ring. Qed.
Lemma mul3_add_r a b c : mul3 a (add3 b c) = add3 (mul3 a b) (mul3 a c). Proof. m3ring. Qed.
Lemma mul3_scale_l k a b : mul3 (scale3 k a) b = scale3 k (mul3 a b). Proof. m3ring. Qed.
Lemma mul3_scale_r k a b : mul3 a (scale3 k b) = scale3 k (mul3 a b). Proof. m3ring. Qed.
Lemma scale3_scale k l a : scale3 k (scale3 l a) = scale3 (k * l)%Qc a. Proof. m3ring. Qed.
Lemma scale3_1 a : scale3 1%Qc a = a. Proof. destruct a; m3ring. Qed.

Lemma add3_swap x y z : add3 (add3 x y) z = add3 (add3 x z) y. Proof. m3ring. Qed.

(** powers, multiplied from the right as in matrix_order *)
Fixpoint pow3 (a : m3) (k : nat) : m3 := match k with 0 => id3 | S k => mul3 (pow3 a k) a end.
Lemma pow3_add a i j : pow3 a (i + j) = mul3 (pow3 a i) (pow3 a j).
Proof. induction j as [|j IH]; [rewrite Nat.add_0_r; cbn; rewrite mul3_1r; auto|]. rewrite Nat.add_succ_r. cbn. rewrite IH, mul3_assoc. auto. Qed.
Lemma pow3_mul a i j : pow3 a (i * j) = pow3 (pow3 a i) j.
Proof. induction j as [|j IH]; [rewrite Nat.mul_0_r; auto|]. rewrite Nat.mul_succ_r, pow3_add, IH. reflexivity. Qed.
Lemma pow3_id k : pow3 id3 k = id3.
Proof. induction k as [|k IH]; cbn; auto. rewrite IH. apply mul3_1l. Qed.
Lemma det3_pow a k : det3 (pow3 a k) = (det3 a ^ k)%Qc.
Proof. induction k as [|k IH]; [cbn; m3ring|]. cbn [pow3 Qcpower]. rewrite det3_mul, IH. ring. Qed.
Lemma pow3_scale l a k : pow3 (scale3 l a) k = scale3 (l ^ k)%Qc (pow3 a k).
Proof. induction k as [|k IH]; [cbn; rewrite scale3_1; auto|]. cbn [pow3 Qcpower]. rewrite IH, mul3_scale_l, mul3_scale_r, scale3_scale. f_equal. ring. Qed.

(** an invariant form *)
Fixpoint form3 (a : m3) (k : nat) : m3 := match k with 0 => zero3 | S k => add3 (form3 a k) (mul3 (tr3 (pow3 a k)) (pow3 a k)) end.
Lemma form3_shift a k : add3 (mul3 (tr3 a) (mul3 (form3 a k) a)) id3 = add3 (form3 a k) (mul3 (tr3 (pow3 a k)) (pow3 a k)).
Proof.
  induction k as [|k IH]; [cbn; m3ring|]. cbn [form3]. rewrite mul3_add_l, mul3_add_r.
  rewrite <- IH. cbn [pow3]. rewrite tr3_mul, !mul3_assoc. apply add3_swap.
Qed.
Lemma add3_cancel x y z : add3 x z = add3 y z -> x = y.
Proof.
  intros E. assert (K : forall u v w : Qc, (u + w)%Qc = (v + w)%Qc -> u = v). { intros u v w Q. replace u with ((u + w) - w)%Qc by ring. rewrite Q. ring. }
  destruct x, y. f_equal; [apply (f_equal c00) in E|apply (f_equal c01) in E|apply (f_equal c02) in E|apply (f_equal c10) in E|apply (f_equal c11) in E
    |apply (f_equal c12) in E|apply (f_equal c20) in E|apply (f_equal c21) in E|apply (f_equal c22) in E]; unfold add3 in E; cbn [c00 c01 c02 c10 c11 c12 c20 c21 c22] in E; eapply K; exact E.
Qed.
Lemma form3_invariant a k : pow3 a k = id3 -> mul3 (tr3 a) (mul3 (form3 a k) a) = form3 a k.
Proof.
  intros H. pose proof (form3_shift a k) as E. rewrite H in E. replace (mul3 (tr3 id3) id3) with id3 in E by m3ring.
  apply add3_cancel in E. exact E.
Qed.

Definition quad3 (b : m3) (x y z : Qc) : Qc :=
  (x * (c00 b * x + c01 b * y + c02 b * z) + y * (c10 b * x + c11 b * y + c12 b * z) + z * (c20 b * x + c21 b * y + c22 b * z))%Qc.
Lemma quad3_add b c x y z : quad3 (add3 b c) x y z = (quad3 b x y z + quad3 c x y z)%Qc.
Proof. unfold quad3. m3ring. Qed.
Lemma quad3_gram b x y z : (0 <= quad3 (mul3 (tr3 b) b) x y z)%Qc.
Proof.
  replace (quad3 (mul3 (tr3 b) b) x y z) with
    ((c00 b * x + c01 b * y + c02 b * z) * (c00 b * x + c01 b * y + c02 b * z) + (c10 b * x + c11 b * y + c12 b * z) * (c10 b * x + c11 b * y + c12 b * z)
     + (c20 b * x + c21 b * y + c22 b * z) * (c20 b * x + c21 b * y + c22 b * z))%Qc by (unfold quad3; m3ring).
  pose proof (Qc_sq_nonneg (c00 b * x + c01 b * y + c02 b * z)). pose proof (Qc_sq_nonneg (c10 b * x + c11 b * y + c12 b * z)).
  pose proof (Qc_sq_nonneg (c20 b * x + c21 b * y + c22 b * z)). qclra.
Qed.
Definition posdef3 (b : m3) : Prop := forall x y z, ~ (x = 0%Qc /\ y = 0%Qc /\ z = 0%Qc) -> (0 < quad3 b x y z)%Qc.
Lemma form3_pos a k : 0 < k -> posdef3 (form3 a k).
Proof.
  intros Hk x y z N. destruct k as [|k]; [lia|].
  assert (G : (x * x + y * y + z * z <= quad3 (form3 a (S k)) x y z)%Qc).
  { clear Hk N. induction k as [|k IH].
    - cbn [form3 pow3]. replace (quad3 _ x y z) with (x * x + y * y + z * z)%Qc by (unfold quad3; m3ring). apply Qcle_refl.
    - change (form3 a (S (S k))) with (add3 (form3 a (S k)) (mul3 (tr3 (pow3 a (S k))) (pow3 a (S k)))). rewrite quad3_add.
      pose proof (quad3_gram (pow3 a (S k)) x y z). qclra. }
  assert (0 < x * x + y * y + z * z)%Qc; [|qclra].
  pose proof (Qc_sq_nonneg x). pose proof (Qc_sq_nonneg y). pose proof (Qc_sq_nonneg z).
  destruct (Qc_eq_dec x 0%Qc) as [->|Nx]; [|pose proof (Qc_sq_pos x Nx); qclra].
  destruct (Qc_eq_dec y 0%Qc) as [->|Ny]; [|pose proof (Qc_sq_pos y Ny); qclra].
  destruct (Qc_eq_dec z 0%Qc) as [->|Nz]; [|pose proof (Qc_sq_pos z Nz); qclra]. exfalso. apply N. auto.
Qed.

Lemma kernel3 b : det3 b = 0%Qc -> c00 b <> 0%Qc -> exists x y z, ~ (x = 0%Qc /\ y = 0%Qc /\ z = 0%Qc) /\ quad3 b x y z = 0%Qc.
Proof.
  intros D N.
  assert (T : forall x y z, ~ (x = 0%Qc /\ y = 0%Qc /\ z = 0%Qc) -> (c00 b * x + c01 b * y + c02 b * z)%Qc = 0%Qc -> (c10 b * x + c11 b * y + c12 b * z)%Qc = 0%Qc ->
     (c20 b * x + c21 b * y + c22 b * z)%Qc = 0%Qc -> exists x y z, ~ (x = 0%Qc /\ y = 0%Qc /\ z = 0%Qc) /\ quad3 b x y z = 0%Qc).
  { intros x y z Nz E1 E2 E3. exists x, y, z. split; auto. unfold quad3. rewrite E1, E2, E3. ring. }
  unfold det3 in D.
  destruct (Qc_eq_dec (c00 b * c11 b - c01 b * c10 b) 0%Qc) as [A|A].
  2:{ apply (T (c01 b * c12 b - c02 b * c11 b)%Qc (c02 b * c10 b - c00 b * c12 b)%Qc (c00 b * c11 b - c01 b * c10 b)%Qc); [tauto|ring|ring|rewrite <- D; ring]. }
  destruct (Qc_eq_dec (c00 b * c21 b - c01 b * c20 b) 0%Qc) as [A2|A2].
  2:{ apply (T (c01 b * c22 b - c02 b * c21 b)%Qc (c02 b * c20 b - c00 b * c22 b)%Qc (c00 b * c21 b - c01 b * c20 b)%Qc); [tauto|ring|rewrite <- (Qcopp_involutive 0%Qc); change (- 0%Qc)%Qc with 0%Qc; rewrite <- D; ring|ring]. }
  apply (T (c01 b) (- c00 b)%Qc 0%Qc).
  - intros (_ & C & _). apply N. replace (c00 b) with (- (- c00 b))%Qc by ring. rewrite C. reflexivity.
  - ring.
  - replace (c10 b * c01 b + c11 b * - c00 b + c12 b * 0)%Qc with (- (c00 b * c11 b - c01 b * c10 b))%Qc by ring. rewrite A. reflexivity.
  - replace (c20 b * c01 b + c21 b * - c00 b + c22 b * 0)%Qc with (- (c00 b * c21 b - c01 b * c20 b))%Qc by ring. rewrite A2. reflexivity.
Qed.
Lemma posdef3_det b : posdef3 b -> det3 b <> 0%Qc.
Proof.
  intros P D. assert (N : c00 b <> 0%Qc).
  { intros E. assert (H : (0 < quad3 b 1 0 0)%Qc) by (apply P; intros (C & _); discriminate C). unfold quad3 in H. rewrite E in H.
    replace (1 * (0 * 1 + c01 b * 0 + c02 b * 0) + 0 * (c10 b * 1 + c11 b * 0 + c12 b * 0) + 0 * (c20 b * 1 + c21 b * 0 + c22 b * 0))%Qc with 0%Qc in H by ring. qclra. }
  destruct (kernel3 b D N) as (x & y & z & Nz & E). pose proof (P x y z Nz) as H. rewrite E in H. qclra.
Qed.

(** the trace of an invertible isometry *)
Lemma trace_form b p : mul3 (tr3 p) b = mul3 b (adj3 p) -> (det3 b * trace3 p)%Qc = (det3 b * trace3 (adj3 p))%Qc.
Proof.
  intros E. transitivity (trace3 (mul3 (mul3 (tr3 p) b) (adj3 b))); [clear E; m3ring|]. rewrite E. m3ring.
Qed.
Lemma isometry_trace b p : posdef3 b -> det3 p = 1%Qc -> mul3 (tr3 p) (mul3 b p) = b -> trace3 p = trace3 (adj3 p).
Proof.
  intros P D I. assert (E : mul3 (tr3 p) b = mul3 b (adj3 p)).
  { rewrite <- I at 2. rewrite !mul3_assoc, mul3_adj, D, scale3_1, mul3_1r. auto. }
  apply trace_form in E. pose proof (posdef3_det b P) as N. apply (f_equal (fun x => (/ det3 b * x)%Qc)) in E.
  rewrite !Qcmult_assoc, !(Qcmult_comm (/ _)), !Qcmult_inv_r, !Qcmult_1_l in E by exact N. exact E.
Qed.
Lemma finite_trace p k : 0 < k -> pow3 p k = id3 -> det3 p = 1%Qc -> trace3 p = trace3 (adj3 p).
Proof. intros Hk H D. apply (isometry_trace (form3 p k)); auto. apply form3_pos; auto. apply form3_invariant; auto. Qed.

(** linear functionals: the nine entries *)
Definition entries3 : list (m3 -> Qc) := [c00; c01; c02; c10; c11; c12; c20; c21; c22].
Lemma entries3_eq a b : (forall e, In e entries3 -> e a = e b) -> a = b.
Proof.
  intros H. destruct a, b. f_equal; [apply (H c00)|apply (H c01)|apply (H c02)|apply (H c10)|apply (H c11)|apply (H c12)|apply (H c20)|apply (H c21)|apply (H c22)]; unfold entries3; cbn [In]; tauto.
Qed.
Lemma cayley_hamilton a p : let t := trace3 p in let u := trace3 (adj3 p) in let d := det3 p in
  add3 (mul3 (mul3 (mul3 a p) p) p) (scale3 u (mul3 a p)) = add3 (scale3 t (mul3 (mul3 a p) p)) (scale3 d a).
Proof.
  cbn zeta. assert (E : add3 (mul3 (mul3 p p) p) (scale3 (trace3 (adj3 p)) p) = add3 (scale3 (trace3 p) (mul3 p p)) (scale3 (det3 p) id3)) by m3ring.
  rewrite !mul3_assoc in *. apply (f_equal (mul3 a)) in E. rewrite !mul3_add_r, !mul3_scale_r, mul3_1r in E. exact E.
Qed.
Lemma entries3_lin e a b : In e entries3 -> e (add3 a b) = (e a + e b)%Qc.
Proof. unfold entries3. cbn [In]. intros H. repeat (destruct H as [<-|H]; [reflexivity|]). destruct H. Qed.
Lemma entries3_scale e k a : In e entries3 -> e (scale3 k a) = (k * e a)%Qc.
Proof. unfold entries3. cbn [In]. intros H. repeat (destruct H as [<-|H]; [reflexivity|]). destruct H. Qed.

Theorem restriction3_cases p k : 0 < k -> pow3 p k = id3 -> det3 p = 1%Qc -> let s := (trace3 p - 1)%Qc in
  (s = 0%Qc /\ pow3 p 4 = id3) \/ (s = 1%Qc /\ pow3 p 6 = id3) \/ (s = (- (1))%Qc /\ pow3 p 3 = id3) \/ pow3 p 1 = id3 \/ pow3 p 2 = id3.
Proof.
  intros Hk Hp D s. pose proof (finite_trace p k Hk Hp D) as T.
  set (a := fun (e : m3 -> Qc) j => e (pow3 p j)). set (b := fun e j => (a e (S j) - a e j)%Qc).
  assert (Ra : forall e, In e entries3 -> forall j, a e (S (S (S j))) = (trace3 p * a e (S (S j)) - trace3 p * a e (S j) + a e j)%Qc).
  { intros e He j. pose proof (cayley_hamilton (pow3 p j) p) as C. cbn zeta in C. apply (f_equal e) in C. rewrite !entries3_lin, !entries3_scale in C by auto. rewrite <- T, D in C.
    unfold a. cbn [pow3]. match type of C with (?x + ?y)%Qc = ?z => replace x with ((x + y) - y)%Qc by ring end. rewrite C. ring. }
  assert (Rb : forall e, In e entries3 -> forall j, b e (S (S j)) = (s * b e (S j) - b e j)%Qc).
  { intros e He j. unfold b, s. rewrite (Ra e He j). ring. }
  assert (Pa : forall e j, a e (k + j) = a e j) by (intros e j; unfold a; rewrite pow3_add, Hp, mul3_1l; auto).
  assert (Pb : forall e j, b e (k + j) = b e j). { intros e j. unfold b. rewrite <- (Nat.add_succ_r k j), !Pa. auto. }
  assert (Step : forall e j, a e (S j) = (a e j + b e j)%Qc) by (intros e j; unfold b; ring).
  assert (Fin : forall n, (forall e, In e entries3 -> a e n = a e 0) -> pow3 p n = id3) by (intros n H; apply entries3_eq; exact H).
  destruct (periodic_cases s k Hk) as [[S0|[S1|S2]]|(c & Hc & H)].
  - left. split; auto. apply Fin. intros e He. rewrite !Step. rewrite !(Rb e He), S0. ring.
  - right; left. split; auto. apply Fin. intros e He. rewrite !Step. rewrite !(Rb e He), S1. ring.
  - right; right; left. split; auto. apply Fin. intros e He. rewrite !Step. rewrite !(Rb e He), S2. ring.
  - destruct Hc as [-> | [-> | ->]].
    + right; right; right; left. apply Fin. intros e He.
      assert (Hb : forall j, b e j = b e 0). { induction j as [|j IH]; auto. rewrite (H (b e) (Rb e He) (Pb e) j), IH. ring. }
      assert (Ha : forall j, a e j = (a e 0%nat + ZQ (Z.of_nat j) * b e 0%nat)%Qc).
      { induction j as [|j IH]; [change (ZQ (Z.of_nat 0)) with 0%Qc; ring|]. rewrite (Step e j), IH, (Hb j), Nat2Z.inj_succ. unfold Z.succ. rewrite ZQ_add. change (ZQ 1) with 1%Qc. ring. }
      pose proof (Pa e 0) as Q. rewrite Nat.add_0_r in Q. rewrite (Ha k) in Q.
      assert (Z0 : (ZQ (Z.of_nat k) * b e 0%nat)%Qc = 0%Qc) by (replace (ZQ (Z.of_nat k) * b e 0%nat)%Qc with ((a e 0%nat + ZQ (Z.of_nat k) * b e 0%nat) - a e 0%nat)%Qc by ring; rewrite Q; ring).
      apply Qcmult_integral in Z0 as [Z0|Z0]; [apply (ZQ_eq0 _) in Z0; lia|]. rewrite Step, Z0. ring.
    + right; right; right; right. apply Fin. intros e He. rewrite !Step. rewrite (H (b e) (Rb e He) (Pb e) 0). ring.
    + right; right; right; left. apply Fin. intros e He.
      pose proof (Pb e 0) as Q. destruct k as [|k]; [lia|]. cbn [plus] in Q. rewrite (H (b e) (Rb e He) (Pb e)) in Q. rewrite Step, <- Q. ring.
Qed.

Theorem restriction3 p k : 0 < k -> pow3 p k = id3 -> det3 p = 1%Qc -> exists n, In n [1; 2; 3; 4; 6] /\ pow3 p n = id3.
Proof.
  intros Hk Hp D. destruct (restriction3_cases p k Hk Hp D) as [(_ & H)|[(_ & H)|[(_ & H)|[H|H]]]]; eexists; (split; [|exact H]); cbn; tauto.
Qed.
