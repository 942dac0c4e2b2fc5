(** Rounding a rational number to f64, as str::parse::<f64> does: to nearest, ties to even. *)
From Coq Require Import List ZArith Lia Bool PeanoNat.
From Coq Require Import QArith Qcanon Qcabs.
From Verif Require Import Base ZQ F64 F64Exact.
Import ListNotations.
Close Scope Q_scope. Close Scope Qc_scope.
Local Open Scope Z_scope.

(** the integer nearest to a/b, the even one of two *)
Definition nearest_even (a b : Z) : Z :=
  let q := a / b in
  match (2 * (a mod b)) ?= b with
  | Lt => q
  | Gt => q + 1
  | Eq => if Z.even q then q else q + 1
  end.

(** [n/d * 2^1074], for n >= 0, rounded to an integer of at most 53 bits times 2^s, with s >= 0 as small as possible *)
Definition round_exp (n d : Z) : Z := Z.max 0 (Z.log2 (n * 2 ^ 1074 / d) - 52).
Definition round_mant (n d : Z) : Z := nearest_even (n * 2 ^ 1074) (d * 2 ^ round_exp n d).

(** the conversion of a decimal number to f64 by nom::number::complete::double, which is str::parse::<f64> of the
    standard library: the value of the nearest f64; None for the infinities *)
Definition rnd64 (q : Qc) : option Qc :=
  let n := Z.abs (Qnum q) in let d := Zpos (Qden q) in
  let m := round_mant n d in let s := round_exp n d in
  if 2 ^ 2098 <=? m * 2 ^ s then None else Some (ZQ (Z.sgn (Qnum q) * m) * pow2 (s - 1074))%Qc.

(** ** nearest_even *)
Lemma nearest_even_spec a b : 0 < b ->
  let r := nearest_even a b in
  2 * Z.abs (a - b * r) <= b /\ (2 * Z.abs (a - b * r) = b -> Z.even r = true).
Proof.
  intros Hb. unfold nearest_even. pose proof (Z.div_mod a b ltac:(lia)) as E. pose proof (Z.mod_pos_bound a b Hb) as M.
  set (q := a / b) in *. set (m := a mod b) in *. cbv zeta.
  assert (E1 : a - b * q = m) by lia. assert (E2 : a - b * (q + 1) = m - b) by lia. clearbody q m. clear E.
  destruct (Z.compare_spec (2 * m) b) as [H|H|H].
  - destruct (Z.even q) eqn:Q; rewrite ?E1, ?E2.
    + split; [lia|]. auto.
    + split; [lia|]. intros _. rewrite Z.even_add, Q. reflexivity.
  - rewrite E1. split; [lia|]. intros. lia.
  - rewrite E2. split; [lia|]. intros. lia.
Qed.

(** no integer is nearer, and only one of the same distance has to be avoided *)
Lemma nearest_even_best a b z : 0 < b -> Z.abs (a - b * nearest_even a b) <= Z.abs (a - b * z) /\
  (z <> nearest_even a b -> Z.abs (a - b * nearest_even a b) = Z.abs (a - b * z) ->
   Z.even (nearest_even a b) = true /\ (z = nearest_even a b + 1 \/ z = nearest_even a b - 1)).
Proof.
  intros Hb. destruct (nearest_even_spec a b Hb) as (H1 & H2). cbv zeta in *. set (r := nearest_even a b) in *. clearbody r.
  destruct (Z.eq_dec z r) as [->|N]; [split; [lia|congruence]|].
  assert (D : b * z = b * r + b * (z - r)) by ring.
  assert (D2 : b <= Z.abs (b * (z - r))) by (rewrite Z.abs_mul, (Z.abs_eq b) by lia; nia).
  split; [lia|]. intros _ E.
  assert (Q : 2 * Z.abs (a - b * r) = b) by lia. split; [auto|].
  assert (D3 : Z.abs (b * (z - r)) = b) by lia.
  rewrite Z.abs_mul, (Z.abs_eq b) in D3 by lia. nia.
Qed.

Lemma nearest_even_ge a b k : 0 < b -> b * k <= a -> k <= nearest_even a b.
Proof.
  intros Hb H. destruct (nearest_even_spec a b Hb) as (H1 & _). cbv zeta in *. set (r := nearest_even a b) in *. clearbody r.
  destruct (Z.le_gt_cases k r); auto. assert (b * r <= b * (k - 1)) by (apply Z.mul_le_mono_nonneg_l; lia). lia.
Qed.

Lemma nearest_even_le a b k : 0 < b -> a <= b * k -> nearest_even a b <= k.
Proof.
  intros Hb H. destruct (nearest_even_spec a b Hb) as (H1 & _). cbv zeta in *. set (r := nearest_even a b) in *. clearbody r.
  destruct (Z.le_gt_cases r k); auto. assert (b * (k + 1) <= b * r) by (apply Z.mul_le_mono_nonneg_l; lia). lia.
Qed.

Section Scaled.
  Variables n d : Z.
  Hypothesis Hn : 0 <= n.
  Hypothesis Hd : 0 < d.
  Let X := n * 2 ^ 1074.
  Let N := X / d.
  Let s := round_exp n d.
  Let m := round_mant n d.

  Lemma round_N : 0 <= N /\ d * N <= X < d * (N + 1) /\ 0 <= X.
  Proof.
    assert (HX : 0 <= X) by (unfold X; apply Z.mul_nonneg_nonneg; [lia|apply Z.pow_nonneg; lia]).
    unfold N. pose proof (Z.div_mod X d ltac:(lia)). pose proof (Z.mod_pos_bound X d Hd). pose proof (Z.div_pos X d HX Hd). lia.
  Qed.

  Lemma round_s : 0 <= s. Proof. unfold s, round_exp. lia. Qed.

  (** the mantissa has 53 bits unless the exponent is the smallest *)
  Lemma round_above : X < d * 2 ^ (s + 53).
  Proof.
    pose proof round_s as S0. destruct round_N as (N0 & (_ & NX) & _). eapply Z.lt_le_trans; [exact NX|]. apply Z.mul_le_mono_nonneg_l; [lia|].
    destruct (Z.eq_dec N 0) as [E|NZ].
    - rewrite E. pose proof (Z.pow_pos_nonneg 2 (s + 53)). lia.
    - pose proof (Z.log2_spec N ltac:(lia)) as L. assert (Z.succ (Z.log2 N) <= s + 53).
      { unfold s, round_exp. fold X. fold N. lia. }
      pose proof (Z.pow_le_mono_r 2 _ _ ltac:(lia) H). lia.
  Qed.

  Lemma round_below : 0 < s -> d * 2 ^ (s + 52) <= X.
  Proof.
    intros Hs. destruct round_N as (N0 & (NX & _) & _). eapply Z.le_trans; [|exact NX]. apply Z.mul_le_mono_nonneg_l; [lia|].
    unfold s, round_exp in *. fold X in Hs |- *. fold N in Hs |- *.
    replace (Z.max 0 (Z.log2 N - 52) + 52) with (Z.log2 N) by lia.
    destruct (Z.eq_dec N 0) as [E|NZ]; [rewrite E in Hs; simpl in Hs; lia|].
    apply Z.log2_spec. lia.
  Qed.

  Lemma round_m_bounds : 0 <= m <= 2 ^ 53 /\ (0 < s -> 2 ^ 52 <= m).
  Proof.
    destruct round_N as (_ & _ & HX). pose proof round_above as A. pose proof round_below as B. pose proof round_s as S0.
    assert (Hp : 0 < 2 ^ s) by (apply Z.pow_pos_nonneg; lia).
    assert (Hb : 0 < d * 2 ^ s) by (apply Z.mul_pos_pos; lia).
    unfold m, round_mant. fold s. fold X. rewrite Z.pow_add_r in A, B by lia. splits.
    - apply nearest_even_ge; auto. rewrite Z.mul_0_r. auto.
    - apply nearest_even_le; auto. rewrite <- Z.mul_assoc. lia.
    - intros Hs. specialize (B Hs). apply nearest_even_ge; auto. rewrite <- Z.mul_assoc. lia.
  Qed.

  (** no number M * 2^t with M of at most 53 bits is nearer *)
  Lemma round_best M t : Z.abs M < 2 ^ 53 -> 0 <= t ->
    Z.abs (X - d * (m * 2 ^ s)) <= Z.abs (X - d * (M * 2 ^ t)) /\
    (M * 2 ^ t <> m * 2 ^ s -> Z.abs (X - d * (m * 2 ^ s)) = Z.abs (X - d * (M * 2 ^ t)) ->
     Z.even m = true /\ (M * 2 ^ t = (m + 1) * 2 ^ s \/ M * 2 ^ t = (m - 1) * 2 ^ s)).
  Proof.
    intros HM Ht. pose proof round_s as S0. assert (Hp : 0 < 2 ^ s) by (apply Z.pow_pos_nonneg; lia).
    assert (Hb : 0 < d * 2 ^ s) by (apply Z.mul_pos_pos; lia).
    assert (Em : forall z, d * (z * 2 ^ s) = d * 2 ^ s * z) by (intros; ring).
    destruct (Z.le_gt_cases s t) as [H|H].
    - replace (2 ^ t) with (2 ^ (t - s) * 2 ^ s) by (rewrite <- Z.pow_add_r by lia; f_equal; lia).
      rewrite (Z.mul_assoc M). set (z := M * 2 ^ (t - s)). rewrite !Em.
      destruct (nearest_even_best X (d * 2 ^ s) z Hb) as (B1 & B2). change (nearest_even X (d * 2 ^ s)) with m in B1, B2. split; [exact B1|].
      intros Ne E. destruct B2 as (B2 & B3); [intros Q; apply Ne; rewrite Q; reflexivity|exact E|]. split; auto.
      destruct B3 as [-> | ->]; auto.
    - assert (Hs : 0 < s) by lia. pose proof (round_below Hs) as B.
      destruct (nearest_even_best X (d * 2 ^ s) (2 ^ 52) Hb) as (B1 & _). change (nearest_even X (d * 2 ^ s)) with m in B1. rewrite <- !Em in B1.
      assert (Ep : 2 ^ 52 * 2 ^ s = 2 ^ (s + 52)) by (rewrite <- Z.pow_add_r by lia; f_equal; lia).
      rewrite Ep in B1.
      assert (HY : M * 2 ^ t < 2 ^ (s + 52)).
      { assert (H1 : 2 ^ (s + 52) = 2 ^ 53 * 2 ^ (s - 1)) by (rewrite <- Z.pow_add_r by lia; f_equal; lia). rewrite H1.
        assert (H2 : 0 < 2 ^ t <= 2 ^ (s - 1)) by (split; [apply Z.pow_pos_nonneg; lia|apply Z.pow_le_mono_r; lia]).
        clear -HM H2. nia. }
      assert (HdY : d * (M * 2 ^ t) < d * 2 ^ (s + 52)) by (apply Z.mul_lt_mono_pos_l; auto).
      clear -B1 HdY B. generalize dependent (d * (M * 2 ^ t)). generalize dependent (d * (m * 2 ^ s)). generalize dependent (d * 2 ^ (s + 52)).
      generalize dependent X. intros. split; intros; lia.
  Qed.

  Lemma round_s_small : m * 2 ^ s < 2 ^ 2098 -> s <= 2045 /\ (m = 2 ^ 53 -> s <= 2044).
  Proof.
    intros H. pose proof round_s as S0. destruct round_m_bounds as ((M0 & M1) & M2). split.
    - destruct (Z.le_gt_cases s 2045) as [|G]; auto. exfalso. assert (2 ^ 2046 <= 2 ^ s) by (apply Z.pow_le_mono_r; lia).
      specialize (M2 ltac:(lia)). assert (2 ^ 52 * 2 ^ 2046 <= m * 2 ^ s) by (apply Z.mul_le_mono_nonneg; auto; apply Z.pow_nonneg; lia).
      rewrite <- Z.pow_add_r in H1 by lia. change (52 + 2046) with 2098 in H1. revert H H1. generalize (2 ^ 2098) (m * 2 ^ s). intros; lia.
    - intros E. destruct (Z.le_gt_cases s 2044) as [|G]; auto. exfalso. assert (2 ^ 2045 <= 2 ^ s) by (apply Z.pow_le_mono_r; lia).
      rewrite E in H. assert (2 ^ 53 * 2 ^ 2045 <= 2 ^ 53 * 2 ^ s) by (apply Z.mul_le_mono_nonneg_l; auto; apply Z.pow_nonneg; lia).
      rewrite <- Z.pow_add_r in H1 by lia. change (53 + 2045) with 2098 in H1. revert H H1. generalize (2 ^ 2098) (2 ^ 53 * 2 ^ s). intros; lia.
  Qed.

  (** too large *)
  Lemma round_overflow : 2 ^ 2098 <= m * 2 ^ s <-> d * (2 ^ 2098 - 2 ^ 2044) <= X.
  Proof.
    pose proof round_s as S0. destruct round_m_bounds as ((M0 & M1) & M2). pose proof round_above as A. pose proof round_below as B.
    assert (Hp : 0 < 2 ^ s) by (apply Z.pow_pos_nonneg; lia).
    assert (Hb : 0 < d * 2 ^ s) by (apply Z.mul_pos_pos; lia).
    assert (P98 : 2 ^ 2098 = 2 ^ 53 * 2 ^ 2045) by (rewrite <- Z.pow_add_r by lia; reflexivity).
    assert (P45 : 2 ^ 2045 = 2 * 2 ^ 2044) by (rewrite <- (Z.pow_add_r 2 1) by lia; reflexivity).
    assert (P44 : 0 < 2 ^ 2044) by (apply Z.pow_pos_nonneg; lia).
    split; intros H.
    - destruct (Z.le_gt_cases (d * (2 ^ 2098 - 2 ^ 2044)) X) as [|G]; auto. exfalso.
      assert (Hs : s <= 2045).
      { destruct (Z.le_gt_cases s 2045) as [|G2]; auto. exfalso. specialize (B ltac:(lia)).
        assert (2 ^ 2098 <= 2 ^ (s + 52)) by (apply Z.pow_le_mono_r; lia).
        assert (d * 2 ^ 2098 <= d * 2 ^ (s + 52)) by (apply Z.mul_le_mono_nonneg_l; lia). rewrite Z.mul_sub_distr_l in G.
        assert (0 < d * 2 ^ 2044) by (apply Z.mul_pos_pos; auto).
        revert G H1 H2 B. generalize (d * 2 ^ 2098) (d * 2 ^ 2044) (d * 2 ^ (s + 52)). intros. lia. }
      assert (s = 2045).
      { destruct (Z.le_gt_cases 2045 s) as [|G2]; [lia|]. exfalso. assert (2 ^ s <= 2 ^ 2044) by (apply Z.pow_le_mono_r; lia).
        assert (m * 2 ^ s <= 2 ^ 53 * 2 ^ 2044) by (apply Z.mul_le_mono_nonneg; lia). rewrite P98, P45 in H.
        assert (0 < 2 ^ 53 * 2 ^ 2044) by (apply Z.mul_pos_pos; auto; lia).
        revert H H1 H2. rewrite (Z.mul_comm 2), Z.mul_assoc. generalize (2 ^ 53 * 2 ^ 2044) (m * 2 ^ s). intros; lia. }
      assert (Em : m = 2 ^ 53).
      { rewrite P98, H0 in H. apply Z.mul_le_mono_pos_r in H; [lia|]. rewrite P45. lia. }
      destruct (nearest_even_spec X (d * 2 ^ s) Hb) as (Q & _). cbv zeta in Q. change (nearest_even X (d * 2 ^ s)) with m in Q. rewrite Em, H0 in Q.
      rewrite P98 in G. rewrite P45 in *. clear -Q G P44 Hd.
      replace (d * (2 * 2 ^ 2044) * 2 ^ 53) with (2 * (2 ^ 53 * (d * 2 ^ 2044))) in Q by ring.
      replace (d * (2 * 2 ^ 2044)) with (2 * (d * 2 ^ 2044)) in Q by ring.
      replace (d * (2 ^ 53 * (2 * 2 ^ 2044) - 2 ^ 2044)) with (2 * (2 ^ 53 * (d * 2 ^ 2044)) - d * 2 ^ 2044) in G by ring.
      generalize dependent (d * 2 ^ 2044). generalize dependent X. intros. lia.
    - destruct (Z.le_gt_cases s 2045) as [Hs|Hs].
      + assert (s = 2045).
        { destruct (Z.le_gt_cases 2045 s) as [|G2]; [lia|]. exfalso. assert (2 ^ (s + 53) <= 2 ^ 2097) by (apply Z.pow_le_mono_r; lia).
          assert (d * 2 ^ (s + 53) <= d * 2 ^ 2097) by (apply Z.mul_le_mono_nonneg_l; lia).
          assert (P97 : 2 ^ 2097 = 2 ^ 53 * 2 ^ 2044) by (rewrite <- Z.pow_add_r by lia; reflexivity).
          rewrite P97 in H1. rewrite P98, P45 in H.
          replace (d * (2 ^ 53 * (2 * 2 ^ 2044) - 2 ^ 2044)) with (2 * (2 ^ 53 * (d * 2 ^ 2044)) - d * 2 ^ 2044) in H by ring.
          replace (d * (2 ^ 53 * 2 ^ 2044)) with (2 ^ 53 * (d * 2 ^ 2044)) in H1 by ring.
          assert (0 < d * 2 ^ 2044) by (apply Z.mul_pos_pos; auto).
          clear -A H H1 H2. generalize dependent (d * 2 ^ 2044). generalize dependent (d * 2 ^ (s + 53)). generalize dependent X. intros. lia. }
        destruct (nearest_even_spec X (d * 2 ^ s) Hb) as (Q & Q2). cbv zeta in Q, Q2. change (nearest_even X (d * 2 ^ s)) with m in Q, Q2.
        assert (2 ^ 53 <= m).
        { destruct (Z.le_gt_cases (2 ^ 53) m) as [|G]; auto. exfalso.
          rewrite H0 in Q, Q2. rewrite P98, P45 in H. rewrite P45 in Q, Q2.
          replace (d * (2 ^ 53 * (2 * 2 ^ 2044) - 2 ^ 2044)) with (2 * (2 ^ 53 * (d * 2 ^ 2044)) - d * 2 ^ 2044) in H by ring.
          replace (d * (2 * 2 ^ 2044)) with (2 * (d * 2 ^ 2044)) in Q, Q2 by ring.
          assert (Dpos : 0 < d * 2 ^ 2044) by (apply Z.mul_pos_pos; auto).
          set (D := d * 2 ^ 2044) in *. clearbody D.
          assert (D * m <= D * (2 ^ 53 - 1)) by (apply Z.mul_le_mono_nonneg_l; lia).
          assert (E : D * m = D * (2 ^ 53 - 1)).
          { clear Q2. replace (2 * D * m) with (2 * (D * m)) in Q by ring. revert Q H H1. generalize (D * m). generalize X. intros; lia. }
          assert (m = 2 ^ 53 - 1) by (apply Z.mul_cancel_l in E; lia). subst m. rewrite H2 in *.
          assert (X1 : 2 * Z.abs (X - 2 * D * (2 ^ 53 - 1)) = 2 * D).
          { clear Q2. revert Q H. generalize X. intros; lia. }
          specialize (Q2 X1). discriminate Q2. }
        rewrite P98, H0. apply Z.mul_le_mono_nonneg_r; auto. rewrite P45. lia.
      + assert (2 ^ 2046 <= 2 ^ s) by (apply Z.pow_le_mono_r; lia). specialize (M2 ltac:(lia)).
        assert (2 ^ 2098 = 2 ^ 52 * 2 ^ 2046) by (rewrite <- Z.pow_add_r by lia; reflexivity). rewrite H1.
        apply Z.mul_le_mono_nonneg; auto; apply Z.pow_nonneg; lia.
  Qed.
End Scaled.

(** ** rational numbers *)
Lemma Qc_num_den (q : Qc) : (q * ZQ (Zpos (Qden q)) = ZQ (Qnum q))%Qc.
Proof.
  apply Qc_is_canon. unfold ZQ, Qcmult, Q2Qc. cbn [this]. rewrite !Qred_correct. unfold Qeq, inject_Z. simpl. lia.
Qed.

Lemma Qcabs_ZQ z : Qcabs (ZQ z) = ZQ (Z.abs z).
Proof. apply Qc_is_canon. unfold Qcabs, ZQ, Q2Qc. cbn [this]. rewrite !Qred_correct. reflexivity. Qed.

(** distances, scaled *)
Lemma scaled_distance (q : Qc) M t : 0 <= t ->
  (Qcabs (q - ZQ M * pow2 (t - 1074)) * ZQ (Zpos (Qden q) * 2 ^ 1074) = ZQ (Z.abs (Qnum q * 2 ^ 1074 - Zpos (Qden q) * (M * 2 ^ t))))%Qc.
Proof.
  intros Ht. assert (P : 0 <= 2 ^ 1074) by (apply Z.pow_nonneg; lia).
  assert (A : (ZQ (Zpos (Qden q) * 2 ^ 1074) = Qcabs (ZQ (Zpos (Qden q) * 2 ^ 1074)))%Qc).
  { rewrite Qcabs_ZQ, Z.abs_eq; [reflexivity|]. apply Z.mul_nonneg_nonneg; lia. }
  rewrite A. rewrite <- Qcabs_Qcmult. rewrite <- Qcabs_ZQ. f_equal.
  rewrite ZQ_sub, !ZQ_mul. rewrite <- (Qc_num_den q). rewrite <- (pow2_pos 1074), <- (pow2_pos t) by lia.
  assert (E : pow2 t = (pow2 (t - 1074) * pow2 1074)%Qc) by (rewrite <- pow2_add; f_equal; lia). rewrite E. ring.
Qed.

Lemma scaled_le (a b k : Qc) : (0 < k)%Qc -> ((a * k <= b * k)%Qc <-> (a <= b)%Qc).
Proof.
  intros Hk. split; intros H.
  - apply Qcmult_lt_0_le_reg_r with (z := k); auto.
  - apply Qcmult_le_compat_r; auto. apply Qclt_le_weak. auto.
Qed.

Lemma scale_pos (q : Qc) : (0 < ZQ (Zpos (Qden q) * 2 ^ 1074))%Qc.
Proof. change 0%Qc with (ZQ 0). apply ZQ_lt. apply Z.mul_pos_pos; [lia|apply Z.pow_pos_nonneg; lia]. Qed.

Lemma abs_signed X d Y : Z.abs (X - d * (Z.sgn X * Y)) = if Z.eqb X 0 then 0 else Z.abs (Z.abs X - d * Y).
Proof.
  destruct (Z.eqb_spec X 0) as [->|N]; [simpl; lia|].
  destruct (Z.lt_ge_cases X 0) as [H|H].
  - rewrite (Z.sgn_neg X), (Z.abs_neq X) by lia. replace (X - d * (-1 * Y)) with (- (- X - d * Y)) by ring. apply Z.abs_opp.
  - rewrite (Z.sgn_pos X), (Z.abs_eq X) by lia. f_equal. ring.
Qed.

Lemma sgn_scale X : Z.sgn (X * 2 ^ 1074) = Z.sgn X.
Proof. rewrite Z.sgn_mul. rewrite (Z.sgn_pos (2 ^ 1074)); [lia|]. apply Z.pow_pos_nonneg; lia. Qed.
Lemma abs_scale X : Z.abs (X * 2 ^ 1074) = Z.abs X * 2 ^ 1074.
Proof. rewrite Z.abs_mul, (Z.abs_eq (2 ^ 1074)); [reflexivity|]. apply Z.pow_nonneg. lia. Qed.
Lemma zero_scale X : X <> 0 -> X * 2 ^ 1074 <> 0.
Proof. intros H E. apply Z.mul_eq_0 in E as [E|E]; auto. pose proof (Z.pow_pos_nonneg 2 1074). rewrite E in H0. lia. Qed.

Lemma zero_mant d : 0 < d -> round_mant 0 d = 0.
Proof.
  intros Hd. destruct (round_m_bounds 0 d ltac:(lia) Hd) as ((A & _) & _).
  assert (round_mant 0 d <= 0); [|lia]. unfold round_mant. apply nearest_even_le.
  - apply Z.mul_pos_pos; auto. apply Z.pow_pos_nonneg; [lia|apply round_s].
  - rewrite Z.mul_0_r. simpl. lia.
Qed.

Lemma rnd64_parts q r : rnd64 q = Some r ->
  let d := Zpos (Qden q) in let s := round_exp (Z.abs (Qnum q)) d in let m := round_mant (Z.abs (Qnum q)) d in
  r = (ZQ (Z.sgn (Qnum q) * m) * pow2 (s - 1074))%Qc /\ m * 2 ^ s < 2 ^ 2098.
Proof.
  unfold rnd64. cbv zeta. destruct (Z.leb_spec (2 ^ 2098) (round_mant (Z.abs (Qnum q)) (Zpos (Qden q)) * 2 ^ round_exp (Z.abs (Qnum q)) (Zpos (Qden q)))) as [H|H];
    intros E; [discriminate E|]. split; [|exact H]. congruence.
Qed.

Lemma rnd64_fits q r : rnd64 q = Some r -> fits r.
Proof.
  intros E. apply rnd64_parts in E as (-> & H). set (d := Zpos (Qden q)) in *. set (n := Z.abs (Qnum q)) in *.
  assert (Hn : 0 <= n) by (unfold n; lia). assert (Hd : 0 < d) by (unfold d; lia).
  pose proof (round_s_small n d Hn Hd H) as (S1 & S2). pose proof (round_s n d) as S0. destruct (round_m_bounds n d Hn Hd) as ((M0 & M1) & _).
  set (m := round_mant n d) in *. set (s := round_exp n d) in *. clearbody m s.
  destruct (Z.eq_dec m (2 ^ 53)) as [->|N].
  - exists (Z.sgn (Qnum q) * 2 ^ 52), (s + 1 - 1074). specialize (S2 eq_refl). splits; try lia.
    replace (s + 1 - 1074) with (s - 1074 + 1) by lia. rewrite pow2_succ by lia.
    replace (Z.sgn (Qnum q) * 2 ^ 53) with (Z.sgn (Qnum q) * 2 ^ 52 * 2 ^ 1) by lia. rewrite !(ZQ_mul (Z.sgn (Qnum q) * 2 ^ 52)). ring.
  - exists (Z.sgn (Qnum q) * m), (s - 1074). splits; auto; try lia.
Qed.

Lemma rnd64_nearest q r y : rnd64 q = Some r -> fits y ->
  (Qcabs (q - r) <= Qcabs (q - y))%Qc /\
  (y <> r -> Qcabs (q - r) = Qcabs (q - y) ->
   exists M E, Z.even M = true /\ Z.abs M <= 2 ^ 53 /\ r = (ZQ M * pow2 E)%Qc /\ (y = (ZQ (M + 1) * pow2 E)%Qc \/ y = (ZQ (M - 1) * pow2 E)%Qc)).
Proof.
  intros E (M & F & HM & HF & ->). apply rnd64_parts in E as (-> & H). set (d := Zpos (Qden q)) in *. set (n := Z.abs (Qnum q)) in *.
  assert (Hn : 0 <= n) by (unfold n; lia). assert (Hd : 0 < d) by (unfold d; lia).
  pose proof (round_s n d) as S0. destruct (round_m_bounds n d Hn Hd) as ((M0 & M1) & _).
  replace F with ((F + 1074) - 1074) by lia. set (t := F + 1074) in *. assert (Ht : 0 <= t) by (unfold t; lia).
  pose proof (scaled_distance q (Z.sgn (Qnum q) * round_mant n d) (round_exp n d) S0) as D1.
  pose proof (scaled_distance q M t Ht) as D2. fold d in D1, D2.
  pose proof (scale_pos q) as K. fold d in K. set (k := ZQ (d * 2 ^ 1074)) in *.
  assert (Kn : k <> 0%Qc) by (intros Q; rewrite Q in K; discriminate K).
  rewrite <- (scaled_le _ _ k K), D1, D2. rewrite ZQ_le.
  destruct (Z.eq_dec (Qnum q) 0) as [Z0|NZ].
  { unfold n in *. rewrite Z0 in *. simpl (Z.sgn 0) in *. rewrite !Z.mul_0_l, ?Z.mul_0_r in *. split; [lia|].
    intros Ne Eq. exfalso. apply Ne. 
    assert (X : ZQ (Z.abs (0 - 0)) = ZQ (Z.abs (0 - d * (M * 2 ^ t)))).
    { rewrite <- D1, <- D2. f_equal. auto. }
    apply ZQ_inj in X. simpl (Z.abs (0 - 0)) in X. symmetry in X. apply Z.abs_0_iff in X.
    assert (X2 : d * (M * 2 ^ t) = 0) by lia. apply Z.mul_eq_0 in X2 as [X2|X2]; [lia|]. apply Z.mul_eq_0 in X2 as [X2|X2].
    - rewrite X2. change (ZQ 0) with 0%Qc. ring.
    - pose proof (Z.pow_pos_nonneg 2 t). lia. }
  set (M' := Z.sgn (Qnum q) * M).
  assert (Sg : Z.sgn (Qnum q) * Z.sgn (Qnum q) = 1) by lia.
  assert (HMM : M = Z.sgn (Qnum q) * M') by (unfold M'; rewrite Z.mul_assoc, Sg; lia).
  assert (HM' : Z.abs M' < 2 ^ 53) by (unfold M'; rewrite Z.abs_mul; replace (Z.abs (Z.sgn (Qnum q))) with 1 by lia; lia).
  assert (G : forall Y, Z.abs (Qnum q * 2 ^ 1074 - d * (Z.sgn (Qnum q) * Y)) = Z.abs (n * 2 ^ 1074 - d * Y)).
  { intros Y. rewrite <- (sgn_scale (Qnum q)). rewrite abs_signed. destruct (Z.eqb_spec (Qnum q * 2 ^ 1074) 0) as [Q|Q]; [apply zero_scale in NZ; contradiction|].
    rewrite abs_scale. reflexivity. }
  destruct (round_best n d Hn Hd M' t HM' Ht) as (B1 & B2).
  rewrite HMM in *. rewrite <- !(Z.mul_assoc (Z.sgn (Qnum q))) in *. rewrite !G in *. split; [exact B1|].
  intros Ne Eq.
  assert (X : Z.abs (n * 2 ^ 1074 - d * (round_mant n d * 2 ^ round_exp n d)) = Z.abs (n * 2 ^ 1074 - d * (M' * 2 ^ t))).
  { apply ZQ_inj. rewrite <- D1, <- D2. f_equal. exact Eq. }
  assert (Conv : forall a, M' * 2 ^ t = a * 2 ^ round_exp n d -> (ZQ (Z.sgn (Qnum q) * M') * pow2 (t - 1074) = ZQ (Z.sgn (Qnum q) * a) * pow2 (round_exp n d - 1074))%Qc).
  { intros a Ea. apply (Qc_cancel _ _ (pow2 1074)); [apply pow2_nz|]. rewrite <- !Qcmult_assoc, <- !pow2_add.
    replace (t - 1074 + 1074) with t by lia. replace (round_exp n d - 1074 + 1074) with (round_exp n d) by lia.
    rewrite !pow2_pos by lia. rewrite <- !ZQ_mul. f_equal. rewrite <- !Z.mul_assoc. f_equal. exact Ea. }
  destruct B2 as (B2 & B3); [|exact X|].
  { intros Q. apply Ne. apply Conv. exact Q. }
  exists (Z.sgn (Qnum q) * round_mant n d), (round_exp n d - 1074). splits; auto.
  - rewrite Z.even_mul, B2. apply orb_true_r.
  - rewrite Z.abs_mul. replace (Z.abs (Z.sgn (Qnum q))) with 1 by lia. lia.
  - destruct (Z.lt_ge_cases (Qnum q) 0) as [N|N].
    + destruct B3 as [B3|B3]; apply Conv in B3; rewrite B3; [right|left]; rewrite (Z.sgn_neg (Qnum q)) by lia; do 2 f_equal; lia.
    + destruct B3 as [B3|B3]; apply Conv in B3; rewrite B3; [left|right]; rewrite (Z.sgn_pos (Qnum q)) by lia; do 2 f_equal; lia.
Qed.

Lemma rnd64_overflow q : rnd64 q = None <-> (ZQ (2 ^ 1024 - 2 ^ 970) <= Qcabs q)%Qc.
Proof.
  unfold rnd64. cbv zeta. set (d := Zpos (Qden q)). set (n := Z.abs (Qnum q)).
  assert (Hn : 0 <= n) by (unfold n; lia). assert (Hd : 0 < d) by (unfold d; lia).
  pose proof (round_overflow n d Hn Hd) as O.
  assert (E : d * (2 ^ 2098 - 2 ^ 2044) <= n * 2 ^ 1074 <-> (ZQ (2 ^ 1024 - 2 ^ 970) <= Qcabs q)%Qc).
  { rewrite <- (scaled_le _ _ (ZQ (d * 2 ^ 1074)) (scale_pos q)). 
    pose proof (scaled_distance q 0 0 ltac:(lia)) as D. replace (q - ZQ 0 * pow2 (0 - 1074))%Qc with q in D by (change (ZQ 0) with 0%Qc; ring).
    fold d in D. rewrite D. rewrite Z.mul_0_l, Z.mul_0_r, Z.sub_0_r, abs_scale. fold n. rewrite <- ZQ_mul, ZQ_le.
    replace ((2 ^ 1024 - 2 ^ 970) * (d * 2 ^ 1074)) with (d * ((2 ^ 1024 - 2 ^ 970) * 2 ^ 1074)) by ring.
    rewrite Z.mul_sub_distr_r, <- !Z.pow_add_r by lia. reflexivity. }
  rewrite <- E, <- O. destruct (Z.leb_spec (2 ^ 2098) (round_mant n d * 2 ^ round_exp n d)) as [H|H]; split; intros; auto; try discriminate.
  exfalso. revert H H0. generalize (2 ^ 2098). intros; lia.
Qed.

Lemma fits_below y : fits y -> (Qcabs y < ZQ (2 ^ 1024 - 2 ^ 970))%Qc.
Proof.
  intros (M & E & HM & HE & ->). rewrite Qcabs_Qcmult, Qcabs_ZQ.
  assert (P : (0 < pow2 E)%Qc).
  { unfold pow2. destruct (Z.ltb_spec E 0).
    - assert (K : (0 < ZQ (2 ^ (- E)))%Qc) by (change 0%Qc with (ZQ 0); apply ZQ_lt; apply Z.pow_pos_nonneg; lia).
      unfold Qcdiv. rewrite Qcmult_1_l. apply Qcnot_le_lt. intros C.
      apply (Qcmult_le_compat_r _ _ (ZQ (2 ^ (- E)))) in C; [|apply Qclt_le_weak; auto].
      rewrite Qcmult_comm, Qcmult_inv_r in C; [|intros Z; rewrite Z in K; discriminate K]. rewrite Qcmult_0_l in C. apply C. reflexivity.
    - change 0%Qc with (ZQ 0). apply ZQ_lt. apply Z.pow_pos_nonneg; lia. }
  rewrite (Qcabs_pos (pow2 E)) by (apply Qclt_le_weak; auto).
  apply Qcle_lt_trans with (y := (ZQ (2 ^ 53 - 1) * pow2 E)%Qc).
  - apply Qcmult_le_compat_r; [apply ZQ_le; lia|apply Qclt_le_weak; auto].
  - apply Qcle_lt_trans with (y := (ZQ (2 ^ 53 - 1) * ZQ (2 ^ 971))%Qc).
    + rewrite (Qcmult_comm (ZQ (2 ^ 53 - 1))), (Qcmult_comm (ZQ (2 ^ 53 - 1)) (ZQ (2 ^ 971))). apply Qcmult_le_compat_r; [|change 0%Qc with (ZQ 0); apply ZQ_le; lia].
      rewrite <- (pow2_pos 971) by lia. replace 971 with (E + (971 - E)) by lia. rewrite pow2_succ by lia.
      replace (pow2 E) with (ZQ 1 * pow2 E)%Qc at 1 by (change (ZQ 1) with 1%Qc; ring). rewrite (Qcmult_comm (pow2 E)).
      apply Qcmult_le_compat_r; [|apply Qclt_le_weak; auto]. apply ZQ_le. pose proof (Z.pow_pos_nonneg 2 (971 - E)). lia.
    + rewrite <- ZQ_mul. apply ZQ_lt. assert (A1 : 2 ^ 1024 = 2 ^ 53 * 2 ^ 971) by (rewrite <- Z.pow_add_r by lia; reflexivity).
      assert (A2 : 2 ^ 971 = 2 * 2 ^ 970) by (rewrite <- (Z.pow_add_r 2 1) by lia; reflexivity). rewrite A1, A2.
      assert (0 < 2 ^ 970) by (apply Z.pow_pos_nonneg; lia). revert H. generalize (2 ^ 970). intros; lia.
Qed.

Lemma rnd64_exact q : fits q -> rnd64 q = Some q.
Proof.
  intros F. destruct (rnd64 q) as [r|] eqn:E.
  - f_equal. destruct (rnd64_nearest q r q E F) as (D & _). replace (q - q)%Qc with 0%Qc in D by ring.
    rewrite (Qcabs_pos 0) in D by apply Qcle_refl. assert (Z : Qcabs (q - r)%Qc = 0%Qc) by (apply Qcle_antisym; auto; apply Qcabs_nonneg).
    assert (X : (q - r)%Qc = 0%Qc) by (revert Z; apply Qcabs_case; intros _ Z; auto; rewrite <- (Qcopp_involutive (q - r)), Z; reflexivity).
    replace r with (q - (q - r))%Qc by ring. rewrite X. ring.
  - apply rnd64_overflow in E. apply fits_below in F. exfalso. apply (Qclt_not_le _ _ F). auto.
Qed.
