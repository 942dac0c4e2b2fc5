(** Finite groups of integer 2 x 2 matrices have order 1, 2, 3, 4, 6, 8 or 12: facts for C102.  Nothing here models code. *)
From Coq Require Import FinFun List ZArith Lia Bool PeanoNat Permutation.
From Verif Require Import Cube CubeMC PointMC PointGroup.
Import ListNotations.
Local Open Scope Z_scope.

(** the matrices that are padded with one 1 *)
Definition flat (a : M3) : Prop := e02 a = 0 /\ e12 a = 0 /\ e20 a = 0 /\ e21 a = 0 /\ e22 a = 1.
Lemma flat_ext a b : flat a -> flat b -> e00 a = e00 b -> e01 a = e01 b -> e10 a = e10 b -> e11 a = e11 b -> a = b.
Proof. intros (A1 & A2 & A3 & A4 & A5) (B1 & B2 & B3 & B4 & B5) H1 H2 H3 H4. destruct a as [a1 a2 a3 a4 a5 a6 a7 a8 a9], b as [b1 b2 b3 b4 b5 b6 b7 b8 b9]. cbn [e00 e01 e02 e10 e11 e12 e20 e21 e22] in *. congruence. Qed.

(** *** the invariant form *)
Definition fp (l : list M3) : Z := Zsum (fun a => e00 a * e00 a + e10 a * e10 a) l.
Definition fq (l : list M3) : Z := Zsum (fun a => e00 a * e01 a + e10 a * e11 a) l.
Definition fr (l : list M3) : Z := Zsum (fun a => e01 a * e01 a + e11 a * e11 a) l.
Lemma Zsum_perm {A} (f : A -> Z) l l' : Permutation l l' -> Zsum f l = Zsum f l'.
Proof. unfold Zsum. induction 1; cbn [fold_right]; lia. Qed.
Lemma Zsum_map {A B} (f : B -> Z) (h : A -> B) l : Zsum f (map h l) = Zsum (fun a => f (h a)) l.
Proof. unfold Zsum. induction l as [|x l IH]; cbn [map fold_right]; congruence. Qed.
Lemma form_at l u v : fp l * (u * u) + 2 * (fq l * (u * v)) + fr l * (v * v) =
  Zsum (fun a => (e00 a * u + e01 a * v) * (e00 a * u + e01 a * v) + (e10 a * u + e11 a * v) * (e10 a * u + e11 a * v)) l.
Proof. unfold fp, fq, fr, Zsum. induction l as [|a l IH]; cbn [fold_right]; [ring|]. rewrite <- IH. ring. Qed.
Lemma Zsum_ge {A} (f : A -> Z) l x : (forall a, 0 <= f a) -> In x l -> f x <= Zsum f l.
Proof.
  intros H. unfold Zsum. induction l as [|y l IH]; intros [].
  - subst. cbn [fold_right]. assert (0 <= fold_right (fun a s => f a + s) 0 l); [|lia]. clear IH. induction l as [|z l IH]; cbn [fold_right]; [lia|]. specialize (H z). lia.
  - cbn [fold_right]. specialize (IH H0). specialize (H y). lia.
Qed.

Section Group.
  Variable l : list M3.
  Hypothesis ND : NoDup l.
  Hypothesis One : In one3 l.
  Hypothesis Mul : forall a b, In a l -> In b l -> In (mul3 a b) l.
  Hypothesis Fin : forall a, In a l -> exists p, (0 < p)%nat /\ pow3 a p = one3.
  Hypothesis Fl : forall a, In a l -> flat a.

  Lemma form_pos u v : u <> 0 \/ v <> 0 -> 0 < fp l * (u * u) + 2 * (fq l * (u * v)) + fr l * (v * v).
  Proof.
    intros H. rewrite form_at. pose proof (Zsum_ge (fun a => (e00 a * u + e01 a * v) * (e00 a * u + e01 a * v) + (e10 a * u + e11 a * v) * (e10 a * u + e11 a * v)) l one3) as G.
    cbn beta in G. assert (X : 0 < (e00 one3 * u + e01 one3 * v) * (e00 one3 * u + e01 one3 * v) + (e10 one3 * u + e11 one3 * v) * (e10 one3 * u + e11 one3 * v)).
    { unfold one3. cbn [e00 e01 e10 e11]. destruct H; nia. }
    eapply Z.lt_le_trans; [exact X|]. apply G; auto. intros a. pose proof (Z.square_nonneg (e00 a * u + e01 a * v)). pose proof (Z.square_nonneg (e10 a * u + e11 a * v)). lia.
  Qed.
  Lemma right_perm a : In a l -> Permutation (map (fun b => mul3 b a) l) l.
  Proof.
    intros Ha. destruct (Fin a Ha) as (p & Hp & Ep). apply NoDup_Permutation_bis.
    - assert (Inj : forall b c, mul3 b a = mul3 c a -> b = c).
      { intros b c E. apply (f_equal (fun x => mul3 x (pow3 a (p - 1)))) in E. rewrite <- !mul3_assoc in E.
        assert (Y : mul3 a (pow3 a (p - 1)) = one3) by (rewrite <- Ep; replace p with (S (p - 1)) at 2 by lia; auto).
        rewrite Y, !mul3_1r in E. auto. }
      clear - ND Inj. induction ND as [|x k N ND' IH]; cbn [map]; constructor; auto. intros I. apply in_map_iff in I as (y & E & Hy). apply Inj in E. congruence.
    - rewrite map_length. auto.
    - intros x Hx. apply in_map_iff in Hx as (b & <- & Hb). auto.
  Qed.
  (** the form is invariant *)
  Lemma form_inv a : In a l -> forall u v, let u' := e00 a * u + e01 a * v in let v' := e10 a * u + e11 a * v in
    fp l * (u' * u') + 2 * (fq l * (u' * v')) + fr l * (v' * v') = fp l * (u * u) + 2 * (fq l * (u * v)) + fr l * (v * v).
  Proof.
    intros Ha u v u' v'. rewrite !form_at. etransitivity; [|apply (Zsum_perm (fun a0 => (e00 a0 * u + e01 a0 * v) * (e00 a0 * u + e01 a0 * v) + (e10 a0 * u + e11 a0 * v) * (e10 a0 * u + e11 a0 * v)) _ _ (right_perm a Ha))]. rewrite Zsum_map.
    assert (G : forall k, incl k l -> Zsum (fun a0 => (e00 a0 * u' + e01 a0 * v') * (e00 a0 * u' + e01 a0 * v') + (e10 a0 * u' + e11 a0 * v') * (e10 a0 * u' + e11 a0 * v')) k =
      Zsum (fun a0 => (e00 (mul3 a0 a) * u + e01 (mul3 a0 a) * v) * (e00 (mul3 a0 a) * u + e01 (mul3 a0 a) * v) + (e10 (mul3 a0 a) * u + e11 (mul3 a0 a) * v) * (e10 (mul3 a0 a) * u + e11 (mul3 a0 a) * v)) k).
    { induction k as [|b k IH]; intros I; [reflexivity|]. unfold Zsum in *. cbn [fold_right]. rewrite IH by (intros x Hx; apply I; simpl; auto). f_equal.
      destruct (Fl a Ha) as (A1 & A2 & A3 & A4 & A5), (Fl b (I b (or_introl eq_refl))) as (B1 & B2 & B3 & B4 & B5). unfold mul3. cbn [e00 e01 e10 e11]. rewrite B1, B2. unfold u', v'. ring. }
    apply G, incl_refl.
  Qed.
  (** what a matrix of determinant 1 in the group looks like *)
  Lemma shape a : In a l -> det3 a = 1 -> fr l * e10 a = - (fp l * e01 a) /\ fp l * (e00 a - e11 a) = - (2 * (fq l * e10 a)).
  Proof.
    intros Ha D. pose proof (form_inv a Ha) as I. cbn zeta in I. destruct (Fl a Ha) as (A1 & A2 & A3 & A4 & A5). unfold det3 in D. rewrite A1, A2, A3, A4, A5 in D.
    pose proof (I 1 0) as I1. pose proof (I 0 1) as I2. pose proof (I 1 1) as I3. revert I1 I2 I3 D. generalize (e00 a), (e01 a), (e10 a), (e11 a), (fp l), (fq l), (fr l). clear. intros x y z w p q r I1 I2 I3 D.
    assert (D' : x * w - y * z = 1) by lia. clear D.
    (* the columns: E1 p = p x^2 + 2q x z + r z^2, E2 r = p y^2 + 2 q y w + r w^2, E3 q = p x y + q (x w + y z) + r z w *)
    assert (E1 : p * (x * x) + 2 * (q * (x * z)) + r * (z * z) = p) by lia.
    assert (E2 : p * (y * y) + 2 * (q * (y * w)) + r * (w * w) = r) by lia.
    assert (E3 : p * (x * y) + q * (x * w + y * z) + r * (z * w) = q) by lia.
    (* S a = (transposed inverse of a) S *)
    assert (F1 : p * x + q * z = p * w - q * z).
    { transitivity (w * (p * (x * x) + 2 * (q * (x * z)) + r * (z * z)) - z * (p * (x * y) + q * (x * w + y * z) + r * (z * w))).
      - transitivity ((p * x + q * z) * (x * w - y * z)); [rewrite D'; ring|ring].
      - rewrite E1, E3. ring. }
    assert (F2 : q * x + r * z = q * x - p * y).
    { transitivity (x * (p * (x * y) + q * (x * w + y * z) + r * (z * w)) - y * (p * (x * x) + 2 * (q * (x * z)) + r * (z * z))).
      - transitivity ((q * x + r * z) * (x * w - y * z)); [rewrite D'; ring|ring].
      - rewrite E1, E3. ring. }
    split; lia.
  Qed.
  Lemma height a : In a l -> det3 a = 1 -> 4 * (e10 a * e10 a) * (fp l * fr l - fq l * fq l) = fp l * fp l * (4 - (tr3 a - 1) * (tr3 a - 1)).
  Proof.
    intros Ha D. destruct (shape a Ha D) as [H1 H2]. destruct (Fl a Ha) as (A1 & A2 & A3 & A4 & A5). unfold det3 in D. unfold tr3. rewrite A1, A2, A3, A4, A5 in *.
    revert H1 H2 D. generalize (e00 a), (e01 a), (e10 a), (e11 a), (fp l), (fq l), (fr l). clear. intros x y z w p q r H1 H2 D.
    assert (D' : x * w = 1 + y * z) by lia. replace (x + w + 1 - 1) with (x + w) by lia.
    assert (E : (x + w) * (x + w) = (x - w) * (x - w) + 4 * (x * w)) by ring. rewrite E, D'.
    transitivity (- (2 * (q * z)) * (2 * (q * z)) + 4 * p * z * (r * z)); [ring|]. rewrite H1.
    transitivity (- (p * (x - w)) * (p * (x - w)) - 4 * p * z * (p * y)); [rewrite H2; ring|ring].
  Qed.
  Lemma fp_pos : 0 < fp l. Proof. pose proof (form_pos 1 0). lia. Qed.
  Lemma disc_pos : 0 < fp l * fr l - fq l * fq l.
  Proof. pose proof fp_pos as Hp. pose proof (form_pos (fq l) (- fp l)) as H. assert (0 < fp l * (fp l * fr l - fq l * fq l)) by nia. nia. Qed.
  (** a rotation is determined by its trace and the sign of one entry *)
  Lemma same_height a b : In a l -> In b l -> det3 a = 1 -> det3 b = 1 -> tr3 a = tr3 b -> e10 a = e10 b -> a = b.
  Proof.
    intros Ha Hb Da Db T H. destruct (shape a Ha Da) as [A1 A2], (shape b Hb Db) as [B1 B2]. pose proof fp_pos as Hp. rewrite H in A1, A2.
    assert (E1 : e01 a = e01 b) by nia. assert (E2 : e00 a - e11 a = e00 b - e11 b) by nia.
    destruct (Fl a Ha) as (P1 & P2 & P3 & P4 & P5), (Fl b Hb) as (Q1 & Q2 & Q3 & Q4 & Q5). unfold tr3 in T. rewrite P5, Q5 in T. apply flat_ext; auto; try lia.
  Qed.
  Definition adj (a : M3) : M3 := mkM3 (e11 a) (- e01 a) 0 (- e10 a) (e00 a) 0 0 0 1.
  Lemma opposite_height a b : In a l -> In b l -> det3 a = 1 -> det3 b = 1 -> tr3 a = tr3 b -> e10 b = - e10 a -> b = adj a.
  Proof.
    intros Ha Hb Da Db T H. destruct (shape a Ha Da) as [A1 A2], (shape b Hb Db) as [B1 B2]. pose proof fp_pos as Hp. rewrite H in B1, B2.
    assert (E1 : e01 b = - e01 a) by nia. assert (E2 : e00 b - e11 b = - (e00 a - e11 a)) by nia.
    destruct (Fl a Ha) as (P1 & P2 & P3 & P4 & P5). unfold tr3 in T. destruct (Fl b Hb) as (Q1 & Q2 & Q3 & Q4 & Q5). rewrite P5, Q5 in T. apply flat_ext; unfold adj; cbn [e00 e01 e10 e11]; auto; try lia.
    unfold flat. cbn [e02 e12 e20 e21 e22]. auto 6.
  Qed.
  Lemma heights a b : In a l -> In b l -> det3 a = 1 -> det3 b = 1 -> tr3 a = tr3 b -> e10 b = e10 a \/ e10 b = - e10 a.
  Proof.
    intros Ha Hb Da Db T. pose proof (height a Ha Da) as A. pose proof (height b Hb Db) as B. rewrite T, <- B in A. pose proof disc_pos as Hd.
    assert (E : e10 a * e10 a = e10 b * e10 b) by nia. assert (X : (e10 b - e10 a) * (e10 b + e10 a) = 0) by lia. apply Z.mul_eq_0 in X. lia.
  Qed.

  (** *** counting rotations by their trace *)
  Definition rotations : list M3 := filter (fun a => det3 a =? 1) l.
  Definition with_trace (t : Z) : list M3 := filter (fun a => tr3 a =? t) rotations.
  Lemma in_rotations a : In a rotations <-> In a l /\ det3 a = 1.
  Proof. unfold rotations. rewrite filter_In, Z.eqb_eq. reflexivity. Qed.
  Lemma in_trace t a : In a (with_trace t) <-> In a l /\ det3 a = 1 /\ tr3 a = t.
  Proof. unfold with_trace. rewrite filter_In, in_rotations, Z.eqb_eq. tauto. Qed.
  Lemma trace_NoDup t : NoDup (with_trace t). Proof. apply NoDup_filter, NoDup_filter, ND. Qed.
  Lemma at_most_two t : (length (with_trace t) <= 2)%nat.
  Proof.
    destruct (with_trace t) as [|a k] eqn:E; [cbn [length]; lia|]. rewrite <- E. assert (Ha : In a (with_trace t)) by (rewrite E; simpl; auto). apply in_trace in Ha as (Ha & Da & Ta).
    apply (NoDup_incl_length (l' := [a; adj a])); [apply trace_NoDup|]. intros b Hb. apply in_trace in Hb as (Hb & Db & Tb). assert (T : tr3 a = tr3 b) by congruence.
    destruct (heights a b Ha Hb Da Db T) as [H|H]; [left|right; left]; [apply same_height; auto|symmetry; apply opposite_height; auto].
  Qed.
  Lemma at_most_one t : (t - 1) * (t - 1) = 4 -> (length (with_trace t) <= 1)%nat.
  Proof.
    intros T4. destruct (with_trace t) as [|a k] eqn:E; [cbn [length]; lia|]. rewrite <- E. assert (Ha : In a (with_trace t)) by (rewrite E; simpl; auto). apply in_trace in Ha as (Ha & Da & Ta).
    assert (Z0 : forall b, In b l -> det3 b = 1 -> tr3 b = t -> e10 b = 0).
    { intros b Hb Db Tb. pose proof (height b Hb Db) as H. rewrite Tb, T4 in H. pose proof disc_pos as Hd. assert (X : e10 b * e10 b = 0) by nia. apply Z.mul_eq_0 in X. lia. }
    apply (NoDup_incl_length (l' := [a])); [apply trace_NoDup|]. intros b Hb. apply in_trace in Hb as (Hb & Db & Tb). left. apply same_height; auto; [congruence|]. rewrite !Z0; auto.
  Qed.
  Lemma rotations_turn a : In a rotations -> turn a /\ -1 <= tr3 a <= 3.
  Proof.
    intros Ha. apply in_rotations in Ha as [Ha D]. destruct (signs l Fin a Ha) as [_ M]. rewrite D, Z.mul_1_l in M. pose proof (conj D M : turn a) as T. split; auto.
    destruct (Fin a Ha) as (p & Hp & Ep). apply (trace_bound a p T Hp Ep).
  Qed.
  Lemma counts k : (forall a, In a k -> -1 <= tr3 a <= 3) -> let c t := Z.of_nat (length (filter (fun a => tr3 a =? t) k)) in
    Z.of_nat (length k) = c (-1) + c 0 + c 1 + c 2 + c 3 /\ Zsum tr3 k = c 1 + 2 * c 2 + 3 * c 3 - c (-1) /\ Zsum (fun a => tr3 a * tr3 a) k = c (-1) + c 1 + 4 * c 2 + 9 * c 3.
  Proof.
    cbn zeta. unfold Zsum. induction k as [|a k IH]; intros H; [cbn; auto|]. destruct IH as (H1 & H2 & H3); [intros; apply H; simpl; auto|].
    cbn [length filter fold_right]. rewrite H2, H3. assert (B := H a (or_introl eq_refl)). assert (C : tr3 a = -1 \/ tr3 a = 0 \/ tr3 a = 1 \/ tr3 a = 2 \/ tr3 a = 3) by lia.
    destruct C as [-> |[-> |[-> |[-> | ->]]]]; cbn [Z.eqb Pos.eqb length]; lia.
  Qed.
  Lemma rotations_order : (length rotations <= 6)%nat.
  Proof.
    assert (G1 : NoDup rotations) by (apply NoDup_filter, ND). assert (G2 : In one3 rotations) by (apply in_rotations; auto).
    assert (G3 : forall a b, In a rotations -> In b rotations -> In (mul3 a b) rotations) by (intros a b Ha Hb; apply in_rotations in Ha, Hb; apply in_rotations; split; [apply Mul; tauto|rewrite det_mul; destruct Ha as [_ ->], Hb as [_ ->]; reflexivity]).
    assert (G4 : forall a, In a rotations -> exists p, (0 < p)%nat /\ pow3 a p = one3) by (intros a Ha; apply Fin, in_rotations, Ha).
    assert (O : Nat.divide (length rotations) 24).
    { apply order_24; auto. intros I. apply in_rotations in I as [I _]. destruct (Fl _ I) as (_ & _ & _ & _ & X). discriminate X. }
    pose proof (left_perm rotations G1 G3 G4) as Lp. pose proof (divides_1 (s := fun a => a) (fun a b => eq_refl) Lp) as D1. pose proof (divides_2 (s := fun a => a) (fun a b => eq_refl) Lp) as D2.
    destruct (counts rotations (fun a Ha => proj2 (rotations_turn a Ha))) as (E1 & E2 & E3). cbn zeta in *. fold (with_trace (-1)) (with_trace 0) (with_trace 1) (with_trace 2) (with_trace 3) in *.
    pose proof (at_most_one (-1) eq_refl) as B1. pose proof (at_most_one 3 eq_refl) as B2. pose proof (at_most_two 0) as B3. pose proof (at_most_two 1) as B4. pose proof (at_most_two 2) as B5.
    cbn beta in D1, D2. change (fun a : M3 => tr3 a) with tr3 in D1. rewrite E2 in D1. rewrite E3 in D2. destruct O as [q Hq].
    revert E1 D1 D2 B1 B2 B3 B4 B5 Hq. clear. generalize (length rotations), (length (with_trace (-1))), (length (with_trace 0)), (length (with_trace 1)), (length (with_trace 2)), (length (with_trace 3)).
    intros n c c0 c1 c2 c3 E1 [x Hx] [y Hy] B1 B2 B3 B4 B5 Hq. destruct (Nat.le_gt_cases n 6) as [L|L]; auto. exfalso.
    assert (n = 7 \/ n = 8)%nat as [-> | ->] by lia; [lia|].
    assert (c = 1 /\ c3 = 1 /\ c0 = 2 /\ c1 = 2 /\ c2 = 2)%nat as (-> & -> & -> & -> & ->) by lia. lia.
  Qed.
  Theorem flat_order : In (length l) [1; 2; 3; 4; 6; 8; 12]%nat.
  Proof.
    assert (O : Nat.divide (length l) 24).
    { apply order_24; auto. intros I. destruct (Fl _ I) as (_ & _ & _ & _ & X). discriminate X. }
    pose proof rotations_order as R.
    assert (H : (length l <= 2 * length rotations)%nat).
    { set (others := filter (fun a => negb (det3 a =? 1)) l). assert (Sp : (length l = length rotations + length others)%nat) by (unfold others, rotations; clear; induction l as [|x k IH]; [reflexivity|]; cbn [filter]; destruct (det3 x =? 1); cbn [negb length]; lia).
      destruct others as [|b k] eqn:Eo; [cbn [length] in Sp; lia|]. rewrite <- Eo in Sp.
      assert (Io : forall a, In a others -> In a l /\ det3 a = -1).
      { intros a Ha. apply filter_In in Ha as [Ha N]. split; auto. destruct (signs l Fin a Ha) as [[D|D] _]; auto. rewrite D in N. discriminate. }
      assert (Hb : In b others) by (rewrite Eo; simpl; auto). destruct (Io b Hb) as [Hb' Db].
      assert (length (map (mul3 b) others) <= length rotations)%nat.
      { apply NoDup_incl_length.
        - apply FinFun.Injective_map_NoDup; [|apply NoDup_filter, ND]. destruct (Fin b Hb') as (p & Hp & Ep). intros x y E. apply (f_equal (mul3 (pow3 b (p - 1)))) in E. rewrite !mul3_assoc in E.
          assert (Y : mul3 (pow3 b (p - 1)) b = one3) by (rewrite <- Ep; replace p with (p - 1 + 1)%nat at 2 by lia; rewrite pow3_add; cbn [pow3]; rewrite mul3_1r; auto).
          rewrite Y, !mul3_1l in E. auto.
        - intros x Hx. apply in_map_iff in Hx as (a & <- & Ha). destruct (Io a Ha) as [Ha' Da]. apply in_rotations. split; auto. rewrite det_mul, Db, Da. reflexivity. }
      rewrite map_length in H. lia. }
    assert (L : (length l <= 12)%nat) by lia. destruct O as [q Hq]. revert L Hq. generalize (length l). intros n L Hq.
    assert (n = 0 \/ n = 1 \/ n = 2 \/ n = 3 \/ n = 4 \/ n = 5 \/ n = 6 \/ n = 7 \/ n = 8 \/ n = 9 \/ n = 10 \/ n = 11 \/ n = 12)%nat as C by lia.
    repeat (destruct C as [-> |C]; [simpl; first [lia|auto 10]|]). subst n. simpl. auto 10.
  Qed.
End Group.
