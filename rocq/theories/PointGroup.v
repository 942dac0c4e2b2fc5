(** The order of a finite group of integer 3 x 3 matrices divides 48: facts for C102.  Nothing here models code. *)
From Coq Require Import List ZArith Lia Bool PeanoNat Permutation.
From Verif Require Import Cube CubeMC PointMC.
Import ListNotations.
Local Open Scope Z_scope.

Lemma cube_dec (a b : M3) : {a = b} + {a <> b}.
Proof. decide equality; apply Z.eq_dec. Defined.
(** the determinant times the matrix *)
Definition proper (a : M3) : M3 := comb (det3 a) a 0 one3 0 one3.
Lemma proper_mul a b : proper (mul3 a b) = mul3 (proper a) (proper b).
Proof. unfold proper. rewrite det_mul. generalize (det3 a), (det3 b). intros x y. cube. Qed.
Lemma proper_turn a : det3 a = 1 \/ det3 a = -1 -> minors a = det3 a * tr3 a -> turn (proper a).
Proof.
  intros D M. unfold turn, proper. assert (E1 : forall x, det3 (comb x a 0 one3 0 one3) = x * x * x * det3 a) by (intros x; cube).
  assert (E2 : forall x, minors (comb x a 0 one3 0 one3) = x * x * minors a) by (intros x; cube).
  rewrite E1, E2, tr_comb, M. destruct D as [-> | ->]; lia.
Qed.
Lemma proper_pow a p : det3 a = 1 \/ det3 a = -1 -> pow3 a p = one3 -> pow3 (proper a) (2 * p) = one3.
Proof.
  intros D Fin. rewrite <- pow3_mul. assert (E : pow3 (proper a) 2 = pow3 a 2).
  { rewrite !pow3_2. unfold proper. destruct D as [-> | ->]; clear; cube. }
  rewrite E, pow3_mul, Nat.mul_comm, <- pow3_mul, Fin. apply pow3_one.
Qed.
Lemma proper_one a : det3 a = 1 \/ det3 a = -1 -> proper a = one3 -> a = one3 \/ a = neg3 one3.
Proof.
  intros D E. destruct D as [D|D]; unfold proper in E; rewrite D in E; [left|right; unfold neg3]; rewrite <- E; clear; cube.
Qed.

Definition poly (t : Z) : Z := (t + 1) * (t * ((t - 1) * (t - 2))).
Lemma poly_sum {A} (f : A -> Z) l : Zsum (fun a => poly (f a)) l =
  Zsum (fun a => f a * (f a * (f a * f a))) l - 2 * Zsum (fun a => f a * (f a * f a)) l - Zsum (fun a => f a * f a) l + 2 * Zsum f l.
Proof. unfold Zsum, poly. induction l as [|x l IH]; [reflexivity|]. cbn [fold_right]. rewrite IH. clear IH. generalize (fold_right (fun a s => f a + s) 0 l). intros. ring. Qed.

Section Group.
  Variable l : list M3.
  Hypothesis ND : NoDup l.
  Hypothesis One : In one3 l.
  Hypothesis Mul : forall a b, In a l -> In b l -> In (mul3 a b) l.
  Hypothesis Fin : forall a, In a l -> exists p, (0 < p)%nat /\ pow3 a p = one3.

  Lemma left_perm a : In a l -> Permutation (map (mul3 a) l) l.
  Proof.
    intros Ha. destruct (Fin a Ha) as (p & Hp & Ep). apply NoDup_Permutation_bis.
    - assert (Inj : forall b c, mul3 a b = mul3 a c -> b = c).
      { intros b c E. apply (f_equal (mul3 (pow3 a (p - 1)))) in E. rewrite !mul3_assoc in E.
        assert (Y : mul3 (pow3 a (p - 1)) a = one3) by (rewrite <- Ep; replace p with (p - 1 + 1)%nat at 2 by lia; rewrite pow3_add; cbn [pow3]; rewrite mul3_1r; auto).
        rewrite Y, !mul3_1l in E. auto. }
      clear - ND Inj. induction ND as [|x k N ND' IH]; cbn [map]; constructor; auto. intros I. apply in_map_iff in I as (y & E & Hy). apply Inj in E. congruence.
    - rewrite map_length. auto.
    - intros x Hx. apply in_map_iff in Hx as (b & <- & Hb). auto.
  Qed.
  Lemma signs a : In a l -> (det3 a = 1 \/ det3 a = -1) /\ minors a = det3 a * tr3 a.
  Proof. intros Ha. destruct (Fin a Ha) as (p & Hp & Ep). apply (finite_signs a p); auto. apply same_trace; auto. Qed.
  Definition kernel : list M3 := filter (fun a => if cube_dec (proper a) one3 then true else false) l.
  Lemma poly_value a : In a l -> poly (tr3 (proper a)) = if cube_dec (proper a) one3 then 24 else 0.
  Proof.
    intros Ha. destruct (signs a Ha) as [D M]. destruct (Fin a Ha) as (p & Hp & Ep). pose proof (proper_turn a D M) as T. pose proof (proper_pow a p D Ep) as E2.
    assert (H2 : (0 < 2 * p)%nat) by lia. pose proof (trace_bound _ _ T H2 E2) as B. destruct (cube_dec (proper a) one3) as [E|N].
    - rewrite E. reflexivity.
    - assert (tr3 (proper a) <> 3) by (intros E; apply N; apply (unipotent _ _ T H2 E2 E)).
      assert (C : tr3 (proper a) = -1 \/ tr3 (proper a) = 0 \/ tr3 (proper a) = 1 \/ tr3 (proper a) = 2) by lia.
      destruct C as [-> |[-> |[-> | ->]]]; reflexivity.
  Qed.
  Lemma kernel_divides : Z.divide (Z.of_nat (length l)) (24 * Z.of_nat (length kernel)).
  Proof.
    assert (E : Zsum (fun a => poly (tr3 (proper a))) l = 24 * Z.of_nat (length kernel)).
    { assert (V := poly_value). unfold kernel. clear - V. revert V. induction l as [|x k IH]; intros V; [reflexivity|]. unfold Zsum in *. cbn [fold_right filter]. rewrite IH by (intros; apply V; simpl; auto).
      rewrite V by (simpl; auto). destruct (cube_dec (proper x) one3); cbn [length]; lia. }
    rewrite <- E, poly_sum. apply Z.divide_add_r; [apply Z.divide_sub_r; [apply Z.divide_sub_r|]|].
    - apply (divides_4 proper_mul left_perm).
    - apply Z.divide_mul_r. apply (divides_3 proper_mul left_perm).
    - apply (divides_2 proper_mul left_perm).
    - apply Z.divide_mul_r. apply (divides_1 proper_mul left_perm).
  Qed.
  Lemma kernel_length : (1 <= length kernel <= 2)%nat /\ (~ In (neg3 one3) l -> length kernel = 1%nat).
  Proof.
    assert (Nd : NoDup kernel) by (apply NoDup_filter, ND).
    assert (K1 : In one3 kernel) by (apply filter_In; split; auto; destruct (cube_dec (proper one3) one3) as [|N]; auto; exfalso; apply N; reflexivity).
    assert (Ks : forall a, In a kernel -> In a l /\ (a = one3 \/ a = neg3 one3)).
    { intros a Ha. apply filter_In in Ha as [Ha E]. split; auto. destruct (cube_dec (proper a) one3); [|discriminate]. apply proper_one; auto. apply signs; auto. }
    clear - Nd K1 Ks. split.
    - split; [destruct kernel; [destruct K1|cbn [length]; lia]|]. apply (NoDup_incl_length (l' := [one3; neg3 one3])); auto. intros a Ha. destruct (Ks a Ha) as [_ [-> | ->]]; simpl; auto.
    - intros N. assert (length kernel <= 1)%nat.
      { apply (NoDup_incl_length (l' := [one3])); auto. intros a Ha. destruct (Ks a Ha) as [Hl [-> | ->]]; simpl; auto. }
      destruct kernel; [destruct K1|cbn [length] in *; lia].
  Qed.
  Theorem order_48 : Nat.divide (length l) 48.
  Proof.
    destruct kernel_divides as [z Hz]. destruct kernel_length as [B _]. assert (C : length kernel = 1%nat \/ length kernel = 2%nat) by lia.
    assert (Z.divide (Z.of_nat (length l)) 48) as [w Hw] by (destruct C as [C|C]; rewrite C in Hz; [exists (2 * z)|exists z]; lia).
    exists (Z.to_nat w). assert (0 <= w) by nia. nia.
  Qed.
  Theorem order_24 : ~ In (neg3 one3) l -> Nat.divide (length l) 24.
  Proof.
    intros N. destruct kernel_divides as [z Hz]. destruct kernel_length as [_ B]. rewrite (B N) in Hz.
    exists (Z.to_nat z). assert (0 <= z) by nia. nia.
  Qed.
End Group.
