(** Sums, products and determinants of matrices of f64 that are computed without rounding errors. *)
From Coq Require Import List ZArith Lia Bool PeanoNat.
From Coq Require Import QArith Qcanon.
From Coq Require Import Floats.SpecFloat.
From Verif Require Import Base Vec Elim Scalars Matrix LinAlg ZQ F64 F64Shape F64Solve F64Exact.
Import ListNotations.
Close Scope Q_scope. Close Scope Qc_scope.
Local Open Scope Z_scope.

Lemma fits_int z E : Z.abs z < 2 ^ 53 -> -1074 <= E <= 971 -> fits (ZQ z * pow2 E)%Qc.
Proof. intros. exists z, E. auto. Qed.

Definition isv (x : float) (z E : Z) : Prop := is_value x (ZQ z * pow2 E)%Qc.

Lemma isv_add x y a b E : -1074 <= E <= 971 -> Z.abs (a + b) < 2 ^ 53 -> isv x a E -> isv y b E -> isv (f_add x y) (a + b) E.
Proof.
  unfold isv. intros HE H Hx Hy. assert (Q : (ZQ (a + b) * pow2 E = ZQ a * pow2 E + ZQ b * pow2 E)%Qc) by (rewrite ZQ_add; ring).
  rewrite Q. apply add_exact; auto. rewrite <- Q. apply fits_int; auto.
Qed.

Lemma isv_sub x y a b E : -1074 <= E <= 971 -> Z.abs (a - b) < 2 ^ 53 -> isv x a E -> isv y b E -> isv (f_sub x y) (a - b) E.
Proof.
  unfold isv. intros HE H Hx Hy. assert (Q : (ZQ (a - b) * pow2 E = ZQ a * pow2 E - ZQ b * pow2 E)%Qc) by (rewrite ZQ_sub; ring).
  rewrite Q. apply sub_exact; auto. rewrite <- Q. apply fits_int; auto.
Qed.

Lemma isv_mul x y a b E F : -1074 <= E + F <= 971 -> Z.abs (a * b) < 2 ^ 53 -> isv x a E -> isv y b F -> isv (f_mul x y) (a * b) (E + F).
Proof.
  unfold isv. intros HE H Hx Hy. assert (Q : (ZQ (a * b) * pow2 (E + F) = (ZQ a * pow2 E) * (ZQ b * pow2 F))%Qc) by (rewrite ZQ_mul, pow2_add; ring).
  rewrite Q. apply mul_exact; auto. rewrite <- Q. apply fits_int; auto.
Qed.

Lemma isv_zero E : isv f_zero 0 E.
Proof. split; [reflexivity|]. cbn [value f_zero]. f_equal. rewrite ZQ_0. ring. Qed.

Lemma abs_mul_le a b A B : Z.abs a <= A -> Z.abs b <= B -> Z.abs (a * b) <= A * B.
Proof. intros. rewrite Z.abs_mul. apply Z.mul_le_mono_nonneg; lia. Qed.

(** a sum of products *)
Lemma isv_sum n (x y : nat -> float) (a b : nat -> Z) E F A B :
  -1074 <= E + F <= 971 -> Z.of_nat n * (A * B) < 2 ^ 53 ->
  (forall l, (l < n)%nat -> isv (x l) (a l) E /\ isv (y l) (b l) F /\ Z.abs (a l) <= A /\ Z.abs (b l) <= B) ->
  isv (sumf n (fun l => rmul (x l) (y l))) (sumf n (fun l => rmul (a l) (b l))) (E + F) /\
  Z.abs (sumf n (fun l => rmul (a l) (b l))) <= Z.of_nat n * (A * B).
Proof.
  intros HE. induction n as [|n IH]; intros Hn H.
  - split; [apply isv_zero|]. simpl. lia.
  - assert (HAB : 0 <= A * B) by (destruct (H O) as (_ & _ & A1 & B1); [lia|]; apply Z.mul_nonneg_nonneg; lia).
    destruct IH as (I1 & I2); [lia|intros; apply H; lia|].
    destruct (H n) as (Hx & Hy & Ha & Hb); [lia|].
    pose proof (abs_mul_le _ _ _ _ Ha Hb) as Hp.
    cbn [sumf]. set (s := sumf n (fun l => rmul (a l) (b l))) in *.
    assert (Hs : Z.abs (s + a n * b n) <= Z.of_nat (S n) * (A * B)).
    { replace (Z.of_nat (S n) * (A * B)) with (Z.of_nat n * (A * B) + A * B) by lia.
      pose proof (Z.abs_triangle s (a n * b n)). lia. }
    split; [|exact Hs].
    change (radd s (rmul (a n) (b n))) with (s + a n * b n).
    apply isv_add; auto; try lia.
    apply isv_mul; auto. assert (A * B <= Z.of_nat (S n) * (A * B)) by nia. lia.
Qed.

(** products of matrices *)
Lemma mat_mul_exact m n k (f g : nat -> nat -> float) (u w : nat -> nat -> Z) E F A B :
  (0 < k)%nat -> -1074 <= E + F <= 971 -> Z.of_nat n * (A * B) < 2 ^ 53 ->
  (forall i l, (i < m)%nat -> (l < n)%nat -> isv (f i l) (u i l) E /\ Z.abs (u i l) <= A) ->
  (forall l j, (l < n)%nat -> (j < k)%nat -> isv (g l j) (w l j) F /\ Z.abs (w l j) <= B) ->
  exists h, mat_mul (mk m n f) (mk n k g) = Ret (mk m k h) /\
    forall i j, (i < m)%nat -> (j < k)%nat -> isv (h i j) (sumf n (fun l => u i l * w l j)) (E + F).
Proof.
  intros Hk HE Hn Hf Hg. eexists. split; [apply mat_mul_mk; auto|].
  intros i j Hi Hj. cbn beta. apply (isv_sum n (fun l => f i l) (fun l => g l j) (fun l => u i l) (fun l => w l j) E F A B); auto.
  intros l Hl. destruct (Hf i l) as (? & ?); auto. destruct (Hg l j) as (? & ?); auto.
Qed.

Lemma mat_add_exact m n (f g : nat -> nat -> float) (u w : nat -> nat -> Z) E :
  -1074 <= E <= 971 ->
  (forall i j, (i < m)%nat -> (j < n)%nat -> isv (f i j) (u i j) E /\ isv (g i j) (w i j) E /\ Z.abs (u i j + w i j) < 2 ^ 53) ->
  exists h, mat_add (mk m n f) (mk m n g) = Ret (mk m n h) /\
    forall i j, (i < m)%nat -> (j < n)%nat -> isv (h i j) (u i j + w i j) E.
Proof.
  intros HE H. eexists. split; [apply mat_zip_mk|]. intros i j Hi Hj. cbn beta.
  destruct (H i j Hi Hj) as (H1 & H2 & H3). apply isv_add; auto.
Qed.

Lemma mat_sub_exact m n (f g : nat -> nat -> float) (u w : nat -> nat -> Z) E :
  -1074 <= E <= 971 ->
  (forall i j, (i < m)%nat -> (j < n)%nat -> isv (f i j) (u i j) E /\ isv (g i j) (w i j) E /\ Z.abs (u i j - w i j) < 2 ^ 53) ->
  exists h, mat_sub (mk m n f) (mk m n g) = Ret (mk m n h) /\
    forall i j, (i < m)%nat -> (j < n)%nat -> isv (h i j) (u i j - w i j) E.
Proof.
  intros HE H. eexists. split; [apply mat_zip_mk|]. intros i j Hi Hj. cbn beta.
  destruct (H i j Hi Hj) as (H1 & H2 & H3). apply isv_sub; auto.
Qed.

(** determinants of size up to 3 *)
Lemma abs_mul3 a b c B : Z.abs a <= B -> Z.abs b <= B -> Z.abs c <= B -> Z.abs (a * b) <= B * B /\ Z.abs (a * b * c) <= B * B * B.
Proof. intros. split; [apply abs_mul_le; auto|]. apply abs_mul_le; auto. apply abs_mul_le; auto. Qed.

Lemma determinant_exact n (f : nat -> nat -> float) (u : nat -> nat -> Z) E B :
  (n <= 3)%nat -> -1074 <= Z.of_nat n * E <= 971 -> -1074 <= 2 * E <= 971 -> -1074 <= E <= 971 -> 6 * B ^ 3 < 2 ^ 53 ->
  (forall i j, (i < n)%nat -> (j < n)%nat -> isv (f i j) (u i j) E /\ Z.abs (u i j) <= B) ->
  exists x d, determinant (mk n n f) = Ret x /\ determinant (mk n n u) = Ret d /\ isv x d (Z.of_nat n * E).
Proof.
  intros Hn HE H2E HE1 HB H. unfold determinant. cbn [nrows ncols mk]. rewrite Nat.eqb_refl. cbn [assert bind].
  assert (HB3 : B ^ 3 = B * B * B) by ring.
  assert (K : forall p, 0 <= B -> p <= B * B -> p < 2 ^ 53).
  { intros p B0 Hp. destruct (Z.eq_dec B 0) as [->|]; [lia|]. assert (B * B <= B * B * B) by nia. nia. }
  destruct n as [|[|[|[|n]]]]; [| | | |lia].
  - exists f_one, 1. splits; auto. simpl. split; [reflexivity|]. vm_compute. f_equal. apply Qc_is_canon. reflexivity.
  - rewrite !index_mk by lia. exists (f O O), (u O O). splits; auto. change (Z.of_nat 1 * E) with (1 * E). rewrite Z.mul_1_l. apply H; lia.
  - rewrite !index_mk by lia. cbn [bind].
    destruct (H 0 0)%nat as (X00 & B00); try lia. destruct (H 0 1)%nat as (X01 & B01); try lia.
    destruct (H 1 0)%nat as (X10 & B10); try lia. destruct (H 1 1)%nat as (X11 & B11); try lia.
    assert (B0 : 0 <= B) by lia.
    assert (HBB : 2 * (B * B) < 2 ^ 53).
    { destruct (Z.eq_dec B 0) as [->|]; [lia|]. assert (B * B <= B * B * B) by nia. nia. }
    do 2 eexists. split; [reflexivity|]. split; [reflexivity|].
    pose proof (abs_mul_le _ _ _ _ B00 B11). pose proof (abs_mul_le _ _ _ _ B01 B10).
    change (Z.of_nat 2 * E) with (2 * E) in *. replace (2 * E) with (E + E) in * by lia.
    apply isv_sub; auto; simpl rmul; [lia| |]; apply isv_mul; auto; apply K; auto.
  - rewrite !index_mk by lia. cbn [bind].
    destruct (H 0 0)%nat as (X00 & B00); try lia. destruct (H 0 1)%nat as (X01 & B01); try lia. destruct (H 0 2)%nat as (X02 & B02); try lia.
    destruct (H 1 0)%nat as (X10 & B10); try lia. destruct (H 1 1)%nat as (X11 & B11); try lia. destruct (H 1 2)%nat as (X12 & B12); try lia.
    destruct (H 2 0)%nat as (X20 & B20); try lia. destruct (H 2 1)%nat as (X21 & B21); try lia. destruct (H 2 2)%nat as (X22 & B22); try lia.
    assert (B0 : 0 <= B) by (clear -B00; lia). clear H.
    do 2 eexists. split; [reflexivity|]. split; [reflexivity|].
    change (Z.of_nat 3 * E) with (3 * E) in *. replace (3 * E) with ((E + E) + E) in * by lia. replace (2 * E) with (E + E) in * by lia.
    set (C := B * B * B) in *. rewrite HB3 in HB.
    assert (HC : 0 <= C) by (unfold C; repeat apply Z.mul_nonneg_nonneg; auto).
    assert (KC : forall t, Z.abs t <= C -> Z.abs t < 2 ^ 53) by (clear -HB HC; intros; lia).
    assert (T : forall x y z a b c, isv x a E -> isv y b E -> isv z c E -> Z.abs a <= B -> Z.abs b <= B -> Z.abs c <= B ->
      isv (f_mul (f_mul x y) z) (a * b * c) (E + E + E) /\ Z.abs (a * b * c) <= C).
    { intros x y z a b c Hx Hy Hz Ha Hb Hc. destruct (abs_mul3 a b c B Ha Hb Hc) as (P & Q). split; [|exact Q].
      apply isv_mul; auto. apply isv_mul; auto. }
    pose proof (T _ _ _ _ _ _ X00 X11 X22 B00 B11 B22) as (T1 & Q1). pose proof (T _ _ _ _ _ _ X01 X12 X20 B01 B12 B20) as (T2 & Q2).
    pose proof (T _ _ _ _ _ _ X02 X10 X21 B02 B10 B21) as (T3 & Q3). pose proof (T _ _ _ _ _ _ X02 X11 X20 B02 B11 B20) as (T4 & Q4).
    pose proof (T _ _ _ _ _ _ X00 X12 X21 B00 B12 B21) as (T5 & Q5). pose proof (T _ _ _ _ _ _ X01 X10 X22 B01 B10 B22) as (T6 & Q6).
    clear T X00 X01 X02 X10 X11 X12 X20 X21 X22 B00 B01 B02 B10 B11 B12 B20 B21 B22 K KC HB3.
    cbn [rmul radd rsub Z_dom float_dom].
    set (t1 := u 0%nat 0%nat * u 1%nat 1%nat * u 2%nat 2%nat) in *. set (t2 := u 0%nat 1%nat * u 1%nat 2%nat * u 2%nat 0%nat) in *.
    set (t3 := u 0%nat 2%nat * u 1%nat 0%nat * u 2%nat 1%nat) in *. set (t4 := u 0%nat 2%nat * u 1%nat 1%nat * u 2%nat 0%nat) in *.
    set (t5 := u 0%nat 0%nat * u 1%nat 2%nat * u 2%nat 1%nat) in *. set (t6 := u 0%nat 1%nat * u 1%nat 0%nat * u 2%nat 2%nat) in *.
    clearbody t1 t2 t3 t4 t5 t6 C.
    repeat (first [apply isv_sub; [exact HE|lia| |assumption] | apply isv_add; [exact HE|lia| |assumption]]). assumption.
Qed.

(** ** triangular matrices *)
Lemma isz_value x q : is_value x q -> (isz x = true <-> q = 0%Qc).
Proof. intros V. unfold isz. apply eqb_value; auto. split; reflexivity. Qed.

Lemma pivot_triangular n (f : nat -> nat -> float) i : (i < n)%nat ->
  (forall j, (j < i)%nat -> isz (f i j) = true) -> isz (f i i) = false -> pivot (frow n f i) = Some i.
Proof.
  intros Hi Z N. apply fpivot_Some. rewrite frow_length. splits; auto.
  - rewrite vget_frow by auto. auto.
  - intros j Hj. rewrite vget_frow by lia. auto.
Qed.

(** product of the first [k] numbers *)
Fixpoint qprod (k : nat) (q : nat -> Qc) : Qc :=
  match k with O => 1%Qc | S k' => (qprod k' q * q k')%Qc end.

Lemma extend_triangular n (f : nat -> nat -> float) :
  (forall i j, (i < n)%nat -> (j < i)%nat -> isz (f i j) = true) -> (forall i, (i < n)%nat -> isz (f i i) = false) ->
  extend_all [] (frows n n f) = Ret (frows n n f).
Proof.
  intros Z N.
  assert (G : forall k, (k <= n)%nat -> extend_all [] (map (frow n f) (seq 0 k)) = Ret (map (frow n f) (seq 0 k)) /\
     lens n (map (frow n f) (seq 0 k)) /\ echelon_from 0 (map (frow n f) (seq 0 k)) /\ pivots (map (frow n f) (seq 0 k)) = seq 0 k).
  { induction k as [|k IH]; intros Hk.
    - splits; auto; constructor.
    - destruct IH as (I1 & I2 & I3 & I4); [lia|].
      assert (Hp : pivot (frow n f k) = Some k) by (apply pivot_triangular; auto; lia).
      assert (Hq : forall q, In q (pivots (map (frow n f) (seq 0 k))) -> (q < k)%nat) by (intros q; rewrite I4, in_seq; lia).
      rewrite seq_S. cbn [Nat.add]. rewrite map_app. cbn [map]. splits.
      + unfold extend_all. rewrite foldM_app. unfold extend_all in I1. rewrite I1. cbn [bind foldM].
        rewrite (extend_last n _ 0 (frow n f k) k); auto. apply frow_length.
      + unfold lens. rewrite Forall_app. split; auto. constructor; auto. apply frow_length.
      + eapply echelon_app; eauto. lia.
      + unfold pivots. rewrite flat_map_app. fold (pivots (map (frow n f) (seq 0 k))). rewrite I4. simpl. rewrite Hp. reflexivity. }
  apply (G n). lia.
Qed.

Lemma determinant_triangular n (f : nat -> nat -> float) (q : nat -> Qc) :
  (4 <= n)%nat ->
  (forall i j, (i < n)%nat -> (j < i)%nat -> isz (f i j) = true) ->
  (forall i, (i < n)%nat -> is_value (f i i) (q i) /\ q i <> 0%Qc) ->
  (forall k, (k <= n)%nat -> fits (qprod k q)) ->
  exists x, determinant (mk n n f) = Ret x /\ is_value x (qprod n q).
Proof.
  intros Hn Z D F.
  assert (N : forall i, (i < n)%nat -> isz (f i i) = false).
  { intros i Hi. destruct (D i Hi) as (V & Q). destruct (isz (f i i)) eqn:E; auto. apply (isz_value _ _ V) in E. congruence. }
  unfold determinant. cbn [nrows ncols mk]. rewrite Nat.eqb_refl. cbn [assert bind].
  destruct n as [|[|[|[|n]]]]; try lia. set (M := S (S (S (S n)))) in *.
  rewrite mk_mrows. rewrite get_rows_mrows by (unfold M; try lia; apply frows_lens). cbn [bind].
  rewrite (extend_triangular M f Z N). cbn [bind]. rewrite frows_length.
  destruct (Nat.ltb_spec M M); [lia|]. unfold diag_product.
  assert (G : forall k, (k <= M)%nat -> exists x, foldM (fun det i => do b <- unwrap (nth_error (frows M M f) i); do x <- unwrap (nth_error b i);
                        Ret (rmul det x)) r1 (seq 0 k) = Ret x /\ is_value x (qprod k q)).
  { induction k as [|k IH]; intros Hk.
    - exists f_one. split; [reflexivity|]. split; [reflexivity|]. vm_compute. f_equal. apply Qc_is_canon. reflexivity.
    - destruct IH as (x & Ex & Vx); [lia|]. rewrite seq_S. cbn [Nat.add]. rewrite foldM_app, Ex. cbn [bind foldM].
      assert (E1 : nth_error (frows M M f) k = Some (frow M f k)).
      { rewrite (nth_error_nth' _ []) by (rewrite frows_length; lia). rewrite nth_frows by lia. reflexivity. }
      rewrite E1. cbn [unwrap bind]. rewrite nth_error_fget by (rewrite frow_length; lia). cbn [unwrap bind].
      rewrite vget_frow by lia. eexists. split; [reflexivity|]. simpl qprod. apply mul_exact; auto; [apply D; lia|].
      exact (F (S k) Hk). }
  exact (G M (le_n M)).
Qed.
