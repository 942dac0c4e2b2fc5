(** Proofs about OperatorDetails (finder.rs): order, axis and sense of rotation of a single matrix. *)
From Coq Require Import String Ascii List ZArith NArith Lia Bool PeanoNat QArith Qcanon.
From Verif Require Import Base QcTac Vec Elim Scalars Matrix MatrixMore LinAlg ZQ Lattices Reduce Geometry Generate Group Crystal Rotation Finder.
From Verif Require Props_LinAlg Props_Geometry Placed.
Import ListNotations.
Close Scope Q_scope. Close Scope Qc_scope.
Local Open Scope list_scope.
Open Scope nat_scope.

Notation mxf := (nat -> nat -> Qc) (only parsing).
Definition meq (d : nat) (f g : mxf) : Prop := forall i j, i < d -> j < d -> f i j = g i j.
Lemma meq_mk d f g : meq d f g <-> mk d d f = mk d d g.
Proof. split; [apply mk_ext|intros H i j Hi Hj; exact (mk_inj d d f g H i j Hi Hj)]. Qed.
Lemma meq_refl d f : meq d f f. Proof. intros i j _ _. auto. Qed.
Lemma meq_sym d f g : meq d f g -> meq d g f. Proof. intros H i j Hi Hj. symmetry. auto. Qed.
Lemma meq_trans d f g h : meq d f g -> meq d g h -> meq d f h. Proof. intros H H' i j Hi Hj. rewrite H; auto. Qed.
Lemma meq_lmul d f f' g g' : meq d f f' -> meq d g g' -> meq d (lmul d f g) (lmul d f' g').
Proof. intros H H' i j Hi Hj. unfold lmul. apply sumf_ext. intros k Hk. rewrite H, H' by auto. auto. Qed.

(** ** determinants and the embedding into 3 x 3 matrices of determinant 1 *)
Definition of3 (f : mxf) : m3 := M3 (f 0 0) (f 0 1) (f 0 2) (f 1 0) (f 1 1) (f 1 2) (f 2 0) (f 2 1) (f 2 2).
Definition detd (d : nat) (f : mxf) : Qc :=
  match d with
  | 1 => f 0 0
  | 2 => Qcminus (Qcmult (f 0 0) (f 1 1)) (Qcmult (f 0 1) (f 1 0))
  | _ => det3 (of3 f)
  end.
Definition emb (d : nat) (f : mxf) : m3 :=
  match d with
  | 1 => M3 (f 0 0) 0%Qc 0%Qc 0%Qc (f 0 0) 0%Qc 0%Qc 0%Qc 1%Qc
  | 2 => M3 (f 0 0) (f 0 1) 0%Qc (f 1 0) (f 1 1) 0%Qc 0%Qc 0%Qc (detd 2 f)
  | _ => scale3 (detd 3 f) (of3 f)
  end.
Lemma det_mk d f : 1 <= d <= 3 -> determinant (mk d d f) = Ret (detd d f).
Proof.
  intros Hd. assert (d = 1 \/ d = 2 \/ d = 3) as [-> | [-> | ->]] by lia; unfold determinant; cbn [nrows ncols mk Nat.eqb assert bind];
    change (concat (frows ?r ?c ?f)) with (data (mk r c f)); fold (mk 1 1 f) (mk 2 2 f) (mk 3 3 f); rewrite !index_mk by lia; cbn [bind]; f_equal; try reflexivity.
  unfold detd, det3, of3. cbn [c00 c01 c02 c10 c11 c12 c20 c21 c22 radd rsub rmul Qc_dom]. ring.
Qed.

Lemma sumf_1 (g : nat -> Qc) : sumf 1 g = g 0. Proof. cbn [sumf radd r0 Qc_dom]. ring. Qed.
Lemma sumf_2 (g : nat -> Qc) : sumf 2 g = Qcplus (g 0) (g 1). Proof. cbn [sumf radd r0 Qc_dom]. ring. Qed.
Lemma sumf_3 (g : nat -> Qc) : sumf 3 g = Qcplus (Qcplus (g 0) (g 1)) (g 2). Proof. cbn [sumf radd r0 Qc_dom]. ring. Qed.
Lemma of3_mul f g : of3 (lmul 3 f g) = mul3 (of3 f) (of3 g).
Proof. unfold of3, lmul. rewrite !sumf_3. cbn [rmul Qc_dom]. reflexivity. Qed.
Lemma of3_delta : of3 delta = id3. Proof. reflexivity. Qed.
Lemma detd_mul d f g : 1 <= d <= 3 -> detd d (lmul d f g) = (detd d f * detd d g)%Qc.
Proof.
  intros Hd. assert (d = 1 \/ d = 2 \/ d = 3) as [-> | [-> | ->]] by lia; unfold detd.
  - unfold lmul. rewrite sumf_1. reflexivity.
  - unfold lmul. rewrite !sumf_2. cbn [rmul Qc_dom]. ring.
  - rewrite of3_mul. apply det3_mul.
Qed.
Lemma detd_delta d : 1 <= d <= 3 -> detd d delta = 1%Qc.
Proof. intros Hd. assert (d = 1 \/ d = 2 \/ d = 3) as [-> | [-> | ->]] by lia; reflexivity. Qed.
Lemma detd_ext d f g : 1 <= d <= 3 -> meq d f g -> detd d f = detd d g.
Proof.
  intros Hd H. assert (d = 1 \/ d = 2 \/ d = 3) as [-> | [-> | ->]] by lia; unfold detd, of3; rewrite ?(H 0 0), ?(H 0 1), ?(H 1 0), ?(H 1 1) by lia; auto.
  rewrite ?(H 0 2), ?(H 1 2), ?(H 2 0), ?(H 2 1), ?(H 2 2) by lia. auto.
Qed.
Lemma emb_mul d f g : 1 <= d <= 3 -> emb d (lmul d f g) = mul3 (emb d f) (emb d g).
Proof.
  intros Hd. assert (d = 1 \/ d = 2 \/ d = 3) as [-> | [-> | ->]] by lia; unfold emb.
  - unfold lmul. rewrite sumf_1. cbn [rmul Qc_dom]. m3ring.
  - rewrite (detd_mul 2) by lia. unfold lmul. rewrite !sumf_2. cbn [rmul Qc_dom]. generalize (detd 2 f), (detd 2 g). intros. m3ring.
  - rewrite (detd_mul 3) by lia. rewrite of3_mul, mul3_scale_l, mul3_scale_r, scale3_scale. auto.
Qed.
Lemma emb_delta d : 1 <= d <= 3 -> emb d delta = id3.
Proof. intros Hd. assert (d = 1 \/ d = 2 \/ d = 3) as [-> | [-> | ->]] by lia; unfold emb; rewrite ?detd_delta by lia; reflexivity. Qed.
Lemma emb_ext d f g : 1 <= d <= 3 -> meq d f g -> emb d f = emb d g.
Proof.
  intros Hd H. pose proof (detd_ext d f g Hd H) as D. assert (d = 1 \/ d = 2 \/ d = 3) as [-> | [-> | ->]] by lia; unfold emb.
  - rewrite (H 0 0) by lia. auto.
  - rewrite D, (H 0 0), (H 0 1), (H 1 0), (H 1 1) by lia. auto.
  - rewrite D. unfold of3. rewrite (H 0 0), (H 0 1), (H 1 0), (H 1 1), (H 0 2), (H 1 2), (H 2 0), (H 2 1), (H 2 2) by lia. auto.
Qed.
Lemma det_emb d f : 1 <= d <= 3 -> detd d f = 1%Qc \/ detd d f = (- (1))%Qc -> det3 (emb d f) = 1%Qc.
Proof.
  intros Hd D. assert (S : (detd d f * detd d f)%Qc = 1%Qc) by (destruct D as [-> | ->]; reflexivity).
  assert (d = 1 \/ d = 2 \/ d = 3) as [-> | [-> | ->]] by lia; unfold emb.
  - transitivity (detd 1 f * detd 1 f)%Qc; [unfold detd; m3ring|exact S].
  - transitivity (detd 2 f * detd 2 f)%Qc; [unfold detd; m3ring|exact S].
  - transitivity ((detd 3 f * detd 3 f) * (detd 3 f * detd 3 f))%Qc; [|rewrite S; reflexivity]. unfold detd. generalize (of3 f). intros a. unfold det3 at 1, scale3. cbn [c00 c01 c02 c10 c11 c12 c20 c21 c22].
    replace (det3 a * det3 a * (det3 a * det3 a))%Qc with (det3 a * det3 a * det3 a * (c00 a * (c11 a * c22 a - c12 a * c21 a) - c01 a * (c10 a * c22 a - c12 a * c20 a) + c02 a * (c10 a * c21 a - c11 a * c20 a)))%Qc by (unfold det3; ring).
    generalize (det3 a). intros t. ring.
Qed.

(** ** powers *)
Fixpoint powf (d : nat) (f : mxf) (k : nat) : mxf := match k with 0 => delta | S k => lmul d (powf d f k) f end.
Lemma powf_add d f i j : meq d (powf d f (i + j)) (lmul d (powf d f i) (powf d f j)).
Proof.
  induction j as [|j IH].
  - rewrite Nat.add_0_r. intros a b Ha Hb. cbn [powf]. symmetry. apply (lmul_delta_r (R := Qc)); auto.
  - rewrite Nat.add_succ_r. cbn [powf]. intros a b Ha Hb. rewrite <- (lmul_assoc (R := Qc)). apply (meq_lmul d); auto. apply meq_refl.
Qed.
Lemma emb_pow d f k : 1 <= d <= 3 -> emb d (powf d f k) = pow3 (emb d f) k.
Proof. intros Hd. induction k as [|k IH]; cbn [powf pow3]; [apply emb_delta; auto|]. rewrite emb_mul, IH by auto. auto. Qed.
Lemma detd_pow d f k : 1 <= d <= 3 -> detd d (powf d f k) = (detd d f ^ k)%Qc.
Proof. intros Hd. induction k as [|k IH]; cbn [powf Qcpower]; [apply detd_delta; auto|]. rewrite detd_mul, IH by auto. ring. Qed.
Lemma finite_det d f k : 1 <= d <= 3 -> 0 < k -> meq d (powf d f k) delta -> detd d f = 1%Qc \/ detd d f = (- (1))%Qc.
Proof.
  intros Hd Hk H. apply (Qc_pow_1 (detd d f) k Hk). rewrite <- detd_pow by auto. rewrite (detd_ext d _ delta Hd H). apply detd_delta; auto.
Qed.
(** what the embedding says about the matrix itself *)
Lemma emb_id d f : 1 <= d <= 3 -> emb d f = id3 -> meq d f delta \/ (d = 3 /\ detd d f = (- (1))%Qc /\ meq d f (fun i j => (- delta i j)%Qc)).
Proof.
  intros Hd E. assert (d = 1 \/ d = 2 \/ d = 3) as [-> | [-> | ->]] by lia; unfold emb in E.
  - left. intros i j Hi Hj. assert (i = 0) as -> by lia. assert (j = 0) as -> by lia. exact (f_equal c00 E).
  - left. intros i j Hi Hj. assert (i = 0 \/ i = 1) as [-> | ->] by lia; assert (j = 0 \/ j = 1) as [-> | ->] by lia; [exact (f_equal c00 E)|exact (f_equal c01 E)|exact (f_equal c10 E)|exact (f_equal c11 E)].
  - set (t := detd 3 f) in *. assert (T : t = 1%Qc \/ t = (- (1))%Qc).
    { apply (Qc_pow_1 t 4); [lia|]. pose proof (f_equal det3 E) as D. unfold det3 at 1, scale3 in D. cbn [c00 c01 c02 c10 c11 c12 c20 c21 c22] in D.
      transitivity (det3 id3); [|reflexivity]. rewrite <- D. change (t ^ 4)%Qc with (t * (t * (t * (t * 1))))%Qc. unfold t at 4. unfold detd, det3. ring. }
    assert (G : forall x y : Qc, (t * x)%Qc = y -> x = (t * y)%Qc). { intros x y <-. destruct T as [-> | ->]; ring. }
    assert (M : forall i j, i < 3 -> j < 3 -> f i j = (t * delta i j)%Qc).
    { intros i j Hi Hj. apply G. assert (i = 0 \/ i = 1 \/ i = 2) as [-> | [-> | ->]] by lia; assert (j = 0 \/ j = 1 \/ j = 2) as [-> | [-> | ->]] by lia;
        [exact (f_equal c00 E)|exact (f_equal c01 E)|exact (f_equal c02 E)|exact (f_equal c10 E)|exact (f_equal c11 E)|exact (f_equal c12 E)|exact (f_equal c20 E)|exact (f_equal c21 E)|exact (f_equal c22 E)]. }
    destruct T as [T|T]; rewrite T in M; [left|right; splits; auto]; intros i j Hi Hj; rewrite (M i j Hi Hj); ring.
Qed.

(** ** the crystallographic restriction *)
Lemma restriction d f k : 1 <= d <= 3 -> 0 < k -> meq d (powf d f k) delta -> exists n, In n [1; 2; 3; 4; 6] /\ meq d (powf d f n) delta.
Proof.
  intros Hd Hk H. pose proof (finite_det d f k Hd Hk H) as D. pose proof (det_emb d f Hd D) as De.
  destruct (restriction3 (emb d f) k Hk) as (n & Hn & E); auto.
  { rewrite <- emb_pow by auto. rewrite (emb_ext d _ delta Hd H). apply emb_delta; auto. }
  rewrite <- emb_pow in E by auto. apply emb_id in E as [E|(-> & Dn & E)]; auto; [exists n; auto|].
  assert (Sq : meq 3 (powf 3 f (n + n)) delta).
  { eapply meq_trans; [apply powf_add|]. eapply meq_trans; [apply meq_lmul; exact E|]. intros i j Hi Hj. unfold lmul. rewrite sumf_3. cbn [rmul Qc_dom].
    assert (i = 0 \/ i = 1 \/ i = 2) as [-> | [-> | ->]] by lia; assert (j = 0 \/ j = 1 \/ j = 2) as [-> | [-> | ->]] by lia; vm_compute; reflexivity. }
  cbn [In] in Hn. rewrite detd_pow in Dn by lia. destruct D as [D|D].
  - exfalso. rewrite D in Dn. assert (O : forall m, (1 ^ m)%Qc = 1%Qc) by (induction m; cbn; auto; rewrite IHm; reflexivity). rewrite O in Dn. discriminate Dn.
  - rewrite D in Dn. destruct Hn as [<-|[<-|[<-|[<-|[<-|[]]]]]]; try discriminate Dn; [exists 2|exists 6]; (split; [cbn; tauto|exact Sq]).
Qed.

(** ** matrix_order *)
Lemma mul_mk d f g : 0 < d -> mat_mul (mk d d f) (mk d d g) = Ret (mk d d (lmul d f g)).
Proof. intros Hd. apply (mat_mul_mk (R := Qc)). auto. Qed.
Lemma eqb_mk d f g : mat_eqb (mk d d f) (mk d d g) = true <-> meq d f g.
Proof. rewrite Props_Geometry.mat_eqb_spec. symmetry. apply meq_mk. Qed.
Lemma order_loop_ok d f todo : 0 < d -> forall i, exists n, order_loop (mk d d f) (mk d d delta) (mk d d (powf d f i)) (S i) todo = Ret n /\
  ((n = 0 /\ forall j, i < j <= i + todo -> ~ meq d (powf d f j) delta) \/
   (i < n <= i + todo /\ meq d (powf d f n) delta /\ forall j, i < j < n -> ~ meq d (powf d f j) delta)).
Proof.
  intros Hd. induction todo as [|todo IH]; intros i; cbn [order_loop].
  - exists 0. split; auto. left. split; auto. intros j Hj. lia.
  - rewrite mul_mk by auto. cbn [bind]. change (lmul d (powf d f i) f) with (powf d f (S i)).
    destruct (mat_eqb (mk d d (powf d f (S i))) (mk d d delta)) eqn:E.
    + apply eqb_mk in E. exists (S i). split; auto. right. splits; auto; try lia.
    + assert (N : ~ meq d (powf d f (S i)) delta) by (intros C; apply eqb_mk in C; congruence).
      destruct (IH (S i)) as (n & En & Hn). exists n. split; auto. destruct Hn as [[-> H]|(H1 & H2 & H3)].
      * left. split; auto. intros j Hj. destruct (Nat.eq_dec j (S i)) as [->|]; auto. apply H. lia.
      * right. splits; auto; try lia. intros j Hj. destruct (Nat.eq_dec j (S i)) as [->|]; auto. apply H3. lia.
Qed.
(** the order of f, or 0 *)
Definition is_order (d : nat) (f : mxf) (n : nat) : Prop :=
  (n = 0 /\ forall j, 0 < j -> ~ meq d (powf d f j) delta) \/
  (0 < n /\ meq d (powf d f n) delta /\ forall j, 0 < j < n -> ~ meq d (powf d f j) delta).
Lemma matrix_order_ok d f : 1 <= d <= 3 -> exists n, matrix_order (mk d d f) 6 = Ret n /\ is_order d f n /\ n <= 6.
Proof.
  intros Hd. unfold matrix_order. cbn [nrows ncols mk]. rewrite Nat.eqb_refl. cbn [assert bind]. rewrite identity_mk by lia. cbn [bind].
  destruct (order_loop_ok d f 6 ltac:(lia) 0) as (n & E & H). change (powf d f 0) with (@delta Qc _) in E. exists n. split; [exact E|].
  destruct H as [[-> H]|(H1 & H2 & H3)]; [split; [left|lia]|split; [right|lia]]; splits; auto; try lia.
  intros j Hj C. destruct (restriction d f j Hd Hj C) as (n & Hn & Cn). apply (H n); auto. cbn in Hn. lia.
Qed.
Lemma order_values d f n : 1 <= d <= 3 -> is_order d f n -> In n [0; 1; 2; 3; 4; 6].
Proof.
  intros Hd [[-> _]|(H1 & H2 & H3)]; [cbn; tauto|]. destruct (restriction d f n Hd H1 H2) as (m & Hm & Cm).
  assert (n <= m). { destruct (le_lt_dec n m); auto. exfalso. apply (H3 m); auto. cbn in Hm. lia. }
  assert (n <> 5); [|cbn in Hm |- *; lia]. intros ->. assert (m = 6) as -> by (cbn in Hm; lia).
  assert (meq d (powf d f 1) delta); [|apply (H3 1); auto; lia].
  assert (E : meq d (powf d f (5 + 1)) (lmul d (powf d f 5) (powf d f 1))) by apply powf_add.
  eapply meq_trans; [|exact Cm]. apply meq_sym. eapply meq_trans; [exact E|]. eapply meq_trans; [apply meq_lmul; [exact H2|apply meq_refl]|].
  intros i j Hi Hj. apply (lmul_delta_l (R := Qc)); auto.
Qed.

(** ** operator_axis *)
Lemma lapp_sum d (g : mxf) (x : nat -> Qc) i : lapp d g x i = sumf d (fun k => g i k * x k)%Qc.
Proof. reflexivity. Qed.
Lemma null_fun d (g : mxf) : 0 < d -> exists r, null_space (mk d d g) = Ret r /\
  match r with
  | Some s => exists c h, s = mk d c h /\ 0 < c /\ (forall j, j < c -> forall i, i < d -> lapp d g (fun k => h k j) i = 0%Qc) /\
      (forall y : nat -> Qc, (forall i, i < d -> sumf c (fun j => h i j * y j)%Qc = 0%Qc) -> forall j, j < c -> y j = 0%Qc) /\
      (forall x, (forall i, i < d -> lapp d g x i = 0%Qc) -> exists y : nat -> Qc, forall i, i < d -> x i = sumf c (fun j => h i j * y j)%Qc)
  | None => forall x, (forall i, i < d -> lapp d g x i = 0%Qc) -> forall i, i < d -> x i = 0%Qc
  end.
Proof.
  intros Hd. destruct (Props_LinAlg.C13_null_space_rational (mk d d g)) as (r & E & H); [apply wfm_mk; auto|auto|auto|]. exists r. split; auto. cbn [nrows ncols mk] in H. destruct r as [s|].
  - destruct H as (Ws & Hr & Hc & H1 & H2 & H3). exists (ncols s), (ent s). assert (Es : s = mk d (ncols s) (ent s)) by (rewrite <- Hr; apply wfm_eq_mk; auto).
    revert Es. generalize (ent s) (ncols s) Hc H1 H2 H3. clear. intros h c Hc H1 H2 H3 ->. splits; auto.
    + change (Mat d d (concat (frows d d g))) with (mk d d g) in H1. rewrite mat_mul_mk in H1 by auto. rewrite mat_zero_mk in H1 by auto. injection H1 as H1. intros j Hj i Hi.
      assert (M : mk d c (fun i j => sumf d (fun k => (g i k * h k j)%Qc)) = mk d c (fun _ _ => 0%Qc)) by (unfold mk; f_equal; exact H1).
      exact (mk_inj d c _ _ M i j Hi Hj).
    + intros y Hy j Hj. assert (Q : mat_zero c 1 = Ret (mk c 1 (fun j _ => y j))).
      { apply H2; auto; [apply mk_wf; auto|]. rewrite mat_mul_mk, mat_zero_mk by auto. f_equal. apply mk_ext. intros i b Hi Hb. apply Hy. auto. }
      rewrite mat_zero_mk in Q by auto. injection Q as Q. assert (M : mk c 1 (fun _ _ => 0%Qc) = mk c 1 (fun j _ => y j)) by (unfold mk; f_equal; exact Q).
      symmetry. exact (mk_inj c 1 _ _ M j 0 Hj ltac:(lia)).
    + intros x Hx. destruct (H3 (mk d 1 (fun i _ => x i))) as (y & Wy & Ey); auto; [apply mk_wf; auto| |].
      * change (Mat d d (concat (frows d d g))) with (mk d d g). rewrite mat_mul_mk, mat_zero_mk by auto. f_equal. apply mk_ext. intros i b Hi Hb. apply Hx. auto.
      * assert (Sh : nrows y = c /\ ncols y = 1).
        { unfold mat_mul in Ey. cbn [ncols mk] in Ey. destruct (Nat.eqb_spec c (nrows y)) as [E|E]; [|discriminate Ey]. split; auto. cbn [assert bind] in Ey. apply bind_Ret_inv in Ey as (rows & _ & Er).
          apply mat_new_wf in Er as (_ & Er & _). cbn [ncols mk] in Er. auto. }
        destruct Sh as [Sr Sc]. exists (fun j => ent y j 0). assert (Eqy : y = mk c 1 (ent y)) by (rewrite <- Sr, <- Sc; apply wfm_eq_mk; auto). rewrite Eqy in Ey. rewrite mat_mul_mk in Ey by auto. injection Ey as Ey.
        assert (M : mk d 1 (fun i j => sumf c (fun k => (h i k * ent y k j)%Qc)) = mk d 1 (fun i _ => x i)) by (unfold mk; f_equal; exact Ey).
        intros i Hi. symmetry. exact (mk_inj d 1 _ _ M i 0 Hi ltac:(lia)).
  - intros x Hx i Hi. assert (Q : mat_zero d 1 = Ret (mk d 1 (fun i _ => x i))).
    { apply H; auto; [apply mk_wf; auto|]. change (Mat d d (concat (frows d d g))) with (mk d d g). rewrite mat_mul_mk, mat_zero_mk by auto. f_equal. apply mk_ext. intros a b Ha Hb. apply Hx. auto. }
    rewrite mat_zero_mk in Q by auto. injection Q as Q. assert (M : mk d 1 (fun _ _ => 0%Qc) = mk d 1 (fun i _ => x i)) by (unfold mk; f_equal; exact Q).
    symmetry. exact (mk_inj d 1 _ _ M i 0 Hi ltac:(lia)).
Qed.

Definition eigen (d : nat) (f : mxf) (e : Qc) (w : nat -> Qc) : Prop := forall i, i < d -> lapp d f w i = (e * w i)%Qc.
Definition lead_pos (d : nat) (v : nat -> Qc) : Prop := exists k, k < d /\ (forall i, i < k -> v i = 0%Qc) /\ (0 < v k)%Qc.
Lemma vget_opp (v : list Qc) i : vget (map Qcopp v) i = (- vget v i)%Qc.
Proof. unfold vget. change r0 with (Qcopp 0%Qc) at 1. apply map_nth. Qed.
Lemma find_first (p : Qc -> bool) (v : list Qc) : match find p v with
  | Some x => exists k, k < length v /\ vget v k = x /\ p x = true /\ forall i, i < k -> p (vget v i) = false
  | None => forall i, i < length v -> p (vget v i) = false end.
Proof.
  induction v as [|y v IH]; cbn [find]; [intros i Hi; cbn in Hi; lia|]. destruct (p y) eqn:P.
  - exists 0. cbn. splits; auto; try lia.
  - destruct (find p v) as [x|].
    + destruct IH as (k & H1 & H2 & H3 & H4). exists (S k). cbn. splits; auto; try lia. intros [|i] Hi; [exact P|]. apply H4. lia.
    + intros [|i] Hi; [exact P|]. apply IH. cbn in Hi. lia.
Qed.
Lemma positive_direction_ok v : (exists i, i < length v /\ vget v i <> 0%Qc) -> exists e, (e = 1%Qc \/ e = (- (1))%Qc) /\ length (positive_direction v) = length v /\
  (forall i, vget (positive_direction v) i = (e * vget v i)%Qc) /\ lead_pos (length v) (vget (positive_direction v)).
Proof.
  intros (i0 & Hi0 & N). unfold positive_direction. pose proof (find_first (fun x => negb (Qc_eqb x 0%Qc)) v) as F. destruct (find _ v) as [x|].
  - destruct F as (k & Hk & Ek & Px & Zk). assert (Nx : x <> 0%Qc) by (destruct (Qc_eqb_spec x 0%Qc); [discriminate Px|auto]).
    assert (Z : forall i, i < k -> vget v i = 0%Qc) by (intros i Hi; specialize (Zk i Hi); cbn beta in Zk; destruct (Qc_eqb_spec (vget v i) 0%Qc); [auto|discriminate Zk]).
    destruct (q_neg_spec x) as [C|C].
    + exists (- (1))%Qc. splits; auto; [apply map_length|intros i; rewrite vget_opp; ring|]. exists k. splits; auto; [intros i Hi; rewrite vget_opp, Z by auto; reflexivity|]. rewrite vget_opp, Ek. qclra.
    + exists 1%Qc. splits; auto; [intros i; ring|]. exists k. splits; auto. rewrite Ek. destruct (Qc_dec x 0%Qc) as [[H|H]|H]; auto; contradiction.
  - exfalso. specialize (F i0 Hi0). cbn beta in F. destruct (Qc_eqb_spec (vget v i0) 0%Qc); [auto|discriminate F].
Qed.

Definition axis_sign (d : nat) (f : mxf) : Qc := if negb (d mod 2 =? 0) && q_neg (detd d f) then (- (1))%Qc else 1%Qc.
Definition axis_spec (d : nat) (f : mxf) (e : Qc) (o : option (list Qc)) : Prop :=
  match o with
  | Some v => length v = d /\ lead_pos d (vget v) /\ eigen d f e (vget v) /\
      forall w, eigen d f e w -> exists t, forall i, i < d -> w i = (t * vget v i)%Qc
  | None => (forall w, eigen d f e w -> forall i, i < d -> w i = 0%Qc) \/
      exists w1 w2, eigen d f e w1 /\ eigen d f e w2 /\ forall x y, (forall i, i < d -> (x * w1 i + y * w2 i)%Qc = 0%Qc) -> x = 0%Qc /\ y = 0%Qc
  end.
Lemma eigen_kernel d f e w : eigen d f e w <-> forall i, i < d -> lapp d (fun i j => f i j - e * delta i j)%Qc w i = 0%Qc.
Proof.
  assert (K : forall i, i < d -> lapp d (fun i j => f i j - e * delta i j)%Qc w i = (lapp d f w i - e * w i)%Qc).
  { intros i Hi. rewrite !lapp_sum. transitivity (sumf d (fun k => f i k * w k + (- e) * (delta i k * w k))%Qc); [apply sumf_ext; intros k Hk; ring|].
    change (sumf d (fun k => f i k * w k + - e * (delta i k * w k))%Qc) with (sumf (R := Qc) d (fun k => radd (f i k * w k)%Qc (rmul (- e)%Qc (delta i k * w k)%Qc))).
    rewrite sumf_add, sumf_scale. pose proof (lapp_delta (R := Qc) d w i Hi) as L. rewrite lapp_sum in L. rewrite L. cbn [radd rmul Qc_dom]. ring. }
  split; intros H i Hi; specialize (H i Hi).
  - rewrite K, H by auto. ring.
  - rewrite K in H by auto. apply Qc_sub_eq. auto.
Qed.
Lemma axis_ok d f : 1 <= d <= 3 -> exists o, operator_axis (mk d d f) = Ret o /\ axis_spec d f (axis_sign d f) o.
Proof.
  intros Hd. unfold operator_axis. cbn [nrows ncols mk]. rewrite Nat.eqb_refl. cbn [assert bind]. change (Mat d d (concat (frows d d f))) with (mk d d f).
  set (lh := negb (d mod 2 =? 0) && q_neg (detd d f)).
  assert (L : (if d mod 2 =? 0 then Ret false else is_left_handed (mk d d f)) = Ret lh).
  { unfold lh. destruct (d mod 2 =? 0); cbn [negb andb]; auto. unfold is_left_handed. rewrite det_mk by auto. reflexivity. }
  rewrite L. cbn [bind]. rewrite identity_mk by lia. cbn [bind]. set (e := axis_sign d f).
  assert (R : (if lh then mat_add (mk d d f) (mk d d delta) else mat_sub (mk d d f) (mk d d delta)) = Ret (mk d d (fun i j => f i j - e * delta i j)%Qc)).
  { unfold e, axis_sign. fold lh. destruct lh; unfold mat_add, mat_sub; rewrite mat_zip_mk; f_equal; apply mk_ext; intros i j Hi Hj; cbn [radd rsub Qc_dom]; ring. }
  rewrite R. cbn [bind]. destruct (null_fun d (fun i j => f i j - e * delta i j)%Qc ltac:(lia)) as (r & E & H). rewrite E. cbn [bind]. destruct r as [s|].
  - destruct H as (c & h & -> & Hc & H1 & H2 & H3). cbn [ncols mk]. change (Mat d c (concat (frows d c h))) with (mk d c h). destruct (Nat.eqb_spec c 1) as [->|Nc].
    + rewrite get_col_mk by auto. cbn [bind]. set (v := map (fun i => h i 0) (seq 0 d)). eexists. split; [reflexivity|].
      assert (Lv : length v = d) by (unfold v; rewrite map_length, seq_length; auto). assert (Gv : forall i, i < d -> vget v i = h i 0) by (intros i Hi; exact (Placed.pget_map_seq _ d i Hi)).
      assert (Nz : exists i, i < length v /\ vget v i <> 0%Qc).
      { rewrite Lv. destruct (forallb (fun i => Qc_eqb (vget v i) 0%Qc) (seq 0 d)) eqn:F.
        - exfalso. rewrite forallb_forall in F. assert (C : (1%Qc : Qc) = 0%Qc); [|discriminate C]. apply (H2 (fun _ => 1%Qc)) with (j := 0); auto. intros i Hi. rewrite sumf_1. rewrite <- Gv by auto.
          assert (Q : vget v i = 0%Qc) by (specialize (F i ltac:(apply in_seq; lia)); cbn beta in F; destruct (Qc_eqb_spec (vget v i) 0%Qc); [auto|discriminate F]). rewrite Q. ring.
        - destruct (existsb (fun i => negb (Qc_eqb (vget v i) 0%Qc)) (seq 0 d)) eqn:G.
          + apply existsb_exists in G as (i & Hi & G). apply in_seq in Hi. exists i. split; [lia|]. destruct (Qc_eqb_spec (vget v i) 0%Qc); [discriminate G|auto].
          + exfalso. assert (T : forallb (fun i => Qc_eqb (vget v i) 0%Qc) (seq 0 d) = true); [|congruence]. apply forallb_forall. intros i Hi.
            destruct (Qc_eqb (vget v i) 0%Qc) eqn:Q; auto. exfalso. assert (existsb (fun i => negb (Qc_eqb (vget v i) 0%Qc)) (seq 0 d) = true); [|congruence]. apply existsb_exists. exists i. rewrite Q. auto. }
      destruct (positive_direction_ok v Nz) as (t & Ht & Lp & Gp & Pp). rewrite Lv in Pp, Lp.
      assert (Ev : eigen d f e (fun i => h i 0)) by (apply eigen_kernel; apply (H1 0); lia).
      assert (Tt : (t * t)%Qc = 1%Qc) by (destruct Ht as [-> | ->]; reflexivity).
      unfold axis_spec. splits; auto.
      * intros i Hi. rewrite Gp, Gv by auto. rewrite lapp_sum. transitivity (sumf (R := Qc) d (fun k => rmul t (f i k * h k 0%nat)%Qc)).
        -- apply sumf_ext. intros k Hk. rewrite Gp, Gv by auto. cbn [rmul Qc_dom]. ring.
        -- rewrite sumf_scale. pose proof (Ev i Hi) as Q. rewrite lapp_sum in Q. rewrite Q. cbn [rmul Qc_dom]. ring.
      * intros w Hw. pose proof (proj1 (eigen_kernel d f e w) Hw) as Hw'. destruct (H3 w Hw') as (y & Hy). exists (t * y 0%nat)%Qc. intros i Hi. rewrite Hy by auto. rewrite sumf_1, Gp, Gv by auto. transitivity ((t * t) * (h i 0%nat * y 0%nat))%Qc; [rewrite Tt; ring|ring].
    + exists None. split; auto. right. exists (fun i => h i 0), (fun i => h i 1). splits; try (apply eigen_kernel; apply H1; lia).
      intros x y Hxy. set (z := fun j => match j with 0 => x | 1 => y | _ => 0%Qc end).
      assert (Z : forall j, j < c -> z j = 0%Qc).
      { apply H2. intros i Hi. rewrite <- (Hxy i Hi). replace c with (2 + (c - 2)) by lia. rewrite sumf_split, sumf_2. cbn [z radd Qc_dom].
        rewrite (sumf_zero (R := Qc)) by (intros k Hk; cbn; ring). cbn. ring. }
      split; [apply (Z 0)|apply (Z 1)]; lia.
  - exists None. split; auto. left. intros w Hw. pose proof (proj1 (eigen_kernel d f e w) Hw) as Hw'. auto.
Qed.
