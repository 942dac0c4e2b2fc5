(** A checker for the translations of a group in other coordinates, and for groups that differ.  Not part of the code; see SgCheck.v. *)
From Coq Require Import List ZArith NArith Lia Bool PeanoNat QArith Qcanon FMapPositive.
From Verif Require Import Base QcTac Scalars ZQ Matrix Geometry Text ParseOp Cgd Table Lattices Props_Lattices SgSpec SgCheck.
Import ListNotations.
Close Scope Q_scope. Close Scope Qc_scope.
Open Scope nat_scope.

(** ** translations by 24ths *)
Definition trans (n : nat) (c : list Z) : iop := map (fun i => zadd (unit_row n i) (repeat 0%Z n ++ [nth i c 0%Z])) (seq 0 n).
Definition part24 (n : nat) (c : list Z) : list Qc := from_coordinates n (fun i => (ZQ (nth i c 0%Z) * q24)%Qc).
Lemma part24_point n c : point n (part24 n c).
Proof. unfold point, part24, from_coordinates. rewrite map_length, seq_length. auto. Qed.
Lemma part24_nth n c i : i < n -> nth i (part24 n c) 0%Qc = (ZQ (nth i c 0%Z) * q24)%Qc.
Proof. intros Hi. unfold part24. rewrite nth_from by auto. reflexivity. Qed.
Lemma trans_shape n c : shape n (trans n c).
Proof.
  unfold trans. split; [rewrite map_length, seq_length; auto|]. apply Forall_forall. intros r Hr. apply in_map_iff in Hr as (i & <- & Hi). apply in_seq in Hi.
  apply zadd_length; [apply unit_row_length; lia|rewrite app_length, repeat_length; cbn; lia].
Qed.
Lemma nth_act e p x i r : nth_error p i = Some r -> nth i (act e p x) 0%Qc = arow e r x.
Proof. intros E. unfold act. rewrite (nth_error_nth _ _ _ (map_nth_error (fun r => arow e r x) _ _ E)). reflexivity. Qed.
Lemma nth_error_seq_map {A} (f : nat -> A) n i : i < n -> nth_error (map f (seq 0 n)) i = Some (f i).
Proof. intros Hi. apply map_nth_error. rewrite nth_error_nth' with (d := 0) by (rewrite seq_length; auto). rewrite seq_nth by auto. reflexivity. Qed.
Lemma trans_ok n c x : point n x -> act q24 (trans n c) x = plus n x (part24 n c).
Proof.
  intros Hx. apply (point_ext n); [apply act_point, trans_shape|apply plus_point|]. intros i Hi. rewrite plus_nth, part24_nth by auto. unfold trans. rewrite (nth_act _ _ _ _ _ (nth_error_seq_map _ n i Hi)).
  rewrite arow_add; [|rewrite unit_row_length by auto; rewrite Hx; auto|rewrite app_length, repeat_length; cbn; rewrite Hx; lia]. rewrite unit_row_ok by auto. rewrite arow_zeros by auto. reflexivity.
Qed.
(** the shift of the rows, without and with the linear part *)
Definition column (p : iop) : list Z := map (fun r => last r 0%Z) p.
Definition is_trans (n : nat) (q : iop) : bool := rows_eqb q (trans n (column q)).
Lemma row_split : forall n (r : list Z) i, i < n -> length r = S n -> forall w, (forall x, point n x -> arow q24 r x = (nth i x 0 + w)%Qc) -> w = (ZQ (last r 0%Z) * q24)%Qc.
Proof.
  intros n r i Hi L w H. specialize (H (repeat 0%Qc n) (repeat_length _ _)). rewrite nth_repeat in H. transitivity (0 + w)%Qc; [ring|]. rewrite <- H. clear - L. revert n L. induction r as [|c r IH]; intros [|n] L; try discriminate.
  - destruct r; try discriminate. cbn. ring.
  - cbn [repeat arow]. destruct r as [|d r]; try discriminate. change (last (c :: d :: r) 0%Z) with (last (d :: r) 0%Z). rewrite <- (IH n) by (cbn in *; lia). ring.
Qed.
(** rows that act as a translation *)
Lemma modlast_small r : (0 <= last r 0 < 24)%Z -> modlast r = r.
Proof.
  induction r as [|c [|d r] IH]; intros H; auto.
  - cbn in *. rewrite Z.mod_small by auto. auto.
  - change (modlast (c :: d :: r)) with (c :: modlast (d :: r)). rewrite IH; auto.
Qed.
Lemma last_app_one {A} (l : list A) a d : last (l ++ [a]) d = a.
Proof. induction l as [|b [|c l] IH]; auto. Qed.
Lemma zadd_snoc r : forall s a b, length r = length s -> zadd (r ++ [a]) (s ++ [b]) = zadd r s ++ [(a + b)%Z].
Proof. induction r as [|c r IH]; intros [|d s] a b H; try discriminate; auto. cbn [app zadd]. rewrite IH by (cbn in H; lia). auto. Qed.
Lemma unit_row_snoc n i : i < n -> unit_row n i = (repeat 0%Z i ++ [1%Z] ++ repeat 0%Z (n - i - 1)) ++ [0%Z].
Proof. intros Hi. unfold unit_row. rewrite <- !app_assoc. do 2 f_equal. replace (n - i) with ((n - i - 1) + 1) at 1 by lia. rewrite repeat_app. reflexivity. Qed.
Lemma trans_last n i c : i < n -> last (zadd (unit_row n i) (repeat 0%Z n ++ [c])) 0%Z = c.
Proof. intros Hi. rewrite unit_row_snoc by auto. rewrite zadd_snoc; [apply last_app_one|]. rewrite !app_length, !repeat_length. cbn [length]. lia. Qed.
Lemma acts_as_translation n q w : shape n q -> Forall (fun r => (0 <= last r 0 < 24)%Z) q -> (forall x, point n x -> act q24 q x = plus n x w) -> point n w -> is_trans n q = true /\ w = part24 n (column q).
Proof.
  intros [L F] B H Hw.
  assert (R : forall i, i < n -> exists r, nth_error q i = Some r /\ length r = S n /\ (0 <= last r 0 < 24)%Z /\ nth i w 0%Qc = (ZQ (last r 0%Z) * q24)%Qc /\ r = zadd (unit_row n i) (repeat 0%Z n ++ [last r 0%Z])).
  { intros i Hi. destruct (nth_error q i) as [r|] eqn:E; [|apply nth_error_None in E; lia]. exists r. pose proof (nth_error_In _ _ E) as I. rewrite Forall_forall in F, B. pose proof (F r I) as Lr. pose proof (B r I) as Br.
    assert (A : forall x, point n x -> arow q24 r x = (nth i x 0 + nth i w 0)%Qc) by (intros x Hx; rewrite <- (nth_act q24 q x i r E), H by auto; apply plus_nth; auto).
    pose proof (row_split n r i Hi Lr _ A) as W. repeat split; auto; try lia. rewrite <- (modlast_small r) at 1 by auto.
    rewrite (row_determined n r (zadd (unit_row n i) (repeat 0%Z n ++ [last r 0%Z])) 0%Z).
    - apply modlast_small. rewrite trans_last by auto. auto.
    - auto.
    - apply zadd_length; [apply unit_row_length; auto|rewrite app_length, repeat_length; cbn; lia].
    - intros x Hx. rewrite A by auto. rewrite arow_add; [|rewrite unit_row_length by auto; rewrite Hx; auto|rewrite app_length, repeat_length; cbn; rewrite Hx; lia].
      rewrite unit_row_ok by auto. rewrite arow_zeros by auto. rewrite W. change (ZQ 0) with 0%Qc. ring. }
  assert (C : forall i r, nth_error q i = Some r -> nth i (column q) 0%Z = last r 0%Z) by (intros i r E; unfold column; rewrite (nth_error_nth _ _ _ (map_nth_error _ _ _ E)); auto).
  split.
  - assert (E : q = trans n (column q)).
    { apply nth_ext with (d := []) (d' := []); [rewrite L; symmetry; apply trans_shape|]. intros i Hi. rewrite L in Hi. destruct (R i Hi) as (r & E & _ & _ & _ & Er).
      rewrite (nth_error_nth _ _ _ E). unfold trans. rewrite (nth_error_nth _ _ _ (nth_error_seq_map _ n i Hi)). rewrite (C i r E). auto. }
    unfold is_trans. rewrite <- E. clear. induction q as [|r q IH]; auto. cbn [rows_eqb]. rewrite IH, andb_true_r. induction r as [|c r IHr]; auto. cbn [row_eqb]. rewrite IHr, Z.eqb_refl. auto.
  - apply (point_ext n); auto; [apply part24_point|]. intros i Hi. rewrite part24_nth by auto. destruct (R i Hi) as (r & E & _ & _ & W & _). rewrite (C i r E). auto.
Qed.
Lemma reduce_small n p : shape n p -> Forall (fun r => (0 <= last r 0 < 24)%Z) (reduce p).
Proof.
  intros [_ F]. apply Forall_forall. intros r Hr. apply in_map_iff in Hr as (s & <- & Hs). rewrite Forall_forall in F. specialize (F s Hs). clear Hs. revert F. generalize n. induction s as [|c [|d s] IH]; intros m Hm; try discriminate.
  - cbn. apply Z.mod_pos_bound. lia.
  - change (modlast (c :: d :: s)) with (c :: modlast (d :: s)). destruct m; [discriminate|]. destruct (modlast (d :: s)) as [|a l] eqn:E; [exfalso; pose proof (modlast_length (d :: s)) as X; rewrite E in X; discriminate X|].
    change (last (c :: a :: l) 0%Z) with (last (a :: l) 0%Z). apply (IH m). cbn in *. lia.
Qed.

(** ** the check: t leads to the new coordinates, u leads back *)
Definition centered_check (n : nat) (a b : @affine Qc) (i : info) (cs : list (list Z)) : bool :=
  match rows_of n 1 24 a, rows_of n 1 24 b with
  | Some t, Some u =>
    rows_eqb (times n t u) (one n) && rows_eqb (times n u t) (one n) &&
    forallb (fun c => found (product n u (times n (trans n c) t)) (i_map i)) cs &&
    forallb (fun p => let q := product n t (times n p u) in if is_trans n q then existsb (row_eqb (column q)) cs else true) (i_rows i)
  | _, _ => false
  end.
Lemma plus_plus n x v z : plus n (plus n x v) (whole n z) = plus n x (plus n v (whole n z)).
Proof. apply (point_ext n); try apply plus_point. intros i Hi. rewrite !plus_nth by auto. ring. Qed.
Lemma info_shape n ops i p : info_ok n ops i -> In p (i_rows i) -> shape n p.
Proof. intros O Hp. destruct O as [[ps [Ep Er]] _ _ _ _ _ _ _]. rewrite Er in Hp. apply in_map_iff in Hp as (q & <- & Hq). apply (rows_shape n ops ps Ep) in Hq as (op & _ & E). apply reduce_shape. eapply op_rows; eauto. Qed.
Theorem centered_check_ok n a b ops i cs : info_ok n ops i -> centered_check n a b i cs = true ->
  undoes n (moved n a) (moved n b) /\
  forall v, point n v -> (in_group n ops (fun x => moved n b (plus n (moved n a x) v)) <-> exists c z, In c cs /\ v = plus n (part24 n c) (whole n z)).
Proof.
  intros O H. unfold centered_check in H. destruct (rows_of n 1 24 a) as [t|] eqn:Et; [|discriminate]. destruct (rows_of n 1 24 b) as [u|] eqn:Eu; [|discriminate].
  apply andb_prop in H as [H H4]. apply andb_prop in H as [H H3]. apply andb_prop in H as [H1 H2]. apply rows_eqb_ok in H1. apply rows_eqb_ok in H2. rewrite forallb_forall in H3, H4.
  apply op_rows in Et as [St At]. apply op_rows in Eu as [Su Au].
  assert (TU : forall x, point n x -> act q24 t (act q24 u x) = x) by (intros x Hx; rewrite <- (act_times q24 n t u x St Su Hx), H1; apply one_ok; auto).
  assert (UT : forall x, point n x -> act q24 u (act q24 t x) = x) by (intros x Hx; rewrite <- (act_times q24 n u t x Su St Hx), H2; apply one_ok; auto).
  split.
  { intros x Hx. rewrite <- !(Au x), <- !(At x) by auto. rewrite <- At, <- Au by (apply act_point; auto). auto. }
  intros v Hv. rewrite (in_group_mem n ops i _ O). split.
  - intros (p & z & Hp & E). pose proof (info_shape n ops i p O Hp) as Sp. pose proof (times_shape n p u Sp Su) as Spu. pose proof (times_shape n t _ St Spu) as Sq.
    (* y + v = t (p (u y) + z) *)
    assert (Z : exists z', forall y, point n y -> plus n y v = plus n (act q24 (times n t (times n p u)) y) (whole n z')).
    { destruct (whole_firstn n z) as (z1 & Lz & Ez). exists (map (fun r => lrow r z1) t). intros y Hy. specialize (E (act q24 u y) (act_point _ _ _ _ Su)). apply (f_equal (act q24 t)) in E.
      rewrite <- (Au (plus n (moved n a (act q24 u y)) v)) in E by apply plus_point. rewrite TU in E by apply plus_point. rewrite <- (At (act q24 u y)) in E by (apply act_point; auto). rewrite TU in E by auto. rewrite E.
      rewrite !(act_times q24 n) by (auto; apply act_point; auto). destruct St as [Lt Ft].
      apply (point_ext n); [unfold point; rewrite act_length; auto|apply plus_point|]. intros j Hj. rewrite plus_nth, whole_nth by auto. destruct (nth_error t j) as [r|] eqn:Er; [|apply nth_error_None in Er; lia].
      rewrite (nth_error_nth _ _ _ (map_nth_error (fun r => lrow r z1) _ _ Er)). rewrite !(nth_act _ _ _ _ _ Er). rewrite Ez. apply (arow_translation q24 r n); auto; [apply act_point; auto|]. rewrite Forall_forall in Ft. apply Ft. eapply nth_error_In; eauto. }
    destruct Z as (z' & Z). destruct (reduce_ok n _ Sq) as (z0 & R). fold (product n t (times n p u)) in R. set (q := product n t (times n p u)) in *.
    assert (Q : forall y, point n y -> act q24 q y = plus n y (plus n v (whole n (zneg n (zsum n z0 z'))))).
    { intros y Hy. rewrite <- plus_plus, Z by auto. rewrite R by auto. rewrite (plus_whole n _ z0 z'), plus_neg; auto. apply act_point. unfold q, product. apply reduce_shape. auto. }
    destruct (acts_as_translation n q _ (reduce_shape _ _ Sq) (reduce_small _ _ Sq) Q (plus_point _ _ _)) as [Tq W].
    specialize (H4 p Hp). cbn zeta in H4. fold q in H4. rewrite Tq in H4. apply existsb_exists in H4 as (c & Hc & Ec). apply row_eqb_ok in Ec. exists c, (zsum n z0 z'). split; auto. rewrite <- Ec, <- W.
    apply (point_ext n); auto; [apply plus_point|]. intros j Hj. rewrite !plus_nth, !whole_nth by auto. unfold zneg. rewrite nth_seq_map by auto. rewrite ZQ_opp. ring.
  - intros (c & z & Hc & Ev). specialize (H3 c Hc). apply (found_in _ _ _ (ok_map _ _ _ O)) in H3. pose proof (times_shape n _ t (trans_shape n c) St) as Sc. pose proof (times_shape n u _ Su Sc) as Sq.
    destruct (reduce_ok n _ Sq) as (z0 & R). fold (product n u (times n (trans n c) t)) in R. destruct (whole_firstn n z) as (z1 & Lz & Ez).
    exists (product n u (times n (trans n c) t)), (zsum n z0 (map (fun r => lrow r z1) u)). split; auto. intros x Hx. rewrite <- plus_whole, <- R by auto. rewrite !(act_times q24 n) by (auto; apply trans_shape || (apply act_point; auto)).
    rewrite trans_ok by (apply act_point; auto). rewrite <- (Au (plus n (moved n a x) v)) by apply plus_point. rewrite <- (At x) by auto. rewrite Ev, <- plus_plus. destruct Su as [Lu Fu].
    apply (point_ext n); [unfold point; rewrite act_length; auto|apply plus_point|]. intros j Hj. rewrite plus_nth, whole_nth by auto. destruct (nth_error u j) as [r|] eqn:Er; [|apply nth_error_None in Er; lia].
    rewrite (nth_error_nth _ _ _ (map_nth_error (fun r => lrow r z1) _ _ Er)). rewrite !(nth_act _ _ _ _ _ Er). rewrite Ez. apply (arow_translation q24 r n); auto; [apply plus_point|]. rewrite Forall_forall in Fu. apply Fu. eapply nth_error_In; eauto.
Qed.

(** ** groups that differ: an operator of the first list that does not become one of the second list *)
Definition differ_check (n : nat) (a b : @affine Qc) (i1 i2 : info) : bool :=
  match rows_of n 1 24 a, rows_of n 1 24 b with
  | Some t, Some u => existsb (fun p => negb (existsb (rows_eqb (product n t (times n p u))) (i_rows i2))) (i_rows i1)
  | _, _ => false
  end.
Lemma rows_eqb_refl p : rows_eqb p p = true.
Proof. induction p as [|r p IH]; auto. cbn [rows_eqb]. rewrite IH, andb_true_r. induction r as [|c r IHr]; auto. cbn [row_eqb]. rewrite IHr, Z.eqb_refl. auto. Qed.
Lemma reduce_reduce n p : shape n p -> reduce (reduce p) = reduce p.
Proof.
  intros S. pose proof (reduce_small n p S) as B. unfold reduce at 1. rewrite Forall_forall in B. transitivity (map (fun r => r) (reduce p)); [|apply map_id]. apply map_ext_in. intros r Hr. apply modlast_small. auto.
Qed.
Theorem differ_check_ok n a b ops1 ops2 i1 i2 : info_ok n ops1 i1 -> info_ok n ops2 i2 -> differ_check n a b i1 i2 = true -> ~ same_group n (moved n a) (moved n b) ops1 ops2.
Proof.
  intros O1 O2 H (_ & G & _). unfold differ_check in H. destruct (rows_of n 1 24 a) as [t|] eqn:Et; [|discriminate]. destruct (rows_of n 1 24 b) as [u|] eqn:Eu; [|discriminate].
  apply existsb_exists in H as (p & Hp & N). apply negb_true_iff in N. pose proof (info_shape n ops1 i1 p O1 Hp) as Sp. apply op_rows in Et as [St At]. apply op_rows in Eu as [Su Au].
  pose proof (times_shape n p u Sp Su) as Spu. pose proof (times_shape n t _ St Spu) as Sq.
  assert (M : in_group n ops1 (act q24 p)) by (apply (in_group_mem n ops1 i1 _ O1); exists p, []; split; auto; intros x Hx; symmetry; apply plus_zero; apply act_point; auto).
  apply G in M. apply (in_group_mem n ops2 i2 _ O2) in M as (q & z & Hq & E). pose proof (info_shape n ops2 i2 q O2 Hq) as Sh.
  assert (X : reduce (times n t (times n p u)) = reduce q).
  { apply (rows_determined n _ _ z Sq Sh). intros x Hx. rewrite !(act_times q24 n) by (auto; apply act_point; auto). rewrite <- E by auto. rewrite <- (Au x) by auto. rewrite At by (apply act_point; auto). reflexivity. }
  assert (Y : reduce q = q).
  { destruct O2 as [[ps [Ep Er]] _ _ _ _ _ _ _]. rewrite Er in Hq. apply in_map_iff in Hq as (s & <- & Hs). apply (rows_shape n ops2 ps Ep) in Hs as (op & _ & Es). apply (reduce_reduce n). eapply op_rows; eauto. }
  assert (C : existsb (rows_eqb (product n t (times n p u))) (i_rows i2) = true) by (apply existsb_exists; exists q; split; auto; unfold product; rewrite X, Y; apply rows_eqb_refl).
  rewrite C in N. discriminate N.
Qed.
