(** Property C87: elimination over f64 is exact as long as every intermediate result is an f64.

    Used in the statements: the modelled functions; [is_value x q] (the f64 [x] has the value [q]); [lift q], the matrix
    of rational numbers [q] as a matrix of checked numbers (F64Elim.v).  A checked number is a rational number that is
    the value of some f64, or the report [None]; sums, differences, products and quotients of checked numbers are the
    exact ones if these are values of f64 numbers, and [None] otherwise.  So [rank (lift q) = Ret r] says: with exact
    rational arithmetic every entry computed while the rank of [q] is determined is the value of an f64, and the
    rank found is [r]. *)
From Coq Require Import List ZArith Lia Bool PeanoNat.
From Coq Require Import QArith Qcanon.
From Coq Require Import Floats.SpecFloat.
From Verif Require Import Base Vec Elim Scalars Matrix MatrixMore LinAlg ZQ F64 F64Exact F64Round F64Det Simulate F64Elim Props_LinAlg.
Import ListNotations.
Close Scope Q_scope. Close Scope Qc_scope.
Open Scope nat_scope.

(** the f64 matrix [m] has the values [q] *)
Definition values (m : mat float) (q : mat Qc) : Prop :=
  nrows m = nrows q /\ ncols m = ncols q /\ Forall2 is_value (data m) (data q).

Definition frel64 := frel (fun q (x : float) => is_value x q).
Definition frelQ := frel (fun q (y : Qc) => q = y).

Lemma values_lift m q : values m q -> mrel frel64 (lift q) m.
Proof.
  intros (R & C & D). unfold mrel, lift. simpl. splits; auto.
  induction D as [|x y l l' H D IH]; simpl; constructor; auto. exists y. auto.
Qed.

Lemma lift_lift q : mrel frelQ (lift q) q.
Proof.
  unfold mrel, lift. simpl. splits; auto. induction (data q) as [|x l IH]; simpl; constructor; auto. exists x. auto.
Qed.

Lemma lift_values x y : mrel (wrel (fun q (x : float) => is_value x q)) (lift x) y -> values y x.
Proof.
  intros (R & C & D). simpl in *. unfold values. splits; auto.
  revert D. generalize (data y). induction (data x) as [|a l IH]; intros l' D; simpl in D; inversion D as [|? b ? l2 H D']; subst; constructor; auto.
Qed.

Lemma lift_eq x y : mrel (wrel (fun q (z : Qc) => q = z)) (lift x) y -> y = x.
Proof.
  intros (R & C & D). destruct x as [r c l], y as [r' c' l']. simpl in *. f_equal; auto.
  clear R C. revert l' D. induction l as [|a l IH]; intros l' D; simpl in D; inversion D as [|? b ? l2 H D']; subst; auto.
  f_equal; auto. symmetry. auto.
Qed.

Lemma frel_wrel_mat {R} (rel : Qc -> R -> Prop) m y : mrel (frel rel) m y -> mrel (wrel rel) m y.
Proof. apply mrel_weaken. intros. eapply frel_wrel; eauto. Qed.

Lemma one_value : is_value f_one 1%Qc.
Proof. split; [reflexivity|]. simpl. f_equal. apply Qc_is_canon. reflexivity. Qed.
Lemma zero_value : is_value f_zero 0%Qc.
Proof. split; reflexivity. Qed.

Lemma z64 a (x : float) : is_value x a -> Qc_eqb a 0%Qc = reqb x r0.
Proof.
  intros H. pose proof (isz_value x a H) as K. change (reqb x r0) with (isz x).
  destruct (Qc_eqb_spec a 0) as [E|E], (isz x) eqn:F; auto; destruct K as (K1 & K2); [specialize (K2 E); congruence|exfalso; auto].
Qed.

Lemma clear64 col (v b : list float) vc bc : nth_error v col = Some vc -> nth_error b col = Some bc -> length v <= length b ->
  reqb bc r0 = false ->
  s_clear col v b = Ret (zip_from (S col) (fun vk bk => rsub vk (rmul bk (f_div vc bc))) (upd col r0 v) b, b).
Proof.
  intros Hv Hb L _. simpl. unfold clear_column_f, covers. rewrite Hv, Hb. cbn [unwrap bind].
  destruct (Nat.leb_spec (length v) (length b)); [reflexivity|lia].
Qed.
Lemma norm64 col (v : list float) f : nth_error v col = Some f -> reqb f r0 = false ->
  s_normalize col v = Ret (map_from (S col) (fun x => f_div x f) (upd col r1 v)).
Proof. intros Hv _. simpl. unfold normalize_column_f. rewrite Hv. reflexivity. Qed.
Lemma reduce64 col (v b : list float) f : nth_error v col = Some f -> length v <= length b ->
  s_reduce col v b = Ret (zip_from (S col) (fun vk bk => rsub vk (rmul bk f)) (upd col r0 v) b).
Proof.
  intros Hv L. simpl. unfold reduce_column_f, covers. rewrite Hv. cbn [unwrap bind].
  destruct (Nat.leb_spec (length v) (length b)); [reflexivity|lia].
Qed.

Lemma clearQ col (v b : list Qc) vc bc : nth_error v col = Some vc -> nth_error b col = Some bc -> length v <= length b ->
  reqb bc r0 = false ->
  s_clear col v b = Ret (zip_from (S col) (fun vk bk => rsub vk (rmul bk (vc / bc)%Qc)) (upd col r0 v) b, b).
Proof.
  intros Hv Hb L Z. simpl in *. unfold clear_column_Q, covers. rewrite Hv, Hb. cbn [unwrap bind]. rewrite Z. cbn [negb assert bind].
  destruct (Nat.leb_spec (length v) (length b)); [reflexivity|lia].
Qed.
Lemma normQ col (v : list Qc) f : nth_error v col = Some f -> reqb f r0 = false ->
  s_normalize col v = Ret (map_from (S col) (fun x => (x / f)%Qc) (upd col r1 v)).
Proof. intros Hv Z. simpl in *. unfold normalize_column_Q. rewrite Hv. cbn [unwrap bind]. rewrite Z. reflexivity. Qed.
Lemma reduceQ col (v b : list Qc) f : nth_error v col = Some f -> length v <= length b ->
  s_reduce col v b = Ret (zip_from (S col) (fun vk bk => rsub vk (rmul bk f)) (upd col r0 v) b).
Proof.
  intros Hv L. simpl. unfold reduce_column_Q, covers. rewrite Hv. cbn [unwrap bind].
  destruct (Nat.leb_spec (length v) (length b)); [reflexivity|lia].
Qed.

Ltac fl := solve [exact zero_value | exact one_value | exact (fun a x => opp_exact x a) | exact z64
  | exact (fun a b x y => add_exact x y a b) | exact (fun a b x y => sub_exact x y a b)
  | exact (fun a b x y => mul_exact x y a b) | exact (fun a b x y => div_exact x y a b)
  | exact clear64 | exact norm64 | exact reduce64 | reflexivity].
Ltac fq := solve [reflexivity | exact clearQ | exact normQ | exact reduceQ | intros; subst; reflexivity].

(** rank *)
Theorem C87_rank (m : mat float) (q : mat Qc) r :
  values m q -> rank (lift q) = Ret r -> rank m = Ret r /\ rank q = Ret r.
Proof.
  intros V E. split.
  - edestruct (follow_rank (fun q (x : float) => is_value x q) f_div) as (r' & E' & <-); try fl; [exact (values_lift _ _ V)|exact E|exact E'].
  - edestruct (follow_rank (fun q (y : Qc) => q = y) Qcdiv) as (r' & E' & <-); try fq; [exact (lift_lift q)|exact E|exact E'].
Qed.
Print Assumptions C87_rank.

(** reduced_basis *)
Theorem C87_reduced_basis (m : mat float) (q t : mat Qc) :
  values m q -> reduced_basis (lift q) = Ret (lift t) ->
  reduced_basis q = Ret t /\ exists u, reduced_basis m = Ret u /\ values u t.
Proof.
  intros V E. split.
  - edestruct (follow_reduced_basis (fun q (y : Qc) => q = y) Qcdiv) as (r' & E' & H); try fq; [exact (lift_lift q)|exact E|].
    rewrite E'. f_equal. apply lift_eq. apply frel_wrel_mat; auto.
  - edestruct (follow_reduced_basis (fun q (x : float) => is_value x q) f_div) as (r' & E' & H); try fl; [exact (values_lift _ _ V)|exact E|].
    exists r'. split; [exact E'|]. apply lift_values, frel_wrel_mat; auto.
Qed.
Print Assumptions C87_reduced_basis.

(** determinant *)
Theorem C87_determinant (m : mat float) (q : mat Qc) d :
  values m q -> determinant (lift q) = Ret (Some d) ->
  determinant q = Ret d /\ exists x, determinant m = Ret x /\ is_value x d.
Proof.
  intros V E. split.
  - edestruct (follow_determinant (fun q (y : Qc) => q = y) Qcdiv) as (r' & E' & H); try fq; [exact (lift_lift q)|exact E|].
    rewrite E'. f_equal. symmetry. apply H. reflexivity.
  - edestruct (follow_determinant (fun q (x : float) => is_value x q) f_div) as (r' & E' & H); try fl; [exact (values_lift _ _ V)|exact E|].
    exists r'. split; [exact E'|]. apply H. reflexivity.
Qed.
Print Assumptions C87_determinant.

(** solve: an exact run finds the values of an exact solution *)
Theorem C87_solve (a b : mat float) (qa qb x : mat Qc) :
  wfm qa -> wfm qb -> nrows qa = nrows qb -> 0 < ncols qa -> 0 < ncols qb ->
  values a qa -> values b qb -> solve (lift qa) (lift qb) = Ret (Some (lift x)) ->
  mat_mul qa x = Ret qb /\ solve qa qb = Ret (Some x) /\ exists y, solve a b = Ret (Some y) /\ values y x.
Proof.
  intros Wa Wb En Ca Cb Va Vb E.
  assert (Q : solve qa qb = Ret (Some x)).
  { edestruct (follow_solve (fun q (y : Qc) => q = y) Qcdiv) as (r' & E' & H); try fq; [exact (lift_lift qa)|exact (lift_lift qb)|exact E|].
    destruct r' as [y|]; [|contradiction H]. rewrite E'. f_equal. f_equal. apply lift_eq. exact H. }
  splits; auto.
  - destruct (C10_solve_rational qa qb Wa Wb En Ca Cb) as (r & E' & H). rewrite Q in E'.
    assert (r = Some x) as -> by congruence. apply H.
  - edestruct (follow_solve (fun q (x : float) => is_value x q) f_div) as (r' & E' & H); try fl;
      [exact (values_lift _ _ Va)|exact (values_lift _ _ Vb)|exact E|].
    destruct r' as [y|]; [|contradiction H]. exists y. split; [exact E'|]. apply lift_values. exact H.
Qed.
Print Assumptions C87_solve.

(** and if it finds none, there is none *)
Theorem C87_solve_none (a b : mat float) (qa qb : mat Qc) :
  wfm qa -> wfm qb -> nrows qa = nrows qb -> 0 < ncols qa -> 0 < ncols qb ->
  values a qa -> values b qb -> solve (lift qa) (lift qb) = Ret None ->
  solve a b = Ret None /\ forall x, wfm x -> mat_mul qa x <> Ret qb.
Proof.
  intros Wa Wb En Ca Cb Va Vb E. split.
  - edestruct (follow_solve (fun q (x : float) => is_value x q) f_div) as (r' & E' & H); try fl;
      [exact (values_lift _ _ Va)|exact (values_lift _ _ Vb)|exact E|].
    destruct r' as [y|]; [contradiction H|]. exact E'.
  - edestruct (follow_solve (fun q (y : Qc) => q = y) Qcdiv) as (r' & E' & H); try fq; [exact (lift_lift qa)|exact (lift_lift qb)|exact E|].
    destruct r' as [y|]; [contradiction H|].
    destruct (C10_solve_rational qa qb Wa Wb En Ca Cb) as (r & E2 & H2).
    assert (r = None) as -> by congruence. exact H2.
Qed.
Print Assumptions C87_solve_none.

(** null_space *)
Theorem C87_null_space (m : mat float) (q : mat Qc) o :
  values m q -> null_space (lift q) = Ret o ->
  match o with
  | None => null_space m = Ret None /\ null_space q = Ret None
  | Some s => exists t u, s = lift t /\ null_space q = Ret (Some t) /\ null_space m = Ret (Some u) /\ values u t
  end.
Proof.
  intros V E.
  edestruct (follow_null_space (fun q (y : Qc) => q = y) Qcdiv) as (t & E' & H); try fq; [exact (lift_lift q)|exact E|].
  edestruct (follow_null_space (fun q (x : float) => is_value x q) f_div) as (u & E2 & H2); try fl; [exact (values_lift _ _ V)|exact E|].
  destruct o as [s|], t as [t|], u as [u|]; try contradiction.
  - exists t, u. simpl in H, H2.
    assert (s = lift t) as ->.
    { destruct H as (R & C & D). destruct s as [r c l], t as [r' c' l']. unfold lift. simpl in *. f_equal; auto.
      clear -D. induction D as [|x y l l' (z & -> & ->) D IH]; simpl; auto. rewrite IH. reflexivity. }
    splits; auto. apply lift_values, frel_wrel_mat; auto.
  - auto.
Qed.
Print Assumptions C87_null_space.

(** inverse: the values of the exact inverse *)
Theorem C87_inverse (m : mat float) (q x : mat Qc) :
  wfm q -> nrows q = ncols q -> 0 < ncols q ->
  values m q -> inverse (lift q) = Ret (Some (lift x)) ->
  mat_mul q x = identity (nrows q) /\ exists y, inverse m = Ret (Some y) /\ values y x.
Proof.
  intros W En Hc V E. split.
  - edestruct (follow_inverse (fun q (y : Qc) => q = y) Qcdiv) as (r' & E' & H); try fq; [exact (lift_lift q)|exact E|].
    destruct r' as [y|]; [|contradiction H]. assert (y = x) as -> by (apply lift_eq; exact H).
    unfold inverse in E'. rewrite En, Nat.eqb_refl in E'. cbn [assert bind] in E'.
    apply bind_Ret_inv in E' as (i & Ei & E'). rewrite En, Ei.
    assert (Hi : wfm i /\ nrows i = ncols q /\ ncols i = ncols q).
    { rewrite identity_mrows in Ei by auto. assert (i = mrows (ncols q) (map (vunit (ncols q)) (seq 0 (ncols q)))) as -> by congruence.
      cbn [nrows ncols mrows]. rewrite map_length, seq_length. splits; auto.
      rewrite (mrows_mk (ncols q)) by apply units_lens. rewrite map_length, seq_length. apply mk_wf; auto. }
    destruct Hi as (Wi & Ri & Ci).
    destruct (C10_solve_rational q i W Wi) as (r & E2 & H2); try lia.
    rewrite E' in E2. assert (r = Some x) as -> by congruence. apply H2.
  - edestruct (follow_inverse (fun q (x : float) => is_value x q) f_div) as (r' & E' & H); try fl; [exact (values_lift _ _ V)|exact E|].
    destruct r' as [y|]; [|contradiction H]. exists y. split; [exact E'|]. apply lift_values. exact H.
Qed.
Print Assumptions C87_inverse.

(** ** a concrete case: [[2, 1], [1, 1]] and [[1/2, 3], [1, 6]] *)
Definition same_c (x : checked) (q : Qc) : bool := match x with Some y => Qc_eqb y q | None => false end.
Fixpoint same_l (l : list checked) (l' : list Qc) : bool :=
  match l, l' with [], [] => true | x :: l, y :: l' => same_c x y && same_l l l' | _, _ => false end.
Definition same_m (m : mat checked) (q : mat Qc) : bool :=
  Nat.eqb (nrows m) (nrows q) && Nat.eqb (ncols m) (ncols q) && same_l (data m) (data q).
Lemma same_m_eq m q : same_m m q = true -> m = lift q.
Proof.
  unfold same_m. rewrite !andb_true_iff, !Nat.eqb_eq. intros ((R & C) & D). destruct m as [r c l], q as [r' c' l'].
  unfold lift. simpl in *. f_equal; auto. clear R C. revert l' D. induction l as [|x l IH]; intros [|y l'] D; try discriminate D; auto.
  simpl in *. apply andb_true_iff in D as (D1 & D2). rewrite (IH l' D2). f_equal.
  destruct x as [x|]; [|discriminate D1]. simpl in D1. destruct (Qc_eqb_spec x y) as [->|]; [reflexivity|discriminate D1].
Qed.

Definition f2 : float := S754_finite false 4503599627370496 (-51).
Definition fhalf : float := S754_finite false 4503599627370496 (-53).
Definition f3 : float := S754_finite false 6755399441055744 (-51).
Definition f6 : float := S754_finite false 6755399441055744 (-50).
Definition m1 : mat float := Mat 2 2 [f2; f_one; f_one; f_one].
Definition q1 : mat Qc := Mat 2 2 [ZQ 2; ZQ 1; ZQ 1; ZQ 1].
Definition m2 : mat float := Mat 2 2 [fhalf; f3; f_one; f6].
Definition q2 : mat Qc := Mat 2 2 [(1 / ZQ 2)%Qc; ZQ 3; ZQ 1; ZQ 6].

Ltac val := split; [reflexivity|]; vm_compute; f_equal; apply Qc_is_canon; reflexivity.
Lemma m1_values : values m1 q1. Proof. unfold values. splits; auto. simpl. repeat (apply Forall2_cons; [val|]). apply Forall2_nil. Qed.
Lemma m2_values : values m2 q2. Proof. unfold values. splits; auto. simpl. repeat (apply Forall2_cons; [val|]). apply Forall2_nil. Qed.

Definition inv1 : mat Qc := Mat 2 2 [ZQ 1; ZQ (-1); ZQ (-1); ZQ 2].
Lemma inv1_exact : inverse (lift q1) = Ret (Some (lift inv1)).
Proof.
  assert (H : match inverse (lift q1) with Ret (Some y) => same_m y inv1 | _ => false end = true) by (vm_compute; reflexivity).
  destruct (inverse (lift q1)) as [[y|]| |]; try discriminate H. apply same_m_eq in H. rewrite H. reflexivity.
Qed.

Example C87_case_inverse : mat_mul q1 inv1 = identity 2 /\ exists y, inverse m1 = Ret (Some y) /\ values y inv1.
Proof.
  apply (C87_inverse m1 q1 inv1); auto using m1_values, inv1_exact; [split; [reflexivity|discriminate]|simpl; lia].
Qed.

Example C87_case_rank : rank m2 = Ret 1 /\ rank q2 = Ret 1.
Proof. apply C87_rank; [exact m2_values|]. vm_compute. reflexivity. Qed.

(** the null space of [[1/2, 3], [1, 6]] needs the quotient 1/6, which is not an f64: the checked run reports it *)
Example C87_case_null_space : null_space (lift q2) = Panic.
Proof. vm_compute. reflexivity. Qed.

(** no solution of q2 x = (1, 1) *)
Definition ones : mat float := Mat 2 1 [f_one; f_one].
Definition qones : mat Qc := Mat 2 1 [ZQ 1; ZQ 1].
Lemma ones_values : values ones qones.
Proof. unfold values. splits; auto. simpl. repeat (apply Forall2_cons; [val|]). apply Forall2_nil. Qed.
Lemma none_exact : solve (lift q2) (lift qones) = Ret None.
Proof. vm_compute. reflexivity. Qed.
Example C87_case_solve_none : solve m2 ones = Ret None.
Proof.
  refine (proj1 (C87_solve_none m2 ones q2 qones _ _ eq_refl _ _ m2_values ones_values none_exact));
    try (split; [reflexivity|discriminate]); simpl; lia.
Qed.
