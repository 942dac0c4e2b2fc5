(** Property C14 of src/arithmetic/matrices.rs.  The statements use the
    modelled methods, [is_mat m r c f] (MatrixMore.v: [m] stores, row by row,
    the entries [f i j] of an r x c matrix), [wfm] (Matrix.v: the number of
    stored entries is rows times columns), [sumf n f] (Vec.v: f 0 + ... +
    f (n-1)) and an arbitrary integral domain R. *)
From Coq Require Import List ZArith Lia Bool PeanoNat.
From Verif Require Import Base Vec Matrix MatrixMore.
Import ListNotations.
Open Scope nat_scope.

Section C14.
  Context (R : Type) (RD : Dom R) (DL : DomLaws R).

  (** new accepts exactly data that fills whole rows and stores it unchanged *)
  Theorem C14_new : forall nc (d : list R),
    (mat_new nc d = Panic <-> d <> [] /\ (nc = 0 \/ length d mod nc <> 0)) /\
    (forall m, mat_new nc d = Ret m -> wfm m /\ ncols m = nc /\ data m = d) /\ mat_new nc d <> Timeout.
  Proof.
    intros nc d. splits.
    - unfold mat_new. destruct (Nat.eqb_spec (length d) 0) as [E|E].
      + split; [discriminate|]. intros [H _]. destruct d; simpl in E; [congruence|lia].
      + assert (d <> []) by (intros ->; auto).
        destruct (Nat.eqb_spec nc 0) as [->|Hc]; [tauto|].
        assert (D := Nat.div_mod (length d) nc Hc).
        destruct (Nat.eqb_spec (length d) (length d / nc * nc)) as [E2|E2]; simpl.
        * split; [discriminate|]. intros [_ [?|?]]; lia.
        * split; auto. intros _. split; auto. right. lia.
    - intros m. apply mat_new_wf.
    - unfold mat_new. destruct (Nat.eqb (length d) 0); [discriminate|]. destruct (Nat.eqb nc 0); [discriminate|].
      destruct (Nat.eqb (length d) _); discriminate.
  Qed.

  Theorem C14_index : forall (m : mat R) r c f i j, is_mat m r c f -> 0 < c ->
    (i < r -> j < c -> index m i j = Ret (f i j)) /\ (r <= i \/ c <= j -> index m i j = Panic).
  Proof.
    intros m r c f i j H Hc. rewrite (is_mat_eq m r c f H). split.
    - intros. apply index_mk; auto.
    - apply index_mk_out; auto.
  Qed.

  (** every well-formed matrix is given by its entries, and they determine it *)
  Theorem C14_entries : forall m : mat R, wfm m ->
    exists f, is_mat m (nrows m) (ncols m) f /\ forall m', is_mat m' (nrows m) (ncols m) f -> m' = m.
  Proof.
    intros m W. exists (ent m). split; [apply is_mat_wf; auto|].
    intros m' H. rewrite (is_mat_eq _ _ _ _ H). symmetry. apply wfm_eq_mk; auto.
  Qed.

  Theorem C14_transpose : forall (m : mat R) r c f, is_mat m r c f -> 0 < r -> 0 < c ->
    exists t, transpose m = Ret t /\ is_mat t c r (fun i j => f j i) /\ transpose t = Ret m.
  Proof.
    intros m r c f H Hr Hc. rewrite (is_mat_eq m r c f H). rewrite transpose_mk by auto.
    eexists; splits; [reflexivity|apply is_mat_mk|]. rewrite transpose_mk by auto. reflexivity.
  Qed.

  Theorem C14_get_row_col : forall (m : mat R) r c f i j, is_mat m r c f -> i < r -> j < c ->
    get_row m i = Ret (map (fun k => f i k) (seq 0 c)) /\ get_col m j = Ret (map (fun k => f k j) (seq 0 r)).
  Proof.
    intros m r c f i j H Hi Hj. rewrite (is_mat_eq m r c f H). split.
    - rewrite get_row_mk by lia. reflexivity.
    - apply get_col_mk; auto.
  Qed.

  Theorem C14_submatrix : forall (m : mat R) r c f x y x' y', is_mat m r c f ->
    x <= y -> y <= r -> x' < y' -> y' <= c ->
    exists s, submatrix m x y x' y' = Ret s /\ is_mat s (y - x) (y' - x') (fun i j => f (x + i) (x' + j)).
  Proof.
    intros m r c f x y x' y' H H1 H2 H3 H4. rewrite (is_mat_eq m r c f H), submatrix_mk by auto.
    eexists; split; [reflexivity|]. rewrite (mk_ext _ _ _ (fun i j => f (x + i) (x' + j))); [apply is_mat_mk|].
    intros; f_equal; lia.
  Qed.

  (** the k-th part of a horizontal (vertical) stack starts at the sum of the
      widths (heights) of the parts before it *)
  Theorem C14_hstack : forall (parts : list (mat R)) r,
    parts <> [] -> Forall (fun m => wfm m /\ nrows m = r) parts -> 0 < list_sum (map ncols parts) ->
    exists h, hstack parts = Ret h /\ wfm h /\ nrows h = r /\ ncols h = list_sum (map ncols parts) /\
      forall k m i j, nth_error parts k = Some m -> i < r -> j < ncols m ->
        index h i (list_sum (map ncols (firstn k parts)) + j) = index m i j.
  Proof.
    intros parts r Hne HF Hc. rewrite (hstack_wf parts r) by auto.
    set (c := list_sum (map ncols parts)) in *. eexists. split; [reflexivity|].
    assert (HL : forall i, length (concat (map (prow i) parts)) = c).
    { intros i. unfold c. clear. induction parts as [|p l IH]; simpl; auto.
      rewrite app_length, IH, prow_length. reflexivity. }
    assert (L : lens c (map (fun i => concat (map (prow i) parts)) (seq 0 r))).
    { apply Forall_forall. intros v Hv. apply in_map_iff in Hv as (i & <- & _). apply HL. }
    rewrite mrows_mk by auto. rewrite map_length, seq_length. splits; auto.
    { apply mk_wf; auto. }
    intros k m i j Hk Hi Hj. assert (Hin : In m parts) by (eapply nth_error_In; eauto).
    rewrite Forall_forall in HF. destruct (HF m Hin) as [W Hm].
    assert (Hk2 : k < length parts) by (apply nth_error_Some; congruence).
    assert (Hw : list_sum (map ncols (firstn k parts)) + j < c).
    { unfold c. rewrite <- (firstn_skipn k parts) at 2. rewrite map_app, list_sum_app.
      destruct (skipn k parts) as [|m' l] eqn:Es.
      - assert (length (skipn k parts) = 0) by (rewrite Es; auto). rewrite skipn_length in *. lia.
      - assert (nth_error (firstn k parts ++ skipn k parts) k = Some m) by (rewrite firstn_skipn; auto).
        rewrite nth_error_app2 in H; rewrite firstn_length, Nat.min_l in * by lia; [|lia].
        rewrite Nat.sub_diag, Es in H. injection H as ->. simpl. lia. }
    rewrite index_mk by auto. rewrite index_wf by (auto; lia). f_equal.
    rewrite (nth_indep _ _ (concat (map (prow 0) parts))) by (rewrite map_length, seq_length; auto).
    rewrite (map_nth (fun i => concat (map (prow i) parts)) (seq 0 r) 0 i), seq_nth by auto. simpl.
    assert (Ek : nth k (map (prow i) parts) [] = prow i m).
    { apply nth_error_nth. apply map_nth_error; auto. }
    assert (Ef : list_sum (map (@length R) (firstn k (map (prow i) parts))) = list_sum (map ncols (firstn k parts))).
    { rewrite firstn_map, map_map. f_equal. apply map_ext. intros; apply prow_length. }
    rewrite <- Ef. unfold vget. rewrite nth_concat_gen.
    - rewrite Ek. apply vget_prow; auto.
    - rewrite map_length; auto.
    - rewrite Ek, prow_length; auto.
  Qed.

  Theorem C14_vstack : forall (parts : list (mat R)) c,
    parts <> [] -> Forall (fun m => wfm m /\ ncols m = c) parts -> 0 < c ->
    exists h, vstack parts = Ret h /\ wfm h /\ nrows h = list_sum (map nrows parts) /\ ncols h = c /\
      data h = concat (map data parts).
  Proof.
    intros parts c Hne HF Hc. rewrite (vstack_wf parts c) by auto. eexists; splits; try reflexivity.
    assert (L : length (concat (map data parts)) = list_sum (map nrows parts) * c).
    { clear Hne. induction HF as [|m l [[W _] Hm] HF IH]; simpl; auto. rewrite app_length, IH, W, Hm. lia. }
    split; simpl; auto. intros E. rewrite E in L. simpl in L. nia.
  Qed.

  Theorem C14_multiplication : forall (a b : mat R) r n c f g,
    is_mat a r n f -> is_mat b n c g -> 0 < c ->
    exists p, mat_mul a b = Ret p /\ is_mat p r c (fun i j => sumf n (fun k => rmul (f i k) (g k j))).
  Proof.
    intros a b r n c f g Ha Hb Hc. rewrite (is_mat_eq _ _ _ _ Ha), (is_mat_eq _ _ _ _ Hb), mat_mul_mk by auto.
    eexists; split; [reflexivity|apply is_mat_mk].
  Qed.

  Theorem C14_multiplication_associative : forall a b c : mat R, wfm a -> wfm b -> wfm c ->
    ncols a = nrows b -> ncols b = nrows c -> 0 < ncols b -> 0 < ncols c ->
    exists ab bc p, mat_mul a b = Ret ab /\ mat_mul b c = Ret bc /\ mat_mul ab c = Ret p /\ mat_mul a bc = Ret p.
  Proof.
    intros a b c Wa Wb Wc E1 E2 Hb Hc.
    destruct (wf_mk a (nrows a) (nrows b) Wa) as [f ->]; auto.
    destruct (wf_mk c (ncols b) (ncols c) Wc) as [h ->]; auto.
    destruct (wf_mk b (nrows b) (ncols b) Wb) as [g Eg]; auto. rewrite Eg in *. cbn [nrows ncols mk] in *.
    pose proof (mat_mul_assoc_mk (nrows a) (nrows b) (ncols b) (ncols c) f g h Hb Hc) as A.
    rewrite !mat_mul_mk in A by auto. cbn [bind] in A. rewrite !mat_mul_mk in A by auto.
    do 3 eexists. splits.
    - apply mat_mul_mk; auto.
    - apply mat_mul_mk; auto.
    - apply mat_mul_mk; auto.
    - rewrite mat_mul_mk by auto. symmetry. exact A.
  Qed.

  Theorem C14_identity_is_unit : forall a : mat R, wfm a -> 0 < nrows a -> 0 < ncols a ->
    exists il ir, identity (nrows a) = Ret il /\ identity (ncols a) = Ret ir /\
      mat_mul il a = Ret a /\ mat_mul a ir = Ret a /\
      is_mat il (nrows a) (nrows a) (fun i j => if Nat.eqb i j then r1 else r0).
  Proof.
    intros a W Hr Hc. destruct (wf_mk a (nrows a) (ncols a) W) as [f Ef]; auto. rewrite Ef in *. cbn [nrows ncols mk] in *.
    rewrite !identity_mk by auto. do 2 eexists; splits; try reflexivity.
    - apply mat_mul_id_l; auto.
    - apply mat_mul_id_r; auto.
    - rewrite (mk_ext _ _ delta (fun i j => if Nat.eqb i j then r1 else r0)); [apply is_mat_mk|].
      intros i j _ _. unfold delta. rewrite Nat.eqb_sym. reflexivity.
  Qed.

  Theorem C14_transpose_of_product : forall a b : mat R, wfm a -> wfm b ->
    ncols a = nrows b -> 0 < nrows a -> 0 < ncols a -> 0 < ncols b ->
    exists ab abt at_ bt, mat_mul a b = Ret ab /\ transpose ab = Ret abt /\
      transpose a = Ret at_ /\ transpose b = Ret bt /\ mat_mul bt at_ = Ret abt.
  Proof.
    intros a b Wa Wb E Hr Hn Hc.
    destruct (wf_mk a (nrows a) (nrows b) Wa) as [f Ef]; auto.
    destruct (wf_mk b (nrows b) (ncols b) Wb) as [g Eg]; auto. rewrite Ef, Eg in *. cbn [nrows ncols mk] in *.
    pose proof (mat_mul_transpose (nrows a) (nrows b) (ncols b) f g) as A.
    rewrite mat_mul_mk in A by auto. cbn [bind] in A. rewrite !transpose_mk in A by auto. cbn [bind] in A.
    rewrite mat_mul_mk in A by auto. specialize (A Hr Hn Hc).
    do 4 eexists. splits.
    - apply mat_mul_mk; auto.
    - apply transpose_mk; auto.
    - apply transpose_mk; auto.
    - apply transpose_mk; auto.
    - rewrite mat_mul_mk by auto. symmetry; exact A.
  Qed.

  Theorem C14_entrywise : forall (a b : mat R) s r c f g, is_mat a r c f -> is_mat b r c g -> 0 < c ->
    (exists m, mat_add a b = Ret m /\ is_mat m r c (fun i j => radd (f i j) (g i j))) /\
    (exists m, mat_sub a b = Ret m /\ is_mat m r c (fun i j => rsub (f i j) (g i j))) /\
    (exists m, mat_neg a = Ret m /\ is_mat m r c (fun i j => ropp (f i j))) /\
    (exists m, mat_scale s a = Ret m /\ is_mat m r c (fun i j => rmul (f i j) s)).
  Proof.
    intros a b s r c f g Ha Hb Hc. rewrite (is_mat_eq _ _ _ _ Ha), (is_mat_eq _ _ _ _ Hb).
    unfold mat_add, mat_sub. rewrite !mat_zip_mk, mat_neg_mk, mat_scale_mk by auto.
    splits; eexists; (split; [reflexivity|apply is_mat_mk]).
  Qed.

  (** mismatched shapes panic *)
  Theorem C14_mismatch_panics : forall a b : mat R, wfm a -> wfm b ->
    (ncols a <> nrows b -> mat_mul a b = Panic) /\
    (nrows a <> nrows b \/ ncols a <> ncols b -> 0 < ncols a -> mat_add a b = Panic /\ mat_sub a b = Panic) /\
    (nrows a <> nrows b -> hstack [a; b] = Panic) /\
    (ncols a <> ncols b -> vstack [a; b] = Panic) /\
    (forall x y x' y', nrows a < y \/ ncols a < y' -> submatrix a x y x' y' = Panic).
  Proof.
    intros a b [Wa _] [Wb _]. splits.
    - intros H. unfold mat_mul. apply Nat.eqb_neq in H. rewrite H. reflexivity.
    - intros H Hc. unfold mat_add, mat_sub, mat_zip.
      destruct (Nat.eqb_spec (length (data a)) (length (data b))) as [E|E]; [|split; reflexivity].
      destruct (Nat.eqb_spec (ncols a) (ncols b)) as [E2|E2]; [|split; reflexivity].
      destruct H; [|congruence]. rewrite Wa, Wb, <- E2 in E. nia.
    - intros H. unfold hstack. cbn [forallb]. rewrite Nat.eqb_refl. cbn [andb].
      apply Nat.eqb_neq in H. rewrite (Nat.eqb_sym (nrows b)), H. reflexivity.
    - intros H. unfold vstack. cbn [forallb]. rewrite Nat.eqb_refl. cbn [andb].
      apply Nat.eqb_neq in H. rewrite (Nat.eqb_sym (ncols b)), H. reflexivity.
    - intros x y x' y' H. unfold submatrix.
      destruct (Nat.leb_spec y (nrows a)); [|reflexivity].
      destruct (Nat.leb_spec y' (ncols a)); [|reflexivity]. lia.
  Qed.

  (** whatever returns is well-formed *)
  Theorem C14_results_well_formed : forall a b : mat R, wfm a -> wfm b -> 0 < ncols a ->
    forall m, mat_mul a b = Ret m \/ transpose a = Ret m \/ mat_add a b = Ret m \/ mat_sub a b = Ret m \/
      mat_neg a = Ret m \/ (exists s, mat_scale s a = Ret m) \/ hstack [a; b] = Ret m \/ vstack [a; b] = Ret m \/
      (exists x y x' y', submatrix a x y x' y' = Ret m) \/ (exists n, identity n = Ret m) -> wfm m.
  Proof.
    intros a b Wa Wb Hc m H.
    assert (Z : forall f, mat_zip f a b = Ret m -> wfm m).
    { intros f E. unfold mat_zip in E. apply bind_inv in E as (? & E1 & E). apply bind_inv in E as (? & E2 & E).
      apply assert_inv in E1, E2. apply Nat.eqb_eq in E1, E2. injection E as <-. destruct Wa as [W1 W2], Wb as [W3 W4].
      assert (L : length (zipw f (data a) (data b)) = length (data a)) by (rewrite zipw_length; lia).
      split; simpl; [lia|]. intros E. rewrite E in L. simpl in L. nia. }
    destruct H as [H|[H|[H|[H|[H|[[s H]|[H|[H|[(x & y & x' & y' & H)|[n H]]]]]]]]]].
    - unfold mat_mul in H. apply bind_inv in H as (? & _ & H). apply bind_inv in H as (? & _ & H).
      apply mat_new_wf in H. tauto.
    - unfold transpose in H. apply bind_inv in H as (? & _ & H). apply mat_new_wf in H. tauto.
    - eauto.
    - eauto.
    - unfold mat_neg in H. apply mat_new_wf in H. tauto.
    - injection H as <-. destruct Wa as [W1 W2]. split; simpl; [rewrite map_length; auto|].
      intros E. apply map_eq_nil in E. auto.
    - unfold hstack in H. apply bind_inv in H as (? & _ & H). apply bind_inv in H as (? & _ & H).
      apply mat_new_wf in H. tauto.
    - unfold vstack in H. apply bind_inv in H as (? & _ & H). apply bind_inv in H as (? & _ & H).
      apply mat_new_wf in H. tauto.
    - unfold submatrix in H. do 5 (apply bind_inv in H as (? & _ & H)). apply mat_new_wf in H. tauto.
    - unfold identity in H. apply mat_new_wf in H. tauto.
  Qed.
End C14.
Print Assumptions C14_new.
Print Assumptions C14_hstack.
Print Assumptions C14_multiplication_associative.
Print Assumptions C14_results_well_formed.

(** the hypotheses are met: a 2 x 3 integer matrix, its transpose, a product
    and a stack of two different parts *)
Example C14_case : let a := Mat 2 3 [1; 2; 3; 4; 5; 6]%Z in
  wfm a /\ is_mat a 2 3 (fun i j => (3 * Z.of_nat i + Z.of_nat j + 1)%Z) /\
  mat_new 3 [1; 2; 3; 4; 5; 6]%Z = Ret a /\
  transpose a = Ret (Mat 3 2 [1; 4; 2; 5; 3; 6]%Z) /\
  mat_mul a (Mat 3 2 [1; 4; 2; 5; 3; 6]%Z) = Ret (Mat 2 2 [14; 32; 32; 77]%Z) /\
  hstack [a; Mat 2 1 [7; 8]%Z] = Ret (Mat 2 4 [1; 2; 3; 7; 4; 5; 6; 8]%Z) /\
  submatrix a 0 2 1 3 = Ret (Mat 2 2 [2; 3; 5; 6]%Z).
Proof.
  simpl. splits; try reflexivity.
  - split; simpl; auto. discriminate.
  - unfold is_mat. simpl. splits; auto. intros [|[|i]] [|[|[|j]]] Hi Hj; try lia; reflexivity.
Qed.
