(** More facts about the matrix model: stacks of any number of parts, shapes,
    panics on mismatched shapes, ring laws. *)
From Coq Require Import List ZArith Lia Bool PeanoNat Ring Setoid.
From Verif Require Import Base Vec Matrix.
Import ListNotations.
Open Scope nat_scope.

(** [m] is a matrix with [r] rows, [c] columns and the entry [f i j] in row
    [i], column [j], stored row by row *)
Definition is_mat {R} {RD : Dom R} (m : mat R) (r c : nat) (f : nat -> nat -> R) : Prop :=
  nrows m = r /\ ncols m = c /\ length (data m) = r * c /\
  forall i j, i < r -> j < c -> nth_error (data m) (i * c + j) = Some (f i j).

Section More.
  Context {R : Type} {RD : Dom R} {DL : DomLaws R}.
  Add Ring Rring : (@r_th R RD DL).

  Lemma is_mat_mk r c (f : nat -> nat -> R) : is_mat (mk r c f) r c f.
  Proof.
    unfold is_mat. simpl. rewrite mk_data_length. splits; auto. intros i j Hi Hj.
    rewrite (nth_error_nth' _ r0) by (rewrite mk_data_length; nia). f_equal. apply (mk_ent r c f i j Hi Hj).
  Qed.

  Lemma is_mat_eq (m : mat R) r c f : is_mat m r c f -> m = mk r c f.
  Proof.
    destruct m as [nr nc d]. unfold is_mat. simpl. intros (-> & -> & Hl & H). unfold mk. f_equal.
    apply nth_ext with (d := r0) (d' := r0); [rewrite mk_data_length; auto|].
    intros k Hk. rewrite Hl in Hk.
    assert (c <> 0) by (intros ->; lia).
    assert (E : k = (k / c) * c + k mod c) by (rewrite Nat.mul_comm; apply Nat.div_mod; auto).
    assert (k / c < r) by (apply Nat.div_lt_upper_bound; lia).
    assert (k mod c < c) by (apply Nat.mod_upper_bound; auto).
    rewrite E. specialize (H (k / c) (k mod c) ltac:(auto) ltac:(auto)).
    rewrite (nth_error_nth _ _ _ H).
    pose proof (mk_ent r c f (k / c) (k mod c) ltac:(auto) ltac:(auto)) as M. unfold ent in M. simpl in M. auto.
  Qed.

  Lemma is_mat_wf (m : mat R) : wfm m -> is_mat m (nrows m) (ncols m) (ent m).
  Proof. intros W. rewrite (wfm_eq_mk m W) at 1. apply is_mat_mk. Qed.

  Lemma mk_wf r c (f : nat -> nat -> R) : 0 < c -> wfm (mk r c f).
  Proof.
    intros Hc. split; simpl; [apply mk_data_length|]. intros E. pose proof (mk_data_length r c f) as L.
    rewrite E in L. simpl in L. nia.
  Qed.

  (** shape of a well-formed matrix with at least one column *)
  Lemma wf_mk (m : mat R) r c : wfm m -> nrows m = r -> ncols m = c -> exists f, m = mk r c f.
  Proof. intros W <- <-. exists (ent m). apply wfm_eq_mk; auto. Qed.

  (** *** stacks *)
  Definition prow (i : nat) (m : mat R) : list R := frow (ncols m) (ent m) i.

  Lemma index_wf (m : mat R) i j : wfm m -> i < nrows m -> j < ncols m -> index m i j = Ret (ent m i j).
  Proof. intros W Hi Hj. rewrite (wfm_eq_mk m W) at 1. apply index_mk; auto. Qed.

  Lemma hstack_wf (parts : list (mat R)) r :
    parts <> [] -> Forall (fun m => wfm m /\ nrows m = r) parts -> 0 < list_sum (map ncols parts) ->
    hstack parts = Ret (mrows (list_sum (map ncols parts)) (map (fun i => concat (map (prow i) parts)) (seq 0 r))).
  Proof.
    intros Hne HF Hc. unfold hstack. destruct parts as [|p0 ps] eqn:Ep; [congruence|]. rewrite <- Ep in *.
    assert (Hr0 : nrows p0 = r) by (subst parts; inversion HF; tauto). rewrite Hr0.
    replace (forallb _ parts) with true.
    2:{ symmetry. apply forallb_forall. intros m Hm. rewrite Forall_forall in HF. apply Nat.eqb_eq, HF; auto. }
    cbn [assert bind].
    rewrite (mapM_seq _ (fun i => concat (map (prow i) parts))).
    - cbn [bind]. apply mat_new_ok; auto. unfold lens. apply Forall_forall. intros v Hv.
      apply in_map_iff in Hv as (i & <- & _). clear. induction parts as [|p l IH]; simpl; auto.
      rewrite app_length, IH. unfold prow. rewrite frow_length. reflexivity.
    - intros i Hi. rewrite (mapM_Ret _ (prow i)); [reflexivity|].
      intros p Hp. rewrite Forall_forall in HF. destruct (HF p Hp) as [W Hn].
      unfold prow, frow. apply mapM_seq. intros j Hj. apply index_wf; auto. lia.
  Qed.

  Lemma prow_length i (m : mat R) : length (prow i m) = ncols m.
  Proof. apply frow_length. Qed.

  Lemma vget_prow i (m : mat R) j : j < ncols m -> vget (prow i m) j = ent m i j.
  Proof. apply vget_frow. Qed.

  Lemma nth_concat_gen (l : list (list R)) k j d :
    k < length l -> j < length (nth k l []) ->
    nth (list_sum (map (@length R) (firstn k l)) + j) (concat l) d = nth j (nth k l []) d.
  Proof.
    revert k; induction l as [|v l IH]; intros k Hk Hj; simpl in *; [lia|].
    destruct k as [|k]; simpl.
    - rewrite app_nth1 by lia. auto.
    - rewrite app_nth2 by lia. replace (_ - length v) with (list_sum (map (@length R) (firstn k l)) + j) by lia.
      apply IH; auto; lia.
  Qed.

  Lemma vstack_wf (parts : list (mat R)) c :
    parts <> [] -> Forall (fun m => wfm m /\ ncols m = c) parts -> 0 < c ->
    vstack parts = Ret (Mat (list_sum (map nrows parts)) c (concat (map data parts))).
  Proof.
    intros Hne HF Hc. unfold vstack. destruct parts as [|p0 ps] eqn:Ep; [congruence|]. rewrite <- Ep in *.
    assert (Hr0 : ncols p0 = c) by (subst parts; inversion HF; tauto). rewrite Hr0.
    replace (forallb _ parts) with true.
    2:{ symmetry. apply forallb_forall. intros m Hm. rewrite Forall_forall in HF. apply Nat.eqb_eq, HF; auto. }
    cbn [assert bind].
    rewrite (mapM_Ret _ data).
    - cbn [bind]. clear p0 ps Ep Hne Hr0.
      assert (L : length (concat (map data parts)) = list_sum (map nrows parts) * c).
      { induction HF as [|m l [[W _] Hm] HF IH]; simpl; auto. rewrite app_length, IH, W, Hm. lia. }
      unfold mat_new. rewrite L. destruct (Nat.eqb_spec (list_sum (map nrows parts) * c) 0) as [E|E].
      + assert (list_sum (map nrows parts) = 0) as -> by nia. auto.
      + destruct (Nat.eqb_spec c 0); [lia|]. rewrite Nat.div_mul by auto. rewrite Nat.eqb_refl. auto.
    - intros p Hp. rewrite Forall_forall in HF. destruct (HF p Hp) as [W Hn].
      rewrite (mapM_seq _ (frow (ncols p) (ent p))).
      + simpl. f_equal. change (concat (map (frow (ncols p) (ent p)) (seq 0 (nrows p)))) with
          (data (mk (nrows p) (ncols p) (ent p))). rewrite <- wfm_eq_mk; auto.
      + intros i Hi. unfold frow. apply mapM_seq. intros j Hj. apply index_wf; auto.
  Qed.

  Lemma hstack_mk_cols r (cs : list (list R)) :
    0 < length cs -> hstack (map (fun c => mk r 1 (fun i _ => vget c i)) cs) =
    Ret (mk r (length cs) (fun i j => vget (nth j cs []) i)).
  Proof.
    intros Hl.
    assert (E : list_sum (map ncols (map (fun c => mk r 1 (fun i _ => vget c i)) cs)) = length cs).
    { clear. induction cs; simpl; auto. }
    rewrite (hstack_wf _ r).
    - rewrite E. rewrite mk_mrows. f_equal. f_equal. unfold frows. apply map_ext_in. intros i Hi.
      apply in_seq in Hi. unfold frow. rewrite map_map.
      transitivity (concat (map (fun c => [vget c i]) cs)).
      + f_equal. apply map_ext. intros c. unfold prow. cbn [ncols mk]. unfold frow. simpl. f_equal.
        apply (mk_ent r 1 (fun i _ => vget c i)); lia.
      + clear. induction cs as [|c cs IH]; simpl; auto. rewrite IH. f_equal.
        rewrite <- seq_shift, map_map. auto.
    - destruct cs; simpl in *; [lia|discriminate].
    - apply Forall_forall. intros m Hm. apply in_map_iff in Hm as (c & <- & _). split; auto. apply mk_wf; lia.
    - rewrite E; auto.
  Qed.

  (** columns side by side, e.g. Matrix::hstack of column vectors *)
  Lemma hstack_cols r (cs : list (list R)) :
    0 < length cs -> lens r cs ->
    hstack (map (fun c => mrows 1 (map (fun x => [x]) c)) cs) =
    Ret (mk r (length cs) (fun i j => vget (nth j cs []) i)).
  Proof.
    intros Hl L.
    assert (W : forall c : list R, length c = r ->
      mrows 1 (map (fun x => [x]) c) = mk r 1 (fun i _ => vget c i)).
    { intros c Hc. apply is_mat_eq. unfold is_mat, mrows. simpl. rewrite map_length, concat_singles. splits; auto.
      - lia.
      - intros i j Hi Hj. rewrite (nth_error_nth' _ r0) by lia. unfold vget. f_equal. f_equal. lia. }
    erewrite map_ext_in by (intros c Hc; apply W; eapply lens_In; eauto). apply hstack_mk_cols; auto.
  Qed.

  (** *** ring laws of products *)
  Lemma mat_mul_assoc_mk m n k l (f g h : nat -> nat -> R) : 0 < k -> 0 < l ->
    (do ab <- mat_mul (mk m n f) (mk n k g); mat_mul ab (mk k l h)) =
    (do bc <- mat_mul (mk n k g) (mk k l h); mat_mul (mk m n f) bc).
  Proof.
    intros Hk Hl. rewrite !mat_mul_mk by auto. cbn [bind]. rewrite !mat_mul_mk by auto. f_equal.
    apply mk_ext. intros i j _ _.
    transitivity (sumf k (fun a => sumf n (fun b => rmul (rmul (f i b) (g b a)) (h a j)))).
    - apply sumf_ext. intros a _.
      rewrite (sumf_ext n (fun b => rmul (rmul (f i b) (g b a)) (h a j)) (fun b => rmul (h a j) (rmul (f i b) (g b a)))) by (intros; ring).
      rewrite sumf_scale. ring.
    - rewrite sumf_swap. apply sumf_ext. intros b _.
      rewrite <- sumf_scale. apply sumf_ext. intros; ring.
  Qed.

  Lemma mat_mul_id_l m n (f : nat -> nat -> R) : 0 < n -> mat_mul (mk m m delta) (mk m n f) = Ret (mk m n f).
  Proof.
    intros Hn. rewrite mat_mul_mk by auto. f_equal. apply mk_ext. intros i j Hi Hj.
    rewrite (sumf_single m _ i Hi).
    - unfold delta. rewrite Nat.eqb_refl. ring.
    - intros k _ Hk. unfold delta. destruct (Nat.eqb_spec k i); [congruence|ring].
  Qed.

  Lemma mat_mul_id_r m n (f : nat -> nat -> R) : 0 < n -> mat_mul (mk m n f) (mk n n delta) = Ret (mk m n f).
  Proof.
    intros Hn. rewrite mat_mul_mk by auto. f_equal. apply mk_ext. intros i j Hi Hj.
    rewrite (sumf_single n _ j Hj).
    - unfold delta. rewrite Nat.eqb_refl. ring.
    - intros k _ Hk. unfold delta. destruct (Nat.eqb_spec j k); [congruence|ring].
  Qed.

  Lemma mat_mul_transpose m n k (f g : nat -> nat -> R) : 0 < m -> 0 < n -> 0 < k ->
    (do ab <- mat_mul (mk m n f) (mk n k g); transpose ab) =
    (do bt <- transpose (mk n k g); do at_ <- transpose (mk m n f); mat_mul bt at_).
  Proof.
    intros. rewrite mat_mul_mk by auto. cbn [bind]. rewrite !transpose_mk by auto. cbn [bind].
    rewrite mat_mul_mk by auto. f_equal. apply mk_ext. intros i j _ _. apply sumf_ext. intros; ring.
  Qed.

  (** *** mismatched shapes and shape of every result *)
  Lemma assert_false_Panic {A} (k : unit -> outcome A) b : b = false -> bind (assert b) k = Panic.
  Proof. intros ->. reflexivity. Qed.

  Lemma bind_inv {A B} (m : outcome A) (k : A -> outcome B) r :
    bind m k = Ret r -> exists a, m = Ret a /\ k a = Ret r.
  Proof. destruct m; simpl; try discriminate. eauto. Qed.

  Lemma assert_inv b u : assert b = Ret u -> b = true.
  Proof. destruct b; auto. discriminate. Qed.

  Lemma mat_mul_shape (a b m : mat R) : mat_mul a b = Ret m -> nrows b = ncols a /\ ncols b = ncols m.
  Proof.
    unfold mat_mul. intros Hx. apply bind_inv in Hx as (? & Hx1 & Hx). apply assert_inv in Hx1.
    apply Nat.eqb_eq in Hx1. apply bind_inv in Hx as (? & _ & Hx). apply mat_new_wf in Hx as (_ & Hx & _). auto.
  Qed.
End More.
