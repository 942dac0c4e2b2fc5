(** The reduced shapes of integer and rational matrices, and what [solve_row]
    does on them. *)
From Coq Require Import List ZArith QArith Qcanon Lia Bool PeanoNat Ring Field Setoid.
From Verif Require Import Base Vec Elim Matrix Scalars LinAlg.
Import ListNotations.

Open Scope Z_scope.

Lemma residual_ok (a : list Z) (x : list (list Z)) col t :
  (length x <= length a)%nat -> (forall v, In v x -> (col < length v)%nat) ->
  residual a x col t = Ret (t - sumf (length x) (fun l => vget a l * vget (nth l x []) col)).
Proof.
  revert a t; induction x as [|xi x IH]; intros a t Hl Hv.
  - destruct a; change (Ret t = Ret (t - 0)); f_equal; ring.
  - destruct a as [|ai a]; [simpl in Hl; lia|]. cbn [residual length].
    rewrite nth_error_vget by (apply Hv; simpl; auto). simpl unwrap. cbn [bind].
    rewrite IH; [|simpl in Hl; lia|intros; apply Hv; simpl; auto].
    f_equal. rewrite (sumf_S_l (R:=Z)). cbn [radd rmul Z_dom nth].
    change (vget (ai :: a) 0) with ai. change (fun i => vget (ai :: a) (S i) * vget (nth i x []) col) with (fun i => vget a i * vget (nth i x []) col). ring.
Qed.

Lemma solve_row_Z_from_ok (a : list Z) (x : list (list Z)) (b : list Z) k col :
  (length x < length a)%nat -> lens k x -> (col + length b = k)%nat ->
  vget a (length x) <> 0 ->
  let res := fun j => vget b (j - col) - sumf (length x) (fun l => vget a l * vget (nth l x []) j) in
  (exists y, solve_row_Z_from a x col b = Ret (Some y) /\ length y = length b /\
     forall j, (j < length b)%nat -> vget a (length x) * vget y j = res (col + j)%nat) \/
  (solve_row_Z_from a x col b = Ret None /\
     exists j, (j < length b)%nat /\ forall y, vget a (length x) * y <> res (col + j)%nat).
Proof.
  revert col; induction b as [|bc b IH]; intros col Ha Lx Hk Hp res.
  - left. exists []. simpl. splits; auto. intros; lia.
  - cbn [solve_row_Z_from]. rewrite residual_ok; [|lia|].
    2:{ intros v Hv. rewrite (lens_In _ _ _ Lx Hv). simpl in Hk. lia. }
    cbn [bind]. rewrite nth_error_vget by auto. simpl unwrap. cbn [bind].
    destruct (Z.eqb_spec (vget a (length x)) 0) as [Q|_]; [tauto|]. cbn [negb assert bind].
    set (t := bc - _).
    assert (Et : t = res (col + 0)%nat).
    { unfold res, t. replace (col + 0 - col)%nat with 0%nat by lia. replace (col + 0)%nat with col by lia. reflexivity. }
    destruct (Z.eqb_spec (Z.rem t (vget a (length x))) 0) as [Hr|Hr].
    + destruct (IH (S col)) as [(y & Ey & Ly & Hy)|(En & j & Hj & Hn)]; auto; [simpl in Hk; lia| |].
      * rewrite Ey. simpl. left. exists (Z.quot t (vget a (length x)) :: y). splits; auto; [simpl; lia|].
        intros [|j] Hj.
        -- change (vget (Z.quot t (vget a (length x)) :: y) 0) with (Z.quot t (vget a (length x))).
           rewrite <- Et. pose proof (Z.quot_rem' t (vget a (length x))). lia.
        -- specialize (Hy j ltac:(simpl in Hj; lia)).
           change (vget (Z.quot t (vget a (length x)) :: y) (S j)) with (vget y j). rewrite Hy. unfold res.
           replace (col + S j)%nat with (S col + j)%nat by lia. f_equal.
           replace (S col + j - col)%nat with (S (S col + j - S col))%nat by lia. reflexivity.
      * rewrite En. simpl. right. split; auto. exists (S j). split; [lia|]. intros y. specialize (Hn y).
        intros Q. apply Hn. rewrite Q. unfold res. replace (col + S j)%nat with (S col + j)%nat by lia. f_equal.
        replace (S col + j - col)%nat with (S (S col + j - S col))%nat by lia. reflexivity.
    + right. split; auto. exists 0%nat. split; [simpl; lia|]. intros y Q. apply Hr. rewrite Et, <- Q.
      rewrite Z.mul_comm. apply Z.rem_mul; auto.
Qed.

Lemma red_bound x d : 0 < d ->
  let f := Z.quot x d - (if x <? 0 then 1 else 0) in
  (f = 0 -> 0 <= x <= d) /\ 0 <= x - d * f <= d.
Proof.
  intros Hd f. assert (E : 0 <= x - d * f <= d).
  { unfold f. clear f. pose proof (Z.quot_rem' x d) as QR.
    destruct (Z.ltb_spec x 0).
    - assert (Z.rem x d <= 0) by (apply Z.rem_nonpos; lia).
      assert (Z.abs (Z.rem x d) < Z.abs d) by (apply Z.rem_bound_abs; lia). nia.
    - assert (0 <= Z.rem x d < d) by (apply Z.rem_bound_pos; lia). nia. }
  split; auto. intros F. rewrite F in E. lia.
Qed.

(** pivots positive, entries above a pivot between 0 and the pivot *)
#[global] Instance Z_shape : ShapeLaws Z.
Proof.
  refine {| s_norm := fun d => 0 < d; s_red := fun e d => 0 <= e <= d |}.
  - intros col b b' Pb Hn. apply pivot_Some in Pb as (Lb & Nb & Zb). simpl in Nb, Zb, Hn.
    unfold normalize_column_Z in Hn. rewrite nth_error_vget in Hn by auto. simpl in Hn.
    destruct (Z.ltb_spec (vget b col) 0); injection Hn as <-.
    + rewrite vget_map_from by auto. rewrite Nat.ltb_irrefl. lia.
    + lia.
  - intros col v b v' Hl Hc Hn Hz Hr. simpl in Hr, Hz.
    unfold reduce_column_Z in Hr. rewrite !nth_error_vget in Hr by lia. simpl in Hr.
    destruct (Z.eqb_spec (vget b col) 0); [lia|]. simpl in Hr.
    destruct (red_bound (vget v col) (vget b col) Hn) as [B0 B1].
    destruct (Z.eqb_spec (Z.quot (vget v col) (vget b col) - (if vget v col <? 0 then 1 else 0)) 0) as [Hf|Hf].
    + injection Hr as <-. auto.
    + rewrite covers_ok in Hr by auto. simpl in Hr. injection Hr as <-.
      rewrite vget_zip_from by lia. rewrite Nat.ltb_irrefl. exact B1.
  - intros a x b Hl Lx Hn Hr res.
    destruct (solve_row_Z_from_ok a x b (length b) 0 Hl Lx eq_refl ltac:(lia)) as [(y & Ey & Ly & Hy)|(En & j & Hj & Hno)].
    + left. exists y. splits; auto. intros j Hj. specialize (Hy j Hj). simpl in Hy. rewrite Nat.sub_0_r in Hy. exact Hy.
    + right. split; auto. exists j. split; auto. intros y. specialize (Hno y). simpl in Hno. rewrite Nat.sub_0_r in Hno.
      exact Hno.
Defined.
Close Scope Z_scope.

Open Scope Qc_scope.
(** pivots one, entries above a pivot zero *)
#[global] Instance Qc_shape : ShapeLaws Qc.
Proof.
  refine {| s_norm := fun d => d = 1; s_red := fun e d => e = 0 |}.
  - intros col b b' Pb Hn. simpl in Hn. rewrite normalize_Q_eq in Hn by auto. injection Hn as <-.
    rewrite vget_vscale. simpl. apply pivot_Some in Pb as (_ & Nb & _). simpl in Nb. field. auto.
  - intros col v b v' Hl Hc Hn Hz Hr. simpl in Hr, Hz. unfold reduce_column_Q in Hr.
    rewrite nth_error_vget in Hr by lia. simpl in Hr. rewrite covers_ok in Hr by auto. simpl in Hr.
    injection Hr as <-. rewrite vget_zip_from by (rewrite upd_length; lia).
    destruct (Nat.ltb_spec col (S col)); [|lia]. rewrite vget_upd, Nat.eqb_refl by lia. reflexivity.
  - intros a x b Hl Lx Hn Hr res. left. exists b. splits; auto. intros j Hj. unfold res. rewrite Hn.
    rewrite (sumf_zero (R:=Qc)).
    + simpl. ring.
    + intros l Hll. rewrite Hr by auto. simpl. ring.
Defined.
Close Scope Qc_scope.
