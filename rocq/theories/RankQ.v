(** The rank of a list of rational vectors, with facts stated for lists. *)
From Coq Require Import ZArith QArith Qcanon List Lia.
From mathcomp Require Import all_ssreflect all_algebra.
From Verif Require Import Base Vec Elim Matrix Scalars LinAlg Shapes MC Det ZQ Rank.
Set Implicit Arguments.
Unset Strict Implicit.
Unset Printing Implicit Defensive.
Import GRing.Theory.
Local Open Scope ring_scope.
Import ListNotations.

Section RankField.
  Context {F : fieldType} {RD : Dom F} {DL : DomLaws F} {RL : @RingDom F RD}.

  Lemma submx_span n (x : list F) vs : lens n vs -> length x = n -> (\row_(j < n) vget x j <= mxof (length vs) n vs)%MS -> span n vs x.
  Proof.
    move=> L Lx /submxP [D ED]. have [f Ef] := mxf_surj D.
    set cs := List.map (f 0%N) (List.seq 0 (length vs)).
    have Hcs : length cs = length vs by rewrite List.map_length List.seq_length.
    exists cs. split=> //. apply: vec_ext; first by rewrite lincomb_length.
    rewrite Lx => j /ltP Hj. have := @lincomb_mx F RD DL RL (length vs) n cs vs L erefl Hcs.
    have -> : \row_(i0 < length vs) vget cs i0 = D.
    { apply/rowP => j0. rewrite Ef !mxE /cs vget_map_seq //. exact/ltP. }
    rewrite -ED => /rowP /(_ (Ordinal Hj)). by rewrite !mxE.
  Qed.

  Lemma rank_snoc n (vs : list (list F)) v : lens n vs -> length v = n ->
    \rank (mxof (length (vs ++ [v])) n (vs ++ [v])) = \rank (mxof (length vs) n vs) -> span n vs v.
  Proof.
    move=> L Lv E. have L' : lens n (vs ++ [v]) by apply/List.Forall_app; split=> //; repeat constructor.
    have S : (mxof (length vs) n vs <= mxof (length (vs ++ [v])) n (vs ++ [v]))%MS.
    { apply: rows_submx => // w Hw. apply: span_In => //. apply: List.in_or_app. by left. }
    have := mxrank_leqif_sup S. case=> _. rewrite E eqxx => H.
    apply: submx_span => //. apply: submx_trans (esym H). apply: span_submx => //. apply: span_In => //.
    apply: List.in_or_app. right. by left.
  Qed.
End RankField.

Definition rk (n : nat) (vs : list (list Qc)) : nat := \rank (mxof (length vs) n vs : 'M[Qc]_(length vs, n)).

Lemma rk_extend n vs : lens n vs -> exists bs, extend_all nil vs = Ret bs /\ length bs = rk n vs.
Proof.
  move=> L. have [bs [E _]] := extend_all_span n vs L. exists bs. split=> //.
  have [_ [_ H]] := extend_rank_Q L. exact: H.
Qed.
Lemma rk_same n vs ws : lens n vs -> lens n ws -> same_span n vs ws -> rk n vs = rk n ws.
Proof. exact: same_span_rank. Qed.
Lemma rk_length n vs : (rk n vs <= length vs)%coq_nat.
Proof. apply/leP. exact: rank_leq_row. Qed.
Lemma rk_dim n vs : (rk n vs <= n)%coq_nat.
Proof. apply/leP. exact: rank_leq_col. Qed.
Lemma rk_mono n vs ws : lens n vs -> lens n ws -> (forall v, List.In v vs -> span n ws v) -> (rk n vs <= rk n ws)%coq_nat.
Proof. move=> Lv Lw H. apply/leP. apply: mxrankS. exact: rows_submx. Qed.

Lemma rk_full n vs x : lens n vs -> rk n vs = n -> length x = n -> span n vs x.
Proof.
  move=> L E Lx. apply: submx_span => //. apply: submx_full. rewrite /row_full -/(rk n vs). by apply/eqP.
Qed.
Lemma rk_snoc n vs v : lens n vs -> length v = n -> rk n (vs ++ [v]) = rk n vs -> span n vs v.
Proof. exact: rank_snoc. Qed.
Lemma rk_units n : lens n (List.map (vunit n) (List.seq 0 n)) /\ rk n (List.map (vunit n) (List.seq 0 n)) = n.
Proof.
  set us := List.map (vunit n) (List.seq 0 n).
  have Lu : lens n us by apply: units_lens. split=> //.
  rewrite /rk. have Hn : length us = n by rewrite List.map_length List.seq_length.
  have ME : mxof n n us = 1%:M :> 'M[Qc]_n.
  { rewrite -mxf_delta. apply/matrixP => i j. rewrite !mxE.
    rewrite (List.nth_indep _ _ (vunit n 0)); last by rewrite Hn; apply/ltP.
    rewrite List.map_nth List.seq_nth ?vget_vunit /delta //=; try exact/ltP.
    have -> : Nat.ltb j n = true by apply/Nat.ltb_lt/ltP. by rewrite andbT. }
  clear -Hn ME. clearbody us. subst n. by rewrite ME mxrank1.
Qed.
Lemma rk_spanning n vs : lens n vs -> (forall x, length x = n -> span n vs x) -> rk n vs = n.
Proof.
  move=> L H. have [Lu E] := rk_units n.
  apply: Nat.le_antisymm; first exact: rk_dim. rewrite -{1}E. apply: rk_mono => // v Hv. apply: H. exact: lens_In Lu Hv.
Qed.

(** independence *)
Lemma rk_indep n vs cs : lens n vs -> rk n vs = length vs -> length cs = length vs -> lincomb n cs vs = vzero n -> cs = vzero (length vs).
Proof.
  move=> L E Hc Z. have F : row_free (mxof (length vs) n vs : 'M[Qc]_(length vs, n)) by rewrite /row_free -/(rk n vs) E.
  have := @lincomb_mx _ Qc_dom Qc_laws Qc_ringdom (length vs) n cs vs L erefl Hc. rewrite Z.
  have -> : (\row_(j < n) vget (vzero n) j : 'rV[Qc]_n) = 0 by apply/rowP => j; rewrite !mxE vget_vzero.
  rewrite -(mul0mx _ (mxof (length vs) n vs)) => /(row_free_inj F) H.
  apply: vec_ext; first by rewrite vzero_length. rewrite Hc => i /ltP Hi. rewrite vget_vzero.
  move/rowP: H => /(_ (Ordinal Hi)). by rewrite !mxE.
Qed.
Lemma indep_rk n vs : lens n vs -> (forall cs, length cs = length vs -> lincomb n cs vs = vzero n -> cs = vzero (length vs)) -> rk n vs = length vs.
Proof.
  move=> L H. apply/eqP. rewrite -/(row_free _) -kermx_eq0. apply/eqP/row_matrixP => i. rewrite row0.
  set u := row i _. have Hu : u *m mxof (length vs) n vs = 0 by rewrite /u -row_mul mulmx_ker row0.
  clearbody u. have [f Ef] := mxf_surj u. set cs := List.map (f 0%N) (List.seq 0 (length vs)).
  have Hcs : length cs = length vs by rewrite List.map_length List.seq_length.
  have Vc : \row_(i0 < length vs) vget cs i0 = u.
  { apply/rowP => j0. rewrite Ef !mxE /cs vget_map_seq //. exact/ltP. }
  have := @lincomb_mx _ Qc_dom Qc_laws Qc_ringdom (length vs) n cs vs L erefl Hcs. rewrite Vc Hu => HZ.
  have C : cs = vzero (length vs).
  { apply: H => //. apply: vec_ext; first by rewrite lincomb_length // vzero_length. rewrite lincomb_length // => j /ltP Hj.
    rewrite vget_vzero. move/rowP: HZ => /(_ (Ordinal Hj)). by rewrite !mxE. }
  rewrite -Vc. apply/rowP => j. by rewrite !mxE C vget_vzero.
Qed.
