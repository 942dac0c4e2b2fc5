(** Rank and inverse against mathcomp's notions. *)
From Coq Require Import ZArith QArith Qcanon List Lia.
From mathcomp Require Import all_ssreflect all_algebra.
From Verif Require Import Base Vec Elim Matrix Scalars LinAlg Shapes MC Det ZQ.
Set Implicit Arguments.
Unset Strict Implicit.
Unset Printing Implicit Defensive.
Import GRing.Theory.
Local Open Scope ring_scope.

Section Inverse.
  Context {T : idomainType} {RD : Dom T} {DL : DomLaws T} {RL : RingDom (T:=T)}.

  Lemma solves_mx m n k (f g x : nat -> nat -> T) :
    solves m n k f g x <-> mxf m n f *m mxf n k x = mxf m k g.
  Proof.
    split.
    - move=> S. apply/matrixP => i j. rewrite !mxE -(S i j); try by apply/ltP.
      rewrite sumf_big. apply: eq_bigr => l _. by rewrite !mxE rdmul.
    - move=> E i j /ltP Hi /ltP Hj. move/matrixP/(_ (Ordinal Hi) (Ordinal Hj)): E. rewrite !mxE /= => <-.
      rewrite sumf_big. apply: eq_bigr => l _. by rewrite !mxE /= rdmul.
  Qed.

  Lemma mxf_delta n : mxf n n delta = 1%:M :> 'M[T]_n.
  Proof.
    apply/matrixP => i j. rewrite !mxE /delta -val_eqE /=.
    case: Nat.eqb_spec => [->|H]; first by rewrite eqxx rd1.
    rewrite rd0. by case: eqP => // E; case: H.
  Qed.

  (** every mathcomp matrix comes from a function on naturals *)
  Lemma mxf_surj m n (M : 'M[T]_(m, n)) : exists f, M = mxf m n f.
  Proof.
    case: m M => [|m] M; first by exists (fun _ _ => 0); apply/matrixP => [[]].
    case: n M => [|n] M; first by exists (fun _ _ => 0); apply/matrixP => i [].
    exists (fun i j => M (inord i) (inord j)). apply/matrixP => i j. by rewrite mxE !inord_val.
  Qed.

  Lemma inverse_unit n (f : nat -> nat -> T) :
    (exists x, solves n n n f delta x) <-> \det (mxf n n f) \is a GRing.unit.
  Proof.
    rewrite -unitmxE. split.
    - move=> [x /solves_mx]. rewrite mxf_delta => /mulmx1_unit [] //.
    - move=> U. have [x Ex] := mxf_surj (invmx (mxf n n f)). exists x. apply/solves_mx.
      by rewrite -Ex mxf_delta mulmxV.
  Qed.

  Lemma solves_comm n (f x : nat -> nat -> T) : solves n n n f delta x -> solves n n n x delta f.
  Proof. move=> /solves_mx. rewrite mxf_delta => /mulmx1C E. apply/solves_mx. by rewrite E mxf_delta. Qed.
End Inverse.

Section RankField.
  Context {F : fieldType} {RD : Dom F} {DL : DomLaws F} {RL : @RingDom F RD}.

  Lemma lincomb_mx m n (cs : list F) (vs : list (list F)) :
    lens n vs -> length vs = m -> length cs = m ->
    (\row_(j < n) vget (lincomb n cs vs) j) = (\row_(i < m) vget cs i) *m mxof m n vs.
  Proof.
    move=> L Hv Hc. apply/rowP => j. rewrite !mxE vget_lincomb //; last by rewrite Hc.
    rewrite Hv sumf_big. apply: eq_bigr => l _. by rewrite !mxE rdmul.
  Qed.

  Lemma span_submx m n (x : list F) vs : lens n vs -> length vs = m ->
    span n vs x -> (\row_(j < n) vget x j <= mxof m n vs)%MS.
  Proof. move=> L Hv [cs [Hc ->]]. rewrite (lincomb_mx (m := m)) //; last by rewrite Hc. exact: submxMl. Qed.

  Lemma rows_submx m n k vs ws : lens n vs -> length vs = k -> lens n ws -> length ws = m ->
    (forall v, List.In v vs -> span n ws v) -> (mxof k n vs <= mxof m n ws)%MS.
  Proof.
    move=> Lv Hv Lw Hw H. apply/row_subP => i.
    have -> : row i (mxof k n vs) = \row_j vget (List.nth i vs nil) j.
    { apply/rowP => j. by rewrite !mxE. }
    apply: span_submx => //. apply: H. apply: List.nth_In. rewrite Hv. exact/ltP.
  Qed.

  Lemma same_span_rank n vs ws : lens n vs -> lens n ws -> same_span n vs ws ->
    \rank (mxof (length vs) n vs) = \rank (mxof (length ws) n ws).
  Proof.
    move=> Lv Lw S. apply/eqP. rewrite eqn_leq. apply/andP; split; apply: mxrankS.
    - apply: rows_submx => // v Hv. apply/S. exact: span_In.
    - apply: rows_submx => // v Hv. apply/S. exact: span_In.
  Qed.

  Lemma echelon_rank n k bs : lens n bs -> echelon_from k bs -> \rank (mxof (length bs) n bs) = length bs.
  Proof.
    move=> L E. apply/eqP. apply/row_freeP.
    apply/row_freeP. rewrite -kermx_eq0. apply/eqP. apply/row_matrixP => i.
    set u := row i _. have Hu : u *m mxof (length bs) n bs = 0.
    { rewrite /u -row_mul mulmx_ker. by rewrite row0. }
    have [f Ef] := mxf_surj u.
    set cs := List.map (f 0%N) (List.seq 0 (length bs)).
    have Hcs : length cs = length bs by rewrite List.map_length List.seq_length.
    have Vc : forall j : 'I_(length bs), vget cs j = u ord0 j.
    { move=> j. rewrite Ef mxE /cs vget_map_seq //. exact/ltP. }
    have Z : lincomb n cs bs = vzero n.
    { apply: vec_ext; first by rewrite lincomb_length // vzero_length.
      rewrite lincomb_length // => j /ltP Hj. rewrite vget_vzero rd0.
      have := lincomb_mx L erefl Hcs. have -> : \row_(i0 < length bs) vget cs i0 = u.
      { apply/rowP => j0. by rewrite mxE Vc. }
      rewrite Hu => /rowP /(_ (Ordinal Hj)). by rewrite !mxE. }
    have := echelon_independent n k bs cs L E Hcs Z => C.
    apply/rowP => j. by rewrite -Vc C vget_vzero rd0 row0 mxE.
  Qed.
End RankField.

(** ** the integers inside the rationals *)
Definition vZQ (v : list Z) : list Qc := List.map ZQ v.

Lemma vget_vZQ v i : vget (vZQ v) i = ZQ (vget v i).
Proof. rewrite /vget /vZQ -(List.map_nth ZQ) ZQ_0. reflexivity. Qed.
Lemma vZQ_length v : length (vZQ v) = length v.
Proof. exact: List.map_length. Qed.
Lemma vZQ_lens n vs : lens n vs -> lens n (List.map vZQ vs).
Proof. elim=> [|v l Hv L IH]; constructor=> //. by rewrite vZQ_length. Qed.
Lemma vZQ_vadd u v : vZQ (vadd u v) = vadd (vZQ u) (vZQ v).
Proof.
  rewrite /vadd. elim: u v => [|a u IH] [|b v] //=. by rewrite IH ZQ_add.
Qed.
Lemma vZQ_vscale c v : vZQ (vscale c v) = vscale (ZQ c) (vZQ v).
Proof. rewrite /vZQ /vscale !List.map_map. apply: List.map_ext => a. exact: ZQ_mul. Qed.
Lemma vZQ_vzero n : vZQ (vzero n) = vzero n.
Proof. by elim: n => //= n IH; rewrite /vzero /= in IH *; rewrite IH. Qed.
Lemma vZQ_lincomb n cs vs : vZQ (lincomb n cs vs) = lincomb n (vZQ cs) (List.map vZQ vs).
Proof.
  elim: cs vs => [|c cs IH] [|v vs] /=; try exact: vZQ_vzero. by rewrite vZQ_vadd vZQ_vscale IH.
Qed.
Lemma vZQ_span n vs x : span n vs x -> span n (List.map vZQ vs) (vZQ x).
Proof.
  move=> [cs [Hc ->]]. exists (vZQ cs). rewrite vZQ_length List.map_length. split=> //. exact: vZQ_lincomb.
Qed.
Lemma vZQ_pivot v : pivot (vZQ v) = pivot v.
Proof.
  elim: v => [//|a v IH] /=. rewrite IH.
  case: (Z.eqb_spec a 0) => [->|H].
  - by rewrite ZQ_0; case: (Qc_eqb_spec 0 0).
  - case: (Qc_eqb_spec (ZQ a) 0) => // E. by case: H; apply: ZQ_inj.
Qed.
Lemma vZQ_echelon k bs : echelon_from k bs -> echelon_from k (List.map vZQ bs).
Proof.
  elim=> [k'|k' p b bs' Hp Hk E IH] /=; first by constructor.
  apply: (ech_cons _ p) => //. by rewrite vZQ_pivot.
Qed.

Lemma extend_rank_Q n (rows : list (list Qc)) : lens n rows ->
  extend_all nil rows <> Panic /\ extend_all nil rows <> Timeout /\
  forall bs, extend_all nil rows = Ret bs -> length bs = \rank (mxof (length rows) n rows).
Proof.
  move=> L. have [bs [E [Lb [Eb [S _]]]]] := extend_all_span n rows L. rewrite E. splits=> //.
  move=> _ [<-]. rewrite (same_span_rank L Lb S). by rewrite (echelon_rank Lb Eb).
Qed.

Lemma extend_rank_Z n (rows : list (list Z)) : lens n rows ->
  extend_all nil rows <> Panic /\ extend_all nil rows <> Timeout /\
  forall bs, extend_all nil rows = Ret bs -> length bs = \rank (mxof (length rows) n (List.map vZQ rows)).
Proof.
  move=> L. have [bs [E [Lb [Eb [S _]]]]] := extend_all_span n rows L. rewrite E. splits=> //.
  move=> _ [<-].
  have Lr' := vZQ_lens L. have Lb' := vZQ_lens Lb.
  have S' : same_span n (List.map vZQ rows) (List.map vZQ bs).
  { move=> x; split; apply: span_trans => // v /List.in_map_iff [w [<- Hw]]; apply: vZQ_span; apply/S; exact: span_In. }
  have := same_span_rank Lr' Lb' S'. rewrite (echelon_rank Lb' (vZQ_echelon Eb)) !List.map_length => ->. by [].
Qed.

Lemma mxof_frows {T : idomainType} {RD : Dom T} m n (f : nat -> nat -> T) : mxof m n (frows m n f) = mxf m n f.
Proof.
  apply/matrixP => i j. rewrite !mxE nth_frows; last exact/ltP. rewrite vget_frow //. exact/ltP.
Qed.

Lemma rank_mk_Q m n (f : nat -> nat -> Qc) : (0 < n)%nat -> rank (mk m n f) = Ret (\rank (mxf m n f)).
Proof.
  move=> /ltP Hn. rewrite mk_mrows. have L := frows_lens m n f.
  have [bs [E _]] := extend_all_span n _ L. rewrite (rank_mrows n _ bs) //.
  have [_ [_ H]] := extend_rank_Q L. rewrite (H _ E) frows_length. by rewrite mxof_frows.
Qed.

Lemma rank_mk_Z m n (f : nat -> nat -> Z) : (0 < n)%nat ->
  rank (mk m n f) = Ret (\rank (mxf m n (fun i j => ZQ (f i j)))).
Proof.
  move=> /ltP Hn. rewrite mk_mrows. have L := frows_lens m n f.
  have [bs [E _]] := extend_all_span n _ L. rewrite (rank_mrows n _ bs) //.
  have [_ [_ H]] := extend_rank_Z L. rewrite (H _ E) frows_length. congr (Ret (\rank _)).
  rewrite -mxof_frows. congr mxof. rewrite /frows List.map_map. apply: List.map_ext => i.
  by rewrite /vZQ /frow List.map_map.
Qed.
