(** Row operations of the elimination and mathcomp's determinant. *)
From Coq Require Import ZArith QArith Qcanon List Lia.
From mathcomp Require Import all_ssreflect all_algebra.
From Verif Require Import Base Vec Elim Matrix Scalars LinAlg Shapes MC.
Set Implicit Arguments.
Unset Strict Implicit.
Unset Printing Implicit Defensive.
Import GRing.Theory.
Local Open Scope ring_scope.

Section Det.
  Context {T : idomainType} {RD : Dom T} {DL : DomLaws T} {RL : RingDom (T:=T)}.

  (** the mathcomp matrix with entries [f i j] *)
  Definition mxf (m n : nat) (f : nat -> nat -> T) : 'M[T]_(m, n) := \matrix_(i < m, j < n) f i j.

  (** the mathcomp matrix with the given rows *)
  Definition mxof (m n : nat) (rows : list (list T)) : 'M[T]_(m, n) :=
    mxf m n (fun i j => vget (List.nth i rows nil) j).

  Lemma sumf_big n (f : nat -> T) : sumf n f = \sum_(i < n) f i.
  Proof.
    elim: n => [|n IH] /=; first by rewrite big_ord0 rd0.
    by rewrite big_ord_recr /= rdadd IH.
  Qed.

  Section TwoRows.
    Variables (n : nat) (i0 j0 : 'I_n) (base : 'I_n -> 'I_n -> T).
    Hypothesis ij : i0 != j0.

    Definition two (x y : 'I_n -> T) : 'M[T]_n :=
      \matrix_(i, j) if i == i0 then x j else if i == j0 then y j else base i j.

    Lemma two_lin_l a x b x' y :
      \det (two (fun j => a * x j + b * x' j) y) = a * \det (two x y) + b * \det (two x' y).
    Proof.
      apply: (determinant_multilinear (i0 := i0)).
      - apply/rowP => j. by rewrite !mxE eqxx.
      - apply/matrixP => i j. by rewrite !mxE /= eq_sym (negbTE (neq_lift _ _)).
      - apply/matrixP => i j. by rewrite !mxE /= eq_sym (negbTE (neq_lift _ _)).
    Qed.

    Lemma two_lin_r a y b y' x :
      \det (two x (fun j => a * y j + b * y' j)) = a * \det (two x y) + b * \det (two x y').
    Proof.
      apply: (determinant_multilinear (i0 := j0)).
      - apply/rowP => j. rewrite !mxE eq_sym (negbTE ij) eqxx. by [].
      - apply/matrixP => i j. rewrite !mxE /=. by rewrite [lift _ _ == j0]eq_sym (negbTE (neq_lift _ _)).
      - apply/matrixP => i j. rewrite !mxE /=. by rewrite [lift _ _ == j0]eq_sym (negbTE (neq_lift _ _)).
    Qed.

    Lemma two_alt x : \det (two x x) = 0.
    Proof.
      apply: (determinant_alternate (i1 := i0) (i2 := j0) ij) => j.
      by rewrite !mxE eqxx [j0 == i0]eq_sym (negbTE ij) eqxx.
    Qed.

    Lemma two_anti x y : \det (two y x) = - \det (two x y).
    Proof.
      have H := two_alt (fun j => 1 * x j + 1 * y j).
      rewrite two_lin_l !two_lin_r !two_alt !mul1r add0r addr0 in H.
      by apply/eqP; rewrite -addr_eq0 addrC H.
    Qed.

    Lemma two_op x y a b c d : a * d - b * c = 1 ->
      \det (two (fun j => a * x j + b * y j) (fun j => c * x j + d * y j)) = \det (two x y).
    Proof.
      move=> E. rewrite two_lin_l !two_lin_r !two_alt (two_anti x y) !mulr0 add0r addr0.
      by rewrite !mulrN !mulrA -mulrBl E mul1r.
    Qed.
  End TwoRows.

  Lemma nth_two (A : Type) (pre mid post : list A) b v d i :
    List.nth i (pre ++ b :: mid ++ v :: post) d =
    if i == length pre then b else if i == (length pre + (length mid).+1)%nat then v
    else List.nth i (pre ++ d :: mid ++ d :: post) d.
  Proof.
    case: eqP => [->|H1].
      by rewrite List.app_nth2 ?Nat.sub_diag //; lia.
    case: eqP => [->|H2].
      rewrite List.app_nth2; last by lia.
      replace (length pre + (length mid).+1 - length pre)%coq_nat with (length mid).+1 by lia.
      rewrite /= List.app_nth2 ?Nat.sub_diag //; lia.
    case: (Nat.lt_ge_cases i (length pre)) => H3.
      by rewrite !List.app_nth1.
    rewrite !List.app_nth2; try lia.
    have [k Hk] : exists k, (i - length pre)%coq_nat = k.+1 by exists (i - length pre - 1)%coq_nat; lia.
    rewrite Hk /=.
    case: (Nat.lt_ge_cases k (length mid)) => H4.
      by rewrite !List.app_nth1.
    rewrite !List.app_nth2; try lia.
    have [l Hl] : exists l, (k - length mid)%coq_nat = l.+1 by exists (k - length mid - 1)%coq_nat; lia.
    by rewrite Hl.
  Qed.

  Lemma rowop_det n l l' : length l = n -> lens n l -> rowop l l' -> \det (mxof n n l) = \det (mxof n n l').
  Proof.
    move=> Hn L H. move: Hn L. elim: H => {l l'}.
    - by [].
    - move=> l1 l2 l3 H1 IH1 H2 IH2 Hn L. rewrite IH1 // IH2 //.
      + by rewrite -(rowop_length _ _ H1).
      + exact: (rowop_lens _ _ _ H1 L).
    - move=> pre b mid v post r s t u Hbv Hd Hn L.
      have Hi : (length pre < n)%N.
        apply/ltP. move: Hn. rewrite List.app_length /= List.app_length /=. lia.
      have Hj : (length pre + (length mid).+1 < n)%N.
        apply/ltP. move: Hn. rewrite List.app_length /= List.app_length /=. lia.
      have Hij : Ordinal Hi != Ordinal Hj.
        apply/eqP => /(congr1 val) /=. lia.
      set base := fun i j : 'I_n => vget (List.nth i (pre ++ nil :: mid ++ nil :: post) nil) j.
      have E : forall x y, mxof n n (pre ++ x :: mid ++ y :: post) =
          two (Ordinal Hi) (Ordinal Hj) base (fun j => vget x j) (fun j => vget y j).
        move=> x y. apply/matrixP => i j. rewrite !mxE nth_two.
        rewrite -!val_eqE /=. by case: eqP => // _; case: eqP.
      have Hd' : r * u - s * t = 1 by rewrite -!rdmul -rdsub Hd rd1.
      rewrite !E -(two_op base Hij _ _ Hd').
      congr (\det _). apply/matrixP => i j. rewrite !mxE.
      have V : forall a a' k, vget (vadd (vscale a b) (vscale a' v)) k = a * vget b k + a' * vget v k.
        move=> a a' k. rewrite vget_vadd; last by rewrite !vscale_length.
        by rewrite !vget_vscale rdadd !rdmul.
      by rewrite !V.
  Qed.

  Lemma zero_row_det n l i : (i < n)%N -> (forall j, vget (List.nth i l nil) j = r0) -> \det (mxof n n l) = 0.
  Proof.
    move=> Hi Hz. rewrite (expand_det_row _ (Ordinal Hi)). apply: big1 => j _.
    by rewrite !mxE /= Hz rd0 mul0r.
  Qed.

  Lemma upper_det n l : (forall i j, (j < i)%coq_nat -> (i < n)%coq_nat -> vget (List.nth i l nil) j = r0) ->
    \det (mxof n n l) = \prod_(i < n) vget (List.nth i l nil) i.
  Proof.
    move=> H. rewrite -det_tr det_trig.
    - by apply: eq_bigr => i _; rewrite !mxE.
    - apply/is_trig_mxP => i j Hij. rewrite !mxE H ?rd0 //; by apply/ltP.
  Qed.

  Context {SR : Scalar T} {SL : ScalarLaws T}.

  Lemma diag_product_ok n bs : lens n bs -> length bs = n ->
    diag_product n bs = Ret (\prod_(i < n) vget (List.nth i bs nil) i).
  Proof.
    move=> L Hn. rewrite /diag_product.
    have G : forall k, (k <= n)%coq_nat -> foldM (fun det i => bind (unwrap (List.nth_error bs i)) (fun b =>
       bind (unwrap (List.nth_error b i)) (fun x => Ret (rmul det x)))) r1 (List.seq 0 k) =
       Ret (\prod_(i < k) vget (List.nth i bs nil) i).
    { elim=> [|k IH] Hk; first by rewrite big_ord0 /= rd1.
      rewrite List.seq_S foldM_app IH; last by lia. rewrite /=.
      rewrite (List.nth_error_nth' bs nil); last by lia. rewrite /=.
      rewrite nth_error_vget.
      - by rewrite /= rdmul big_ord_recr.
      - rewrite (lens_In _ _ _ L); [lia|]. apply: List.nth_In. lia. }
    exact: G.
  Qed.

  Lemma elim_det n rows : length rows = n -> lens n rows ->
    exists bs, extend_all nil rows = Ret bs /\
      (if Nat.ltb (length bs) n then Ret r0 else diag_product n bs) = Ret (\det (mxof n n rows)).
  Proof.
    move=> Hn L. have [bs [z [E [Lb [Eb [Hop Hz]]]]]] := extend_all_correct n rows L.
    exists bs. split=> //. rewrite (rowop_det Hn L Hop).
    case: (Nat.ltb_spec (length bs) n) => H.
    - have Hi : (length bs < n)%N by apply/ltP.
      rewrite (zero_row_det Hi) ?rd0 // => j.
      rewrite List.app_nth2 // Nat.sub_diag /zeros.
      case: z Hop Hz => [|z] Hop Hz /=; first by lia. by rewrite vget_vzero rd0.
    - have z0 : z = 0%N by lia. subst z. rewrite /zeros /= List.app_nil_r.
      have Hbn : length bs = n by lia.
      rewrite diag_product_ok // upper_det //.
      move=> i j Hji Hi. apply: (echelon_nth_zero 0%nat) => //; lia.
  Qed.

  Lemma det0 (M : 'M[T]_0) : \det M = 1.
  Proof. exact: det_mx00. Qed.

  Lemma det2 (f : nat -> nat -> T) : \det (mxf 2 2 f) = f 0%N 0%N * f 1%N 1%N - f 0%N 1%N * f 1%N 0%N.
  Proof.
    rewrite (expand_det_row _ ord0) !big_ord_recl big_ord0 addr0.
    rewrite /cofactor !det_mx11 !mxE /= !expr0 !mul1r. by rewrite /bump /= expr1 mulN1r mulrN.
  Qed.

  Local Lemma Rth_det : ring_theory (r0 : T) r1 radd rmul rsub ropp (@eq T).
  Proof. exact: r_th. Qed.
  Add Ring RingDet : Rth_det.

  Lemma det3 (f : nat -> nat -> T) : \det (mxf 3 3 f) =
    f 0%N 0%N * f 1%N 1%N * f 2%N 2%N + f 0%N 1%N * f 1%N 2%N * f 2%N 0%N + f 0%N 2%N * f 1%N 0%N * f 2%N 1%N
    - f 0%N 2%N * f 1%N 1%N * f 2%N 0%N - f 0%N 0%N * f 1%N 2%N * f 2%N 1%N - f 0%N 1%N * f 1%N 0%N * f 2%N 2%N.
  Proof.
    rewrite (expand_det_row _ ord0) !big_ord_recl big_ord0 /cofactor !addr0.
    have E : forall M : 'M[T]_2, \det M = M ord0 ord0 * M (lift ord0 ord0) (lift ord0 ord0)
        - M ord0 (lift ord0 ord0) * M (lift ord0 ord0) ord0.
    { move=> M. rewrite (expand_det_row _ ord0) !big_ord_recl big_ord0 addr0.
      rewrite /cofactor !det_mx11 !mxE /= /bump /= !expr0 !expr1 mulN1r mul1r mulrN.
      by congr (_ * M _ _ - M _ _ * M _ _); apply/val_inj. }
    rewrite !E !mxE /= /bump /= !expr0 !expr1 sqrrN expr1n !mul1r mulN1r.
    rewrite !addn0 !add0n !addn1 -!rdmul -?rdopp -?rdsub -?rdadd ?add1n. ring.
  Qed.

  Lemma determinant_mk n (f : nat -> nat -> T) : determinant (mk n n f) = Ret (\det (mxf n n f)).
  Proof.
    rewrite /determinant. cbn [nrows ncols mk]. rewrite Nat.eqb_refl. cbn [assert bind].
    have B : forall m, n = m.+4 -> bind (get_rows (mk n n f)) (fun rows => bind (extend_all nil rows) (fun bs =>
        if Nat.ltb (length bs) n then Ret r0 else diag_product n bs)) = Ret (\det (mxf n n f)).
    { move=> m Hm. rewrite get_rows_mk; last by lia. cbn [bind].
      have [bs [-> E]] := elim_det (frows_length n n f) (frows_lens n n f). cbn [bind]. rewrite E.
      congr (Ret (\det _)). apply/matrixP => i j. rewrite !mxE nth_frows; last by apply/ltP.
      by rewrite vget_frow //; apply/ltP. }
    case: n B => [|[|[|[|m]]]] B.
    - by rewrite det0 rd1.
    - rewrite index_mk; try lia. by rewrite det_mx11 mxE.
    - rewrite !index_mk; try lia. cbn [bind]. by rewrite det2 rdsub !rdmul.
    - rewrite !index_mk; try lia. cbn [bind]. rewrite !rdsub !rdadd !rdmul.
      by rewrite det3.
    - exact: (B m).
  Qed.
End Det.
