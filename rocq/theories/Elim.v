(** Model of [extend_basis] and of the elimination behind
    src/arithmetic/linear_algebra.rs, generic over the operations of the
    trait [Scalar]. *)
From Coq Require Import List ZArith Lia Bool PeanoNat Ring Setoid.
From Verif Require Import Base Vec.
Import ListNotations.
Open Scope nat_scope.

(** linear_algebra.rs 30-36: trait Scalar.  The functions that change their
    arguments return the new values; [s_clear col v b] returns (v', b'). *)
Class Scalar (R : Type) {RD : Dom R} := {
  s_clear : nat -> list R -> list R -> outcome (list R * list R);
  s_normalize : nat -> list R -> outcome (list R);
  s_reduce : nat -> list R -> list R -> outcome (list R);
  s_solve_row : list R -> list (list R) -> list R -> outcome (option (list R)) }.

Section Elim.
  Context {R : Type} {RD : Dom R} {SR : Scalar R}.
  Notation vec := (list R).

  (** linear_algebra.rs 202-233: extend_basis.  The loop over [bs] with
      in-place update is a recursion over the rows not yet visited;
      [length bs] there is [bs.len() - i] in the code. *)
  Fixpoint extend_basis (v : vec) (bs : list vec) : outcome (list vec) :=
    match bs with
    | [] => match pivot v with Some _ => Ret [v] | None => Ret [] end
    | b :: bs' =>
        do _ <- assert (Nat.eqb (length b) (length v));
        match pivot v with
        | None => Ret bs
        | Some col =>
            do col_b <- unwrap (pivot b);
            if Nat.ltb col col_b then
              Ret ((if Nat.odd (length bs) then map ropp v else v) :: bs)
            else if Nat.eqb col col_b then
              do (v', b') <- s_clear col v b;
              do r <- extend_basis v' bs';
              Ret (b' :: r)
            else
              do r <- extend_basis v bs';
              Ret (b :: r)
        end
    end.

  (** linear_algebra.rs 255-258, 281-284, 302-305: feeding all rows of a
      matrix into an initially empty basis *)
  Definition extend_all (bs : list vec) (rows : list vec) : outcome (list vec) :=
    foldM (fun bs v => extend_basis v bs) bs rows.

  (** linear_algebra.rs 309-311: [while basis[row][col].is_zero() { col += 1 }],
      panics at the end of the row *)
  Fixpoint next_nz_from (col : nat) (v : vec) : outcome nat :=
    match v with
    | [] => Panic
    | a :: v' => if reqb a r0 then next_nz_from (S col) v' else Ret col
    end.
  Definition next_nz (v : vec) (col : nat) : outcome nat := next_nz_from col (skipn col v).

  (** linear_algebra.rs 307-319: the loop of reduced_basis; [done] are the rows
      before [row] *)
  Fixpoint reduce_rows (done todo : list vec) (col : nat) : outcome (list vec) :=
    match todo with
    | [] => Ret done
    | b :: todo' =>
        do c <- next_nz b col;
        do b' <- s_normalize c b;
        do done' <- mapM (fun v => s_reduce c v b') done;
        reduce_rows (done' ++ [b']) todo' c
    end.

  (** linear_algebra.rs 299-324: reduced_basis on the list of rows *)
  Definition reduced_rows (rows : list vec) : outcome (list vec) :=
    do bs <- extend_all [] rows;
    reduce_rows [] bs 0.
End Elim.

(** what the proofs need to know about the scalar operations *)
Class ScalarLaws (R : Type) {RD : Dom R} {SR : Scalar R} : Prop := {
  clear_law : forall col (v b : list R),
    length v = length b -> pivot v = Some col -> pivot b = Some col ->
    exists v' b' r s t u, s_clear col v b = Ret (v', b') /\
      rsub (rmul r u) (rmul s t) = r1 /\
      b' = vadd (vscale r b) (vscale s v) /\
      v' = vadd (vscale t b) (vscale u v) /\
      vget v' col = r0;
  normalize_law : forall col (b : list R),
    pivot b = Some col ->
    exists c d, s_normalize col b = Ret (vscale c b) /\ rmul c d = r1;
  reduce_law : forall col (v b b' : list R),
    length v = length b -> pivot b = Some col -> s_normalize col b = Ret b' ->
    (forall i, (i < col)%nat -> vget b i = r0) ->
    exists f, s_reduce col v b' = Ret (vadd v (vscale f b')) }.

Section ElimProofs.
  Context {R : Type} {RD : Dom R} {DL : DomLaws R} {SR : Scalar R} {SL : ScalarLaws R}.
  Notation vec := (list R).

  Local Lemma Rth_elim : ring_theory r0 r1 radd rmul rsub ropp (@eq R).
  Proof. apply r_th. Qed.
  Add Ring RingElim : Rth_elim.

  Local Notation "0" := r0.
  Local Notation "1" := r1.
  Local Infix "+" := radd.
  Local Infix "*" := rmul.
  Local Infix "-" := rsub.
  Local Notation "- x" := (ropp x).

  (** determinant one operations on two rows *)
  Inductive rowop : list vec -> list vec -> Prop :=
  | rowop_refl l : rowop l l
  | rowop_trans l1 l2 l3 : rowop l1 l2 -> rowop l2 l3 -> rowop l1 l3
  | rowop_two pre b mid v post r s t u :
      length b = length v -> r * u - s * t = 1 ->
      rowop (pre ++ b :: mid ++ v :: post)
            (pre ++ vadd (vscale r b) (vscale s v) :: mid ++
                    vadd (vscale t b) (vscale u v) :: post).

  Lemma rowop_app_r l l' x : rowop l l' -> rowop (l ++ x) (l' ++ x).
  Proof.
    induction 1 as [l|l1 l2 l3 H1 IH1 H2 IH2|pre b mid v post r s t u Hl Hd].
    - apply rowop_refl.
    - eapply rowop_trans; eauto.
    - rewrite <- !app_assoc. simpl. rewrite <- !app_assoc. simpl.
      apply (rowop_two pre b mid v (post ++ x)); auto.
  Qed.

  Lemma rowop_app_l l l' x : rowop l l' -> rowop (x ++ l) (x ++ l').
  Proof.
    induction 1 as [l|l1 l2 l3 H1 IH1 H2 IH2|pre b mid v post r s t u Hl Hd].
    - apply rowop_refl.
    - eapply rowop_trans; eauto.
    - rewrite (app_assoc x pre), (app_assoc x pre). apply (rowop_two (x ++ pre) b mid v post); auto.
  Qed.

  Lemma rowop_cons b l l' : rowop l l' -> rowop (b :: l) (b :: l').
  Proof. apply (rowop_app_l l l' [b]). Qed.

  Lemma map_opp_scale v : map ropp v = vscale (- (1)) v.
  Proof. unfold vscale. apply map_ext. intros; ring. Qed.

  Lemma rowop_length l l' : rowop l l' -> length l = length l'.
  Proof.
    induction 1 as [l|l1 l2 l3 H1 IH1 H2 IH2|pre b mid v post r s t u Hl Hd]; auto; try congruence.
    rewrite !app_length. simpl. rewrite !app_length. reflexivity.
  Qed.

  Lemma rowop_lens n l l' : rowop l l' -> lens n l -> lens n l'.
  Proof.
    induction 1 as [l|l1 l2 l3 H1 IH1 H2 IH2|pre b mid v post r s t u Hl Hd]; auto.
    unfold lens. rewrite !Forall_app. intros (A & B). inversion B as [|? ? B1 B2]; subst.
    apply Forall_app in B2 as [B2 B3]. inversion B3 as [|? ? B4 B5]; subst.
    split; auto. constructor.
    - rewrite vadd_length; rewrite !vscale_length; auto.
    - apply Forall_app. split; auto. constructor; auto.
      rewrite vadd_length; rewrite !vscale_length; auto.
  Qed.

  (** moving a row to the front of a block, with the sign *)
  Lemma rowop_move n mid v :
    lens n mid -> length v = n ->
    rowop (mid ++ [v]) ((if Nat.odd (length mid) then map ropp v else v) :: mid).
  Proof.
    intros L Hv. induction L as [|b mid Hb L IH].
    - simpl. apply rowop_refl.
    - eapply rowop_trans; [apply rowop_cons; exact IH|].
      set (w := if Nat.odd (length mid) then map ropp v else v).
      assert (Hw : length w = n) by (unfold w; destruct (Nat.odd _); rewrite ?map_length; auto).
      assert (E : (if Nat.odd (length (b :: mid)) then map ropp v else v) = map ropp w).
      { unfold w. simpl length. rewrite Nat.odd_succ, <- Nat.negb_odd.
        destruct (Nat.odd (length mid)); simpl; auto.
        rewrite map_map. rewrite <- (map_id v) at 1. apply map_ext. intros; ring. }
      rewrite E. clearbody w.
      pose proof (rowop_two [] b [] w mid 0 (- (1)) 1 0) as X. simpl in X.
      replace (map ropp w) with (vadd (vscale 0 b) (vscale (- (1)) w)).
      2: { rewrite vscale_0, map_opp_scale. apply vadd_0_l. rewrite vscale_length. congruence. }
      replace b with (vadd (vscale 1 b) (vscale 0 w)) at 3.
      2: { rewrite vscale_0, vscale_1. apply vadd_0_r. congruence. }
      apply X; [congruence|ring].
  Qed.

  Lemma clear_pivot col (v b v' b' : vec) r s t u :
    length v = length b -> pivot v = Some col -> pivot b = Some col ->
    r * u - s * t = 1 -> b' = vadd (vscale r b) (vscale s v) ->
    v' = vadd (vscale t b) (vscale u v) -> vget v' col = 0 ->
    length v' = length b /\ length b' = length b /\ pivot b' = Some col /\
    (forall i, (i <= col)%nat -> vget v' i = 0).
  Proof.
    intros Hl Pv Pb Hd -> -> Hz.
    assert (G : forall c d i, vget (vadd (vscale c b) (vscale d v)) i = c * vget b i + d * vget v i).
    { intros. rewrite vget_vadd by (rewrite !vscale_length; auto). rewrite !vget_vscale. auto. }
    apply pivot_Some in Pv as (Lv & Nv & Zv). apply pivot_Some in Pb as (Lb & Nb & Zb).
    splits.
    - rewrite vadd_length; rewrite !vscale_length; auto.
    - rewrite vadd_length; rewrite !vscale_length; auto.
    - apply pivot_Some. splits.
      + rewrite vadd_length; rewrite !vscale_length; auto.
      + rewrite G in *. intros Hb. apply Nb.
        replace (vget b col) with ((r * u - s * t) * vget b col) by (rewrite Hd; ring).
        replace ((r * u - s * t) * vget b col) with
          (u * (r * vget b col + s * vget v col) - s * (t * vget b col + u * vget v col)) by ring.
        rewrite Hb, Hz. ring.
      + intros i Hi. rewrite G, Zv, Zb by auto. ring.
    - intros i Hi. destruct (Nat.eq_dec i col) as [->|]; auto.
      rewrite G, Zv, Zb by lia. ring.
  Qed.

  (** pivots of a vector that vanishes up to [k] are larger *)
  Lemma pivot_gt (v : vec) k p : (forall i, (i <= k)%nat -> vget v i = 0) -> pivot v = Some p -> (k < p)%nat.
  Proof.
    intros Hz Hp. apply pivot_Some in Hp as (_ & Hn & _).
    destruct (Nat.le_gt_cases p k); auto. exfalso; apply Hn; auto.
  Qed.

  Lemma extend_correct n k v bs :
    lens n bs -> echelon_from k bs -> length v = n ->
    (forall i, (i < k)%nat -> vget v i = 0) ->
    exists bs', extend_basis v bs = Ret bs' /\ lens n bs' /\ echelon_from k bs' /\
      (rowop (bs ++ [v]) bs' \/ rowop (bs ++ [v]) (bs' ++ [vzero n])).
  Proof.
    intros L E; revert v; induction E as [k|k p b bs Hp Hk E IH]; intros v Hv Hz; simpl.
    - destruct (pivot v) as [q|] eqn:Eq.
      + exists [v]. splits; auto.
        * constructor; auto.
        * econstructor; eauto; [|constructor].
          apply pivot_Some in Eq as (_ & Hn & _).
          destruct (Nat.le_gt_cases k q); auto. exfalso; auto.
        * left. simpl. apply rowop_refl.
      + exists []. splits; auto; [constructor|]. right. simpl.
        apply pivot_None in Eq. rewrite Eq, Hv. apply rowop_refl.
    - destruct (lens_cons _ _ _ L) as [Hb L'].
      rewrite Hb, Hv, Nat.eqb_refl. simpl.
      destruct (pivot v) as [q|] eqn:Eq.
      2: { exists (b :: bs). splits; auto.
           - econstructor; eauto.
           - right. apply pivot_None in Eq. rewrite Eq, Hv. apply rowop_refl. }
      rewrite Hp. simpl.
      assert (Hkq : (k <= q)%nat).
      { apply pivot_Some in Eq as (_ & Hn & _).
        destruct (Nat.le_gt_cases k q); auto. exfalso; auto. }
      destruct (Nat.ltb_spec q p) as [Hqp|Hqp].
      + eexists. split; [reflexivity|].
        assert (Hpv : pivot (if Nat.odd (S (length bs)) then map ropp v else v) = Some q).
        { destruct (Nat.odd _); auto. rewrite map_opp_scale.
          apply pivot_Some in Eq as (A & B & C). apply pivot_Some. rewrite vscale_length. splits; auto.
          - rewrite vget_vscale. intros X. apply B.
            replace (vget v q) with (- (- (1) * vget v q)) by ring. rewrite X. ring.
          - intros i Hi. rewrite vget_vscale, C by auto. ring. }
        splits.
        * constructor; auto. destruct (Nat.odd _); rewrite ?map_length; auto.
        * econstructor; eauto. econstructor; eauto.
        * left. apply (rowop_move n (b :: bs) v); auto.
      + destruct (Nat.eqb_spec q p) as [->|Hne].
        * destruct (clear_law p v b) as (v' & b' & r & s & t & u & -> & Hd & Eb & Ev & Hz0); auto; [congruence|].
          destruct (clear_pivot p v b v' b' r s t u) as (L1 & L2 & P1 & Z1); auto; [congruence|].
          rewrite Hb in L1, L2.
          simpl. destruct (IH L' v') as (bs' & -> & L3 & E3 & Hop); auto.
          { intros i Hi. apply Z1. lia. }
          simpl. exists (b' :: bs'). splits; auto.
          -- constructor; auto.
          -- econstructor; eauto.
          -- assert (O1 : rowop ((b :: bs) ++ [v]) (b' :: bs ++ [v'])).
             { subst b' v'. apply (rowop_two [] b bs v []); auto. congruence. }
             destruct Hop as [Hop|Hop]; [left|right]; eapply rowop_trans; eauto;
               simpl; apply rowop_cons; auto.
        * assert (Hlt : (p < q)%nat) by lia.
          destruct (IH L' v) as (bs' & -> & L3 & E3 & Hop); auto.
          { intros i Hi. apply pivot_Some in Eq as (_ & _ & C). apply C. lia. }
          simpl. exists (b :: bs'). splits; auto.
          -- constructor; auto.
          -- econstructor; eauto.
          -- destruct Hop as [Hop|Hop]; [left|right]; simpl; apply rowop_cons; auto.
  Qed.

  Definition zeros (n z : nat) : list vec := repeat (vzero n) z.

  (** a zero row can be moved *)
  Lemma rowop_zero_last n bs z v :
    lens n bs -> length v = n ->
    rowop (bs ++ zeros n z ++ [v]) (bs ++ v :: zeros n z).
  Proof.
    intros L Hv. apply rowop_app_l. clear L bs. induction z as [|z IH]; simpl; [apply rowop_refl|].
    eapply rowop_trans; [apply rowop_cons; exact IH|].
    pose proof (rowop_two [] (vzero n) [] v (zeros n z) 0 1 (- (1)) 0) as X. simpl in X.
    replace (vadd (vscale 0 (vzero n)) (vscale 1 v)) with v in X.
    2: { rewrite vscale_1, vscale_vzero, vadd_0_l; auto. }
    replace (vadd (vscale (- (1)) (vzero n)) (vscale 0 v)) with (vzero n) in X.
    2: { rewrite vscale_0, vscale_vzero, Hv, vadd_vzero; auto. }
    apply X; [rewrite vzero_length; auto|ring].
  Qed.

  Lemma extend_all_from n rows : forall bs,
    lens n bs -> echelon bs -> lens n rows ->
    exists bs' z, extend_all bs rows = Ret bs' /\ lens n bs' /\ echelon bs' /\
      rowop (bs ++ rows) (bs' ++ zeros n z) /\ (z <= length rows)%nat.
  Proof.
    induction rows as [|v rows IH]; intros bs L E Lr.
    - exists bs, O. simpl. splits; auto. apply rowop_refl.
    - inversion Lr as [|? ? Hv Lr']; subst.
      destruct (extend_correct (length v) O v bs L E eq_refl) as (b1 & E1 & L1 & H1 & Hop); [intros; lia|].
      unfold extend_all. simpl. rewrite E1. simpl.
      destruct (IH b1 L1 H1 Lr') as (b2 & z & E2 & L2 & H2 & Hop2 & Hz).
      unfold extend_all in E2. rewrite E2.
      destruct Hop as [Hop|Hop].
      + exists b2, z. splits; auto; try (simpl; lia).
        eapply rowop_trans; [|exact Hop2].
        replace (bs ++ v :: rows) with ((bs ++ [v]) ++ rows) by (rewrite <- app_assoc; auto).
        apply rowop_app_r; auto.
      + exists b2, (S z). splits; auto; try (simpl; lia).
        replace (bs ++ v :: rows) with ((bs ++ [v]) ++ rows) by (rewrite <- app_assoc; auto).
        eapply rowop_trans; [apply rowop_app_r; exact Hop|].
        (* move the zero row to the end *)
        assert (M : rowop ((b1 ++ [vzero (length v)]) ++ rows) (b1 ++ rows ++ [vzero (length v)])).
        { rewrite <- app_assoc. apply rowop_app_l. simpl. clear -Lr' DL.
          induction Lr' as [|w rows Hw Lr IH]; simpl; [apply rowop_refl|].
          eapply rowop_trans; [|apply rowop_cons; exact IH].
          pose proof (rowop_two [] (vzero (length v)) [] w rows 0 1 (- (1)) 0) as X. simpl in X.
          replace (vadd (vscale 0 (vzero (length v))) (vscale 1 w)) with w in X.
          2: { rewrite vscale_1, vscale_vzero, vadd_0_l; auto. }
          replace (vadd (vscale (- (1)) (vzero (length v))) (vscale 0 w)) with (vzero (length v)) in X.
          2: { rewrite vscale_0, vscale_vzero, Hw, vadd_vzero; auto. }
          apply X; [rewrite vzero_length; auto|ring]. }
        eapply rowop_trans; [exact M|].
        rewrite app_assoc. eapply rowop_trans; [apply rowop_app_r; exact Hop2|].
        rewrite <- app_assoc. unfold zeros.
        replace (repeat (vzero (length v)) z ++ [vzero (length v)]) with (repeat (vzero (length v)) (S z)).
        2: { simpl. apply repeat_cons. }
        apply rowop_refl.
  Qed.

  Lemma extend_all_correct n rows :
    lens n rows ->
    exists bs z, extend_all [] rows = Ret bs /\ lens n bs /\ echelon bs /\
      rowop rows (bs ++ zeros n z) /\ length rows = (length bs + z)%nat.
  Proof.
    intros L. destruct (extend_all_from n rows []) as (bs & z & E & Lb & Hb & Hop & Hz); auto.
    - constructor.
    - constructor.
    - exists bs, z. splits; auto. apply rowop_length in Hop. simpl in Hop.
      rewrite Hop, app_length. unfold zeros. rewrite repeat_length. auto.
  Qed.

  (** *** spans *)
  Lemma rowop_span n l l' : lens n l -> rowop l l' -> same_span n l l'.
  Proof.
    intros L Hop. revert L. induction Hop as [l|l1 l2 l3 H1 IH1 H2 IH2|pre b mid v post r s t u Hl Hd]; intros L.
    - intros x; tauto.
    - intros x. rewrite (IH1 L x). apply IH2. eapply rowop_lens; eauto.
    - pose proof (rowop_lens n _ _ (rowop_two pre b mid v post r s t u Hl Hd) L) as L2.
      set (b' := vadd (vscale r b) (vscale s v)) in *.
      set (v' := vadd (vscale t b) (vscale u v)) in *.
      assert (Hb : length b = n) by (unfold lens in L; rewrite Forall_forall in L; apply L; rewrite in_app_iff; simpl; auto).
      intros x; split; apply span_trans; auto; intros w Hw.
      + assert (Sb' : span n (pre ++ b' :: mid ++ v' :: post) b').
        { apply span_In; auto. rewrite in_app_iff; simpl; auto. }
        assert (Sv' : span n (pre ++ b' :: mid ++ v' :: post) v').
        { apply span_In; auto. rewrite in_app_iff. simpl. rewrite in_app_iff. simpl. auto. }
        assert (Eb : b = vadd (vscale u b') (vscale (- s) v')).
        { unfold b', v'. apply vec_ext.
          - repeat rewrite ?vadd_length, ?vscale_length; auto; repeat rewrite ?vadd_length, ?vscale_length; auto.
          - intros i _. repeat rewrite ?vget_vadd, ?vget_vscale;
              try (repeat rewrite ?vadd_length, ?vscale_length; auto; repeat rewrite ?vadd_length, ?vscale_length; auto; fail).
            transitivity ((r * u - s * t) * vget b i); [rewrite Hd; ring|ring]. }
        assert (Ev : v = vadd (vscale (- t) b') (vscale r v')).
        { unfold b', v'. apply vec_ext.
          - repeat rewrite ?vadd_length, ?vscale_length; auto; repeat rewrite ?vadd_length, ?vscale_length; auto.
          - intros i _. repeat rewrite ?vget_vadd, ?vget_vscale;
              try (repeat rewrite ?vadd_length, ?vscale_length; auto; repeat rewrite ?vadd_length, ?vscale_length; auto; fail).
            transitivity ((r * u - s * t) * vget v i); [rewrite Hd; ring|ring]. }
        rewrite in_app_iff in Hw. simpl in Hw. rewrite in_app_iff in Hw. simpl in Hw.
        destruct Hw as [Hw|[<-|[Hw|[<-|Hw]]]].
        * apply span_In; auto. rewrite in_app_iff; auto.
        * rewrite Eb. apply span_add; apply span_scale; auto.
        * apply span_In; auto. rewrite in_app_iff. simpl. rewrite in_app_iff; auto.
        * rewrite Ev. apply span_add; apply span_scale; auto.
        * apply span_In; auto. rewrite in_app_iff. simpl. rewrite in_app_iff; simpl; auto.
      + assert (Sb : span n (pre ++ b :: mid ++ v :: post) b).
        { apply span_In; auto. rewrite in_app_iff; simpl; auto. }
        assert (Sv : span n (pre ++ b :: mid ++ v :: post) v).
        { apply span_In; auto. rewrite in_app_iff. simpl. rewrite in_app_iff. simpl. auto. }
        rewrite in_app_iff in Hw. simpl in Hw. rewrite in_app_iff in Hw. simpl in Hw.
        destruct Hw as [Hw|[<-|[Hw|[<-|Hw]]]].
        * apply span_In; auto. rewrite in_app_iff; auto.
        * apply span_add; apply span_scale; auto.
        * apply span_In; auto. rewrite in_app_iff. simpl. rewrite in_app_iff; auto.
        * apply span_add; apply span_scale; auto.
        * apply span_In; auto. rewrite in_app_iff. simpl. rewrite in_app_iff; simpl; auto.
  Qed.

  Lemma zeros_lens n z : lens n (zeros n z).
  Proof. unfold lens, zeros. apply Forall_forall. intros x Hx. apply repeat_spec in Hx as ->. apply vzero_length. Qed.

  Lemma span_app_zeros n l z : lens n l -> same_span n (l ++ zeros n z) l.
  Proof.
    intros L x; split.
    - apply span_trans; auto. intros v Hv. apply in_app_iff in Hv as [Hv|Hv].
      + apply span_In; auto.
      + unfold zeros in Hv. apply repeat_spec in Hv as ->. apply span_zero; auto.
    - apply span_incl.
      + unfold lens in *. apply Forall_app. split; auto. apply zeros_lens.
      + apply incl_appl, incl_refl.
  Qed.

  Lemma extend_all_span n rows :
    lens n rows ->
    exists bs, extend_all [] rows = Ret bs /\ lens n bs /\ echelon bs /\ same_span n rows bs /\
      (length bs <= length rows)%nat.
  Proof.
    intros L. destruct (extend_all_correct n rows L) as (bs & z & E & Lb & Hb & Hop & Hz).
    exists bs. splits; auto; [|lia]. intros x.
    rewrite (rowop_span n _ _ L Hop x). apply span_app_zeros; auto.
  Qed.

  (** feeding rows that are already in echelon form changes nothing *)
  Lemma extend_append n k v bs p :
    lens n bs -> echelon_from k bs -> length v = n -> pivot v = Some p ->
    (forall q, In q (pivots bs) -> (q < p)%nat) -> extend_basis v bs = Ret (bs ++ [v]).
  Proof.
    intros L E Hv Hp Hq. revert Hq. induction E as [k|k q b bs Hb Hk E IH]; intros Hq; simpl.
    - rewrite Hp. reflexivity.
    - destruct (lens_cons _ _ _ L) as [Hl L']. rewrite Hl, Hv, Nat.eqb_refl. simpl. rewrite Hp, Hb. simpl.
      simpl in Hq. rewrite Hb in Hq. simpl in Hq.
      assert (q < p)%nat by auto.
      destruct (Nat.ltb_spec p q); [lia|]. destruct (Nat.eqb_spec p q); [lia|].
      rewrite IH; auto.
  Qed.

  Lemma extend_all_echelon n k rows :
    lens n rows -> echelon_from k rows -> extend_all [] rows = Ret rows.
  Proof.
    intros L E.
    assert (G : forall rest k' bs, lens n (bs ++ rest) -> echelon_from O bs -> echelon_from k' rest ->
       (forall q, In q (pivots bs) -> (q < k')%nat) -> extend_all bs rest = Ret (bs ++ rest)).
    { clear L E rows. induction rest as [|v rest IH]; intros k' bs L E1 E2 Hq.
      - rewrite app_nil_r. reflexivity.
      - inversion E2 as [|? p ? ? Hp Hk E3]; subst. unfold extend_all. simpl.
        unfold lens in L. apply Forall_app in L as [L1 L2]. inversion L2 as [|? ? Hv L3]; subst.
        rewrite (extend_append (length v) O v bs p); auto.
        2: { intros q Hin. specialize (Hq q Hin). lia. }
        simpl. fold (extend_all (bs ++ [v]) rest). rewrite (IH (S p)); auto.
        + rewrite <- app_assoc. reflexivity.
        + unfold lens. rewrite <- app_assoc. apply Forall_app. split; auto.
        + apply echelon_app with p; auto; [lia|]. intros q Hin. specialize (Hq q Hin). lia.
        + intros q Hin. unfold pivots in Hin. rewrite flat_map_app, in_app_iff in Hin.
          destruct Hin as [Hin|Hin]; [specialize (Hq q Hin); lia|].
          simpl in Hin. rewrite Hp in Hin. simpl in Hin. lia. }
    apply (G rows k []); auto.
    - constructor.
    - simpl. tauto.
  Qed.

  Lemma extend_zero n k bs :
    lens n bs -> echelon_from k bs -> extend_basis (vzero n) bs = Ret bs.
  Proof.
    intros L E. assert (P : pivot (vzero n) = None).
    { apply pivot_None. rewrite vzero_length; auto. }
    destruct E as [k|k p b bs Hp Hk E]; simpl; rewrite P; auto.
    destruct (lens_cons _ _ _ L) as [Hl L']. rewrite Hl, vzero_length, Nat.eqb_refl. reflexivity.
  Qed.

  Lemma extend_length v (bs bs' : list vec) :
    extend_basis v bs = Ret bs' -> (length bs' <= S (length bs))%nat.
  Proof.
    revert v bs'; induction bs as [|b bs IH]; intros v bs'; simpl.
    - destruct (pivot v); intros [= <-]; simpl; lia.
    - destruct (Nat.eqb (length b) (length v)); simpl; [|discriminate].
      destruct (pivot v) as [q|]; [|intros [= <-]; simpl; lia].
      destruct (pivot b) as [p|]; simpl; [|discriminate].
      destruct (Nat.ltb q p); [intros [= <-]; simpl; lia|].
      destruct (Nat.eqb q p).
      + intros H1. apply bind_Ret_inv in H1 as ((v' & b') & _ & H1).
        apply bind_Ret_inv in H1 as (r & Hr & H1). injection H1 as <-.
        apply IH in Hr. simpl. lia.
      + intros H1. apply bind_Ret_inv in H1 as (r & Hr & H1). injection H1 as <-.
        apply IH in Hr. simpl. lia.
  Qed.

  (** *** reduced_basis *)
  Lemma next_nz_pivot (b : vec) col p :
    pivot b = Some p -> (col <= p)%nat -> next_nz b col = Ret p.
  Proof.
    unfold next_nz. intros Hp Hc.
    apply pivot_Some in Hp as (Hl & Hn & Hz).
    assert (G : forall (w : vec) c, (c <= p)%nat -> (p < c + length w)%nat ->
        (forall i, (c + i <= p)%nat -> vget w i = vget b (c + i)) -> next_nz_from c w = Ret p).
    { induction w as [|a w IH]; intros c Hcp Hlw Hg; simpl in *; [lia|].
      destruct (Nat.eq_dec c p) as [->|Hcp'].
      - specialize (Hg O). rewrite Nat.add_0_r in Hg. unfold vget in Hg at 1. simpl in Hg.
        destruct (r_eqb_spec a 0) as [->|]; auto. exfalso; apply Hn. symmetry. apply Hg. lia.
      - pose proof (Hg O) as H0. rewrite Nat.add_0_r in H0. unfold vget in H0 at 1. simpl in H0.
        rewrite H0, Hz by lia. rewrite reqb_refl. apply IH; try lia.
        intros i Hi. specialize (Hg (S i)). unfold vget in Hg at 1. simpl in Hg.
        unfold vget at 1. rewrite Hg by lia. f_equal. lia. }
    apply G; auto.
    - rewrite skipn_length. lia.
    - intros i Hi. unfold vget. rewrite <- (firstn_skipn col b) at 2.
      rewrite app_nth2; rewrite firstn_length_le by lia; [|lia]. f_equal. lia.
  Qed.

  Lemma pivot_vscale c d (b : vec) p : c * d = 1 -> pivot b = Some p -> pivot (vscale c b) = Some p.
  Proof.
    intros Hcd Hp. apply pivot_Some in Hp as (Hl & Hn & Hz). apply pivot_Some.
    rewrite vscale_length. splits; auto.
    - rewrite vget_vscale. intros X. apply Hn.
      replace (vget b p) with (d * (c * vget b p)); [rewrite X; ring|].
      transitivity (c * d * vget b p); [ring|rewrite Hcd; ring].
    - intros i Hi. rewrite vget_vscale, Hz by auto. ring.
  Qed.

  Lemma pivot_vadd_later (v b : vec) f p q :
    length v = length b -> pivot v = Some p -> pivot b = Some q -> (p < q)%nat ->
    pivot (vadd v (vscale f b)) = Some p.
  Proof.
    intros Hl Hv Hb Hpq. apply pivot_Some in Hv as (L1 & N1 & Z1). apply pivot_Some in Hb as (L2 & N2 & Z2).
    apply pivot_Some. rewrite vadd_length by (rewrite vscale_length; auto).
    splits; auto; intros; rewrite vget_vadd, vget_vscale by (rewrite vscale_length; auto).
    - rewrite (Z2 p) by auto. intros X. apply N1. rewrite <- X. ring.
    - rewrite Z1, Z2 by lia. ring.
  Qed.

  Lemma echelon_split k l1 b l2 p :
    echelon_from k (l1 ++ b :: l2) -> pivot b = Some p ->
    echelon_from (S p) l2 /\ (forall v q, In v l1 -> pivot v = Some q -> (q < p)%nat) /\
    (k <= p)%nat /\ echelon_from k l1.
  Proof.
    revert k; induction l1 as [|v l1 IH]; intros k E Hp; simpl in *.
    - inversion E as [|? q ? ? Hq Hk E']; subst. assert (q = p) as -> by congruence.
      splits; auto; [tauto|constructor].
    - inversion E as [|? q ? ? Hq Hk E']; subst.
      destruct (IH _ E' Hp) as (A & B & C & D). splits; auto; [|lia|econstructor; eauto].
      intros w r [<-|Hw] Hr; eauto. assert (q = r) by congruence. lia.
  Qed.

  (** the pivot list determines echelon form *)
  Lemma echelon_same_pivots k l l' :
    Forall2 (fun v w => pivot v = pivot w) l l' -> echelon_from k l -> echelon_from k l'.
  Proof.
    intros F; revert k; induction F as [|v w l l' Hvw F IH]; intros k E; inversion E; subst; [constructor|].
    econstructor; eauto. congruence.
  Qed.

  Lemma reduce_rows_correct n todo : forall done col,
    lens n (done ++ todo) -> echelon (done ++ todo) ->
    (forall b p, In b todo -> pivot b = Some p -> (col <= p)%nat) ->
    exists rs, reduce_rows done todo col = Ret rs /\ lens n rs /\ echelon rs /\
      same_span n (done ++ todo) rs /\ length rs = length (done ++ todo) /\
      Forall2 (fun v w => pivot v = pivot w) (done ++ todo) rs.
  Proof.
    induction todo as [|b todo IH]; intros done col L E Hc; simpl.
    - exists done. rewrite app_nil_r in *. splits; auto; [intros x; tauto|].
      clear. induction done; constructor; auto.
    - assert (Hlen : forall v, In v (done ++ b :: todo) -> length v = n).
      { unfold lens in L. rewrite Forall_forall in L. auto. }
      assert (Hpb : exists p, pivot b = Some p).
      { clear -E. revert E. unfold echelon. generalize O. induction done as [|v done IH]; intros k E; simpl in *.
        - inversion E; subst; eauto.
        - inversion E; subst; eauto. }
      destruct Hpb as [p Hp].
      destruct (echelon_split _ _ _ _ _ E Hp) as (E2 & Hdone & _ & E1).
      assert (Hb : length b = n) by (apply Hlen; rewrite in_app_iff; simpl; auto).
      rewrite (next_nz_pivot b col p Hp) by (eapply Hc; eauto; simpl; auto). simpl.
      destruct (normalize_law p b Hp) as (c & d & Hn & Hcd). rewrite Hn. simpl.
      set (b' := vscale c b) in *.
      assert (Hb' : length b' = n) by (unfold b'; rewrite vscale_length; auto).
      assert (Hpb' : pivot b' = Some p) by (eapply pivot_vscale; eauto).
      assert (Hred : forall v, In v done -> exists f, s_reduce p v b' = Ret (vadd v (vscale f b'))).
      { intros v Hv. apply (reduce_law p v b b'); auto.
        - rewrite Hb. apply Hlen. rewrite in_app_iff; auto.
        - apply pivot_Some in Hp as (_ & _ & Hz). auto. }
      (* reduce all earlier rows *)
      assert (Hmap : exists done', mapM (fun v => s_reduce p v b') done = Ret done' /\
                Forall2 (fun v w => exists f, w = vadd v (vscale f b')) done done').
      { clear -Hred. induction done as [|v done IH]; simpl.
        - exists []. split; auto.
        - destruct (Hred v) as [f Hf]; [simpl; auto|]. rewrite Hf. simpl.
          destruct IH as (done' & -> & F); [intros; apply Hred; simpl; auto|].
          simpl. eexists. split; [reflexivity|]. constructor; eauto. }
      destruct Hmap as (done' & -> & F). simpl.
      assert (Hlen1 : forall v, In v done -> length v = n) by (intros; apply Hlen; rewrite in_app_iff; auto).
      assert (Hpd : forall v, In v done -> exists q, pivot v = Some q).
      { clear -E1. revert E1. generalize O. induction done as [|v done IH]; intros k E; simpl in *; [tauto|].
        inversion E; subst. intros w [<-|Hw]; eauto. }
      assert (Lt : forall v, In v todo -> length v = n) by (intros; apply Hlen; rewrite in_app_iff; simpl; auto).
      assert (L' : lens n ((done' ++ [b']) ++ todo)).
      { unfold lens. rewrite <- app_assoc. simpl. apply Forall_app. split.
        - clear -F Hlen1 Hb'. induction F as [|v w done done' [f ->] F IH]; constructor.
          + rewrite vadd_length; rewrite ?vscale_length; [apply Hlen1; simpl; auto|].
            rewrite Hb'. apply Hlen1; simpl; auto.
          + apply IH. intros; apply Hlen1; simpl; auto.
        - constructor; auto. apply Forall_forall; auto. }
      assert (F2 : Forall2 (fun v w => pivot v = pivot w) (done ++ b :: todo) ((done' ++ [b']) ++ todo)).
      { rewrite <- app_assoc. simpl. apply Forall2_app.
        - clear -F Hdone Hlen1 Hb' Hpb' Hpd DL.
          induction F as [|v w done done' [f ->] F IH]; constructor.
          + destruct (Hpd v) as [q Hq]; [simpl; auto|]. rewrite Hq. symmetry.
            eapply pivot_vadd_later; eauto; [|eapply Hdone; eauto; simpl; auto].
            rewrite Hb'. apply Hlen1; simpl; auto.
          + apply IH; intros; [eapply Hdone; eauto|apply Hlen1|apply Hpd]; simpl; auto.
        - constructor; [congruence|]. clear. induction todo; constructor; auto. }
      assert (S2 : same_span n (done ++ b :: todo) ((done' ++ [b']) ++ todo)).
      { assert (Sb' : span n ((done' ++ [b']) ++ todo) b').
        { apply span_In; auto. rewrite !in_app_iff. simpl. auto. }
        assert (Sb : span n (done ++ b :: todo) b) by (apply span_In; auto; rewrite in_app_iff; simpl; auto).
        intros x; split; apply span_trans; auto; intros v Hv.
        - rewrite in_app_iff in Hv. simpl in Hv. destruct Hv as [Hv|[<-|Hv]].
          + assert (X : exists w f, In w done' /\ w = vadd v (vscale f b')).
            { clear -F Hv. induction F as [|v0 w0 done done' [f ->] F IH]; simpl in *; [tauto|].
              destruct Hv as [->|Hv]; [eauto|]. destruct (IH Hv) as (w & g & Hw & E). eauto. }
            destruct X as (w & f & Hw & Ew).
            assert (Ev : v = vadd w (vscale (- f) b')).
            { rewrite Ew, <- vadd_assoc, <- vscale_add.
              replace (f + - f) with 0 by ring. rewrite vscale_0, Hb'. symmetry. apply vadd_0_r.
              apply Hlen. rewrite in_app_iff; auto. }
            rewrite Ev. apply span_add; [|apply span_scale; auto].
            apply span_In; auto. rewrite !in_app_iff; auto.
          + replace b with (vscale d b').
            * apply span_scale; auto.
            * unfold b'. rewrite vscale_mul. replace (d * c) with 1 by (rewrite <- Hcd; ring). apply vscale_1.
          + apply span_In; auto. rewrite !in_app_iff; auto.
        - rewrite !in_app_iff in Hv. simpl in Hv. destruct Hv as [[Hv|[<-|[]]]|Hv].
          + assert (X : exists w f, In w done /\ v = vadd w (vscale f b')).
            { clear -F Hv. induction F as [|v0 w0 done done' [f ->] F IH]; simpl in *; [tauto|].
              destruct Hv as [<-|Hv]; [eauto|]. destruct (IH Hv) as (w & g & Hw & E). eauto. }
            destruct X as (w & f & Hw & ->). apply span_add.
            * apply span_In; auto. rewrite in_app_iff; auto.
            * apply span_scale. apply span_scale. auto.
          + apply span_scale; auto.
          + apply span_In; auto. rewrite in_app_iff; simpl; auto. }
      destruct (IH (done' ++ [b']) p L') as (rs & Er & Lr & Ech & Sr & Lenr & Fr).
      + eapply echelon_same_pivots; eauto.
      + intros b0 p0 Hin Hp0.
        assert (In p0 (pivots todo)).
        { unfold pivots. apply in_flat_map. exists b0. rewrite Hp0. simpl. auto. }
        pose proof (pivots_ge _ _ _ E2 H). lia.
      + exists rs. rewrite Er. splits; auto.
        * intros x. rewrite (S2 x). apply Sr.
        * rewrite Lenr. rewrite !app_length. simpl.
          assert (length done = length done') as -> by (clear -F; induction F; simpl; auto). lia.
        * clear -F2 Fr. revert Fr. generalize rs. generalize dependent ((done' ++ [b']) ++ todo).
          generalize (done ++ b :: todo). intros l l' F. induction F as [|v w l l' Hvw F IH]; intros ls Fr.
          -- inversion Fr; constructor.
          -- inversion Fr; subst. constructor; [congruence|]. apply IH; auto.
  Qed.

  Lemma reduced_rows_correct n rows :
    lens n rows ->
    exists rs, reduced_rows rows = Ret rs /\ lens n rs /\ echelon rs /\ same_span n rows rs /\
      (length rs <= length rows)%nat.
  Proof.
    intros L. destruct (extend_all_span n rows L) as (bs & E & Lb & Eb & Sb & Hl).
    unfold reduced_rows. rewrite E. simpl.
    destruct (reduce_rows_correct n bs [] O) as (rs & Er & Lr & Ech & Sr & Lenr & _); auto.
    { intros; lia. }
    exists rs. splits; auto.
    - intros x. rewrite (Sb x). apply Sr.
    - simpl in Lenr. lia.
  Qed.
End ElimProofs.
