(** Model of [impl LinearAlgebra for Matrix] (src/arithmetic/linear_algebra.rs
    246-384), generic over the operations of the trait [Scalar]. *)
From Coq Require Import List ZArith Lia Bool PeanoNat Ring Setoid.
From Verif Require Import Base Vec Elim Matrix.
Import ListNotations.
Open Scope nat_scope.

Section Model.
  Context {R : Type} {RD : Dom R} {SR : Scalar R}.

  (** linear_algebra.rs 252-260: rank.  Here and below the rows are fetched
      before the first call of extend_basis instead of one by one. *)
  Definition rank (m : mat R) : outcome nat :=
    do rows <- get_rows m;
    do bs <- extend_all [] rows;
    Ret (length bs).

  (** linear_algebra.rs 289-293: [det *= &basis[i][i]] *)
  Definition diag_product (n : nat) (bs : list (list R)) : outcome R :=
    foldM (fun det i => do b <- unwrap (nth_error bs i); do x <- unwrap (nth_error b i);
                        Ret (rmul det x)) r1 (seq 0 n).

  (** linear_algebra.rs 262-297: determinant *)
  Definition determinant (m : mat R) : outcome R :=
    do _ <- assert (Nat.eqb (nrows m) (ncols m));
    let e := index m in
    match nrows m with
    | 0 => Ret r1
    | 1 => e 0 0
    | 2 =>
        do a <- e 0 0; do b <- e 0 1; do c <- e 1 0; do d <- e 1 1;
        Ret (rsub (rmul a d) (rmul b c))
    | 3 =>
        do a00 <- e 0 0; do a01 <- e 0 1; do a02 <- e 0 2;
        do a10 <- e 1 0; do a11 <- e 1 1; do a12 <- e 1 2;
        do a20 <- e 2 0; do a21 <- e 2 1; do a22 <- e 2 2;
        Ret (rsub (rsub (rsub (radd (radd
              (rmul (rmul a00 a11) a22)
              (rmul (rmul a01 a12) a20))
              (rmul (rmul a02 a10) a21))
              (rmul (rmul a02 a11) a20))
              (rmul (rmul a00 a12) a21))
              (rmul (rmul a01 a10) a22))
    | n =>
        do rows <- get_rows m;
        do bs <- extend_all [] rows;
        if Nat.ltb (length bs) n then Ret r0 else diag_product n bs
    end.

  (** linear_algebra.rs 299-324: reduced_basis *)
  Definition reduced_basis (m : mat R) : outcome (mat R) :=
    do rows <- get_rows m;
    do bs <- reduced_rows rows;
    do ms <- mapM mat_row bs;
    vstack ms.

  (** linear_algebra.rs 347-353: the loop over the rows of the triangular system *)
  Fixpoint solve_rows (b rgt : mat R) (is : list nat) (x : list (list R)) : outcome (option (list (list R))) :=
    match is with
    | [] => Ret (Some x)
    | i :: is' =>
        do a <- get_row b i;
        do c <- get_row rgt i;
        do o <- s_solve_row a x c;
        match o with
        | Some r => solve_rows b rgt is' (x ++ [r])
        | None => Ret None
        end
    end.

  (** linear_algebra.rs 326-362: solve *)
  Definition solve (lft rgt : mat R) : outcome (option (mat R)) :=
    do _ <- assert (Nat.eqb (nrows lft) (nrows rgt));
    do h <- hstack [lft; rgt];
    do t <- reduced_basis h;
    if Nat.eqb (nrows t) 0 then
      do z <- mat_zero (ncols lft) (ncols rgt); Ret (Some z)
    else
      do l <- submatrix t 0 (nrows t) 0 (ncols lft);
      do r <- submatrix t 0 (nrows t) (ncols lft) (ncols t);
      do rk <- rank l;
      if Nat.ltb rk (nrows l) then Ret None
      else
        do lt <- transpose l;
        do id <- identity (ncols l);
        do h2 <- hstack [lt; id];
        do t2 <- reduced_basis h2;
        do b0 <- submatrix t2 0 (nrows t2) 0 (nrows l);
        do b <- transpose b0;
        do u0 <- submatrix t2 0 (nrows t2) (nrows l) (ncols t2);
        do u <- transpose u0;
        do ox <- solve_rows b r (seq 0 (nrows r)) [];
        match ox with
        | None => Ret None
        | Some x =>
            do ms <- mapM mat_row (x ++ repeat (repeat r0 (ncols r)) (ncols u - nrows r));
            do xm <- vstack ms;
            do y <- mat_mul u xm;
            Ret (Some y)
        end.

  (** linear_algebra.rs 364-377: null_space *)
  Definition null_space (a : mat R) : outcome (option (mat R)) :=
    do m <- transpose a;
    do id <- identity (nrows m);
    do h <- hstack [m; id];
    do t <- reduced_basis h;
    do l <- submatrix t 0 (nrows t) 0 (ncols m);
    do r <- submatrix t 0 (nrows t) (ncols m) (ncols t);
    do k <- rank l;
    if Nat.ltb k (nrows r) then
      do s <- submatrix r k (nrows r) 0 (ncols r);
      do st <- transpose s;
      Ret (Some st)
    else Ret None.

  (** linear_algebra.rs 379-383: inverse *)
  Definition inverse (a : mat R) : outcome (option (mat R)) :=
    do _ <- assert (Nat.eqb (nrows a) (ncols a));
    do id <- identity (nrows a);
    solve a id.
End Model.

(** what the reduced shape of a scalar type is, and what [solve_row] does on
    rows of that shape *)
Class ShapeLaws (R : Type) {RD : Dom R} {SR : Scalar R} := {
  s_norm : R -> Prop;
  s_red : R -> R -> Prop;
  norm_shape : forall col (b b' : list R),
    pivot b = Some col -> s_normalize col b = Ret b' -> s_norm (vget b' col);
  red_shape : forall col (v b v' : list R),
    length v = length b -> col < length b -> s_norm (vget b col) ->
    (forall i, i < col -> vget b i = r0) ->
    s_reduce col v b = Ret v' -> s_red (vget v' col) (vget b col);
  solve_row_law : forall (a : list R) (x : list (list R)) (b : list R),
    length x < length a -> lens (length b) x ->
    s_norm (vget a (length x)) ->
    (forall l, l < length x -> s_red (vget a l) (vget a (length x))) ->
    let res := fun j => rsub (vget b j) (sumf (length x) (fun l => rmul (vget a l) (vget (nth l x []) j))) in
    (exists y, s_solve_row a x b = Ret (Some y) /\ length y = length b /\
       forall j, j < length b -> rmul (vget a (length x)) (vget y j) = res j) \/
    (s_solve_row a x b = Ret None /\
       exists j, j < length b /\ forall y, rmul (vget a (length x)) y <> res j) }.

Section Proofs.
  Context {R : Type} {RD : Dom R} {DL : DomLaws R} {SR : Scalar R} {SL : ScalarLaws R} {SH : ShapeLaws R}.
  Notation vec := (list R).

  Local Lemma Rth_la : ring_theory r0 r1 radd rmul rsub ropp (@eq R).
  Proof. apply r_th. Qed.
  Add Ring RingLA : Rth_la.

  Local Notation "0" := r0.
  Local Notation "1" := r1.
  Local Infix "+" := radd.
  Local Infix "*" := rmul.
  Local Infix "-" := rsub.
  Local Notation "- x" := (ropp x).

  (** every pivot is normalised and every entry above a pivot reduced *)
  Inductive shaped : list vec -> Prop :=
  | shaped_nil : shaped []
  | shaped_snoc bs b : shaped bs ->
      (forall p, pivot b = Some p -> s_norm (vget b p)) ->
      (forall v p, In v bs -> pivot b = Some p -> s_red (vget v p) (vget b p)) ->
      shaped (bs ++ [b]).

  (** adding multiples of a row that starts later keeps the shape *)
  Lemma shaped_add n (b : vec) p done done' :
    length b = n -> pivot b = Some p ->
    (forall v q, In v done -> pivot v = Some q -> q < p) ->
    (forall v, In v done -> length v = n /\ exists q, pivot v = Some q) ->
    Forall2 (fun v w => exists f, w = vadd v (vscale f b)) done done' ->
    shaped done -> shaped done'.
  Proof.
    intros Hb Hp Hlt Hlen F S. revert done' F. induction S as [|bs c S IH Hn Hr]; intros done' F.
    - inversion F; subst. constructor.
    - apply Forall2_app_inv_l in F as (l1 & l2 & F1 & F2 & ->).
      inversion F2 as [|? c' ? ? (f & Ec) F3]; subst. inversion F3; subst.
      assert (Hc : length c = length b /\ exists q, pivot c = Some q) by (apply Hlen; rewrite in_app_iff; simpl; auto).
      destruct Hc as (Lc & q & Hq).
      assert (Hqp : q < p) by (eapply Hlt; eauto; rewrite in_app_iff; simpl; auto).
      assert (Hpc : pivot (vadd c (vscale f b)) = Some q) by (eapply pivot_vadd_later; eauto).
      assert (Hz : vget b q = 0) by (apply pivot_Some in Hp as (_ & _ & Z); apply Z; auto).
      assert (Hval : forall v g, length v = length b -> vget (vadd v (vscale g b)) q = vget v q).
      { intros v g Hv. rewrite vget_vadd by (rewrite vscale_length; auto). rewrite vget_vscale, Hz. ring. }
      constructor.
      + apply IH; auto.
        * intros v q' Hv. apply Hlt. rewrite in_app_iff; auto.
        * intros v Hv. apply Hlen. rewrite in_app_iff; auto.
      + intros p' Hp'. rewrite Hpc in Hp'. injection Hp' as <-. rewrite Hval by auto. auto.
      + intros v p' Hv Hp'. rewrite Hpc in Hp'. injection Hp' as <-. rewrite Hval by auto.
        assert (X : exists w g, In w bs /\ v = vadd w (vscale g b)).
        { clear -F1 Hv. induction F1 as [|v0 w0 d d' [g ->] F IH]; simpl in *; [tauto|].
          destruct Hv as [<-|Hv]; [eauto|]. destruct (IH Hv) as (w & h & Hw & E). eauto. }
        destruct X as (w & g & Hw & ->). rewrite Hval; auto.
        apply (Hlen w). rewrite in_app_iff; auto.
  Qed.

  Lemma reduce_rows_shape n todo : forall done col rs,
    lens n (done ++ todo) -> echelon (done ++ todo) ->
    (forall b p, In b todo -> pivot b = Some p -> col <= p) ->
    shaped done -> reduce_rows done todo col = Ret rs -> shaped rs.
  Proof.
    induction todo as [|b todo IH]; intros done col rs L E Hc S Hr; simpl in Hr.
    - injection Hr as <-. auto.
    - assert (Hlen : forall v, In v (done ++ b :: todo) -> length v = n).
      { unfold lens in L. rewrite Forall_forall in L. auto. }
      assert (Hpb : exists p, pivot b = Some p).
      { clear -E. revert E. unfold echelon. generalize O. induction done as [|v done IH]; intros k E; simpl in *.
        - inversion E; subst; eauto.
        - inversion E; subst; eauto. }
      destruct Hpb as [p Hp].
      destruct (echelon_split _ _ _ _ _ E Hp) as (E2 & Hdone & _ & E1).
      assert (Hb : length b = n) by (apply Hlen; rewrite in_app_iff; simpl; auto).
      rewrite (next_nz_pivot b col p Hp) in Hr by (eapply Hc; eauto; simpl; auto). simpl in Hr.
      destruct (normalize_law p b Hp) as (c & d & Hn & Hcd). rewrite Hn in Hr. simpl in Hr.
      pose proof (norm_shape _ _ _ Hp Hn) as Hns.
      set (b' := vscale c b) in *.
      assert (Hb' : length b' = n) by (unfold b'; rewrite vscale_length; auto).
      assert (Hpb' : pivot b' = Some p) by (eapply pivot_vscale; eauto).
      assert (Hred : forall v, In v done -> exists f, s_reduce p v b' = Ret (vadd v (vscale f b'))).
      { intros v Hv. apply (reduce_law p v b b'); auto.
        - rewrite Hb. apply Hlen. rewrite in_app_iff; auto.
        - apply pivot_Some in Hp as (_ & _ & Hz). auto. }
      assert (Hmap : exists done', mapM (fun v => s_reduce p v b') done = Ret done' /\
                Forall2 (fun v w => exists f, w = vadd v (vscale f b')) done done' /\
                Forall2 (fun v w => s_reduce p v b' = Ret w) done done').
      { clear -Hred. induction done as [|v done IH]; simpl.
        - exists []. auto.
        - destruct (Hred v) as [f Hf]; [simpl; auto|]. rewrite Hf. simpl.
          destruct IH as (done' & -> & F & F'); [intros; apply Hred; simpl; auto|].
          simpl. eexists. split; [reflexivity|]. split; constructor; eauto. }
      destruct Hmap as (done' & Em & F & F'). rewrite Em in Hr. simpl in Hr.
      assert (Hlen1 : forall v, In v done -> length v = n) by (intros; apply Hlen; rewrite in_app_iff; auto).
      assert (Hpd : forall v, In v done -> exists q, pivot v = Some q).
      { clear -E1. revert E1. generalize O. induction done as [|v done IH]; intros k E; simpl in *; [tauto|].
        inversion E; subst. intros w [<-|Hw]; eauto. }
      assert (Lt : forall v, In v todo -> length v = n) by (intros; apply Hlen; rewrite in_app_iff; simpl; auto).
      apply (IH (done' ++ [b']) p rs); auto.
      + unfold lens. rewrite <- app_assoc. simpl. apply Forall_app. split.
        * clear -F Hlen1 Hb'. induction F as [|v w done done' [f ->] F IH]; constructor.
          -- rewrite vadd_length; rewrite ?vscale_length; [apply Hlen1; simpl; auto|].
             rewrite Hb'. apply Hlen1; simpl; auto.
          -- apply IH. intros; apply Hlen1; simpl; auto.
        * constructor; auto. apply Forall_forall; auto.
      + eapply echelon_same_pivots; [|exact E]. rewrite <- app_assoc. simpl. apply Forall2_app.
        * clear -F Hdone Hlen1 Hb' Hpb' Hpd DL.
          induction F as [|v w done done' [f ->] F IH]; constructor.
          -- destruct (Hpd v) as [q Hq]; [simpl; auto|]. rewrite Hq. symmetry.
             eapply pivot_vadd_later; eauto; [|eapply Hdone; eauto; simpl; auto].
             rewrite Hb'. apply Hlen1; simpl; auto.
          -- apply IH; intros; [eapply Hdone; eauto|apply Hlen1|apply Hpd]; simpl; auto.
        * constructor; [congruence|]. clear. induction todo; constructor; auto.
      + intros b0 p0 Hin Hp0.
        assert (In p0 (pivots todo)).
        { unfold pivots. apply in_flat_map. exists b0. rewrite Hp0. simpl. auto. }
        pose proof (pivots_ge _ _ _ E2 H). lia.
      + constructor.
        * eapply (shaped_add n b' p done); eauto.
        * intros p' Hp'. assert (p' = p) by congruence. subst. auto.
        * intros v p' Hv Hp'. assert (p' = p) by congruence. subst p'.
          assert (X : exists w, In w done /\ s_reduce p w b' = Ret v).
          { clear -F' Hv. induction F' as [|v0 w0 d d' E F IH]; simpl in *; [tauto|].
            destruct Hv as [<-|Hv]; [eauto|]. destruct (IH Hv) as (w & Hw & E'). eauto. }
          destruct X as (w & Hw & Ew). apply pivot_Some in Hpb' as (Lp & _ & Hz).
          eapply (red_shape p w b' v); eauto.
          rewrite Hb'. auto.
  Qed.

  Lemma reduced_rows_shape n rows rs :
    lens n rows -> reduced_rows rows = Ret rs -> shaped rs.
  Proof.
    intros L. destruct (extend_all_span n rows L) as (bs & E & Lb & Eb & Sb & Hl).
    unfold reduced_rows. rewrite E. simpl. intros Hr.
    eapply (reduce_rows_shape n bs [] O); eauto; [intros; lia|constructor].
  Qed.

  Lemma shaped_norm bs i p : shaped bs -> i < length bs -> pivot (nth i bs []) = Some p ->
    s_norm (vget (nth i bs []) p).
  Proof.
    induction 1 as [|bs b S IH Hn Hr]; intros Hi Hp; [simpl in Hi; lia|].
    rewrite app_length in Hi. simpl in Hi.
    destruct (Nat.lt_ge_cases i (length bs)).
    - rewrite app_nth1 in * by auto. auto.
    - rewrite app_nth2 in * by auto. replace (i - length bs)%nat with O in * by lia. simpl in *. auto.
  Qed.

  Lemma shaped_red bs i j p : shaped bs -> i < j -> j < length bs -> pivot (nth j bs []) = Some p ->
    s_red (vget (nth i bs []) p) (vget (nth j bs []) p).
  Proof.
    induction 1 as [|bs b S IH Hn Hr]; intros Hij Hj Hp; [simpl in Hj; lia|].
    rewrite app_length in Hj. simpl in Hj. rewrite (app_nth1 _ _ _ (n := i)) by lia.
    destruct (Nat.lt_ge_cases j (length bs)).
    - rewrite app_nth1 in * by auto. auto.
    - rewrite app_nth2 in * by auto. replace (j - length bs)%nat with O in * by lia. simpl in *.
      apply Hr; auto. apply nth_In. lia.
  Qed.

  (** *** reduced_basis of a matrix *)

  Lemma reduced_basis_mrows n rows :
    (0 < n)%nat -> lens n rows ->
    exists rs, reduced_rows rows = Ret rs /\ lens n rs /\ echelon rs /\ shaped rs /\ same_span n rows rs /\
      (length rs <= length rows)%nat /\
      reduced_basis (mrows n rows) = Ret (match rs with [] => Mat 0 0 [] | _ => mrows n rs end).
  Proof.
    intros Hn L. destruct (reduced_rows_correct n rows L) as (rs & E & Lr & Er & Sr & Hl).
    exists rs. splits; auto.
    - apply (reduced_rows_shape n rows); auto.
    - unfold reduced_basis. rewrite get_rows_mrows by auto. simpl. rewrite E. simpl.
      destruct rs as [|r rs]; [reflexivity|]. apply vstack_rows; auto. discriminate.
  Qed.

  (** *** the span of [transpose L | I] is the graph of L *)
  Definition graph_vec (lft : list vec) (z : vec) : vec := map (fun b => dot b z) lft ++ z.

  Lemma dots_add lft u v : length u = length v ->
    map (fun b => dot b (vadd u v)) lft = vadd (map (fun b => dot b u) lft) (map (fun b => dot b v) lft).
  Proof.
    intros E. induction lft as [|b lft IH]; simpl; auto. unfold vadd in *. simpl. f_equal; auto.
    fold (vadd u v). rewrite (dot_comm b (vadd u v)), dot_vadd_l, (dot_comm u), (dot_comm v) by auto. auto.
  Qed.

  Lemma dots_scale lft c v : map (fun b => dot b (vscale c v)) lft = vscale c (map (fun b => dot b v) lft).
  Proof.
    induction lft as [|b lft IH]; simpl; auto. unfold vscale in *. simpl. f_equal; auto.
    fold (vscale c v). rewrite (dot_comm b), dot_vscale_l, (dot_comm v). auto.
  Qed.

  Lemma dots_zero lft n : map (fun b => dot b (vzero n)) lft = vzero (length lft).
  Proof.
    induction lft as [|b lft IH]; simpl; auto. unfold vzero in *. simpl. f_equal; auto.
    fold (vzero n). rewrite dot_comm. apply dot_vzero_l.
  Qed.

  Lemma vadd_app (a b c d : vec) : length a = length c -> vadd (a ++ b) (c ++ d) = vadd a c ++ vadd b d.
  Proof. intros. unfold vadd. apply zipw_app. auto. Qed.

  Lemma vzero_app n m : vzero (n + m) = vzero n ++ vzero m.
  Proof. unfold vzero. apply repeat_app. Qed.

  Lemma graph_add lft u v : length u = length v ->
    graph_vec lft (vadd u v) = vadd (graph_vec lft u) (graph_vec lft v).
  Proof.
    intros E. unfold graph_vec. rewrite vadd_app by (rewrite !map_length; auto). f_equal. apply dots_add; auto.
  Qed.

  Lemma graph_scale lft c v : graph_vec lft (vscale c v) = vscale c (graph_vec lft v).
  Proof.
    unfold graph_vec. rewrite dots_scale. unfold vscale. rewrite map_app. auto.
  Qed.

  Lemma graph_zero lft n : graph_vec lft (vzero n) = vzero (length lft + n).
  Proof. unfold graph_vec. rewrite dots_zero, <- vzero_app. auto. Qed.

  Lemma graph_lincomb lft n cs zs :
    lens n zs -> length cs = length zs ->
    lincomb (length lft + n) cs (map (graph_vec lft) zs) = graph_vec lft (lincomb n cs zs).
  Proof.
    intros L; revert cs; induction L as [|z zs Hz L IH]; intros [|c cs] E; simpl in *; try discriminate;
      try (symmetry; apply graph_zero).
    rewrite IH by auto. rewrite graph_add, graph_scale; auto.
    rewrite vscale_length, lincomb_length; auto.
  Qed.

  Lemma lincomb_units n z : length z = n -> lincomb n z (map (vunit n) (seq 0 n)) = z.
  Proof.
    intros Hz.
    assert (G : forall m s, (s + m)%nat = n -> lincomb n (skipn s z) (map (vunit n) (seq s m)) =
       vzero s ++ skipn s z).
    { induction m as [|m IH]; intros s E.
      - simpl. rewrite skipn_all2 by lia. simpl. rewrite app_nil_r. f_equal. lia.
      - simpl. pose proof (skipn_length s z) as Hs.
        destruct (skipn s z) as [|x l] eqn:El; [simpl in Hs; lia|].
        assert (El' : l = skipn (S s) z).
        { clear -El. revert z El. induction s; intros [|y z] El; simpl in *; try discriminate; [congruence|]. auto. }
        simpl in Hs. pose proof (IH (S s) ltac:(lia)) as IHs. rewrite <- El' in IHs.
        cbn [lincomb]. rewrite IHs. clear El El' IH IHs. apply vec_ext.
        + rewrite vadd_length; rewrite vscale_length, vunit_length, ?app_length, ?vzero_length; simpl; lia.
        + rewrite vadd_length; rewrite vscale_length, vunit_length, ?app_length, ?vzero_length; [|lia].
          intros i Hi. rewrite vget_vadd.
          2:{ rewrite vscale_length, vunit_length, app_length, vzero_length. lia. }
          rewrite vget_vscale, vget_vunit. unfold vget.
          destruct (Nat.lt_trichotomy i s) as [G|[->|G]].
          * rewrite !app_nth1 by (rewrite vzero_length; lia).
            destruct (Nat.eqb_spec i s); [lia|]. cbn [andb].
            fold (vget (vzero (S s)) i). fold (vget (vzero s) i). rewrite !vget_vzero. ring.
          * rewrite app_nth1 by (rewrite vzero_length; lia). rewrite app_nth2 by (rewrite vzero_length; lia).
            rewrite vzero_length, Nat.eqb_refl, Nat.sub_diag. destruct (Nat.ltb_spec s n); [|lia]. cbn [andb nth].
            fold (vget (vzero (S s)) s). rewrite vget_vzero. ring.
          * rewrite !app_nth2 by (rewrite vzero_length; lia).
            destruct (Nat.eqb_spec i s); [lia|]. cbn [andb]. rewrite !vzero_length.
            replace (i - s)%nat with (S (i - S s)) by lia. cbn [nth]. ring. }
    apply (G n O). auto.
  Qed.

  Lemma graph_rows lft n :
    lens n lft -> hrows (cols n lft) (map (vunit n) (seq 0 n)) = map (graph_vec lft) (map (vunit n) (seq 0 n)).
  Proof.
    intros L. unfold hrows, cols. rewrite map_map.
    assert (G : forall s, map (fun p => fst p ++ snd p)
       (combine (map (fun j => map (fun v => vget v j) lft) s) (map (vunit n) s)) =
       map (fun x => graph_vec lft (vunit n x)) s).
    { induction s as [|j s IH]; simpl; auto. f_equal; auto. unfold graph_vec. f_equal.
      apply map_ext_in. intros v Hv. symmetry. apply dot_vunit. eapply lens_In; eauto. }
    apply G.
  Qed.

  Lemma units_lens n l : lens n (map (vunit n) l).
  Proof. apply Forall_forall. intros v Hv. apply in_map_iff in Hv as (j & <- & _). apply vunit_length. Qed.

  Lemma graph_span lft n x :
    lens n lft ->
    span (length lft + n) (map (graph_vec lft) (map (vunit n) (seq 0 n))) x <->
    exists z, length z = n /\ x = graph_vec lft z.
  Proof.
    intros L. split.
    - intros (cs & Hc & ->). rewrite map_length in Hc. rewrite graph_lincomb by (auto using units_lens).
      eexists. split; [|reflexivity]. apply lincomb_length. apply units_lens.
    - intros (z & Hz & ->). exists z. rewrite !map_length, seq_length. split; auto.
      rewrite graph_lincomb by (rewrite ?map_length, ?seq_length; auto using units_lens).
      rewrite lincomb_units; auto.
  Qed.

  (** *** rank of rows in echelon form followed by zero rows *)
  Lemma rank_mrows n rows bs :
    (0 < n)%nat -> lens n rows -> extend_all [] rows = Ret bs -> rank (mrows n rows) = Ret (length bs).
  Proof. intros Hn L E. unfold rank. rewrite get_rows_mrows by auto. simpl. rewrite E. reflexivity. Qed.

  Lemma extend_all_zeros n l z :
    lens n l -> echelon l -> extend_all [] (l ++ zeros n z) = Ret l.
  Proof.
    intros L E. unfold extend_all. rewrite foldM_app. fold (extend_all [] l).
    rewrite (extend_all_echelon n O l) by auto. simpl.
    induction z as [|z IH]; simpl; auto. rewrite (extend_zero n O l) by auto. simpl. apply IH.
  Qed.

  Lemma pivot_subv n (v : vec) p : (n <= length v)%nat -> (p < n)%nat ->
    pivot v = Some p -> pivot (subv 0 n v) = Some p.
  Proof.
    intros Hn Hp H1. apply pivot_Some in H1 as (A & B & C). apply pivot_Some.
    rewrite subv_length by lia. splits; [lia| |].
    - rewrite vget_subv by lia. auto.
    - intros i Hi. rewrite vget_subv by lia. apply C. lia.
  Qed.

  Lemma subv_zero n m (v : vec) p : length v = (n + m)%nat -> (n <= p)%nat ->
    pivot v = Some p -> subv 0 n v = vzero n.
  Proof.
    intros Hn Hp H1. apply pivot_Some in H1 as (A & B & C). apply vec_ext.
    - rewrite subv_length, vzero_length by lia. lia.
    - rewrite subv_length by lia. intros i Hi. rewrite vget_subv by lia. rewrite vget_vzero. apply C. lia.
  Qed.

  Lemma echelon_In_pivot k (bs : list vec) v : echelon_from k bs -> In v bs -> exists q, pivot v = Some q /\ (k <= q)%nat.
  Proof.
    induction 1 as [|k p b bs Hp Hk E IH]; intros Hv; [destruct Hv|].
    destruct Hv as [<-|Hv]; eauto. destruct (IH Hv) as (q & Hq & Hle). exists q. split; auto. lia.
  Qed.

  Lemma echelon_cut n m k rs :
    lens (n + m) rs -> echelon_from k rs ->
    exists l1 l2, rs = l1 ++ l2 /\
      echelon_from k (map (subv 0 n) l1) /\
      Forall2 (fun v w => pivot v = pivot w) l1 (map (subv 0 n) l1) /\
      map (subv 0 n) l2 = zeros n (length l2) /\
      (forall v, In v l2 -> exists p, pivot v = Some p /\ (n <= p)%nat).
  Proof.
    intros L E. induction E as [k|k p b bs Hp Hk E IH].
    - exists [], []. splits; auto; simpl; try constructor. tauto.
    - destruct (lens_cons _ _ _ L) as [Hb L']. destruct (IH L') as (l1 & l2 & -> & E1 & F & Z & P).
      destruct (Nat.lt_ge_cases p n) as [G|G].
      + exists (b :: l1), l2. splits; auto.
        * simpl. econstructor; eauto. apply pivot_subv; auto. lia.
        * simpl. constructor; auto. rewrite Hp. symmetry. apply pivot_subv; auto. lia.
      + exists [], (b :: l1 ++ l2). splits; auto.
        * constructor.
        * simpl. constructor.
        * assert (Hz : forall v, In v (b :: l1 ++ l2) -> subv 0 n v = vzero n).
          { intros v Hv. assert (Hpv : exists q, pivot v = Some q /\ (n <= q)%nat).
            { destruct Hv as [<-|Hv]; [eauto|]. destruct (echelon_In_pivot _ _ _ E Hv) as (q & Hq & Hle).
              exists q. split; auto. lia. }
            destruct Hpv as (q & Hq & Hge). apply (subv_zero n m v q); auto. apply (lens_In _ _ _ L Hv). }
          clear -Hz. unfold zeros. revert Hz. generalize (b :: l1 ++ l2). induction l as [|v l IH]; intros Hz; simpl; auto.
          f_equal; [apply Hz; simpl; auto|]. apply IH. intros; apply Hz; simpl; auto.
        * intros v [<-|Hv]; [eauto|]. destruct (echelon_In_pivot _ _ _ E Hv) as (q & Hq & Hle).
          exists q. split; auto. lia.
  Qed.

  (** *** an echelon basis whose pivots contain an initial segment *)
  Lemma echelon_initial k ts r :
    echelon_from k ts -> (forall i, (k <= i < k + r)%nat -> In i (pivots ts)) ->
    forall i, (i < r)%nat -> (i < length ts)%nat /\ pivot (nth i ts []) = Some (k + i)%nat.
  Proof.
    intros E; revert r; induction E as [k|k p b bs Hp Hk E IH]; intros r Hin i Hi.
    - destruct (Hin k). lia.
    - assert (p = k).
      { specialize (Hin k ltac:(lia)). simpl in Hin. rewrite Hp in Hin. simpl in Hin. destruct Hin as [->|Hin]; auto.
        apply pivots_ge with (k := S p) in Hin; auto. lia. }
      subst p. destruct i as [|i]; simpl.
      + split; [lia|]. rewrite Hp. f_equal. lia.
      + destruct (IH (r - 1)%nat) with (i := i) as [A B]; [|lia|].
        * intros j Hj. specialize (Hin j ltac:(lia)). simpl in Hin. rewrite Hp in Hin. simpl in Hin.
          destruct Hin as [->|Hin]; auto. lia.
        * split; [lia|]. rewrite B. f_equal. lia.
  Qed.

  Lemma echelon_nth_zero k ts i j :
    echelon_from k ts -> (j < length ts)%nat -> (i < k + j)%nat -> vget (nth j ts []) i = 0.
  Proof.
    intros E; revert j; induction E as [k|k p b bs Hp Hk E IH]; intros j Hj Hi; simpl in *; [lia|].
    destruct j as [|j].
    - apply pivot_Some in Hp as (_ & _ & Z). apply Z. lia.
    - apply IH; lia.
  Qed.

  (** pivots of the graph of a surjective-up-to-torsion map *)
  Lemma graph_pivots lft n ts :
    lens n lft -> echelon lft -> lens (length lft + n) ts -> echelon ts ->
    same_span (length lft + n) (map (graph_vec lft) (map (vunit n) (seq 0 n))) ts ->
    forall i, (i < length lft)%nat -> (i < length ts)%nat /\ pivot (nth i ts []) = Some i.
  Proof.
    intros L E Lt Et S i Hi.
    apply (echelon_initial O ts (length lft)); auto. intros j Hj.
    destruct (echelon_solvable n O lft (vunit (length lft) j)) as (d & z & Hd & Hz & Hm); auto.
    { apply vunit_length. }
    eapply (span_pivot (length lft + n) O ts (graph_vec lft z)); auto.
    - apply S. apply graph_span; auto. eauto.
    - apply pivot_Some. unfold graph_vec. rewrite app_length, map_length. splits; [lia| |].
      + unfold vget. rewrite app_nth1 by (rewrite map_length; lia). rewrite Hm.
        fold (vget (vscale d (vunit (length lft) j)) j). rewrite vget_vscale, vget_vunit, Nat.eqb_refl.
        destruct (Nat.ltb_spec j (length lft)); [|lia]. simpl. intros H0. apply Hd. rewrite <- H0. ring.
      + intros q Hq. unfold vget. rewrite app_nth1 by (rewrite map_length; lia). rewrite Hm.
        fold (vget (vscale d (vunit (length lft) j)) q). rewrite vget_vscale, vget_vunit.
        destruct (Nat.eqb_spec q j); [lia|]. simpl. ring.
  Qed.

  (** *** forward substitution *)
  Section Forward.
    Variables (r k N : nat) (c : nat -> nat -> R) (g : nat -> nat -> R) (b rg : mat R).
    Hypothesis Hk : (0 < k)%nat.
    Hypothesis HN : (r <= N)%nat.
    Hypothesis Hb : b = mk r N c.
    Hypothesis Hg : rg = mk r k g.
    Hypothesis Hnz : forall i, (i < r)%nat -> c i i <> 0.
    Hypothesis Hnorm : forall i, (i < r)%nat -> s_norm (c i i).
    Hypothesis Hred : forall i l, (i < r)%nat -> (l < i)%nat -> s_red (c i l) (c i i).

    Definition fcol (i j : nat) (x : nat -> R) : Prop :=
      forall l, (l < i)%nat -> sumf (S l) (fun q => c l q * x q) = g l j.

    Definition fsol (i : nat) (x : nat -> nat -> R) : Prop :=
      forall j, (j < k)%nat -> fcol i j (fun q => x q j).

    Lemma fcol_unique i j x y : (i <= r)%nat -> fcol i j x -> fcol i j y ->
      forall q, (q < i)%nat -> x q = y q.
    Proof.
      intros Hi Hx Hy q. induction q as [q IH] using (well_founded_induction lt_wf). intros Hq.
      pose proof (Hx q Hq) as A. pose proof (Hy q Hq) as B. simpl in A, B.
      rewrite (sumf_ext q _ (fun p => c q p * y p)) in A.
      2:{ intros p Hp. rewrite (IH p Hp) by (auto; lia). auto. }
      apply (r_cancel (c q q)); [apply Hnz; lia|].
      assert (E : forall a u v : R, a + u = a + v -> u = v).
      { intros a u v E. replace u with (a + u - a) by ring. rewrite E. ring. }
      eapply E. rewrite A, B. reflexivity.
    Qed.

    Lemma forward m : forall i x,
      (i + m)%nat = r -> length x = i -> lens k x -> fsol i (fun q j => vget (nth q x []) j) ->
      (exists y, solve_rows b rg (seq i m) x = Ret (Some y) /\ length y = r /\ lens k y /\
         fsol r (fun q j => vget (nth q y []) j)) \/
      (solve_rows b rg (seq i m) x = Ret None /\ exists j, (j < k)%nat /\ ~ exists y, fcol r j y).
    Proof.
      induction m as [|m IH]; intros i x Hi Hx Lx Hs.
      - left. exists x. simpl. assert (i = r) as Eir by lia. rewrite <- Eir. splits; auto.
      - cbn [seq solve_rows].
        replace (get_row b i) with (Ret (frow N c i)) by (rewrite Hb, get_row_mk by lia; auto).
        replace (get_row rg i) with (Ret (frow k g i)) by (rewrite Hg, get_row_mk by lia; auto). simpl.
        destruct (solve_row_law (frow N c i) x (frow k g i)) as [(y & Ey & Ly & Hy)|(En & j & Hj & Hn)].
        + rewrite frow_length. lia.
        + rewrite frow_length. auto.
        + rewrite vget_frow by lia. rewrite Hx. apply Hnorm. lia.
        + intros l Hl. rewrite !vget_frow by lia. rewrite Hx. apply Hred; lia.
        + rewrite Ey. simpl. rewrite frow_length in Ly, Hy.
          apply IH; auto; [lia|rewrite app_length; simpl; lia| |].
          * unfold lens. apply Forall_app. split; auto.
          * intros j Hj l Hl. destruct (Nat.eq_dec l i) as [->|Hli].
            -- cbn [sumf]. rewrite app_nth2 by lia. rewrite Hx, Nat.sub_diag. cbn [nth].
               specialize (Hy j Hj). rewrite !vget_frow in Hy by lia. rewrite Hx in Hy. rewrite Hy.
               rewrite (sumf_ext i _ (fun q => vget (frow N c i) q * vget (nth q x []) j)).
               ++ ring.
               ++ intros q Hq. rewrite app_nth1 by lia. rewrite vget_frow by lia. auto.
            -- rewrite <- (Hs j Hj l) by lia. apply sumf_ext. intros q Hq. rewrite app_nth1 by lia. auto.
        + rewrite En. simpl. right. split; auto. rewrite frow_length in Hj. exists j. split; auto.
          intros (y & Hy).
          apply (Hn (y i)). rewrite !vget_frow by lia. rewrite Hx.
          assert (Hy' : fcol i j y) by (intros l Hl; apply Hy; lia).
          pose proof (Hy i ltac:(lia)) as A. simpl in A. rewrite <- A.
          rewrite (sumf_ext i (fun l => vget (frow N c i) l * vget (nth l x []) j) (fun q => c i q * y q)).
          * ring.
          * intros q Hq. rewrite vget_frow by lia. f_equal.
            apply (fcol_unique i j (fun q => vget (nth q x []) j) y); [lia|apply Hs; auto|auto|auto].
    Qed.
  End Forward.

  Lemma vget_lincomb n cs vs i :
    lens n vs -> length cs = length vs ->
    vget (lincomb n cs vs) i = sumf (length vs) (fun l => vget cs l * vget (nth l vs []) i).
  Proof.
    intros L; revert cs; induction L as [|v vs Hv L IH]; intros [|c cs] E; cbn [lincomb length] in *; try discriminate.
    - apply vget_vzero.
    - rewrite vget_vadd by (rewrite vscale_length, lincomb_length; auto).
      rewrite vget_vscale, IH by auto. rewrite sumf_S_l. reflexivity.
  Qed.

  Lemma vget_map_seq N (x : nat -> R) l : (l < N)%nat -> vget (map x (seq 0 N)) l = x l.
  Proof. intros Hl. exact (vget_frow N (fun _ => x) 0 l Hl). Qed.

  Lemma vget_graph_l lft z i : (i < length lft)%nat -> vget (graph_vec lft z) i = dot (nth i lft []) z.
  Proof.
    intros Hi. unfold graph_vec, vget. rewrite app_nth1 by (rewrite map_length; auto).
    rewrite (nth_indep _ _ (dot [] z)) by (rewrite map_length; auto).
    apply (map_nth (fun b => dot b z)).
  Qed.

  Lemma vget_graph_r lft z i : vget (graph_vec lft z) (length lft + i) = vget z i.
  Proof. unfold graph_vec, vget. rewrite app_nth2; rewrite map_length; [|lia]. f_equal. lia. Qed.

  Section Stage2.
    Variables (n k : nat) (lft ts : list vec) (g : nat -> nat -> R).
    Hypothesis L : lens n lft.
    Hypothesis E : echelon lft.
    Hypothesis Lt : lens (length lft + n) ts.
    Hypothesis Et : echelon ts.
    Hypothesis S2 : same_span (length lft + n) (map (graph_vec lft) (map (vunit n) (seq 0 n))) ts.
    Let r := length lft.
    Let N := length ts.
    Let c (i l : nat) := vget (nth l ts []) i.

    Lemma stage2_trunc x i : (i < r)%nat ->
      sumf N (fun l => c i l * x l) = sumf (S i) (fun l => c i l * x l).
    Proof.
      intros Hi. destruct (graph_pivots lft n ts L E Lt Et S2 i Hi) as [Hi' _].
      unfold N. replace (length ts) with (S i + (length ts - S i))%nat by lia.
      rewrite sumf_split. rewrite (sumf_zero (length ts - S i)).
      - ring.
      - intros l Hl. unfold c. rewrite (echelon_nth_zero O) by (auto; lia). ring.
    Qed.

    Lemma stage2_sound x : (forall j, (j < k)%nat -> fcol c g r j (fun q => x q j)) ->
      forall j, (j < k)%nat ->
      let z := map (fun i => sumf N (fun l => vget (nth l ts []) (r + i) * x l j)) (seq 0 n) in
      forall i, (i < r)%nat -> dot (nth i lft []) z = g i j.
    Proof.
      intros Hx j Hj z i Hi.
      set (cs := map (fun l => x l j) (seq 0 N)).
      assert (Hcs : length cs = length ts) by (unfold cs; rewrite map_length, seq_length; auto).
      assert (Hv : span (r + n) ts (lincomb (r + n) cs ts)) by (exists cs; auto).
      apply S2 in Hv. apply graph_span in Hv as (z' & Hz' & Ev); auto.
      assert (Ez : z = z').
      { apply vec_ext; [unfold z; rewrite map_length, seq_length; auto|].
        unfold z. rewrite map_length, seq_length. intros q Hq. rewrite vget_map_seq by auto.
        rewrite <- (vget_graph_r lft z' q), <- Ev. rewrite vget_lincomb by auto.
        apply sumf_ext. intros l Hl. unfold cs. rewrite vget_map_seq by auto. fold r. ring. }
      rewrite Ez, <- vget_graph_l by auto. rewrite <- Ev, vget_lincomb by auto.
      rewrite (sumf_ext (length ts) _ (fun l => c i l * x l j)).
      - rewrite (stage2_trunc (fun l => x l j)) by auto. apply Hx; auto.
      - intros l Hl. unfold cs. rewrite vget_map_seq by auto. unfold c. ring.
    Qed.

    Lemma stage2_complete j z : length z = n -> (forall i, (i < r)%nat -> dot (nth i lft []) z = g i j) ->
      exists y, fcol c g r j y.
    Proof.
      intros Hz Hd.
      assert (Hv : span (r + n) ts (graph_vec lft z)).
      { apply S2. apply graph_span; eauto. }
      destruct Hv as (cs & Hcs & Ev). exists (fun l => vget cs l). intros i Hi.
      rewrite <- (stage2_trunc (fun l => vget cs l)) by auto.
      rewrite <- (Hd i Hi), <- vget_graph_l by auto. rewrite Ev, vget_lincomb by auto.
      apply sumf_ext. intros l Hl. unfold c. ring.
    Qed.
  End Stage2.

  (** *** rows of an augmented matrix satisfied by a solution *)
  Definition sat (n k : nat) (x : nat -> nat -> R) (v : vec) : Prop :=
    forall j, (j < k)%nat -> vget v (n + j) = sumf n (fun l => vget v l * x l j).

  Lemma sat_span n k x vs v :
    lens (n + k) vs -> (forall w, In w vs -> sat n k x w) -> span (n + k) vs v -> sat n k x v.
  Proof.
    intros Lv Hw Hv.
    enough (G : length v = (n + k)%nat /\ sat n k x v) by tauto.
    revert v Hv. apply span_ind.
    - split; [apply vzero_length|]. intros j Hj. rewrite vget_vzero. symmetry. apply sumf_zero.
      intros l Hl. rewrite vget_vzero. ring.
    - intros a b [La Ha] [Lb Hb]. split; [rewrite vadd_length; congruence|]. intros j Hj.
      rewrite vget_vadd by congruence. rewrite Ha, Hb by auto. rewrite <- sumf_add. apply sumf_ext.
      intros l Hl. rewrite vget_vadd by congruence. ring.
    - intros c a [La Ha]. split; [rewrite vscale_length; auto|]. intros j Hj.
      rewrite vget_vscale, Ha by auto. rewrite <- sumf_scale. apply sumf_ext.
      intros l Hl. rewrite vget_vscale. ring.
    - intros w Hin. split; auto. eapply lens_In; eauto.
  Qed.

  (** X solves A X = B, entrywise *)
  Definition solves m n k (f g x : nat -> nat -> R) : Prop :=
    forall i j, (i < m)%nat -> (j < k)%nat -> sumf n (fun l => f i l * x l j) = g i j.

  Lemma solves_sat m n k f g x :
    solves m n k f g x <-> (forall v, In v (hrows (frows m n f) (frows m k g)) -> sat n k x v).
  Proof.
    assert (Hi : forall i, (i < m)%nat -> nth i (hrows (frows m n f) (frows m k g)) [] = frow n f i ++ frow k g i).
    { intros i Hi. rewrite nth_hrows by (rewrite ?frows_length; auto). rewrite !nth_frows; auto. }
    assert (Hr : forall i j, (j < k)%nat -> vget (frow n f i ++ frow k g i) (n + j) = g i j).
    { intros i j Hj. unfold vget. rewrite app_nth2; rewrite frow_length; [|lia].
      replace (n + j - n)%nat with j by lia. apply (vget_frow k g i j Hj). }
    assert (Hl : forall i l, (l < n)%nat -> vget (frow n f i ++ frow k g i) l = f i l).
    { intros i l Hl. unfold vget. rewrite app_nth1 by (rewrite frow_length; auto). apply (vget_frow n f i l Hl). }
    split.
    - intros S v Hv. apply (In_nth _ _ []) in Hv as (i & Hlt & <-).
      rewrite hrows_length, frows_length in Hlt by (rewrite !frows_length; auto).
      rewrite Hi by auto. intros j Hj. rewrite Hr by auto. rewrite <- (S i j) by auto.
      apply sumf_ext. intros l Hll. rewrite Hl by auto. auto.
    - intros S i j Him Hj.
      assert (Hin : In (frow n f i ++ frow k g i) (hrows (frows m n f) (frows m k g))).
      { rewrite <- Hi by auto. apply nth_In. rewrite hrows_length; rewrite !frows_length; auto. }
      pose proof (S _ Hin j Hj) as Q. rewrite Hr in Q by auto. rewrite Q.
      apply sumf_ext. intros l Hll. rewrite Hl by auto. auto.
  Qed.

  Lemma solve_correct m n k f g :
    (0 < n)%nat -> (0 < k)%nat ->
    (exists x, solve (mk m n f) (mk m k g) = Ret (Some (mk n k x)) /\ solves m n k f g x) \/
    (solve (mk m n f) (mk m k g) = Ret None /\ ~ exists x, solves m n k f g x).
  Proof.
    intros Hn Hk.
    set (rows := hrows (frows m n f) (frows m k g)).
    assert (Lrows : lens (n + k) rows).
    { apply hrows_lens; auto using frows_lens. rewrite !frows_length; auto. }
    destruct (reduced_basis_mrows (n + k) rows ltac:(lia) Lrows) as (rs & Er & Lr & Ech & Sh & Ss & _ & Em).
    assert (Sat : forall x, solves m n k f g x <-> (forall v, In v rs -> sat n k x v)).
    { intros x. rewrite solves_sat. fold rows. split; intros H1 v Hv; (eapply sat_span; [| exact H1|]); auto;
        apply Ss; apply span_In; auto. }
    unfold solve. cbn [nrows mk]. rewrite Nat.eqb_refl. cbn [assert bind].
    rewrite (mk_mrows m n f), (mk_mrows m k g).
    rewrite hstack_mrows by (auto using frows_lens; rewrite ?frows_length; auto; lia). cbn [bind].
    fold rows. rewrite Em. cbn [bind].
    destruct rs as [|r0' rs0] eqn:Ers.
    { simpl. left. exists (fun _ _ => 0). rewrite mat_zero_mk by auto. split; auto.
      apply Sat. simpl. tauto. }
    rewrite <- Ers in *. assert (Hne : rs <> []) by (rewrite Ers; discriminate).
    replace (match rs with [] => Mat 0 0 [] | _ :: _ => mrows (n + k) rs end) with (mrows (n + k) rs)
      by (rewrite Ers; auto).
    clear Ers r0' rs0. cbn [nrows ncols mrows].
    destruct (Nat.eqb_spec (length rs) 0) as [E0|E0]; [destruct rs; simpl in *; [congruence|lia]|].
    rewrite (submatrix_mrows (n + k) rs 0 (length rs) 0 n) by (auto; lia). cbn [bind].
    rewrite (submatrix_mrows (n + k) rs 0 (length rs) n (n + k)) by (auto; lia). cbn [bind].
    rewrite !Nat.sub_0_r. cbn [skipn]. rewrite !firstn_all. replace (n + k - n)%nat with k by lia.
    destruct (echelon_cut n k O rs Lr Ech) as (l1 & l2 & Ers & E1 & _ & Z2 & P2).
    assert (Ll1 : lens n (map (subv 0 n) l1)).
    { replace n with (n - 0)%nat at 1 by lia. eapply subv_lens with (c := (n + k)%nat); try lia.
      unfold lens in *. rewrite Ers in Lr. apply Forall_app in Lr. tauto. }
    assert (Ll : lens n (map (subv 0 n) rs)).
    { replace n with (n - 0)%nat at 1 by lia. eapply subv_lens with (c := (n + k)%nat); auto; lia. }
    rewrite (rank_mrows n (map (subv 0 n) rs) (map (subv 0 n) l1)); auto.
    2:{ rewrite Ers, map_app, Z2. apply extend_all_zeros; auto. }
    cbn [bind nrows mrows]. rewrite !map_length.
    destruct (Nat.ltb_spec (length l1) (length rs)) as [Hlt|Hge].
    { right. split; auto. intros (x & Hx).
      assert (Hl2 : exists v, In v l2).
      { destruct l2 as [|v l2]; [|exists v; simpl; auto]. rewrite Ers, app_nil_r in Hlt. lia. }
      destruct Hl2 as (v & Hv). destruct (P2 v Hv) as (p & Hp & Hnp).
      assert (Hin : In v rs) by (rewrite Ers; apply in_or_app; auto).
      pose proof (proj1 (Sat x) Hx v Hin) as Hs. apply pivot_Some in Hp as (A & B & C).
      rewrite (lens_In _ _ _ Lr Hin) in A.
      specialize (Hs (p - n)%nat ltac:(lia)). replace (n + (p - n))%nat with p in Hs by lia.
      apply B. rewrite Hs. apply sumf_zero. intros l Hl. rewrite C by lia. ring. }
    assert (l2 = []) as ->.
    { destruct l2 as [|v l2]; auto. rewrite Ers, app_length in Hge. simpl in Hge. lia. }
    rewrite app_nil_r in Ers. subst l1. clear Z2 P2 Hge Ll1.
    set (lft := map (subv 0 n) rs) in *.
    assert (Hlft : length lft = length rs) by (unfold lft; apply map_length).
    assert (Hlne : lft <> []) by (intros Q; rewrite Q in Hlft; simpl in Hlft; lia).
    rewrite transpose_mrows by auto. cbn [bind ncols mrows].
    rewrite identity_mrows by auto. cbn [bind].
    rewrite hstack_mrows by (auto using cols_lens, units_lens; rewrite ?cols_length, ?map_length, ?seq_length; auto; lia).
    cbn [bind]. rewrite graph_rows by auto.
    set (gr := map (graph_vec lft) (map (vunit n) (seq 0 n))).
    assert (Lgr : lens (length lft + n) gr).
    { apply Forall_forall. intros v Hv. unfold gr in Hv. apply in_map_iff in Hv as (w & <- & Hw).
      unfold graph_vec. rewrite app_length, map_length. f_equal. apply (lens_In _ _ _ (units_lens n (seq 0 n)) Hw). }
    destruct (reduced_basis_mrows (length lft + n) gr ltac:(lia) Lgr) as (ts & Et & Lt & Ect & Sht & Sst & _ & Emt).
    rewrite Emt. cbn [bind].
    assert (GP : forall i, (i < length lft)%nat -> (i < length ts)%nat /\ pivot (nth i ts []) = Some i)
      by (apply (graph_pivots lft n ts); auto).
    assert (HtN : (length lft <= length ts)%nat).
    { destruct (Nat.le_gt_cases (length lft) (length ts)); auto. destruct (GP (length ts)); lia. }
    assert (Htne : ts <> []) by (intros Q; rewrite Q in HtN; simpl in HtN; lia).
    replace (match ts with [] => Mat 0 0 [] | _ :: _ => mrows (length lft + n) ts end)
      with (mrows (length lft + n) ts) by (destruct ts; congruence).
    cbn [nrows ncols mrows].
    rewrite <- Hlft.
    rewrite (submatrix_mrows (length lft + n) ts 0 (length ts) 0 (length lft)) by (auto; lia). cbn [bind].
    rewrite !Nat.sub_0_r. cbn [skipn]. rewrite firstn_all.
    rewrite transpose_mrows.
    2:{ replace (length lft) with (length lft - 0)%nat at 1 by lia.
        eapply subv_lens with (c := (length lft + n)%nat); auto; lia. }
    2:{ destruct ts; simpl; congruence. }
    cbn [bind]. rewrite map_length.
    rewrite (submatrix_mrows (length lft + n) ts 0 (length ts) (length lft) (length lft + n)) by (auto; lia). cbn [bind].
    rewrite ?Nat.sub_0_r. cbn [skipn]. rewrite firstn_all. replace (length lft + n - length lft)%nat with n by lia.
    rewrite transpose_mrows.
    2:{ replace n with (length lft + n - length lft)%nat at 1 by lia.
        eapply subv_lens with (c := (length lft + n)%nat); auto; lia. }
    2:{ destruct ts; simpl; congruence. }
    cbn [bind nrows ncols mrows]. rewrite !map_length.
    set (N := length ts) in *. set (r := length lft) in *.
    set (c := fun i l => vget (nth l ts []) i).
    assert (Eb : mrows N (cols r (map (subv 0 r) ts)) = mk r N c).
    { rewrite (mrows_mk N) by (unfold N; rewrite <- (map_length (subv 0 r) ts); apply cols_lens).
      rewrite cols_length. apply mk_ext. intros i j Hi Hj. rewrite nth_cols by auto.
      rewrite vget_col by (rewrite map_length; auto).
      rewrite (nth_indep _ _ (subv 0 r [])) by (rewrite map_length; auto).
      rewrite (map_nth (subv 0 r)). rewrite vget_subv by lia. reflexivity. }
    assert (Eu : mrows N (cols n (map (subv r (r + n)) ts)) = mk n N (fun i l => vget (nth l ts []) (r + i))).
    { rewrite (mrows_mk N) by (unfold N; rewrite <- (map_length (subv r (r + n)) ts); apply cols_lens).
      rewrite cols_length. apply mk_ext. intros i j Hi Hj. rewrite nth_cols by auto.
      rewrite vget_col by (rewrite map_length; auto).
      rewrite (nth_indep _ _ (subv r (r + n) [])) by (rewrite map_length; auto).
      rewrite (map_nth (subv r (r + n))). rewrite vget_subv by lia. reflexivity. }
    set (g2 := fun i j => vget (nth i rs []) (n + j)).
    assert (Eg : mrows k (map (subv n (n + k)) rs) = mk r k g2).
    { rewrite mrows_mk.
      2:{ replace k with (n + k - n)%nat at 1 by lia. eapply subv_lens with (c := (n + k)%nat); auto; lia. }
      rewrite map_length, <- Hlft. apply mk_ext. intros i j Hi Hj.
      rewrite (nth_indep _ _ (subv n (n + k) [])) by (rewrite map_length; lia).
      rewrite (map_nth (subv n (n + k))). rewrite vget_subv by lia. reflexivity. }
    rewrite Eb, Eu, Eg. cbn [ncols mk].
    (* A X = B iff lft X = g2 *)
    assert (Hlg : forall x, solves m n k f g x <->
       (forall i j, (i < r)%nat -> (j < k)%nat -> dot (nth i lft []) (map (fun l => x l j) (seq 0 n)) = g2 i j)).
    { intros x. rewrite Sat.
      assert (Hd : forall i j, (i < r)%nat -> dot (nth i lft []) (map (fun l => x l j) (seq 0 n)) =
                sumf n (fun l => vget (nth i rs []) l * x l j)).
      { intros i j Hi.
        assert (Hil : length (nth i lft []) = n) by (eapply lens_In; eauto; apply nth_In; auto).
        rewrite (dot_sumf n) by (auto; rewrite map_length, seq_length; auto).
        apply sumf_ext. intros l Hl. rewrite vget_map_seq by auto. f_equal.
        unfold lft. rewrite (nth_indep _ _ (subv 0 n [])) by (rewrite map_length; lia).
        rewrite (map_nth (subv 0 n)). rewrite vget_subv by lia. reflexivity. }
      split.
      - intros S i j Hi Hj. rewrite Hd by auto. symmetry. apply (S (nth i rs [])); auto.
        apply nth_In. lia.
      - intros S v Hv. apply (In_nth _ _ []) in Hv as (i & Hi & <-). intros j Hj.
        rewrite <- Hd by lia. rewrite S by (auto; lia). reflexivity. }
    destruct (forward r k N c g2 (mk r N c) (mk r k g2)) with (m := r) (i := O) (x := @nil vec)
      as [(y & -> & Hy & Ly & Sy)|(-> & j & Hj & Hno)]; auto.
    - intros i Hi. destruct (GP i Hi) as [_ Hp]. apply pivot_Some in Hp as (_ & Q & _). exact Q.
    - intros i Hi. destruct (GP i Hi) as [Hi2 Hp]. unfold c. eapply shaped_norm; eauto.
    - intros i l Hi Hl. destruct (GP i Hi) as [Hi2 Hp]. unfold c. apply shaped_red; auto.
    - constructor.
    - intros j Hj l Hl. lia.
    - left. cbn [bind].
      set (ys := y ++ repeat (repeat 0 k) (N - r)).
      assert (Lys : lens k ys).
      { unfold ys, lens. apply Forall_app. split; auto. apply Forall_forall. intros v Hv.
        apply repeat_spec in Hv as ->. apply repeat_length. }
      assert (Nys : length ys = N) by (unfold ys; rewrite app_length, repeat_length; lia).
      assert (Hyz : forall q j, vget (nth q ys []) j = if Nat.ltb q r then vget (nth q y []) j else 0).
      { intros q j. unfold ys. destruct (Nat.ltb_spec q r).
        - rewrite app_nth1 by lia. auto.
        - rewrite app_nth2 by lia. destruct (Nat.lt_ge_cases (q - length y) (N - r)).
          + rewrite (nth_indep _ _ (repeat 0 k)) by (rewrite repeat_length; auto). rewrite nth_repeat.
            apply (vget_vzero k).
          + rewrite nth_overflow by (rewrite repeat_length; auto). apply vget_over. simpl; lia. }
      pose proof (vstack_rows k ys Hk Lys) as V.
      destruct (mapM mat_row ys) as [ms| |] eqn:Ems; cbn [bind] in V |- *;
        try (exfalso; destruct ys; [simpl in Nys; lia|discriminate V; discriminate]).
      rewrite V by (intros Q; rewrite Q in Nys; simpl in Nys; lia). cbn [bind].
      rewrite (mrows_mk k ys) by auto. rewrite Nys.
      rewrite mat_mul_mk by auto. cbn [bind].
      eexists. split; [reflexivity|]. apply Hlg. intros i j Hi Hj.
      apply (stage2_sound n k lft ts g2 Ll E1 Lt Ect Sst (fun q j => vget (nth q ys []) j)); auto.
      intros j' Hj' l Hl. fold r in Hl. rewrite <- (Sy j' Hj' l Hl). apply sumf_ext. intros q Hq.
      rewrite Hyz. destruct (Nat.ltb_spec q r); [auto|lia].
    - right. split; auto. intros (x & Hx). apply Hno.
      apply (stage2_complete n lft ts g2 Ll E1 Lt Ect Sst j (map (fun l => x l j) (seq 0 n))).
      + rewrite map_length, seq_length; auto.
      + intros i Hi. apply Hlg; auto.
  Qed.

  (** *** null_space *)
  Lemma lincomb_zeros n z cs : lincomb n cs (zeros n z) = vzero n.
  Proof.
    unfold zeros. revert cs. induction z as [|z IH]; intros [|c cs]; simpl; auto.
    rewrite vscale_vzero, IH. apply vadd_vzero.
  Qed.

  Lemma lincomb_app n cs ds us vs :
    lens n us -> lens n vs -> length cs = length us ->
    lincomb n (cs ++ ds) (us ++ vs) = vadd (lincomb n cs us) (lincomb n ds vs).
  Proof.
    intros L Lv; revert cs; induction L as [|u us Hu L IH]; intros [|c cs] E; simpl in *; try discriminate.
    - symmetry. apply vadd_0_l. apply lincomb_length; auto.
    - rewrite IH by auto. rewrite vadd_assoc. auto.
  Qed.

  Lemma subv_lincomb n a b cs vs :
    (a <= b)%nat -> (b <= n)%nat -> lens n vs -> length cs = length vs ->
    subv a b (lincomb n cs vs) = lincomb (b - a) cs (map (subv a b) vs).
  Proof.
    intros Hab Hb L E. assert (L' : lens (b - a) (map (subv a b) vs)) by (eapply subv_lens; eauto).
    apply vec_ext.
    - rewrite subv_length, lincomb_length; rewrite ?lincomb_length; auto.
    - rewrite subv_length by (rewrite ?lincomb_length; auto). intros i Hi. rewrite vget_subv by auto.
      rewrite !vget_lincomb by (rewrite ?map_length; auto). rewrite map_length.
      apply sumf_ext. intros l Hl. f_equal.
      rewrite (nth_indep (map (subv a b) vs) [] (subv a b [])) by (rewrite map_length; auto).
      rewrite (map_nth (subv a b)). rewrite vget_subv by auto. auto.
  Qed.

  Lemma subv_vzero a b n : (a <= b)%nat -> (b <= n)%nat -> subv a b (vzero n) = vzero (b - a).
  Proof.
    intros. apply vec_ext; [rewrite subv_length, ?vzero_length; rewrite ?vzero_length; auto|].
    rewrite subv_length by (rewrite ?vzero_length; auto). intros i Hi. rewrite vget_subv, !vget_vzero by auto. auto.
  Qed.

  Lemma subv_eq r n (u v : vec) : length u = (r + n)%nat -> length v = (r + n)%nat ->
    subv 0 r u = subv 0 r v -> subv r (r + n) u = subv r (r + n) v -> u = v.
  Proof.
    intros Hu Hv E1 E2. apply vec_ext; [congruence|]. intros i Hi.
    destruct (Nat.lt_ge_cases i r).
    - pose proof (vget_subv 0 r u i ltac:(lia)) as A. pose proof (vget_subv 0 r v i ltac:(lia)) as B.
      simpl in A, B. congruence.
    - pose proof (vget_subv r (r + n) u (i - r) ltac:(lia)) as A. pose proof (vget_subv r (r + n) v (i - r) ltac:(lia)) as B.
      replace (r + (i - r))%nat with i in A, B by lia. congruence.
  Qed.

  Lemma subv_graph_l lft z : subv 0 (length lft) (graph_vec lft z) = map (fun b => dot b z) lft.
  Proof.
    unfold subv, graph_vec. simpl. rewrite Nat.sub_0_r.
    rewrite firstn_app, map_length, Nat.sub_diag. simpl. rewrite app_nil_r.
    rewrite <- (map_length (fun b => dot b z) lft). apply firstn_all.
  Qed.

  Lemma subv_graph_r lft z n : length z = n -> subv (length lft) (length lft + n) (graph_vec lft z) = z.
  Proof.
    intros Hz. unfold subv, graph_vec. replace (length lft + n - length lft)%nat with n by lia.
    rewrite skipn_app, map_length, Nat.sub_diag. simpl.
    rewrite skipn_all2 by (rewrite map_length; lia). simpl. rewrite <- Hz. apply firstn_all.
  Qed.

  Lemma echelon_suffix k l1 l2 : echelon_from k (l1 ++ l2) -> exists k', echelon_from k' l2.
  Proof. revert k; induction l1; intros k E; simpl in *; [eauto|]. inversion E; subst. eauto. Qed.

  (** the columns [bs] are independent and generate the kernel *)
  Definition kernel_basis (n : nat) (lft bs : list vec) : Prop :=
    lens n bs /\
    (forall cs, length cs = length bs -> lincomb n cs bs = vzero n -> cs = vzero (length bs)) /\
    (forall z, length z = n -> ((forall b, In b lft -> dot b z = 0) <-> span n bs z)).

  Lemma dots_zero_iff lft z : map (fun b => dot b z) lft = vzero (length lft) <-> (forall b, In b lft -> dot b z = 0).
  Proof.
    induction lft as [|b lft IH]; simpl; [tauto|]. split.
    - intros [= A B]. rewrite IH in B. intros b' [<-|Hb]; auto.
    - intros H1. unfold vzero. simpl. f_equal; auto. apply IH. auto.
  Qed.

  Lemma null_space_correct m n f :
    (0 < m)%nat -> (0 < n)%nat ->
    (exists bs, bs <> [] /\ null_space (mk m n f) = Ret (Some (mrows (length bs) (cols n bs))) /\
       kernel_basis n (frows m n f) bs) \/
    (null_space (mk m n f) = Ret None /\ kernel_basis n (frows m n f) []).
  Proof.
    intros Hm Hn. set (lft := frows m n f).
    assert (L : lens n lft) by apply frows_lens.
    assert (Hlen : length lft = m) by apply frows_length.
    unfold null_space. rewrite mk_mrows. fold lft.
    assert (Hlne : lft <> []) by (intros Q; rewrite Q in Hlen; simpl in Hlen; lia).
    rewrite transpose_mrows by auto.
    cbn [bind nrows mrows ncols]. rewrite cols_length. rewrite identity_mrows by auto. cbn [bind].
    rewrite hstack_mrows by (auto using cols_lens, units_lens; rewrite ?cols_length, ?map_length, ?seq_length; auto; lia).
    cbn [bind]. rewrite graph_rows by auto.
    set (gr := map (graph_vec lft) (map (vunit n) (seq 0 n))).
    assert (Lgr : lens (length lft + n) gr).
    { apply Forall_forall. intros v Hv. unfold gr in Hv. apply in_map_iff in Hv as (w & <- & Hw).
      unfold graph_vec. rewrite app_length, map_length. f_equal. apply (lens_In _ _ _ (units_lens n (seq 0 n)) Hw). }
    destruct (reduced_basis_mrows (length lft + n) gr ltac:(lia) Lgr) as (ts & Et & Lt & Ect & Sht & Sst & _ & Emt).
    rewrite Emt. cbn [bind].
    assert (GS : forall x, span (length lft + n) ts x <-> exists z, length z = n /\ x = graph_vec lft z).
    { intros x. rewrite <- (Sst x). apply graph_span; auto. }
    assert (Htne : ts <> []).
    { intros ->. assert (H0 : span (length lft + n) [] (graph_vec lft (vunit n 0))).
      { apply GS. exists (vunit n 0). split; auto. apply vunit_length. }
      apply span_nil in H0.
      pose proof (vget_graph_r lft (vunit n 0) 0) as Q. rewrite H0, vget_vzero, vget_vunit in Q.
      simpl in Q. destruct (Nat.ltb_spec 0 n); [|lia]. apply r_nontriv. auto. }
    replace (match ts with [] => Mat 0 0 [] | _ :: _ => mrows (length lft + n) ts end)
      with (mrows (length lft + n) ts) by (destruct ts; congruence).
    cbn [nrows ncols mrows].
    rewrite (submatrix_mrows (length lft + n) ts 0 (length ts) 0 (length lft)) by (auto; lia). cbn [bind].
    rewrite (submatrix_mrows (length lft + n) ts 0 (length ts) (length lft) (length lft + n)) by (auto; lia). cbn [bind].
    rewrite !Nat.sub_0_r. cbn [skipn]. rewrite !firstn_all. replace (length lft + n - length lft)%nat with n by lia.
    destruct (echelon_cut (length lft) n O ts Lt Ect) as (l1 & l2 & Ets & E1 & _ & Z2 & P2).
    assert (Lt2 : lens (length lft + n) l1 /\ lens (length lft + n) l2).
    { unfold lens in *. rewrite Ets in Lt. apply Forall_app in Lt. auto. }
    destruct Lt2 as [Lt1 Lt2].
    assert (Ll1 : lens (length lft) (map (subv 0 (length lft)) l1)).
    { replace (length lft) with (length lft - 0)%nat at 1 by lia. eapply subv_lens with (c := (length lft + n)%nat); auto; lia. }
    assert (Ll : lens (length lft) (map (subv 0 (length lft)) ts)).
    { replace (length lft) with (length lft - 0)%nat at 1 by lia. eapply subv_lens with (c := (length lft + n)%nat); auto; lia. }
    rewrite (rank_mrows (length lft) _ (map (subv 0 (length lft)) l1)); auto; [|lia|].
    2:{ rewrite Ets, map_app, Z2. apply extend_all_zeros; auto. }
    cbn [bind nrows ncols mrows]. rewrite !map_length.
    set (bs := map (subv (length lft) (length lft + n)) l2).
    assert (Lbs : lens n bs).
    { replace n with (length lft + n - length lft)%nat at 1 by lia. eapply subv_lens with (c := (length lft + n)%nat); auto; lia. }
    assert (KB : kernel_basis n lft bs).
    { split; auto. split.
      - intros cs Hc Hz. unfold bs in Hc, Hz. rewrite map_length in Hc.
        destruct (echelon_suffix O l1 l2) as (k' & E2); [rewrite <- Ets; auto|].
        unfold bs. rewrite map_length.
        apply (echelon_independent (length lft + n) k' l2 cs); auto.
        assert (Lc : length (lincomb (length lft + n) cs l2) = (length lft + n)%nat) by (apply lincomb_length; auto).
        apply (subv_eq (length lft) n); auto using vzero_length.
        + rewrite subv_lincomb by (auto; lia). rewrite Z2, subv_vzero by lia.
          rewrite Nat.sub_0_r. apply lincomb_zeros.
        + rewrite subv_lincomb by (auto; lia). rewrite subv_vzero by lia.
          replace (length lft + n - length lft)%nat with n by lia. exact Hz.
      - intros z Hz. rewrite <- dots_zero_iff. split.
        + intros Hk. assert (Hs : span (length lft + n) ts (graph_vec lft z)) by (apply GS; eauto).
          destruct Hs as (cs & Hcs & Ev). rewrite Ets, app_length in Hcs.
          set (c1 := firstn (length l1) cs). set (c2 := skipn (length l1) cs).
          assert (Ecs : cs = c1 ++ c2) by (symmetry; apply firstn_skipn).
          assert (H1 : length c1 = length l1) by (unfold c1; rewrite firstn_length; lia).
          assert (H2 : length c2 = length l2) by (unfold c2; rewrite skipn_length; lia).
          rewrite Ets, Ecs, lincomb_app in Ev by auto.
          assert (V1 : length (lincomb (length lft + n) c1 l1) = (length lft + n)%nat) by (apply lincomb_length; auto).
          assert (V2 : length (lincomb (length lft + n) c2 l2) = (length lft + n)%nat) by (apply lincomb_length; auto).
          assert (Hl : lincomb (length lft) c1 (map (subv 0 (length lft)) l1) = vzero (length lft)).
          { pose proof (subv_graph_l lft z) as Q. rewrite Hk in Q.
            transitivity (subv 0 (length lft) (lincomb (length lft + n) c1 l1)).
            { rewrite subv_lincomb by (auto; lia). rewrite Nat.sub_0_r. auto. }
            assert (W : subv 0 (length lft) (lincomb (length lft + n) c2 l2) = vzero (length lft)).
            { rewrite subv_lincomb by (auto; lia). rewrite Z2, Nat.sub_0_r.
              apply lincomb_zeros. }
            rewrite <- Q, Ev. apply vec_ext.
            - rewrite !subv_length; rewrite ?vadd_length; lia.
            - rewrite subv_length by lia. intros i Hi. rewrite !vget_subv by auto.
              rewrite vget_vadd by congruence.
              assert (W' : vget (lincomb (length lft + n) c2 l2) (0 + i) = 0).
              { rewrite <- (vget_subv 0 (length lft)) by lia. rewrite W. apply vget_vzero. }
              rewrite W'. ring. }
          apply (echelon_independent (length lft) O) in Hl; auto; [|rewrite map_length; auto].
          rewrite map_length in Hl. rewrite Hl, lincomb_zero, vadd_0_l in Ev by auto.
          exists c2. unfold bs. rewrite map_length. split; auto.
          rewrite <- (subv_graph_r lft z n Hz), Ev, subv_lincomb by (auto; lia).
          f_equal. lia.
        + intros Hs. enough (G : length z = n /\ map (fun b => dot b z) lft = vzero (length lft)) by tauto.
          clear Hz. revert z Hs. apply span_ind.
          * split; [apply vzero_length|apply dots_zero].
          * intros x y [Lx Hx] [Ly Hy]. split; [rewrite vadd_length; congruence|].
            rewrite dots_add, Hx, Hy by congruence. apply vadd_vzero.
          * intros c x [Lx Hx]. rewrite vscale_length. split; auto. rewrite dots_scale, Hx. apply vscale_vzero.
          * intros v Hv. unfold bs in Hv. apply in_map_iff in Hv as (w & <- & Hw).
            assert (Hin : In w ts) by (rewrite Ets; apply in_or_app; auto).
            assert (Hs : span (length lft + n) ts w) by (apply span_In; auto).
            apply GS in Hs as (z' & Hz' & ->). rewrite subv_graph_r by auto. split; auto.
            rewrite <- subv_graph_l. destruct (P2 _ Hw) as (p & Hp & Hge).
            apply (subv_zero (length lft) n _ p); auto. apply (lens_In _ _ _ Lt Hin). }
    assert (Ets' : length ts = (length l1 + length l2)%nat) by (rewrite Ets; apply app_length).
    destruct (Nat.ltb_spec (length l1) (length ts)) as [Hlt|Hge].
    - left. exists bs. assert (Hbne : bs <> []).
      { intros Q. assert (Q2 : length bs = 0%nat) by (rewrite Q; auto). unfold bs in Q2. rewrite map_length in Q2. lia. }
      split; auto. split; auto.
      rewrite submatrix_mrows; [| |lia|rewrite map_length; lia|lia|lia].
      2:{ replace n with (length lft + n - length lft)%nat at 1 by lia. eapply subv_lens with (c := (length lft + n)%nat); auto; lia. }
      cbn [bind]. rewrite Nat.sub_0_r.
      assert (Eb : map (subv 0 n) (firstn (length ts - length l1)
                 (skipn (length l1) (map (subv (length lft) (length lft + n)) ts))) = bs).
      { replace (skipn (length l1) (map (subv (length lft) (length lft + n)) ts)) with bs.
        2:{ rewrite skipn_map. f_equal. rewrite Ets, skipn_app, Nat.sub_diag, skipn_all2 by lia. reflexivity. }
        rewrite firstn_all2 by (unfold bs; rewrite map_length; lia).
        clear -Lbs. unfold lens in Lbs. induction Lbs as [|v bs Hv Lb IH]; simpl; auto. f_equal; auto.
        unfold subv. simpl. rewrite Nat.sub_0_r. rewrite <- Hv. apply firstn_all. }
      rewrite Eb. rewrite transpose_mrows by auto. reflexivity.
    - right. split; auto. assert (l2 = []) as El2 by (destruct l2; simpl in *; auto; lia).
      unfold bs in KB. rewrite El2 in KB. exact KB.
  Qed.

  (** *** reduced_basis on entries *)
  Lemma inverse_correct n f :
    (0 < n)%nat ->
    (exists x, inverse (mk n n f) = Ret (Some (mk n n x)) /\ solves n n n f delta x) \/
    (inverse (mk n n f) = Ret None /\ ~ exists x, solves n n n f delta x).
  Proof.
    intros Hn. unfold inverse. cbn [nrows ncols mk]. rewrite Nat.eqb_refl. cbn [assert bind].
    rewrite identity_mk by auto. cbn [bind]. apply solve_correct; auto.
  Qed.
End Proofs.
