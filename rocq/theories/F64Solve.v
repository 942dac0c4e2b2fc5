(** rank, reduced_basis, determinant, solve, null_space and inverse of Matrix<f64> never panic on matrices of
    fitting shapes: proofs about F64.v. *)
From Coq Require Import List ZArith Lia Bool PeanoNat.
From Coq Require Import Floats.SpecFloat.
From Verif Require Import Base Vec Elim Scalars Matrix LinAlg F64 F64Shape.
Import ListNotations.
Open Scope nat_scope.

Lemma funits_lens n l : lens n (map (@vunit float _ n) l).
Proof. apply Forall_forall. intros v Hv. apply in_map_iff in Hv as (j & <- & _). apply vunit_length. Qed.

Lemma reduced_basis_f n rows : 0 < n -> lens n rows ->
  exists bs rs, extend_all [] rows = Ret bs /\ lens n bs /\ echelon_from 0 bs /\ length bs <= length rows /\ length bs <= n /\
    reduced_basis (mrows n rows) = Ret (match rs with [] => Mat 0 0 [] | _ => mrows n rs end) /\
    rref n (pivots bs) rs /\ length rs = length bs.
Proof.
  intros Hn L. destruct (reduced_rows_f n rows L) as (bs & rs & E & Lb & Ee & Hl & Er & R & N).
  exists bs, rs. splits; auto.
  - apply echelon_le; auto.
  - unfold reduced_basis. rewrite get_rows_mrows by auto. cbn [bind]. rewrite Er. cbn [bind].
    destruct rs as [|r rs'] eqn:Ers.
    + reflexivity.
    + rewrite <- Ers in *. apply (vstack_rows n); auto; [apply R|rewrite Ers; discriminate].
Qed.

Lemma rank_f n rows : 0 < n -> lens n rows ->
  exists bs, extend_all [] rows = Ret bs /\ rank (mrows n rows) = Ret (length bs) /\ length bs <= length rows /\ length bs <= n.
Proof.
  intros Hn L. destruct (extend_all_f n rows []) as (bs & E & Lb & Ee & Hl); auto; try constructor.
  exists bs. simpl in Hl. splits; auto; try lia.
  - unfold rank. rewrite get_rows_mrows by auto. simpl. rewrite E. reflexivity.
  - apply echelon_le; auto.
Qed.

(** feeding rows in echelon form *)
Lemma extend_last n bs : forall k (v : fvec) p, lens n bs -> length v = n -> echelon_from k bs -> pivot v = Some p ->
  (forall q, In q (pivots bs) -> q < p) -> extend_basis v bs = Ret (bs ++ [v]).
Proof.
  induction bs as [|b bs IH]; intros k v p L Hv E Hp Hq; cbn [extend_basis app].
  - rewrite Hp. reflexivity.
  - apply lens_cons in L as (Lb & L). inversion E as [|? q ? ? Hb Hk E']; subst.
    rewrite Hv, Nat.eqb_refl. cbn [assert bind]. rewrite Hp, Hb. cbn [unwrap bind].
    simpl in Hq. rewrite Hb in Hq. simpl in Hq.
    assert (q < p) by (apply Hq; auto). destruct (Nat.ltb_spec p q); [lia|]. destruct (Nat.eqb_spec p q); [lia|].
    rewrite (IH (S q) v p) by (eauto). reflexivity.
Qed.

Lemma extend_none n bs (v : fvec) : lens n bs -> length v = n -> pivot v = None -> extend_basis v bs = Ret bs.
Proof.
  intros L Hv Hp. destruct bs as [|b bs]; cbn [extend_basis].
  - rewrite Hp. reflexivity.
  - apply lens_cons in L as (Lb & L). rewrite Lb, Hv, Nat.eqb_refl. cbn [assert bind]. rewrite Hp. reflexivity.
Qed.

Lemma fpivot_left n m (v : fvec) p : length v = n + m -> pivot v = Some p ->
  pivot (subv 0 n v) = if Nat.ltb p n then Some p else None.
Proof.
  intros Hl H. apply fpivot_Some in H as (A & B & C).
  destruct (Nat.ltb_spec p n) as [Hp|Hp].
  - apply fpivot_Some. rewrite subv_length by lia. splits; [lia| |].
    + rewrite vget_subv by lia. auto.
    + intros i Hi. rewrite vget_subv by lia. apply C. lia.
  - apply fpivot_None. rewrite subv_length by lia. intros i Hi. rewrite vget_subv by lia. apply C. lia.
Qed.

Lemma filter_ge n l : (forall q : nat, In q l -> n <= q) -> filter (fun p => p <? n) l = [].
Proof.
  induction l as [|a l IH]; intros H; simpl; auto.
  destruct (Nat.ltb_spec a n); [specialize (H a (or_introl eq_refl)); lia|]. apply IH. intros; apply H; simpl; auto.
Qed.

Lemma extend_left n m rs : forall done k, lens (n + m) rs -> echelon_from k rs -> lens n done -> echelon_from 0 done ->
  (forall q, In q (pivots done) -> q < k) ->
  exists bs, extend_all done (map (subv 0 n) rs) = Ret bs /\
    length bs = length done + length (filter (fun p => p <? n) (pivots rs)).
Proof.
  unfold extend_all. induction rs as [|b rs IH]; intros done k L E Ld Ed Hq; simpl.
  - exists done. split; auto.
  - apply lens_cons in L as (Lb & L). inversion E as [|? p ? ? Hp Hk E']; subst.
    pose proof (fpivot_left n m b p Lb Hp) as Hl.
    assert (Ls : length (subv 0 n b) = n) by (rewrite subv_length; lia).
    rewrite Hp. simpl. destruct (Nat.ltb_spec p n) as [Hpn|Hpn].
    + rewrite (extend_last n done 0 (subv 0 n b) p) by (auto; intros q Hi; specialize (Hq q Hi); lia). cbn [bind].
      destruct (IH (done ++ [subv 0 n b]) (S p)) as (bs & Eb & Nb); auto.
      * unfold lens. rewrite Forall_app. split; auto.
      * eapply echelon_app; eauto; [lia|]. intros q Hi. specialize (Hq q Hi). lia.
      * intros q. unfold pivots. rewrite flat_map_app, in_app_iff. fold (pivots done). simpl. rewrite Hl. simpl.
        intros [Hi|[<-|[]]]; auto. specialize (Hq q Hi). lia.
      * exists bs. split; auto. rewrite Nb, app_length. simpl. lia.
    + rewrite (extend_none n) by auto. cbn [bind].
      destruct (IH done (S p)) as (bs & Eb & Nb); auto.
      { intros q Hi. specialize (Hq q Hi). lia. }
      exists bs. split; auto.
Qed.

Lemma rank_left n m rs : 0 < n -> lens (n + m) rs -> echelon_from 0 rs ->
  rank (mrows n (map (subv 0 n) rs)) = Ret (length (filter (fun p => p <? n) (pivots rs))).
Proof.
  intros Hn L E.
  destruct (extend_left n m rs [] 0) as (bs & Eb & Nb); auto; try constructor.
  { intros q []. }
  unfold rank. rewrite get_rows_mrows; auto.
  - cbn [bind]. rewrite Eb. cbn [bind]. rewrite Nb. reflexivity.
  - replace n with (n - 0) at 1 by lia. eapply subv_lens with (c := n + m); auto; lia.
Qed.

Lemma solve_rows_f (b rgt : mat float) r N k c g : 0 < N -> 0 < k -> b = mk r N c -> rgt = mk r k g -> forall is x,
  lens k x -> (forall i, In i is -> i < r) ->
  exists y, solve_rows b rgt is x = Ret (Some y) /\ lens k y /\ length y = length x + length is.
Proof.
  intros HN Hk -> ->. induction is as [|i is IH]; intros x L Hi; cbn [solve_rows].
  - exists x. splits; auto. 
  - rewrite !get_row_mk by (auto; apply Hi; simpl; auto). cbn [bind]. simpl (s_solve_row _ _ _). unfold solve_row_f. cbn [bind].
    destruct (IH (x ++ [frow k g i])) as (y & E & Ly & Ny).
    + unfold lens. rewrite Forall_app. split; auto. constructor; auto. apply frow_length.
    + intros; apply Hi; simpl; auto.
    + exists y. splits; auto. rewrite Ny, app_length. simpl. lia.
Qed.

Lemma solve_f m n k f g : 0 < n -> 0 < k ->
  exists rs ps, reduced_basis (mrows (n + k) (hrows (frows m n f) (frows m k g))) = 
      Ret (match rs with [] => Mat 0 0 [] | _ => mrows (n + k) rs end) /\ rref (n + k) ps rs /\
  (((forall p, In p ps -> p < n) /\ exists x : nat -> nat -> float, solve (mk m n f) (mk m k g) = Ret (Some (mk n k x))) \/
   ((exists p, In p ps /\ n <= p) /\ solve (mk m n f) (mk m k g) = Ret None)).
Proof.
  intros Hn Hk.
  set (rows := hrows (frows m n f) (frows m k g)).
  assert (Lrows : lens (n + k) rows).
  { apply hrows_lens; auto using frows_lens. rewrite !frows_length; auto. }
  destruct (reduced_basis_f (n + k) rows ltac:(lia) Lrows) as (bs & rs & Ebs & Lbs & Eebs & Hlen & _ & Em & R & Nrs).
  exists rs, (pivots bs). split; [exact Em|]. split; [exact R|].
  destruct (rref_echelon _ _ _ R) as (Ech & Hps).
  assert (Lr : lens (n + k) rs) by apply R.
  unfold solve. cbn [nrows mk]. rewrite Nat.eqb_refl. cbn [assert bind].
  rewrite (mk_mrows m n f), (mk_mrows m k g).
  rewrite hstack_mrows by (auto using frows_lens; rewrite ?frows_length; auto; lia). cbn [bind].
  fold rows. rewrite Em. cbn [bind].
  destruct rs as [|r0' rs0] eqn:Ers.
  { simpl. left. simpl in Hps. rewrite <- Hps. split; [simpl; tauto|].
    exists (fun _ _ => f_zero). rewrite (mat_zero_mk n k) by auto. reflexivity. }
  rewrite <- Ers in *. assert (Hne : rs <> []) by (rewrite Ers; discriminate).
  replace (match rs with [] => Mat 0 0 [] | _ :: _ => mrows (n + k) rs end) with (mrows (n + k) rs)
    by (rewrite Ers; auto).
  clear Ers r0' rs0. cbn [nrows ncols mrows].
  destruct (Nat.eqb_spec (length rs) 0) as [E0|E0]; [destruct rs; simpl in *; [congruence|lia]|].
  rewrite (submatrix_mrows (n + k) rs 0 (length rs) 0 n) by (auto; lia). cbn [bind].
  rewrite (submatrix_mrows (n + k) rs 0 (length rs) n (n + k)) by (auto; lia). cbn [bind].
  rewrite !Nat.sub_0_r. cbn [skipn]. rewrite !firstn_all. replace (n + k - n) with k by lia.
  assert (Ll : lens n (map (subv 0 n) rs)).
  { replace n with (n - 0) at 1 by lia. eapply subv_lens with (c := (n + k)); auto; lia. }
  rewrite (rank_left n k rs) by auto. cbn [bind nrows mrows]. rewrite !map_length. rewrite Hps.
  assert (Np : length (pivots bs) = length rs) by (rewrite <- Hps; apply (pivots_length 0); auto).
  destruct (Nat.ltb_spec (length (filter (fun p => p <? n) (pivots bs))) (length rs)) as [Hlt|Hge].
  { right. split; auto. rewrite <- Np in Hlt. clear -Hlt. induction (pivots bs) as [|a l IH]; simpl in *; [lia|].
    destruct (Nat.ltb_spec a n).
    - simpl in Hlt. destruct IH as (p & Hp & Hn); [lia|]. exists p. auto.
    - exists a. auto. }
  left. split.
  { rewrite <- Np in Hge. clear -Hge. induction (pivots bs) as [|a l IH]; simpl in *; [tauto|].
    assert (Hf : length (filter (fun p => p <? n) l) <= length l).
    { clear. induction l as [|b l IH]; simpl; auto. destruct (b <? n); simpl; lia. }
    destruct (Nat.ltb_spec a n); simpl in *; [|lia]. intros p [<-|Hp]; auto. apply IH; auto. lia. }
  set (lft := map (subv 0 n) rs) in *.
  assert (Hlft : length lft = length rs) by (unfold lft; apply map_length).
  assert (Hlne : lft <> []) by (intros Q; rewrite Q in Hlft; simpl in Hlft; lia).
  assert (Hrn : length rs <= n).
  { assert (length rs <= length (filter (fun p => p <? n) (pivots rs))) as X by (rewrite Hps; auto).
    destruct (extend_left n k rs [] 0) as (ls & El & Nl); auto; try constructor.
    { intros q []. }
    destruct (extend_all_f n lft []) as (ls' & El' & Ll' & Ee' & _); auto; try constructor.
    fold lft in El. assert (ls' = ls) as -> by congruence.
    pose proof (echelon_le n ls Ll' Ee'). simpl in Nl. lia. }
  rewrite transpose_mrows by auto. cbn [bind ncols mrows].
  rewrite identity_mrows by auto. cbn [bind].
  assert (Lc : lens (length lft) (cols n lft)) by apply cols_lens.
  assert (Nc : length (cols n lft) = n) by apply cols_length.
  rewrite hstack_mrows; [|auto|apply funits_lens|rewrite Nc, map_length, seq_length; auto|lia].
  cbn [bind].
  set (gr := hrows (cols n lft) (map (vunit n) (seq 0 n))).
  assert (Lgr : lens (length lft + n) gr).
  { apply hrows_lens; auto. apply funits_lens. rewrite Nc, map_length, seq_length; auto. }
  destruct (reduced_basis_f (length lft + n) gr ltac:(lia) Lgr) as (bt & ts & Ebt & Lbt & Eebt & _ & _ & Emt & Rt & Nts).
  destruct (extend_identity (length lft) n (cols n lft) Lc Nc) as (bt' & Ebt' & Nbt).
  fold gr in Ebt'. assert (bt' = bt) as -> by congruence. rewrite Nbt in Nts.
  assert (Lt : lens (length lft + n) ts) by apply Rt.
  rewrite Emt. cbn [bind].
  assert (Htne : ts <> []) by (intros Q; rewrite Q in Nts; simpl in Nts; lia).
  replace (match ts with [] => Mat 0 0 [] | _ :: _ => mrows (length lft + n) ts end)
    with (mrows (length lft + n) ts) by (destruct ts; congruence).
  cbn [nrows ncols mrows]. rewrite Hlft in *.
  rewrite (submatrix_mrows (length rs + n) ts 0 (length ts) 0 (length rs)) by (auto; lia). cbn [bind].
  rewrite !Nat.sub_0_r. cbn [skipn]. rewrite firstn_all.
  rewrite transpose_mrows.
  2:{ replace (length rs) with (length rs - 0) at 1 by lia.
      eapply subv_lens with (c := (length rs + n)); auto; lia. }
  2:{ destruct ts; simpl; congruence. }
  cbn [bind]. rewrite map_length.
  rewrite (submatrix_mrows (length rs + n) ts 0 (length ts) (length rs) (length rs + n)) by (auto; lia). cbn [bind].
  rewrite ?Nat.sub_0_r. cbn [skipn]. rewrite firstn_all. replace (length rs + n - length rs) with n by lia.
  rewrite transpose_mrows.
  2:{ replace n with (length rs + n - length rs) at 1 by lia.
      eapply subv_lens with (c := (length rs + n)); auto; lia. }
  2:{ destruct ts; simpl; congruence. }
  cbn [bind nrows ncols mrows]. rewrite !map_length, !Nts.
  set (r := length rs) in *.
  rewrite (mrows_mk n (cols r (map (subv 0 r) ts))).
  2:{ rewrite <- Nts at 1. rewrite <- (map_length (subv 0 r) ts). apply cols_lens. }
  rewrite (mrows_mk n (cols n (map (subv r (r + n)) ts))).
  2:{ rewrite <- Nts at 1. rewrite <- (map_length (subv r (r + n)) ts). apply cols_lens. }
  rewrite (mrows_mk k (map (subv n (n + k)) rs)).
  2:{ replace k with (n + k - n) at 1 by lia. eapply subv_lens with (c := (n + k)); auto; lia. }
  rewrite !cols_length, map_length. cbn [ncols mk]. fold r.
  match goal with |- context [solve_rows (mk r n ?c) (mk r k ?d) (seq 0 r) []] =>
    destruct (solve_rows_f (mk r n c) (mk r k d) r n k c d Hn Hk eq_refl eq_refl (seq 0 r) []) as (y & Ey & Ly & Ny) end.
  { constructor. }
  { intros i Hi. apply in_seq in Hi. lia. }
  rewrite Ey. cbn [bind]. rewrite seq_length in Ny. simpl in Ny.
  set (w := y ++ repeat (repeat f_zero k) (n - r)).
  assert (Lw : lens k w).
  { unfold w, lens. rewrite Forall_app. split; auto. apply Forall_forall. intros v Hv. apply repeat_spec in Hv. subst v.
    apply repeat_length. }
  assert (Nw : length w = n) by (unfold w; rewrite app_length, repeat_length; lia).
  change (y ++ repeat (repeat r0 k) (n - r)) with w.
  pose proof (vstack_rows k w Hk Lw) as V.
  destruct (mapM mat_row w) as [ms| |]; cbn [bind] in V |- *;
    [|discriminate V; intros Q; rewrite Q in Nw; simpl in Nw; lia
     |discriminate V; intros Q; rewrite Q in Nw; simpl in Nw; lia].
  rewrite V by (intros Q; rewrite Q in Nw; simpl in Nw; lia). cbn [bind].
  rewrite (mrows_mk k w) by auto. rewrite Nw. rewrite mat_mul_mk by auto. cbn [bind].
  eexists. reflexivity.
Qed.

Lemma null_space_f m n f : 0 < m -> 0 < n ->
  exists o, null_space (mk m n f) = Ret o /\
    match o with None => n <= m | Some s => exists d (x : nat -> nat -> float), 0 < d /\ d <= n /\ n - m <= d /\ s = mk n d x end.
Proof.
  intros Hm Hn. unfold null_space. rewrite transpose_mk by auto. cbn [bind nrows ncols mk].
  rewrite identity_mrows by auto. cbn [bind].
  set (F := fun i j => f j i). fold (@mk float n m F). change (Mat n m (concat (frows n m F))) with (mk n m F).
  rewrite (mk_mrows n m F).
  rewrite hstack_mrows; [|apply frows_lens|apply funits_lens|rewrite frows_length, map_length, seq_length; auto|lia].
  cbn [bind].
  set (gr := hrows (frows n m F) (map (vunit n) (seq 0 n))).
  assert (Lgr : lens (m + n) gr).
  { apply hrows_lens; [apply frows_lens|apply funits_lens|rewrite frows_length, map_length, seq_length; auto]. }
  destruct (reduced_basis_f (m + n) gr ltac:(lia) Lgr) as (bt & ts & Ebt & Lbt & Eebt & _ & _ & Emt & Rt & Nts).
  destruct (extend_identity m n (frows n m F) (frows_lens _ _ _) (frows_length _ _ _)) as (bt' & Ebt' & Nbt).
  fold gr in Ebt'. assert (bt' = bt) as -> by congruence. rewrite Nbt in Nts.
  assert (Lt : lens (m + n) ts) by apply Rt.
  rewrite Emt. cbn [bind].
  assert (Htne : ts <> []) by (intros Q; rewrite Q in Nts; simpl in Nts; lia).
  replace (match ts with [] => Mat 0 0 [] | _ :: _ => mrows (m + n) ts end)
    with (mrows (m + n) ts) by (destruct ts; congruence).
  cbn [nrows ncols mrows]. 
  rewrite (submatrix_mrows (m + n) ts 0 (length ts) 0 m) by (auto; lia). cbn [bind].
  rewrite (submatrix_mrows (m + n) ts 0 (length ts) m (m + n)) by (auto; lia). cbn [bind].
  rewrite ?Nat.sub_0_r. cbn [skipn]. rewrite !firstn_all. replace (m + n - m) with n by lia.
  destruct (rref_echelon _ _ _ Rt) as (Ech & _).
  rewrite (rank_left m n ts) by auto. cbn [bind nrows ncols mrows]. rewrite map_length, Nts.
  assert (Lf : lens m (map (subv 0 m) ts)).
  { replace m with (m - 0) at 1 by lia. eapply subv_lens with (c := (m + n)); auto; lia. }
  destruct (rank_f m (map (subv 0 m) ts) Hm Lf) as (ks & Ek & Erk & _ & Hkm).
  rewrite (rank_left m n ts) in Erk by auto. injection Erk as Ek'. set (k := length (filter _ _)) in *.
  destruct (Nat.ltb_spec k n) as [Hk|Hk].
  - assert (Lr : lens n (map (subv m (m + n)) ts)).
    { replace n with (m + n - m) at 1 by lia. eapply subv_lens with (c := (m + n)); auto; lia. }
    rewrite (submatrix_mrows n (map (subv m (m + n)) ts) k n 0 n) by (rewrite ?map_length; auto; lia). cbn [bind].
    rewrite Nat.sub_0_r.
    set (sub := map (subv 0 n) (firstn (n - k) (skipn k (map (subv m (m + n)) ts)))).
    assert (Ns : length sub = n - k).
    { unfold sub. rewrite map_length, firstn_length, skipn_length, map_length. lia. }
    assert (Ls : lens n sub).
    { unfold sub. replace n with (n - 0) at 1 by lia. eapply subv_lens with (c := n); auto; try lia.
      unfold lens in *. rewrite Forall_forall in *. intros v Hv. apply Lr.
      rewrite <- (firstn_skipn k). apply in_or_app. right. rewrite <- (firstn_skipn (n - k)). apply in_or_app. auto. }
    rewrite transpose_mrows; auto; [|intros Q; rewrite Q in Ns; simpl in Ns; lia]. cbn [bind].
    eexists. split; [reflexivity|]. cbn beta iota.
    exists (n - k). rewrite (mrows_mk (length sub) (cols n sub)) by apply cols_lens. rewrite cols_length, Ns.
    eexists. splits; try reflexivity; lia.
  - exists None. split; auto. lia.
Qed.

Lemma determinant_f n f : exists d : float, determinant (mk n n f) = Ret d.
Proof.
  unfold determinant. cbn [nrows ncols mk]. rewrite Nat.eqb_refl. cbn [assert bind].
  destruct n as [|[|[|[|n]]]].
  - eauto.
  - rewrite index_mk by lia. eauto.
  - rewrite !index_mk by lia. cbn [bind]. eauto.
  - rewrite !index_mk by lia. cbn [bind]. eauto.
  - set (N := S (S (S (S n)))). rewrite mk_mrows. rewrite get_rows_mrows by (unfold N; try lia; apply frows_lens). cbn [bind].
    destruct (extend_all_f N (frows N N f) []) as (bs & E & L & Ee & Hl); [constructor|apply frows_lens|constructor|].
    rewrite E. cbn [bind]. destruct (Nat.ltb_spec (length bs) N) as [H|H]; eauto.
    unfold diag_product.
    assert (G : forall l (a : float), (forall i, In i l -> i < N) -> exists d, foldM (fun det i => do b <- unwrap (nth_error bs i); do x <- unwrap (nth_error b i);
                        Ret (rmul det x)) a l = Ret d).
    { induction l as [|i l IH]; intros a Hi; simpl; eauto.
      assert (i < N) by (apply Hi; simpl; auto).
      destruct (nth_error bs i) as [b|] eqn:Eb; [|apply nth_error_None in Eb; lia]. simpl.
      apply nth_error_In in Eb. pose proof (lens_In _ _ _ L Eb) as Lb.
      destruct (nth_error b i) as [x|] eqn:Ex; [|apply nth_error_None in Ex; lia]. simpl.
      apply IH. intros; apply Hi; simpl; auto. }
    apply G. intros i Hi. apply in_seq in Hi. lia.
Qed.
