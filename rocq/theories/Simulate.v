(** Two scalar types whose operations correspond give corresponding results of the linear algebra functions.  This file
    is about the generic definitions of Elim.v, Matrix.v and LinAlg.v; it models no further code. *)
From Coq Require Import List ZArith Lia Bool PeanoNat.
From Verif Require Import Base Vec Elim Scalars Matrix LinAlg.
Import ListNotations.
Open Scope nat_scope.

(** if the first computation returns, the second returns a related result *)
Definition sim {A B} (P : A -> B -> Prop) (x : outcome A) (y : outcome B) : Prop :=
  forall a, x = Ret a -> exists b, y = Ret b /\ P a b.

Lemma sim_Ret {A B} (P : A -> B -> Prop) a b : P a b -> sim P (Ret a) (Ret b).
Proof. intros H c E. injection E as <-. eauto. Qed.

Lemma sim_Panic {A B} (P : A -> B -> Prop) y : sim P Panic y.
Proof. intros c E. discriminate E. Qed.

Lemma sim_bind {A B C D} (P : A -> B -> Prop) (Q : C -> D -> Prop) x y f g :
  sim P x y -> (forall a b, P a b -> sim Q (f a) (g b)) -> sim Q (bind x f) (bind y g).
Proof.
  intros H K c E. apply bind_Ret_inv in E as (a & Ea & Ec).
  destruct (H a Ea) as (b & -> & Hab). exact (K a b Hab c Ec).
Qed.

Lemma sim_assert b b' : b = b' -> sim (fun _ _ : unit => True) (assert b) (assert b').
Proof. intros <-. destruct b; simpl; [apply sim_Ret; auto|apply sim_Panic]. Qed.

Lemma sim_unwrap {A B} (P : A -> B -> Prop) x y :
  (forall a, x = Some a -> exists b, y = Some b /\ P a b) -> sim P (unwrap x) (unwrap y).
Proof. intros H c E. destruct x as [a|]; [|discriminate E]. injection E as <-. destruct (H a eq_refl) as (b & -> & K). simpl. eauto. Qed.

Lemma sim_weaken {A B} (P Q : A -> B -> Prop) x y : (forall a b, P a b -> Q a b) -> sim P x y -> sim Q x y.
Proof. intros H K a E. destruct (K a E) as (b & Eb & Hb). eauto. Qed.

Lemma sim_omap {A B C D} (P : A -> B -> Prop) (Q : C -> D -> Prop) f g x y :
  (forall a b, P a b -> Q (f a) (g b)) -> sim P x y -> sim Q (omap f x) (omap g y).
Proof. intros H K. unfold omap. eapply sim_bind; [exact K|]. intros. apply sim_Ret; auto. Qed.

Lemma sim_mapM {A B C D} (I : A -> B -> Prop) (P : C -> D -> Prop) f g l l' :
  Forall2 I l l' -> (forall a b, I a b -> sim P (f a) (g b)) -> sim (Forall2 P) (mapM f l) (mapM g l').
Proof.
  intros F H. induction F as [|a b l l' Hab F IH]; simpl.
  - apply sim_Ret. constructor.
  - eapply sim_bind; [apply H; eauto|]. intros c d Hcd.
    eapply sim_bind; [exact IH|]. intros cs ds Hs. apply sim_Ret. constructor; auto.
Qed.

Lemma sim_mapM_same {A C D} (P : C -> D -> Prop) (f : A -> outcome C) g l :
  (forall a, sim P (f a) (g a)) -> sim (Forall2 P) (mapM f l) (mapM g l).
Proof.
  intros H. apply (sim_mapM (fun a b => a = b)).
  - induction l; constructor; auto.
  - intros a b ->. apply H.
Qed.

Lemma sim_foldM_same {A S T} (P : S -> T -> Prop) (f : S -> A -> outcome S) (g : T -> A -> outcome T) l : forall s t,
  P s t -> (forall s t a, P s t -> sim P (f s a) (g t a)) -> sim P (foldM f s l) (foldM g t l).
Proof.
  induction l as [|a l IH]; intros s t Hst H; simpl.
  - apply sim_Ret; auto.
  - eapply sim_bind; [apply H; eauto|]. intros. apply IH; auto.
Qed.

Lemma sim_foldM {A B S T} (I : A -> B -> Prop) (P : S -> T -> Prop) (f : S -> A -> outcome S) (g : T -> B -> outcome T) l l' :
  Forall2 I l l' -> forall s t, P s t -> (forall s t a b, P s t -> I a b -> sim P (f s a) (g t b)) -> sim P (foldM f s l) (foldM g t l').
Proof.
  induction 1 as [|a b l l' Hab F IH]; intros s t Hst H; simpl.
  - apply sim_Ret; auto.
  - eapply sim_bind; [apply H; eauto|]. intros. apply IH; auto.
Qed.

Lemma Forall2_length {A B} {P : A -> B -> Prop} {l l'} : Forall2 P l l' -> length l = length l'.
Proof. induction 1; simpl; auto. Qed.

Lemma Forall2_concat {A B} (P : A -> B -> Prop) l l' :
  Forall2 (Forall2 P) l l' -> Forall2 P (concat l) (concat l').
Proof. induction 1; simpl; auto. apply Forall2_app; auto. Qed.

Lemma Forall2_nth_error {A B} (P : A -> B -> Prop) l l' i a :
  Forall2 P l l' -> nth_error l i = Some a -> exists b, nth_error l' i = Some b /\ P a b.
Proof.
  intros F. revert i. induction F as [|x y l l' H F IH]; intros [|i] E; simpl in *; try discriminate E.
  - injection E as <-. eauto.
  - apply IH; auto.
Qed.

Lemma Forall2_firstn {A B} (P : A -> B -> Prop) n l l' : Forall2 P l l' -> Forall2 P (firstn n l) (firstn n l').
Proof. intros F. revert n. induction F; intros [|n]; simpl; constructor; auto. Qed.

Lemma Forall2_skipn {A B} (P : A -> B -> Prop) n l l' : Forall2 P l l' -> Forall2 P (skipn n l) (skipn n l').
Proof. intros F. revert n. induction F; intros [|n]; simpl; auto; constructor; auto. Qed.

Lemma Forall2_repeat {A B} (P : A -> B -> Prop) n a b : P a b -> Forall2 P (repeat a n) (repeat b n).
Proof. intros H. induction n; simpl; constructor; auto. Qed.

Lemma Forall2_map_same {A B C} (P : B -> C -> Prop) (f : A -> B) g l : (forall a, P (f a) (g a)) -> Forall2 P (map f l) (map g l).
Proof. intros H. induction l; simpl; constructor; auto. Qed.

Lemma Forall2_map2 {A B C D} (P : A -> B -> Prop) (Q : C -> D -> Prop) f g l l' :
  (forall a b, P a b -> Q (f a) (g b)) -> Forall2 P l l' -> Forall2 Q (map f l) (map g l').
Proof. intros H. induction 1; simpl; constructor; auto. Qed.

Lemma Forall2_weaken {A B} (P Q : A -> B -> Prop) l l' : (forall a b, P a b -> Q a b) -> Forall2 P l l' -> Forall2 Q l l'.
Proof. intros H. induction 1; constructor; auto. Qed.

(** related matrices: same shape and related entries *)
Definition mrel {A B} (P : A -> B -> Prop) (m : mat A) (m' : mat B) : Prop :=
  nrows m = nrows m' /\ ncols m = ncols m' /\ Forall2 P (data m) (data m').

Definition orel {A B} (P : A -> B -> Prop) (x : option A) (y : option B) : Prop :=
  match x, y with Some a, Some b => P a b | None, None => True | _, _ => False end.

Lemma mrel_weaken {A B} (P Q : A -> B -> Prop) m m' : (forall a b, P a b -> Q a b) -> mrel P m m' -> mrel Q m m'.
Proof. intros H (R & C & D). unfold mrel. splits; auto. eapply Forall2_weaken; eauto. Qed.

(** ** matrices *)
Section MatSim.
  Context {R1 R2 : Type}.
  Variable P : R1 -> R2 -> Prop.
  Notation M := (mrel P).
  Notation V := (Forall2 P).

  Lemma sim_new n d d' : V d d' -> sim M (mat_new n d) (mat_new n d').
  Proof.
    intros F. unfold mat_new. rewrite <- (Forall2_length F).
    destruct (Nat.eqb_spec (length d) 0); [apply sim_Ret; unfold mrel; splits; auto|].
    destruct (Nat.eqb n 0); [apply sim_Panic|]. cbv zeta.
    eapply sim_bind; [apply sim_assert; reflexivity|]. intros _ _ _. apply sim_Ret. unfold mrel. splits; auto.
  Qed.

  Lemma sim_row d d' : V d d' -> sim M (mat_row d) (mat_row d').
  Proof. intros F. unfold mat_row. rewrite <- (Forall2_length F). apply sim_new; auto. Qed.

  Lemma sim_index m m' i j : M m m' -> sim P (index m i j) (index m' i j).
  Proof.
    intros (R & C & D). unfold index. rewrite C, <- (Forall2_length D).
    eapply sim_bind; [apply sim_assert; reflexivity|]. intros _ _ _.
    eapply sim_bind; [apply sim_assert; reflexivity|]. intros _ _ _.
    apply sim_unwrap. intros a E. eapply Forall2_nth_error; eauto.
  Qed.

  Lemma forallb_rows l l' k : Forall2 M l l' ->
    forallb (fun m => Nat.eqb (nrows m) k) l = forallb (fun m => Nat.eqb (nrows m) k) l'.
  Proof. induction 1 as [|a b l l' (R & _) F IH]; simpl; auto. rewrite R, IH. auto. Qed.

  Lemma forallb_cols l l' k : Forall2 M l l' ->
    forallb (fun m => Nat.eqb (ncols m) k) l = forallb (fun m => Nat.eqb (ncols m) k) l'.
  Proof. induction 1 as [|a b l l' (_ & C & _) F IH]; simpl; auto. rewrite C, IH. auto. Qed.

  Lemma sum_cols l l' : Forall2 M l l' -> list_sum (map ncols l) = list_sum (map ncols l').
  Proof. induction 1 as [|a b l l' (_ & C & _) F IH]; simpl; auto. Qed.

  Lemma sim_hstack l l' : Forall2 M l l' -> sim M (hstack l) (hstack l').
  Proof.
    intros F. unfold hstack. destruct F as [|a b l l' H F]; [apply sim_new; constructor|].
    assert (F' : Forall2 M (a :: l) (b :: l')) by (constructor; auto).
    rewrite (sum_cols _ _ F'). rewrite (forallb_rows _ _ _ F'). destruct H as (R & C & D). rewrite R.
    eapply sim_bind; [apply sim_assert; reflexivity|]. intros _ _ _.
    eapply sim_bind.
    - apply (sim_mapM_same (Forall2 P)). intros i.
      apply (sim_omap (Forall2 (Forall2 P)) (Forall2 P)); [apply Forall2_concat|].
      apply (sim_mapM (mrel P)); auto. intros p q Hpq. pose proof Hpq as (_ & C' & _). rewrite C'.
      apply sim_mapM_same. intros j. apply sim_index; auto.
    - intros rs rs' Hr. apply sim_new. apply Forall2_concat; auto.
  Qed.

  Lemma sim_vstack l l' : Forall2 M l l' -> sim M (vstack l) (vstack l').
  Proof.
    intros F. unfold vstack. destruct F as [|a b l l' H F]; [apply sim_new; constructor|].
    assert (F' : Forall2 M (a :: l) (b :: l')) by (constructor; auto).
    rewrite (forallb_cols _ _ _ F'). destruct H as (R & C & D). rewrite C.
    eapply sim_bind; [apply sim_assert; reflexivity|]. intros _ _ _.
    eapply sim_bind.
    - apply (sim_mapM (mrel P) (Forall2 P)); eauto. intros p q Hpq.
      apply (sim_omap (Forall2 (Forall2 P)) (Forall2 P)); [apply Forall2_concat|].
      pose proof Hpq as (R' & C' & _). rewrite C', R'.
      apply sim_mapM_same. intros i. apply sim_mapM_same. intros j. apply sim_index; auto.
    - intros rs rs' Hr. apply sim_new. apply Forall2_concat; auto.
  Qed.

  Lemma sim_submatrix m m' a b c d : M m m' -> sim M (submatrix m a b c d) (submatrix m' a b c d).
  Proof.
    intros H. unfold submatrix. pose proof H as (R & C & _). rewrite R, C.
    do 4 (eapply sim_bind; [apply sim_assert; reflexivity|]; intros _ _ _).
    eapply sim_bind.
    - apply (sim_mapM_same (Forall2 P)). intros i. apply sim_mapM_same. intros j. apply sim_index; auto.
    - intros. apply sim_new. apply Forall2_concat; auto.
  Qed.

  Lemma sim_get_row m m' i : M m m' -> sim V (get_row m i) (get_row m' i).
  Proof.
    intros (R & C & D). unfold get_row. rewrite C, <- (Forall2_length D).
    do 2 (eapply sim_bind; [apply sim_assert; reflexivity|]; intros _ _ _).
    apply sim_Ret. apply Forall2_firstn, Forall2_skipn; auto.
  Qed.

  Lemma sim_get_rows m m' : M m m' -> sim (Forall2 V) (get_rows m) (get_rows m').
  Proof. intros H. unfold get_rows. pose proof H as (R & _). rewrite R. apply sim_mapM_same. intros; apply sim_get_row; auto. Qed.

  Lemma sim_transpose m m' : M m m' -> sim M (transpose m) (transpose m').
  Proof.
    intros H. unfold transpose. pose proof H as (R & C & _). rewrite R, C.
    eapply sim_bind.
    - apply (sim_mapM_same (Forall2 P)). intros i. apply sim_mapM_same. intros j. apply sim_index; auto.
    - intros. apply sim_new. apply Forall2_concat; auto.
  Qed.

  Context {D1 : Dom R1} {D2 : Dom R2}.
  Hypothesis P0 : P r0 r0.
  Hypothesis P1 : P r1 r1.

  Lemma sim_zero a b : sim M (mat_zero a b) (mat_zero a b).
  Proof. unfold mat_zero. apply sim_new. apply Forall2_repeat; auto. Qed.

  Lemma sim_identity n : sim M (identity n) (identity n).
  Proof.
    unfold identity. apply sim_new. rewrite !flat_map_concat_map. apply Forall2_concat.
    apply Forall2_map_same. intros i. unfold vunit. apply Forall2_map_same. intros j. destruct (Nat.eqb j i); auto.
  Qed.
End MatSim.

(** ** linear algebra *)
Section LinSim.
  Context {R1 R2 : Type} {D1 : Dom R1} {D2 : Dom R2} {S1 : Scalar R1} {S2 : Scalar R2}.
  (** [P] relates the entries during the elimination, [Q] sums of products of them *)
  Variables P Q : R1 -> R2 -> Prop.
  Notation V := (Forall2 P).

  Hypothesis PQ : forall x y, P x y -> Q x y.
  Hypothesis P0 : P r0 r0.
  Hypothesis P1 : P r1 r1.
  Hypothesis Popp : forall x y, P x y -> P (ropp x) (ropp y).
  Hypothesis Pz : forall x y, P x y -> reqb x r0 = reqb y r0.
  Hypothesis Qadd : forall x y x' y', Q x y -> Q x' y' -> Q (radd x x') (radd y y').
  Hypothesis Qsub : forall x y x' y', Q x y -> Q x' y' -> Q (rsub x x') (rsub y y').
  Hypothesis Qmul : forall x y x' y', Q x y -> Q x' y' -> Q (rmul x x') (rmul y y').
  Hypothesis Sclear : forall col v b v' b', V v v' -> V b b' -> length v = length b -> pivot v = Some col -> pivot b = Some col ->
    sim (fun p q => V (fst p) (fst q) /\ V (snd p) (snd q)) (s_clear col v b) (s_clear col v' b').
  Hypothesis Snorm : forall col v v' x, V v v' -> nth_error v col = Some x -> reqb x r0 = false ->
    sim V (s_normalize col v) (s_normalize col v').
  Hypothesis Sreduce : forall col v b v' b', V v v' -> V b b' -> sim V (s_reduce col v b) (s_reduce col v' b').
  Hypothesis Srow : forall a x b a' x' b', V a a' -> Forall2 V x x' -> V b b' ->
    sim (orel V) (s_solve_row a x b) (s_solve_row a' x' b').

  Lemma sim_mul_entry a b a' b' i j : mrel P a a' -> mrel P b b' -> sim Q (mul_entry a b i j) (mul_entry a' b' i j).
  Proof.
    intros Ha Hb. unfold mul_entry. pose proof Ha as (_ & C & _). rewrite C.
    apply sim_foldM_same; auto. intros s t k Hst.
    eapply sim_bind; [apply (sim_index P); eauto|]. intros x x' Hx.
    eapply sim_bind; [apply (sim_index P); eauto|]. intros y y' Hy. apply sim_Ret. auto.
  Qed.

  Lemma sim_mat_mul a b a' b' : mrel P a a' -> mrel P b b' -> sim (mrel Q) (mat_mul a b) (mat_mul a' b').
  Proof.
    intros Ha Hb. unfold mat_mul. pose proof Ha as (R & C & _). pose proof Hb as (R' & C' & _). rewrite C, R, C', R'.
    eapply sim_bind; [apply sim_assert; reflexivity|]. intros _ _ _.
    eapply sim_bind.
    - apply (sim_mapM_same (Forall2 Q)). intros i. apply sim_mapM_same. intros j. apply sim_mul_entry; auto.
    - intros. apply sim_new. apply Forall2_concat; auto.
  Qed.

  Lemma pivot_rel v v' : V v v' -> pivot v = pivot v'.
  Proof. induction 1 as [|x y v v' H F IH]; simpl; auto. rewrite (Pz _ _ H), IH. auto. Qed.

  Lemma sim_extend bs bs' : Forall2 V bs bs' -> forall v v', V v v' -> sim (Forall2 V) (extend_basis v bs) (extend_basis v' bs').
  Proof.
    induction 1 as [|b b' bs bs' Hb F IH]; intros v v' Hv; cbn [extend_basis]; rewrite <- (pivot_rel v v' Hv).
    - destruct (pivot v); apply sim_Ret; repeat constructor; auto.
    - rewrite <- (Forall2_length Hv), <- (Forall2_length Hb).
      destruct (Nat.eqb_spec (length b) (length v)) as [El|El]; cbn [assert bind]; [|apply sim_Panic].
      destruct (pivot v) as [col|] eqn:Ev; [|apply sim_Ret; constructor; auto].
      rewrite <- (pivot_rel b b' Hb). destruct (pivot b) as [cb|] eqn:Eb; cbn [unwrap bind]; [|apply sim_Panic].
      destruct (Nat.ltb col cb).
      + apply sim_Ret. constructor; [|constructor; auto].
        assert (L : length (b :: bs) = length (b' :: bs')) by (simpl; rewrite (Forall2_length F); auto). rewrite <- L.
        destruct (Nat.odd _); auto. apply (Forall2_map2 P); auto.
      + destruct (Nat.eqb_spec col cb) as [<-|_].
        * eapply sim_bind; [apply Sclear; eauto|]. intros (w & c) (w' & c') (Hw & Hc). simpl in Hw, Hc.
          eapply sim_bind; [apply IH; eauto|]. intros r r' Hr. apply sim_Ret. constructor; auto.
        * eapply sim_bind; [apply IH; eauto|]. intros r r' Hr. apply sim_Ret. constructor; auto.
  Qed.

  Lemma sim_extend_all rows rows' bs bs' : Forall2 V rows rows' -> Forall2 V bs bs' ->
    sim (Forall2 V) (extend_all bs rows) (extend_all bs' rows').
  Proof. intros Hr Hb. unfold extend_all. apply (sim_foldM (Forall2 P)); auto. intros. apply sim_extend; auto. Qed.

  Lemma sim_next_nz v v' c : V v v' -> sim (fun i j => i = j /\ exists x, nth_error v i = Some x /\ reqb x r0 = false)
    (next_nz v c) (next_nz v' c).
  Proof.
    intros H. unfold next_nz.
    assert (G : forall w w', V w w' -> forall k, sim (fun i j => i = j /\ k <= i /\ exists x, nth_error w (i - k) = Some x /\ reqb x r0 = false)
      (next_nz_from k w) (next_nz_from k w')).
    { induction 1 as [|x y w w' Hx F IH]; intros k; simpl; [apply sim_Panic|].
      rewrite <- (Pz _ _ Hx). destruct (reqb x r0) eqn:E.
      - eapply sim_weaken; [|apply IH]. intros i j (-> & L & z & Ez & Nz). splits; auto; [lia|].
        exists z. split; auto. replace (j - k) with (S (j - S k)) by lia. exact Ez.
      - apply sim_Ret. splits; auto. exists x. rewrite Nat.sub_diag. auto. }
    eapply sim_weaken; [|apply G; apply Forall2_skipn; eauto].
    intros i j (-> & L & x & E & N). split; auto. exists x. split; auto.
    rewrite <- E. clear -L. replace j with (c + (j - c)) at 1 by lia. generalize (j - c). clear L. intros k. revert v.
    induction c as [|c IH]; intros v; simpl; auto. destruct v as [|a v]; simpl; [destruct k; reflexivity|]. apply IH.
  Qed.

  Lemma sim_reduce_rows todo todo' : Forall2 V todo todo' -> forall dn dn' c, Forall2 V dn dn' ->
    sim (Forall2 V) (reduce_rows dn todo c) (reduce_rows dn' todo' c).
  Proof.
    induction 1 as [|b b' todo todo' Hb F IH]; intros dn dn' c Hd; cbn [reduce_rows]; [apply sim_Ret; auto|].
    eapply sim_bind; [apply sim_next_nz; eauto|]. intros i j (<- & x & Ex & Nx).
    eapply sim_bind; [eapply Snorm; eauto|]. intros w w' Hw.
    eapply sim_bind; [apply (sim_mapM V V); eauto|]. intros e e' He.
    apply IH. apply Forall2_app; auto.
  Qed.

  Lemma sim_rows_mat rs rs' : Forall2 V rs rs' -> sim (mrel P) (do ms <- mapM mat_row rs; vstack ms) (do ms <- mapM mat_row rs'; vstack ms).
  Proof.
    intros H. eapply sim_bind; [apply (sim_mapM V (mrel P)); eauto; intros; apply sim_row; auto|].
    intros. apply sim_vstack; auto.
  Qed.

  Theorem sim_rank m m' : mrel P m m' -> sim eq (rank m) (rank m').
  Proof.
    intros H. unfold rank. eapply sim_bind; [apply (sim_get_rows P); eauto|]. intros rs rs' Hr.
    eapply sim_bind; [apply sim_extend_all; eauto|]. intros b b' Hb. apply sim_Ret. apply (Forall2_length Hb).
  Qed.

  Theorem sim_reduced_basis m m' : mrel P m m' -> sim (mrel P) (reduced_basis m) (reduced_basis m').
  Proof.
    intros H. unfold reduced_basis, reduced_rows. eapply sim_bind; [apply (sim_get_rows P); eauto|]. intros rs rs' Hr.
    eapply sim_bind.
    - eapply sim_bind; [apply sim_extend_all; eauto|]. intros b b' Hb. apply sim_reduce_rows; eauto.
    - intros b b' Hb. apply sim_rows_mat; auto.
  Qed.

  Lemma sim_diag n bs bs' : Forall2 V bs bs' -> sim Q (diag_product n bs) (diag_product n bs').
  Proof.
    intros H. unfold diag_product. apply sim_foldM_same; auto. intros s t i Hst.
    eapply sim_bind; [apply (sim_unwrap V); intros; eapply Forall2_nth_error; eauto|]. intros b b' Hb.
    eapply sim_bind; [apply (sim_unwrap P); intros; eapply Forall2_nth_error; eauto|]. intros x x' Hx.
    apply sim_Ret; auto.
  Qed.

  Theorem sim_determinant m m' : mrel P m m' -> sim Q (determinant m) (determinant m').
  Proof.
    intros H. unfold determinant. pose proof H as (R & C & _). rewrite R, C.
    eapply sim_bind; [apply sim_assert; reflexivity|]. intros _ _ _. cbv zeta.
    assert (I : forall i j, sim P (index m i j) (index m' i j)) by (intros; apply sim_index; auto).
    destruct (nrows m') as [|[|[|[|n]]]].
    - apply sim_Ret; auto.
    - eapply sim_weaken; [exact PQ|apply I].
    - do 4 (eapply sim_bind; [apply I|]; intros ? ? ?). apply sim_Ret; auto 10.
    - do 9 (eapply sim_bind; [apply I|]; intros ? ? ?). apply sim_Ret.
      repeat first [apply Qsub|apply Qadd|apply Qmul]; auto.
    - eapply sim_bind; [apply (sim_get_rows P); eauto|]. intros rs rs' Hr.
      eapply sim_bind; [apply sim_extend_all; eauto|]. intros b b' Hb. rewrite (Forall2_length Hb).
      destruct (Nat.ltb _ _); [apply sim_Ret; auto|]. apply sim_diag; auto.
  Qed.

  Lemma sim_solve_rows b b' r r' is : mrel P b b' -> mrel P r r' -> forall x x', Forall2 V x x' ->
    sim (orel (Forall2 V)) (solve_rows b r is x) (solve_rows b' r' is x').
  Proof.
    intros Hb Hr. induction is as [|i is IH]; intros x x' Hx; cbn [solve_rows]; [apply sim_Ret; auto|].
    eapply sim_bind; [apply (sim_get_row P); eauto|]. intros a a' Ha.
    eapply sim_bind; [apply (sim_get_row P); eauto|]. intros c c' Hc.
    eapply sim_bind; [apply Srow; eauto|]. intros [o|] [o'|] Ho; try contradiction.
    - apply IH. apply Forall2_app; auto.
    - apply sim_Ret. exact I.
  Qed.

  Theorem sim_solve a b a' b' : mrel P a a' -> mrel P b b' -> sim (orel (mrel Q)) (solve a b) (solve a' b').
  Proof.
    intros Ha Hb. unfold solve. pose proof Ha as (Ra & Ca & _). pose proof Hb as (Rb & Cb & _). rewrite Ra, Ca, Rb, Cb.
    eapply sim_bind; [apply sim_assert; reflexivity|]. intros _ _ _.
    eapply sim_bind; [apply (sim_hstack P); repeat constructor; auto; apply Ha || apply Hb|]. intros h h' Hh.
    eapply sim_bind; [apply sim_reduced_basis; eauto|]. intros t t' Ht.
    pose proof Ht as (Rt & Ct & _). rewrite Rt, Ct.
    destruct (Nat.eqb (nrows t') 0).
    { eapply sim_bind; [apply (sim_zero P); auto|]. intros z z' Hz. apply sim_Ret. simpl. eapply mrel_weaken; eauto. }
    eapply sim_bind; [apply (sim_submatrix P); eauto|]. intros l l' Hl.
    eapply sim_bind; [apply (sim_submatrix P); eauto|]. intros r r' Hr.
    eapply sim_bind; [apply sim_rank; eauto|]. intros k k' <-.
    pose proof Hl as (Rl & Cl & _). pose proof Hr as (Rr & Cr & _). rewrite Rl, Cl, Rr, Cr.
    destruct (Nat.ltb k (nrows l')); [apply sim_Ret; exact I|].
    eapply sim_bind; [apply (sim_transpose P); eauto|]. intros lt lt' Hlt.
    eapply sim_bind; [apply (sim_identity P); auto|]. intros id id' Hid.
    eapply sim_bind; [apply (sim_hstack P); repeat constructor; auto; apply Hlt || apply Hid|]. intros h2 h2' Hh2.
    eapply sim_bind; [apply sim_reduced_basis; eauto|]. intros t2 t2' Ht2.
    pose proof Ht2 as (Rt2 & Ct2 & _). rewrite Rt2, Ct2.
    eapply sim_bind; [apply (sim_submatrix P); eauto|]. intros b0 b0' Hb0.
    eapply sim_bind; [apply (sim_transpose P); eauto|]. intros bb bb' Hbb.
    eapply sim_bind; [apply (sim_submatrix P); eauto|]. intros u0 u0' Hu0.
    eapply sim_bind; [apply (sim_transpose P); eauto|]. intros u u' Hu.
    pose proof Hu as (Ru & Cu & _).
    eapply sim_bind; [apply sim_solve_rows; eauto|]. intros [x|] [x'|] Hx; try contradiction.
    - simpl in Hx. rewrite Cu.
      eapply sim_bind; [apply (sim_mapM V (mrel P)); [|intros; apply sim_row; auto]|].
      + apply Forall2_app; auto. apply Forall2_repeat. apply Forall2_repeat. auto.
      + intros ms ms' Hms. eapply sim_bind; [apply (sim_vstack P); eauto|]. intros xm xm' Hxm.
        eapply sim_bind; [apply sim_mat_mul; eauto|]. intros y y' Hy. apply sim_Ret. exact Hy.
    - apply sim_Ret. exact I.
  Qed.

  Theorem sim_null_space a a' : mrel P a a' -> sim (orel (mrel P)) (null_space a) (null_space a').
  Proof.
    intros Ha. unfold null_space.
    eapply sim_bind; [apply (sim_transpose P); eauto|]. intros m m' Hm. pose proof Hm as (Rm & Cm & _). rewrite Rm, Cm.
    eapply sim_bind; [apply (sim_identity P); auto|]. intros id id' Hid.
    eapply sim_bind; [apply (sim_hstack P); repeat constructor; auto; apply Hm || apply Hid|]. intros h h' Hh.
    eapply sim_bind; [apply sim_reduced_basis; eauto|]. intros t t' Ht.
    pose proof Ht as (Rt & Ct & _). rewrite Rt, Ct.
    eapply sim_bind; [apply (sim_submatrix P); eauto|]. intros l l' Hl.
    eapply sim_bind; [apply (sim_submatrix P); eauto|]. intros r r' Hr.
    eapply sim_bind; [apply sim_rank; eauto|]. intros k k' <-.
    pose proof Hr as (Rr & Cr & _). rewrite Rr, Cr.
    destruct (Nat.ltb k (nrows r')); [|apply sim_Ret; exact I].
    eapply sim_bind; [apply (sim_submatrix P); eauto|]. intros s s' Hs.
    eapply sim_bind; [apply (sim_transpose P); eauto|]. intros st st' Hst. apply sim_Ret. exact Hst.
  Qed.

  Theorem sim_inverse a a' : mrel P a a' -> sim (orel (mrel Q)) (inverse a) (inverse a').
  Proof.
    intros Ha. unfold inverse. pose proof Ha as (R & C & _). rewrite R, C.
    eapply sim_bind; [apply sim_assert; reflexivity|]. intros _ _ _.
    eapply sim_bind; [apply (sim_identity P); auto|]. intros id id' Hid. apply sim_solve; auto.
  Qed.
End LinSim.
