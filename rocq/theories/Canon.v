(** Two reduced echelon bases of the same module are equal. *)
From Coq Require Import List ZArith Lia Bool PeanoNat Ring Setoid QArith Qcanon.
From Verif Require Import Base Vec Elim Matrix Scalars LinAlg Shapes.
Import ListNotations.
Close Scope Q_scope.
Open Scope nat_scope.

Section Canon.
  Context {R : Type} {RD : Dom R} {DL : DomLaws R}.
  Notation vec := (list R).
  Add Ring Rcanon : (@r_th R RD DL).

  (** the leading entry of a vector of the span is a multiple of the leading
      entry of the basis vector with the same pivot *)
  Lemma span_pivot_row n k bs x p :
    lens n bs -> echelon_from k bs -> span n bs x -> pivot x = Some p ->
    exists b c, In b bs /\ pivot b = Some p /\ vget x p = rmul c (vget b p).
  Proof.
    intros L E; revert x; induction E as [k|k q b bs Hq Hk E IH]; intros x Hx Hp.
    - apply span_nil in Hx as ->. apply pivot_Some in Hp as (_ & Hp & _).
      rewrite vget_vzero in Hp. congruence.
    - inversion L as [|? ? Hb L']; subst.
      apply span_cons in Hx as (c & y & Hy & ->).
      assert (Ly : length y = length b) by (eapply span_length; eauto).
      destruct (r_eqb_spec c r0) as [->|Hc].
      + rewrite vscale_0, vadd_0_l in Hp |- * by auto. destruct (IH L' y Hy Hp) as (b' & d & Hin & H1 & H2).
        exists b', d. simpl. auto.
      + pose proof Hq as Hq0. apply pivot_Some in Hq as (Hql & Hqn & Hqz).
        assert (Hyz : forall i, (i <= q)%nat -> vget y i = r0).
        { intros i Hi. eapply span_zero_at; [exact L'| |exact Hy].
          intros v Hv. eapply echelon_zero_before; eauto. lia. }
        assert (Hval : forall i, vget (vadd (vscale c b) y) i = radd (rmul c (vget b i)) (vget y i)).
        { intros i. rewrite vget_vadd by (rewrite vscale_length; auto). rewrite vget_vscale. auto. }
        assert (Hpq : pivot (vadd (vscale c b) y) = Some q).
        { apply pivot_Some. splits.
          - rewrite vadd_length; rewrite vscale_length; lia.
          - rewrite Hval, (Hyz q) by lia. intros Q. apply (rmul_nz c (vget b q)); auto. rewrite <- Q. ring.
          - intros i Hi. rewrite Hval, (Hyz i), (Hqz i) by lia. ring. }
        rewrite Hp in Hpq. injection Hpq as ->. exists b, c. splits; simpl; auto.
        rewrite Hval, (Hyz q) by lia. ring.
  Qed.

  Lemma span_vneg_sub n vs x y : lens n vs -> span n vs x -> span n vs y ->
    span n vs (vadd x (vscale (ropp r1) y)).
  Proof. intros L Hx Hy. apply span_add; auto. apply span_scale; auto. Qed.

  (** strictly increasing lists with the same members *)
  Lemma pivots_sorted k bs : echelon_from k bs -> forall i j, i < j -> j < length bs ->
    nth i (pivots bs) 0 < nth j (pivots bs) 0.
  Proof.
    induction 1 as [|k p b bs Hp Hk E IH]; intros i j Hij Hj; simpl in Hj; [lia|].
    unfold pivots. simpl. rewrite Hp. simpl. fold (pivots bs).
    destruct j as [|j]; [lia|]. destruct i as [|i].
    - pose proof (pivots_ge _ _ (nth j (pivots bs) 0) E) as G. enough (S p <= nth j (pivots bs) 0) by lia.
      apply G. apply nth_In. rewrite (pivots_length _ _ E). lia.
    - apply IH; lia.
  Qed.

  Lemma pivots_same n bs bs' : forall k, lens n bs -> lens n bs' ->
    echelon_from k bs -> echelon_from k bs' ->
    (forall p, In p (pivots bs) <-> In p (pivots bs')) -> pivots bs = pivots bs'.
  Proof.
    revert bs'. induction bs as [|b bs IH]; intros bs' k L L' E E' H.
    - destruct bs' as [|b' bs']; auto. inversion E' as [|? p ? ? Hp]; subst. exfalso. apply (H p).
      simpl. rewrite Hp. simpl. auto.
    - inversion E as [|? p ? ? Hp Hk E1]; subst.
      destruct bs' as [|b' bs'].
      { exfalso. apply (H p). simpl. rewrite Hp. simpl; auto. }
      inversion E' as [|? p' ? ? Hp' Hk' E1']; subst.
      assert (X : p = p' /\ forall q, In q (pivots bs) <-> In q (pivots bs')).
      { simpl in H. rewrite Hp, Hp' in H. simpl in H.
        assert (G1 : forall q, In q (pivots bs) -> S p <= q) by (intros; eapply pivots_ge; eauto).
        assert (G2 : forall q, In q (pivots bs') -> S p' <= q) by (intros; eapply pivots_ge; eauto).
        assert (p = p').
        { destruct (proj1 (H p) (or_introl eq_refl)) as [->|A]; auto.
          destruct (proj2 (H p') (or_introl eq_refl)) as [<-|B]; auto. apply G2 in A. apply G1 in B. lia. }
        split; auto. subst p'. intros q. split; intros Hq.
        - destruct (proj1 (H q) (or_intror Hq)) as [<-|A]; auto. apply G1 in Hq. lia.
        - destruct (proj2 (H q) (or_intror Hq)) as [<-|A]; auto. apply G2 in Hq. lia. }
      destruct X as [<- X]. simpl. rewrite Hp, Hp'. simpl. f_equal. apply (IH bs' (S p)); auto.
      + inversion L; auto.
      + inversion L'; auto.
  Qed.

  Lemma same_span_pivots n bs bs' : lens n bs -> lens n bs' -> echelon bs -> echelon bs' ->
    same_span n bs bs' -> pivots bs = pivots bs'.
  Proof.
    intros L L' E E' S. apply (pivots_same n bs bs' O); auto.
    assert (A : forall l l' : list vec, lens n l -> lens n l' -> echelon l -> echelon l' -> same_span n l l' ->
      forall p, In p (pivots l) -> In p (pivots l')).
    { clear -DL. intros l l' L L' E E' S p Hp. unfold pivots in Hp. apply in_flat_map in Hp as (b & Hb & Hp).
      destruct (pivot b) as [q|] eqn:Eq; [|destruct Hp]. destruct Hp as [<-|[]].
      eapply (span_pivot n O l' b); eauto. apply S. apply span_In; auto. }
    intros p. split; apply A; auto. intros x. symmetry. apply S.
  Qed.

  Lemma nth_pivots k bs i : echelon_from k bs -> i < length bs -> pivot (nth i bs []) = Some (nth i (pivots bs) 0).
  Proof.
    intros E; revert i; induction E as [|k p b bs Hp Hk E IH]; intros i Hi; simpl in Hi; [lia|].
    simpl. rewrite Hp. simpl. destruct i; auto. apply IH. lia.
  Qed.

  Lemma In_pivots_nth k bs p : echelon_from k bs -> In p (pivots bs) ->
    exists i, i < length bs /\ p = nth i (pivots bs) 0.
  Proof.
    intros E Hp. apply (In_nth _ _ 0) in Hp as (i & Hi & <-). rewrite (pivots_length _ _ E) in Hi. eauto.
  Qed.

  (** [agree d e]: a difference of two reduced entries that is a multiple of
      the pivot is zero *)
  Lemma canonical n bs bs' :
    lens n bs -> lens n bs' -> echelon bs -> echelon bs' -> same_span n bs bs' ->
    (forall i, i < length bs -> i < length bs' ->
       vget (nth i bs []) (nth i (pivots bs) 0) = vget (nth i bs' []) (nth i (pivots bs) 0)) ->
    (forall i j c, i < j -> j < length bs -> j < length bs' ->
       let p := nth j (pivots bs) 0 in
       radd (vget (nth i bs []) p) (rmul (ropp r1) (vget (nth i bs' []) p)) = rmul c (vget (nth j bs []) p) ->
       rmul c (vget (nth j bs []) p) = r0) ->
    bs = bs'.
  Proof.
    intros L L' E E' S Hd Hr.
    pose proof (same_span_pivots n bs bs' L L' E E' S) as HP.
    assert (Hlen : length bs = length bs').
    { rewrite <- (pivots_length _ _ E), <- (pivots_length _ _ E'), HP. auto. }
    apply nth_ext with (d := []) (d' := []); auto. intros i Hi.
    set (x := nth i bs []). set (y := nth i bs' []).
    assert (Lx : length x = n) by (apply (lens_In _ _ _ L); apply nth_In; auto).
    assert (Ly : length y = n) by (apply (lens_In _ _ _ L'); apply nth_In; lia).
    assert (Lz : length (vscale (ropp r1) y) = n) by (rewrite vscale_length; auto).
    assert (Hs : span n bs (vadd x (vscale (ropp r1) y))).
    { apply span_vneg_sub; auto.
      - apply span_In; auto. apply nth_In; auto.
      - apply S. apply span_In; auto. apply nth_In; lia. }
    assert (Hv : forall j, vget (vadd x (vscale (ropp r1) y)) j = radd (vget x j) (rmul (ropp r1) (vget y j))).
    { intros j. rewrite vget_vadd by lia. rewrite vget_vscale. auto. }
    destruct (pivot (vadd x (vscale (ropp r1) y))) as [p|] eqn:Ep.
    - exfalso. pose proof (span_pivot n O bs _ p L E Hs Ep) as Hin.
      apply (In_pivots_nth O bs p E) in Hin as (j & Hj & Ej).
      destruct (span_pivot_row n O bs _ p L E Hs Ep) as (b & c & Hb & Hbp & Hc).
      assert (Hbj : b = nth j bs []).
      { apply (In_nth _ _ []) in Hb as (k & Hk & <-). f_equal.
        rewrite (nth_pivots O bs k E Hk) in Hbp. injection Hbp as Hbp.
        destruct (Nat.lt_trichotomy k j) as [G|[G|G]]; auto.
        - pose proof (pivots_sorted O bs E k j G Hj). lia.
        - pose proof (pivots_sorted O bs E j k G Hk). lia. }
      apply pivot_Some in Ep as (Hpl & Hpn & Hpz).
      assert (Xi := nth_pivots O bs i E Hi). fold x in Xi.
      assert (Yi := nth_pivots O bs' i E' ltac:(lia)). fold y in Yi. rewrite <- HP in Yi.
      apply pivot_Some in Xi as (_ & _ & Xz). apply pivot_Some in Yi as (_ & _ & Yz).
      destruct (Nat.lt_trichotomy j i) as [G|[G|G]].
      + apply Hpn. rewrite Hv. pose proof (pivots_sorted O bs E j i G Hi).
        rewrite Xz, Yz by lia. ring.
      + subst j. apply Hpn. rewrite Hv. unfold x, y. rewrite Ej.
        rewrite Hd by lia. ring.
      + apply Hpn. rewrite Hc, Hbj, Ej. apply (Hr i j c G); auto; [lia|]. cbv zeta. rewrite <- Ej.
        fold x y. rewrite <- Hv, Hc, Hbj. reflexivity.
    - apply pivot_None in Ep. apply vec_ext; [lia|]. intros j Hj.
      assert (Q : vget (vadd x (vscale (ropp r1) y)) j = r0) by (rewrite Ep; apply vget_vzero).
      rewrite Hv in Q. transitivity (radd (radd (vget x j) (rmul (ropp r1) (vget y j))) (vget y j)); [ring|].
      rewrite Q. ring.
  Qed.
End Canon.

Lemma rref_unique n (bs bs' : list (list Qc)) :
  lens n bs -> lens n bs' -> echelon bs -> echelon bs' -> shaped bs -> shaped bs' ->
  same_span n bs bs' -> bs = bs'.
Proof.
  intros L L' E E' S S' Sp.
  pose proof (same_span_pivots n bs bs' L L' E E' Sp) as HP.
  apply (canonical n); auto.
  - intros i Hi Hi'. pose proof (shaped_norm bs i _ S Hi (nth_pivots O bs i E Hi)) as A.
    pose proof (shaped_norm bs' i _ S' Hi' (nth_pivots O bs' i E' Hi')) as B. rewrite <- HP in B.
    simpl in A, B. congruence.
  - intros i j c Hij Hj Hj' p Q.
    pose proof (shaped_red bs i j _ S Hij Hj (nth_pivots O bs j E Hj)) as A.
    pose proof (shaped_red bs' i j _ S' Hij Hj' (nth_pivots O bs' j E' Hj')) as B. rewrite <- HP in B.
    simpl in A, B. fold p in A, B. rewrite <- Q, A, B. simpl. ring.
Qed.

Open Scope Z_scope.

Lemma hermite_unique n (bs bs' : list (list Z)) :
  lens n bs -> lens n bs' -> echelon bs -> echelon bs' -> same_span n bs bs' ->
  (forall l, (l = bs \/ l = bs') -> forall j, (j < length l)%nat ->
     0 < vget (nth j l []) (nth j (pivots l) 0%nat) /\
     forall i, (i < j)%nat -> 0 <= vget (nth i l []) (nth j (pivots l) 0%nat) < vget (nth j l []) (nth j (pivots l) 0%nat)) ->
  bs = bs'.
Proof.
  intros L L' E E' Sp H.
  pose proof (same_span_pivots n bs bs' L L' E E' Sp) as HP.
  assert (Hd : forall i, (i < length bs)%nat -> (i < length bs')%nat ->
       vget (nth i bs []) (nth i (pivots bs) 0%nat) = vget (nth i bs' []) (nth i (pivots bs) 0%nat)).
  { assert (D : forall l l' : list (list Z), lens n l -> lens n l' -> echelon l -> echelon l' -> same_span n l l' ->
      forall i, (i < length l)%nat -> (i < length l')%nat -> exists c,
      vget (nth i l []) (nth i (pivots l) 0%nat) = c * vget (nth i l' []) (nth i (pivots l) 0%nat)).
    { clear. intros l l' L L' E E' Sp i Hi Hi'.
      pose proof (same_span_pivots n l l' L L' E E' Sp) as HP.
      assert (Hs : span n l' (nth i l [])) by (apply Sp; apply span_In; auto; apply nth_In; auto).
      destruct (span_pivot_row n O l' _ _ L' E' Hs (nth_pivots O l i E Hi)) as (b & c & Hb & Hbp & Hc).
      assert (b = nth i l' []) as ->.
      { apply (In_nth _ _ []) in Hb as (k & Hk & <-). f_equal.
        rewrite (nth_pivots O l' k E' Hk), HP in Hbp. injection Hbp as Hbp.
        destruct (Nat.lt_trichotomy k i) as [G|[G|G]]; auto.
        - pose proof (pivots_sorted O l' E' k i G Hi'). lia.
        - pose proof (pivots_sorted O l' E' i k G Hk). lia. }
      eauto. }
    intros i Hi Hi'.
    destruct (D bs bs' L L' E E' Sp i Hi Hi') as [c Hc].
    destruct (D bs' bs L' L E' E ltac:(intros x; symmetry; apply Sp) i Hi' Hi) as [c' Hc'].
    rewrite <- HP in Hc'.
    destruct (H bs ltac:(auto) i Hi) as [P1 _]. destruct (H bs' ltac:(auto) i Hi') as [P2 _]. rewrite <- HP in P2.
    revert Hc Hc' P1 P2. generalize (vget (nth i bs []) (nth i (pivots bs) 0%nat)) (vget (nth i bs' []) (nth i (pivots bs) 0%nat)).
    clear. intros a b H1 H2 Pa Pb. assert (0 < c) by nia. assert (0 < c') by nia.
    assert (a = c * c' * a) by (rewrite H1 at 1; rewrite H2 at 1; ring). assert (c * c' = 1) by nia.
    assert (c = 1) by nia. lia. }
  apply (canonical n); auto.
  intros i j c Hij Hj Hj' p Q.
  destruct (H bs ltac:(auto) j Hj) as [P1 A]. destruct (H bs' ltac:(auto) j Hj') as [P2 B].
  specialize (A i Hij). specialize (B i Hij). rewrite <- HP in B, P2. fold p in A, B, P1, P2.
  specialize (Hd j Hj Hj'). fold p in Hd. cbn [radd rmul ropp r1 r0 Z_dom] in *.
  rewrite <- Hd in B. revert Q A B P1. clear.
  generalize (vget (nth i bs []) p) (vget (nth i bs' []) p) (vget (nth j bs []) p). intros x y d Q A B P.
  assert (-1 < c < 1) by nia. nia.
Qed.
