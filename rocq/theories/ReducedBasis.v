(** reduced_lattice_basis finds successive minima, which form a basis. *)
From Coq Require Import List ZArith Lia Bool PeanoNat QArith Qcanon Qround Sorting.Permutation Sorting.Sorted.
From Verif Require Import Base Vec Elim Scalars ZQ QcTac OrdSet Lattices RatLattice Reduce Voronoi.
From Verif Require RankQ.
Import ListNotations.
Close Scope Q_scope. Close Scope Qc_scope.
Open Scope nat_scope.
Notation rk := RankQ.rk.

Lemma In_firstn {A} k (l : list A) x : In x (firstn k l) -> In x l.
Proof. intros H. rewrite <- (firstn_skipn k l). apply in_app_iff. auto. Qed.

Section D.
  Variables (n : nat) (dot : qvec -> qvec -> Qc).
  Hypothesis dsym : forall x y, length x = n -> length y = n -> dot x y = dot y x.
  Hypothesis dadd : forall x y z, length x = n -> length y = n -> length z = n -> dot (ladd x y) z = (dot x z + dot y z)%Qc.
  Hypothesis dmul : forall x t z, length x = n -> length z = n -> dot (lmulc x t) z = (t * dot x z)%Qc.
  Hypothesis dpos : forall x, length x = n -> x <> repeat 0%Qc n -> (0 < dot x x)%Qc.
  Notation zero := (repeat 0%Qc n).
  Notation norm x := (dot x x).
  Notation nle := (fun v w => (dot v v <= dot w w)%Qc).
  Let dneg := dneg n dot dmul.
  Let dneg_r := dneg_r n dot dsym dmul.
  Let norm_nonneg := norm_nonneg n dot dmul dpos.

  (** the vectors of [a] are shortest outside the span of the earlier ones, among the vectors [M] *)
  Definition minima (M : qvec -> Prop) (a : list qvec) : Prop :=
    forall i b y, nth_error a i = Some b -> M y -> ~ span n (firstn i a) y -> (norm b <= norm y)%Qc.
  Definition from (M : qvec -> Prop) (b : qvec) : Prop := exists w, M w /\ (b = w \/ b = lneg w).

  Record rl_inv (ws P : list qvec) (a : list qvec) : Prop := {
    ri_len : lens n a;
    ri_from : forall b, In b a -> from (fun w => In w P) b;
    ri_rk : rk n a = length a;
    ri_cov : forall p, In p P -> span n a p;
    ri_le : forall b w, In b a -> In w ws -> (norm b <= norm w)%Qc;
    ri_sort : StronglySorted nle a;
    ri_min : minima (fun w => In w (P ++ ws)) a;
    ri_neg : forall b, In b (tl a) -> (dot (hd [] a) b <= 0)%Qc }.

  (** entries that the tolerance leaves alone *)
  Definition inert (eps : Qc) (w : qvec) : Prop := forall x, In x w -> x = 0%Qc \/ (eps <= x)%Qc \/ (eps <= - x)%Qc.
  Lemma inert_0 w : inert 0%Qc w.
  Proof. intros x _. right. destruct (Qclt_le_dec x 0%Qc); [right|left]; qclra. Qed.
  Lemma eps_map eps (w : qvec) : inert eps w -> map (fun x => if q_ltb (if q_neg x then (- x)%Qc else x) eps then 0%Qc else x) w = w.
  Proof.
    intros H. rewrite <- (map_id w) at 2. apply map_ext_in. intros x Hx. destruct (H x Hx) as [->|[G|G]].
    - destruct (q_ltb _ _); reflexivity.
    - destruct (q_neg_spec x) as [K|K]; [destruct (q_ltb_spec (- x)%Qc eps)|destruct (q_ltb_spec x eps)]; auto; exfalso; qclra.
    - destruct (q_neg_spec x) as [K|K]; [destruct (q_ltb_spec (- x)%Qc eps)|destruct (q_ltb_spec x eps)]; auto; try (exfalso; qclra).
      apply Qcnot_lt_le in K. apply (Qcle_antisym 0%Qc x); qclra.
  Qed.

  Lemma sorted_snoc (l : list qvec) x : StronglySorted nle l -> (forall b, In b l -> nle b x) -> StronglySorted nle (l ++ [x]).
  Proof.
    induction 1 as [|y l Sl IH Fl]; intros H; cbn [app]; [repeat constructor|]. constructor; [apply IH; intros; apply H; simpl; auto|].
    apply Forall_app. split; auto. constructor; auto. apply H. simpl. auto.
  Qed.

  Lemma rl_loop_ok eps ws : (forall w, In w ws -> inert eps w) -> forall P a, lens n P -> lens n ws -> StronglySorted nle ws -> length a < n -> rk n (P ++ ws) = n -> rl_inv ws P a ->
    exists a', rl_loop dot eps n a ws = Ret (Some a') /\ length a' = n /\ exists P' ws', P ++ ws = P' ++ ws' /\ rl_inv ws' P' a'.
  Proof.
    induction ws as [|w ws IH0]; intros Hi0 P a LP Lws So Ha Rk I.
    - exfalso. rewrite app_nil_r in Rk. assert (H : rk n P <= rk n a) by (apply (@RankQ.rk_mono); auto; [apply I|intros p Hp; apply (ri_cov _ _ _ I); auto]).
      rewrite (ri_rk _ _ _ I) in H. lia.
    - pose proof (IH0 (fun x Hx => Hi0 x (or_intror Hx))) as IH. cbn [rl_loop]. rewrite (eps_map eps w (Hi0 w (or_introl eq_refl))). apply Forall_inv in Lws as Lw. apply Forall_inv_tail in Lws. apply StronglySorted_inv in So as [So Fw].
      set (w' := match a with [] => w | a0 :: _ => if q_pos (dot a0 w) then lneg w else w end).
      assert (Hw' : w' = w \/ w' = lneg w) by (unfold w'; destruct a as [|a0 a]; auto; destruct (q_pos (dot a0 w)); auto).
      assert (Lw' : length w' = n) by (destruct Hw' as [->| ->]; vlen).
      assert (Nw' : norm w' = norm w) by (destruct Hw' as [->| ->]; auto; rewrite dneg, dneg_r by vlen; ring).
      destruct I as [I1 I2 I3 I4 I5 I6 I7 I8].
      assert (La' : lens n (a ++ [w'])) by (apply Forall_app; auto).
      assert (LP' : lens n (P ++ [w])) by (apply Forall_app; auto).
      assert (EP : P ++ w :: ws = (P ++ [w]) ++ ws) by (rewrite <- app_assoc; reflexivity).
      destruct (@RankQ.rk_extend n (a ++ [w']) La') as (bs & Eb & Lbs). unfold lrank. rewrite Eb. cbn [omap bind]. rewrite Lbs.
      assert (Sww : forall vs, lens n vs -> span n vs w' <-> span n vs w).
      { intros vs Lvs. assert (N : forall x, span n vs x -> span n vs (lneg x)).
        { intros x Hx. assert (Lx := span_length (R := Qc) n vs x Lvs Hx). assert (E : lneg x = lmulc x (- (1))%Qc) by (vring n). rewrite E. apply span_scale'. auto. }
        destruct Hw' as [->| ->]; [tauto|]. split; auto. intros H. apply N in H. assert (E : lneg (lneg w) = w) by (vring n). rewrite E in H. auto. }
      destruct (Nat.ltb_spec (rk n (a ++ [w'])) (length (a ++ [w']))) as [Lt|Ge].
      + assert (Sw : span n a w).
        { apply Sww; auto. apply (@RankQ.rk_snoc); auto. rewrite app_length in Lt. cbn in Lt.
          assert (rk n a <= rk n (a ++ [w'])) by (apply (@RankQ.rk_mono); auto; intros v Hv; apply (span_In (R := Qc)); auto; apply in_app_iff; auto). change (rk n (a ++ [w']) = rk n a). lia. }
        rewrite EP in Rk |- *. apply IH; auto. constructor; auto.
        * intros b Hb. destruct (I2 b Hb) as (x & Hx & E). exists x. split; auto. apply in_app_iff. auto.
        * intros p Hp. apply in_app_iff in Hp as [Hp|[<-|[]]]; auto.
        * intros b y Hb Hy. apply I5; auto. right. auto.
        * intros i b y Hi Hy. apply (I7 i b y Hi). rewrite EP. auto.
      + assert (Rk' : rk n (a ++ [w']) = length (a ++ [w'])) by (pose proof (@RankQ.rk_length n (a ++ [w'])); lia).
        assert (I' : rl_inv ws (P ++ [w]) (a ++ [w'])).
        { constructor; auto.
          - intros b Hb. apply in_app_iff in Hb as [Hb|[<-|[]]].
            + destruct (I2 b Hb) as (x & Hx & E). exists x. split; auto. apply in_app_iff. auto.
            + exists w. split; auto. apply in_app_iff. simpl. auto.
          - intros p Hp. apply in_app_iff in Hp as [Hp|[<-|[]]].
            + apply (span_incl (R := Qc) n a); auto. intros v Hv. apply in_app_iff; auto.
            + apply Sww; auto. apply (span_In (R := Qc)); auto. apply in_app_iff; simpl; auto.
          - intros b y Hb Hy. apply in_app_iff in Hb as [Hb|[<-|[]]].
            + apply I5; auto. right. auto.
            + rewrite Nw'. rewrite Forall_forall in Fw. apply Fw. auto.
          - apply sorted_snoc; auto. intros b Hb. rewrite Nw'. apply I5; auto. left. auto.
          - intros i b y Hi Hy N. rewrite <- EP in Hy.
            destruct (Nat.lt_ge_cases i (length a)) as [Hl|Hl].
            + rewrite nth_error_app1 in Hi by auto. apply (I7 i b y Hi); auto. rewrite firstn_app in N. replace (i - length a) with 0 in N by lia.
              cbn [firstn] in N. rewrite app_nil_r in N. auto.
            + assert (i = length a) as ->. { assert (i < length (a ++ [w'])) by (apply nth_error_Some; congruence). rewrite app_length in H. cbn in H. lia. }
              rewrite nth_error_app2, Nat.sub_diag in Hi by auto. cbn in Hi. injection Hi as <-.
              rewrite firstn_app, Nat.sub_diag, firstn_all in N. cbn [firstn] in N. rewrite app_nil_r in N. rewrite Nw'.
              apply in_app_iff in Hy as [Hy|[<-|Hy]].
              * exfalso. apply N. apply I4. auto.
              * apply Qcle_refl.
              * rewrite Forall_forall in Fw. apply Fw. auto.
          - intros b Hb. destruct a as [|a0 a]; [destruct Hb|]. cbn [app tl hd] in Hb |- *. apply in_app_iff in Hb as [Hb|[<-|[]]]; [apply I8; auto|].
            unfold w'. apply Forall_inv in I1. destruct (q_pos_spec (dot a0 w)) as [Hp|Hp]; [rewrite dneg_r by auto; qclra|apply Qcnot_lt_le; auto]. }
        destruct (Nat.leb_spec n (length (a ++ [w']))) as [Hn|Hn].
        * exists (a ++ [w']). splits; auto.
          -- rewrite app_length in Hn |- *. cbn in Hn |- *. lia.
          -- exists (P ++ [w]), ws. auto.
        * rewrite EP in Rk |- *. apply IH; auto.
  Qed.

  (** successive minima of a lattice of dimension at most 3 form a basis *)
  Lemma norms_bound (a : list qvec) b : (forall x, In x a -> (norm x <= norm b)%Qc) -> (norms dot a <= ZQ (Z.of_nat (length a)) * norm b)%Qc.
  Proof.
    induction a as [|x a IH]; intros H; cbn [norms fold_right length]; [change (ZQ (Z.of_nat 0)) with 0%Qc; qclra|].
    rewrite Nat2Z.inj_succ, <- Z.add_1_r, ZQ_add. change (ZQ 1) with 1%Qc. pose proof (IH (fun y Hy => H y (or_intror Hy))) as G. pose proof (H x (or_introl eq_refl)) as Hx. unfold norms in G. qclra.
  Qed.

  Lemma minima_basis (L : list qvec) (a : list qvec) : lens n L -> lens n a -> length a <= 3 -> rk n a = length a ->
    StronglySorted nle a -> (forall b, In b a -> zcomb n L b) -> minima (zcomb n L) a ->
    forall k y, zcomb n L y -> span n (firstn k a) y -> zcomb n a y.
  Proof.
    intros LL La H3 Rk So Hb Hm. assert (Nz := independent_nz n a La Rk).
    induction k as [|k IH]; intros y Zy Sy.
    - cbn [firstn] in Sy. apply (span_nil (R := Qc)) in Sy. rewrite Sy, vzero_rep. apply zcomb_0. auto.
    - destruct (nth_error a k) as [b|] eqn:Eb.
      2: { apply IH; auto. apply nth_error_None in Eb. rewrite firstn_all2 in Sy |- * by lia. auto. }
      assert (Ef : firstn (S k) a = firstn k a ++ [b]).
      { clear -Eb. revert k Eb. induction a as [|x a IH]; intros [|k] E; cbn in E |- *; try discriminate; [injection E as ->; auto|]. f_equal. apply IH. auto. }
      assert (Hin : In b a) by (eapply nth_error_In; eauto). assert (Lb : length b = n) by (eapply lens_In; eauto).
      assert (Lf : lens n (firstn (S k) a)) by (apply Forall_forall; intros x Hx; apply (lens_In n a); auto; eapply In_firstn; eauto).
      destruct (nearest_plane n dot dsym dadd dmul dpos (firstn (S k) a) Lf y Sy) as (z & Zz & Hz).
      assert (Za : zcomb n a z) by (revert Zz; apply zcomb_trans; auto; intros v Hv; apply zcomb_In; auto; eapply In_firstn; eauto).
      assert (ZL : zcomb n L z) by (revert Za; apply zcomb_trans; auto).
      pose proof (zcomb_length n _ _ LL Zy) as Ly. pose proof (zcomb_length n _ _ LL ZL) as Lz.
      assert (Ey : y = ladd (lsub y z) z) by (vring n).
      assert (Zd : zcomb n L (lsub y z)) by (apply zcomb_sub; auto).
      assert (Ga : zcomb n a (lsub y z)); [|rewrite Ey; apply zcomb_add; auto].
      apply IH; auto. assert (Lk : lens n (firstn k a)) by (apply Forall_forall; intros x Hx; apply (lens_In n a); auto; eapply In_firstn; eauto).
      destruct (span_dec n (firstn k a) (lsub y z) Lk ltac:(vlen)) as [|N]; auto. exfalso.
      pose proof (Hm k b _ Eb Zd N) as Hle.
      assert (B : (norms dot (firstn (S k) a) <= ZQ (Z.of_nat (length (firstn (S k) a))) * norm b)%Qc).
      { apply norms_bound. intros x Hx. rewrite Ef in Hx. apply in_app_iff in Hx as [Hx|[<-|[]]]; [|apply Qcle_refl].
        clear -Hx So Eb. revert k Eb Hx. induction So as [|y l Sl IH Fl]; intros [|k] E Hx; cbn in E, Hx; try discriminate; [destruct Hx|].
        destruct Hx as [<-|Hx]; [rewrite Forall_forall in Fl; apply Fl; eapply nth_error_In; eauto|eapply IH; eauto]. }
      pose proof (dpos b Lb (Nz b Hin)) as Pb.
      assert (Lc : (ZQ (Z.of_nat (length (firstn (S k) a))) <= 1 + 1 + 1)%Qc).
      { change (1 + 1 + 1)%Qc with (ZQ 3). apply ZQ_le. rewrite firstn_length. lia. }
      generalize dependent (ZQ (Z.of_nat (length (firstn (S k) a)))). generalize dependent (norms dot (firstn (S k) a)). generalize dependent (norm (lsub y z)). generalize dependent (norm b).
      clear. intros nb Pb nd Hle ns Hz c B Hc. assert (X : (0 <= nb * (1 + 1 + 1 - c))%Qc) by (apply Qcmult_le_0_compat'; qclra). qclra.
  Qed.

  Theorem reduced_ok basis : lens n basis -> length basis = n -> 1 <= n <= 3 -> rk n basis = n ->
    exists k0 a, (forall k, k0 <= k -> reduced_lattice_basis dot 0%Qc k basis = Ret (Some a)) /\
      length a = n /\ same_lattice n basis a /\ StronglySorted nle a /\ minima (zcomb n basis) a /\ (forall b, In b (tl a) -> (dot (hd [] a) b <= 0)%Qc).
  Proof.
    intros L Ln H3 R. destruct (dirichlet_ok n dot dsym dadd dmul dpos basis L Ln ltac:(lia) R) as (k0 & ws & v0 & v1 & v2 & v3 & Ed & Sb & Ob & C1 & C2).
    pose proof Sb as [L0 L1 L2 L3 Su SL]. assert (L4 : lens n [v0; v1; v2; v3]) by (repeat constructor; auto).
    assert (Lws : lens n ws) by (apply Forall_forall; intros w Hw; apply (zcomb_length n [v0; v1; v2; v3]); auto).
    assert (Rws : rk n ws = n).
    { apply Nat.le_antisymm; [apply (@RankQ.rk_dim)|]. rewrite <- R at 1. rewrite (same_lattice_rk n _ _ SL). apply (@RankQ.rk_mono); auto.
      intros v Hv. assert (Bc : exists b0 b1 b2 b3, bit b0 /\ bit b1 /\ bit b2 /\ bit b3 /\ v = comb v0 v1 v2 v3 b0 b1 b2 b3).
      { assert (Z0 : bit 0) by (left; auto). assert (Z1 : bit 1) by (right; auto).
        destruct Hv as [<-|[<-|[<-|[<-|[]]]]]; [exists 1%Z, 0%Z, 0%Z, 0%Z|exists 0%Z, 1%Z, 0%Z, 0%Z|exists 0%Z, 0%Z, 1%Z, 0%Z|exists 0%Z, 0%Z, 0%Z, 1%Z]; splits; auto;
          unfold comb; change (ZQ 0) with 0%Qc; change (ZQ 1) with 1%Qc; vring n. }
      destruct Bc as (b0 & b1 & b2 & b3 & B0 & B1 & B2 & B3 & E). pose proof (C2 _ _ _ _ B0 B1 B2 B3) as H. rewrite <- E in H. destruct H as [->|[H|H]].
      - apply span_zero'; auto.
      - apply (span_In (R := Qc)); auto.
      - assert (Lv : length v = n) by exact (lens_In _ _ _ L4 Hv). assert (Ev : v = lmulc (lneg v) (- (1))%Qc) by (vring n). rewrite Ev. apply span_scale'. apply (span_In (R := Qc)); auto. }
    set (so := sort_by (rl_cmp dot) ws). pose proof (sort_by_perm (rl_cmp dot) ws) as Pm. fold so in Pm.
    assert (Lso : lens n so) by (unfold lens; rewrite <- Pm; auto).
    assert (Rso : rk n so = n).
    { rewrite <- Rws at 2. apply (@RankQ.rk_same); auto. split; apply (span_incl (R := Qc)); auto; intros y Hy; [rewrite Pm|rewrite <- Pm]; auto. }
    destruct (rl_loop_ok 0%Qc so (fun w _ => inert_0 w) [] []) as (a & Ea & La & P' & ws' & EP & I).
    - constructor.
    - exact Lso.
    - apply sort_by_sorted.
    - cbn. lia.
    - exact Rso.
    - constructor; try (intros; contradiction); [constructor|apply (Nat.le_antisymm); [apply (@RankQ.rk_length)|cbn; lia]|constructor|].
      intros [|i] b y Hi; discriminate.
    - destruct I as [I1 I2 I3 I4 I5 I6 I7 I8]. cbn [app] in EP. rewrite <- EP in I7.
      assert (Hin : forall b, In b a -> zcomb n [v0; v1; v2; v3] b).
      { intros b Hb. destruct (I2 b Hb) as (w & Hw & E). assert (Zw : zcomb n [v0; v1; v2; v3] w) by (apply C1; rewrite Pm, EP; apply in_app_iff; auto).
        destruct E as [->| ->]; auto. apply zcomb_neg; auto. }
      assert (Hm : minima (zcomb n [v0; v1; v2; v3]) a).
      { intros i b y Hi Zy N. assert (Lf : lens n (firstn i a)) by (apply Forall_forall; intros x Hx; apply (lens_In n a); auto; eapply In_firstn; eauto).
        destruct (outside n dot dsym dadd dmul dpos v0 v1 v2 v3 L0 L1 L2 L3 Su Ob (firstn i a) y Lf Zy N) as (b0 & b1 & b2 & b3 & B0 & B1 & B2 & B3 & Nc & Hc).
        eapply Qcle_trans; [|exact Hc]. pose proof (comb_length n v0 v1 v2 v3 L0 L1 L2 L3 b0 b1 b2 b3) as Lc. destruct (C2 _ _ _ _ B0 B1 B2 B3) as [E|[E|E]].
        - exfalso. apply Nc. rewrite E. apply span_zero'; auto.
        - apply (I7 i b); auto. rewrite <- Pm. auto.
        - set (c := comb v0 v1 v2 v3 b0 b1 b2 b3) in *. clearbody c. assert (En : norm c = norm (lneg c)) by (rewrite dneg, dneg_r by vlen; ring). rewrite En.
          apply (I7 i b); auto; [rewrite <- Pm; auto|]. intros S. apply Nc. assert (Ec : c = lmulc (lneg c) (- (1))%Qc) by (vring n). rewrite Ec. apply span_scale'. auto. }
      exists k0, a. splits; auto.
      + intros k Hk. unfold reduced_lattice_basis. destruct basis as [|b0 basis]; [cbn in Ln; lia|]. cbn [nth_error unwrap bind]. rewrite (Forall_inv L), Ed by auto. cbn [bind]. exact Ea.
      + eapply same_lattice_trans; [exact SL|]. unfold same_lattice. splits; auto. intros v Hv.
        apply (minima_basis [v0; v1; v2; v3] a L4 I1 ltac:(lia) I3 I6 Hin Hm n); [apply zcomb_In; auto|]. rewrite firstn_all2 by lia.
        apply (@RankQ.rk_full); auto; [lia|exact (lens_In _ _ _ L4 Hv)].
      + intros i b y Hi Zy. apply Hm; auto. apply (same_lattice_iff n _ _ SL). auto.
  Qed.
End D.
