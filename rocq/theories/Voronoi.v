(** Lattice reduction: the Dirichlet domain and reduced bases. *)
From Coq Require Import List ZArith Lia Bool PeanoNat QArith Qcanon Qround Sorting.Permutation Sorting.Sorted.
From Verif Require Import Base Vec Elim Scalars ZQ QcTac OrdSet Lattices RatLattice Reduce.
From Verif Require RankQ.
Import ListNotations.
Close Scope Q_scope. Close Scope Qc_scope.
Open Scope nat_scope.
Notation rk := RankQ.rk.
Notation lget := (fun (v : qvec) k => nth k v 0%Qc).

Lemma span_dec n vs x : lens n vs -> length x = n -> {span n vs x} + {~ span n vs x}.
Proof.
  intros L Lx. destruct (Nat.eq_dec (rk n (vs ++ [x])) (rk n vs)) as [E|E]; [left; apply (@RankQ.rk_snoc); auto|right].
  intros H. apply E. assert (L' : lens n (vs ++ [x])) by (apply Forall_app; split; auto).
  apply (@RankQ.rk_same); auto. split; apply (span_trans (R := Qc)); auto.
  - intros v Hv. apply in_app_iff in Hv as [Hv|[<-|[]]]; auto. apply (span_In (R := Qc)); auto.
  - intros v Hv. apply (span_In (R := Qc)); auto. apply in_app_iff. auto.
Qed.

Lemma plane_arith (s NC NP NQ NS : Qc) : (- (1) <= s + s)%Qc -> (s + s <= 1)%Qc -> (0 <= NC)%Qc -> (0 <= NP)%Qc -> ((1 + 1 + 1 + 1) * NQ <= NS)%Qc ->
  ((1 + 1 + 1 + 1) * (s * (s * NC + 0) + (s * 0 + NQ)) <= NS + (NC + NP))%Qc.
Proof.
  intros R1 R2 PC PP Hq.
  assert (X : (0 <= NC * ((1 - (s + s)) * (1 + (s + s))))%Qc) by (apply Qcmult_le_0_compat'; [auto|apply Qcmult_le_0_compat'; qclra]).
  qclra.
Qed.

Section D.
  Variables (n : nat) (dot : qvec -> qvec -> Qc).
  Hypothesis dsym : forall x y, length x = n -> length y = n -> dot x y = dot y x.
  Hypothesis dadd : forall x y z, length x = n -> length y = n -> length z = n -> dot (ladd x y) z = (dot x z + dot y z)%Qc.
  Hypothesis dmul : forall x t z, length x = n -> length z = n -> dot (lmulc x t) z = (t * dot x z)%Qc.
  Hypothesis dpos : forall x, length x = n -> x <> repeat 0%Qc n -> (0 < dot x x)%Qc.
  Notation zero := (repeat 0%Qc n).
  Notation norm x := (dot x x).
  Let dneg := dneg n dot dmul.
  Let dsub := dsub n dot dadd dmul.
  Let dzero := dzero n dot dmul.
  Let dadd_r := dadd_r n dot dsym dadd.
  Let dmul_r := dmul_r n dot dsym dmul.
  Let dneg_r := dneg_r n dot dsym dmul.
  Let dsub_r := dsub_r n dot dsym dadd dmul.
  Let dzero_r := dzero_r n dot dsym dmul.
  Let norm_nonneg := norm_nonneg n dot dmul dpos.
  Ltac dexp := repeat first [rewrite dadd by vlen | rewrite dsub by vlen | rewrite dmul by vlen | rewrite dneg by vlen | rewrite dzero by vlen
    | rewrite dadd_r by vlen | rewrite dsub_r by vlen | rewrite dmul_r by vlen | rewrite dneg_r by vlen | rewrite dzero_r by vlen].

  (** ** layers of an obtuse superbase *)
  Section Layers.
    Variables (v0 v1 v2 v3 : qvec).
    Hypothesis L0 : length v0 = n.
    Hypothesis L1 : length v1 = n.
    Hypothesis L2 : length v2 = n.
    Hypothesis L3 : length v3 = n.
    Hypothesis Su : ladd (ladd (ladd v0 v1) v2) v3 = zero.
    Hypothesis Ob : (dot v0 v1 <= 0 /\ dot v0 v2 <= 0 /\ dot v0 v3 <= 0 /\ dot v1 v2 <= 0 /\ dot v1 v3 <= 0 /\ dot v2 v3 <= 0)%Qc.

    Definition comb (z0 z1 z2 z3 : Z) : qvec := ladd (ladd (ladd (lmulc v0 (ZQ z0)) (lmulc v1 (ZQ z1))) (lmulc v2 (ZQ z2))) (lmulc v3 (ZQ z3)).
    Lemma comb_length z0 z1 z2 z3 : length (comb z0 z1 z2 z3) = n.
    Proof. unfold comb. vlen. Qed.
    Definition bit (b : Z) : Prop := b = 0%Z \/ b = 1%Z.

    Lemma comb_nonneg b0 b1 b2 b3 m0 m1 m2 m3 : bit b0 -> bit b1 -> bit b2 -> bit b3 -> (0 <= m0)%Z -> (0 <= m1)%Z -> (0 <= m2)%Z -> (0 <= m3)%Z ->
      (b0 = 0%Z -> m0 = 0%Z) -> (b1 = 0%Z -> m1 = 0%Z) -> (b2 = 0%Z -> m2 = 0%Z) -> (b3 = 0%Z -> m3 = 0%Z) ->
      (0 <= dot (comb b0 b1 b2 b3) (comb m0 m1 m2 m3))%Qc.
    Proof.
      intros B0 B1 B2 B3 M0 M1 M2 M3 N0 N1 N2 N3.
      pose proof (sum_dot n dot dadd dmul v0 v1 v2 v3 v0 L0 L1 L2 L3 Su L0) as S0. pose proof (sum_dot n dot dadd dmul v0 v1 v2 v3 v1 L0 L1 L2 L3 Su L1) as S1.
      pose proof (sum_dot n dot dadd dmul v0 v1 v2 v3 v2 L0 L1 L2 L3 Su L2) as S2. pose proof (sum_dot n dot dadd dmul v0 v1 v2 v3 v3 L0 L1 L2 L3 Su L3) as S3.
      rewrite (dsym v1 v0), (dsym v2 v0), (dsym v3 v0) in S0 by auto. rewrite (dsym v2 v1), (dsym v3 v1) in S1 by auto. rewrite (dsym v3 v2) in S2 by auto.
      destruct Ob as (O01 & O02 & O03 & O12 & O13 & O23).
      assert (E : dot (comb b0 b1 b2 b3) (comb m0 m1 m2 m3) =
        (ZQ m0 * (ZQ b0 * dot v0 v0 + ZQ b1 * dot v0 v1 + ZQ b2 * dot v0 v2 + ZQ b3 * dot v0 v3)
        + ZQ m1 * (ZQ b0 * dot v0 v1 + ZQ b1 * dot v1 v1 + ZQ b2 * dot v1 v2 + ZQ b3 * dot v1 v3)
        + ZQ m2 * (ZQ b0 * dot v0 v2 + ZQ b1 * dot v1 v2 + ZQ b2 * dot v2 v2 + ZQ b3 * dot v2 v3)
        + ZQ m3 * (ZQ b0 * dot v0 v3 + ZQ b1 * dot v1 v3 + ZQ b2 * dot v2 v3 + ZQ b3 * dot v3 v3))%Qc).
      { unfold comb. dexp. rewrite (dsym v1 v0), (dsym v2 v0), (dsym v3 v0), (dsym v2 v1), (dsym v3 v1), (dsym v3 v2) by auto. ring. }
      rewrite E. clear E.
      assert (T : forall m b x, (0 <= m)%Z -> (b = 0%Z -> m = 0%Z) -> bit b -> (b = 1%Z -> (0 <= x)%Qc) -> (0 <= ZQ m * x)%Qc).
      { intros m b x Hm H0 [Hb|Hb] H1.
        - rewrite H0 by auto. change (ZQ 0) with 0%Qc. replace (0 * x)%Qc with 0%Qc by ring. apply Qcle_refl.
        - apply Qcmult_le_0_compat'; auto. change 0%Qc with (ZQ 0). apply ZQ_le. auto. }
      assert (A : forall a b c e : Qc, (0 <= a)%Qc -> (0 <= b)%Qc -> (0 <= c)%Qc -> (0 <= e)%Qc -> (0 <= a + b + c + e)%Qc) by (intros; qclra).
      apply A; [apply (T m0 b0)|apply (T m1 b1)|apply (T m2 b2)|apply (T m3 b3)]; auto; intros Hb; rewrite Hb;
        change (ZQ 1) with 1%Qc.
      1: destruct B1 as [->| ->], B2 as [->| ->], B3 as [->| ->]; change (ZQ 1) with 1%Qc; change (ZQ 0) with 0%Qc; qclra.
      1: destruct B0 as [->| ->], B2 as [->| ->], B3 as [->| ->]; change (ZQ 1) with 1%Qc; change (ZQ 0) with 0%Qc; qclra.
      1: destruct B0 as [->| ->], B1 as [->| ->], B3 as [->| ->]; change (ZQ 1) with 1%Qc; change (ZQ 0) with 0%Qc; qclra.
      1: destruct B0 as [->| ->], B1 as [->| ->], B2 as [->| ->]; change (ZQ 1) with 1%Qc; change (ZQ 0) with 0%Qc; qclra.
    Qed.

    Lemma comb_shift z0 z1 z2 z3 t : comb (z0 + t) (z1 + t) (z2 + t) (z3 + t) = comb z0 z1 z2 z3.
    Proof.
      apply (lvec_ext n); [apply comb_length|apply comb_length|]. intros k. pose proof (sum_get n v0 v1 v2 v3 k L0 L1 L2 L3 Su) as Sk. unfold comb.
      repeat first [rewrite lget_mulc | rewrite (lget_add n) by vlen]. rewrite !ZQ_add.
      transitivity (lget v0 k * ZQ z0 + lget v1 k * ZQ z1 + lget v2 k * ZQ z2 + lget v3 k * ZQ z3 + ZQ t * (lget v0 k + lget v1 k + lget v2 k + lget v3 k))%Qc; [ring|].
      rewrite Sk. ring.
    Qed.
    Lemma comb_add z0 z1 z2 z3 y0 y1 y2 y3 : comb (z0 + y0) (z1 + y1) (z2 + y2) (z3 + y3) = ladd (comb z0 z1 z2 z3) (comb y0 y1 y2 y3).
    Proof.
      apply (lvec_ext n); [apply comb_length|apply ladd_length; apply comb_length|]. intros k. rewrite (lget_add n) by apply comb_length. unfold comb.
      repeat first [rewrite lget_mulc | rewrite (lget_add n) by vlen]. rewrite !ZQ_add. ring.
    Qed.
    Lemma comb_0 : comb 0 0 0 0 = zero.
    Proof. unfold comb. change (ZQ 0) with 0%Qc. vring n. Qed.

    (** every lattice vector is built from sums of subsets of the superbase, each added at an angle of at most 90 degrees *)
    Lemma layers (P : qvec -> Prop) : P zero ->
      (forall b0 b1 b2 b3 y, bit b0 -> bit b1 -> bit b2 -> bit b3 -> length y = n -> (0 <= dot (comb b0 b1 b2 b3) y)%Qc -> P y -> P (ladd (comb b0 b1 b2 b3) y)) ->
      forall z0 z1 z2 z3, P (comb z0 z1 z2 z3).
    Proof.
      intros P0 PS.
      assert (G : forall k z0 z1 z2 z3, (0 <= z0)%Z -> (0 <= z1)%Z -> (0 <= z2)%Z -> (0 <= z3)%Z -> (z0 + z1 + z2 + z3 <= Z.of_nat k)%Z -> P (comb z0 z1 z2 z3)).
      { induction k as [|k IH]; intros z0 z1 z2 z3 H0 H1 H2 H3 Hs.
        - assert (z0 = 0 /\ z1 = 0 /\ z2 = 0 /\ z3 = 0)%Z as (-> & -> & -> & ->) by lia. rewrite comb_0. auto.
        - set (b := fun z => (if z =? 0 then 0 else 1)%Z).
          assert (Bb : forall z, bit (b z)) by (intros z; unfold b, bit; destruct (z =? 0)%Z; auto).
          assert (Bz : forall z, (0 <= z)%Z -> (0 <= z - b z)%Z /\ (b z = 0%Z -> (z - b z = 0)%Z) /\ (z - b z <= z)%Z /\ (z <> 0%Z -> (z - b z < z)%Z)).
          { intros z Hz. unfold b. destruct (Z.eqb_spec z 0); lia. }
          destruct (Bz z0 H0) as (a0 & c0 & d0 & e0), (Bz z1 H1) as (a1 & c1 & d1 & e1), (Bz z2 H2) as (a2 & c2 & d2 & e2), (Bz z3 H3) as (a3 & c3 & d3 & e3).
          destruct (Z.eq_dec (z0 + z1 + z2 + z3) 0) as [Z|Z]; [apply IH; lia|].
          replace (comb z0 z1 z2 z3) with (ladd (comb (b z0) (b z1) (b z2) (b z3)) (comb (z0 - b z0) (z1 - b z1) (z2 - b z2) (z3 - b z3))).
          2: { rewrite <- comb_add. f_equal; lia. }
          apply PS; auto.
          + apply comb_length.
          + apply comb_nonneg; auto.
          + apply IH; auto. lia. }
      intros z0 z1 z2 z3. set (t := (Z.abs z0 + Z.abs z1 + Z.abs z2 + Z.abs z3)%Z). rewrite <- (comb_shift z0 z1 z2 z3 t).
      apply (G (Z.to_nat (z0 + t + (z1 + t) + (z2 + t) + (z3 + t)))); unfold t; lia.
    Qed.

    Lemma zcomb_comb y : zcomb n [v0; v1; v2; v3] y <-> exists z0 z1 z2 z3, y = comb z0 z1 z2 z3.
    Proof.
      assert (L : lens n [v0; v1; v2; v3]) by (repeat constructor; auto). split.
      - intros (cs & Lc & ->). destruct cs as [|z0 [|z1 [|z2 [|z3 [|]]]]]; try discriminate. exists z0, z1, z2, z3. cbn [map lincomb].
        rewrite !vadd_ladd, !vscale_lmulc, vzero_rep. unfold comb. vring n.
      - intros (z0 & z1 & z2 & z3 & ->). unfold comb. repeat apply zcomb_add; auto; apply zcomb_scale; auto; apply zcomb_In; simpl; auto.
    Qed.

    (** the Dirichlet domain is given by the sums of subsets *)
    Lemma voronoi x : length x = n -> (forall b0 b1 b2 b3, bit b0 -> bit b1 -> bit b2 -> bit b3 -> (dot x (comb b0 b1 b2 b3) + dot x (comb b0 b1 b2 b3) <= norm (comb b0 b1 b2 b3))%Qc) ->
      forall y, zcomb n [v0; v1; v2; v3] y -> (dot x y + dot x y <= norm y)%Qc.
    Proof.
      intros Lx H y Hy. apply zcomb_comb in Hy as (z0 & z1 & z2 & z3 & ->).
      apply (layers (fun y => (dot x y + dot x y <= norm y)%Qc)).
      - dexp. qclra.
      - intros b0 b1 b2 b3 y B0 B1 B2 B3 Ly Hd IH. pose proof (H _ _ _ _ B0 B1 B2 B3) as Hb. pose proof (comb_length b0 b1 b2 b3) as Lc.
        set (c := comb b0 b1 b2 b3) in *. clearbody c. dexp. rewrite (dsym y c) by auto. qclra.
    Qed.

    (** a lattice vector outside a subspace is at least as long as the sum of some subset that is outside as well *)
    Lemma outside (vs : list qvec) y : lens n vs -> zcomb n [v0; v1; v2; v3] y -> ~ span n vs y ->
      exists b0 b1 b2 b3, bit b0 /\ bit b1 /\ bit b2 /\ bit b3 /\ ~ span n vs (comb b0 b1 b2 b3) /\ (norm (comb b0 b1 b2 b3) <= norm y)%Qc.
    Proof.
      intros Lv Hy. apply zcomb_comb in Hy as (z0 & z1 & z2 & z3 & ->).
      apply (layers (fun y => ~ span n vs y -> exists b0 b1 b2 b3, bit b0 /\ bit b1 /\ bit b2 /\ bit b3 /\ ~ span n vs (comb b0 b1 b2 b3) /\ (norm (comb b0 b1 b2 b3) <= norm y)%Qc)).
      - intros N. exfalso. apply N. rewrite <- vzero_rep. apply span_zero. auto.
      - intros b0 b1 b2 b3 y B0 B1 B2 B3 Ly Hd IH N. pose proof (comb_length b0 b1 b2 b3) as Lc.
        assert (Ny : (norm (ladd (comb b0 b1 b2 b3) y) = norm (comb b0 b1 b2 b3) + norm y + (dot (comb b0 b1 b2 b3) y + dot (comb b0 b1 b2 b3) y))%Qc).
        { set (c := comb b0 b1 b2 b3) in *. clearbody c. dexp. rewrite (dsym y c) by auto. ring. }
        pose proof (norm_nonneg _ Lc) as Pc. pose proof (norm_nonneg _ Ly) as Py.
        destruct (span_dec n vs (comb b0 b1 b2 b3) Lv Lc) as [D|D].
        + destruct IH as (c0 & c1 & c2 & c3 & C0 & C1 & C2 & C3 & HN & Hle).
          * intros Sy. apply N. rewrite <- vadd_ladd. apply (span_add (R := Qc)); auto.
          * exists c0, c1, c2, c3. splits; auto. rewrite Ny. qclra.
        + exists b0, b1, b2, b3. splits; auto. rewrite Ny. qclra.
    Qed.
  End Layers.

  (** ** the vectors of the Dirichlet domain *)
  Definition obtuse v0 v1 v2 v3 : Prop := (dot v0 v1 <= 0 /\ dot v0 v2 <= 0 /\ dot v0 v3 <= 0 /\ dot v1 v2 <= 0 /\ dot v1 v3 <= 0 /\ dot v2 v3 <= 0)%Qc.
  Definition complete (ws : list qvec) v0 v1 v2 v3 : Prop :=
    (forall w, In w ws -> zcomb n [v0; v1; v2; v3] w) /\
    forall b0 b1 b2 b3, bit b0 -> bit b1 -> bit b2 -> bit b3 ->
      comb v0 v1 v2 v3 b0 b1 b2 b3 = zero \/ In (comb v0 v1 v2 v3 b0 b1 b2 b3) ws \/ In (lneg (comb v0 v1 v2 v3 b0 b1 b2 b3)) ws.

  Lemma same_lattice_app a b : lens n a -> lens n b -> (forall v, In v b -> zcomb n a v) -> same_lattice n a (a ++ b).
  Proof.
    intros La Lb H. assert (L : lens n (a ++ b)) by (apply Forall_app; auto). unfold same_lattice. splits; auto.
    - intros v Hv. apply zcomb_In; auto. apply in_app_iff; auto.
    - intros w Hw. apply in_app_iff in Hw as [Hw|Hw]; auto. apply zcomb_In; auto.
  Qed.

  Lemma neg_in (x y : qvec) ws : In y ws -> x = lneg y -> length y = n -> In (lneg x) ws.
  Proof. intros H -> L. replace (lneg (lneg y)) with y; auto. vring n. Qed.

  Theorem dirichlet_tol eps basis : (0 <= eps)%Qc -> lens n basis -> length basis = n -> n <= 3 -> rk n basis = n ->
    exists k0 ws v0 v1 v2 v3, (forall k, k0 <= k -> dirichlet_vectors dot eps k basis = Ret ws) /\
      superbase n basis v0 v1 v2 v3 /\ (eps = 0%Qc -> obtuse v0 v1 v2 v3) /\ complete ws v0 v1 v2 v3.
  Proof.
    intros Heps L Ln Hn R. assert (A : forallb (fun v => length v =? length basis) basis = true).
    { apply forallb_forall. intros v Hv. apply Nat.eqb_eq. rewrite Ln. eapply lens_In; eauto. }
    unfold dirichlet_vectors. rewrite A. cbn [assert bind].
    assert (Lz : length zero = n) by vlen.
    destruct basis as [|b0 [|b1 [|b2 [|b3 basis]]]]; [| | | |exfalso; cbn in Ln; lia].
    - exists 0, [], zero, zero, zero, zero. split; [auto|]. split; [|split].
      + constructor; vlen; [vring n|]. apply (same_lattice_app [] [zero; zero; zero; zero]); [constructor|repeat constructor; auto|].
        intros v Hv. replace v with zero by (destruct Hv as [<-|[<-|[<-|[<-|[]]]]]; reflexivity). apply zcomb_0. constructor.
      + intros _. unfold obtuse. rewrite dzero by auto. splits; apply Qcle_refl.
      + split; [intros w []|]. intros. left. unfold comb. vring n.
    - apply Forall_inv in L as L0. assert (Lb : length (lneg b0) = n) by vlen. exists 0, [b0], b0, (lneg b0), zero, zero. split; [auto|]. split; [|split].
      + constructor; vlen; [vring n|]. apply (same_lattice_app [b0] [lneg b0; zero; zero]); [repeat constructor; auto|repeat constructor; auto|].
        intros v [<-|[<-|[<-|[]]]]; [apply zcomb_neg; auto; apply zcomb_In; simpl; auto|apply zcomb_0; auto|apply zcomb_0; auto].
      + intros _. unfold obtuse. dexp. pose proof (norm_nonneg b0 L0). splits; qclra.
      + split.
        * intros w [<-|[]]. apply zcomb_In; [repeat constructor; auto|simpl; auto].
        * intros c0 c1 c2 c3 [->| ->] [->| ->] _ _; change (ZQ 0) with 0%Qc; unfold comb.
          -- left. change (ZQ 0) with 0%Qc. vring n.
          -- right; right. eapply (neg_in _ b0); auto; [simpl; auto|]. change (ZQ 0) with 0%Qc; change (ZQ 1) with 1%Qc. vring n.
          -- right; left. left. change (ZQ 0) with 0%Qc; change (ZQ 1) with 1%Qc. vring n.
          -- left. change (ZQ 1) with 1%Qc. vring n.
    - assert (L0 : length b0 = n) by (eapply lens_In; [exact L|simpl; auto]). assert (L1 : length b1 = n) by (eapply lens_In; [exact L|simpl; auto]).
      destruct (lagrange_tol n dot dsym dadd dmul dpos eps b0 b1 Heps L0 L1) as (k0 & u & v & E & Lu & Lv & SL & D1 & D2 & D3); [cbn in Ln; lia|].
      exists k0, [u; v; ladd u v], u, v, (lneg (ladd u v)), zero. assert (Ls : length (lneg (ladd u v)) = n) by vlen. split; [|split; [|split]].
      + intros k Hk. rewrite E by auto. reflexivity.
      + constructor; vlen; [vring n|]. eapply same_lattice_trans; [exact SL|]. assert (Luv : lens n [u; v]) by (repeat constructor; auto).
        apply (same_lattice_app [u; v] [lneg (ladd u v); zero]); [auto|repeat constructor; auto|].
        intros x [<-|[<-|[]]]; [|apply zcomb_0; auto]. apply zcomb_neg; auto. apply zcomb_add; auto; apply zcomb_In; simpl; auto.
      + intros He. rewrite He in D3. replace (norm v * (1 - 0))%Qc with (norm v) in D3 by ring. pose proof (norm_nonneg (ladd u v) ltac:(vlen)) as P1. revert P1.
        unfold obtuse. dexp. rewrite (dsym v u) by auto. intros P1. splits; qclra.
      + split.
        * assert (L4 : lens n [u; v; lneg (ladd u v); zero]) by (repeat constructor; auto).
          intros w [<-|[<-|[<-|[]]]]; [apply zcomb_In; simpl; auto|apply zcomb_In; simpl; auto|apply zcomb_add; auto; apply zcomb_In; simpl; auto].
        * intros c0 c1 c2 c3 B0 B1 B2 _.
          assert (Zc : comb u v (lneg (ladd u v)) zero c0 c1 c2 c3 = comb u v (lneg (ladd u v)) zero c0 c1 c2 0) by (unfold comb; vring n).
          rewrite Zc. clear Zc.
          assert (Huv : length (ladd u v) = n) by vlen.
          destruct B0 as [->| ->], B1 as [->| ->], B2 as [->| ->]; unfold comb; change (ZQ 0) with 0%Qc; change (ZQ 1) with 1%Qc.
          -- left. vring n.
          -- right; right. eapply (neg_in _ (ladd u v)); auto; [simpl; auto|]. vring n.
          -- right; left. right; left. vring n.
          -- right; right. eapply (neg_in _ u); auto; [simpl; auto|]. vring n.
          -- right; left. left. vring n.
          -- right; right. eapply (neg_in _ v); auto; [simpl; auto|]. vring n.
          -- right; left. right; right; left. vring n.
          -- left. vring n.
    - assert (L0 : length b0 = n) by (eapply lens_In; [exact L|simpl; auto]). assert (L1 : length b1 = n) by (eapply lens_In; [exact L|simpl; auto]).
      assert (L2 : length b2 = n) by (eapply lens_In; [exact L|simpl; auto]).
      destruct (selling_tol n dot dsym dadd dmul dpos eps b0 b1 b2 Heps L0 L1 L2) as (k0 & u & v & w & s & E & Sb & Ob).
      exists k0, [u; v; w; ladd u v; ladd u w; ladd v w; ladd (ladd u v) w], u, v, w, s. pose proof Sb as [Lu Lv Lw Ls Su SL].
      assert (Es : s = lneg (ladd (ladd u v) w)).
      { apply (lvec_ext n); [vlen|vlen|]. intros k. pose proof (sum_get n u v w s k Lu Lv Lw Ls Su) as Sk. rewrite lget_neg. repeat rewrite (lget_add n) by vlen.
        cbn beta in Sk |- *. generalize dependent (nth k u 0%Qc). generalize (nth k v 0%Qc), (nth k w 0%Qc), (nth k s 0%Qc). intros. qclra. }
      split; [|split; [|split]]; auto; [|intros He; rewrite He in Ob; exact Ob|].
      + intros k Hk. rewrite E by auto. reflexivity.
      + split.
        * assert (L4 : lens n [u; v; w; s]) by (repeat constructor; auto).
          assert (Zu : zcomb n [u; v; w; s] u) by (apply zcomb_In; simpl; auto). assert (Zv : zcomb n [u; v; w; s] v) by (apply zcomb_In; simpl; auto).
          assert (Zw : zcomb n [u; v; w; s] w) by (apply zcomb_In; simpl; auto).
          intros x [<-|[<-|[<-|[<-|[<-|[<-|[<-|[]]]]]]]]; auto; repeat apply zcomb_add; auto.
        * intros c0 c1 c2 c3 B0 B1 B2 B3. set (ws := [u; v; w; ladd u v; ladd u w; ladd v w; ladd (ladd u v) w]).
          assert (Luv : length (ladd u v) = n) by vlen. assert (Luw : length (ladd u w) = n) by vlen. assert (Lvw : length (ladd v w) = n) by vlen. assert (Luvw : length (ladd (ladd u v) w) = n) by vlen.
          assert (Iu : In u ws) by (simpl; auto). assert (Iv : In v ws) by (simpl; auto). assert (Iw : In w ws) by (simpl; auto).
          assert (Iuv : In (ladd u v) ws) by (simpl; auto). assert (Iuw : In (ladd u w) ws) by (simpl; auto 10). assert (Ivw : In (ladd v w) ws) by (simpl; auto 10).
          assert (Iuvw : In (ladd (ladd u v) w) ws) by (simpl; auto 10).
          assert (P : forall x y : qvec, In y ws -> x = y -> In x ws) by (intros; subst; auto).
          rewrite Es. clear Es E Sb Ob Su SL. clearbody ws.
          destruct B0 as [->| ->], B1 as [->| ->], B2 as [->| ->], B3 as [->| ->]; unfold comb; change (ZQ 0) with 0%Qc; change (ZQ 1) with 1%Qc.
          -- left. vring n.
          -- right; right. apply (neg_in _ (ladd (ladd u v) w)); auto. vring n.
          -- right; left. apply (P _ w); auto. vring n.
          -- right; right. apply (neg_in _ (ladd u v)); auto. vring n.
          -- right; left. apply (P _ v); auto. vring n.
          -- right; right. apply (neg_in _ (ladd u w)); auto. vring n.
          -- right; left. apply (P _ (ladd v w)); auto. vring n.
          -- right; right. apply (neg_in _ u); auto. vring n.
          -- right; left. apply (P _ u); auto. vring n.
          -- right; right. apply (neg_in _ (ladd v w)); auto. vring n.
          -- right; left. apply (P _ (ladd u w)); auto. vring n.
          -- right; right. apply (neg_in _ v); auto. vring n.
          -- right; left. apply (P _ (ladd u v)); auto. vring n.
          -- right; right. apply (neg_in _ w); auto. vring n.
          -- right; left. apply (P _ (ladd (ladd u v) w)); auto. vring n.
          -- left. vring n.
  Qed.

  Theorem dirichlet_ok basis : lens n basis -> length basis = n -> n <= 3 -> rk n basis = n ->
    exists k0 ws v0 v1 v2 v3, (forall k, k0 <= k -> dirichlet_vectors dot 0%Qc k basis = Ret ws) /\
      superbase n basis v0 v1 v2 v3 /\ obtuse v0 v1 v2 v3 /\ complete ws v0 v1 v2 v3.
  Proof.
    intros L Ln Hn R. destruct (dirichlet_tol 0%Qc basis (Qcle_refl _) L Ln Hn R) as (k0 & ws & v0 & v1 & v2 & v3 & E & Sb & Ob & C).
    exists k0, ws, v0, v1, v2, v3. splits; auto.
  Qed.

  (** points inside all the slabs are nearest to the origin *)
  Theorem dirichlet_cell ws v0 v1 v2 v3 basis x : superbase n basis v0 v1 v2 v3 -> obtuse v0 v1 v2 v3 -> complete ws v0 v1 v2 v3 -> length x = n ->
    ((forall w, In w ws -> inside dot x w) <-> (forall y, zcomb n basis y -> (norm x <= norm (lsub x y))%Qc)).
  Proof.
    intros [L0 L1 L2 L3 Su SL] Ob [C1 C2] Lx. assert (L4 : lens n [v0; v1; v2; v3]) by (repeat constructor; auto).
    assert (Eq : forall y, length y = n -> ((dot x y + dot x y <= norm y)%Qc <-> (norm x <= norm (lsub x y))%Qc)).
    { intros y Ly. dexp. rewrite (dsym y x) by auto. split; intros; qclra. }
    split.
    - intros H y Hy. apply (same_lattice_iff n _ _ SL) in Hy. pose proof (zcomb_length n _ _ L4 Hy) as Ly. apply Eq; auto.
      apply (voronoi v0 v1 v2 v3 L0 L1 L2 L3 Su Ob); auto. intros b0 b1 b2 b3 B0 B1 B2 B3. pose proof (comb_length v0 v1 v2 v3 L0 L1 L2 L3 b0 b1 b2 b3) as Lc.
      destruct (C2 b0 b1 b2 b3 B0 B1 B2 B3) as [E|[E|E]].
      + rewrite E. dexp. qclra.
      + apply H in E as [_ E]. exact E.
      + apply H in E as [E _]. revert E. dexp. intros E. qclra.
    - intros H w Hw. apply C1 in Hw. pose proof (zcomb_length n _ _ L4 Hw) as Lw. split.
      + pose proof (H (lneg w)) as Hn. rewrite <- Eq in Hn by vlen. assert (Z : zcomb n basis (lneg w)).
        { apply (same_lattice_iff n _ _ SL). apply zcomb_neg; auto. } apply Hn in Z. revert Z. dexp. intros. qclra.
      + apply Eq; auto. apply H. apply (same_lattice_iff n _ _ SL). auto.
  Qed.

  (** ** short representatives modulo independent vectors *)
  Lemma span_sub vs x y : lens n vs -> span n vs x -> span n vs y -> span n vs (lsub x y).
  Proof.
    intros L X Y. pose proof (span_length (R := Qc) n vs x L X) as Lx. pose proof (span_length (R := Qc) n vs y L Y) as Ly.
    assert (E : lsub x y = ladd x (lmulc y (- (1))%Qc)) by (vring n). rewrite E, <- vadd_ladd, <- vscale_lmulc.
    apply (span_add (R := Qc)); auto. apply (span_scale (R := Qc)); auto.
  Qed.
  Lemma span_add' vs x y : span n vs x -> span n vs y -> span n vs (ladd x y).
  Proof. rewrite <- vadd_ladd. apply (span_add (R := Qc)). Qed.
  Lemma span_scale' vs x c : span n vs x -> span n vs (lmulc x c).
  Proof. rewrite <- vscale_lmulc. apply (span_scale (R := Qc)). Qed.
  Lemma span_zero' vs : lens n vs -> span n vs zero.
  Proof. rewrite <- vzero_rep. apply span_zero. Qed.

  Lemma orth_span vs x : lens n vs -> length x = n -> (forall v, In v vs -> dot x v = 0%Qc) -> forall w, span n vs w -> dot x w = 0%Qc.
  Proof.
    intros L Lx H w Hw. assert (G : length w = n /\ dot x w = 0%Qc); [|apply G].
    revert w Hw. apply (span_ind (R := Qc)).
    - rewrite vzero_rep. split; vlen.
    - intros a b [La Ha] [Lb Hb]. rewrite vadd_ladd. split; [vlen|]. dexp. rewrite Ha, Hb. ring.
    - intros c a [La Ha]. rewrite vscale_lmulc. split; [vlen|]. dexp. rewrite Ha. ring.
    - intros v Hv. split; [eapply lens_In; eauto|auto].
  Qed.

  (** orthogonal projection *)
  Lemma projection vs : lens n vs -> forall x, length x = n -> exists p, span n vs p /\ forall w, span n vs w -> dot (lsub x p) w = 0%Qc.
  Proof.
    induction 1 as [|b vs Lb Lvs IH]; intros x Lx.
    - exists zero. split; [apply span_zero'; constructor|]. intros w Hw. apply (span_nil (R := Qc)) in Hw. rewrite Hw, vzero_rep. apply dzero_r. vlen.
    - assert (L : lens n (b :: vs)) by (constructor; auto).
      assert (Up : forall w, span n vs w -> span n (b :: vs) w) by (intros w; apply (span_incl (R := Qc)); auto; intros v Hv; right; auto).
      destruct (IH x Lx) as (p & Sp & Op), (IH b Lb) as (q & Sq & Oq). pose proof (span_length (R := Qc) n _ _ Lvs Sp) as Lp. pose proof (span_length (R := Qc) n _ _ Lvs Sq) as Lq.
      assert (Sb : span n (b :: vs) b) by (apply (span_In (R := Qc)); simpl; auto).
      set (c := lsub b q) in *. assert (Lc : length c = n) by (unfold c; vlen). assert (Sc : span n (b :: vs) c) by (unfold c; apply span_sub; auto).
      set (t := (dot x c / norm c)%Qc).
      assert (Eb : b = ladd c q) by (unfold c; vring n).
      exists (ladd p (lmulc c t)). split; [apply span_add'; auto; apply span_scale'; auto|].
      apply orth_span; auto; [vlen|]. assert (Hvs : forall v, In v vs -> dot (lsub x (ladd p (lmulc c t))) v = 0%Qc).
      { intros v Hv. pose proof (lens_In _ _ _ Lvs Hv) as Lv. assert (Sv : span n vs v) by (apply (span_In (R := Qc)); auto).
        pose proof (Op v Sv) as O1. pose proof (Oq v Sv) as O2. fold c in O2. revert O1. dexp. intros O1. rewrite O2. transitivity (dot x v - dot p v)%Qc; [ring|exact O1]. }
      assert (Hw : forall w, span n vs w -> dot (lsub x (ladd p (lmulc c t))) w = 0%Qc) by (apply orth_span; auto; vlen).
      intros v [<-|Hv]; auto. rewrite Eb. rewrite dadd_r by vlen. rewrite (Hw q Sq).
      assert (Opc : dot p c = 0%Qc) by (rewrite dsym by auto; apply Oq; auto).
      dexp. rewrite Opc. destruct (Qc_eq_dec (norm c) 0%Qc) as [Z|Z].
      + assert (Zc : c = zero). { destruct (list_eq_dec Qc_eq_dec c zero) as [|N]; auto. pose proof (dpos c Lc N). rewrite Z in H. qclra. }
        rewrite Zc. dexp. ring.
      + unfold t. field. auto.
  Qed.

  (** Babai's nearest plane *)
  Lemma norms_snoc vs v : norms dot (vs ++ [v]) = (norms dot vs + norm v)%Qc.
  Proof. induction vs as [|w vs IH]; cbn [norms fold_right app]; [ring|]. unfold norms in IH. rewrite IH. ring. Qed.

  Lemma nearest_plane vs : lens n vs -> forall y, span n vs y -> exists z, zcomb n vs z /\ ((1 + 1 + 1 + 1) * norm (lsub y z) <= norms dot vs)%Qc.
  Proof.
    induction vs as [|b vs IH] using rev_ind; intros L y Sy.
    - exists zero. split; [apply zcomb_0; auto|]. apply (span_nil (R := Qc)) in Sy. rewrite Sy, vzero_rep. dexp. cbn [norms fold_right]. qclra.
    - apply Forall_app in L as [L' Lb]. apply Forall_inv in Lb. assert (L : lens n (vs ++ [b])) by (apply Forall_app; auto).
      assert (Up : forall w, span n vs w -> span n (vs ++ [b]) w) by (intros w; apply (span_incl (R := Qc)); auto; intros v Hv; apply in_app_iff; auto).
      assert (UpZ : forall w, zcomb n vs w -> zcomb n (vs ++ [b]) w) by (intros w; apply zcomb_trans; auto; intros v Hv; apply zcomb_In; auto; apply in_app_iff; auto).
      assert (Dec : exists t r, span n vs r /\ y = ladd (lmulc b t) r).
      { assert (Sp : span n (b :: vs) y) by (revert Sy; apply (span_incl (R := Qc)); [constructor; auto|intros v Hv; apply in_app_iff in Hv as [Hv|[->|[]]]; simpl; auto]).
        apply (span_cons (R := Qc)) in Sp as (t & r & Sr & E). exists t, r. split; auto. rewrite E, vadd_ladd, vscale_lmulc. auto. }
      destruct Dec as (t & r & Sr & ->). pose proof (span_length (R := Qc) n _ _ L' Sr) as Lr.
      destruct (projection vs L' b Lb) as (p & Sp & Op). pose proof (span_length (R := Qc) n _ _ L' Sp) as Lp.
      destruct (q_round_spec t) as (m & _ & R1 & R2). set (s := (t - ZQ m)%Qc) in *.
      destruct (IH L' (ladd (lmulc p s) r)) as (z & Zz & Hz); [apply span_add'; auto; apply span_scale'; auto|].
      pose proof (zcomb_length n _ _ L' Zz) as Lz.
      exists (ladd (lmulc b (ZQ m)) z). split.
      { apply zcomb_add; auto. apply zcomb_scale; auto. apply zcomb_In; auto. apply in_app_iff; simpl; auto. }
      set (q := lsub (ladd (lmulc p s) r) z) in *. assert (Lq : length q = n) by (unfold q; vlen).
      assert (Sq : span n vs q) by (unfold q; apply span_sub; auto; [apply span_add'; auto; apply span_scale'; auto|apply zcomb_span; auto]).
      assert (E : lsub (ladd (lmulc b t) r) (ladd (lmulc b (ZQ m)) z) = ladd (lmulc (lsub b p) s) q) by (unfold q, s; vring n).
      rewrite E, norms_snoc. clear E. pose proof (Op q Sq) as O1. pose proof (Op p Sp) as O2.
      set (c := lsub b p) in *. assert (Lc : length c = n) by (unfold c; vlen).
      assert (Eb : b = ladd c p) by (unfold c; vring n). assert (Nb : norm b = (norm c + norm p)%Qc).
      { rewrite Eb. dexp. rewrite (dsym p c), O2 by auto. ring. }
      rewrite Nb. pose proof (norm_nonneg c Lc) as Pc. pose proof (norm_nonneg p Lp) as Pp. dexp. rewrite (dsym q c), O1 by auto.
      apply plane_arith; auto.
  Qed.

  (** ** sorting *)
  Lemma insert_by_perm cmp x l : Permutation (x :: l) (insert_by cmp x l).
  Proof.
    induction l as [|y l IH]; cbn [insert_by]; auto. destruct (cmp x y); auto. rewrite perm_swap. constructor. auto.
  Qed.
  Lemma sort_by_perm cmp l : Permutation l (sort_by cmp l).
  Proof. induction l as [|x l IH]; cbn [sort_by fold_right]; auto. rewrite <- insert_by_perm. constructor. auto. Qed.
  Lemma rl_cmp_le v w : match rl_cmp dot v w with Gt => (norm w <= norm v)%Qc | _ => (norm v <= norm w)%Qc end.
  Proof.
    unfold rl_cmp, lex. destruct (dot v v ?= dot w w)%Qc eqn:E.
    - rewrite <- Qceq_alt in E. rewrite E. destruct (qv_cmp _ _); apply Qcle_refl.
    - rewrite <- Qclt_alt in E. apply Qclt_le_weak. auto.
    - rewrite <- Qcgt_alt in E. apply Qclt_le_weak. auto.
  Qed.
  Notation nle := (fun v w => (norm v <= norm w)%Qc).
  Lemma insert_by_sorted x l : StronglySorted nle l -> StronglySorted nle (insert_by (rl_cmp dot) x l).
  Proof.
    induction 1 as [|y l Sl IH Fl]; cbn [insert_by]; [repeat constructor|]. pose proof (rl_cmp_le x y) as H.
    destruct (rl_cmp dot x y).
    1,2: constructor; [constructor; auto|constructor; auto; eapply Forall_impl; [|exact Fl]; cbn beta; intros a Ha; eapply Qcle_trans; eauto].
    constructor; auto. rewrite <- insert_by_perm. constructor; auto.
  Qed.
  Lemma sort_by_sorted l : StronglySorted nle (sort_by (rl_cmp dot) l).
  Proof. induction l as [|x l IH]; cbn [sort_by fold_right]; [constructor|]. apply insert_by_sorted. auto. Qed.
End D.
