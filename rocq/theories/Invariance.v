(** Graphs with isomorphic nets: the isomorphism maps directed edges to directed edges and the barycentric placement to the
    barycentric placement.  Generalizes the second half of NetAuto.v to two graphs, which may have cells of different size. *)
From Coq Require Import List ZArith Lia Bool PeanoNat QArith Qcanon Permutation.
From Verif Require Import Base Partition Vec Elim Scalars Matrix LinAlg Geometry ZQ QcTac ModSolver ModSolve OrdSet PGraph Net PGraphBase Traverse Placement Harmonic Placed Stability
  Lattices RatLattice Periodic Symmetries Automorph Group SymFront Orbits NetAuto.
Import ListNotations.
Close Scope Q_scope. Close Scope Qc_scope.
Open Scope nat_scope.

(** ** multiplicities of directed edges *)
Lemma count_filter {A} (dec : forall x y : A, {x = y} + {x <> y}) (p : A -> bool) l x : count_occ dec (filter p l) x = if p x then count_occ dec l x else 0.
Proof.
  induction l as [|y l IH]; cbn [filter count_occ]; [destruct (p x); auto|].
  destruct (p y) eqn:Py; cbn [count_occ]; destruct (dec y x) as [->|]; rewrite ?IH; destruct (p x) eqn:Px; auto; congruence.
Qed.
Lemma count_map_inj {A B} (dec : forall x y : A, {x = y} + {x <> y}) (dec' : forall x y : B, {x = y} + {x <> y}) (f : A -> B) l x :
  (forall y, In y l -> f y = f x -> y = x) -> count_occ dec' (map f l) (f x) = count_occ dec l x.
Proof.
  induction l as [|y l IH]; intros H; cbn [map count_occ]; auto. rewrite IH by (intros; apply H; cbn; auto).
  destruct (dec' (f y) (f x)) as [E|N], (dec y x) as [E'|N']; subst; auto; try congruence. exfalso. apply N', H; cbn; auto.
Qed.
Lemma perm_map_inj {A B} (f : A -> B) l l' : (forall x y, In x l -> In y l' -> f x = f y -> x = y) -> Permutation (map f l) (map f l') -> Permutation l l'.
Proof.
  intros I P. apply Permutation_map_inv in P as (l3 & E & P). rewrite P. replace l with l3; auto. 
  assert (H : forall x y, In x l -> In y l3 -> f x = f y -> x = y). { intros x y Hx Hy. apply I; auto. eapply Permutation_in; [apply Permutation_sym; eauto|auto]. }
  clear - E H. revert l3 E H. induction l as [|x l IH]; intros [|y l3] E H; try discriminate; auto. cbn in E. injection E as E1 E2. f_equal.
  - symmetry. apply H; cbn; auto.
  - apply IH; auto. intros; apply H; cbn; auto.
Qed.

Section Count.
  Variable g : graph.
  Hypothesis C : constructed g.
  Lemma gedges_NoDup : NoDup (gedges g).
  Proof. destruct C as (raw & _ & E). rewrite E. unfold gnew. cbn [gedges]. apply (usort_NoDup _ edge_cmp_laws). Qed.
  Lemma count_dedges e : In e (dedges g) -> count_occ edge_dec (dedges g) e = if edge_dec (rev e) e then 2 else 1.
  Proof.
    intros He. pose proof gedges_NoDup as ND. pose proof (c_canon g C) as K. pose proof (dedges_canonical g C e He) as Hc. unfold dedges. clear He.
    induction (gedges g) as [|x l IH]; [destruct Hc|]. cbn [flat_map]. rewrite count_occ_app. inversion ND as [|? ? Nx Nl]; subst.
    assert (Zero : forall l', (forall y, In y l' -> canonical y = y) -> ~ In (canonical e) l' -> count_occ edge_dec (flat_map (fun e => [e; rev e]) l') e = 0).
    { intros l' K' N. apply count_occ_not_In. intros I. apply in_flat_map in I as (y & Hy & I). apply N.
      assert (E : canonical e = y) by (cbn in I; destruct I as [<-|[<-|[]]]; rewrite ?canonical_rev; apply K'; auto). rewrite E. auto. }
    destruct (edge_dec (canonical e) x) as [E|N].
    - rewrite Zero; [|intros y Hy; apply K; right; auto|rewrite E; auto]. rewrite Nat.add_0_r. cbn [count_occ].
      destruct (canonical_cases e) as [E'|E']; rewrite E' in E; subst x.
      + destruct (edge_dec e e) as [_|]; [|congruence]. destruct (edge_dec (rev e) e); auto.
      + rewrite rev_rev. destruct (edge_dec e e) as [_|]; [|congruence]. destruct (edge_dec (rev e) e); auto.
    - rewrite IH; auto; [|intros y Hy; apply K; right; auto|destruct Hc; [congruence|auto]].
      pose proof (Zero [x]) as Z0. cbn [flat_map app] in Z0. rewrite Z0; auto.
      + intros y [<-|[]]. apply K. left. auto.
      + intros [E|[]]; congruence.
  Qed.
  Lemma count_inc v e : In e (inc g v) -> count_occ edge_dec (inc g v) e = if edge_dec (rev e) e then 2 else 1.
  Proof. intros He. apply inc_In in He as [He <-]. unfold inc. rewrite count_filter, Nat.eqb_refl. apply count_dedges. auto. Qed.
  Lemma rev_self e : In e (dedges g) -> rev e = e <-> head e = tail e /\ shift e = szero (gdim g).
  Proof.
    intros He. pose proof (dedges_dim g C e He) as L. destruct e as [a b s]. cbn [head tail shift rev] in *. split.
    - intros E. injection E as E1 E2 E3. split; auto. apply (vec_ext (R := Z)); [rewrite szero_length; auto|]. intros i Hi.
      assert (X : vget (sneg s) i = vget s i) by (rewrite E3; auto). rewrite vget_sneg in X. rewrite vget_szero. lia.
    - intros [-> ->]. unfold rev. cbn [head tail shift]. f_equal. apply (vec_ext (R := Z)); [rewrite sneg_length; auto|]. intros i Hi. rewrite vget_sneg, vget_szero. lia.
  Qed.
End Count.

Section Inv.
  Variables (chk chk' : Z -> outcome Z) (g h : graph) (pos pos' : nat -> point).
  Hypotheses (C : constructed g) (C' : constructed h) (Ed : gdim h = gdim g).
  Hypotheses (P : Placed chk g pos) (P' : Placed chk' h pos').
  Hypothesis CC : forall a c, is_node g a -> is_node g c -> joined g a c.
  Variables (phi : node -> node) (M : nat -> nat -> Z).
  Hypothesis Iso : net_isomorphism g h phi.
  Hypothesis Per : periodic_map g M phi.
  Notation d := (gdim g).
  Notation ev := (evec (gdim g) pos).
  Notation ev' := (evec (gdim g) pos').
  Notation mq := (fun i j => ZQ (M i j)).
  Notation O := (szero d).
  Notation ff := (ff g phi).
  Notation zv := (zv g phi).
  Notation FF := (FF g phi M).

  Lemma i_node v s : is_vertex g v -> length s = d -> phi (v, s) = (ff v, sadd (zv v) (ztimes d M s)).
  Proof.
    intros Hv Ls. pose proof (Per (v, O) s (nodeO g v Hv) Ls) as E. unfold translate in E. cbn [fst snd] in E. rewrite sadd_0_l in E by auto. exact E.
  Qed.
  Lemma i_vertex v : is_vertex g v -> is_vertex h (ff v).
  Proof. intros Hv. apply (ni_node _ _ _ Iso (v, O) (nodeO g v Hv)). Qed.
  Lemma i_length v : is_vertex g v -> length (zv v) = d.
  Proof. intros Hv. rewrite <- Ed. apply (ni_node _ _ _ Iso (v, O) (nodeO g v Hv)). Qed.
  Lemma i_dim e : In e (dedges h) -> length (shift e) = d.
  Proof. intros He. rewrite <- Ed. apply dedges_dim; auto. Qed.
  Lemma i_shift e x : length x = d -> In e (dedges g) -> sadd x (shift (FF e)) = ssub (sadd (sadd x (zv (tail e))) (ztimes d M (shift e))) (zv (head e)).
  Proof.
    intros Lx He. destruct (dedges_vertices g e He) as [Hh Ht]. pose proof (i_length _ Hh). pose proof (i_length _ Ht). pose proof (ztimes_length d M (shift e)).
    unfold NetAuto.FF. cbn [shift]. seq.
  Qed.
  Lemma i_in e : In e (dedges g) -> In (FF e) (dedges h).
  Proof.
    intros He. destruct (dedges_vertices g e He) as [Hh Ht]. pose proof (dedges_dim g C e He) as Ls.
    assert (N1 : is_node g (head e, O)) by (apply nodeO; auto). assert (N2 : is_node g (tail e, shift e)) by (split; auto).
    assert (A : adjacent g (head e, O) (tail e, shift e)). { apply (adjacent_dedges g C); auto. exists e. cbn [fst snd]. splits; auto. rewrite sadd_0_l; auto. }
    apply (ni_adjacent _ _ _ Iso) in A; auto. apply (adjacent_dedges h C') in A as (e' & He' & Eh & Et & Es); try (apply (ni_node _ _ _ Iso); auto).
    rewrite (i_node (tail e)) in Et, Es by auto. cbn [fst snd] in *. fold (ff (head e)) in Eh. fold (zv (head e)) in Es.
    replace (FF e) with e'; auto. apply edge_eq; auto. unfold NetAuto.FF. cbn [shift]. rewrite Es.
    pose proof (i_length _ Hh). pose proof (i_length _ Ht). pose proof (ztimes_length d M (shift e)). pose proof (i_dim e' He'). seq.
  Qed.
  Lemma i_edge e x : In e (dedges g) -> length x = d -> phi (tail e, sadd x (shift e)) = (tail (FF e), sadd (snd (phi (head e, x))) (shift (FF e))).
  Proof.
    intros He Lx. destruct (dedges_vertices g e He) as [Hh Ht]. pose proof (dedges_dim g C e He) as Ls. pose proof (i_length _ Hh). pose proof (i_length _ Ht).
    rewrite !i_node by (auto; slen). cbn [fst snd]. f_equal. rewrite i_shift by (auto; rewrite sadd_length; rewrite ?ztimes_length; auto).
    assert (E : ztimes d M (sadd x (shift e)) = sadd (ztimes d M x) (ztimes d M (shift e))).
    { apply (zvec_ext _ _ d); [apply ztimes_length|rewrite sadd_length; rewrite !ztimes_length; auto|]. intros k Hk. rewrite vget_sadd by (rewrite !ztimes_length; auto). rewrite ZQ_add, !vget_ztimes by auto.
      rewrite <- lappq_add. apply lappq_ext. intros j Hj. rewrite vget_sadd by congruence. apply ZQ_add. }
    rewrite E. pose proof (ztimes_length d M (shift e)). pose proof (ztimes_length d M x). seq.
  Qed.
  Lemma i_loc e e' : In e (dedges g) -> In e' (dedges g) -> head e = head e' -> FF e = FF e' -> e = e'.
  Proof.
    intros He He' Eh E. pose proof (i_edge e O He (szero_length d)) as E1. pose proof (i_edge e' O He' (szero_length d)) as E2.
    rewrite Eh, E in E1. rewrite <- E2 in E1. pose proof (dedges_dim g C e He). pose proof (dedges_dim g C e' He'). rewrite !sadd_0_l in E1 by auto.
    destruct (dedges_vertices g e He) as [_ Ht]. destruct (dedges_vertices g e' He') as [_ Ht'].
    apply (ni_inj _ _ _ Iso) in E1; try (split; auto; fail). injection E1 as X Y. apply edge_eq; auto.
  Qed.
  Lemma i_onto v e' : is_vertex g v -> In e' (inc h (ff v)) -> exists e, In e (inc g v) /\ FF e = e'.
  Proof.
    intros Hv I'. apply inc_In in I' as [He' Eh]. pose proof (nodeO g v Hv) as Nv. pose proof (ni_node _ _ _ Iso _ Nv) as Nb.
    pose proof (edge_node h C' (phi (v, O)) e' Nb He') as Nc. destruct (ni_surj _ _ _ Iso _ Nc) as (a & Na & Ea).
    assert (A : adjacent g (v, O) a). { apply (ni_adjacent _ _ _ Iso); auto. rewrite Ea. apply (adjacent_dedges h C'); auto. exists e'. splits; auto. }
    apply (adjacent_dedges g C) in A as (e & He & E1 & E2 & E3); auto. cbn [fst snd] in *. exists e. split; [apply inc_In; auto|].
    pose proof (i_edge e O He (szero_length d)) as X. rewrite E2, <- E3 in X. rewrite <- surjective_pairing, Ea in X. rewrite E1 in X.
    pose proof (f_equal fst X) as X1. pose proof (f_equal snd X) as X2. cbn [fst snd] in X1, X2.
    apply edge_eq; auto.
    - unfold NetAuto.FF. cbn [head]. rewrite E1. auto.
    - pose proof (i_dim e' He') as L1. pose proof (i_dim (FF e) (i_in e He)) as L2. rewrite (sadd_comm _ (shift e')), (sadd_comm _ (shift (FF e))) in X2.
      apply sadd_cancel_r in X2; auto; fold (zv v); rewrite i_length by auto; auto.
  Qed.
  Lemma i_rev e : In e (dedges g) -> rev (FF e) = FF e <-> rev e = e.
  Proof.
    intros He. destruct (dedges_vertices g e He) as [Hh Ht]. pose proof (dedges_dim g C e He) as Ls. split.
    - intros E. apply (rev_self h C' _ (i_in e He)) in E as [E1 E2]. apply (rev_self g C e He). rewrite Ed in E2.
      pose proof (i_edge e O He (szero_length d)) as X. rewrite sadd_0_l in X by auto. rewrite E2, <- E1 in X. cbn [NetAuto.FF head] in X.
      fold (ff (head e)) in X. fold (zv (head e)) in X. rewrite (sadd_0_r d (zv (head e))) in X by (apply i_length; auto).
      assert (Y : phi (tail e, shift e) = phi (head e, O)) by (rewrite X; unfold NetAuto.ff, NetAuto.zv; rewrite <- surjective_pairing; auto).
      apply (ni_inj _ _ _ Iso) in Y; [injection Y as Y1 Y2; auto|split; auto|apply nodeO; auto].
    - intros E. apply (rev_self g C e He) in E as [E1 E2]. apply (rev_self h C' _ (i_in e He)). rewrite Ed. unfold NetAuto.FF. cbn [head tail shift]. rewrite E1, E2, (ztimes_0 g M). split; auto.
      pose proof (i_length _ Ht). seq.
  Qed.
  Lemma i_perm v : is_vertex g v -> Permutation (map FF (inc g v)) (inc h (ff v)).
  Proof.
    intros Hv. apply (Permutation_count_occ edge_dec). intros e'. destruct (in_dec edge_dec e' (inc h (ff v))) as [I|N].
    - destruct (i_onto v e' Hv I) as (e & He & <-). rewrite (count_map_inj edge_dec edge_dec), (count_inc g C v e He), (count_inc h C' _ _ I).
      + apply inc_In in He as [He _]. pose proof (i_rev e He) as R. destruct (edge_dec (rev e) e), (edge_dec (rev (FF e)) (FF e)); tauto.
      + intros y Hy E. apply inc_In in He as [He E1], Hy as [Hy E2]. apply i_loc; auto. congruence.
    - rewrite (proj1 (count_occ_not_In _ _ _) N). apply count_occ_not_In. intros I. apply N. apply in_map_iff in I as (e & <- & He). apply inc_In in He as [He Eh]. apply inc_In.
      split; [apply i_in; auto|]. unfold NetAuto.FF. cbn [head]. congruence.
  Qed.
  Lemma i_kernel t v : is_vertex g v -> length t = d -> ztimes d M t = O -> t = O.
  Proof.
    intros Hv Lt E. assert (X : phi (v, t) = phi (v, O)). { rewrite !i_node by (auto; apply szero_length). rewrite E, (ztimes_0 g M). auto. }
    apply (ni_inj _ _ _ Iso) in X; [congruence|split; auto|apply nodeO; auto].
  Qed.
    Lemma i_linj v : is_vertex g v -> linj d mq.
    Proof.
      intros Hv x y Lx Ly E. set (z := map (fun k => vget x k - vget y k)%Qc (seq 0 d)).
      assert (Lz : length z = d) by (unfold z; rewrite map_length, seq_length; auto).
      assert (Gz : forall k, k < d -> vget z k = (vget x k - vget y k)%Qc) by (intros k Hk; exact (pget_map_seq (fun k => vget x k - vget y k)%Qc d k Hk)).
      set (c := common_denom [z]). pose proof (common_denom_pos [z]) as Cp. fold c in Cp.
      assert (X : forall k, exists n, k < d -> (vget z k * ZQ c = ZQ n)%Qc).
      { intros k. destruct (Nat.lt_ge_cases k d) as [Hk|Hk]; [|exists 0%Z; lia].
        destruct (common_denom_int [z] z (vget z k)) as (n & En); [simpl; auto|apply nth_In; lia|]. exists n. auto. }
      destruct (choice_below (fun k n => k < d -> (vget z k * ZQ c = ZQ n)%Qc) d X) as [t Ht].
      set (tl := map t (seq 0 d)). assert (Lt : length tl = d) by (unfold tl; rewrite map_length, seq_length; auto).
      assert (Gt : forall k, k < d -> ZQ (vget tl k) = (vget z k * ZQ c)%Qc).
      { intros k Hk. rewrite Ht by auto. unfold tl, vget at 1. erewrite nth_error_nth; [|rewrite nth_error_map_seq by auto; reflexivity]. auto. }
      assert (K : tl = O).
      { apply (i_kernel tl v Hv Lt). apply (zvec_ext _ _ d); [apply ztimes_length|apply szero_length|]. intros k Hk. rewrite vget_ztimes, vget_szero by auto.
        rewrite (lappq_ext d mq _ (fun j => ZQ c * vget z j)%Qc) by (intros; rewrite Gt by auto; ring).
        assert (Sc : lapp d mq (fun j => ZQ c * vget z j)%Qc k = (ZQ c * lapp d mq (vget z) k)%Qc).
        { unfold lapp. cbn [rmul Qc_dom]. rewrite <- qs_scale. apply sumf_ext. intros; cbn [rmul Qc_dom]. ring. }
        rewrite Sc. rewrite (lappq_ext d mq (vget z) (fun j => vget x j - vget y j)%Qc) by auto. rewrite lappq_sub.
        assert (Ek : vget (mapp d mq x) k = vget (mapp d mq y) k) by congruence. rewrite !vget_mapp in Ek by auto.
        change (fun j => vget x j) with (vget x) in *. change (fun j => vget y j) with (vget y) in *. rewrite Ek. change (ZQ 0) with 0%Qc. ring. }
      apply (vec_ext (R := Qc)); [congruence|]. intros k Hk. rewrite Lx in Hk. specialize (Gt k Hk). rewrite K, vget_szero in Gt. change (ZQ 0) with 0%Qc in Gt.
      assert (Nc : ZQ c <> 0%Qc) by (intros E0; apply ZQ_eq0 in E0; lia). symmetry in Gt. apply Qcmult_integral in Gt as [Gt|Gt]; [|contradiction]. rewrite Gz in Gt by auto. qclra.
    Qed.
  Lemma i_vec e k : In e (dedges g) -> k < d -> pget (ev' (FF e)) k = lapp d mq (pget (ev e)) k.
  Proof.
    intros He Hk.
    set (q := fun v => (pget (pos' (ff v)) k + ZQ (vget (zv v) k) - lapp d mq (pget (pos v)) k)%Qc).
    assert (Q : forall x, In x (dedges g) -> (q (tail x) - q (head x) = pget (ev' (FF x)) k - lapp d mq (pget (ev x)) k)%Qc).
    { intros x Hx. destruct (dedges_vertices g x Hx) as [Hh Ht]. pose proof (i_length _ Hh) as L1. pose proof (i_length _ Ht) as L2. pose proof (ztimes_length d M (shift x)) as L3.
      rewrite (lappq_ext d mq (pget (ev x)) (fun j => pget (pos (tail x)) j + ZQ (vget (shift x) j) - pget (pos (head x)) j)%Qc) by (intros; apply pget_evec; auto).
      rewrite lappq_sub, lappq_add. rewrite pget_evec by auto. unfold NetAuto.FF. cbn [head tail shift]. rewrite vget_ssub, vget_sadd by slen. rewrite ZQ_sub, ZQ_add, vget_ztimes by auto.
      unfold q. change (fun k0 => pget (pos (tail x)) k0) with (pget (pos (tail x))). change (fun k0 => pget (pos (head x)) k0) with (pget (pos (head x))).
      change (fun j => pget (pos (tail x)) j) with (pget (pos (tail x))). change (fun j => pget (pos (head x)) j) with (pget (pos (head x))). ring. }
    assert (Hq : forall v, is_vertex g v -> harmonic g q v).
    { intros v Hv. unfold harmonic. rewrite (qsum_ext _ (fun x => pget (ev' (FF x)) k - lapp d mq (pget (ev x)) k)%Qc).
      2: { intros x Hx. apply inc_In in Hx as [Hx Eh]. rewrite <- Q by auto. rewrite Eh. auto. }
      rewrite qsum_sub. rewrite <- (qsum_map (fun x => pget (ev' x) k) FF). rewrite (qsum_perm _ _ _ (i_perm v Hv)).
      pose proof (pl_bary _ _ _ P' (ff v) k (i_vertex v Hv)) as B. rewrite Ed in B. rewrite (B Hk). rewrite (qsum_lapp d mq (fun x => pget (ev x))).
      rewrite (lappq_ext d mq _ (fun _ => 0%Qc)) by (intros j Hj; apply (pl_bary _ _ _ P); auto).
      unfold lapp. rewrite qs_zero; [ring|]. intros. cbn [rmul Qc_dom]. ring. }
    destruct (dedges_vertices g e He) as [Hh Ht].
    pose proof (harmonic_constant g q (conn g CC) Hq (tail e) (head e) Ht Hh) as E. specialize (Q e He). rewrite E in Q. qclra.
  Qed.
  Lemma i_evec e : In e (dedges g) -> ev' (FF e) = mapp d mq (ev e).
  Proof.
    intros He. apply point_ext; [rewrite evec_length, mapp_length; auto|]. rewrite evec_length. intros k Hk. rewrite i_vec by auto.
    change (pget (mapp d mq (ev e)) k) with (vget (mapp d mq (ev e)) k). rewrite vget_mapp by auto. reflexivity.
  Qed.
  Lemma i_evecs v : is_vertex g v -> Permutation (map (mapp d mq) (map ev (inc g v))) (map ev' (inc h (ff v))).
  Proof.
    intros Hv. rewrite <- (i_perm v Hv), !map_map. erewrite map_ext_in; [reflexivity|]. intros e He. apply inc_In in He as [He _]. symmetry. apply i_evec. auto.
  Qed.
  Lemma i_affine a b k : is_node g a -> is_node g b -> k < d -> (npt pos' (phi b) k - npt pos' (phi a) k = lapp d mq (npt pos b) k - lapp d mq (npt pos a) k)%Qc.
  Proof.
    intros Na Nb Hk. destruct (CC a b Na Nb) as [n W]. revert Na Nb. induction W as [|n a b c W IH Nc A]; intros Na Nb; [ring|].
    destruct (walk_nodes g n a b W) as [_ Nb']. specialize (IH Na Nb'). apply (adjacent_dedges g C) in A as (e & He & Eh & Et & Es); auto.
    destruct b as [v s], c as [w t]. cbn [fst snd] in *. subst v w t. destruct Nb' as [Hv Ls]. cbn [fst snd] in *.
    rewrite i_edge by auto. pose proof (npt_edge h pos' C' (phi (head e, s)) (FF e) k) as N1. rewrite Ed in N1. rewrite N1; auto; [|apply (ni_node _ _ _ Iso); split; auto|apply i_in; auto|rewrite i_node by auto; reflexivity].
    rewrite i_vec by auto.
    rewrite (lappq_ext d mq (npt pos (tail e, sadd s (shift e))) (fun j => npt pos (head e, s) j + pget (ev e) j)%Qc) by (intros j Hj; apply (npt_edge g pos C (head e, s)); auto; split; auto).
    rewrite lappq_add. change (fun j => npt pos (head e, s) j) with (npt pos (head e, s)). change (fun k0 => npt pos (head e, s) k0) with (npt pos (head e, s)).
    change (fun k0 => pget (ev e) k0) with (pget (ev e)). change (fun j => pget (ev e) j) with (pget (ev e)). qclra.
  Qed.

  (** ** stability in terms of nodes *)
  Lemma i_same a b : is_node g a -> is_node g b ->
    (forall k, k < d -> npt pos' (phi a) k = npt pos' (phi b) k) <-> (forall k, k < d -> npt pos a k = npt pos b k).
  Proof.
    intros Na Nb. split.
    - intros H. set (x := map (npt pos a) (seq 0 d)). set (y := map (npt pos b) (seq 0 d)).
      assert (Lx : length x = d) by (unfold x; rewrite map_length, seq_length; auto). assert (Ly : length y = d) by (unfold y; rewrite map_length, seq_length; auto).
      assert (Gx : forall k, k < d -> vget x k = npt pos a k) by (intros k Hk; exact (pget_map_seq (npt pos a) d k Hk)).
      assert (Gy : forall k, k < d -> vget y k = npt pos b k) by (intros k Hk; exact (pget_map_seq (npt pos b) d k Hk)).
      assert (E : x = y); [|intros k Hk; rewrite <- Gx, <- Gy, E by auto; auto].
      apply (i_linj (fst a)); auto; [apply Na|]. apply (vec_ext (R := Qc)); [rewrite !mapp_length; auto|]. intros k Hk. rewrite mapp_length in Hk. rewrite !vget_mapp by auto.
      pose proof (i_affine a b k Na Nb Hk) as A. specialize (H k Hk).
      rewrite (lappq_ext d mq (fun k0 => vget x k0) (npt pos a)), (lappq_ext d mq (fun k0 => vget y k0) (npt pos b)) by auto. qclra.
    - intros H k Hk. pose proof (i_affine a b k Na Nb Hk) as A. rewrite (lappq_ext d mq (npt pos b) (npt pos a)) in A by (intros; symmetry; apply H; auto). qclra.
  Qed.
End Inv.

Section Nodes.
  Variables (chk : Z -> outcome Z) (g : graph) (pos : nat -> point).
  Hypotheses (C : constructed g) (P : Placed chk g pos).
  Notation d := (gdim g).
  Definition same_place (a b : node) : Prop := forall k, k < d -> npt pos a k = npt pos b k.
  (** two vertices at the same place up to integers belong to two nodes at the same place *)
  Lemma mod1_place v w : is_vertex g v -> is_vertex g w -> mod1_eq (pos v) (pos w) <-> exists t, length t = d /\ same_place (v, szero d) (w, t).
  Proof.
    intros Hv Hw. unfold mod1_eq, same_place, npt. rewrite (pl_len _ _ _ P v Hv), (pl_len _ _ _ P w Hw). cbn [fst snd]. split.
    - intros [_ H]. destruct (choice_below (fun k n => k < d -> (pget (pos v) k - pget (pos w) k)%Qc = ZQ n) d) as [t Ht].
      { intros k. destruct (Nat.lt_ge_cases k d) as [Hk|Hk]; [|exists 0%Z; lia]. destruct (H k Hk) as [z Ez]. exists z. auto. }
      exists (map t (seq 0 d)). split; [rewrite map_length, seq_length; auto|]. intros k Hk. rewrite vget_szero.
      assert (Gt : vget (map t (seq 0 d)) k = t k) by (unfold vget; erewrite nth_error_nth; [|rewrite nth_error_map_seq by auto; reflexivity]; auto).
      rewrite Gt, <- Ht by auto. change (ZQ 0) with 0%Qc. ring.
    - intros (t & Lt & H). split; auto. intros k Hk. exists (vget t k). specialize (H k Hk). rewrite vget_szero in H. change (ZQ 0) with 0%Qc in H. qclra.
  Qed.
  Lemma place_mod1 a b : is_node g a -> is_node g b -> same_place a b -> mod1_eq (pos (fst a)) (pos (fst b)).
  Proof.
    intros [Ha La] [Hb Lb] H. split; [rewrite !(pl_len _ _ _ P); auto|]. intros k Hk. rewrite (pl_len _ _ _ P) in Hk by auto.
    exists (vget (snd b) k - vget (snd a) k)%Z. specialize (H k Hk). unfold npt in H. rewrite ZQ_sub. qclra.
  Qed.
  Lemma stable_nodes : is_stable chk g = Ret true <-> forall a b, is_node g a -> is_node g b -> same_place a b -> a = b.
  Proof.
    rewrite (is_stable_ret chk g pos P). split.
    - intros E a b Na Nb H. assert (E' : repeats p_eqb (fun v => map frac (pos v)) [] (vertices g) = false) by (destruct (repeats _ _ _ _); [discriminate E|auto]).
      apply (repeats_spec _ p_eqb_spec) in E' as [ND _].
      apply (npt_inj g pos); auto. apply (NoDup_map_inj (fun v => map frac (pos v)) (vertices g)); auto; try (apply vertices_In; first [apply Na|apply Nb]).
      apply map_frac_eq. apply place_mod1; auto.
    - intros H. f_equal. apply negb_true_iff. apply (repeats_spec _ p_eqb_spec). split; [|intros; simpl; tauto]. apply NoDup_map_inj'; [apply V_NoDup|]. intros v w Hv Hw E.
      apply vertices_In in Hv, Hw. apply map_frac_eq in E. apply mod1_place in E as (t & Lt & E); auto.
      assert (X : (v, szero d) = (w, t)) by (apply H; auto; split; auto; apply szero_length). congruence.
  Qed.
  Lemma locally_stable_nodes : is_locally_stable chk g = Ret true <-> forall v, is_vertex g v -> NoDup (map (evec d pos) (inc g v)).
  Proof.
    rewrite (is_locally_stable_ret chk g pos C P). split.
    - intros E v Hv. assert (E' : forallb (fun v => negb (repeats p_eqb (evec d pos) [] (inc g v))) (vertices g) = true) by congruence. rewrite forallb_forall in E'.
      specialize (E' v (proj2 (vertices_In g v) Hv)). rewrite negb_true_iff in E'. apply (repeats_spec _ p_eqb_spec) in E' as [ND _]. auto.
    - intros H. f_equal. apply forallb_forall. intros v Hv. apply vertices_In in Hv. rewrite negb_true_iff. apply (repeats_spec _ p_eqb_spec). split; [auto|intros; simpl; tauto].
  Qed.
  Lemma collisions_nodes : has_second_order_collisions chk g = Ret true <-> exists a b, is_node g a /\ is_node g b /\ a <> b /\ same_place a b /\
    Permutation (map (evec d pos) (inc g (fst a))) (map (evec d pos) (inc g (fst b))).
  Proof.
    rewrite (collisions_ret chk g pos C P).
    set (key := fun v => psort (map (evec (gdim g) pos) (inc g v)) ++ [map frac (pos v)]).
    assert (K : forall v w, key v = key w <-> Permutation (map (evec (gdim g) pos) (inc g v)) (map (evec (gdim g) pos) (inc g w)) /\ mod1_eq (pos v) (pos w)).
    { intros v w. unfold key. rewrite <- map_frac_eq, <- psort_eq. split; [apply app_inj_tail|intros [-> ->]; auto]. }
    split.
    - intros E. assert (ND : ~ NoDup (map key (vertices g))).
      { intros ND. assert (X : repeats ps_eqb key [] (vertices g) = false) by (apply (repeats_spec _ ps_eqb_spec); split; auto). rewrite X in E. discriminate E. }
      destruct (not_NoDup_map key (vertices g) (V_NoDup g)) as (v & w & Hv & Hw & N & Ek); auto.
      { intros a b. destruct (ps_eqb_spec a b); auto. }
      apply vertices_In in Hv, Hw. apply K in Ek as [Kp Km]. apply mod1_place in Km as (t & Lt & Sp); auto.
      exists (v, szero d), (w, t). splits; auto; [split; auto; apply szero_length|split; auto|congruence].
    - intros (a & b & Na & Nb & N & Sp & Pm). f_equal. destruct (repeats ps_eqb key [] (vertices g)) eqn:R; auto. exfalso. apply (repeats_spec _ ps_eqb_spec) in R as [ND _].
      apply N. apply (npt_inj g pos); auto. apply (NoDup_map_inj key (vertices g)); auto; try (apply vertices_In; first [apply Na|apply Nb]). apply K. split; auto. apply place_mod1; auto.
  Qed.
End Nodes.
