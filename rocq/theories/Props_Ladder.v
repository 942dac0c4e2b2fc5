(** Property C62 of src/symmetries.rs: is_ladder and ladder_symmetries. *)
From Coq Require Import List ZArith Lia Bool PeanoNat QArith Qcanon Permutation.
From Verif Require Import Base Partition Vec Elim Scalars Matrix LinAlg Geometry ZQ QcTac ModSolver ModSolve OrdSet PGraph Net PGraphBase Traverse Placement Placed Stability Lattices Periodic Symmetries Automorph Group SymFront Orbits.
From Verif Require Props_PGraph Props_Geometry RatLattice.
From Verif Require Import Props_Placement Props_Symmetries.
Import ListNotations.
Close Scope Q_scope. Close Scope Qc_scope.
Open Scope nat_scope.

(** ** specification *)
(** a translation of the net that moves some vertex, but leaves it at the same place modulo the lattice *)
Definition ladder_move (chk : Z -> outcome Z) (g : graph) (t : nat -> nat) (F : edge -> edge) : Prop :=
  symmetry chk g identity_matrix t F /\
  exists v p q, is_vertex g v /\ t v <> v /\ position chk g v = Ret p /\ position chk g (t v) = Ret q /\ differ_by_integers p q.

(** ** proofs *)
Section L.
  Variables (chk : Z -> outcome Z) (g : graph) (pos : nat -> point).
  Hypothesis So : sound chk g.
  Hypothesis P : Placed chk g pos.
  Hypothesis CC : forall a c, is_node g a -> is_node g c -> joined g a c.
  Hypothesis LS : forall v, NoDup (map (evec (gdim g) pos) (inc g v)).
  Notation d := (gdim g).
  Let C : constructed g. Proof. exact (so_constructed _ _ So). Qed.
  Let Hd : 0 < d. Proof. exact (so_dim _ _ So). Qed.
  Let NE : exists v, is_vertex g v. Proof. exact (so_vertex _ _ So). Qed.

  (** the displacement of a translation, modulo integers *)
  Definition moved (t : nat -> nat) (v : nat) (k : nat) : Qc := (pget (pos (t v)) k - pget (pos v) k)%Qc.
  Lemma moved_edge t F e k : trans g pos t F -> In e (dedges g) -> k < d -> exists z, moved t (tail e) k = (moved t (head e) k + ZQ z)%Qc.
  Proof.
    intros H He Hk. destruct (H e He) as (H1 & H2 & H3 & H4).
    apply (f_equal (fun l => pget l k)) in H4. rewrite !pget_evec, H2, H3 in H4 by auto.
    exists (vget (shift e) k - vget (shift (F e)) k)%Z. unfold moved.
    rewrite ZQ_sub. set (a := pget (pos (t (tail e))) k) in *. set (b := pget (pos (t (head e))) k) in *.
    set (s := ZQ (vget (shift (F e)) k)) in *. set (s0 := ZQ (vget (shift e) k)) in *.
    assert (E : a = (pget (pos (tail e)) k + s0 - pget (pos (head e)) k - s + b)%Qc) by (rewrite <- H4; ring).
    rewrite E. ring.
  Qed.
  Lemma moved_all t F v w k : trans g pos t F -> is_vertex g v -> is_vertex g w -> k < d -> exists z, moved t w k = (moved t v k + ZQ z)%Qc.
  Proof.
    intros H Hv Hw Hk. pose proof (conn g CC v w Hv Hw) as CN. induction CN as [|x y e L IH He Ho].
    - exists 0%Z. rewrite ZQ_0. ring.
    - assert (Hx : is_vertex g x) by (exists e; split; auto; intuition). destruct (IH Hx) as (z & Ez).
      assert (X : exists e', In e' (dedges g) /\ head e' = x /\ tail e' = y).
      { destruct Ho as [[<- <-]|[<- <-]]; [exists e|exists (rev e)]; split; auto; apply dedges_In; eauto. }
      destruct X as (e' & He' & E1 & E2). destruct (moved_edge t F e' k H He' Hk) as (z' & Ez'). rewrite E1, E2, Ez in Ez'.
      exists (z + z')%Z. rewrite Ez', ZQ_add. ring.
  Qed.
  Lemma differ_moved t v : is_vertex g v -> is_vertex g (t v) -> differ_by_integers (pos v) (pos (t v)) <-> forall k, k < d -> exists z, moved t v k = ZQ z.
  Proof.
    intros Hv Ht. unfold differ_by_integers. rewrite !(pl_len _ _ _ P) by auto. unfold moved, coord, pget. split.
    - intros [_ H] k Hk. destruct (H k Hk) as (z & Ez). exists (- z)%Z. rewrite ZQ_opp, <- Ez. ring.
    - intros H. split; auto. intros k Hk. destruct (H k Hk) as (z & Ez). exists (- z)%Z. rewrite ZQ_opp, <- Ez. ring.
  Qed.
  Lemma ladder_at t F v : trans g pos t F -> is_vertex g v -> ladder_move chk g t F <-> t v <> v /\ differ_by_integers (pos v) (pos (t v)).
  Proof.
    intros H Hv. pose proof (translation_trans chk g pos So P CC LS t F) as T. split.
    - intros (_ & u & p & q & Hu & Hn & Ep & Eq & D).
      assert (Hut : is_vertex g (t u)) by (eapply trans_vertex; eauto). assert (Hvt : is_vertex g (t v)) by (eapply trans_vertex; eauto).
      rewrite (pl_ret _ _ _ P) in Ep, Eq by auto. injection Ep as <-. injection Eq as <-. split.
      + intros E. apply Hn. apply (trans_eq g pos CC LS t F (fun v => v) (fun e => e) v H); auto. apply trans_id.
      + apply differ_moved; auto. intros k Hk. destruct (moved_all t F u v k H Hu Hv Hk) as (z & ->).
        destruct (proj1 (differ_moved t u Hu Hut) D k Hk) as (z' & ->). exists (z' + z)%Z. rewrite ZQ_add. auto.
    - intros [N D]. split; [apply T; auto|]. exists v, (pos v), (pos (t v)). splits; auto; apply (pl_ret _ _ _ P); auto. eapply trans_vertex; eauto.
  Qed.

  Lemma differ_mod1 p : length p = d -> differ_by_integers (repeat 0%Qc d) p -> mod1 p = repeat 0%Qc d.
  Proof.
    intros L [_ H]. rewrite repeat_length in H. apply (nth_ext _ _ 0%Qc 0%Qc); [unfold mod1; rewrite map_length, repeat_length; auto|].
    unfold mod1. rewrite map_length, L. intros k Hk. rewrite (nth_indep _ 0%Qc (qrem1 0%Qc)), map_nth by (rewrite map_length; lia).
    destruct (H k Hk) as (z & Ez). unfold coord in Ez. rewrite !nth_repeat in *.
    assert (E : nth k p 0%Qc = ZQ (- z)) by (rewrite ZQ_opp, <- Ez; ring). rewrite E. unfold qrem1.
    destruct (RatLattice.ZQ_den (- z)) as [-> ->]. rewrite Z.quot_1_r. ring.
  Qed.
  Lemma place_spec v0 v : is_vertex g v -> pos v0 = repeat 0%Qc d -> p_eqb (mod1 (pos v)) (mod1 (pos v0)) = true <-> differ_by_integers (pos v0) (pos v).
  Proof.
    intros Hv E0. rewrite E0, mod1_zero. pose proof (pl_len _ _ _ P v Hv) as L. destruct (p_eqb_spec (mod1 (pos v)) (repeat 0%Qc d)) as [E|N].
    - split; auto. intros _. destruct (mod1_differ g (pos v) E L) as [L' D]. rewrite L in D. split; [auto|]. rewrite repeat_length. intros k Hk. destruct (D k Hk) as (z & Ez).
      exists (- z)%Z. rewrite ZQ_opp, <- Ez. ring.
    - split; [discriminate|]. intros D. exfalso. apply N. apply differ_mod1; auto.
  Qed.
  Lemma ladder_vertex v0 v : is_vertex g v0 -> pos v0 = repeat 0%Qc d -> trel g pos v0 v -> v <> v0 ->
    p_eqb (mod1 (pos v)) (mod1 (pos v0)) = true <-> exists t F, ladder_move chk g t F /\ t v0 = v.
  Proof.
    intros Hv0 E0 (t & F & Ht & Et) Nv. assert (Hv : is_vertex g v) by (rewrite <- Et; eapply trans_vertex; eauto).
    rewrite place_spec by auto. split.
    - intros D. exists t, F. split; auto. apply (ladder_at t F v0); auto. rewrite Et. auto.
    - intros (t' & F' & L & E'). pose proof L as [Sy _]. apply (translation_trans chk g pos So P CC LS) in Sy.
      apply (ladder_at t' F' v0) in L; auto. rewrite E' in L. apply L.
  Qed.

  Lemma ladder_ok : exists b, is_ladder chk g = Ret b /\ (b = true <-> exists t F, ladder_move chk g t F).
  Proof.
    pose proof (so_fits _ _ So) as Fi. pose proof (so_stable _ _ So) as St.
    destruct (raw_orbits_ok chk g pos C P Hd CC NE LS) as (p & p' & cls & ops & v0 & r & cls' & Nv & E & Ec & G & R & Hp & Ecl & E0 & ND & Hvs & Hhd).
    assert (Hv0 : is_vertex g v0) by (apply Hvs; simpl; auto).
    assert (Cl : forall v, In v (v0 :: r) <-> is_vertex g v /\ trel g pos v0 v).
    { pose proof Hp as (_ & _ & _ & F). destruct (vertices g) as [|v0' vs] eqn:Ev; [congruence|]. destruct F as (c & c' & r2 & F1 & F2 & F3). cbn [hd] in Hhd. subst c v0'.
      rewrite Ecl in F1. injection F1 as <- <-. intros v. rewrite F3, <- Ev, vertices_In. tauto. }
    assert (Main : existsb (fun v => p_eqb (mod1 (pos v)) (mod1 (pos v0))) r = true <-> exists t F, ladder_move chk g t F).
    { rewrite existsb_exists. split.
      - intros (v & Hv & X). assert (Nv0 : v <> v0) by (inversion ND; congruence). destruct (proj1 (Cl v)) as [_ T]; [simpl; auto|].
        apply (ladder_vertex v0 v) in X; auto. destruct X as (t & F & L & _). eauto.
      - intros (t & F & L). pose proof L as [Sy _]. apply (translation_trans chk g pos So P CC LS) in Sy.
        pose proof (proj1 (ladder_at t F v0 Sy Hv0) L) as [N D]. assert (T : trel g pos v0 (t v0)) by (exists t, F; auto).
        assert (I : In (t v0) (v0 :: r)) by (apply Cl; split; auto; eapply trans_vertex; eauto). destruct I as [I|I]; [congruence|].
        exists (t v0). split; auto. apply ladder_vertex; eauto. }
    unfold is_ladder. rewrite St. cbn [bind assert].
    destruct (Props_Placement.C34_is_stable chk g v0 (pos v0) C Hd Fi) as (b & Eb & Hb); [apply (pl_ret _ _ _ P); auto|].
    rewrite Eb. cbn [bind]. destruct b.
    - exists false. split; auto. split; [discriminate|]. intros (t & F & Sy & u & x & y & Hu & Nu & Ex & Ey & D). exfalso.
      apply (proj1 Hb eq_refl u (t u) x y); auto. apply (sym_vertex _ _ _ _ _ Sy); auto.
    - unfold raw_translational_orbits. rewrite E. cbn [bind]. rewrite Ec. cbn [omap bind snd]. rewrite Ecl. cbn [nth_error unwrap bind].
      rewrite (same_place_ret chk g pos P) by auto. eexists. split; [reflexivity|]. exact Main.
  Qed.

  Lemma ladder_symmetries_ok : exists l, ladder_symmetries chk g = Ret l /\
    (forall a, In a l -> exists t F, ladder_move chk g t F /\ represents g a t F /\ xform a = affine_map d identity_matrix (fun _ => 0%Qc)) /\
    (forall t F, ladder_move chk g t F -> exists a, In a l /\ represents g a t F) /\
    NoDup (map (fun a => vact a (hd 0 (vertices g))) l).
  Proof.
    pose proof (so_fits _ _ So) as Fi. pose proof (so_stable _ _ So) as St.
    destruct (raw_orbits_ok chk g pos C P Hd CC NE LS) as (p & p' & cls & ops & v0 & r & cls' & Nv & E & Ec & G & R & Hp & Ecl & E0 & ND & Hvs & Hhd).
    assert (Hv0 : is_vertex g v0) by (apply Hvs; simpl; auto). rewrite Hhd.
    assert (Cl : forall v, In v (v0 :: r) <-> is_vertex g v /\ trel g pos v0 v).
    { pose proof Hp as (_ & _ & _ & F). destruct (vertices g) as [|v0' vs] eqn:Ev; [congruence|]. destruct F as (c & c' & r2 & F1 & F2 & F3). cbn [hd] in Hhd. subst c v0'.
      rewrite Ecl in F1. injection F1 as <- <-. intros v. rewrite F3, <- Ev, vertices_In. tauto. }
    unfold ladder_symmetries. rewrite St. cbn [bind assert]. unfold raw_translational_orbits. rewrite E. cbn [bind]. rewrite Ec. cbn [omap bind snd]. rewrite Ecl.
    cbn [nth_error unwrap bind skipn]. rewrite (pl_ret _ _ _ P) by auto. cbn [bind]. rewrite aff_identity_am by auto. cbn [bind].
    match goal with |- exists l, foldM ?st _ _ = _ /\ _ => set (step := st) end.
    assert (Gen : forall vs acc, (forall v, In v vs -> In v r) -> NoDup vs ->
      exists l, foldM step acc vs = Ret (acc ++ l) /\
        (forall a, In a l -> exists t F, ladder_move chk g t F /\ represents g a t F /\ xform a = am d Matrix.delta (fun _ => 0%Qc)) /\
        (forall t F, ladder_move chk g t F -> In (t v0) vs -> exists a, In a l /\ represents g a t F) /\
        NoDup (map (fun a => vact a v0) l) /\ (forall a, In a l -> In (vact a v0) vs)).
    { induction vs as [|v vs IH]; intros acc I N; cbn [foldM].
      - exists []. rewrite app_nil_r. splits; try constructor; try (intros a []); intros t F _ [].
      - apply NoDup_cons_iff in N as [N1 N2].
        assert (Nv0 : v <> v0) by (intros ->; inversion ND as [|? ? N0 _]; apply N0, I; simpl; auto).
        assert (Iv : In v (v0 :: r)) by (right; apply I; simpl; auto). apply Cl in Iv as [Hv T].
        unfold step at 1. rewrite (pl_ret _ _ _ P) by auto. cbn [bind].
        pose proof (ladder_vertex v0 v Hv0 E0 T Nv0) as LV.
        destruct (p_eqb (mod1 (pos v)) (mod1 (pos v0))) eqn:Eq.
        + destruct (automorphism_valid chk g pos C P CC LS Matrix.delta (fun _ => 0%Qc) v0 v (linj_delta d) Hv0) as (iso & Ea & Ha).
          change (Vec.r0 (R := Qc)) with 0%Qc. rewrite Ea. cbn [bind].
          destruct (proj1 LV eq_refl) as (t & F & L & Et). pose proof L as [Sy _]. apply (translation_trans chk g pos So P CC LS) in Sy.
          destruct iso as [iso|]; [|exfalso; apply (Ha t F); auto; apply trans_delta; auto]. cbn [unwrap bind].
          destruct Ha as (Hh & Hx & Ev & (_ & _ & Hr1 & Hr2) & _). apply trans_delta in Hh.
          destruct (hom_unique g pos (conn g CC) LS (fun x => x) t F (vact iso) (act iso) v0 Sy Hh Hv0 ltac:(congruence)) as [Uv Ue].
          assert (Rp : represents g iso t F) by (apply (represents_ext g iso (vact iso) (act iso)); [intros; symmetry; auto|intros; symmetry; auto|apply represents_holds; auto]).
          destruct (IH (acc ++ [iso]) ltac:(intros x Hx'; apply I; simpl; auto) N2) as (l & El & Q1 & Q2 & Q3 & Q4).
          exists (iso :: l). rewrite El, <- app_assoc. splits; auto.
          * intros a [<-|Ha]; auto. exists t, F. auto.
          * intros t' F' L' [Ev'|I'].
            -- exists iso. split; [simpl; auto|]. pose proof L' as [Sy' _]. apply (translation_trans chk g pos So P CC LS) in Sy'.
               destruct (hom_unique g pos (conn g CC) LS (fun x => x) t F t' F' v0 Sy Sy' Hv0 ltac:(congruence)) as [U1 U2]. apply (represents_ext g iso t F); auto.
            -- destruct (Q2 t' F' L' I') as (a & Ha & Ra). exists a. simpl; auto.
          * cbn [map]. constructor; auto. intros In'. apply in_map_iff in In' as (a & Ea' & Ia). apply N1. rewrite <- Ev, <- Ea'. apply Q4. auto.
          * intros a [<-|Ha]; [simpl; auto|]. right. apply Q4. auto.
        + destruct (IH acc ltac:(intros x Hx'; apply I; simpl; auto) N2) as (l & El & Q1 & Q2 & Q3 & Q4).
          exists l. cbn [bind]. rewrite El. splits; auto.
          * intros t F L [Et|I']; auto. exfalso. assert (X : false = true) by (apply LV; exists t, F; auto). discriminate.
          * intros a Ha. right. apply Q4. auto. }
    destruct (Gen r [] ltac:(auto) ltac:(inversion ND; auto)) as (l & El & Q1 & Q2 & Q3 & Q4). cbn [app] in El.
    exists l. splits; auto.
    - intros a Ha. destruct (Q1 a Ha) as (t & F & L & Rp & X). exists t, F. splits; auto. rewrite X. unfold am, affine_map. f_equal. apply mk_ext.
      intros i j _ _. unfold identity_matrix, Matrix.delta. rewrite Nat.eqb_sym. destruct (j =? i); reflexivity.
    - intros t F L. apply Q2; auto. pose proof L as [Sy _]. apply (translation_trans chk g pos So P CC LS) in Sy.
      destruct (proj1 (ladder_at t F v0 Sy Hv0) L) as [N D].
      assert (X : In (t v0) (v0 :: r)) by (apply Cl; split; [eapply trans_vertex; eauto|exists t, F; auto]). destruct X as [X|X]; [congruence|auto].
  Qed.
End L.

(** ** C62 *)
Theorem C62_is_ladder : forall chk g, sound chk g ->
  exists b, is_ladder chk g = Ret b /\ (b = true <-> exists t F, ladder_move chk g t F).
Proof. intros chk g So. destruct (setup chk g So) as (pos & P & CC & LS). apply (ladder_ok chk g pos); auto. Qed.
Print Assumptions C62_is_ladder.

(** such a translation moves every vertex, and leaves every vertex at its place *)
Theorem C62_everywhere : forall chk g t F v p q, sound chk g -> ladder_move chk g t F -> is_vertex g v ->
  position chk g v = Ret p -> position chk g (t v) = Ret q -> t v <> v /\ differ_by_integers p q.
Proof.
  intros chk g t F v p q So L Hv Ep Eq. destruct (setup chk g So) as (pos & P & CC & LS). pose proof L as [Sy _].
  assert (Hvt : is_vertex g (t v)) by (apply (sym_vertex _ _ _ _ _ Sy); auto). apply (translation_trans chk g pos So P CC LS) in Sy.
  rewrite (pl_ret _ _ _ P) in Ep, Eq by auto. injection Ep as <-. injection Eq as <-. apply (ladder_at chk g pos So P CC LS t F v); auto.
Qed.
Print Assumptions C62_everywhere.

(** the list holds each of these translations once *)
Theorem C62_ladder_symmetries : forall chk g, sound chk g -> exists l, ladder_symmetries chk g = Ret l /\
  (forall a, In a l -> exists t F, ladder_move chk g t F /\ represents g a t F /\ xform a = affine_map (gdim g) identity_matrix (fun _ => 0%Qc)) /\
  (forall t F, ladder_move chk g t F -> exists a, In a l /\ represents g a t F) /\
  (forall i j a b t F, i <> j -> nth_error l i = Some a -> nth_error l j = Some b -> ~ (represents g a t F /\ represents g b t F)).
Proof.
  intros chk g So. destruct (setup chk g So) as (pos & P & CC & LS).
  destruct (ladder_symmetries_ok chk g pos So P CC LS) as (l & El & Q1 & Q2 & Q3). exists l. splits; auto.
  intros i j a b t F N Ea Eb [[Ra _] [Rb _]]. apply N. apply (proj1 (NoDup_nth_error _) Q3).
  - rewrite map_length. apply nth_error_Some. congruence.
  - rewrite !nth_error_map, Ea, Eb. cbn [option_map]. f_equal. destruct (so_vertex _ _ So) as [u Hu]. apply vertices_In in Hu.
    assert (Hv : is_vertex g (hd 0 (vertices g))) by (apply vertices_In; destruct (vertices g); [destruct Hu|simpl; auto]).
    unfold vact. rewrite (proj2 (Ra _ _) (conj Hv eq_refl)), (proj2 (Rb _ _) (conj Hv eq_refl)). auto.
Qed.
Print Assumptions C62_ladder_symmetries.

Theorem C62_refused : forall chk g, is_locally_stable chk g = Ret false -> is_ladder chk g = Panic /\ ladder_symmetries chk g = Panic.
Proof. intros chk g E. unfold is_ladder, ladder_symmetries. rewrite E. auto. Qed.

(** two parallel chains, joined by rungs that have the length zero in the barycentric placement *)
Definition two_chains : graph := gnew 1 [Edge 1 1 [1]; Edge 2 2 [1]; Edge 1 2 [0]]%Z.
Lemma two_chains_sound : sound chk64 two_chains.
Proof.
  split; [| | |vm_compute; reflexivity|vm_compute; reflexivity|].
  - eexists. split; [|reflexivity]. intros e He. repeat (destruct He as [<-|He]; [reflexivity|]). destruct He.
  - vm_compute; lia.
  - split; [vm_compute; reflexivity|]. right. splits; auto; [vm_compute; discriminate|]. exists 1%Z. split; [|vm_compute; discriminate].
    intros e x He Hx. vm_compute in He. repeat (destruct He as [<-|He]; [simpl in Hx; intuition lia|]). destruct He.
  - exists 1. apply vertices_In. vm_compute. auto.
Qed.
Example C62_case : is_ladder chk64 two_chains = Ret true /\ is_ladder chk64 sql2 = Ret false /\
  exists a, ladder_symmetries chk64 two_chains = Ret [a] /\ vmap a = [(1, 2); (2, 1)].
Proof. splits; try (vm_compute; reflexivity). eexists. split; vm_compute; reflexivity. Qed.
