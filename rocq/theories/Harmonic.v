(** Solutions of the placement system are the barycentric placements; the
    maximum principle. *)
From Coq Require Import List ZArith Lia Bool PeanoNat Znumtheory QArith Qcanon.
From Verif Require Import Base Partition Vec Elim Scalars Matrix ZQ QcTac ModSolver ModSolve Dixon ModFinal OrdSet PGraph Net PGraphBase Traverse Props_ModSolver Placement.
From Verif Require ModMC DetZ.
Import ListNotations.
Close Scope Q_scope. Close Scope Qc_scope.
Open Scope nat_scope.

Lemma qs_add n (f g : nat -> Qc) : sumf n (fun i => f i + g i)%Qc = (sumf n f + sumf n g)%Qc.
Proof. exact (sumf_add (R := Qc) n f g). Qed.
Lemma qs_scale n c (f : nat -> Qc) : sumf n (fun i => c * f i)%Qc = (c * sumf n f)%Qc.
Proof. exact (sumf_scale (R := Qc) n c f). Qed.
Lemma qs_zero n (f : nat -> Qc) : (forall i, i < n -> f i = 0%Qc) -> sumf n f = 0%Qc.
Proof. exact (sumf_zero (R := Qc) n f). Qed.
Lemma qs_single n (f : nat -> Qc) k : k < n -> (forall i, i < n -> i <> k -> f i = 0%Qc) -> sumf n f = f k.
Proof. exact (sumf_single (R := Qc) n f k). Qed.

Section H.
  Variable g : graph.
  Hypothesis C : constructed g.
  Notation d := (gdim g).
  Notation V := (vertices g).
  Notation n := (length V).
  Notation Vn l := (nth l (vertices g) 0).

  Lemma sumf_point (y : nat -> Qc) v : is_vertex g v -> sumf n (fun l => if Vn l =? v then y (Vn l) else 0)%Qc = y v.
  Proof.
    intros Hv. destruct (V_index g v Hv) as (i & Hi & <-). rewrite (qs_single n _ i); auto.
    - rewrite Nat.eqb_refl. auto.
    - intros l Hl N. destruct (Nat.eqb_spec (Vn l) (Vn i)) as [E|]; auto. exfalso. apply N, (V_inj g); auto.
  Qed.

  Lemma LA_sum (y : nat -> Qc) i es : i < n -> incl es (dedges g) ->
    sumf n (fun l => ZQ (LA g i l es) * y (Vn l))%Qc = qsum (fun e => y (Vn i) - y (tail e))%Qc es.
  Proof.
    intros Hi. induction es as [|e es IH]; intros I.
    - apply qs_zero. intros. unfold LA. cbn [lsum fold_right]. rewrite ZQ_0. ring.
    - cbn [qsum fold_right]. fold (qsum (fun e => y (Vn i) - y (tail e))%Qc es). rewrite <- IH by (intros x Hx; apply I; simpl; auto).
      assert (Ht : is_vertex g (tail e)) by (eapply dedges_vertices, I; simpl; auto).
      rewrite <- (sumf_point y (tail e) Ht) at 1. rewrite <- (sumf_point y (Vn i) (V_nth g i Hi)) at 1.
      unfold Qcminus. 
      assert (E : forall a b : Qc, (a + - b = a + (- (1)) * b)%Qc) by (intros; ring). rewrite E.
      rewrite <- (qs_scale n (- (1))%Qc). rewrite <- !qs_add. apply sumf_ext. intros l Hl.
      assert (EL : LA g i l (e :: es) = (delta (l =? i)%nat - delta (Vn l =? tail e)%nat + LA g i l es)%Z) by reflexivity.
      rewrite EL, ZQ_add, ZQ_sub. generalize (LA g i l es). intros z.
      assert (Ei : (Vn l =? Vn i) = (l =? i)).
      { destruct (Nat.eqb_spec l i) as [->|N]; [apply Nat.eqb_refl|]. apply Nat.eqb_neq. intros E'. apply N, (V_inj g); auto. }
      rewrite Ei. unfold delta. destruct (l =? i), (Vn l =? tail e); rewrite ?ZQ_0, ?ZQ_1; ring.
  Qed.

  Lemma total_zero (F : edge -> Qc) : (forall e, In e (gedges g) -> F (rev e) = (- F e)%Qc) ->
    sumf n (fun l => qsum F (inc g (Vn l))) = 0%Qc.
  Proof.
    intros A. assert (S : forall es, incl es (dedges g) ->
      sumf n (fun l => qsum F (filter (fun e => head e =? Vn l) es)) = qsum F es).
    { induction es as [|e es IH]; intros I; [apply qs_zero; auto|].
      cbn [qsum fold_right]. fold (qsum F es). rewrite <- IH by (intros x Hx; apply I; simpl; auto).
      assert (Hh : is_vertex g (head e)) by (eapply dedges_vertices, I; simpl; auto).
      rewrite <- (sumf_point (fun _ => F e) (head e) Hh). rewrite <- qs_add. apply sumf_ext. intros l Hl.
      cbn [filter]. rewrite (Nat.eqb_sym (Vn l)). destruct (head e =? Vn l); cbn [qsum fold_right]; auto.
      ring. }
    unfold inc. rewrite S by apply incl_refl. unfold dedges. clear S. induction (gedges g) as [|e es IH]; simpl; auto.
    rewrite IH by (intros; apply A; simpl; auto). rewrite A by (simpl; auto). ring.
  Qed.

  (** barycentric, with shifts given by [s] *)
  Definition bary (s : edge -> Z) (y : nat -> Qc) (v : nat) : Prop :=
    qsum (fun e => y (tail e) + ZQ (s e) - y v)%Qc (inc g v) = 0%Qc.

  Lemma system_row i s (y : nat -> Qc) : 0 < i -> i < n ->
    sumf n (fun l => ZQ (sysA g i l) * y (Vn l))%Qc = ZQ (lsum s (inc g (Vn i))) <-> bary s y (Vn i).
  Proof.
    intros H0 Hi. unfold sysA, bary. destruct (Nat.eqb_spec i 0); [lia|]. rewrite LA_sum by (auto using inc_incl).
    rewrite <- qsum_ZQ.
    assert (E : qsum (fun e => y (tail e) + ZQ (s e) - y (Vn i))%Qc (inc g (Vn i)) =
      (qsum (fun e => ZQ (s e)) (inc g (Vn i)) - qsum (fun e => y (Vn i) - y (tail e)) (inc g (Vn i)))%Qc).
    { rewrite <- qsum_sub. apply qsum_ext. intros; ring. }
    rewrite E. split; intros H.
    - rewrite H. ring.
    - qclra.
  Qed.
  Lemma system_row0 (y : nat -> Qc) : 0 < n -> sumf n (fun l => ZQ (sysA g 0 l) * y (Vn l))%Qc = y (Vn 0).
  Proof.
    intros H0. rewrite (qs_single n _ 0); auto.
    - unfold sysA. simpl. rewrite ZQ_1. apply Qcmult_1_l.
    - intros i Hi N. unfold sysA. simpl. destruct (Nat.eqb_spec i 0); [lia|]. simpl. rewrite ZQ_0. ring.
  Qed.

  Definition antisymmetric (s : edge -> Z) : Prop := forall e, In e (gedges g) -> s (rev e) = (- s e)%Z.

  Lemma bary_first s y : antisymmetric s -> 0 < n -> (forall i, 0 < i -> i < n -> bary s y (Vn i)) -> bary s y (Vn 0).
  Proof.
    intros As Hn H. unfold bary.
    set (F := fun e => (y (tail e) + ZQ (s e) - y (head e))%Qc).
    assert (EF : forall v, qsum (fun e => y (tail e) + ZQ (s e) - y v)%Qc (inc g v) = qsum F (inc g v)).
    { intros v. apply qsum_ext. intros e He. apply inc_In in He as [_ <-]. reflexivity. }
    assert (T : sumf n (fun l => qsum F (inc g (Vn l))) = 0%Qc).
    { apply total_zero. intros e He. unfold F. rewrite As by auto. unfold rev; simpl. rewrite ZQ_opp. ring. }
    rewrite (qs_single n _ 0) in T; auto.
    - rewrite EF. exact T.
    - intros i Hi N. rewrite <- EF. apply H; auto. lia.
  Qed.

  Lemma system_iff s (y : nat -> Qc) : antisymmetric s -> 0 < n ->
    (forall i, i < n -> sumf n (fun l => ZQ (sysA g i l) * y (Vn l))%Qc = ZQ (if i =? 0 then 0%Z else lsum s (inc g (Vn i)))) <->
    y (Vn 0) = 0%Qc /\ forall v, is_vertex g v -> bary s y v.
  Proof.
    intros As Hn. split.
    - intros H. split; [rewrite <- system_row0 by auto; rewrite H by auto; reflexivity|].
      assert (B : forall i, 0 < i -> i < n -> bary s y (Vn i)).
      { intros i H0 Hi. apply system_row; auto. rewrite H by auto. destruct (Nat.eqb_spec i 0); auto; lia. }
      intros v Hv. destruct (V_index g v Hv) as (i & Hi & <-). destruct (Nat.eq_dec i 0) as [->|]; [apply bary_first; auto|apply B; lia].
    - intros [H0 H] i Hi. destruct (Nat.eqb_spec i 0) as [->|].
      + rewrite system_row0, H0 by auto. reflexivity.
      + apply system_row; try lia. apply H, V_nth; auto.
  Qed.

  (** *** maximum principle *)
  Lemma max_exists (y : nat -> Qc) (l : list nat) : l <> [] -> exists m, In m l /\ forall v, In v l -> (y v <= y m)%Qc.
  Proof.
    induction l as [|x l IH]; [congruence|]. intros _. destruct l as [|x' l].
    - exists x. split; [simpl; auto|]. intros v [->|[]]. apply Qcle_refl.
    - destruct IH as (m & Hm & M); [congruence|]. destruct (Qc_le_lt_dec (y x) (y m)) as [L|L].
      + exists m. split; [right; auto|]. intros v [->|Hv]; auto.
      + exists x. split; [left; auto|]. intros v [->|Hv]; [apply Qcle_refl|]. specialize (M v Hv). qclra.
  Qed.

  Definition harmonic (y : nat -> Qc) (v : nat) : Prop := qsum (fun e => y (tail e) - y v)%Qc (inc g v) = 0%Qc.

  Lemma harmonic_constant y : (forall v w, is_vertex g v -> is_vertex g w -> linked (gedges g) v w) ->
    (forall v, is_vertex g v -> harmonic y v) -> forall v w, is_vertex g v -> is_vertex g w -> y v = y w.
  Proof.
    intros L H v w Hv Hw. destruct (max_exists y V) as (m & Hm & M).
    { intros E. apply vertices_In in Hv. rewrite E in Hv. destruct Hv. }
    apply vertices_In in Hm.
    assert (A : forall u, linked (gedges g) m u -> y u = y m).
    { induction 1 as [|u u' e _ IH He Hu']; auto.
      assert (exists f, In f (inc g u) /\ tail f = u') as (f & Hf & <-).
      { destruct Hu' as [[E1 E2]|[E1 E2]].
        - exists e. rewrite inc_In. splits; auto. apply dedges_In. eauto.
        - exists (rev e). rewrite inc_In. splits; auto. apply dedges_In. eauto. }
      pose proof (proj1 (inc_In _ _ _) Hf) as [Hfd Hfh]. pose proof (dedges_vertices g f Hfd) as [Vu _]. rewrite Hfh in Vu.
      specialize (H u Vu). unfold harmonic in H.
      assert (Z0 : qsum (fun e => y u - y (tail e))%Qc (inc g u) = 0%Qc).
      { rewrite <- (Qcopp_involutive 0). change (- 0)%Qc with 0%Qc. rewrite <- H. 
        assert (E : forall l, qsum (fun e => y u - y (tail e))%Qc l = (- qsum (fun e => y (tail e) - y u) l)%Qc).
        { induction l; simpl; [reflexivity|]. rewrite IHl. ring. }
        rewrite E. auto. }
      assert (NN : forall e, In e (inc g u) -> (0 <= y u - y (tail e))%Qc).
      { intros e' He'. apply inc_In in He' as [Hd' _]. apply dedges_vertices in Hd' as [_ Ht']. apply vertices_In, M in Ht'. rewrite IH. qclra. }
      pose proof (qsum_nonneg_zero _ _ NN Z0 f Hf) as Q. cbv beta in Q. rewrite <- IH. qclra. }
    rewrite (A v), (A w); auto.
  Qed.

  (** *** regularity of the system *)
  Definition idx (v : nat) : nat := match aget Nat.eqb v (combine V (seq 0 n)) with Some i => i | None => 0 end.
  Lemma idx_Vn i : i < n -> idx (Vn i) = i.
  Proof. intros Hi. unfold idx. rewrite aget_combine by (auto using V_NoDup). reflexivity. Qed.

  Lemma harmonic_bary y v : harmonic y v <-> bary (fun _ => 0%Z) y v.
  Proof.
    unfold harmonic, bary. rewrite (qsum_ext _ (fun e => y (tail e) + ZQ 0 - y v)%Qc); [tauto|]. intros. rewrite ZQ_0. ring.
  Qed.

  Lemma ZQ_zs m (f : nat -> Z) : ZQ (zs m f) = sumf m (fun i => ZQ (f i)).
  Proof. induction m; simpl; auto. rewrite ZQ_add, IHm. auto. Qed.

  Lemma lsum_0 {A} (l : list A) : lsum (fun _ => 0%Z) l = 0%Z.
  Proof. induction l; simpl; lia. Qed.

  Lemma det_connected : 0 < n -> (forall v w, is_vertex g v -> is_vertex g w -> linked (gedges g) v w) -> the_det g <> 0%Z.
  Proof.
    intros Hn L D. apply DetZ.singular_null_vector in D as (x & (k & Hk & Nk) & Hx).
    set (y := fun v => ZQ (x (idx v))).
    assert (Y : y (Vn 0) = 0%Qc /\ forall v, is_vertex g v -> bary (fun _ => 0%Z) y v).
    { apply system_iff; [intros e _; reflexivity|auto|]. intros i Hi. rewrite lsum_0.
      assert (E : (if i =? 0 then 0%Z else 0%Z) = 0%Z) by (destruct (_ =? _); auto). rewrite E. rewrite <- (Hx i Hi), ZQ_zs.
      apply sumf_ext. intros l Hl. unfold y. rewrite idx_Vn, ZQ_mul by auto. auto. }
    destruct Y as [Y0 YH].
    assert (E : y (Vn k) = y (Vn 0)).
    { apply (harmonic_constant y L); try (apply V_nth; auto). intros v Hv. apply (proj2 (harmonic_bary _ _)); auto. }
    unfold y in E at 1. rewrite Y0, idx_Vn in E by auto. apply ZQ_eq0 in E. auto.
  Qed.

  Lemma det_disconnected v w : is_vertex g v -> is_vertex g w -> ~ linked (gedges g) v w -> the_det g = 0%Z.
  Proof.
    intros Hv Hw N. 
    assert (Hn : 0 < n). { apply vertices_In in Hv. destruct V; [destruct Hv|simpl; lia]. }
    destruct (Z.eq_dec (the_det g) 0) as [|ND]; auto. exfalso.
    destruct (traverse_ok g C (Vn 0) (V_nth g 0 Hn)) as (t & comp & c & es & _ & T).
    set (y := fun u => if in_dec Nat.eq_dec u comp then 0%Qc else 1%Qc).
    assert (Sv : forall e, In e (dedges g) -> In (head e) comp <-> In (tail e) comp).
    { intros e He. split; intros I; [eapply t_closed; eauto|]. 
      pose proof (t_closed _ _ _ _ _ _ T (rev e)) as Q. apply Q; auto. apply dedges_rev; auto. }
    assert (Y : forall i, i < n -> sumf n (fun l => ZQ (sysA g i l) * y (Vn l))%Qc = sumf n (fun l => ZQ (sysA g i l) * 0)%Qc).
    { intros i Hi. rewrite (qs_zero n (fun l => ZQ (sysA g i l) * 0)%Qc) by (intros; ring).
      assert (H : y (Vn 0) = 0%Qc /\ forall u, is_vertex g u -> bary (fun _ => 0%Z) y u).
      { split.
        - unfold y. destruct (in_dec _ _ _) as [|X]; auto. exfalso. apply X. eapply t_v0; eauto.
        - intros u Hu. apply (proj1 (harmonic_bary _ _)). unfold harmonic. apply qsum_zero. intros e He. apply inc_In in He as [He <-].
          specialize (Sv e He). unfold y. destruct (in_dec _ (tail e) comp), (in_dec _ (head e) comp); try tauto; ring. }
      rewrite (proj2 (system_iff (fun _ => 0%Z) y (fun _ _ => eq_refl) Hn) H i Hi). rewrite lsum_0. destruct (_ =? _); auto. }
    pose proof (ModMC.unique_solution (n := n) (g := sysA g) (y := fun l => y (Vn l)) (z := fun _ => 0%Qc) ND Y) as U. cbv beta in U.
    assert (A : forall u, is_vertex g u -> linked (gedges g) (Vn 0) u).
    { intros u Hu. destruct (V_index g u Hu) as (i & Hi & <-). specialize (U i Hi). unfold y in U.
      destruct (in_dec Nat.eq_dec (Vn i) comp) as [I|]; [|discriminate]. 
      destruct (t_tree _ _ _ _ _ _ T) as (tr & I1 & _ & _ & _ & _ & _ & Lk).
      assert (Lk' : linked tr (Vn 0) (Vn i)) by (apply Lk; auto; eapply t_v0; eauto).
      clear - Lk' I1 T. induction Lk' as [|a b e _ IH He Ho]; [constructor|].
      apply I1 in He. rewrite (t_eq _ _ _ _ _ _ T) in He. apply in_map_iff in He as (f & <- & Hf).
      apply linked_edge with a f; auto. apply (t_es _ _ _ _ _ _ T) in Hf. tauto. }
    apply N. apply linked_trans with (Vn 0); auto. apply linked_sym. auto.
  Qed.
End H.
