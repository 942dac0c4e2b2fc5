(** Proofs about automorphisms as a group (Symmetries.v): composition, equality,
    the multiplicative closure. *)
From Coq Require Import List ZArith Lia Bool PeanoNat QArith Qcanon Permutation.
From Verif Require Import Base Partition Vec Elim Scalars Matrix LinAlg Geometry ZQ QcTac ModSolver ModSolve OrdSet Lattices PGraph Net PGraphBase Traverse Placement Placed Stability Periodic Symmetries Automorph.
From Verif Require GeomMC Props_PGraph Props_Geometry.
Import ListNotations.
Close Scope Q_scope. Close Scope Qc_scope.
Open Scope nat_scope.

(** a matrix applied to a vector *)
Definition mapp (d : nat) (m : nat -> nat -> Qc) (x : point) : point := map (lapp d m (fun k => vget x k)) (seq 0 d).
Lemma mapp_length d m x : length (mapp d m x) = d.
Proof. unfold mapp. rewrite map_length, seq_length. auto. Qed.
Lemma vget_mapp d m x i : i < d -> vget (mapp d m x) i = lapp d m (fun k => vget x k) i.
Proof. intros Hi. unfold mapp. exact (pget_map_seq _ d i Hi). Qed.
Lemma mapp_ext d m m' x : (forall i j, i < d -> j < d -> m i j = m' i j) -> mapp d m x = mapp d m' x.
Proof. intros H. unfold mapp. apply map_ext_in. intros i Hi. apply in_seq in Hi. apply lapp_ext; auto. intros j Hj. apply H; lia. Qed.
Lemma aff_apply_am d m s x : length x = d -> aff_apply (am d m s) x = Ret (mapp d m x).
Proof.
  intros L. unfold aff_apply. rewrite vec_new_cv. cbn [bind]. rewrite L, aff_vector_am. cbn [bind]. rewrite cv_data. reflexivity.
Qed.
Lemma mapp_mul d m m' x : mapp d (lmul d m m') x = mapp d m (mapp d m' x).
Proof.
  unfold mapp at 1 2. apply map_ext_in. intros i Hi. apply in_seq in Hi. rewrite lapp_lmul. apply lapp_ext; auto. intros j Hj. rewrite vget_mapp; auto.
Qed.
Lemma mapp_delta d x : length x = d -> mapp d Matrix.delta x = x.
Proof.
  intros L. apply vec_ext; [rewrite mapp_length; auto|]. rewrite mapp_length. intros i Hi. rewrite vget_mapp by auto. apply lapp_delta; auto.
Qed.
Lemma mapp_vadd d m x y : length x = d -> length y = d -> mapp d m (vadd x y) = vadd (mapp d m x) (mapp d m y).
Proof.
  intros Lx Ly. apply vec_ext; [rewrite vadd_length, !mapp_length; rewrite ?mapp_length; auto|]. rewrite mapp_length. intros i Hi.
  rewrite vget_vadd by (rewrite !mapp_length; auto). rewrite !vget_mapp by auto. rewrite <- lapp_add. apply lapp_ext; auto. intros k Hk. apply vget_vadd. congruence.
Qed.
Lemma mapp_vscale d m c x : length x = d -> mapp d m (vscale c x) = vscale c (mapp d m x).
Proof.
  intros Lx. apply vec_ext; [rewrite vscale_length, !mapp_length; auto|]. rewrite mapp_length. intros i Hi.
  rewrite vget_vscale. rewrite !vget_mapp by auto. unfold lapp. rewrite <- sumf_scale. apply sumf_ext. intros k Hk. rewrite vget_vscale. cbn. ring.
Qed.
Lemma mapp_unit d m k i : k < d -> i < d -> vget (mapp d m (vunit d k)) i = m i k.
Proof.
  intros Hk Hi. rewrite vget_mapp by auto. rewrite <- (lapp_unit d m k i Hk). apply lapp_ext; auto. intros j Hj.
  rewrite vget_vunit. assert (E : (j <? d) = true) by (apply Nat.ltb_lt; auto). rewrite E, andb_true_r. auto.
Qed.

(** injective matrices *)
Definition linj (d : nat) (m : nat -> nat -> Qc) : Prop := forall x y, length x = d -> length y = d -> mapp d m x = mapp d m y -> x = y.
Lemma linj_delta d : linj d Matrix.delta.
Proof. intros x y Lx Ly E. rewrite !mapp_delta in E; auto. Qed.
Lemma linj_mul d m m' : linj d m -> linj d m' -> linj d (lmul d m m').
Proof. intros H H' x y Lx Ly E. rewrite !mapp_mul in E. apply H in E; try apply mapp_length. auto. Qed.
Lemma linj_solves d m x : solves d d d m Matrix.delta x -> linj d m.
Proof.
  intros S. apply GeomMC.Qc_solves_comm in S. intros u v Lu Lv E.
  assert (H : forall w, length w = d -> mapp d x (mapp d m w) = w).
  { intros w Lw. rewrite <- mapp_mul. rewrite <- (mapp_delta d w Lw) at 2. apply mapp_ext. intros i j Hi Hj. apply S; auto. }
  rewrite <- (H u Lu), <- (H v Lv), E. auto.
Qed.

Section G.
  Variables (chk : Z -> outcome Z) (g : graph) (pos : nat -> point).
  Hypothesis C : constructed g.
  Hypothesis P : Placed chk g pos.
  Hypothesis Hd : 0 < gdim g.
  Hypothesis conn : forall v w, is_vertex g v -> is_vertex g w -> linked (gedges g) v w.
  Hypothesis LS : forall v, NoDup (map (evec (gdim g) pos) (inc g v)).
  Notation d := (gdim g).
  Notation ev := (evec d pos).

  Lemma ev_rev e : ev (rev e) = vscale (- (1))%Qc (ev e).
  Proof.
    apply vec_ext; [rewrite vscale_length, !evec_length; auto|]. rewrite evec_length. intros i Hi. rewrite vget_vscale.
    change (vget (ev (rev e)) i) with (pget (ev (rev e)) i). rewrite evec_rev by auto. change (vget (ev e) i) with (pget (ev e) i). cbn. ring.
  Qed.

  Lemma hom_rev m f F e : hom g pos (mapp d m) f F -> In e (dedges g) -> F (rev e) = rev (F e).
  Proof.
    intros H He. destruct (H e He) as (A1 & A2 & A3 & A4). destruct (H (rev e) (dedges_rev g e He)) as (B1 & B2 & B3 & B4).
    apply (same_edge g pos LS); auto using dedges_rev.
    - rewrite B2. cbn [head rev]. auto.
    - rewrite B4, !ev_rev, A4, mapp_vscale by apply evec_length. auto.
  Qed.

  (** the edge map as a function *)
  Definition act (a : auto) (e : edge) : edge := match aget edge_eqb e (emap a) with Some x => x | None => e end.
  Definition vact (a : auto) (v : nat) : nat := match aget Nat.eqb v (vmap a) with Some x => x | None => v end.
  Definition key (a : auto) : list edge := map (act a) (dedges g).

  Record Valid (a : auto) (m : nat -> nat -> Qc) : Prop := {
    va_hom : hom g pos (mapp d m) (vact a) (act a);
    va_inj : linj d m;
    va_x : xform a = am d m (fun _ => 0%Qc);
    va_vnd : NoDup (map fst (vmap a));
    va_end : NoDup (map fst (emap a));
    va_v : forall v, In v (map fst (vmap a)) <-> is_vertex g v;
    va_e : forall e, In e (map fst (emap a)) <-> In e (dedges g) }.

  Lemma aget_keys {K V} (eqb : K -> K -> bool) (Eq : forall x y, reflect (x = y) (eqb x y)) k (m : list (K * V)) :
    In k (map fst m) <-> exists v, aget eqb k m = Some v.
  Proof.
    destruct (aget eqb k m) as [v|] eqn:E.
    - split; eauto. intros _. apply aget_In in E; auto. apply in_map_iff. exists (k, v). auto.
    - apply (aget_None _ Eq) in E. split; [tauto|]. intros (v & H). discriminate.
  Qed.

  Lemma valid_holds a m f F : hom g pos (mapp d m) f F -> linj d m -> xform a = am d m (fun _ => 0%Qc) -> holds g a f F -> Valid a m.
  Proof.
    intros H I X (N1 & N2 & Hv & He).
    assert (Ea : forall e, In e (dedges g) -> act a e = F e).
    { intros e Ie. unfold act. rewrite He. rewrite (proj2 (memb_spec _ edge_eqb_spec e (dedges g)) Ie). auto. }
    assert (Ev : forall v, is_vertex g v -> vact a v = f v).
    { intros v Iv. unfold vact. rewrite Hv. destruct (is_vertex_dec g v); tauto. }
    constructor; auto.
    - intros e Ie. destruct (H e Ie) as (A1 & A2 & A3 & A4). rewrite Ea by auto. destruct (dedges_vertices g e Ie). rewrite !Ev by auto. auto.
    - intros v. rewrite (aget_keys _ Nat.eqb_spec). rewrite Hv. destruct (is_vertex_dec g v); split; try tauto; eauto. intros (? & ?); discriminate.
    - intros e. rewrite (aget_keys _ edge_eqb_spec). rewrite He. destruct (memb edge_eqb e (dedges g)) eqn:M.
      + apply (memb_spec _ edge_eqb_spec) in M. split; eauto.
      + apply (memb_false _ edge_eqb_spec) in M. split; [intros (? & ?); discriminate|tauto].
  Qed.

  Lemma valid_vget a m v : Valid a m -> is_vertex g v -> aget Nat.eqb v (vmap a) = Some (vact a v).
  Proof.
    intros V Hv. apply (va_v _ _ V) in Hv. apply (aget_keys _ Nat.eqb_spec) in Hv as (w & E). unfold vact. rewrite E. auto.
  Qed.
  Lemma valid_eget a m e : Valid a m -> In e (dedges g) -> aget edge_eqb e (emap a) = Some (act a e).
  Proof.
    intros V Hv. apply (va_e _ _ V) in Hv. apply (aget_keys _ edge_eqb_spec) in Hv as (w & E). unfold act. rewrite E. auto.
  Qed.
  Lemma valid_act a m e : Valid a m -> In e (dedges g) -> In (act a e) (dedges g).
  Proof. intros V He. apply (va_hom _ _ V e He). Qed.
  Lemma valid_vact a m v : Valid a m -> is_vertex g v -> is_vertex g (vact a v).
  Proof. intros V He. eapply (hom_vertex g pos); eauto. apply (va_hom _ _ V). Qed.
  Lemma valid_head a m e : Valid a m -> In e (dedges g) -> vact a (head e) = head (act a e).
  Proof. intros V He. symmetry. apply (va_hom _ _ V e He). Qed.

  (** *** identity *)
  Lemma directed_edges_In : exists es, directed_edges g = Ret es /\ (forall e, In e es <-> In e (dedges g)) /\ NoDup es.
  Proof.
    destruct (Props_PGraph.C26_directed_edges g) as (es & E & Pm). exists es. splits; auto.
    - intros e. split; intros H.
      + apply (Permutation_in _ Pm) in H. apply dedges_In. apply in_app_or in H as [H|H]; [eauto|]. apply in_map_iff in H as (x & <- & Hx). eauto.
      + apply (Permutation_in _ (Permutation_sym Pm)). apply dedges_In in H as (x & Hx & [->| ->]); apply in_or_app; auto. right. apply in_map; auto.
    - unfold directed_edges in E. rewrite (mapM_Ret _ (inc g)) in E.
      2: { intros v Hv. apply incidences_vertex, vertices_In; auto. }
      cbn in E. injection E as <-. pose proof (usort_NoDup _ nat_cmp_laws (flat_map (fun e => [head e; tail e]) (gedges g))) as ND.
      fold (vertices g) in ND. revert ND. generalize (vertices g). clear - LS. induction l as [|v vs IH]; intros ND; cbn [map concat]; [constructor|].
      inversion ND as [|? ? N ND']; subst. specialize (IH ND').
      assert (D : forall e, In e (inc g v) -> ~ In e (concat (map (inc g) vs))).
      { intros e He I. apply in_concat in I as (x & Hx & I). apply in_map_iff in Hx as (w & <- & Hw). apply inc_In in He as [_ <-]. apply inc_In in I as [_ I]. congruence. }
      pose proof (NoDup_map_inv _ _ (LS v)) as NDi. revert D NDi. generalize (inc g v). induction l as [|e l IHl]; intros D NDi; cbn [app]; auto.
      inversion NDi as [|? ? N1 N2]; subst. constructor.
      + intros I. apply in_app_or in I as [I|I]; auto. apply (D e); simpl; auto.
      + apply IHl; auto. intros x Hx. apply D. simpl; auto.
  Qed.

  Lemma identity_valid : exists a, auto_identity g = Ret a /\ Valid a Matrix.delta /\ (forall e, act a e = e) /\ (forall v, vact a v = v).
  Proof.
    unfold auto_identity. rewrite aff_identity_am by auto. cbn [bind]. destruct directed_edges_In as (es & E & Ie & ND). rewrite E. cbn [bind].
    eexists. split; [reflexivity|].
    assert (A : forall e, act (Auto (map (fun v => (v, v)) (vertices g)) (map (fun e => (e, e)) es) (am d Matrix.delta (fun _ => 0%Qc))) e = e).
    { intros e. unfold act. cbn [emap]. clear. induction es as [|y l IH]; simpl; auto.
      destruct (edge_eqb_spec e y); auto. }
    assert (B : forall v, vact (Auto (map (fun v => (v, v)) (vertices g)) (map (fun e => (e, e)) es) (am d Matrix.delta (fun _ => 0%Qc))) v = v).
    { intros v. unfold vact. cbn [vmap]. generalize (vertices g). induction l as [|y l IH]; simpl; auto. destruct (Nat.eqb_spec v y); auto. }
    splits; auto. constructor.
    - intros e He. rewrite A, !B. splits; auto. rewrite mapp_delta by apply evec_length. auto.
    - apply linj_delta.
    - reflexivity.
    - cbn [vmap]. rewrite map_map, map_id. apply (usort_NoDup _ nat_cmp_laws).
    - cbn [emap]. rewrite map_map, map_id. auto.
    - intros v. cbn [vmap]. rewrite map_map, map_id. apply vertices_In.
    - intros e. cbn [emap]. rewrite map_map, map_id. auto.
  Qed.

  (** *** composition *)
  Lemma map_fst_pair {K V W} (h : K -> W) (m : list (K * V)) : map fst (map (fun kv => (fst kv, h (fst kv))) m) = map fst m.
  Proof. rewrite map_map. apply map_ext. auto. Qed.
  Lemma aget_pair {K V W} (eqb : K -> K -> bool) (Eq : forall x y, reflect (x = y) (eqb x y)) (h : K -> W) (m : list (K * V)) k :
    In k (map fst m) -> aget eqb k (map (fun kv => (fst kv, h (fst kv))) m) = Some (h k).
  Proof.
    induction m as [|[x y] m IH]; simpl; [tauto|]. intros H. destruct (Eq k x) as [->|N]; auto. destruct H; [congruence|auto].
  Qed.

  Lemma mul_valid a b m m' : Valid a m -> Valid b m' -> exists c, auto_mul a b = Ret c /\ Valid c (lmul d m m') /\
    (forall e, In e (dedges g) -> act c e = act a (act b e)) /\ (forall v, is_vertex g v -> vact c v = vact a (vact b v)).
  Proof.
    intros Va Vb. unfold auto_mul. rewrite (va_x _ _ Va), (va_x _ _ Vb), aff_mul_am by auto. cbn [bind].
    rewrite (mapM_Ret _ (fun kv => (fst kv, vact a (vact b (fst kv))))).
    2: { intros kv Hk. assert (Hv : is_vertex g (fst kv)) by (apply (va_v _ _ Va), in_map; auto).
         rewrite (valid_vget b m' _ Vb Hv). cbn [unwrap bind]. rewrite (valid_vget a m) by (auto; eapply valid_vact; eauto). reflexivity. }
    cbn [bind].
    rewrite (mapM_Ret _ (fun kv => (fst kv, act a (act b (fst kv))))).
    2: { intros kv Hk. assert (Hv : In (fst kv) (dedges g)) by (apply (va_e _ _ Va), in_map; auto).
         rewrite (valid_eget b m' _ Vb Hv). cbn [unwrap bind]. rewrite (valid_eget a m) by (auto; eapply valid_act; eauto). reflexivity. }
    cbn [bind]. eexists. split; [reflexivity|].
    match goal with |- Valid ?c _ /\ _ => assert (A : forall e, In e (dedges g) -> act c e = act a (act b e)) end.
    { intros e He. unfold act at 1. cbn [emap]. rewrite (aget_pair _ edge_eqb_spec (fun e => act a (act b e))) by (apply (va_e _ _ Va); auto). auto. }
    match goal with |- Valid ?c _ /\ _ => assert (B : forall v, is_vertex g v -> vact c v = vact a (vact b v)) end.
    { intros v Hv. unfold vact at 1. cbn [vmap]. rewrite (aget_pair _ Nat.eqb_spec (fun v => vact a (vact b v))) by (apply (va_v _ _ Va); auto). auto. }
    splits; auto. constructor.
    - intros e He. destruct (dedges_vertices g e He). rewrite A, !B by auto.
      destruct (va_hom _ _ Vb e He) as (A1 & A2 & A3 & A4). destruct (va_hom _ _ Va _ A1) as (B1 & B2 & B3 & B4).
      splits; auto; try congruence. rewrite B4, A4, mapp_mul. auto.
    - apply linj_mul; [apply (va_inj _ _ Va)|apply (va_inj _ _ Vb)].
    - cbn [xform]. apply am_ext; auto. intros i Hi. 
      unfold lapp. rewrite sumf_zero; [cbn; ring|]. intros k Hk. cbn. ring.
    - cbn [vmap]. rewrite (map_fst_pair (fun v => vact a (vact b v))). apply (va_vnd _ _ Va).
    - cbn [emap]. rewrite (map_fst_pair (fun v => act a (act b v))). apply (va_end _ _ Va).
    - intros v. cbn [vmap]. rewrite (map_fst_pair (fun v => vact a (vact b v))). apply (va_v _ _ Va).
    - intros v. cbn [emap]. rewrite (map_fst_pair (fun v => act a (act b v))). apply (va_e _ _ Va).
  Qed.

  (** *** equality *)
  Lemma map_eqb_spec {K V} (keqb : K -> K -> bool) (KE : forall x y, reflect (x = y) (keqb x y)) (veqb : V -> V -> bool) (VE : forall x y, reflect (x = y) (veqb x y))
    (a b : list (K * V)) : NoDup (map fst a) -> NoDup (map fst b) -> (forall k, In k (map fst a) <-> In k (map fst b)) ->
    map_eqb keqb veqb a b = true <-> forall k, In k (map fst a) -> aget keqb k a = aget keqb k b.
  Proof.
    intros Na Nb Hk. unfold map_eqb. 
    assert (L : length a = length b).
    { rewrite <- (map_length fst a), <- (map_length fst b). apply Nat.le_antisymm; apply NoDup_incl_length; auto; intros k; apply Hk. }
    rewrite L, Nat.eqb_refl. cbn [andb]. rewrite forallb_forall. split.
    - intros H k Ik. apply in_map_iff in Ik as ([k' v] & <- & Ik). specialize (H _ Ik). cbn [fst snd] in *.
      rewrite (In_aget _ KE k' v a) by auto. destruct (aget keqb k' b) as [w|]; [|discriminate]. destruct (VE v w); congruence.
    - intros H [k v] Ik. cbn [fst snd]. rewrite <- H by (apply in_map_iff; exists (k, v); auto).
      rewrite (In_aget _ KE k v a) by auto. destruct (VE v v); congruence.
  Qed.

  (** the edge vectors span the space *)
  Hypothesis Sp : forall x, length x = d -> span d (map ev (dedges g)) x.

  Lemma ev_lens es : lens d (map ev es).
  Proof. apply Forall_forall. intros x Hx. apply in_map_iff in Hx as (e & <- & _). apply evec_length. Qed.

  Lemma matrix_determined m m' : (forall e, In e (dedges g) -> mapp d m (ev e) = mapp d m' (ev e)) -> forall i j, i < d -> j < d -> m i j = m' i j.
  Proof.
    intros H i j Hi Hj.
    assert (G : forall x, length x = d -> mapp d m x = mapp d m' x).
    { intros x Lx. pose proof (Sp x Lx) as S. assert (Q : length x = d /\ mapp d m x = mapp d m' x); [|tauto].
      clear Lx. revert x S. apply (span_ind d (map ev (dedges g)) (fun x => length x = d /\ mapp d m x = mapp d m' x)).
      - split; [apply vzero_length|]. apply vec_ext; rewrite !mapp_length; auto. intros k Hk. rewrite !vget_mapp by auto. unfold lapp.
        rewrite !sumf_zero; auto; intros l Hl; rewrite vget_vzero; cbn; ring.
      - intros a b [La Ha] [Lb Hb]. split; [rewrite vadd_length; congruence|]. rewrite !mapp_vadd by auto. congruence.
      - intros c a [La Ha]. split; [rewrite vscale_length; auto|]. rewrite !mapp_vscale by auto. congruence.
      - intros w Hw. apply in_map_iff in Hw as (e & <- & He). split; [apply evec_length|auto]. }
    rewrite <- (mapp_unit d m j i), <- (mapp_unit d m' j i) by auto. rewrite G; auto. apply vunit_length.
  Qed.

  Lemma auto_eqb_key a b m m' : Valid a m -> Valid b m' -> auto_eqb a b = true <-> key a = key b.
  Proof.
    intros Va Vb. unfold auto_eqb. rewrite !andb_true_iff.
    rewrite (map_eqb_spec _ Nat.eqb_spec _ Nat.eqb_spec), (map_eqb_spec _ edge_eqb_spec _ edge_eqb_spec);
      try apply (va_vnd _ _ Va); try apply (va_vnd _ _ Vb); try apply (va_end _ _ Va); try apply (va_end _ _ Vb);
      try (intros k; rewrite (va_e _ _ Va), (va_e _ _ Vb); tauto); try (intros k; rewrite (va_v _ _ Va), (va_v _ _ Vb); tauto).
    unfold key. split.
    - intros [[_ H] _]. apply map_ext_in. intros e He. unfold act. rewrite H; auto. apply (va_e _ _ Va); auto.
    - intros E. assert (Ee : forall e, In e (dedges g) -> act a e = act b e) by (apply ext_in_map; auto). splits.
      + intros v Hv. apply (va_v _ _ Va) in Hv. rewrite (valid_vget a m), (valid_vget b m') by auto. f_equal.
        apply vertices_dedges in Hv as (e & He & <-). rewrite (valid_head a m), (valid_head b m') by auto. rewrite Ee; auto.
      + intros e He. apply (va_e _ _ Va) in He. rewrite (valid_eget a m), (valid_eget b m') by auto. f_equal. auto.
      + rewrite (va_x _ _ Va), (va_x _ _ Vb). unfold aff_eqb. rewrite (am_ext d m m' (fun _ => 0%Qc) (fun _ => 0%Qc)); auto.
        * rewrite !(proj2 (Props_Geometry.mat_eqb_spec _ _)) by auto. auto.
        * apply matrix_determined. intros e He. rewrite <- (proj2 (proj2 (proj2 (va_hom _ _ Va e He)))), <- (proj2 (proj2 (proj2 (va_hom _ _ Vb e He)))), Ee; auto.
  Qed.

  Lemma key_mul a b c m' : Valid b m' -> (forall e, In e (dedges g) -> act c e = act a (act b e)) -> key c = map (act a) (key b).
  Proof. intros Vb H. unfold key. rewrite map_map. apply map_ext_in. auto. Qed.
  Lemma key_eq a b : key a = key b -> forall e, In e (dedges g) -> act a e = act b e.
  Proof. intros E. apply ext_in_map. auto. Qed.
  Lemma key_incl a m : Valid a m -> incl (key a) (dedges g).
  Proof. intros V e He. apply in_map_iff in He as (x & <- & Hx). eapply valid_act; eauto. Qed.

  (** *** all words over a list *)
  Fixpoint words {A} (n : nat) (l : list A) : list (list A) :=
    match n with O => [[]] | S n => flat_map (fun w => map (fun x => x :: w) l) (words n l) end.
  Lemma words_In {A} n (l : list A) w : length w = n -> incl w l -> In w (words n l).
  Proof.
    revert w; induction n as [|n IH]; intros [|x w] L I; try discriminate; simpl; auto. apply in_flat_map. exists w. split.
    - apply IH; [simpl in L; lia|]. intros y Hy. apply I. simpl; auto.
    - apply in_map_iff. exists x. split; auto. apply I. simpl; auto.
  Qed.
  Lemma words_length {A} n (l : list A) : length (words n l) = length l ^ n.
  Proof.
    induction n as [|n IH]; auto. simpl. rewrite Nat.mul_comm, <- IH. generalize (words n l). induction l0 as [|w ws IHw]; simpl; auto.
    rewrite app_length, map_length, IHw. auto.
  Qed.

  (** *** the multiplicative closure *)
  Section Closure.
    Variables (id : auto) (gens : list auto).
    Hypothesis Vid : Valid id Matrix.delta.
    Hypothesis id_act : forall e, act id e = e.
    Hypothesis Vg : forall a, In a gens -> exists m, Valid a m.

    (** products of generators *)
    Inductive word : list edge -> Prop :=
    | word_id : word (dedges g)
    | word_mul a b : word (key a) -> In b gens -> word (map (act a) (key b)).

    Record MG (st : list auto * list auto) : Prop := {
      mg_valid : forall a, In a (fst st) -> exists m, Valid a m;
      mg_nd : NoDup (map key (fst st));
      mg_q : incl (snd st) (fst st);
      mg_id : In id (fst st);
      mg_word : forall a, In a (fst st) -> word (key a) }.
    Definition mg_closed (gs : list auto) (res : list auto) (a : auto) : Prop :=
      forall b, In b gs -> exists c, In c res /\ key c = map (act a) (key b).

    Lemma memb_key c m res : Valid c m -> (forall a, In a res -> exists m, Valid a m) -> memb auto_eqb c res = true <-> In (key c) (map key res).
    Proof.
      intros Vc Vr. unfold memb. rewrite existsb_exists, in_map_iff. split.
      - intros (x & Hx & E). destruct (Vr x Hx) as (m' & Vx). apply (auto_eqb_key c x m m') in E; auto. eauto.
      - intros (x & E & Hx). destruct (Vr x Hx) as (m' & Vx). exists x. split; auto. apply (auto_eqb_key c x m m'); auto.
    Qed.

    Lemma mg_fold phi gs st : incl gs gens -> MG st -> In phi (fst st) ->
      exists st', foldM (mg_step phi) st gs = Ret st' /\ MG st' /\ mg_closed gs (fst st') phi /\
        exists new, fst st' = fst st ++ new /\ snd st' = snd st ++ new.
    Proof.
      revert st; induction gs as [|psi gs IH]; intros st Ig M Hp; cbn [foldM].
      - exists st. splits; auto; [intros b []|]. exists []. rewrite !app_nil_r. auto.
      - destruct st as [res q]. destruct M as [Mv Mn Mq Mi Mw]. cbn [fst snd] in *.
        destruct (Mv phi Hp) as (m & Vp). destruct (Vg psi) as (m' & Vs); [apply Ig; simpl; auto|].
        destruct (mul_valid phi psi m m' Vp Vs) as (c & Ec & Vc & Ac & _). unfold mg_step at 1. rewrite Ec. cbn [bind].
        pose proof (key_mul phi psi c m' Vs Ac) as Kc.
        destruct (memb auto_eqb c res) eqn:E.
        + apply (memb_key c _ res Vc Mv) in E. cbn [bind].
          destruct (IH (res, q)) as (st' & E1 & M1 & C1 & new & N1 & N2); auto; [intros x Hx; apply Ig; simpl; auto|split; auto|].
          exists st'. splits; auto; [|exists new; auto]. intros b [<-|Hb]; auto. apply in_map_iff in E as (x & Ex & Hx).
          exists x. split; [rewrite N1; apply in_or_app; auto|]. congruence.
        + assert (NI : ~ In (key c) (map key res)) by (rewrite <- (memb_key c _ res Vc Mv); congruence). cbn [bind].
          destruct (IH (res ++ [c], q ++ [c])) as (st' & E1 & M1 & C1 & new & N1 & N2).
          * intros x Hx; apply Ig; simpl; auto.
          * split; cbn [fst snd].
            -- intros a Ha. apply in_app_or in Ha as [Ha|[<-|[]]]; eauto.
            -- rewrite map_app. apply NoDup_snoc; auto.
            -- intros a Ha. apply in_app_or in Ha as [Ha|[<-|[]]]; apply in_or_app; simpl; auto.
            -- apply in_or_app; auto.
            -- intros a Ha. apply in_app_or in Ha as [Ha|[<-|[]]]; auto. rewrite Kc. constructor; auto. apply Ig; simpl; auto.
          * cbn. apply in_or_app; auto.
          * cbn [fst snd] in *. exists st'. splits; auto.
            -- intros b [<-|Hb]; auto. exists c. split; auto. rewrite N1. apply in_or_app. left. apply in_or_app. simpl; auto.
            -- exists (c :: new). rewrite N1, N2, <- !app_assoc. auto.
    Qed.

    Let k := length (dedges g).
    Definition MGI (st : list auto * list auto) : Prop := MG st /\ forall a, In a (fst st) -> In a (snd st) \/ mg_closed gens (fst st) a.
    Lemma mg_bound st : MG st -> length (fst st) <= k ^ k.
    Proof.
      intros M. assert (E : k ^ k = length (words k (dedges g))) by (rewrite words_length; auto). rewrite E, <- (map_length key). apply NoDup_incl_length; [apply M|].
      intros x Hx. apply in_map_iff in Hx as (a & <- & Ha). destruct (mg_valid _ M a Ha) as (m & V). apply words_In.
      - unfold key. rewrite map_length. auto.
      - eapply key_incl; eauto.
    Qed.

    (** the group generated by the generators *)
    Record is_closure (res : list auto) : Prop := {
      cl_valid : forall a, In a res -> exists m, Valid a m;
      cl_nd : NoDup (map key res);
      cl_id : In id res;
      cl_gens : forall a, In a gens -> exists c, In c res /\ key c = key a;
      cl_mul : forall a b, In a res -> In b res -> exists c, In c res /\ key c = map (act a) (key b);
      cl_word : forall a, In a res -> word (key a) }.

    Lemma mg_ok : exists res, multiplicative_group (group_fuel g) id gens = Ret res /\ is_closure res.
    Proof.
      unfold multiplicative_group.
      destruct (loop_rule (mg_body gens) MGI (fun st => (2 * (Z.of_nat (k ^ k) - Z.of_nat (length (fst st))) + Z.of_nat (length (snd st)))%Z)
        (fun res => MG (res, []) /\ forall a, In a res -> mg_closed gens res a) (group_fuel g) ([id], [id])) as (res & E & M & Cl).
      - intros [res q] [M Cl]. pose proof (mg_bound _ M) as B. cbn [fst snd] in *. unfold mg_body. destruct q as [|phi q].
        + split; auto. intros a Ha. destruct (Cl a Ha) as [[]|]; auto.
        + destruct (mg_fold phi gens (res, q)) as (st' & E1 & M1 & C1 & new & N1 & N2).
          * apply incl_refl.
          * destruct M. split; auto. cbn [fst snd] in *. intros x Hx. apply mg_q0. simpl; auto.
          * apply (mg_q _ M). simpl; auto.
          * rewrite E1. cbn [omap bind]. pose proof (mg_bound _ M1) as B1. destruct st' as [res' q']. cbn [fst snd] in *. subst res' q'.
            split; [split; auto|]; cbn [fst snd].
            -- intros a Ha. apply in_app_or in Ha as [Ha|Ha].
               ++ destruct (Cl a Ha) as [[->|Hq]|Hc]; auto; [left; apply in_or_app; auto|]. right. intros b Hb. destruct (Hc b Hb) as (c & Hc1 & Hc2).
                  exists c. split; auto. apply in_or_app; auto.
               ++ left. apply in_or_app; auto.
            -- rewrite app_length in B1. rewrite !app_length. cbn [length]. lia.
      - split; [split; cbn [fst snd]|]; cbn [fst snd].
        + intros a [<-|[]]. eauto.
        + repeat constructor; auto.
        + apply incl_refl.
        + simpl; auto.
        + intros a [<-|[]]. assert (Ek : key id = dedges g) by (unfold key; rewrite (map_ext _ (fun e => e)) by auto; apply map_id). rewrite Ek. constructor.
        + auto.
      - cbn [fst snd length]. unfold group_fuel.
        assert (Ek : k = 2 * length (gedges g)) by (unfold k, dedges; generalize (gedges g); induction l as [|e l IH]; simpl in *; lia). rewrite <- Ek. clearbody k.
        assert (B : k ^ k <= 2 ^ (k * k)).
        { rewrite Nat.pow_mul_r. apply Nat.pow_le_mono_l. pose proof (Nat.pow_gt_lin_r 2 k). lia. }
        assert (B' : (Z.of_nat (k ^ k) <= 2 ^ Z.of_nat (k * k))%Z).
        { change 2%Z with (Z.of_nat 2). rewrite <- Nat2Z.inj_pow. lia. }
        replace (Z.of_nat (k * k + 2)) with (Z.of_nat (k * k) + 2)%Z by lia. rewrite Z.pow_add_r by lia. change (2 ^ 2)%Z with 4%Z. 
        pose proof (Z.pow_pos_nonneg 2 (Z.of_nat (k * k)) ltac:(lia) ltac:(lia)). lia.
      - exists res. split; auto. destruct M as [Mv Mn Mq Mi Mw]. cbn [fst snd] in *.
        assert (Ek : key id = dedges g) by (unfold key; rewrite (map_ext _ (fun e => e)) by auto; apply map_id).
        constructor; auto.
        + intros a Ha. destruct (Cl id Mi a Ha) as (c & Hc & Kc). exists c. split; auto. rewrite Kc, (map_ext _ (fun e => e)) by auto. apply map_id.
        + intros a b Ha Hb. specialize (Mw b Hb).
          assert (G : forall w, word w -> exists c, In c res /\ key c = map (act a) w).
          { clear b Hb Mw. induction 1 as [|b psi W IH Hp]; [exists a; auto|]. destruct IH as (c0 & Hc0 & Kc0).
            destruct (Cl c0 Hc0 psi Hp) as (c & Hc & Kc). exists c. split; auto. rewrite Kc, map_map. apply map_ext_in. intros e He.
            destruct (Vg psi Hp) as (m & Vp). apply (key_incl psi m Vp) in He. unfold key in Kc0. rewrite map_map in Kc0.
            apply (ext_in_map Kc0). auto. }
          auto.
    Qed.

    Lemma cl_inv res : is_closure res -> forall a, In a res -> exists b, In b res /\ map (act a) (key b) = dedges g /\ map (act b) (key a) = dedges g.
    Proof.
      intros [Hv Hn Hi Hg Hm Hw].
      assert (Ek : key id = dedges g) by (unfold key; rewrite (map_ext _ (fun e => e)) by auto; apply map_id).
      assert (R : forall a, In a res -> exists b, In b res /\ map (act a) (key b) = dedges g).
      { intros a Ha. destruct (Hv a Ha) as (m & Va).
        destruct (inj_surj (list_eq_dec edge_dec) (map (act a)) (map key res)) with (y := dedges g) as (x & Hx & E).
        - intros y Hy. apply in_map_iff in Hy as (b & <- & Hb). destruct (Hm a b Ha Hb) as (c & Hc & <-). apply in_map; auto.
        - assert (G : forall y z, incl y (dedges g) -> incl z (dedges g) -> map (act a) y = map (act a) z -> y = z).
          { induction y as [|e y IH]; intros [|e' z] I1 I2 E; try discriminate; auto. cbn [map] in E. injection E as E1 E2. f_equal.
            - apply (hom_F_inj g pos conn LS (mapp d m) (vact a) (act a)); [apply (va_hom _ _ Va)|apply (va_inj _ _ Va)|apply I1; simpl; auto|apply I2; simpl; auto|auto].
            - apply IH; auto; intros x Hx; [apply I1|apply I2]; simpl; auto. }
          intros y z Hy Hz. apply in_map_iff in Hy as (b & <- & Hb). apply in_map_iff in Hz as (c & <- & Hc).
          destruct (Hv b Hb) as (mb & Vb). destruct (Hv c Hc) as (mc & Vc). apply G; eapply key_incl; eauto.
        - rewrite <- Ek. apply in_map; auto.
        - apply in_map_iff in Hx as (b & <- & Hb). eauto. }
      intros a Ha. destruct (R a Ha) as (b & Hb & Eb). exists b. splits; auto. destruct (R b Hb) as (c & Hc & Ec).
      (* a b = 1 and b c = 1, so a = c *)
      assert (Ac : forall e, In e (dedges g) -> act a (act b e) = e).
      { intros e He. unfold key in Eb. rewrite map_map in Eb. rewrite <- (map_id (dedges g)) in Eb at 2. apply (ext_in_map Eb); auto. }
      assert (Bc : forall e, In e (dedges g) -> act b (act c e) = e).
      { intros e He. unfold key in Ec. rewrite map_map in Ec. rewrite <- (map_id (dedges g)) in Ec at 2. apply (ext_in_map Ec); auto. }
      destruct (Hv c Hc) as (mc & Vc).
      assert (E : forall e, In e (dedges g) -> act a e = act c e).
      { intros e He. rewrite <- (Bc e He) at 1. apply Ac. eapply valid_act; eauto. }
      rewrite <- Ec. f_equal. unfold key. apply map_ext_in. auto.
    Qed.
  End Closure.
End G.
