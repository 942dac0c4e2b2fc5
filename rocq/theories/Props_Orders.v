(** Property C100: sizes of orbits and of the group of symmetries that src/symmetries.rs and src/pgraphs.rs report. *)
From Coq Require Import List ZArith Lia Bool PeanoNat QArith Qcanon Permutation.
From Verif Require Import Base Partition Vec Elim Scalars Matrix LinAlg Geometry ZQ QcTac ModSolver ModSolve OrdSet PGraph Net PGraphBase Traverse Placement Placed Stability Lattices RatLattice Periodic Symmetries Automorph Group SymFront Orbits NetAuto Invariance SymComplete GroupOrder.
From Verif Require Import Props_PGraph Props_Placement Props_Symmetries Props_Complete Props_Net Props_MinImage Props_NetSymmetry.
Import ListNotations.
Close Scope Q_scope. Close Scope Qc_scope.
Open Scope nat_scope.

(** ** specification.  sound, represents, identity_matrix, affine_map are in Props_Symmetries.v, translation_symmetry in Props_MinImage.v,
    net_isomorphism and periodic_map in NetAuto.v; nodup and count_occ are those of the standard library. *)
Definition keeps_vertex (v : nat) (a : auto) : bool := match aget Nat.eqb v (vmap a) with Some w => w =? v | None => false end.
Definition keeps_edge (e : edge) (a : auto) : bool := match aget edge_eqb e (emap a) with Some x => edge_eqb x e || edge_eqb x (rev e) | None => false end.
Definition qc_dec (x y : Qc) : {x = y} + {x <> y} := Qc_eq_dec x y.
Definition mat_dec (x y : mat Qc) : {x = y} + {x <> y}.
Proof. decide equality; [apply (list_eq_dec qc_dec)|apply Nat.eq_dec|apply Nat.eq_dec]. Defined.
(** equality of the affine maps of two Automorphism values *)
Definition aff_dec (x y : affmap) : {x = y} + {x <> y}.
Proof. decide equality; apply mat_dec. Defined.
(** the affine map of a translation, as it is stored (its shift is 0) *)
Definition translation_map (d : nat) : affmap := affine_map d identity_matrix (fun _ => 0%Qc).

Lemma part_NoDup {T} (c : list T) cls : In c cls -> NoDup (concat cls) -> NoDup c.
Proof.
  intros Hc. induction cls as [|c' cls IH]; [destruct Hc|]. cbn [concat]. intros N. destruct Hc as [->|Hc].
  - revert N. generalize (concat cls). clear. induction c as [|x l IH]; intros l' ND; constructor; inversion ND as [|? ? N ND']; subst; [|eapply IH; eauto].
    intros I. apply N. apply in_or_app; auto.
  - apply IH; auto. revert N. clear. induction c' as [|x l IH]; simpl; auto. intros N. inversion N; auto.
Qed.
Lemma part_class {T} (R : T -> T -> Prop) elms cls c v : classes_under R elms cls -> NoDup elms -> In c cls -> In v c ->
  NoDup c /\ forall w, In w c <-> In w elms /\ R v w.
Proof.
  intros (Pm & _ & H) ND Hc Hv. assert (NDc : NoDup (concat cls)) by (eapply Permutation_NoDup; [apply Permutation_sym|]; eauto).
  split; [eapply part_NoDup; eauto|]. assert (I : forall w c', In c' cls -> In w c' -> In w elms) by (intros; eapply Permutation_in; eauto; apply in_concat; eauto).
  intros w. split.
  - intros Hw. split; eauto. apply H; eauto.
  - intros [Hw R']. apply H in R' as (c' & Hc' & Hv' & Hw'); eauto. replace c with c'; auto.
    clear - NDc Hc Hv Hc' Hv'. induction cls as [|d cls IH]; [destruct Hc|]. cbn [concat] in NDc.
    assert (Dis : forall x, In x d -> In x (concat cls) -> False).
    { clear - NDc. induction d as [|y d IH]; intros x Hx Hx'; [destruct Hx|]. simpl in NDc. inversion NDc as [|? ? N ND]; subst. destruct Hx as [->|Hx]; [|eauto]. apply N. apply in_or_app; auto. }
    assert (ND2 : NoDup (concat cls)) by (clear - NDc; induction d; simpl in *; auto; inversion NDc; auto).
    destruct Hc as [->|Hc], Hc' as [->|Hc']; auto; exfalso; apply (Dis v); auto; apply in_concat; eauto.
Qed.

Section S.
  Variables (chk : Z -> outcome Z) (g : graph) (syms : list auto).
  Hypothesis So : sound chk g.
  Hypothesis Es : symmetries chk g = Ret syms.

  Lemma group_facts : exists pos id gens, Placed chk g pos /\ (forall a c, is_node g a -> is_node g c -> joined g a c) /\
    (forall v, NoDup (map (evec (gdim g) pos) (inc g v))) /\ (forall e, act id e = e) /\ (forall v, vact id v = v) /\ is_closure g pos id gens syms.
  Proof.
    destruct (setup chk g So) as (pos & P & CC & LS). destruct So as [C Hd Fi Cn St NE].
    destruct (symmetries_ok chk g pos C P Hd CC NE LS St) as (id & gens & res & Eid & Vid & Aid & Avid & Es' & Cl). rewrite Es in Es'. injection Es' as <-.
    exists pos, id, gens. splits; auto.
  Qed.

  Lemma vertex_orbit cls c v : vertex_orbits chk g = Ret cls -> In c cls -> In v c -> length syms = length c * length (filter (keeps_vertex v) syms).
  Proof.
    intros Ec Hc Hv. destruct group_facts as (pos & id & gens & P & CC & LS & Aid & Avid & Cl).
    destruct (C40_vertex_orbits chk g So) as (syms' & cls' & Es' & Ec' & Hp). rewrite Es in Es'. injection Es' as <-. rewrite Ec in Ec'. injection Ec' as <-.
    pose proof (so_constructed _ _ So) as C.
    destruct (part_class _ _ _ c v Hp (usort_NoDup _ nat_cmp_laws _) Hc Hv) as (NDc & Hin). assert (Vv : is_vertex g v) by (apply vertices_In, Hin; auto).
    assert (K : forall a, In a syms -> aget Nat.eqb v (vmap a) = Some (vact a v)) by (intros a Ha; destruct (cl_valid _ _ _ _ _ Cl a Ha) as (m & V); exact (valid_vget g pos a m v V Vv)).
    assert (KV : forall a w, In a syms -> is_vertex g w -> is_vertex g (vact a w)) by (intros a w Ha Hw; destruct (cl_valid _ _ _ _ _ Cl a Ha) as (m & V); eapply valid_vact; eauto).
    assert (Act : forall a b t, In a syms -> In b syms -> In t syms -> (forall e, In e (dedges g) -> act b e = act t (act a e)) -> forall w, is_vertex g w -> vact b w = vact t (vact a w)).
    { intros a b t Ha Hb Ht E w Hw. apply vertices_dedges in Hw as (e & He & <-). destruct (cl_valid _ _ _ _ _ Cl a Ha) as (ma & Va), (cl_valid _ _ _ _ _ Cl b Hb) as (mb & Vb), (cl_valid _ _ _ _ _ Cl t Ht) as (mt & Vt).
      rewrite (valid_head g pos b mb), (valid_head g pos a ma), (valid_head g pos t mt), E; auto. eapply valid_act; eauto. }
    refine (orbit_stabiliser syms (dedges g) act _ _ _ _ Nat.eq_dec (fun a => vact a v) c (keeps_vertex v) NDc _ _ _ _).
    - intros a e Ha He. destruct (cl_valid _ _ _ _ _ Cl a Ha) as (m & V). eapply valid_act; eauto.
    - apply (cl_nd _ _ _ _ _ Cl).
    - intros a b Ha Hb. destruct (res_mul g pos id gens syms Cl a b Ha Hb) as (x & Hx & E & _). eauto.
    - intros a Ha. destruct (res_inv g pos CC LS id gens syms Aid Cl a Ha) as (b & Hb & E & _). eauto.
    - intros w Hw. apply Hin in Hw as (_ & a & Ha & E). rewrite K in E by auto. injection E as E. eauto.
    - intros a Ha. apply Hin. split; [apply vertices_In; auto|]. exists a. auto.
    - intros t a b Ht Ha Hb Pa E. unfold keeps_vertex in Pa. rewrite K in Pa by auto. apply Nat.eqb_eq in Pa. rewrite (Act a b t) by auto. rewrite Pa. auto.
    - intros t s a b Ht Hs Ha Hb Ei Ea E. unfold keeps_vertex. rewrite K by auto. apply Nat.eqb_eq. rewrite (Act a b s), Ea by auto.
      rewrite <- (Act t id s); auto; [apply (cl_id _ _ _ _ _ Cl)|]. intros e He. rewrite Aid. symmetry. apply Ei; auto.
  Qed.

  Lemma edge_orbit cls c e0 : edge_orbits chk g = Ret cls -> In c cls -> In e0 c -> length syms = length c * length (filter (keeps_edge e0) syms).
  Proof.
    intros Ec Hc Hv. destruct group_facts as (pos & id & gens & P & CC & LS & Aid & Avid & Cl).
    destruct (C40_edge_orbits chk g So) as (syms' & cls' & Es' & Ec' & Hp). rewrite Es in Es'. injection Es' as <-. rewrite Ec in Ec'. injection Ec' as <-.
    pose proof (so_constructed _ _ So) as C.
    assert (Hge : forall e, In e (gedges g) -> In e (dedges g)) by (intros e He; apply dedges_In; eauto).
    assert (Hcn : forall e, In e (gedges g) -> canonical e = e) by (intros e He; apply (c_canon g C); auto).
    assert (Hcd : forall e, In e (dedges g) -> In (canonical e) (gedges g) /\ (canonical e = e \/ canonical e = rev e)).
    { intros e He. apply dedges_In in He as (x & Hx & [->| ->]).
      - rewrite Hcn; auto.
      - rewrite canonical_rev, Hcn by auto. split; auto. right. symmetry. apply rev_rev. }
    destruct (part_class _ _ _ c e0 Hp (c_NoDup g C) Hc Hv) as (NDc & Hin). assert (Ve : In e0 (gedges g)) by (apply Hin; auto).
    pose proof (Hge e0 Ve) as De.
    assert (K : forall a, In a syms -> aget edge_eqb e0 (emap a) = Some (act a e0)) by (intros a Ha; destruct (cl_valid _ _ _ _ _ Cl a Ha) as (m & V); exact (valid_eget g pos a m e0 V De)).
    assert (Into : forall a e, In a syms -> In e (dedges g) -> In (act a e) (dedges g)) by (intros a e Ha He; destruct (cl_valid _ _ _ _ _ Cl a Ha) as (m & V); eapply valid_act; eauto).
    assert (Rv : forall a e, In a syms -> In e (dedges g) -> act a (rev e) = rev (act a e)).
    { intros a e Ha He. destruct (cl_valid _ _ _ _ _ Cl a Ha) as (ma & Va). apply (hom_rev g pos LS ma (vact a) (act a) e); auto. apply (va_hom _ _ _ _ Va). }
    assert (Kp : forall a, In a syms -> keeps_edge e0 a = true <-> act a e0 = e0 \/ act a e0 = rev e0).
    { intros a Ha. unfold keeps_edge. rewrite K, orb_true_iff by auto. destruct (edge_eqb_spec (act a e0) e0), (edge_eqb_spec (act a e0) (rev e0)); intuition congruence. }
    assert (CR : forall x y, canonical x = canonical y -> x = y \/ x = rev y).
    { intros x y E. destruct (canonical_cases x) as [Ex|Ex], (canonical_cases y) as [Ey|Ey]; rewrite Ex, Ey in E; auto.
      - right. rewrite <- E, rev_rev. auto.
      - left. rewrite <- (rev_rev x), E, rev_rev. auto. }
    refine (orbit_stabiliser syms (dedges g) act _ _ _ _ edge_dec (fun a => canonical (act a e0)) c (keeps_edge e0) NDc _ _ _ _); auto.
    - apply (cl_nd _ _ _ _ _ Cl).
    - intros a b Ha Hb. destruct (res_mul g pos id gens syms Cl a b Ha Hb) as (x & Hx & E & _). eauto.
    - intros a Ha. destruct (res_inv g pos CC LS id gens syms Aid Cl a Ha) as (b & Hb & E & _). eauto.
    - intros w Hw. apply Hin in Hw as (Iw & a & Ha & E). rewrite K in E by auto. exists a. split; auto. destruct E as [E|E]; injection E as E; rewrite E, ?canonical_rev; auto.
    - intros a Ha. apply Hin. destruct (Hcd (act a e0) (Into a e0 Ha De)) as [I Cs]. split; auto. exists a. split; auto. rewrite K by auto.
      destruct Cs as [-> | ->]; [left; auto|right]. rewrite rev_rev. auto.
    - intros t a b Ht Ha Hb Pa E. apply Kp in Pa; auto. rewrite E by auto. destruct Pa as [-> | ->]; auto. rewrite Rv, canonical_rev; auto.
    - intros t s a b Ht Hs Ha Hb Ei Ea E. apply Kp; auto. rewrite E by auto. destruct (CR _ _ Ea) as [-> | ->].
      + left. apply Ei; auto.
      + right. rewrite Rv by auto. f_equal. apply Ei; auto.
  Qed.

  Lemma translation_count cls c : is_ladder chk g = Ret false -> translational_orbits chk g = Ret cls -> In c cls ->
    length c = count_occ aff_dec (map xform syms) (translation_map (gdim g)).
  Proof.
    intros La Et Hc. destruct group_facts as (pos & id & gens & P & CC & LS & Aid & Avid & Cl). pose proof (so_constructed _ _ So) as C.
    pose proof (span_edges g pos C CC (so_vertex _ _ So)) as Sp.
    destruct (C41_translational_orbits chk g So La) as (cls' & E & Hp). rewrite Et in E. injection E as <-.
    pose proof (translation_trans chk g pos So P CC LS) as T.
    assert (Hv : exists v, In v c). { destruct Hp as (_ & F & _). rewrite Forall_forall in F. specialize (F c Hc). destruct c as [|v c']; [congruence|]. exists v. simpl; auto. }
    destruct Hv as (v & Hv).
    destruct (part_class _ _ _ c v Hp (usort_NoDup _ nat_cmp_laws _) Hc Hv) as (NDc & Hin). assert (Vv : is_vertex g v) by (apply vertices_In, Hin; auto).
    set (p := fun a => if aff_dec (xform a) (translation_map (gdim g)) then true else false).
    assert (Cnt : count_occ aff_dec (map xform syms) (translation_map (gdim g)) = length (filter p syms)).
    { unfold p. clear. induction syms as [|a l IH]; auto. cbn [map count_occ filter]. destruct (aff_dec (xform a) (translation_map (gdim g))); cbn [length]; auto. }
    assert (Tm : forall a, In a syms -> p a = true <-> trans g pos (vact a) (act a)).
    { intros a Ha. destruct (cl_valid _ _ _ _ _ Cl a Ha) as (m & V). unfold p. destruct (aff_dec (xform a) (translation_map (gdim g))) as [Ex|Ex]; split; auto; try discriminate.
      - intros _. rewrite (va_x _ _ _ _ V) in Ex. apply trans_delta. apply (hom_ext g pos (mapp (gdim g) m)); [|apply (va_hom _ _ _ _ V)].
        intros x Lx. apply mapp_ext. intros i j Hi Hj. rewrite (mk_inj (gdim g) (gdim g) m identity_matrix (f_equal (fun x => lin x) Ex)) by auto.
        unfold identity_matrix, Matrix.delta. rewrite Nat.eqb_sym. destruct (j =? i); reflexivity.
      - intros H. exfalso. apply Ex. rewrite (va_x _ _ _ _ V). unfold translation_map, affine_map. apply am_ext; auto. intros i j Hi Hj.
        rewrite (matrix_determined g pos Sp m Matrix.delta); auto.
        + unfold identity_matrix, Matrix.delta. rewrite Nat.eqb_sym. destruct (i =? j); reflexivity.
        + intros e He. rewrite mapp_delta by apply evec_length. destruct (va_hom _ _ _ _ V e He) as (_ & _ & _ & <-). destruct (H e He) as (_ & _ & _ & <-). auto. }
    rewrite Cnt. rewrite <- (map_length (fun a => vact a v) (filter p syms)). apply Permutation_length. apply NoDup_Permutation; auto.
    - pose proof (NoDup_map_filter _ p syms (cl_nd _ _ _ _ _ Cl)) as ND. revert ND.
      assert (Q : forall l, incl l (filter p syms) -> NoDup (map (key g) l) -> NoDup (map (fun a => vact a v) l)).
      { induction l as [|a l IH]; intros Hl N; cbn [map]; [constructor|]. inversion N as [|? ? N1 N2]; subst. constructor; [|apply IH; auto; intros x Hx; apply Hl; simpl; auto].
        intros I. apply N1. apply in_map_iff in I as (x & Ex & Hx). apply in_map_iff. exists x. split; auto.
        assert (Ha := Hl a (or_introl eq_refl)). assert (Hx' := Hl x (or_intror Hx)). apply filter_In in Ha as [Ha Pa], Hx' as [Hx' Px]. apply Tm in Pa, Px; auto.
        unfold key. apply map_ext_in. intros e He. destruct (Pa e He) as (A1 & A2 & A3 & A4), (Px e He) as (B1 & B2 & B3 & B4).
        apply (same_edge g pos LS); auto; [|congruence]. rewrite A2, B2. destruct (dedges_vertices g e He) as [Hh _].
        apply (trans_eq g pos CC LS _ (act x) _ (act a) v Px Pa Vv Ex); auto. }
      apply Q. apply incl_refl.
    - intros w. rewrite Hin, in_map_iff. split.
      + intros (Hw & t & F & Ht & Ew). destruct (C73_translations chk g t F So Ht) as (syms' & a & Es' & Ha & Ra). rewrite Es in Es'. injection Es' as <-.
        destruct (cl_valid _ _ _ _ _ Cl a Ha) as (m & V). destruct (represents_agree g pos a m t F V Ra) as [Av AF]. exists a. split; [rewrite Av; auto|].
        apply filter_In. split; auto. apply Tm; auto. apply T in Ht. intros e He. destruct (Ht e He) as (B1 & B2 & B3 & B4).
        destruct (dedges_vertices g e He). rewrite !AF, !Av by auto. splits; auto.
      + intros (a & Ew & Ha). apply filter_In in Ha as [Ha Pa]. apply Tm in Pa; auto. split.
        * apply vertices_In. rewrite <- Ew. apply (trans_vertex g pos (vact a) (act a)); auto.
        * exists (vact a), (act a). split; auto. apply T. auto.
  Qed.

  Lemma point_group : length syms = length (nodup aff_dec (map (xform) syms)) * count_occ aff_dec (map (xform) syms) (translation_map (gdim g)).
  Proof.
    destruct group_facts as (pos & id & gens & P & CC & LS & Aid & Avid & Cl). pose proof (so_constructed _ _ So) as C.
    pose proof (span_edges g pos C CC (so_vertex _ _ So)) as Sp.
    assert (Cnt : count_occ aff_dec (map (xform) syms) (translation_map (gdim g)) = length (filter (fun a => if aff_dec (xform a) (translation_map (gdim g)) then true else false) syms)).
    { clear. induction syms as [|a l IH]; auto. cbn [map count_occ filter]. destruct (aff_dec (xform a) (translation_map (gdim g))); cbn [length]; auto. }
    assert (Det : forall a ma b mb, Valid g pos a ma -> Valid g pos b mb -> (forall e, In e (dedges g) -> mapp (gdim g) ma (evec (gdim g) pos e) = mapp (gdim g) mb (evec (gdim g) pos e)) -> xform a = xform b).
    { intros a ma b mb Va Vb H. rewrite (va_x _ _ _ _ Va), (va_x _ _ _ _ Vb). apply am_ext; auto. exact (matrix_determined g pos Sp ma mb H). }
    assert (Tm : forall a m, Valid g pos a m -> (xform a = translation_map (gdim g) <-> forall e, In e (dedges g) -> mapp (gdim g) m (evec (gdim g) pos e) = evec (gdim g) pos e)).
    { intros a m V. rewrite (va_x _ _ _ _ V). split.
      - intros E e He. assert (Em : forall i j, i < gdim g -> j < gdim g -> m i j = identity_matrix i j) by (exact (mk_inj (gdim g) (gdim g) m identity_matrix (f_equal (fun x => lin x) E))).
        rewrite (mapp_ext (gdim g) m Matrix.delta); [apply mapp_delta, evec_length|]. intros i j Hi Hj. rewrite Em by auto. unfold identity_matrix, Matrix.delta. rewrite Nat.eqb_sym. destruct (j =? i); reflexivity.
      - intros H. unfold translation_map, affine_map. apply am_ext; auto. intros i j Hi Hj. rewrite (matrix_determined g pos Sp m Matrix.delta) by (auto; intros e He; rewrite mapp_delta by apply evec_length; auto).
        unfold identity_matrix, Matrix.delta. rewrite Nat.eqb_sym. destruct (i =? j); reflexivity. }
    rewrite Cnt. refine (orbit_stabiliser syms (dedges g) act _ _ _ _ aff_dec xform (nodup aff_dec (map xform syms)) _ _ _ _ _ _).
    - intros a e Ha He. destruct (cl_valid _ _ _ _ _ Cl a Ha) as (m & V). eapply valid_act; eauto.
    - apply (cl_nd _ _ _ _ _ Cl).
    - intros a b Ha Hb. destruct (res_mul g pos id gens syms Cl a b Ha Hb) as (x & Hx & E & _). eauto.
    - intros a Ha. destruct (res_inv g pos CC LS id gens syms Aid Cl a Ha) as (b & Hb & E & _). eauto.
    - apply NoDup_nodup.
    - intros w Hw. apply nodup_In, in_map_iff in Hw as (t & Et & Ht). eauto.
    - intros a Ha. apply nodup_In, in_map, Ha.
    - intros t a b Ht Ha Hb Pa E. destruct (aff_dec (xform a) (translation_map (gdim g))) as [Ta|]; [|discriminate].
      destruct (cl_valid _ _ _ _ _ Cl a Ha) as (ma & Va), (cl_valid _ _ _ _ _ Cl b Hb) as (mb & Vb), (cl_valid _ _ _ _ _ Cl t Ht) as (mt & Vt).
      apply (Det b mb t mt); auto. intros e He.
      destruct (va_hom _ _ _ _ Vb e He) as (_ & _ & _ & <-). destruct (va_hom _ _ _ _ Va e He) as (Ia & _ & _ & Ea). destruct (va_hom _ _ _ _ Vt _ Ia) as (_ & _ & _ & Et).
      rewrite E, Et, Ea by auto. rewrite (proj1 (Tm a ma Va) Ta) by auto. auto.
    - intros t s a b Ht Hs Ha Hb Ei Ea E. destruct (cl_valid _ _ _ _ _ Cl a Ha) as (ma & Va), (cl_valid _ _ _ _ _ Cl b Hb) as (mb & Vb), (cl_valid _ _ _ _ _ Cl t Ht) as (mt & Vt), (cl_valid _ _ _ _ _ Cl s Hs) as (ms & Vs).
      destruct (aff_dec (xform b) (translation_map (gdim g))) as [|N]; auto. exfalso. apply N. apply (Tm b mb Vb). intros e He.
      destruct (va_hom _ _ _ _ Vb e He) as (_ & _ & _ & <-). destruct (va_hom _ _ _ _ Va e He) as (Ia & _ & _ & Eva). destruct (va_hom _ _ _ _ Vt e He) as (It & _ & _ & Evt).
      destruct (va_hom _ _ _ _ Vs _ Ia) as (_ & _ & _ & E1). destruct (va_hom _ _ _ _ Vs _ It) as (_ & _ & _ & E2).
      rewrite E, E1, Eva by auto. rewrite (va_x _ _ _ _ Va), (va_x _ _ _ _ Vt) in Ea.
      rewrite (mapp_ext (gdim g) ma mt), <- Evt, <- E2 by exact (mk_inj (gdim g) (gdim g) ma mt (f_equal (fun x => lin x) Ea)). rewrite (proj1 (Ei e He)). auto.
  Qed.
End S.

(** ** C100.  The number of symmetries is the size of an orbit of vertices times the number of symmetries that keep one of its vertices;
    likewise for edges.  In particular the sizes of the orbits divide the number of symmetries. *)
Theorem C100_vertex_orbit : forall chk g syms cls c v, sound chk g -> symmetries chk g = Ret syms -> vertex_orbits chk g = Ret cls -> In c cls -> In v c ->
  length syms = length c * length (filter (keeps_vertex v) syms).
Proof. intros chk g syms cls c v So Es. exact (vertex_orbit chk g syms So Es cls c v). Qed.
Print Assumptions C100_vertex_orbit.
Theorem C100_edge_orbit : forall chk g syms cls c e, sound chk g -> symmetries chk g = Ret syms -> edge_orbits chk g = Ret cls -> In c cls -> In e c ->
  length syms = length c * length (filter (keeps_edge e) syms).
Proof. intros chk g syms cls c e So Es. exact (edge_orbit chk g syms So Es cls c e). Qed.
Print Assumptions C100_edge_orbit.
(** It is the number of different matrices times the number of translations. *)
Theorem C100_point_group : forall chk g syms, sound chk g -> symmetries chk g = Ret syms ->
  length syms = length (nodup aff_dec (map xform syms)) * count_occ aff_dec (map xform syms) (translation_map (gdim g)).
Proof. intros chk g syms So Es. exact (point_group chk g syms So Es). Qed.
Print Assumptions C100_point_group.
(** If the net is not a ladder, every translational orbit has as many vertices as there are translations among the symmetries, *)
Theorem C100_translations : forall chk g syms cls c, sound chk g -> is_ladder chk g = Ret false -> symmetries chk g = Ret syms -> translational_orbits chk g = Ret cls ->
  In c cls -> length c = count_occ aff_dec (map xform syms) (translation_map (gdim g)).
Proof. intros chk g syms cls c So La Es Et Hc. exact (translation_count chk g syms So Es cls c La Et Hc). Qed.
Print Assumptions C100_translations.
(** so the vertices are as many as the translations times the translational orbits. *)
Theorem C100_vertices : forall chk g syms cls, sound chk g -> is_ladder chk g = Ret false -> symmetries chk g = Ret syms -> translational_orbits chk g = Ret cls ->
  length (vertices g) = length cls * count_occ aff_dec (map xform syms) (translation_map (gdim g)).
Proof.
  intros chk g syms cls So La Es Et. destruct (C41_translational_orbits chk g So La) as (cls' & E & (Pm & _)). rewrite Et in E. injection E as <-.
  rewrite <- (Permutation_length Pm). pose proof (fun c => C100_translations chk g syms cls c So La Es Et) as H. clear - H.
  induction cls as [|c cls IH]; auto. cbn [concat length]. rewrite app_length, IH by (intros x Hx; apply H; simpl; auto). rewrite (H c) by (simpl; auto). lia.
Qed.
Print Assumptions C100_vertices.
(** The orbits that are reported lie between those of the translations and those of all automorphisms of the infinite net: vertices in one
    orbit are linked by an automorphism of the net that respects translations, and vertices linked by a translation symmetry are in one orbit. *)
Theorem C100_between : forall chk g cls v w, sound chk g -> vertex_orbits chk g = Ret cls -> is_vertex g v -> is_vertex g w ->
  ((exists c, In c cls /\ In v c /\ In w c) -> exists M phi, net_isomorphism g g phi /\ periodic_map g M phi /\ phi (v, repeat 0%Z (gdim g)) = (w, repeat 0%Z (gdim g))) /\
  ((exists psi, translation_symmetry g psi /\ fst (psi (v, repeat 0%Z (gdim g))) = w) -> exists c, In c cls /\ In v c /\ In w c).
Proof.
  intros chk g cls v w So Ec Hv Hw. destruct (C40_vertex_orbits chk g So) as (syms & cls' & Es & Ec' & (_ & _ & H)). rewrite Ec in Ec'. injection Ec' as <-.
  specialize (H v w (proj2 (vertices_In g v) Hv) (proj2 (vertices_In g w) Hw)).
  assert (N : forall u, is_vertex g u -> is_node g (u, repeat 0%Z (gdim g))) by (intros u Hu; split; auto; apply repeat_length). split.
  - intros X. apply H in X as (a & Ha & E). destruct (C38_symmetries chk g So) as (syms' & Es' & H1 & _). rewrite Es in Es'. injection Es' as <-.
    destruct (H1 a Ha) as (m & f & F & I & Sy & R & _). apply R in E as [_ Ew].
    destruct (C69_lift chk g m f F (v, repeat 0%Z (gdim g)) (w, repeat 0%Z (gdim g)) So I Sy) as (M & phi & _ & Iso & Per & _ & Ep); auto. eauto.
  - intros X. apply H. apply (orbit_net chk g v w So Hv Hw) in X as (t & F & Sy & E).
    destruct (C73_translations chk g t F So Sy) as (syms' & a & Es' & Ha & R). rewrite Es in Es'. injection Es' as <-. exists a. split; auto. apply R. auto.
Qed.
Print Assumptions C100_between.

(** ** cases: 12 symmetries of the honeycomb net; a net with two translations *)
Example C100_case : exists syms es, symmetries chk64 honeycomb = Ret syms /\ length syms = 12 /\ edge_orbits chk64 honeycomb = Ret [es] /\
  length es = 3 /\ forallb (fun e => length (filter (keeps_edge e) syms) =? 4) es = true /\ vertex_orbits chk64 honeycomb = Ret [[1; 2]] /\
  length (filter (keeps_vertex 1) syms) = 6 /\ count_occ aff_dec (map xform syms) (translation_map 2) = 1.
Proof. eexists _, _. split; [vm_compute; reflexivity|]. splits; vm_compute; reflexivity. Qed.
Example C100_case_translations : exists syms, symmetries chk64 sql2 = Ret syms /\ translational_orbits chk64 sql2 = Ret [[1; 2]] /\
  count_occ aff_dec (map xform syms) (translation_map 2) = 2 /\ length (nodup aff_dec (map xform syms)) = 4 /\ length syms = 8.
Proof. eexists. split; [vm_compute; reflexivity|]. splits; vm_compute; reflexivity. Qed.
