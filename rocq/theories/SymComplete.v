(** Which symmetries of a net the function symmetries (Symmetries.v) finds. *)
From Coq Require Import List ZArith Lia Bool PeanoNat QArith Qcanon Permutation Relations.
From Verif Require Import Base Partition Vec Elim Scalars Matrix LinAlg Geometry ZQ QcTac ModSolver ModSolve OrdSet Lattices PGraph Net PGraphBase Traverse Placement Placed Stability Periodic Symmetries Automorph Group SymFront Orbits NetAuto Frames.
From Verif Require RankQ Unimod GeomMC RatLattice.
Import ListNotations.
Close Scope Q_scope. Close Scope Qc_scope.
Open Scope nat_scope.

Section F.
  Variables (chk : Z -> outcome Z) (g : graph) (pos : nat -> point).
  Hypothesis C : constructed g.
  Hypothesis P : Placed chk g pos.
  Hypothesis Hd : 0 < gdim g.
  Hypothesis CC : forall a c, is_node g a -> is_node g c -> joined g a c.
  Hypothesis NE : exists v, is_vertex g v.
  Hypothesis LS : forall v, NoDup (map (evec (gdim g) pos) (inc g v)).
  Notation d := (gdim g).
  Notation ev := (evec d pos).
  Notation evs := (map (evec (gdim g) pos)).
  Notation chr := (SymFront.chr g pos).
  Notation mxe := (SymFront.mxe g pos).

  (** *** the matrix of a symmetry is unimodular *)
  Lemma linj_inverse m : linj d m -> exists x, solves d d d m Matrix.delta x /\ linj d x.
  Proof.
    intros I. set (us := map (vunit (R := Qc) d) (seq 0 d)). assert (Lu : lens d us) by (apply Forall_forall; intros v Hv; apply in_map_iff in Hv as (k & <- & _); apply vunit_length).
    assert (Lm : lens d (map (mapp d m) us)) by (apply Forall_forall; intros v Hv; apply in_map_iff in Hv as (k & <- & _); apply mapp_length).
    assert (Lus : length us = d) by (unfold us; rewrite map_length, seq_length; auto).
    assert (R : RankQ.rk d (map (mapp d m) us) = d).
    { transitivity (length (map (mapp d m) us)); [|rewrite map_length; auto]. apply (@RankQ.indep_rk); auto. intros cs Lc E. rewrite map_length in Lc. rewrite (lincomb_mapp g m) in E by auto.
      rewrite map_length, Lus. unfold us in E. rewrite LinAlg.lincomb_units in E by congruence. apply I; [congruence|apply vzero_length|]. rewrite E. exact (lincomb_mapp g m [] [] (Forall_nil _) eq_refl). }
    assert (X : forall k, exists y, length y = d /\ mapp d m y = vunit d k).
    { intros k. destruct ((@RankQ.rk_full) d _ (vunit d k) Lm R (vunit_length d k)) as (cs & Lc & Ec). rewrite map_length, Lus in Lc. exists cs. split; auto. rewrite (lincomb_mapp g m) in Ec by (auto; congruence). unfold us in Ec. rewrite LinAlg.lincomb_units in Ec by auto. auto. }
    destruct (choice_below (fun k y => length y = d /\ mapp d m y = vunit d k) d X) as [f Hf]. exists (fun i k => vget (f k) i).
    assert (S : solves d d d m Matrix.delta (fun i k => vget (f k) i)).
    { intros i j Hi Hj. destruct (Hf j Hj) as [Lf Ef]. pose proof (vget_mapp d m (f j) i Hi) as E. rewrite Ef, vget_vunit in E. assert (B : (i <? d) = true) by (apply Nat.ltb_lt; auto). rewrite B, andb_true_r in E.
      unfold lapp in E. etransitivity; [symmetry; exact E|]. unfold Matrix.delta. rewrite Nat.eqb_sym. destruct (j =? i); reflexivity. }
    split; auto. apply (linj_solves d _ m). apply GeomMC.Qc_solves_comm. auto.
  Qed.

  Lemma hom_inverse m f F x : linj d m -> hom g pos (mapp d m) f F -> solves d d d m Matrix.delta x -> exists f' F', hom g pos (mapp d x) f' F'.
  Proof.
    intros I H S. set (F' := fun e => match find (fun e' => edge_eqb (F e') e) (dedges g) with Some e' => e' | None => e end).
    set (f' := fun v => match find (fun w => f w =? v) (vertices g) with Some w => w | None => v end).
    assert (E1 : forall e, In e (dedges g) -> In (F' e) (dedges g) /\ F (F' e) = e).
    { intros e He. unfold F'. destruct (find _ _) as [e'|] eqn:E.
      - apply find_some in E as [E1 E2]. split; auto. destruct (edge_eqb_spec (F e') e); auto. discriminate E2.
      - destruct (hom_F_surj g pos (conn g CC) LS (mapp d m) f F H I e He) as (e' & He' & Ee'). pose proof (find_none _ _ E e' He') as N. cbn beta in N. rewrite Ee' in N. destruct (edge_eqb_spec e e); congruence. }
    assert (E2 : forall v, is_vertex g v -> f' (f v) = v).
    { intros v Hv. unfold f'. destruct (find _ _) as [w|] eqn:E.
      - apply find_some in E as [A B]. apply Nat.eqb_eq in B. apply vertices_In in A. apply (hom_f_inj g pos (conn g CC) LS (mapp d m) f F H I); auto.
      - pose proof (find_none _ _ E v (proj2 (vertices_In g v) Hv)) as N. cbn beta in N. rewrite Nat.eqb_refl in N. discriminate N. }
    exists f', F'. intros e He. destruct (E1 e He) as [A B]. destruct (H _ A) as (H1 & H2 & H3 & H4). destruct (dedges_vertices g _ A) as [V1 V2]. rewrite B in *. splits; auto.
    - rewrite H2, E2; auto.
    - rewrite H3, E2; auto.
    - rewrite H4. rewrite <- mapp_mul. rewrite <- (mapp_delta d (ev (F' e))) at 1 by apply evec_length. symmetry. apply mapp_ext. intros i j Hi Hj. apply GeomMC.Qc_solves_comm in S. apply (S i j Hi Hj).
  Qed.

  Lemma hom_integral m f F : hom g pos (mapp d m) f F -> exists u, forall i j, i < d -> j < d -> m i j = ZQ (u i j).
  Proof.
    intros H. destruct NE as [v0 Hv0]. exists (imat m). intros i j. assert (N1 : is_node g (v0, szero d)) by (split; auto; apply szero_length).
    assert (N2 : is_node g (f v0, szero d)) by (split; [apply (hom_vertex g pos (mapp d m) f F); auto|apply szero_length]).
    apply (imat_ok g pos C CC m f F H (f v0, szero d) N2 (v0, szero d) N1 eq_refl).
  Qed.
  Lemma hom_unimodular m f F : linj d m -> hom g pos (mapp d m) f F -> is_unimodular (mk d d m) = Ret true.
  Proof.
    intros I H. destruct (linj_inverse m I) as (x & S & Ix). destruct (hom_inverse m f F x I H S) as (f' & F' & H'). destruct (hom_integral m f F H) as (u & Hu). destruct (hom_integral x f' F' H') as (w & Hw).
    destruct (Unimod.integral_inverse_det S Hu Hw) as (z & Ez & Hz). unfold is_unimodular. rewrite Ez. cbn [bind]. apply (f_equal Ret). apply andb_true_iff. split.
    - apply forallb_forall. intros y Hy. unfold mk in Hy. cbn [data] in Hy. apply in_concat in Hy as (row & Hr & Hy). apply in_map_iff in Hr as (i & <- & Hi). apply in_map_iff in Hy as (j & <- & Hj). apply in_seq in Hi, Hj.
      rewrite Hu by lia. unfold qrem1. destruct (RatLattice.ZQ_den (u i j)) as [D N]. rewrite D, N, Z.quot_1_r. destruct (Qc_eqb_spec (ZQ (u i j) - ZQ (u i j))%Qc 0%Qc) as [|K]; auto. exfalso. apply K. ring.
    - destruct Hz as [->| ->]; vm_compute; reflexivity.
  Qed.

  (** *** the loop *)
  Section Loop.
    Variables (lists : list (list edge)) (inv_b : nat -> nat -> Qc) (l0 : list edge).
    Hypothesis HL : Forall chr lists.
    Hypothesis H0 : nth_error lists 0 = Some l0.
    Definition seed (es : list edge) : nat := head (hd (Edge 0 0 []) es).
    Definition try (es : list edge) (i j : nat) : Qc := sumf d (fun k => rmul (mxe es i k) (inv_b k j)).
    Definition moved (gens : list auto) (x y : list edge) : Prop := exists a, In a gens /\ In x lists /\ y = map (act a) x.
    Definition settled (gens : list auto) (es : list edge) : Prop :=
      clos_refl_sym_trans _ (moved gens) es l0 \/ (exists a, In a gens /\ Valid g pos a (try es) /\ vact a (seed l0) = seed es) \/
      (forall f F, linj d (try es) -> hom g pos (mapp d (try es)) f F -> f (seed l0) <> seed es).
    Lemma settled_mono gens gens' es : incl gens gens' -> settled gens es -> settled gens' es.
    Proof.
      intros I [H|[(a & Ha & H)|H]]; [left|right; left; exists a; auto|right; right; auto]. revert H. apply clos_mono. intros x y (a & Ha & H). exists a. auto.
    Qed.
    Definition LI (done : list nat) (st : part (T := list edge) * list auto) : Prop :=
      (exists ops, good edges_eqb ops (fst st) /\ forall x y, united ops x y -> moved (snd st) x y) /\
      (forall a, In a (snd st) -> exists m, Valid g pos a m) /\
      (forall i es, In i done -> nth_error lists i = Some es -> settled (snd st) es).

    Lemma sy_step_LI done st i st' : LI done st ->
      sy_step chk g lists (map (fun es => head (hd (Edge 0 0 []) es)) lists) (map (fun es => mk d d (mxe es)) lists) (mk d d inv_b) st i = Ret st' -> LI (i :: done) st'.
    Proof.
      intros ((ops & G & Hu) & Hv & Hs) E. destruct st as [p gens]. cbn [fst snd] in *. unfold sy_step in E. rewrite !nth_error_map, H0 in E.
      destruct (nth_error lists i) as [li|] eqn:Ei; [|discriminate E]. cbn [unwrap bind option_map] in E.
      assert (Ci : chr li) by (rewrite Forall_forall in HL; apply HL; eapply nth_error_In; eauto).
      assert (C0 : chr l0) by (rewrite Forall_forall in HL; apply HL; eapply nth_error_In; eauto).
      destruct (find_correct edges_eqb edges_eqb_spec p li (proj1 G)) as (p1 & ri & E1 & W1 & V1 & R1). rewrite E1 in E. cbn [bind] in E.
      destruct (find_correct edges_eqb edges_eqb_spec p1 l0 W1) as (p2 & r0 & E2 & W2 & V2 & R2). rewrite E2 in E. cbn [bind] in E.
      assert (V : same_view p p2) by (eapply same_view_trans; eauto).
      assert (G2 : exists ops2, good edges_eqb ops2 p2 /\ forall x y, united ops2 x y -> moved gens x y).
      { exists (ops ++ [OpFind li]). split; [eapply good_read; eauto|]. intros x y U. apply united_app in U as [U|[]]. auto. }
      assert (Keep : forall gens', incl gens gens' -> settled gens' li -> forall j es, In j (i :: done) -> nth_error lists j = Some es -> settled gens' es).
      { intros gens' I S j es [<-|Hj] Ej; [congruence|]. apply (settled_mono gens); eauto. }
      destruct (edges_eqb_spec ri r0) as [Er|Er].
      { injection E as <-. split; [|split]; cbn [fst snd]; auto. apply Keep; [apply incl_refl|]. left. destruct G as (W & G1 & _).
        apply (clos_mono (united ops)); auto. apply (G1 li l0 ri r0); auto. apply V1. auto. }
      rewrite mat_mul_mk in E by auto. cbn [bind] in E. change (fun i j => sumf d (fun k => rmul (mxe li i k) (inv_b k j))) with (try li) in E.
      assert (NoU : is_unimodular (mk d d (try li)) <> Ret true -> forall f F, linj d (try li) -> hom g pos (mapp d (try li)) f F -> f (seed l0) <> seed li).
      { intros N f F I H. exfalso. apply N. apply (hom_unimodular _ f F); auto. }
      destruct (is_unimodular (mk d d (try li))) as [u| |] eqn:Eu; try discriminate E. cbn [bind] in E. destruct u.
      2: { injection E as <-. split; [|split]; cbn [fst snd]; auto. apply Keep; [apply incl_refl|]. right. right. apply NoU. discriminate. }
      assert (Im : linj d (try li)).
      { unfold is_unimodular in Eu. destruct (determinant (mk d d (try li))) as [x| |] eqn:B; try discriminate Eu. cbn [bind] in Eu. apply (linj_det g Hd _ x B). intros ->. apply f_equal with (f := fun o => match o with Ret b => b | _ => false end) in Eu.
        apply andb_true_iff in Eu as [_ Eu]. vm_compute in Eu. discriminate Eu. }
      rewrite vec_zero_cv in E. cbn [bind] in E. rewrite aff_new_am in E. cbn [bind] in E.
      assert (Hs0 : is_vertex g (seed l0)).
      { unfold seed. destruct C0 as (L & I & _). destruct l0 as [|e l]; [simpl in L; lia|]. simpl. apply dedges_vertices. apply I. simpl; auto. }
      destruct (automorphism_valid chk g pos C P CC LS (try li) (fun _ => 0%Qc) (seed l0) (seed li) Im Hs0) as (iso & Ea & Ha).
      change (Vec.r0 (R := Qc)) with 0%Qc in E. fold (seed l0) in E. fold (seed li) in E. rewrite Ea in E. cbn [bind] in E. destruct iso as [iso|].
      2: { injection E as <-. split; [|split]; cbn [fst snd]; auto. apply Keep; [apply incl_refl|]. right. right. intros f F _ HF. apply (Ha f F HF). }
      destruct Ha as (_ & _ & Hi0 & _ & Va). specialize (Va eq_refl). destruct G2 as (ops2 & G2 & U2).
      destruct (unite_list edges_eqb edges_eqb_spec (fun p lk => do mapped <- mapM (fun e => unwrap (aget edge_eqb e (emap iso))) lk; part_unite edges_eqb p lk mapped) (map (act iso)) lists ops2 p2 G2) as (p' & E' & G').
      { intros q l Hl. rewrite (mapM_Ret _ (act iso)); auto. intros e He. rewrite (valid_eget g pos iso (try li)); auto. rewrite Forall_forall in HL. apply (HL l Hl); auto. }
      rewrite E' in E. cbn [bind] in E. injection E as <-. split; [|split]; cbn [fst snd].
      - eexists. split; [exact G'|]. intros x y U. apply united_app in U as [U|U].
        + destruct (U2 x y U) as (a & Ia & H). exists a. split; auto. apply in_or_app; auto.
        + apply united_map in U as [Hx ->]. exists iso. splits; auto. apply in_or_app; simpl; auto.
      - intros a Ia. apply in_app_or in Ia as [Ia|[<-|[]]]; eauto.
      - apply Keep; [intros a Ia; apply in_or_app; auto|]. right. left. exists iso. splits; auto. apply in_or_app; simpl; auto.
    Qed.
    Lemma sy_loop_LI is : forall done st st', LI done st ->
      foldM (sy_step chk g lists (map (fun es => head (hd (Edge 0 0 []) es)) lists) (map (fun es => mk d d (mxe es)) lists) (mk d d inv_b)) st is = Ret st' -> LI (List.rev is ++ done) st'.
    Proof.
      induction is as [|i is IH]; intros done st st' H E; cbn [foldM] in E.
      - injection E as <-. exact H.
      - destruct (sy_step _ _ _ _ _ _ st i) as [st1| |] eqn:E1; try discriminate E. cbn [bind] in E. cbn [List.rev]. rewrite <- app_assoc. cbn [app]. apply (IH _ st1); auto. apply (sy_step_LI done st i); auto.
    Qed.
  End Loop.

  (** *** from generators to group elements *)
  Lemma closure_moved id gens res lists x y : (forall e, act id e = e) -> is_closure g pos id gens res -> (forall a, In a gens -> exists m, Valid g pos a m) -> Forall chr lists ->
    clos_refl_sym_trans _ (moved lists gens) x y -> incl x (dedges g) -> incl y (dedges g) /\ exists a, In a res /\ map (act a) x = y.
  Proof.
    intros Hid Cl Vg HL R Ix.
    assert (Q : (incl x (dedges g) -> incl y (dedges g) /\ exists a, In a res /\ map (act a) x = y) /\ (incl y (dedges g) -> incl x (dedges g) /\ exists a, In a res /\ map (act a) y = x)).
    { clear Ix. induction R as [x y (a & Ha & Hx & ->)|x|x y R [IH1 IH2]|x y z R1 [A1 A2] R2 [B1 B2]].
      - destruct (Vg a Ha) as (m & Va). destruct (cl_gens _ _ _ _ _ Cl a Ha) as (c & Hc & Kc).
        assert (Ea : forall l, incl l (dedges g) -> map (act c) l = map (act a) l) by (intros l Il; apply map_ext_in; intros e He; apply (key_eq g c a Kc); auto).
        rewrite Forall_forall in HL. pose proof (HL x Hx) as (_ & Ix & _). assert (Iy : incl (map (act a) x) (dedges g)) by (intros e He; apply in_map_iff in He as (e' & <- & He'); apply (valid_act g pos a m); auto).
        split; intros _; split; auto; [exists c; auto|]. destruct (cl_inv g pos (conn g CC) LS id gens Hid res Cl c Hc) as (b & Hb & _ & K). exists b. split; auto. rewrite <- Ea by auto. rewrite map_map.
        rewrite <- (map_id x) at 2. apply map_ext_in. intros e He. unfold key in K. rewrite map_map in K. rewrite <- (map_id (dedges g)) in K at 2. apply (ext_in_map K). auto.
      - assert (X : exists a, In a res /\ map (act a) x = x). { exists id. split; [apply (cl_id _ _ _ _ _ Cl)|]. rewrite (map_ext _ (fun e => e)) by auto. apply map_id. } auto.
      - auto.
      - assert (Comp : forall u v w, incl u (dedges g) -> (exists a, In a res /\ map (act a) u = v) -> (exists a, In a res /\ map (act a) v = w) -> exists a, In a res /\ map (act a) u = w).
        { intros u v w Iu (a & Ha & Ea) (b & Hb & Eb). destruct (cl_mul _ _ _ _ _ Cl b a Hb Ha) as (c & Hc & Kc). exists c. split; auto. rewrite <- Eb, <- Ea, map_map. apply map_ext_in. intros e He.
          unfold key in Kc. rewrite map_map in Kc. apply (ext_in_map Kc). auto. }
        split.
        + intros Ix. destruct (A1 Ix) as [Iy X1]. destruct (B1 Iy) as [Iz X2]. split; auto. apply (Comp x y z); auto.
        + intros Iz. destruct (B2 Iz) as [Iy X1]. destruct (A2 Iy) as [Ix X2]. split; auto. apply (Comp z y x); auto. }
    apply Q. auto.
  Qed.

  (** *** the result *)
  Definition found (res : list auto) (f : nat -> nat) (F : edge -> edge) : Prop :=
    exists a, In a res /\ (exists m, Valid g pos a m) /\ (forall v, is_vertex g v -> vact a v = f v) /\ (forall e, In e (dedges g) -> act a e = F e).
  (** adj is the matrix b * transpose m * b^-1, where b has the vectors of l0 as rows *)
  Definition partner (l0 : list edge) (m adj : nat -> nat -> Qc) : Prop :=
    forall i j, i < d -> j < d -> sumf d (fun k => (adj i k * mxe l0 k j)%Qc) = sumf d (fun k => (m j k * mxe l0 i k)%Qc).

  Lemma mxe_map m f F l0 i j : hom g pos (mapp d m) f F -> chr l0 -> i < d -> j < d -> mxe (map F l0) i j = sumf d (fun k => (m j k * mxe l0 i k)%Qc).
  Proof.
    intros H (L & I & _) Hi Hj. unfold SymFront.mxe. rewrite map_map. rewrite (map_ext_in _ (fun e => mapp d m (ev e))) by (intros e He; apply H; auto).
    assert (E : nth_error l0 i <> None) by (apply nth_error_Some; lia). destruct (nth_error l0 i) as [e|] eqn:Ee; [|congruence].
    assert (N1 : nth i (map (fun e => mapp d m (ev e)) l0) [] = mapp d m (ev e)). { apply nth_error_nth. rewrite nth_error_map, Ee. reflexivity. }
    assert (N2 : nth i (evs l0) [] = ev e). { apply nth_error_nth. rewrite nth_error_map, Ee. reflexivity. }
    rewrite N1, vget_mapp by auto. unfold lapp. apply sumf_ext. intros k Hk. rewrite N2. reflexivity.
  Qed.

  Lemma symmetries_found : is_locally_stable chk g = Ret true -> forall lists, characteristic_edge_lists chk g = Ret lists ->
    exists id gens res l0, auto_identity g = Ret id /\ Valid g pos id Matrix.delta /\ (forall e, act id e = e) /\ (forall v, vact id v = v) /\ symmetries chk g = Ret res /\ is_closure g pos id gens res /\
      nth_error lists 0 = Some l0 /\ chr l0 /\ is_vertex g (seed l0) /\
      forall m f F adj, linj d m -> hom g pos (mapp d m) f F -> partner l0 m adj ->
        found res f F \/ (exists a m', In a res /\ Valid g pos a m' /\ (forall i j, i < d -> j < d -> m' i j = adj i j) /\ vact a (seed l0) = f (seed l0)) \/
        (forall f' F', linj d adj -> hom g pos (mapp d adj) f' F' -> f' (seed l0) <> f (seed l0)).
  Proof.
    intros St lists Ec. pose proof (characteristic_ret chk g pos C P Hd CC NE LS) as (r & E & F & N). rewrite Ec in E. injection E as <-.
    assert (E0 : exists l0, nth_error lists 0 = Some l0) by (destruct lists; [congruence|simpl; eauto]). destruct E0 as (l0 & E0).
    assert (C0 : chr l0) by (rewrite Forall_forall in F; apply F; eapply nth_error_In; eauto).
    destruct (matrix_inverse g pos Hd l0 C0) as (x & Ex & S). assert (Ix : linj d x) by (apply (linj_solves d x (mxe l0)); apply GeomMC.Qc_solves_comm; auto).
    destruct (sy_loop chk g pos C P Hd CC LS lists x F (seq 0 (length lists))) with (p := part_new (T := list edge)) (gens := @nil auto) as (p' & gens & El & Hg).
    { intros i Hi. apply in_seq in Hi. lia. }
    { apply wf_new. }
    { intros a []. }
    assert (L0 : LI lists x l0 [] (part_new, [])).
    { split; [|split]; cbn [fst snd]; try (intros; contradiction). exists []. split; [apply good_new; apply edges_eqb_spec|intros ? ? []]. }
    pose proof (sy_loop_LI lists x l0 F E0 _ _ _ _ L0 El) as (_ & Vg & Hs). cbn [fst snd] in Vg, Hs. rewrite app_nil_r in Hs.
    destruct (identity_valid g pos Hd LS) as (id & Eid & Vid & A1 & A2). destruct (mg_ok g pos Hd (span_edges g pos C CC NE) id gens Vid A1 Hg) as (res & Er & Cl).
    assert (Hs0 : is_vertex g (seed l0)). { unfold seed. destruct C0 as (L & I & _). destruct l0 as [|e l]; [simpl in L; lia|]. simpl. apply dedges_vertices. apply I. simpl; auto. }
    exists id, gens, res, l0. splits; auto.
    - unfold symmetries. rewrite St. cbn [bind assert]. rewrite Ec. cbn [bind]. rewrite (mapM_Ret _ (fun es => head (hd (Edge 0 0 []) es))).
      2: { intros es He. rewrite Forall_forall in F. destruct (F es He) as (L & _). destruct es; [simpl in L; lia|]. reflexivity. }
      cbn [bind]. rewrite (mapM_Ret _ (fun es => mk d d (mxe es))).
      2: { intros es He. rewrite Forall_forall in F. apply (matrix_ret chk g pos C P Hd); auto. }
      cbn [bind]. rewrite nth_error_map, E0. cbn [option_map unwrap bind]. rewrite Ex. cbn [unwrap bind]. rewrite El. cbn [bind]. rewrite Eid. cbn [bind]. exact Er.
    - intros m f FF adj I H Pa. set (li := map FF l0). assert (Hl : In li lists) by (apply (characteristic_map chk g pos C P Hd CC NE LS m f FF I H lists Ec); eapply nth_error_In; eauto).
      apply In_nth_error in Hl as (i & Ei). assert (Hi : i < length lists) by (apply nth_error_Some; congruence).
      assert (Se : seed li = f (seed l0)).
      { unfold seed, li. destruct C0 as (L & Il & _). destruct l0 as [|e l]; [simpl in L; lia|]. cbn [map hd]. apply H. apply Il. simpl; auto. }
      assert (Et : forall i j, i < d -> j < d -> try x li i j = adj i j).
      { intros a b Ha Hb. unfold try. transitivity (sumf d (fun k => (sumf d (fun l => (adj a l * mxe l0 l k)%Qc) * x k b)%Qc)).
        - apply sumf_ext. intros k Hk. unfold li. rewrite (mxe_map m f FF l0 a k H C0 Ha Hk). rewrite <- Pa by auto. reflexivity.
        - change (lmul d (lmul d adj (mxe l0)) x a b = adj a b). rewrite lmul_assoc. transitivity (lmul d adj Matrix.delta a b).
          + unfold lmul at 1 3. apply sumf_ext. intros k Hk. f_equal. apply (S k b Hk Hb).
          + apply lmul_delta_r; auto. }
      destruct (Hs i li) as [R|[(a & Ha & Va & Hv)|R]]; auto; [rewrite <- in_rev; apply in_seq; lia| | |].
      + left. assert (Ili : incl li (dedges g)). { intros e He. apply in_map_iff in He as (e' & <- & He'). apply H. apply C0. auto. }
        apply rst_sym in R. destruct (closure_moved id gens res lists _ _ A1 Cl Vg F R (proj1 (proj2 C0))) as (_ & a & Ha & Ea).
        destruct (cl_valid _ _ _ _ _ Cl a Ha) as (m' & Va). exists a. split; auto. split; eauto.
        assert (Em : forall i j, i < d -> j < d -> m' i j = m i j).
        { intros a' b' Ha' Hb'. rewrite <- (mapp_unit d m' b' a' Hb' Ha'), <- (mapp_unit d m b' a' Hb' Ha').
          assert (Q : mapp d m' (vunit d b') = mapp d m (vunit d b')); [|rewrite Q; reflexivity].
          destruct ((@RankQ.rk_full) d (evs l0) (vunit d b') (evs_lens g pos l0) (proj2 (proj2 C0)) (vunit_length d b')) as (cs & Lc & Ecs).
          rewrite Ecs. rewrite <- !(lincomb_mapp g) by (auto; apply evs_lens).
          assert (Q : map (mapp d m') (evs l0) = map (mapp d m) (evs l0)); [|rewrite Q; reflexivity]. rewrite !map_map. apply map_ext_in. intros e He.
          assert (He' : In e (dedges g)) by (apply C0; auto). destruct (va_hom _ _ _ _ Va e He') as (_ & _ & _ & <-). destruct (H e He') as (_ & _ & _ & <-). apply (f_equal ev). unfold li in Ea. apply (ext_in_map Ea). auto. }
        assert (H' : hom g pos (mapp d m') f FF). { apply (hom_ext g pos (mapp d m)); auto. intros y Ly. apply mapp_ext. intros; symmetry; auto. }
        apply (hom_unique g pos (conn g CC) LS (mapp d m') _ _ _ _ (seed l0) (va_hom _ _ _ _ Va) H' Hs0).
        rewrite <- Se. unfold seed, li. destruct C0 as (L & Il & _). destruct l0 as [|e l]; [simpl in L; lia|]. unfold li in Ea. cbn [map hd] in *. injection Ea as Ea _. rewrite <- Ea. apply (valid_head g pos a m' e Va). apply Il. simpl; auto.
      + right. left. destruct (cl_gens _ _ _ _ _ Cl a Ha) as (c & Hc & Kc). destruct (cl_valid _ _ _ _ _ Cl c Hc) as (m' & Vc).
        assert (Ec' : forall e, In e (dedges g) -> act c e = act a e) by (apply (key_eq g c a Kc)).
        exists c, m'. splits; auto.
        * intros a' b' Ha' Hb'. rewrite <- Et by auto. apply (matrix_determined g pos (span_edges g pos C CC NE)); auto. intros e He. destruct (va_hom _ _ _ _ Vc e He) as (_ & _ & _ & <-). destruct (va_hom _ _ _ _ Va e He) as (_ & _ & _ & <-). rewrite Ec'; auto.
        * rewrite <- Se, <- Hv. unfold seed. destruct C0 as (L & Il & _). destruct l0 as [|e l]; [simpl in L; lia|]. cbn [hd]. assert (He : In e (dedges g)) by (apply Il; simpl; auto).
          rewrite (valid_head g pos c m' e Vc He), (valid_head g pos a _ e Va He), Ec'; auto.
      + right. right. intros f' F' Ia Ha. rewrite <- Se. apply R with (F := F').
        * intros y z Ly Lz Eyz. apply Ia; auto. rewrite !(mapp_ext d adj (try x li)) by (intros; symmetry; auto). auto.
        * apply (hom_ext g pos (mapp d adj)); auto. intros y Ly. apply mapp_ext. intros; symmetry; auto.
  Qed.

  (** *** the relation between a matrix and its partner *)
  Section Partner.
    Variables (l0 : list edge) (x : nat -> nat -> Qc).
    Hypothesis S : solves d d d (mxe l0) Matrix.delta x.
    Lemma partner_lmul m a : partner l0 m a <-> forall i j, i < d -> j < d -> lmul d a (mxe l0) i j = lmul d (mxe l0) (fun k j => m j k) i j.
    Proof.
      split; intros H i j Hi Hj; (etransitivity; [exact (H i j Hi Hj)|]); unfold lmul; apply sumf_ext; intros k Hk; cbn [rmul Qc_dom]; ring.
    Qed.
    Lemma partner_fun m a a' : partner l0 m a -> partner l0 m a' -> forall i j, i < d -> j < d -> a i j = a' i j.
    Proof.
      intros H H' i j Hi Hj.
      assert (E : forall b, partner l0 m b -> b i j = lmul d (lmul d (mxe l0) (fun k j => m j k)) x i j).
      { intros b Hb. transitivity (lmul d (lmul d b (mxe l0)) x i j).
        - rewrite lmul_assoc. transitivity (lmul d b Matrix.delta i j); [symmetry; apply lmul_delta_r; auto|]. unfold lmul at 1 2. apply sumf_ext. intros k Hk. f_equal. symmetry. apply (S k j Hk Hj).
        - unfold lmul at 1 3. apply sumf_ext. intros k Hk. f_equal. apply partner_lmul; auto. }
      rewrite (E a H), (E a' H'). reflexivity.
    Qed.
    Lemma partner_inj m m' a : partner l0 m a -> partner l0 m' a -> forall i j, i < d -> j < d -> m i j = m' i j.
    Proof.
      intros H H' i j Hi Hj. apply GeomMC.Qc_solves_comm in S.
      assert (E : forall b, partner l0 b a -> b i j = lmul d x (lmul d a (mxe l0)) j i).
      { intros b Hb. transitivity (lmul d x (lmul d (mxe l0) (fun k j => b j k)) j i).
        - rewrite <- lmul_assoc. transitivity (lmul d Matrix.delta (fun k j => b j k) j i); [rewrite lmul_delta_l; auto|]. unfold lmul at 1 2. apply sumf_ext. intros k Hk. f_equal. symmetry. apply (S j k Hj Hk).
        - unfold lmul at 1 3. apply sumf_ext. intros k Hk. f_equal. symmetry. apply partner_lmul; auto. }
      rewrite (E m H), (E m' H'). reflexivity.
    Qed.
  End Partner.
  Lemma partner_ext l0 m m' a a' : (forall i j, i < d -> j < d -> m i j = m' i j) -> (forall i j, i < d -> j < d -> a i j = a' i j) -> partner l0 m a -> partner l0 m' a'.
  Proof.
    intros Em Ea H i j Hi Hj. rewrite (sumf_ext _ _ (fun k => a i k * mxe l0 k j)%Qc) by (intros; rewrite Ea; auto). rewrite H by auto. apply sumf_ext. intros. rewrite Em; auto.
  Qed.
  Lemma partner_mul l0 m m' a a' : partner l0 m a -> partner l0 m' a' -> partner l0 (lmul d m m') (lmul d a' a).
  Proof.
    intros H H'. apply partner_lmul. pose proof (proj1 (partner_lmul l0 m a) H) as K. pose proof (proj1 (partner_lmul l0 m' a') H') as K'. intros i j Hi Hj.
    rewrite lmul_assoc. transitivity (lmul d a' (lmul d (mxe l0) (fun k j => m j k)) i j).
    - unfold lmul at 1 3. apply sumf_ext. intros k Hk. f_equal. apply K; auto.
    - rewrite <- lmul_assoc. transitivity (lmul d (lmul d (mxe l0) (fun k j => m' j k)) (fun k j => m j k) i j).
      + unfold lmul at 1 3. apply sumf_ext. intros k Hk. f_equal. apply K'; auto.
      + rewrite lmul_assoc. unfold lmul at 1 3. apply sumf_ext. intros k Hk. f_equal. unfold lmul. apply sumf_ext. intros l Hl. cbn [rmul Qc_dom]. ring.
  Qed.
  Lemma partner_delta l0 : partner l0 Matrix.delta Matrix.delta.
  Proof.
    apply partner_lmul. intros i j Hi Hj. rewrite lmul_delta_l by auto. transitivity (lmul d (mxe l0) Matrix.delta i j); [symmetry; apply lmul_delta_r; auto|].
    unfold lmul. apply sumf_ext. intros k Hk. unfold Matrix.delta. rewrite Nat.eqb_sym. reflexivity.
  Qed.

  Lemma hom_compose m m' f F f' F' : hom g pos (mapp d m) f F -> hom g pos (mapp d m') f' F' -> hom g pos (mapp d (lmul d m m')) (fun v => f (f' v)) (fun e => F (F' e)).
  Proof.
    intros H H' e He. destruct (H' e He) as (A1 & A2 & A3 & A4). destruct (H _ A1) as (B1 & B2 & B3 & B4). splits; auto; [congruence|congruence|]. rewrite B4, A4, mapp_mul. reflexivity.
  Qed.
  Lemma dichotomy {A} (Q R : A -> Prop) l : (forall x, In x l -> Q x \/ R x) -> (exists x, In x l /\ Q x) \/ forall x, In x l -> R x.
  Proof.
    induction l as [|x l IH]; intros H; [right; intros ? []|]. destruct (H x) as [Hx|Hx]; [simpl; auto|left; exists x; simpl; auto|].
    destruct IH as [(y & Hy & Qy)|IH]; [intros; apply H; simpl; auto|left; exists y; simpl; auto|right]. intros y [<-|Hy]; auto.
  Qed.
  Lemma list_choice {A} (dec : forall x y : A, {x = y} + {x <> y}) (R : A -> A -> Prop) l : (forall x, In x l -> exists y, R x y) -> exists h, forall x, In x l -> R x (h x).
  Proof.
    induction l as [|a l IH]; intros H; [exists (fun x => x); intros ? []|]. destruct IH as [h Hh]; [intros; apply H; simpl; auto|]. destruct (H a) as [b Hb]; [simpl; auto|].
    exists (fun x => if dec x a then b else h x). intros x Hx. destruct (dec x a) as [->|N]; auto. destruct Hx as [->|Hx]; [congruence|auto].
  Qed.

  Section Complete.
    Variables (id : auto) (gens res : list auto) (l0 : list edge).
    Hypothesis Vid : Valid g pos id Matrix.delta.
    Hypothesis Aid : forall e, act id e = e.
    Hypothesis Cl : is_closure g pos id gens res.
    Hypothesis C0 : chr l0.
    Hypothesis Hs0 : is_vertex g (seed l0).
    Hypothesis Fd : forall m f F adj, linj d m -> hom g pos (mapp d m) f F -> partner l0 m adj ->
        found res f F \/ (exists a m', In a res /\ Valid g pos a m' /\ (forall i j, i < d -> j < d -> m' i j = adj i j) /\ vact a (seed l0) = f (seed l0)) \/
        (forall f' F', linj d adj -> hom g pos (mapp d adj) f' F' -> f' (seed l0) <> f (seed l0)).

    Lemma self_partner m f F : linj d m -> hom g pos (mapp d m) f F -> partner l0 m m -> found res f F.
    Proof.
      intros I H Pm. destruct (Fd m f F m I H Pm) as [Hf|[(a & m' & Ha & Va & Em & Ea)|N]]; auto.
      - exists a. split; auto. split; eauto. apply (hom_unique g pos (conn g CC) LS (mapp d m) _ _ _ _ (seed l0)); auto. apply (hom_ext g pos (mapp d m')); [|apply (va_hom _ _ _ _ Va)].
        intros y Ly. apply mapp_ext; auto.
      - exfalso. apply (N f F); auto.
    Qed.
    Lemma found_mul h m f F : In h res -> hom g pos (mapp d m) f F -> found res f F -> found res (fun v => vact h (f v)) (fun e => act h (F e)).
    Proof.
      intros Hh H (a & Ha & Va & Ev & Ee). destruct (res_mul g pos id gens res Cl h a Hh Ha) as (c & Hc & E1 & E2). exists c. split; auto. split; [apply (cl_valid _ _ _ _ _ Cl); auto|].
      split; intros y Hy; [rewrite E2, Ev|rewrite E1, Ee]; auto.
    Qed.
    Lemma found_ext f F f' F' : (forall v, is_vertex g v -> f v = f' v) -> (forall e, In e (dedges g) -> F e = F' e) -> found res f F -> found res f' F'.
    Proof.
      intros Ef EF (a & Ha & Va & Ev & Ee). exists a. splits; auto; intros y Hy; [rewrite Ev, Ef|rewrite Ee, EF]; auto.
    Qed.
    (** if F is in the group after multiplication by h, it is in the group *)
    Lemma found_cancel h m f F : In h res -> hom g pos (mapp d m) f F -> found res (fun v => vact h (f v)) (fun e => act h (F e)) -> found res f F.
    Proof.
      intros Hh H Hf. destruct (res_inv g pos CC LS id gens res Aid Cl h Hh) as (b & Hb & E1 & E2). destruct (cl_valid _ _ _ _ _ Cl h Hh) as (mh & Vh).
      pose proof (found_mul b _ _ _ Hb (hom_compose mh m _ _ _ _ (va_hom _ _ _ _ Vh) H) Hf) as Hc. revert Hc. apply found_ext.
      - intros v Hv. apply E2. apply (hom_vertex g pos (mapp d m) f F); auto.
      - intros e He. apply E1. apply H; auto.
    Qed.
    Lemma translation_found m f F : (forall i j, i < d -> j < d -> m i j = Matrix.delta i j) -> hom g pos (mapp d m) f F -> found res f F.
    Proof.
      intros Em H. apply (self_partner m); auto.
      - intros y z Ly Lz E. rewrite !(mapp_ext d m Matrix.delta) in E by auto. rewrite !mapp_delta in E by auto. auto.
      - apply (partner_ext l0 Matrix.delta m Matrix.delta m); [intros; symmetry; auto|intros; symmetry; auto|apply partner_delta].
    Qed.
    (** an element with the same matrix is enough *)
    Lemma matrix_found h mh m f F : In h res -> Valid g pos h mh -> (forall i j, i < d -> j < d -> mh i j = m i j) -> hom g pos (mapp d m) f F -> found res f F.
    Proof.
      intros Hh Vh Em H. destruct (res_inv g pos CC LS id gens res Aid Cl h Hh) as (b & Hb & E1 & E2). destruct (cl_valid _ _ _ _ _ Cl b Hb) as (mb & Vb).
      apply (found_cancel b m); auto. apply (translation_found (lmul d mb m)); [|apply hom_compose; auto; apply (va_hom _ _ _ _ Vb)].
      apply (matrix_determined g pos (span_edges g pos C CC NE)). intros e He. rewrite mapp_delta by apply evec_length. rewrite mapp_mul. rewrite <- (mapp_ext d mh m) by auto.
      destruct (va_hom _ _ _ _ Vh e He) as (I & _ & _ & <-). destruct (va_hom _ _ _ _ Vb _ I) as (_ & _ & _ & <-). rewrite (proj1 (E1 e He)). auto.
    Qed.

    Lemma all_found : (forall m f F, linj d m -> hom g pos (mapp d m) f F -> exists adj f' F', partner l0 m adj /\ linj d adj /\ hom g pos (mapp d adj) f' F' /\ f' (seed l0) = f (seed l0)) ->
      forall m f F, linj d m -> hom g pos (mapp d m) f F -> found res f F.
    Proof.
      intros Pa m f F I H. destruct (matrix_inverse g pos Hd l0 C0) as (x & _ & S).
      assert (Two : forall m f F, linj d m -> hom g pos (mapp d m) f F -> found res f F \/ exists b a, In b res /\ Valid g pos b a /\ partner l0 m a).
      { clear m f F I H. intros m f F I H. destruct (Pa m f F I H) as (adj & f' & F' & Padj & Iadj & H' & Es). destruct (Fd m f F adj I H Padj) as [Hf|[(a & m' & Ha & Va & Em & _)|N]]; auto.
        - right. exists a, m'. splits; auto. apply (partner_ext l0 m m adj m'); auto. intros; symmetry; auto.
        - exfalso. apply (N f' F'); auto. }
      destruct (dichotomy (fun h => found res (fun v => vact h (f v)) (fun e => act h (F e)))
        (fun h => exists mh b a, In b res /\ Valid g pos h mh /\ Valid g pos b a /\ partner l0 (lmul d mh m) a) res) as [(h & Hh & Hf)|All].
      { intros h Hh. destruct (cl_valid _ _ _ _ _ Cl h Hh) as (mh & Vh). destruct (Two (lmul d mh m) (fun v => vact h (f v)) (fun e => act h (F e))) as [Hf|(b & a & Hb & Vb & Pb)]; auto.
        - intros y z Ly Lz E. rewrite !mapp_mul in E. apply (va_inj _ _ _ _ Vh) in E; try apply mapp_length. apply I; auto.
        - apply hom_compose; auto. apply (va_hom _ _ _ _ Vh).
        - right. exists mh, b, a. auto. }
      { apply (found_cancel h m); auto. }
      (* all the products have their partners in the group *)
      destruct (All id (cl_id _ _ _ _ _ Cl)) as (md & b0 & a0 & Hb0 & Vd & Vb0 & P0).
      assert (Md : forall i j, i < d -> j < d -> md i j = Matrix.delta i j).
      { apply (matrix_determined g pos (span_edges g pos C CC NE)). intros e He. destruct (va_hom _ _ _ _ Vd e He) as (_ & _ & _ & <-). rewrite Aid, mapp_delta; auto. apply evec_length. }
      assert (P1 : partner l0 m a0).
      { apply (partner_ext l0 (lmul d md m) m a0 a0); auto. intros i j Hi Hj. transitivity (lmul d Matrix.delta m i j); [|apply lmul_delta_l; auto]. unfold lmul. apply sumf_ext. intros k Hk. rewrite Md; auto. }
      assert (Star : forall h mh, In h res -> Valid g pos h mh -> exists c mc, In c res /\ Valid g pos c mc /\ partner l0 mh mc).
      { intros h mh Hh Vh. destruct (All h Hh) as (mh' & b & a & Hb & Vh' & Vb & Pb). destruct (Pa mh (vact h) (act h) (va_inj _ _ _ _ Vh) (va_hom _ _ _ _ Vh)) as (ah & f' & F' & Ph & Ih & Hh' & _).
        assert (Eh : forall i j, i < d -> j < d -> mh' i j = mh i j).
        { apply (matrix_determined g pos (span_edges g pos C CC NE)). intros e He. destruct (va_hom _ _ _ _ Vh e He) as (_ & _ & _ & <-). destruct (va_hom _ _ _ _ Vh' e He) as (_ & _ & _ & <-). auto. }
        assert (Ea : forall i j, i < d -> j < d -> a i j = lmul d a0 ah i j).
        { apply (partner_fun l0 x S (lmul d mh' m)); auto. apply partner_mul; auto. apply (partner_ext l0 mh mh' ah ah); auto. intros; symmetry; auto. }
        destruct (res_inv g pos CC LS id gens res Aid Cl b0 Hb0) as (bi & Hbi & E1 & _). destruct (res_mul g pos id gens res Cl bi b Hbi Hb) as (c & Hc & E2 & _). destruct (cl_valid _ _ _ _ _ Cl c Hc) as (mc & Vc).
        exists c, mc. splits; auto. apply (partner_ext l0 mh mh ah mc); auto. intros i j Hi Hj. symmetry. revert i j Hi Hj. apply (matrix_determined g pos (span_edges g pos C CC NE)). intros e He.
        apply (va_inj _ _ _ _ Vb0); try apply mapp_length. destruct (va_hom _ _ _ _ Vc e He) as (Ic & _ & _ & <-). destruct (va_hom _ _ _ _ Vb0 _ Ic) as (_ & _ & _ & <-). rewrite E2 by auto.
        destruct (va_hom _ _ _ _ Vb e He) as (Ib & _ & _ & Eb). rewrite (proj2 (E1 _ Ib)), Eb. rewrite <- mapp_mul. apply mapp_ext. auto. }
      set (X := map (fun a => data (lin (xform a))) res).
      assert (Dat : forall a ma, Valid g pos a ma -> data (lin (xform a)) = data (mk d d ma)) by (intros a ma Va; rewrite (va_x _ _ _ _ Va); reflexivity).
      assert (Ent : forall u v : nat -> nat -> Qc, data (mk d d u) = data (mk d d v) -> forall i j, i < d -> j < d -> u i j = v i j).
      { intros u v E i j Hi Hj. rewrite <- (mk_ent d d u i j Hi Hj), <- (mk_ent d d v i j Hi Hj). unfold ent. cbn [ncols mk] in *. rewrite E. reflexivity. }
      set (R := fun y z => In z X /\ exists u v, y = data (mk d d u) /\ z = data (mk d d v) /\ partner l0 u v).
      destruct (list_choice (list_eq_dec Qc_eq_dec) R X) as (star & Hstar).
      { intros y Hy. apply in_map_iff in Hy as (h & <- & Hh). destruct (cl_valid _ _ _ _ _ Cl h Hh) as (mh & Vh). destruct (Star h mh Hh Vh) as (c & mc & Hc & Vc & Pc).
        exists (data (lin (xform c))). split; [unfold X; apply in_map_iff; eauto|]. exists mh, mc. splits; auto. }
      destruct (inj_surj (list_eq_dec Qc_eq_dec) star X) with (y := data (lin (xform b0))) as (y & Hy & Ey).
      { intros y Hy. apply (Hstar y Hy). }
      { intros y z Hy Hz E. destruct (Hstar y Hy) as (_ & u & v & -> & E1 & Q1). destruct (Hstar z Hz) as (_ & u' & v' & -> & E2 & Q2). rewrite E1, E2 in E.
        pose proof (Ent _ _ E) as Ev. assert (Eu : mk d d u = mk d d u'); [|rewrite Eu; reflexivity]. apply mk_ext. apply (partner_inj l0 x S u u' v'); auto. apply (partner_ext l0 u u v v'); auto. }
      { unfold X. apply in_map_iff. eauto. }
      destruct (Hstar y Hy) as (_ & u & v & Eu & Ev & Q). rewrite Ey, (Dat b0 a0 Vb0) in Ev. pose proof (Ent _ _ Ev) as Ea.
      assert (Em : forall i j, i < d -> j < d -> u i j = m i j). { apply (partner_inj l0 x S u m a0); auto. apply (partner_ext l0 u u v a0); auto. }
      unfold X in Hy. apply in_map_iff in Hy as (h & Eh & Hh). destruct (cl_valid _ _ _ _ _ Cl h Hh) as (mh & Vh). apply (matrix_found h mh m); auto.
      intros i j Hi Hj. rewrite <- Em by auto. apply Ent; auto. rewrite <- (Dat h mh Vh). congruence.
    Qed.
  End Complete.
End F.
