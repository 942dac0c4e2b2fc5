(** minimal_image of symmetries.rs: the quotient of a net by all its translation symmetries. *)
From Coq Require Import List ZArith Lia Bool PeanoNat QArith Qcanon Permutation.
From Verif Require Import Base Partition Vec Elim Scalars Matrix LinAlg Geometry ZQ QcTac ModSolver ModSolve OrdSet Lattices RatLattice PGraph Net PGraphBase Traverse Placement Harmonic Placed Stability Periodic Symmetries Automorph Group SymFront Orbits NetAuto.
From Verif Require GeomMC Unimod ModMC Props_Placement.
Import ListNotations.
Close Scope Q_scope. Close Scope Qc_scope.
Open Scope nat_scope.

Lemma class_index {A} (l : list (list A)) i j a b x : NoDup (concat l) -> nth_error l i = Some a -> nth_error l j = Some b -> In x a -> In x b -> i = j.
Proof.
  assert (K : forall (c : list A) m y, NoDup (c ++ m) -> In y c -> In y m -> False).
  { induction c as [|z c IH]; intros m y N Hc Hm; [destruct Hc|]. inversion N as [|? ? N1 N2]; subst. destruct Hc as [->|Hc]; [|eapply IH; eauto]. apply N1. apply in_or_app; auto. }
  assert (K2 : forall (l : list (list A)) i a x, nth_error l i = Some a -> In x a -> In x (concat l)).
  { induction l0 as [|c l0 IH]; intros [|k] a0 y E Hy; try discriminate; cbn [concat]; apply in_or_app.
    - injection E as ->. auto.
    - right. eapply IH; eauto. }
  assert (K3 : forall (c : list A) m, NoDup (c ++ m) -> NoDup m).
  { induction c as [|z c IH]; intros m N; auto. inversion N; subst. apply IH; auto. }
  revert i j. induction l as [|c l IH]; intros i j N E1 E2 H1 H2; [destruct i; discriminate|]. cbn [concat] in N.
  destruct i as [|i], j as [|j]; cbn [nth_error] in E1, E2; auto.
  - injection E1 as <-. exfalso. eapply (K c); eauto.
  - injection E2 as <-. exfalso. eapply (K c); eauto.
  - f_equal. apply IH; auto. eapply K3; eauto.
Qed.

Section M.
  Variables (chk : Z -> outcome Z) (g : graph) (pos : nat -> point).
  Hypothesis C : constructed g.
  Hypothesis P : Placed chk g pos.
  Hypothesis Hd : 0 < gdim g.
  Hypothesis CC : forall a c, is_node g a -> is_node g c -> joined g a c.
  Hypothesis NE : exists v, is_vertex g v.
  Hypothesis LS : forall v, NoDup (map (evec (gdim g) pos) (inc g v)).
  Notation d := (gdim g).
  Notation ev := (evec (gdim g) pos).
  Notation trel := (trel g pos).

  (** the shift of an edge relative to the representatives of its ends *)
  Definition wsh (rep : nat -> nat) (e : edge) (k : nat) : Qc :=
    (ZQ (vget (shift e) k) + (pget (pos (tail e)) k - pget (pos (rep (tail e))) k) - (pget (pos (head e)) k - pget (pos (rep (head e))) k))%Qc.

  Record Img (h : graph) (imgf rep : nat -> nat) (m : nat -> nat -> Qc) (bs : list qvec) (v0 : nat) (r : list nat) : Prop := {
    im_dim : gdim h = d;
    im_con : constructed h;
    im_first : forall v, In v (v0 :: r) <-> is_vertex g v /\ trel v0 v;
    im_iff : forall v w, is_vertex g v -> is_vertex g w -> (imgf v = imgf w <-> trel v w);
    im_rep : forall v, is_vertex g v -> is_vertex g (rep v) /\ imgf (rep v) = imgf v;
    im_rep_eq : forall v w, imgf v = imgf w -> rep v = rep w;
    im_rep0 : rep v0 = v0;
    im_len : length bs = d /\ lens d bs;
    im_lat : forall x, zcomb d bs x <-> zcomb d (units d ++ map (fun v => mod1 (lsub (pos v) (pos v0))) r) x;
    im_inv : solves d d d (fun i j => vget (nth i bs []) j) Matrix.delta m;
    im_edge : forall e, In e (gedges g) -> exists z, length z = d /\ (forall k, k < d -> ZQ (vget z k) = lapp d m (wsh rep e) k) /\
       In (canonical (Edge (imgf (head e)) (imgf (tail e)) z)) (gedges h);
    im_edge' : forall e', In e' (gedges h) -> exists e z, In e (gedges g) /\ length z = d /\ (forall k, k < d -> ZQ (vget z k) = lapp d m (wsh rep e) k) /\
       e' = canonical (Edge (imgf (head e)) (imgf (tail e)) z) }.

  Lemma lsub_get (a b : point) k : length a = length b -> pget (lsub a b) k = (pget a k - pget b k)%Qc.
  Proof.
    intros L. unfold pget, lsub. revert b k L. induction a as [|x a IH]; intros [|y b] [|k] L; try discriminate L; cbn; try ring. apply IH. cbn in L. lia.
  Qed.
  Lemma ladd_get (a b : point) k : length a = length b -> pget (ladd a b) k = (pget a k + pget b k)%Qc.
  Proof.
    intros L. unfold pget, ladd. revert b k L. induction a as [|x a IH]; intros [|y b] [|k] L; try discriminate L; cbn; try ring. apply IH. cbn in L. lia.
  Qed.
  Lemma lsub_len (a b : point) : length a = length b -> length (lsub a b) = length a.
  Proof. unfold lsub. revert b. induction a as [|x a IH]; intros [|y b] L; try discriminate L; cbn; auto. Qed.
  Lemma ladd_len (a b : point) : length a = length b -> length (ladd a b) = length a.
  Proof. unfold ladd. revert b. induction a as [|x a IH]; intros [|y b] L; try discriminate L; cbn; auto. Qed.
  Lemma trel_refl v : trel v v.
  Proof. exists (fun v => v), (fun e => e). split; auto. apply trans_id. Qed.
  Lemma trel_sym v w : is_vertex g v -> trel v w -> trel w v.
  Proof.
    intros Hv (t & F & H & <-). destruct (trans_inv g pos Hd CC NE LS t F H) as (t' & F' & H' & I). exists t', F'. split; auto. apply I; auto.
  Qed.
  Lemma trel_trans u v w : trel u v -> trel v w -> trel u w.
  Proof. intros (t & F & H & <-) (t' & F' & H' & <-). exists (fun v => t' (t v)), (fun e => F' (F e)). split; auto. apply (trans_comp g pos t' F' t F); auto. Qed.

  (** the tables of images and shifts *)
  Definition tab (cls : list (list nat)) (imgs : list (nat * nat)) (shifts : list (nat * point)) (v : nat) : Prop :=
    exists i orb, nth_error cls i = Some orb /\ In v orb /\ aget Nat.eqb v imgs = Some (i + 1) /\ aget Nat.eqb v shifts = Some (lsub (pos v) (pos (hd 0 orb))).
  Lemma tables (cls : list (list nat)) : (forall orb v, In orb cls -> In v orb -> is_vertex g v) -> (forall orb, In orb cls -> orb <> []) ->
    exists imgs shifts, foldM (fun st iorb =>
          let '(i, orb) := iorb in
          do v0 <- unwrap (nth_error orb 0);
          do p0 <- position chk g v0;
          foldM (fun st v =>
            let '(imgs, shifts) := st in
            do p <- position chk g v;
            Ret (aset Nat.eqb v (i + 1) imgs, aset Nat.eqb v (lsub p p0) shifts)) st orb)
        ([], []) (combine (seq 0 (length cls)) cls) = Ret (imgs, shifts) /\ forall v orb, In orb cls -> In v orb -> tab cls imgs shifts v.
  Proof.
    intros Hv Hn. match goal with |- exists imgs shifts, foldM ?st _ _ = _ /\ _ => set (step := st) end.
    assert (Gen : forall l k im sh, (forall i orb, In (i, orb) (combine (seq k (length l)) l) -> nth_error cls i = Some orb) ->
      exists imgs shifts, foldM step (im, sh) (combine (seq k (length l)) l) = Ret (imgs, shifts) /\
        (forall v, tab cls im sh v -> tab cls imgs shifts v) /\ forall v orb, In orb l -> In v orb -> tab cls imgs shifts v).
    { induction l as [|orb l IH]; intros k im sh Hl; cbn [length seq combine foldM].
      - exists im, sh. splits; auto. intros v orb [].
      - assert (E : nth_error cls k = Some orb) by (apply Hl; cbn [length seq combine]; simpl; auto).
        assert (Io : In orb cls) by (eapply nth_error_In; eauto).
        assert (St : exists im' sh', step (im, sh) (k, orb) = Ret (im', sh') /\ (forall v, tab cls im sh v -> tab cls im' sh' v) /\ forall v, In v orb -> tab cls im' sh' v).
        { unfold step. destruct orb as [|v0 r] eqn:Eo; [exfalso; apply (Hn [] Io); auto|]. cbn [nth_error unwrap bind]. rewrite (pl_ret _ _ _ P) by (apply (Hv _ _ Io); simpl; auto). cbn [bind].
          assert (G : forall vs im sh, incl vs (v0 :: r) -> exists im' sh', foldM (fun st v => let '(imgs, shifts) := st in do p <- position chk g v; Ret (aset Nat.eqb v (k + 1) imgs, aset Nat.eqb v (lsub p (pos v0)) shifts)) (im, sh) vs = Ret (im', sh') /\
            (forall v, tab cls im sh v -> tab cls im' sh' v) /\ forall v, In v vs -> tab cls im' sh' v).
          { clear im sh. induction vs as [|v vs IHv]; intros im sh Iv; cbn [foldM].
            - exists im, sh. splits; auto. intros v [].
            - rewrite (pl_ret _ _ _ P) by (apply (Hv _ _ Io); apply Iv; simpl; auto). cbn [bind].
              destruct (IHv (aset Nat.eqb v (k + 1) im) (aset Nat.eqb v (lsub (pos v) (pos v0)) sh)) as (im' & sh' & E1 & K1 & K2); [intros x Hx; apply Iv; simpl; auto|].
              exists im', sh'. splits; auto.
              + intros w (i & orb' & T1 & T2 & T3 & T4). apply K1. destruct (Nat.eqb_spec w v) as [->|N].
                * exists k, (v0 :: r). rewrite !(aget_aset _ Nat.eqb_spec), Nat.eqb_refl. splits; auto. apply Iv; simpl; auto.
                * exists i, orb'. rewrite !(aget_aset _ Nat.eqb_spec). apply Nat.eqb_neq in N. rewrite N. splits; auto.
              + intros w [<-|Hw]; [|apply K2; auto]. apply K1. exists k, (v0 :: r). rewrite !(aget_aset _ Nat.eqb_spec), Nat.eqb_refl. splits; auto. apply Iv; simpl; auto. }
          apply (G (v0 :: r) im sh). intros x; auto. }
        destruct St as (im1 & sh1 & E1 & K1 & K2). rewrite E1. cbn [bind].
        destruct (IH (S k) im1 sh1) as (imgs & shifts & E2 & K3 & K4). { intros i o Hi. apply Hl. cbn [length seq combine]. simpl; auto. }
        exists imgs, shifts. splits; auto. intros v o [<-|Ho] Hvo; [apply K3, K2; auto|eapply K4; eauto]. }
    destruct (Gen cls 0 [] []) as (imgs & shifts & E & _ & K).
    - clear. assert (X : forall (l : list (list nat)) k i orb, In (i, orb) (combine (seq k (length l)) l) -> k <= i /\ nth_error l (i - k) = Some orb).
      { induction l as [|o l IH]; intros k i orb H; cbn [length seq combine] in H; [destruct H|]. destruct H as [H|H].
        - injection H as <- <-. split; auto. rewrite Nat.sub_diag. auto.
        - apply IH in H as [H1 H2]. split; [lia|]. replace (i - k) with (S (i - S k)) by lia. auto. }
      intros i orb H. apply X in H as [_ H]. rewrite Nat.sub_0_r in H. auto.
    - exists imgs, shifts. splits; auto.
  Qed.

  (** the list of edges *)
  Lemma edges_loop (F : edge -> outcome edge) (es : list edge) : forall acc res,
    foldM (fun edges e => if edge_eqb e (canonical e) then do x <- F e; Ret (edges ++ [x]) else Ret edges) acc es = Ret res ->
    exists l, mapM F (filter (fun e => edge_eqb e (canonical e)) es) = Ret l /\ res = acc ++ l.
  Proof.
    induction es as [|e es IH]; intros acc res E; cbn [foldM filter] in *.
    - injection E as <-. exists []. rewrite app_nil_r. split; auto.
    - destruct (edge_eqb e (canonical e)); cbn [bind] in E; [|apply IH; auto]. cbn [mapM]. destruct (F e) as [x| |]; try discriminate E. cbn [bind] in E |- *.
      apply IH in E as (l & -> & ->). cbn [bind]. eexists. split; [reflexivity|]. rewrite <- app_assoc. auto.
  Qed.
  Lemma mapM_In {A B} (f : A -> outcome B) l r : mapM f l = Ret r -> (forall x, In x l -> exists y, f x = Ret y /\ In y r) /\ forall y, In y r -> exists x, In x l /\ f x = Ret y.
  Proof.
    revert r. induction l as [|a l IH]; intros r E; cbn [mapM] in E.
    - injection E as <-. split; intros ? [].
    - destruct (f a) as [b| |] eqn:Ea; try discriminate E. cbn [bind] in E. destruct (mapM f l) as [r'| |]; try discriminate E. cbn [bind] in E. injection E as <-.
      destruct (IH r' eq_refl) as [H1 H2]. split.
      + intros x [<-|Hx]; [exists b; simpl; auto|]. destruct (H1 x Hx) as (y & E1 & I1). exists y. simpl; auto.
      + intros y [<-|Hy]; [exists a; simpl; auto|]. destruct (H2 y Hy) as (x & I1 & E1). exists x. simpl; auto.
  Qed.
  Lemma mapM_ints (v : list Qc) l : mapM (fun x => unwrap (r_to_i32 x)) v = Ret l -> length l = length v /\ forall k, k < length v -> ZQ (vget l k) = vget v k.
  Proof.
    revert l. induction v as [|x v IH]; intros l E; cbn [mapM] in E.
    - injection E as <-. split; auto. cbn. intros; lia.
    - destruct (r_to_i32 x) as [z|] eqn:Ez; cbn [unwrap bind] in E; try discriminate E. destruct (mapM _ v) as [l'| |]; try discriminate E. cbn [bind] in E. injection E as <-.
      destruct (IH l' eq_refl) as [L H]. apply r_to_i32_Some in Ez as [Ez _]. cbn [length]. split; [lia|]. intros [|k] Hk; cbn; [auto|]. apply H. lia.
  Qed.

  Lemma img_inv h : is_locally_stable chk g = Ret true -> is_ladder chk g = Ret false -> fits chk g -> minimal_image chk g = Ret (Some h) ->
    exists imgf rep m bs v0 r, Img h imgf rep m bs v0 r.
  Proof.
    intros St La Fi E. destruct (not_ladder_orbits chk g pos C P Hd CC NE LS St La Fi) as (cls & v0 & r & cls' & Eo & Hp & Ecl & Hhd & Hf).
    unfold minimal_image in E. rewrite St in E. cbn [bind assert] in E. rewrite Eo in E. cbn [bind] in E. assert (E0 : nth_error cls 0 = Some (v0 :: r)) by (rewrite Ecl; auto). rewrite E0 in E. cbn [unwrap bind] in E.
    destruct (length (v0 :: r) =? 1); [discriminate E|].
    assert (Hv0 : is_vertex g v0) by (apply Hf; simpl; auto). assert (Hr : forall v, In v r -> is_vertex g v) by (intros v Hv; apply Hf; simpl; auto).
    assert (Eb : extended_translation_basis chk g (v0 :: r) = rational_lattice_basis (map (fun v => mod1 (lsub (pos v) (pos v0))) r)).
    { unfold extended_translation_basis. cbn [nth_error unwrap bind skipn]. rewrite (pl_ret _ _ _ P) by auto. cbn [bind].
      rewrite (mapM_Ret _ (fun v => mod1 (lsub (pos v) (pos v0)))); [reflexivity|]. intros v Hv. rewrite (pl_ret _ _ _ P) by auto. reflexivity. }
    rewrite Eb in E. destruct (rational_lattice_basis _) as [bs| |] eqn:Elb; cbn [bind] in E; try discriminate E.
    assert (Ld : lens d (map (fun v => mod1 (lsub (pos v) (pos v0))) r)).
    { unfold lens. apply Forall_forall. intros x Hx. apply in_map_iff in Hx as (v & <- & Hv). unfold mod1. rewrite map_length, lsub_len; rewrite ?(pl_len _ _ _ P) by auto; auto. }
    destruct (rational_lattice_basis_ok d _ bs Ld Elb) as (Lb & Lbs & Hlat).
    assert (Nb : bs <> []) by (destruct bs; [simpl in Lb; lia|discriminate]).
    pose proof (vstack_rows d bs Hd Lbs Nb) as Vs. destruct (mapM mat_row bs) as [rows| |]; cbn [bind] in E, Vs; try discriminate E. rewrite Vs in E. cbn [bind] in E.
    rewrite mrows_mk, Lb in E by auto. destruct (inverse_correct (R := Qc) d (fun i j => vget (nth i bs []) j) Hd) as [(m & Ei & Hm)|[Ei _]]; rewrite Ei in E; cbn [bind unwrap] in E; [|discriminate E].
    rewrite vec_zero_cv in E by auto. cbn [bind] in E. rewrite aff_new_am in E. cbn [bind] in E.
    assert (Hcl : forall orb v, In orb cls -> In v orb -> is_vertex g v).
    { intros orb v Ho Hv. apply vertices_In. destruct Hp as (Pm & _). apply (Permutation_in _ Pm). apply in_concat. eauto. }
    assert (Hne : forall orb, In orb cls -> orb <> []). { destruct Hp as (_ & Fn & _). intros orb Ho. rewrite Forall_forall in Fn. auto. }
    destruct (tables cls Hcl Hne) as (imgs & shifts & Et & Ht). rewrite Et in E. cbn [bind] in E.
    destruct (directed_edges_In g pos LS) as (es & Ees & Ie & _). rewrite Ees in E. cbn [bind] in E.
    set (imgf := fun v => match aget Nat.eqb v imgs with Some i => i | None => 0 end). set (rep := fun v => hd 0 (nth (imgf v - 1) cls [])).
    assert (NDc : NoDup (concat cls)). { destruct Hp as (Pm & _). eapply Permutation_NoDup; [apply Permutation_sym; eauto|]. apply (usort_NoDup _ nat_cmp_laws). }
    assert (T : forall v, is_vertex g v -> exists i orb, nth_error cls i = Some orb /\ In v orb /\ aget Nat.eqb v imgs = Some (i + 1) /\ imgf v = i + 1 /\ rep v = hd 0 orb /\ aget Nat.eqb v shifts = Some (lsub (pos v) (pos (rep v)))).
    { intros v Hv. destruct Hp as (Pm & _). apply vertices_In in Hv. apply (Permutation_in _ (Permutation_sym Pm)) in Hv. apply in_concat in Hv as (orb & Ho & Hv).
      destruct (Ht v orb Ho Hv) as (i & orb' & T1 & T2 & T3 & T4). exists i, orb'.
      assert (E1 : imgf v = i + 1) by (unfold imgf; rewrite T3; auto).
      assert (E2 : rep v = hd 0 orb'). { unfold rep. rewrite E1. replace (i + 1 - 1) with i by lia. erewrite nth_error_nth; eauto. }
      rewrite E2. splits; auto. }
    match type of E with (do edges <- foldM ?f [] es; _) = _ =>
      assert (Ef : forall l acc, foldM f acc l = foldM (fun edges e => if edge_eqb e (canonical e) then do x <- (fun e =>
            do h <- unwrap (aget Nat.eqb (head e) imgs);
            do t <- unwrap (aget Nat.eqb (tail e) imgs);
            do st <- unwrap (aget Nat.eqb (tail e) shifts);
            do sh <- unwrap (aget Nat.eqb (head e) shifts);
            do s <- aff_apply (am d m (fun _ => 0%Qc)) (lsub (ladd (map ZQ (shift e)) st) sh);
            do s <- mapM (fun x => unwrap (r_to_i32 x)) s; Ret (Edge h t s)) e; Ret (edges ++ [x]) else Ret edges) acc l) end.
    { induction l as [|e l IH]; intros acc; cbn [foldM]; auto. destruct (edge_eqb e (canonical e)); [|cbn [bind]; apply IH].
      destruct (aget Nat.eqb (head e) imgs); cbn [unwrap bind]; auto. destruct (aget Nat.eqb (tail e) imgs); cbn [unwrap bind]; auto.
      destruct (aget Nat.eqb (tail e) shifts); cbn [unwrap bind]; auto. destruct (aget Nat.eqb (head e) shifts); cbn [unwrap bind]; auto.
      change (Vec.r0 (R := Qc)) with 0%Qc.
      destruct (aff_apply _ _); cbn [bind]; auto. destruct (mapM _ _); cbn [bind]; auto. }
    rewrite Ef in E. clear Ef. match type of E with (do edges <- ?x; _) = _ => destruct x as [edges| |] eqn:Eg end; cbn [bind] in E; try discriminate E. injection E as <-.
    apply edges_loop in Eg as (l & Em & ->). cbn [app] in *. destruct (mapM_In _ _ _ Em) as [M1 M2]. clear Em.
    assert (Val : forall e x, In e (dedges g) -> (do h <- unwrap (aget Nat.eqb (head e) imgs);
            do t <- unwrap (aget Nat.eqb (tail e) imgs);
            do st <- unwrap (aget Nat.eqb (tail e) shifts);
            do sh <- unwrap (aget Nat.eqb (head e) shifts);
            do s <- aff_apply (am d m (fun _ => 0%Qc)) (lsub (ladd (map ZQ (shift e)) st) sh);
            do s <- mapM (fun x => unwrap (r_to_i32 x)) s; Ret (Edge h t s)) = Ret x ->
            exists z, length z = d /\ (forall k, k < d -> ZQ (vget z k) = lapp d m (wsh rep e) k) /\ x = Edge (imgf (head e)) (imgf (tail e)) z).
    { intros e x He Ex. destruct (dedges_vertices g e He) as [Hh Htl]. pose proof (dedges_dim g C e He) as Ls.
      destruct (T _ Hh) as (i & o & _ & Io & A1 & A2 & _ & A3). destruct (T _ Htl) as (j & o' & _ & Io' & B1 & B2 & _ & B3).
      assert (Rh : is_vertex g (rep (head e))). { destruct (T _ Hh) as (i' & o2 & Q1 & Q2 & _ & _ & -> & _). apply nth_error_In in Q1. apply (Hcl o2); auto. destruct o2; [destruct Q2|simpl; auto]. }
      assert (Rt : is_vertex g (rep (tail e))). { destruct (T _ Htl) as (i' & o2 & Q1 & Q2 & _ & _ & -> & _). apply nth_error_In in Q1. apply (Hcl o2); auto. destruct o2; [destruct Q2|simpl; auto]. }
      rewrite A1, B1, A3, B3 in Ex. cbn [unwrap bind] in Ex.
      assert (L1 : length (lsub (pos (tail e)) (pos (rep (tail e)))) = d) by (rewrite lsub_len; rewrite ?(pl_len _ _ _ P) by auto; auto).
      assert (L2 : length (lsub (pos (head e)) (pos (rep (head e)))) = d) by (rewrite lsub_len; rewrite ?(pl_len _ _ _ P) by auto; auto).
      assert (L3 : length (map ZQ (shift e)) = d) by (rewrite map_length; auto).
      assert (L4 : length (ladd (map ZQ (shift e)) (lsub (pos (tail e)) (pos (rep (tail e))))) = d) by (rewrite ladd_len; congruence).
      rewrite aff_apply_am in Ex by (rewrite lsub_len; congruence). cbn [bind] in Ex.
      match type of Ex with (do s <- ?y; _) = _ => destruct y as [z| |] eqn:Ez end; cbn [bind] in Ex; try discriminate Ex. injection Ex as <-.
      apply mapM_ints in Ez as [Lz Hz]. rewrite mapp_length in *. exists z. splits; auto; [|rewrite A2, B2; auto].
      intros k Hk. rewrite Hz, vget_mapp by auto. apply lappq_ext. intros j' Hj. unfold wsh. change (vget ?a ?b) with (pget a b) at 1.
      rewrite lsub_get, ladd_get, !lsub_get by (rewrite ?(pl_len _ _ _ P) by auto; congruence). f_equal. f_equal. unfold pget, vget. change 0%Qc with (ZQ 0). rewrite map_nth. reflexivity. }
    assert (Cano : forall e, In e (gedges g) -> In e (filter (fun e => edge_eqb e (canonical e)) es) /\ In e (dedges g)).
    { intros e He. assert (D : In e (dedges g)) by (apply dedges_In; eauto). split; auto. apply filter_In. split; [apply Ie; auto|]. rewrite (c_canon g C e He). destruct (edge_eqb_spec e e); auto. }
    assert (L : edges_of_dim d l).
    { intros x Hx. destruct (M2 x Hx) as (e & He & Ex). apply filter_In in He as [He _]. apply Ie in He. destruct (Val e x He Ex) as (z & Lz & _ & ->). auto. }
    exists imgf, rep, m, bs, v0, r. split.
    - reflexivity.
    - exists l. split; auto.
    - exact Hf.
    - intros v w Hv Hw. destruct Hp as (_ & _ & Hp & _). specialize (Hp v w). rewrite !vertices_In in Hp. rewrite <- Hp by auto.
      destruct (T v Hv) as (i & o & A1 & A2 & _ & A3 & _). destruct (T w Hw) as (j & o' & B1 & B2 & _ & B3 & _). rewrite A3, B3. split.
      + intros Eij. assert (i = j) by lia. subst j. rewrite A1 in B1. injection B1 as <-. exists o. splits; auto. eapply nth_error_In; eauto.
      + intros (c & Ic & Iv & Iw). apply In_nth_error in Ic as (n & En). rewrite (class_index cls i n o c v NDc A1 En A2 Iv), (class_index cls j n o' c w NDc B1 En B2 Iw). auto.
    - intros v Hv. destruct (T v Hv) as (i & o & A1 & A2 & _ & A3 & A4 & _). assert (Io : In (rep v) o) by (rewrite A4; destruct o; [destruct A2|simpl; auto]).
      assert (Rv : is_vertex g (rep v)) by (apply (Hcl o); auto; eapply nth_error_In; eauto). split; auto.
      destruct (T _ Rv) as (j & o' & B1 & B2 & _ & B3 & _). rewrite A3, B3. rewrite (class_index cls i j o o' (rep v) NDc A1 B1 Io B2). auto.
    - intros v w Evw. unfold rep. rewrite Evw. auto.
    - destruct (T v0 Hv0) as (i & o & A1 & A2 & _ & A3 & A4 & _). rewrite A4. assert (i = 0) by (apply (class_index cls i 0 o (v0 :: r) v0 NDc A1 E0 A2); simpl; auto). subst i. rewrite A1 in E0. injection E0 as ->. auto.
    - split; auto.
    - exact Hlat.
    - exact Hm.
    - intros e He. destruct (Cano e He) as [F1 D]. destruct (M1 e F1) as (x & Ex & Ix). destruct (Val e x D Ex) as (z & Lz & Hz & ->). exists z. splits; auto. apply gnew_edges. eauto.
    - intros e' He'. apply gnew_edges in He' as (x & Hx & ->). destruct (M2 x Hx) as (e & He & Ex). apply filter_In in He as [He Hc]. apply Ie in He.
      destruct (Val e x He Ex) as (z & Lz & Hz & ->). exists e, z. splits; auto. destruct (edge_eqb_spec e (canonical e)) as [Ec|]; [|discriminate]. rewrite Ec. apply dedges_canonical; auto.
  Qed.

  (** *** integers *)
  Definition isZ (x : Qc) : Prop := exists z, x = ZQ z.
  Lemma isZ_ZQ z : isZ (ZQ z). Proof. exists z; auto. Qed.
  Lemma isZ_add x y : isZ x -> isZ y -> isZ (x + y)%Qc.
  Proof. intros [a ->] [b ->]. exists (a + b)%Z. rewrite ZQ_add. auto. Qed.
  Lemma isZ_sub x y : isZ x -> isZ y -> isZ (x - y)%Qc.
  Proof. intros [a ->] [b ->]. exists (a - b)%Z. rewrite ZQ_sub. auto. Qed.
  Lemma isZ_opp x : isZ x -> isZ (- x)%Qc.
  Proof. intros [a ->]. exists (- a)%Z. rewrite ZQ_opp. auto. Qed.
  Lemma isZ_eq x y : x = y -> isZ x -> isZ y. Proof. intros ->; auto. Qed.
  Lemma isZ_0 : isZ 0%Qc. Proof. exists 0%Z. reflexivity. Qed.
  Lemma isZ_num x : isZ x -> x = ZQ (Qnum x).
  Proof. intros [z ->]. destruct (ZQ_den z) as [_ ->]. auto. Qed.
  Lemma qrem1_ZQ z : qrem1 (ZQ z) = 0%Qc.
  Proof. unfold qrem1. destruct (ZQ_den z) as [-> ->]. rewrite Z.quot_1_r. ring. Qed.
  Lemma qrem1_isZ x : isZ (qrem1 x - x)%Qc.
  Proof. unfold qrem1. exists (- Z.quot (Qnum x) (Zpos (Qden x)))%Z. rewrite ZQ_opp. ring. Qed.

  (** translations move all vertices by the same amount, modulo integers *)
  Lemma displacement t F v w k : trans g pos t F -> is_vertex g v -> is_vertex g w -> k < d ->
    isZ ((pget (pos (t v)) k - pget (pos v) k) - (pget (pos (t w)) k - pget (pos w) k))%Qc.
  Proof.
    intros T Hv Hw Hk. assert (L : linked (gedges g) w v) by (apply (conn g CC); auto). clear Hv. induction L as [|u v' e L IH He Hor].
    - exists 0%Z. change (ZQ 0) with 0%Qc. ring.
    - assert (D : In e (dedges g)) by (apply dedges_In; eauto). destruct (T e D) as (A1 & A2 & A3 & A4).
      pose proof (f_equal (fun x => pget x k) A4) as E. cbn beta in E. rewrite !pget_evec in E by auto. rewrite A2, A3 in E.
      set (s := (ZQ (vget (shift e) k) - ZQ (vget (shift (F e)) k))%Qc). assert (Is : isZ s) by (apply isZ_sub; apply isZ_ZQ).
      assert (Es : ((pget (pos (t (tail e))) k - pget (pos (tail e)) k) - (pget (pos (t (head e))) k - pget (pos (head e)) k) = s)%Qc) by (unfold s; qclra).
      destruct Hor as [[<- <-]|[<- <-]].
      + eapply isZ_eq; [|apply (isZ_add _ _ IH Is)]. rewrite <- Es. ring.
      + eapply isZ_eq; [|apply (isZ_sub _ _ IH Is)]. rewrite <- Es. ring.
  Qed.

  Lemma places v w : is_locally_stable chk g = Ret true -> is_ladder chk g = Ret false -> fits chk g ->
    is_vertex g v -> trel v w -> (forall k, k < d -> isZ (pget (pos w) k - pget (pos v) k)%Qc) -> v = w.
  Proof.
    intros St La Fi Hv Tr Hz. destruct (raw_orbits_ok chk g pos C P Hd CC NE LS) as (p & p' & cls & ops & v0 & r & cls' & Nv & E & Ec & G & R & Hp & Ecl & E0 & ND & Hvs & Hhd).
    assert (Hv0 : is_vertex g v0) by (apply Hvs; simpl; auto). destruct Tr as (t & F & T & <-).
    assert (Ht0 : is_vertex g (t v0)) by (eapply trans_vertex; eauto).
    assert (Hz0 : forall k, k < d -> isZ (pget (pos (t v0)) k)).
    { intros k Hk. pose proof (displacement t F v0 v k T Hv0 Hv Hk) as X. eapply isZ_eq; [|apply (isZ_add _ _ X (Hz k Hk))]. rewrite E0.
      replace (pget (repeat 0%Qc d) k) with 0%Qc by (unfold pget; clear; revert k; induction d; destruct k; cbn; auto). ring. }
    assert (Eid : t v0 = v0); [|symmetry; apply (trans_eq g pos CC LS t F (fun v => v) (fun e => e) v0); auto; apply trans_id].
    unfold is_ladder in La. rewrite St in La. cbn [bind assert] in La.
    destruct (Props_Placement.C34_is_stable chk g v0 (pos v0) C Hd Fi) as (b & Eb & Hb); [apply (pl_ret _ _ _ P); auto|]. rewrite Eb in La. cbn [bind] in La. destruct b.
    - destruct (Nat.eq_dec (t v0) v0) as [|N]; auto. exfalso.
      apply (proj1 Hb eq_refl (t v0) v0 (pos (t v0)) (pos v0)); auto; try (apply (pl_ret _ _ _ P); auto).
      split; rewrite !(pl_len _ _ _ P) by auto; auto. intros k Hk. destruct (Hz0 k Hk) as [z Ez]. exists z. unfold Props_Placement.coord. unfold pget in Ez. rewrite Ez, E0.
      replace (nth k (repeat 0%Qc d) 0%Qc) with 0%Qc by (clear; revert k; induction d; destruct k; cbn; auto). ring.
    - unfold raw_translational_orbits in La. rewrite E in La. cbn [bind] in La. rewrite Ec in La. cbn [omap bind snd] in La. rewrite Ecl in La.
      cbn [nth_error unwrap bind] in La. rewrite (same_place_ret chk g pos P) in La by auto. injection La as La.
      assert (I : In (t v0) (v0 :: r)).
      { destruct Hp as (Pm & _ & H3 & _). assert (X : exists c, In c cls /\ In v0 c /\ In (t v0) c) by (apply H3; [apply vertices_In; auto|apply vertices_In; auto|exists t, F; auto]).
        destruct X as (c & Ic & I0 & I1). assert (NDc : NoDup (concat cls)) by (eapply Permutation_NoDup; [apply Permutation_sym; eauto|]; apply (usort_NoDup _ nat_cmp_laws)).
        apply In_nth_error in Ic as (n & En). assert (n = 0) by (apply (class_index cls n 0 c (v0 :: r) v0 NDc En); auto; [rewrite Ecl; auto|simpl; auto]). subst n. rewrite Ecl in En. injection En as <-. auto. }
      destruct I as [I|I]; auto. exfalso. rewrite <- not_true_iff_false in La. apply La. apply existsb_exists. exists (t v0). split; auto.
      destruct (p_eqb_spec (mod1 (pos (t v0))) (mod1 (pos v0))) as [|N]; auto. exfalso. apply N. rewrite E0, mod1_zero. unfold mod1.
      apply point_ext; [rewrite map_length, repeat_length; apply (pl_len _ _ _ P); auto|]. rewrite map_length, (pl_len _ _ _ P) by auto. intros k Hk.
      replace (pget (repeat 0%Qc d) k) with 0%Qc by (unfold pget; clear; revert k; induction d; destruct k; cbn; auto).
      unfold pget. change 0%Qc with (qrem1 (ZQ 0)) at 1. rewrite map_nth. change (ZQ 0) with 0%Qc. destruct (Hz0 k Hk) as [z Ez]. unfold pget in Ez. rewrite Ez. apply qrem1_ZQ.
  Qed.

  Section Image.
    Variables (h : graph) (imgf rep : nat -> nat) (m : nat -> nat -> Qc) (bs : list qvec) (v0 : nat) (r : list nat).
    Hypothesis J : Img h imgf rep m bs v0 r.
    Hypothesis Pl : forall v w, is_vertex g v -> trel v w -> (forall k, k < d -> isZ (pget (pos w) k - pget (pos v) k)%Qc) -> v = w.
    Notation O := (szero d).

    Lemma v0_vertex : is_vertex g v0. Proof. apply (im_first _ _ _ _ _ _ _ J v0). simpl; auto. Qed.
    Lemma rep_rel v : is_vertex g v -> trel (rep v) v.
    Proof. intros Hv. destruct (im_rep _ _ _ _ _ _ _ J v Hv) as [H1 H2]. apply (im_iff _ _ _ _ _ _ _ J); auto. Qed.

    (** *** edges of the image *)
    Lemma wsh_rev e k : k < d -> wsh rep (rev e) k = (- wsh rep e k)%Qc.
    Proof. intros Hk. unfold wsh, rev. cbn [head tail shift]. rewrite vget_sneg, ZQ_opp. ring. Qed.
    Lemma lapp_opp (u : nat -> Qc) k : lapp d m (fun j => - u j)%Qc k = (- lapp d m u k)%Qc.
    Proof.
      rewrite (lappq_ext d m (fun j => - u j)%Qc (fun j => (u j - u j) - u j)%Qc) by (intros; ring). rewrite lappq_sub, lappq_sub. change (fun j => u j) with u. change (fun k0 => u k0) with u. ring.
    Qed.
    Lemma down e : In e (dedges g) -> exists z, length z = d /\ (forall k, k < d -> ZQ (vget z k) = lapp d m (wsh rep e) k) /\ In (Edge (imgf (head e)) (imgf (tail e)) z) (dedges h).
    Proof.
      assert (Can : forall x, In (canonical x) (gedges h) -> In x (dedges h)).
      { intros x Hx. apply dedges_In. exists (canonical x). split; auto. destruct (canonical_cases x) as [->| ->]; auto. right. rewrite rev_rev. auto. }
      intros He. apply dedges_In in He as (x & Hx & [->| ->]); destruct (im_edge _ _ _ _ _ _ _ J x Hx) as (z & Lz & Hz & Iz).
      - exists z. splits; auto.
      - exists (sneg z). splits; [rewrite sneg_length; auto| |].
        + intros k Hk. rewrite vget_sneg, ZQ_opp, Hz by auto. rewrite <- lapp_opp. apply lappq_ext. intros j Hj. symmetry. apply wsh_rev; auto.
        + apply Can in Iz. apply dedges_rev in Iz. exact Iz.
    Qed.
    Lemma up e' : In e' (dedges h) -> exists e z, In e (dedges g) /\ length z = d /\ (forall k, k < d -> ZQ (vget z k) = lapp d m (wsh rep e) k) /\ e' = Edge (imgf (head e)) (imgf (tail e)) z.
    Proof.
      assert (Main : forall x, In x (gedges h) -> exists e z, In e (dedges g) /\ length z = d /\ (forall k, k < d -> ZQ (vget z k) = lapp d m (wsh rep e) k) /\ x = Edge (imgf (head e)) (imgf (tail e)) z).
      { intros x Hx. destruct (im_edge' _ _ _ _ _ _ _ J x Hx) as (e & z & He & Lz & Hz & ->). assert (D : In e (dedges g)) by (apply dedges_In; eauto).
        destruct (canonical_cases (Edge (imgf (head e)) (imgf (tail e)) z)) as [->| ->]; [exists e, z; splits; auto|]. exists (rev e), (sneg z). splits; auto.
        - apply dedges_rev; auto.
        - rewrite sneg_length; auto.
        - intros k Hk. rewrite vget_sneg, ZQ_opp, Hz by auto. rewrite <- lapp_opp. apply lappq_ext. intros j Hj. symmetry. apply wsh_rev; auto. }
      intros He. apply dedges_In in He as (x & Hx & [->| ->]); destruct (Main x Hx) as (e & z & D & Lz & Hz & ->); [exists e, z; splits; auto|]. exists (rev e), (sneg z). splits; auto.
      - apply dedges_rev; auto.
      - rewrite sneg_length; auto.
      - intros k Hk. rewrite vget_sneg, ZQ_opp, Hz by auto. rewrite <- lapp_opp. apply lappq_ext. intros j Hj. symmetry. apply wsh_rev; auto.
    Qed.
    Lemma vertex_down v : is_vertex g v -> is_vertex h (imgf v).
    Proof. intros Hv. apply vertices_dedges in Hv as (e & He & <-). destruct (down e He) as (z & _ & _ & I). apply (dedges_vertices h) in I. apply I. Qed.
    Lemma vertex_up i : is_vertex h i -> exists v, is_vertex g v /\ imgf v = i.
    Proof.
      intros Hi. apply vertices_dedges in Hi as (e' & He' & <-). destruct (up e' He') as (e & z & He & _ & _ & ->). exists (head e). split; [apply (dedges_vertices g e He)|auto].
    Qed.

    (** *** the map *)
    Definition xx (a : node) (k : nat) : Qc := (npt pos a k - pget (pos (rep (fst a))) k)%Qc.
    Lemma xx_edge a e k : is_node g a -> In e (dedges g) -> head e = fst a -> k < d -> xx (tail e, sadd (snd a) (shift e)) k = (xx a k + wsh rep e k)%Qc.
    Proof.
      intros Na He Eh Hk. unfold xx. rewrite (npt_edge g pos C) by auto. cbn [fst]. rewrite pget_evec by auto. unfold wsh. rewrite Eh. ring.
    Qed.
    Lemma xx0 k : xx (v0, O) k = 0%Qc.
    Proof. unfold xx, npt. cbn [fst snd]. rewrite (im_rep0 _ _ _ _ _ _ _ J), vget_szero. change (ZQ 0) with 0%Qc. ring. Qed.
    Lemma lapp_0 (u : nat -> Qc) k : (forall j, j < d -> u j = 0%Qc) -> lapp d m u k = 0%Qc.
    Proof. intros H. unfold lapp. apply qs_zero. intros i Hi. rewrite H by auto. cbn [rmul Qc_dom]. ring. Qed.
    Lemma integral_walk n a c k : walk g n a c -> k < d -> isZ (lapp d m (xx a) k) -> isZ (lapp d m (xx c) k).
    Proof.
      intros W Hk. induction W as [|n a b c W IH Nc A]; auto. intros Ia. specialize (IH Ia). destruct (walk_nodes g n a b W) as [_ Nb].
      apply (adjacent_dedges g C) in A as (e & He & Eh & Et & Es); auto. destruct c as [w s]. cbn [fst snd] in *. subst w s.
      rewrite (lappq_ext d m _ (fun j => xx b j + wsh rep e j)%Qc) by (intros; apply xx_edge; auto). rewrite lappq_add. change (fun k0 => xx b k0) with (xx b). change (fun k0 => wsh rep e k0) with (wsh rep e).
      apply isZ_add; auto. destruct (down e He) as (z & _ & Hz & _). rewrite <- Hz by auto. apply isZ_ZQ.
    Qed.
    Lemma integral a k : is_node g a -> k < d -> isZ (lapp d m (xx a) k).
    Proof.
      intros Na Hk. assert (N0 : is_node g (v0, O)) by (apply nodeO; apply v0_vertex). destruct (CC (v0, O) a N0 Na) as [n W]. apply (integral_walk n (v0, O) a k W Hk).
      rewrite lapp_0; [apply isZ_0|]. intros j _. apply xx0.
    Qed.
    Definition fi (a : node) : node := (imgf (fst a), map (fun k => Qnum (lapp d m (xx a) k)) (seq 0 d)).
    Lemma fi_length a : length (snd (fi a)) = d.
    Proof. unfold fi. cbn [snd]. rewrite map_length, seq_length. auto. Qed.
    Lemma fi_get a k : is_node g a -> k < d -> ZQ (vget (snd (fi a)) k) = lapp d m (xx a) k.
    Proof.
      intros Na Hk. unfold fi. cbn [snd]. unfold vget at 1. erewrite nth_error_nth; [|rewrite nth_error_map_seq by auto; reflexivity].
      symmetry. apply isZ_num. apply integral; auto.
    Qed.
    Lemma fi_node a : is_node g a -> is_node h (fi a).
    Proof. intros [Hv La]. split; [apply vertex_down; auto|]. rewrite fi_length. symmetry. apply (im_dim _ _ _ _ _ _ _ J). Qed.

    (** *** injectivity *)
    Lemma m_inj (x y : nat -> Qc) : (forall k, k < d -> lapp d m x k = lapp d m y k) -> forall k, k < d -> x k = y k.
    Proof.
      intros H. assert (S : solves d d d m Matrix.delta (fun i j => vget (nth i bs []) j)) by (apply GeomMC.Qc_solves_comm; apply (im_inv _ _ _ _ _ _ _ J)).
      assert (E : map x (seq 0 d) = map y (seq 0 d)).
      { apply (linj_solves d m _ S); try (rewrite map_length, seq_length; auto). apply (vec_ext (R := Qc)); [rewrite !mapp_length; auto|]. rewrite mapp_length. intros i Hi.
        rewrite !vget_mapp by auto. rewrite (lappq_ext d m _ x), (lappq_ext d m (fun k => vget (map y (seq 0 d)) k) y); auto; intros k Hk; exact (pget_map_seq _ d k Hk). }
      intros k Hk. rewrite <- (pget_map_seq x d k Hk), <- (pget_map_seq y d k Hk). congruence.
    Qed.
    Lemma xx_inj a b : is_node g a -> is_node g b -> imgf (fst a) = imgf (fst b) -> (forall k, k < d -> xx a k = xx b k) -> a = b.
    Proof.
      intros Na Nb E H. pose proof (im_rep_eq _ _ _ _ _ _ _ J _ _ E) as Er.
      assert (Hp : forall k, k < d -> npt pos a k = npt pos b k) by (intros k Hk; specialize (H k Hk); unfold xx in H; rewrite Er in H; qclra).
      apply (npt_inj g pos); auto. apply (im_iff _ _ _ _ _ _ _ J) in E; [|apply Na|apply Nb]. apply Pl; auto; [apply Na|].
      intros k Hk. specialize (Hp k Hk). unfold npt in Hp. exists (vget (snd a) k - vget (snd b) k)%Z. rewrite ZQ_sub. qclra.
    Qed.
    Lemma fi_inj a b : is_node g a -> is_node g b -> fi a = fi b -> a = b.
    Proof.
      intros Na Nb E. apply xx_inj; auto; [exact (f_equal fst E)|]. apply m_inj. intros k Hk. rewrite <- !fi_get by auto. congruence.
    Qed.

    (** *** the lattice of all translations *)
    Definition inL (x : nat -> Qc) : Prop := exists t F, trans g pos t F /\ forall k, k < d -> isZ (x k - (pget (pos (t v0)) k - pget (pos v0) k))%Qc.
    Lemma inL_ext x y : (forall k, k < d -> x k = y k) -> inL x -> inL y.
    Proof. intros H (t & F & T & Hx). exists t, F. split; auto. intros k Hk. rewrite <- H by auto. auto. Qed.
    Lemma inL_int x : (forall k, k < d -> isZ (x k)) -> inL x.
    Proof. intros H. exists (fun v => v), (fun e => e). split; [apply trans_id|]. intros k Hk. eapply isZ_eq; [|apply (H k Hk)]. ring. Qed.
    Lemma inL_add x y : inL x -> inL y -> inL (fun k => x k + y k)%Qc.
    Proof.
      intros (t & F & T & Hx) (t' & F' & T' & Hy). exists (fun v => t (t' v)), (fun e => F (F' e)). split; [apply trans_comp; auto|]. intros k Hk.
      assert (Hv' : is_vertex g (t' v0)) by (eapply trans_vertex; eauto using v0_vertex).
      pose proof (displacement t F (t' v0) v0 k T Hv' v0_vertex Hk) as D. eapply isZ_eq; [|apply (isZ_sub _ _ (isZ_add _ _ (Hx k Hk) (Hy k Hk)) D)]. ring.
    Qed.
    Lemma inL_opp x : inL x -> inL (fun k => - x k)%Qc.
    Proof.
      intros (t & F & T & Hx). destruct (trans_inv g pos Hd CC NE LS t F T) as (t' & F' & T' & I). exists t', F'. split; auto. intros k Hk.
      assert (Hv' : is_vertex g (t' v0)) by (eapply trans_vertex; eauto using v0_vertex).
      pose proof (displacement t F (t' v0) v0 k T Hv' v0_vertex Hk) as D. rewrite (proj1 (I v0 v0_vertex)) in D.
      eapply isZ_eq; [|apply (isZ_sub _ _ D (Hx k Hk))]. ring.
    Qed.
    Lemma inL_zmul z x : inL x -> inL (fun k => ZQ z * x k)%Qc.
    Proof.
      intros H. assert (Nn : forall n : nat, inL (fun k => ZQ (Z.of_nat n) * x k)%Qc).
      { induction n as [|n IH].
        - apply inL_int. intros k Hk. exists 0%Z. change (ZQ (Z.of_nat 0)) with 0%Qc. change (ZQ 0) with 0%Qc. ring.
        - apply (inL_ext (fun k => x k + ZQ (Z.of_nat n) * x k)%Qc); [|apply inL_add; auto]. intros k Hk. rewrite Nat2Z.inj_succ, <- Z.add_1_l, ZQ_add. change (ZQ 1) with 1%Qc. ring. }
      destruct (Z.le_ge_cases 0 z) as [Hz|Hz].
      - rewrite <- (Z2Nat.id z Hz). apply Nn.
      - apply (inL_ext (fun k => - (ZQ (Z.of_nat (Z.to_nat (- z))) * x k))%Qc); [|apply inL_opp; apply Nn]. intros k Hk. rewrite Z2Nat.id, ZQ_opp by lia. ring.
    Qed.
    Lemma inL_zcomb vs x : lens d vs -> (forall v, In v vs -> inL (vget v)) -> zcomb d vs x -> inL (vget x).
    Proof.
      intros L Hv (cs & Lc & ->). revert cs Lc. induction vs as [|v vs IH]; intros [|c cs] Lc; try discriminate Lc.
      - cbn [map lincomb]. apply inL_int. intros k Hk. rewrite vget_vzero. apply isZ_0.
      - cbn [map lincomb]. inversion L as [|? ? Lv L']; subst. apply (inL_ext (fun k => ZQ c * vget v k + vget (lincomb d (map ZQ cs) vs) k)%Qc).
        + intros k Hk. rewrite vget_vadd by (rewrite vscale_length, lincomb_length; auto). rewrite vget_vscale. reflexivity.
        + apply inL_add; [apply inL_zmul; apply Hv; simpl; auto|]. apply IH; auto. intros w Hw. apply Hv. simpl; auto.
    Qed.
    Lemma gens_inL v : In v (units d ++ map (fun v => mod1 (lsub (pos v) (pos v0))) r) -> length v = d /\ inL (vget v).
    Proof.
      intros Hv. apply in_app_or in Hv as [Hv|Hv].
      - apply in_map_iff in Hv as (k & <- & Hk). split; [rewrite map_length, seq_length; auto|]. apply inL_int. intros j Hj.
        pose proof (pget_map_seq (fun j => if j =? k then 1%Qc else 0%Qc) d j Hj) as E. cbn beta in E. unfold vget. unfold pget in E. cbn [r0 Qc_dom]. rewrite E. destruct (j =? k); [exists 1%Z|exists 0%Z]; reflexivity.
      - apply in_map_iff in Hv as (w & <- & Hw). assert (Ww : In w (v0 :: r)) by (simpl; auto). apply (im_first _ _ _ _ _ _ _ J) in Ww as (Hwv & t & F & T & <-).
        assert (Ll : length (lsub (pos (t v0)) (pos v0)) = d) by (rewrite lsub_len; rewrite !(pl_len _ _ _ P) by (auto; apply v0_vertex); auto).
        split; [unfold mod1; rewrite map_length; auto|]. exists t, F. split; auto. intros k Hk. unfold mod1, vget. cbn [r0 Qc_dom].
        rewrite (nth_indep _ 0%Qc (qrem1 0%Qc)), map_nth by (rewrite map_length, Ll; auto).
        rewrite <- lsub_get by (rewrite !(pl_len _ _ _ P) by (auto; apply v0_vertex); auto). apply qrem1_isZ.
    Qed.
    Lemma basis_inL x : zcomb d bs x -> inL (vget x).
    Proof.
      intros H. apply (im_lat _ _ _ _ _ _ _ J) in H. refine (inL_zcomb _ _ _ _ H).
      - unfold lens. apply Forall_forall. intros v Hv. apply (gens_inL v Hv).
      - intros v Hv. apply (gens_inL v Hv).
    Qed.
    (** every element of the lattice occurs in every class *)
    Lemma inL_node x w : inL x -> is_vertex g w -> exists a, is_node g a /\ imgf (fst a) = imgf w /\ forall k, k < d -> xx a k = x k.
    Proof.
      intros (t & F & T & Hx) Hw. destruct (im_rep _ _ _ _ _ _ _ J w Hw) as [Rw Ew].
      assert (Rt : is_vertex g (t (rep w))) by (eapply trans_vertex; eauto).
      assert (Et : imgf (t (rep w)) = imgf w). { rewrite <- Ew. symmetry. apply (im_iff _ _ _ _ _ _ _ J); auto. exists t, F. auto. }
      assert (Er : rep (t (rep w)) = rep w) by (apply (im_rep_eq _ _ _ _ _ _ _ J); auto).
      set (y := fun k => (x k - (pget (pos (t (rep w))) k - pget (pos (rep w)) k))%Qc).
      assert (Hy : forall k, k < d -> isZ (y k)).
      { intros k Hk. pose proof (displacement t F v0 (rep w) k T v0_vertex Rw Hk) as D. unfold y. eapply isZ_eq; [|apply (isZ_add _ _ (Hx k Hk) D)]. ring. }
      exists (t (rep w), map (fun k => Qnum (y k)) (seq 0 d)). splits; auto.
      - split; auto. cbn [snd]. rewrite map_length, seq_length. auto.
      - intros k Hk. unfold xx, npt. cbn [fst snd]. unfold vget. erewrite nth_error_nth; [|rewrite nth_error_map_seq by auto; reflexivity].
        rewrite <- isZ_num by auto. rewrite Er. unfold y. ring.
    Qed.

    (** *** surjectivity *)
    Lemma lapp_comb (c : nat -> Qc) (f : nat -> nat -> Qc) n i : lapp d m (fun k => sumf n (fun j => c j * f j k)%Qc) i = sumf n (fun j => c j * lapp d m (f j) i)%Qc.
    Proof.
      induction n as [|n IH]; cbn [sumf].
      - apply lapp_0. auto.
      - cbn [radd Qc_dom]. rewrite lappq_add, IH. f_equal. unfold lapp. rewrite <- qs_scale. apply sumf_ext. intros. cbn [rmul Qc_dom]. ring.
    Qed.
    Lemma fi_surj b : is_node h b -> exists a, is_node g a /\ fi a = b.
    Proof.
      intros [Hi Ly]. rewrite (im_dim _ _ _ _ _ _ _ J) in Ly. destruct b as [i y]. cbn [fst snd] in *. destruct (vertex_up i Hi) as (w & Hw & <-).
      destruct (im_len _ _ _ _ _ _ _ J) as [Lb Lbs].
      assert (Bz : forall x, inL x -> forall k, k < d -> isZ (lapp d m x k)).
      { intros x Hx k Hk. destruct (inL_node x v0 Hx v0_vertex) as (a & Na & _ & Ha). rewrite <- (lappq_ext d m (xx a) x) by auto. apply integral; auto. }
      assert (Bj : forall j, j < d -> inL (vget (nth j bs []))).
      { intros j Hj. apply basis_inL. exists (vunit (R := Z) d j). split; [rewrite vunit_length; auto|].
        assert (E : map ZQ (vunit (R := Z) d j) = vunit (R := Qc) (length bs) j).
        { rewrite Lb. apply (vec_ext (R := Qc)); [rewrite map_length, !vunit_length; auto|]. rewrite map_length, vunit_length. intros k Hk.
          unfold vget at 1. cbn [r0 Qc_dom]. change 0%Qc with (ZQ 0). rewrite map_nth. change (nth k (vunit (R := Z) d j) 0%Z) with (vget (vunit (R := Z) d j) k). rewrite !vget_vunit.
          destruct ((k =? j) && (k <? d)); reflexivity. }
        rewrite E. symmetry. apply lincomb_unit; auto. apply nth_error_nth'. lia. }
      set (u := fun i j => Qnum (lapp d m (vget (nth j bs [])) i)).
      assert (Hu : forall i j, i < d -> j < d -> ZQ (u i j) = lapp d m (vget (nth j bs [])) i) by (intros; unfold u; rewrite <- isZ_num; auto).
      assert (D : ModMC.zdet d u = 1%Z).
      { apply (Unimod.inverse_transpose_det (n := d) (b := fun i j => vget (nth i bs []) j) (x := m)); [apply (im_inv _ _ _ _ _ _ _ J)|]. intros i' j Hi' Hj. rewrite Hu by auto. reflexivity. }
      destruct (Unimod.unimod_solve (n := d) (u := u) (fun k => vget y k) D) as (c & Hc).
      set (x := fun k => sumf d (fun j => ZQ (c j) * vget (nth j bs []) k)%Qc).
      assert (Lx : inL x).
      { apply (inL_ext (vget (lincomb d (map ZQ (map c (seq 0 d))) bs))).
        - intros k Hk. rewrite vget_lincomb by (auto; rewrite !map_length, seq_length; auto). rewrite Lb. unfold x. apply sumf_ext. intros j Hj. cbn [rmul Qc_dom]. f_equal.
          rewrite map_map. exact (pget_map_seq (fun j => ZQ (c j)) d j Hj).
        - apply basis_inL. exists (map c (seq 0 d)). split; [rewrite map_length, seq_length; auto|]. auto. }
      destruct (inL_node x w Lx Hw) as (a & Na & Ea & Ha). exists a. split; auto. destruct a as [v s]. cbn [fst] in Ea.
      apply injective_projections; [cbn [fst fi]; auto|]. apply (zvec_ext _ _ d); [apply fi_length|cbn [snd]; auto|]. intros k Hk. rewrite fi_get by auto. cbn [snd].
      rewrite (lappq_ext d m _ x) by auto. unfold x. rewrite lapp_comb. rewrite <- (Hc k Hk). rewrite Harmonic.ZQ_zs. apply sumf_ext. intros j Hj. rewrite ZQ_mul, Hu by auto.
      change (fun k0 => vget (nth j bs []) k0) with (vget (nth j bs [])). cbn [rmul Qc_dom]. ring.
    Qed.

    (** *** adjacency *)
    Lemma fi_step a e : is_node g a -> In e (dedges g) -> head e = fst a -> exists z, length z = d /\ In (Edge (imgf (head e)) (imgf (tail e)) z) (dedges h) /\
      (forall k, k < d -> ZQ (vget z k) = lapp d m (wsh rep e) k) /\ snd (fi (tail e, sadd (snd a) (shift e))) = sadd (snd (fi a)) z.
    Proof.
      intros Na He Eh. destruct (down e He) as (z & Lz & Hz & I). exists z. splits; auto.
      apply (zvec_ext _ _ d); [apply fi_length|rewrite sadd_length; rewrite fi_length; auto|]. intros k Hk. rewrite vget_sadd by (rewrite fi_length; auto). rewrite ZQ_add, !fi_get, Hz by (auto; apply edge_node; auto).
      rewrite (lappq_ext d m _ (fun j => xx a j + wsh rep e j)%Qc) by (intros; apply xx_edge; auto). rewrite lappq_add. reflexivity.
    Qed.
    Lemma fi_adjacent a b : is_node g a -> is_node g b -> (adjacent g a b <-> adjacent h (fi a) (fi b)).
    Proof.
      intros Na Nb. pose proof (im_con _ _ _ _ _ _ _ J) as Ch. split; intros A.
      - apply (adjacent_dedges g C) in A as (e & He & Eh & Et & Es); auto. destruct (fi_step a e Na He Eh) as (z & Lz & I & _ & Ez). apply (adjacent_dedges h Ch); try (apply fi_node; auto).
        eexists. split; [exact I|]. cbn [head tail shift]. destruct b as [w t]. cbn [fst snd] in Et, Es. subst w t. splits; auto. cbn [fst fi]. congruence.
      - apply (adjacent_dedges h Ch) in A as (e' & He' & Eh & Et & Es); try (apply fi_node; auto). destruct (up e' He') as (e & z & He & Lz & Hz & ->). cbn [head tail shift] in *.
        destruct (dedges_vertices g e He) as [Hh Ht]. cbn [fi fst] in Eh, Et. pose proof Na as [Hva _].
        pose proof Eh as Tr. apply (im_iff _ _ _ _ _ _ _ J) in Tr as (t & F & T & E1); auto. destruct (T e He) as (A1 & A2 & A3 & A4).
        assert (Hte : head (F e) = fst a) by congruence.
        assert (Nb' : is_node g (tail (F e), sadd (snd a) (shift (F e)))) by (apply edge_node; auto).
        assert (It : imgf (tail (F e)) = imgf (tail e)). { rewrite A3. symmetry. apply (im_iff _ _ _ _ _ _ _ J); auto; [eapply trans_vertex; eauto|]. exists t, F. auto. }
        assert (Ih : imgf (head (F e)) = imgf (head e)) by congruence.
        assert (Ew : forall k, k < d -> wsh rep (F e) k = wsh rep e k).
        { intros k Hk. pose proof (f_equal (fun x => pget x k) A4) as E. cbn beta in E. rewrite !pget_evec in E by auto. unfold wsh.
          rewrite (im_rep_eq _ _ _ _ _ _ _ J _ _ It), (im_rep_eq _ _ _ _ _ _ _ J _ _ Ih). qclra. }
        assert (X : (tail (F e), sadd (snd a) (shift (F e))) = b).
        { apply fi_inj; auto. destruct (fi_step a (F e) Na A1 Hte) as (z' & Lz' & _ & Hz' & Ez').
          apply injective_projections; [cbn [fi fst]; congruence|]. rewrite Ez'. rewrite Es. f_equal. apply (zvec_ext _ _ d); auto. intros k Hk. rewrite Hz', Hz by auto. apply lappq_ext. auto. }
        apply (adjacent_dedges g C); auto. exists (F e). subst b. cbn [fst snd]. splits; auto.
    Qed.
    Lemma fi_iso : net_isomorphism g h fi.
    Proof. split; [apply fi_node|apply fi_inj|apply fi_surj|apply fi_adjacent]. Qed.

    (** *** translations *)
    Definition mz (i k : nat) : Z := Qnum (m i k).
    Lemma xx_translate a t k : is_node g a -> length t = d -> xx (translate t a) k = (xx a k + ZQ (vget t k))%Qc.
    Proof. intros Na Lt. unfold xx. rewrite (npt_translate g pos) by auto. cbn [translate fst]. ring. Qed.
    Lemma mz_ok i k : i < d -> k < d -> m i k = ZQ (mz i k).
    Proof.
      intros Hi Hk. apply isZ_num. set (t := vunit (R := Z) d k). assert (Lt : length t = d) by apply vunit_length.
      assert (N0 : is_node g (v0, O)) by (apply nodeO; apply v0_vertex).
      pose proof (integral (translate t (v0, O)) i (translate_node g _ t N0 Lt) Hi) as X.
      rewrite (lappq_ext d m _ (fun j => if Nat.eqb j k then 1 else 0)%Qc) in X.
      - pose proof (lapp_unit (R := Qc) d m k i Hk) as U. cbn [r0 r1 Qc_dom] in U. rewrite U in X. exact X.
      - intros j Hj. rewrite xx_translate, xx0 by auto. unfold t. rewrite vget_vunit. assert (Y : (j <? d) = true) by (apply Nat.ltb_lt; auto). rewrite Y, andb_true_r. destruct (j =? k); reflexivity.
    Qed.
    Lemma fi_translate a t : is_node g a -> length t = d -> fi (translate t a) = translate (ztimes d mz t) (fi a).
    Proof.
      intros Na Lt. apply injective_projections; [reflexivity|]. cbn [translate snd]. apply (zvec_ext _ _ d); [apply fi_length|rewrite sadd_length; rewrite fi_length; auto; rewrite ztimes_length; auto|].
      intros k Hk. rewrite vget_sadd by (rewrite fi_length, ztimes_length; auto). rewrite ZQ_add, !fi_get, vget_ztimes by (auto; apply translate_node; auto).
      rewrite (lappq_ext d m (xx (translate t a)) (fun j => xx a j + ZQ (vget t j))%Qc) by (intros; apply xx_translate; auto). rewrite lappq_add. f_equal.
      apply lapp_ext; auto. intros j Hj. apply mz_ok; auto.
    Qed.

    (** every translation symmetry of the net becomes a lattice translation *)
    Lemma fi_minimal psi : net_isomorphism g g psi -> periodic_map g (fun i j => if i =? j then 1%Z else 0%Z) psi ->
      exists u, length u = d /\ forall a, is_node g a -> fi (psi a) = translate u (fi a).
    Proof.
      intros Iso Per. set (M1 := fun i j => if i =? j then 1%Z else 0%Z) in *. pose proof (FF_hom chk g pos C P CC LS psi M1 Iso Per) as H.
      assert (Id : forall (x : nat -> Qc) k, k < d -> lapp d (fun i j => ZQ (M1 i j)) x k = x k).
      { intros x k Hk. rewrite <- (lapp_delta (R := Qc) d x k Hk). apply lapp_ext; auto. intros j Hj. unfold M1, Matrix.delta. rewrite (Nat.eqb_sym k j). destruct (j =? k); reflexivity. }
      assert (T : trans g pos (ff g psi) (FF g psi M1)).
      { apply (trans_delta g pos). refine (hom_ext g pos _ _ _ _ _ H). intros x Lx. apply mapp_ext. intros i j Hi Hj. unfold M1, Matrix.delta. rewrite (Nat.eqb_sym j i). destruct (i =? j); reflexivity. }
      assert (Fst : forall a, is_node g a -> fst (psi a) = ff g psi (fst a)) by (apply (FF_induces g C psi M1 Iso Per)).
      assert (N0 : is_node g (v0, O)) by (apply nodeO; apply v0_vertex). pose proof (ni_node _ _ _ Iso _ N0) as N1.
      assert (Xc : forall a k, is_node g a -> k < d -> xx (psi a) k = (xx a k + (npt pos (psi (v0, O)) k - npt pos (v0, O) k))%Qc).
      { intros a k Na Hk. pose proof (phi_affine chk g pos C P CC LS psi M1 Iso Per (v0, O) a k N0 Na Hk) as A. rewrite !Id in A by auto. unfold xx.
        assert (Er : rep (fst (psi a)) = rep (fst a)).
        { apply (im_rep_eq _ _ _ _ _ _ _ J). symmetry. apply (im_iff _ _ _ _ _ _ _ J); [apply Na|apply (ni_node _ _ _ Iso _ Na)|]. rewrite Fst by auto. eexists _, _. split; [exact T|reflexivity]. }
        rewrite Er. change (npt pos a k) with (npt pos a k). qclra. }
      exists (ssub (snd (fi (psi (v0, O)))) (snd (fi (v0, O)))). split; [rewrite ssub_length; rewrite ?fi_length; auto|]. intros a Na. pose proof (ni_node _ _ _ Iso _ Na) as Np.
      apply injective_projections.
      - cbn [translate fi fst]. symmetry. apply (im_iff _ _ _ _ _ _ _ J); [apply Na|apply Np|]. rewrite Fst by auto. eexists _, _. split; [exact T|reflexivity].
      - cbn [translate snd]. apply (zvec_ext _ _ d); [apply fi_length|rewrite sadd_length; rewrite fi_length; auto; rewrite ssub_length; rewrite ?fi_length; auto|].
        intros k Hk. rewrite vget_sadd by (rewrite fi_length, ssub_length; rewrite ?fi_length; auto). rewrite vget_ssub by (rewrite !fi_length; auto). rewrite ZQ_add, ZQ_sub, !fi_get by auto.
        rewrite (lappq_ext d m (xx (psi a)) (fun j => xx a j + (npt pos (psi (v0, O)) j - npt pos (v0, O) j))%Qc) by (intros; apply Xc; auto).
        rewrite (lappq_ext d m (xx (psi (v0, O))) (fun j => xx (v0, O) j + (npt pos (psi (v0, O)) j - npt pos (v0, O) j))%Qc) by (intros; apply Xc; auto).
        rewrite !lappq_add. change (fun k0 => xx a k0) with (xx a). change (fun k0 => xx (v0, O) k0) with (xx (v0, O)). ring.
    Qed.

    (** *** the inverse map *)
    Definition xinv (y : list Z) (k : nat) : Qc := lapp d (fun i j => vget (nth i bs []) j) (fun j => ZQ (vget y j)) k.
    Definition cand (y : list Z) (v : nat) : node := (v, map (fun k => Qnum (xinv y k - (pget (pos v) k - pget (pos (rep v)) k))%Qc) (seq 0 d)).
    Definition gi (b : node) : node := match find (fun a => node_eqb (fi a) b) (map (cand (snd b)) (vertices g)) with Some a => a | None => b end.
    Lemma cand_fi a : is_node g a -> cand (snd (fi a)) (fst a) = a.
    Proof.
      intros Na. unfold cand. apply injective_projections; [reflexivity|]. destruct Na as [Hv La]. cbn [snd]. apply (vec_ext (R := Z)); [rewrite map_length, seq_length; auto|]. rewrite map_length, seq_length. intros k Hk.
      unfold vget at 1. erewrite nth_error_nth; [|rewrite nth_error_map_seq by auto; reflexivity].
      assert (E : xinv (snd (fi a)) k = xx a k).
      { unfold xinv. rewrite (lappq_ext d _ _ (lapp d m (xx a))) by (intros; apply fi_get; auto; split; auto). rewrite <- (lapp_lmul (R := Qc)).
        rewrite <- (lapp_delta (R := Qc) d (xx a) k Hk). apply lapp_ext; auto. intros j Hj. apply (im_inv _ _ _ _ _ _ _ J); auto. }
      rewrite E. unfold xx, npt. replace (pget (pos (fst a)) k + ZQ (vget (snd a) k) - pget (pos (rep (fst a))) k - (pget (pos (fst a)) k - pget (pos (rep (fst a))) k))%Qc with (ZQ (vget (snd a) k)) by ring.
      apply ZQ_den.
    Qed.
    Lemma gi_ok b : is_node h b -> is_node g (gi b) /\ fi (gi b) = b.
    Proof.
      intros Nb. destruct (fi_surj b Nb) as (a & Na & Ea). unfold gi. destruct (find _ _) as [c|] eqn:Ef.
      - apply find_some in Ef as [Ic Ec]. destruct (node_eqb_spec (fi c) b) as [Ec'|]; [|discriminate]. split; auto. apply in_map_iff in Ic as (v & <- & Hv). split; [apply vertices_In; auto|].
        unfold cand. cbn [snd]. rewrite map_length, seq_length. auto.
      - exfalso. pose proof (find_none _ _ Ef a) as X. cbn beta in X. destruct (node_eqb_spec (fi a) b); [|contradiction]. assert (Y : true = false); [|discriminate Y]. apply X.
        apply in_map_iff. exists (fst a). split; [|apply vertices_In, Na]. rewrite <- Ea. apply cand_fi; auto.
    Qed.
    (** translation symmetries of the image fix its vertices *)
    Lemma image_minimal T : net_isomorphism h h T -> periodic_map h (fun i j => if i =? j then 1%Z else 0%Z) T -> exists u, length u = d /\ forall b, is_node h b -> T b = translate u b.
    Proof.
      intros Iso Per. set (M1 := fun i j => if i =? j then 1%Z else 0%Z) in *. pose proof fi_iso as Fi.
      assert (Id : forall t, length t = d -> ztimes d M1 t = t).
      { intros t Lt. apply (zvec_ext _ _ d); [apply ztimes_length|auto|]. intros k Hk. rewrite vget_ztimes by auto. rewrite <- (lapp_delta (R := Qc) d (fun k => ZQ (vget t k)) k Hk). apply lapp_ext; auto.
        intros j Hj. unfold M1, Matrix.delta. rewrite (Nat.eqb_sym k j). destruct (j =? k); reflexivity. }
      set (psi := fun a => gi (T (fi a))).
      assert (Hpsi : forall a, is_node g a -> is_node g (psi a) /\ fi (psi a) = T (fi a)) by (intros a Na; apply gi_ok; apply (ni_node _ _ _ Iso); apply fi_node; auto).
      assert (Eh : gdim h = d) by apply (im_dim _ _ _ _ _ _ _ J).
      assert (I1 : net_isomorphism g g psi).
      { split.
        - intros a Na. apply Hpsi; auto.
        - intros a b Na Nb E. apply fi_inj; auto. apply (ni_inj _ _ _ Iso); try (apply fi_node; auto). destruct (Hpsi a Na) as [_ <-]. destruct (Hpsi b Nb) as [_ <-]. congruence.
        - intros b Nb. destruct (ni_surj _ _ _ Iso (fi b) (fi_node b Nb)) as (c & Nc & Ec). destruct (fi_surj c Nc) as (a & Na & Ea). exists a. split; auto. apply fi_inj; auto; [apply Hpsi; auto|].
          rewrite (proj2 (Hpsi a Na)), Ea. auto.
        - intros a b Na Nb. rewrite (fi_adjacent a b Na Nb). rewrite (ni_adjacent _ _ _ Iso) by (apply fi_node; auto). destruct (Hpsi a Na) as [P1 P2]. destruct (Hpsi b Nb) as [Q1 Q2].
          rewrite <- P2, <- Q2. symmetry. apply fi_adjacent; auto. }
      assert (I2 : periodic_map g M1 psi).
      { intros a t Na Lt. rewrite Id by auto. destruct (Hpsi a Na) as [P1 P2]. pose proof (translate_node g a t Na Lt) as Nt. destruct (Hpsi _ Nt) as [Q1 Q2].
        apply fi_inj; auto; [apply translate_node; auto|]. rewrite Q2, !fi_translate by auto. rewrite Per by (try apply fi_node; auto; rewrite ztimes_length; auto). rewrite Eh, Id by (apply ztimes_length). rewrite P2. auto. }
      destruct (fi_minimal psi I1 I2) as (u & Lu & Hu). exists u. split; auto. intros b Nb. destruct (gi_ok b Nb) as [Ng Eg]. rewrite <- Eg, <- Hu by auto. symmetry. apply Hpsi; auto.
    Qed.
  End Image.
End M.
