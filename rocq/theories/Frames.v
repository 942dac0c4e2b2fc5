(** Proofs about characteristic_edge_lists (Symmetries.v): which lists of edges it returns. *)
From Coq Require Import List ZArith Lia Bool PeanoNat QArith Qcanon Permutation.
From Verif Require Import Base Partition Vec Elim Scalars Matrix LinAlg Geometry ZQ QcTac ModSolver ModSolve OrdSet Lattices PGraph Net PGraphBase Traverse Placement Placed Stability Periodic Symmetries Automorph Group SymFront NetAuto.
From Verif Require RankQ.
Import ListNotations.
Close Scope Q_scope. Close Scope Qc_scope.
Open Scope nat_scope.

Lemma subl_filter {A} (p : A -> bool) l : subl (filter p l) l.
Proof. induction l as [|x l IH]; cbn [filter]; [constructor|]. destruct (p x); constructor; auto. Qed.
Lemma picks_In {A} (l pre : list A) x : In x l -> exists r, In (x, r) (picks pre l).
Proof. revert pre; induction l as [|y l IH]; intros pre [].
  - subst. eexists. simpl. left. reflexivity.
  - destruct (IH (pre ++ [y]) H) as (r & Hr). exists r. simpl; auto.
Qed.
Lemma permutations_complete {A} n : forall l p : list A, length l = n -> Permutation p l -> In p (permutations n l).
Proof.
  induction n as [|n IH]; intros l p L Pm; cbn [permutations].
  - destruct l; [|discriminate L]. apply Permutation_sym, Permutation_nil in Pm. subst. simpl; auto.
  - destruct p as [|x p]; [apply Permutation_nil in Pm; subst; discriminate L|].
    assert (Hx : In x l) by (apply (Permutation_in _ Pm); simpl; auto). destruct (picks_In l [] x Hx) as (r & Hr).
    pose proof (picks_perm _ _ _ _ Hr) as (Pr & Lr). cbn [app length] in Pr, Lr. apply in_flat_map. exists (x, r). split; auto. cbn [fst snd]. apply in_map. apply IH; [lia|].
    apply Permutation_cons_inv with x. eapply perm_trans; [exact Pm|]. apply Permutation_sym. auto.
Qed.
Lemma sub_of {A} (dec : forall x y : A, {x = y} + {x <> y}) (l c : list A) : NoDup l -> NoDup c -> incl c l -> exists c', subl c' l /\ Permutation c c'.
Proof.
  intros Nl Nc I. exists (filter (fun x => if in_dec dec x c then true else false) l). split; [apply subl_filter|]. apply NoDup_Permutation; auto.
  - apply NoDup_filter. auto.
  - intros x. rewrite filter_In. destruct (in_dec dec x c); split; intros; try tauto; [|intuition discriminate]. split; auto.
Qed.
(** consecutive edges *)
Fixpoint chain (es : list edge) : Prop :=
  match es with
  | [] => True
  | e :: r => match r with [] => True | e' :: _ => tail e = head e' end /\ chain r
  end.
Lemma chain_app a e r : chain (a ++ [e]) -> match r with [] => True | e' :: _ => tail e = head e' end -> chain r -> chain (a ++ e :: r).
Proof.
  induction a as [|x a IH]; cbn [app chain]; [auto|]. intros [H1 H2] H3 H4. split; auto. destruct a; cbn [app] in *; auto.
Qed.
Lemma chain_inv a e r : chain (a ++ e :: r) -> chain (a ++ [e]) /\ match r with [] => True | e' :: _ => tail e = head e' end.
Proof.
  induction a as [|x a IH]; cbn [app chain]; [tauto|]. intros [H1 H2]. apply IH in H2 as [H2 H3]. splits; auto. destruct a; cbn [app] in *; auto.
Qed.

Section F.
  Variables (chk : Z -> outcome Z) (g : graph) (pos : nat -> point).
  Hypothesis C : constructed g.
  Hypothesis P : Placed chk g pos.
  Hypothesis Hd : 0 < gdim g.
  Hypothesis CC : forall a c, is_node g a -> is_node g c -> joined g a c.
  Hypothesis NE : exists v, is_vertex g v.
  Hypothesis LS : forall v, NoDup (map (evec (gdim g) pos) (inc g v)).
  Notation d := (gdim g).
  Notation ev := (evec d pos).
  Notation evs := (map (evec (gdim g) pos)).
  Notation chr := (SymFront.chr g pos).
  Notation rk := RankQ.rk.

  Lemma chr_NoDup c : chr c -> NoDup c.
  Proof.
    intros (L & I & R). assert (E : rk d (evs c) = rk d (evs (nodup edge_dec c))).
    { apply (@RankQ.rk_same); try apply evs_lens. intros x. split; apply span_incl; try apply evs_lens; intros w Hw; apply in_map_iff in Hw as (e & <- & He); apply in_map; apply (nodup_In edge_dec); auto. }
    assert (B : rk d (evs (nodup edge_dec c)) <= length (nodup edge_dec c)) by (rewrite <- (map_length ev); apply (@RankQ.rk_length)).
    apply (@NoDup_incl_NoDup _ (nodup edge_dec c)); [apply NoDup_nodup|lia|]. intros e He. exact (proj1 (nodup_In edge_dec c e) He).
  Qed.
  Lemma rk_prefix (vs ws : list (list Qc)) : lens d vs -> lens d ws -> rk d (vs ++ ws) = length (vs ++ ws) -> rk d vs = length vs.
  Proof.
    intros Lv Lw R. apply (@RankQ.indep_rk); auto. intros cs Lc E.
    assert (Z : cs ++ vzero (R := Qc) (length ws) = vzero (length (vs ++ ws))).
    { apply ((@RankQ.rk_indep) d (vs ++ ws)); auto.
      - apply Forall_app; auto.
      - rewrite !app_length, vzero_length. lia.
      - rewrite lincomb_app by auto. rewrite lincomb_zero by auto. rewrite E. apply vadd_0_l; apply vzero_length. }
    unfold vzero in *. rewrite app_length, repeat_app in Z. apply (f_equal (firstn (length vs))) in Z. rewrite !firstn_app, Lc, repeat_length, Nat.sub_diag, !firstn_O, !app_nil_r in Z. rewrite <- Lc in Z at 1. rewrite firstn_all in Z. rewrite Z. rewrite firstn_all2; auto. rewrite repeat_length; auto.
  Qed.

  (** *** combinations *)
  Lemma good_combinations_spec es r : incl es (dedges g) -> NoDup es -> good_combinations chk g es = Ret r -> forall c, In c r <-> chr c /\ incl c es.
  Proof.
    intros I Nd. unfold good_combinations.
    assert (Gen : forall cs r0 r, (forall c, In c cs -> length c = d /\ incl c (dedges g)) ->
      foldM (fun result es => do b <- are_linearly_independent chk g es; Ret (if b : bool then result ++ permutations d es else result)) r0 cs = Ret r ->
      forall p, In p r <-> In p r0 \/ exists c, In c cs /\ chr c /\ Permutation p c).
    { induction cs as [|c cs IH]; intros r0 r1 Hc E p; cbn [foldM] in E.
      - injection E as <-. split; auto. intros [|(c & [] & _)]; auto.
      - destruct (Hc c) as [Lc Ic]; [simpl; auto|]. rewrite (ali_ret chk g pos C P) in E by auto. cbn [bind] in E.
        rewrite (IH _ _ (fun x Hx => Hc x (or_intror Hx)) E). destruct (Nat.eqb_spec (rk d (evs c)) (length c)) as [Er|Er].
        + rewrite in_app_iff. split.
          * intros [[|Hp]|(x & Hx & Cx & Px)]; auto; [right; exists c; splits; simpl; auto; [unfold SymFront.chr; splits; auto; congruence|apply (permutations_perm d); auto]|right; exists x; splits; simpl; auto].
          * intros [|(x & [<-|Hx] & Cx & Px)]; auto; [left; right; apply permutations_complete; auto|right; eauto].
        + split; intros [|(x & Hx & Cx & Px)]; auto; right; exists x; splits; simpl; auto. destruct Hx as [<-|]; auto. exfalso. apply Er. destruct Cx as (? & _ & ?). congruence. }
    intros E c. rewrite (Gen _ _ _ (fun x Hx => match proj1 (combinations_subl d es x) Hx with conj Hs Hl => conj Hl (fun e He => I e (subl_incl _ _ Hs e He)) end) E). split.
    - intros [[]|(x & Hx & Cx & Px)]. apply combinations_subl in Hx as [S L]. split; [apply chr_perm with x; auto|]. intros e He. apply (subl_incl _ _ S). apply (Permutation_in _ Px). auto.
    - intros [Cc Ic]. right. destruct (sub_of edge_dec es c Nd (chr_NoDup c Cc) Ic) as (c' & S & Pm). exists c'. splits; auto.
      + apply combinations_subl. split; auto. rewrite <- (Permutation_length Pm). apply Cc.
      + apply chr_perm with c; auto. apply Permutation_sym. auto.
  Qed.

  (** *** chains *)
  Lemma chain_extensions_spec n : forall es r0 r, es <> [] -> incl es (dedges g) -> length es + n = d -> (n = 0 -> rk d (evs es) = d) -> chain es ->
    chain_extensions chk g n es r0 = Ret r -> forall c, In c r <-> In c r0 \/ (chr c /\ chain c /\ exists b, c = es ++ b).
  Proof.
    induction n as [|n IH]; intros es r0 r Ne I L Hr Ch E c; cbn [chain_extensions] in E.
    - injection E as <-. rewrite in_app_iff. split.
      + intros [|[<-|[]]]; auto. right. splits; auto; [unfold SymFront.chr; splits; auto; lia|exists []; rewrite app_nil_r; auto].
      + intros [|(Cc & _ & b & ->)]; auto. right. destruct Cc as (Lc & _). rewrite app_length in Lc. destruct b; [rewrite app_nil_r; simpl; auto|simpl in Lc; lia].
    - destruct (nth_error es (length es - 1)) as [e0|] eqn:E0; [|discriminate E]. cbn [unwrap bind] in E. assert (He0 : In e0 (dedges g)) by (apply I; eapply nth_error_In; eauto).
      assert (Ee : exists es', es = es' ++ [e0]).
      { destruct (exists_last Ne) as (es' & x & ->). rewrite app_length in E0. cbn [length] in E0. replace (length es' + 1 - 1) with (length es') in E0 by lia. rewrite nth_error_app2, Nat.sub_diag in E0 by lia. injection E0 as <-. eauto. }
      destruct Ee as (es' & Ee). rewrite (incidences_vertex g (tail e0)) in E by (apply dedges_vertices; auto). cbn [bind] in E.
      assert (Gen : forall inc0, incl inc0 (inc g (tail e0)) -> forall r0 r,
        foldM (fun result e => do b <- are_linearly_independent chk g (es ++ [e]); if b : bool then chain_extensions chk g n (es ++ [e]) result else Ret result) r0 inc0 = Ret r ->
        forall c, In c r <-> In c r0 \/ (chr c /\ chain c /\ exists e b, In e inc0 /\ c = es ++ e :: b)).
      { induction inc0 as [|e inc0 IHi]; intros Ii r1 r2 E2 c1; cbn [foldM] in E2.
        - injection E2 as <-. split; auto. intros [|(_ & _ & e & b & [] & _)]; auto.
        - assert (Hi : In e (inc g (tail e0))) by (apply Ii; simpl; auto). assert (Ie : incl (es ++ [e]) (dedges g)).
          { intros x Hx. apply in_app_or in Hx as [Hx|[<-|[]]]; auto. apply inc_In in Hi. tauto. }
          assert (Ii' : incl inc0 (inc g (tail e0))) by (intros x Hx; apply Ii; simpl; auto).
          assert (Che : chain (es ++ [e])). { subst es. rewrite <- app_assoc. cbn [app]. apply chain_app; auto; [apply inc_In in Hi as [_ Hi]; congruence|cbn; auto]. }
          rewrite (ali_ret chk g pos C P) in E2 by auto. cbn [bind] in E2. destruct (Nat.eqb_spec (rk d (evs (es ++ [e]))) (length (es ++ [e]))) as [Er|Er].
          + destruct (chain_extensions chk g n (es ++ [e]) r1) as [r3| |] eqn:E3; try discriminate E2. cbn [bind] in E2.
            rewrite (IHi Ii' _ _ E2). rewrite (IH (es ++ [e]) r1 r3); auto.
            * split.
              -- intros [[|(H1 & H2 & b & ->)]|(H1 & H2 & x & b & Hx & ->)]; auto; right; splits; auto; [exists e, b; rewrite <- app_assoc; simpl; auto|exists x, b; simpl; auto].
              -- intros [|(H1 & H2 & x & b & [<-|Hx] & ->)]; auto; [left; right; splits; auto; exists b; rewrite <- app_assoc; auto|right; splits; eauto].
            * intros X. apply app_eq_nil in X as [_ X]. discriminate.
            * rewrite app_length. simpl. lia.
            * intros ->. rewrite Er, app_length. simpl. lia.
          + rewrite (IHi Ii' _ _ E2). split.
            * intros [|(H1 & H2 & x & b & Hx & ->)]; auto; right; splits; auto; exists x, b; simpl; auto.
            * intros [|(H1 & H2 & x & b & [<-|Hx] & ->)]; auto; [|right; splits; eauto]. exfalso. apply Er. destruct H1 as (H1 & _ & H3).
              rewrite <- (map_length ev). apply (rk_prefix _ (evs b)); try apply evs_lens. rewrite <- map_app, <- app_assoc. cbn [app]. rewrite map_length. congruence. }
      rewrite (Gen _ (incl_refl _) _ _ E c). split.
      + intros [|(H1 & H2 & e & b & _ & ->)]; auto. right. splits; eauto.
      + intros [|(H1 & H2 & b & ->)]; auto. right. splits; auto. destruct b as [|e b].
        * exfalso. destruct H1 as (H1 & _). rewrite app_length in H1. simpl in H1. lia.
        * exists e, b. split; auto. apply inc_In. split; [apply H1, in_or_app; simpl; auto|]. subst es. rewrite <- app_assoc in H2. cbn [app] in H2. apply chain_inv in H2 as [_ H2]. auto.
  Qed.

  Lemma good_edge_chains_spec r : 2 <= d -> good_edge_chains chk g = Ret r -> forall c, In c r <-> chr c /\ chain c.
  Proof.
    intros H2 E c. unfold good_edge_chains in E. destruct (directed_edges_In g pos LS) as (es & Ee & Ie & _). rewrite Ee in E. cbn [bind] in E.
    assert (Gen : forall l, incl l (dedges g) -> forall r0 r, foldM (fun result e => chain_extensions chk g (d - 1) [e] result) r0 l = Ret r ->
      forall c, In c r <-> In c r0 \/ (chr c /\ chain c /\ exists e b, In e l /\ c = e :: b)).
    { induction l as [|e l IH]; intros Il r0 r1 E1 c1; cbn [foldM] in E1.
      - injection E1 as <-. split; auto. intros [|(_ & _ & e & b & [] & _)]; auto.
      - destruct (chain_extensions chk g (d - 1) [e] r0) as [r3| |] eqn:E3; try discriminate E1. cbn [bind] in E1. rewrite (IH (fun x Hx => Il x (or_intror Hx)) _ _ E1).
        rewrite (chain_extensions_spec (d - 1) [e] r0 r3); auto; try discriminate; try lia; [| |simpl; lia|cbn; auto].
        + split.
          * intros [[|(H3 & H4 & b & ->)]|(H3 & H4 & x & b & Hx & ->)]; auto; right; splits; auto; [exists e, b; simpl; auto|exists x, b; simpl; auto].
          * intros [|(H3 & H4 & x & b & [<-|Hx] & ->)]; auto; [left; right; splits; auto; exists b; auto|right; splits; eauto].
        + intros x [<-|[]]. apply Il. simpl; auto. }
    rewrite (Gen es ltac:(intros x Hx; apply Ie; auto) _ _ E c). split.
    - intros [[]|(H3 & H4 & _)]; auto.
    - intros [H3 H4]. right. splits; auto. destruct c as [|e b]; [destruct H3 as (L & _); simpl in L; lia|]. exists e, b. split; auto. apply Ie. apply H3. simpl; auto.
  Qed.

  (** *** all together *)
  Definition star_frame (c : list edge) : Prop := chr c /\ exists v, is_vertex g v /\ incl c (inc g v).
  Definition chain_frame (c : list edge) : Prop := chr c /\ chain c.
  Lemma characteristic_spec r : characteristic_edge_lists chk g = Ret r ->
    (forall c, In c r <-> star_frame c) \/ ((forall c, ~ star_frame c) /\ forall c, In c r <-> chain_frame c) \/
    ((forall c, ~ star_frame c) /\ (forall c, ~ chain_frame c) /\ forall c, In c r <-> chr c).
  Proof.
    unfold characteristic_edge_lists. intros E.
    assert (Gen : forall vs, (forall v, In v vs -> is_vertex g v) -> forall r0 r,
      foldM (fun result v => do inc <- incidences g v; do ess <- good_combinations chk g inc; Ret (result ++ ess)) r0 vs = Ret r ->
      forall c, In c r <-> In c r0 \/ (chr c /\ exists v, In v vs /\ incl c (inc g v))).
    { induction vs as [|v vs IH]; intros Hv r0 r1 E1 c; cbn [foldM] in E1.
      - injection E1 as <-. split; auto. intros [|(_ & v & [] & _)]; auto.
      - rewrite (incidences_vertex g v) in E1 by (apply Hv; simpl; auto). cbn [bind] in E1. destruct (good_combinations chk g (inc g v)) as [r2| |] eqn:E2; try discriminate E1. cbn [bind] in E1.
        rewrite (IH (fun x Hx => Hv x (or_intror Hx)) _ _ E1), in_app_iff. rewrite (good_combinations_spec (inc g v) r2 (inc_incl' g v) (inc_NoDup g pos LS v) E2). split.
        + intros [[|[H1 H2]]|(H1 & w & Hw & H2)]; auto; right; split; auto; [exists v|exists w]; simpl; auto.
        + intros [|(H1 & w & [<-|Hw] & H2)]; auto. right. split; eauto. }
    destruct (foldM _ [] (vertices g)) as [r1| |] eqn:E1; try discriminate E. cbn [bind] in E. pose proof (Gen (vertices g) (fun v => proj1 (vertices_In g v)) _ _ E1) as S1.
    assert (S1' : forall c, In c r1 <-> star_frame c). { intros c. rewrite S1. unfold star_frame. split; [intros [[]|(H1 & v & Hv & H2)]|intros (H1 & v & Hv & H2); right]; split; auto; exists v; split; auto; apply vertices_In; auto. }
    destruct r1 as [|c1 r1]; [|cbn [bind] in E; injection E as <-; left; auto]. right.
    assert (NS : forall c, ~ star_frame c) by (intros c H; apply S1' in H; destruct H).
    destruct (good_edge_chains chk g) as [r2| |] eqn:E2; try discriminate E. cbn [bind] in E.
    assert (D2 : 2 <= d).
    { destruct (le_lt_dec 2 d) as [|D]; auto. exfalso. assert (D1 : d = 1) by lia.
      destruct (greedy g pos Hd (dedges g)) as (c & S & I1 & L1). assert (R : rk d (evs (dedges g)) = d) by (apply (@RankQ.rk_spanning); [apply evs_lens|apply (span_edges g pos C CC NE)]).
      rewrite R, D1 in L1. destruct c as [|e [|]]; try discriminate L1. assert (He : In e (dedges g)) by (apply (subl_incl _ _ S); simpl; auto).
      apply (NS [e]). split; [unfold SymFront.chr; splits; [simpl; auto|intros x [<-|[]]; auto|rewrite I1; simpl; auto]|].
      exists (head e). split; [apply dedges_vertices; auto|]. intros x [<-|[]]. apply inc_In. auto. }
    pose proof (good_edge_chains_spec r2 D2 E2) as S2.
    destruct r2 as [|c2 r2]; [|injection E as <-; left; auto]. right.
    assert (NC : forall c, ~ chain_frame c) by (intros c H; apply S2 in H; destruct H).
    splits; auto. destruct (directed_edges_In g pos LS) as (es & Ee & Ie & Nd). rewrite Ee in E. cbn [bind] in E.
    intros c. rewrite (good_combinations_spec es r ltac:(intros x; apply Ie) Nd E). split; [tauto|]. intros Hc. split; auto. intros x Hx. apply Ie. apply Hc. auto.
  Qed.

  (** *** symmetries permute them *)
  Section Sym.
    Variables (m : nat -> nat -> Qc) (f : nat -> nat) (F : edge -> edge).
    Hypothesis I : linj d m.
    Hypothesis H : hom g pos (mapp d m) f F.
    Lemma evs_map c : incl c (dedges g) -> evs (map F c) = map (mapp d m) (evs c).
    Proof. intros Ic. rewrite !map_map. apply map_ext_in. intros e He. apply H. auto. Qed.
    Lemma lincomb_mapp cs vs : lens d vs -> length cs = length vs -> lincomb d cs (map (mapp d m) vs) = mapp d m (lincomb d cs vs).
    Proof.
      revert cs; induction vs as [|v vs IH]; intros [|c cs] L E; try discriminate E; cbn [map lincomb].
      - apply vec_ext; [rewrite vzero_length, mapp_length; auto|]. rewrite vzero_length. intros i Hi. rewrite vget_vzero, vget_mapp by auto. unfold lapp. rewrite sumf_zero; auto. intros k _. rewrite vget_vzero. apply Qcmult_0_r.
      - inversion L as [|? ? Lv L']; subst. rewrite mapp_vadd, mapp_vscale by (rewrite ?vscale_length; auto; apply lincomb_length; auto). rewrite IH by (auto; simpl in E; lia). reflexivity.
    Qed.
    Lemma chr_map c : chr c -> chr (map F c).
    Proof.
      intros (L & Ic & R). unfold SymFront.chr. splits.
      - rewrite map_length; auto.
      - intros x Hx. apply in_map_iff in Hx as (e & <- & He). apply H. auto.
      - rewrite evs_map by auto. transitivity (length (map (mapp d m) (evs c))); [|rewrite !map_length; auto]. apply (@RankQ.indep_rk).
        + apply Forall_forall. intros x Hx. apply in_map_iff in Hx as (y & <- & _). apply mapp_length.
        + intros cs Lc E. rewrite map_length in *. rewrite lincomb_mapp in E by (auto; apply evs_lens).
          apply ((@RankQ.rk_indep) d (evs c)); auto; [apply evs_lens|rewrite map_length; congruence|]. apply I; [apply lincomb_length, evs_lens|apply vzero_length|]. rewrite E.
          exact (lincomb_mapp [] [] (Forall_nil _) eq_refl).
    Qed.
    Lemma star_map c : star_frame c -> star_frame (map F c).
    Proof.
      intros (Cc & v & Hv & Ic). split; [apply chr_map; auto|]. exists (f v). split; [apply (hom_vertex g pos (mapp d m) f F); auto|]. intros x Hx. apply in_map_iff in Hx as (e & <- & He). apply Ic, inc_In in He as [He Eh].
      apply inc_In. destruct (H e He) as (A & B & _). split; auto. congruence.
    Qed.
    Lemma chain_map c : incl c (dedges g) -> chain c -> chain (map F c).
    Proof.
      induction c as [|e c IH]; intros Ic; cbn [map chain]; auto. intros [H1 H2]. split; [|apply IH; auto; intros x Hx; apply Ic; simpl; auto].
      destruct c as [|e' c]; cbn [map]; auto. destruct (H e) as (_ & _ & -> & _); [apply Ic; simpl; auto|]. destruct (H e') as (_ & -> & _); [apply Ic; simpl; auto|]. congruence.
    Qed.
    Lemma characteristic_map r : characteristic_edge_lists chk g = Ret r -> forall c, In c r -> In (map F c) r.
    Proof.
      intros E c Hc. destruct (characteristic_spec r E) as [S|[[_ S]|(_ & _ & S)]]; apply S; apply S in Hc.
      - apply star_map; auto.
      - destruct Hc as [Hc Hh]. split; [apply chr_map; auto|apply chain_map; auto; apply Hc].
      - apply chr_map; auto.
    Qed.
  End Sym.
End F.
