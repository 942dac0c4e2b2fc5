(** Proofs about the front end of symmetries (Symmetries.v): characteristic
    edge lists, candidate matrices and the loop over the lists. *)
From Coq Require Import List ZArith Lia Bool PeanoNat QArith Qcanon Permutation.
From Verif Require Import Base Partition Vec Elim Scalars Matrix LinAlg Geometry ZQ QcTac ModSolver ModSolve OrdSet Lattices PGraph Net PGraphBase Traverse Placement Placed Stability Periodic Symmetries Automorph Group.
From Verif Require GeomMC Props_PGraph Props_Geometry RankQ.
Import ListNotations.
Close Scope Q_scope. Close Scope Qc_scope.
Open Scope nat_scope.
Notation rk := RankQ.rk.

(** *** sublists, combinations and permutations *)
Inductive subl {A} : list A -> list A -> Prop :=
| subl_nil l : subl [] l
| subl_cons x c l : subl c l -> subl (x :: c) (x :: l)
| subl_skip x c l : subl c l -> subl c (x :: l).
Lemma subl_incl {A} (c l : list A) : subl c l -> incl c l.
Proof. induction 1; intros y Hy; simpl in *; intuition. Qed.
Lemma subl_snoc {A} (c l : list A) x : subl c l -> subl (c ++ [x]) (l ++ [x]).
Proof.
  induction 1; simpl; try (constructor; auto; fail). induction l; simpl; repeat constructor. auto.
Qed.
Lemma subl_skipr {A} (c l : list A) x : subl c l -> subl c (l ++ [x]).
Proof. induction 1; simpl; constructor; auto. Qed.
Lemma combinations_subl {A} k (l c : list A) : In c (combinations k l) <-> subl c l /\ length c = k.
Proof.
  revert k c; induction l as [|x l IH]; intros [|k] c; simpl.
  - split; [intros [<-|[]]; split; [constructor|auto]|]. intros [S L]. destruct c; [auto|discriminate].
  - split; [tauto|]. intros [S L]. inversion S; subst; discriminate.
  - split; [intros [<-|[]]; split; [constructor|auto]|]. intros [S L]. destruct c; [auto|discriminate].
  - rewrite in_app_iff, in_map_iff. split.
    + intros [(c' & <- & H)|H].
      * apply IH in H as [S L]. split; [constructor; auto|simpl; lia].
      * change (In c (combinations (S k) l)) in H. apply IH in H as [S L]. split; [constructor; auto|auto].
    + intros [S L]. inversion S as [|? c' ? S'|? ? ? S']; subst; [discriminate| |].
      * left. exists c'. split; auto. apply IH. simpl in L. split; auto.
      * right. change (In c (combinations (Datatypes.S k) l)). apply IH. auto.
Qed.

Lemma picks_perm {A} (l pre : list A) x r : In (x, r) (picks pre l) -> Permutation (x :: r) (pre ++ l) /\ length r + 1 = length pre + length l.
Proof.
  revert pre; induction l as [|y l IH]; intros pre; simpl; [tauto|]. intros [[= <- <-]|H].
  - split; [apply Permutation_middle|]. rewrite app_length. lia.
  - apply IH in H as [P L]. rewrite <- app_assoc in P. rewrite app_length in L. simpl in *. split; auto. lia.
Qed.
Lemma permutations_perm {A} n (l p : list A) : length l = n -> In p (permutations n l) -> Permutation p l.
Proof.
  revert l p; induction n as [|n IH]; intros l p L; simpl.
  - destruct l; [|discriminate]. intros [<-|[]]. auto.
  - rewrite in_flat_map. intros ([x r] & H & Hp). apply in_map_iff in Hp as (q & <- & Hq). apply picks_perm in H as [P L'].
    simpl in *. apply IH in Hq; [|lia]. rewrite <- P. constructor. auto.
Qed.
Lemma permutations_self {A} n (l : list A) : length l = n -> In l (permutations n l).
Proof.
  revert l; induction n as [|n IH]; intros [|x l] L; try discriminate; simpl; auto.
  apply in_or_app. left. apply in_map. apply IH. simpl in L. lia.
Qed.

Lemma choice_below {A} (Q : nat -> A -> Prop) n : (forall k, exists y, Q k y) -> exists f, forall k, k < n -> Q k (f k).
Proof.
  intros H. induction n as [|n [f Hf]].
  - destruct (H 0) as [y _]. exists (fun _ => y). lia.
  - destruct (H n) as [y Hy]. exists (fun k => if k =? n then y else f k). intros k Hk. destruct (Nat.eqb_spec k n) as [->|]; auto. apply Hf. lia.
Qed.

Lemma vget_lincomb n cs (vs : list (list Qc)) j : lens n vs -> length cs = length vs ->
  vget (lincomb n cs vs) j = sumf (length vs) (fun l => rmul (vget cs l) (vget (nth l vs []) j)).
Proof.
  revert cs; induction vs as [|v vs IH]; intros [|c cs] L E; try discriminate; cbn [lincomb length].
  - rewrite vget_vzero. reflexivity.
  - inversion L as [|? ? Lv L']; subst. rewrite vget_vadd by (rewrite vscale_length, lincomb_length; auto). rewrite vget_vscale, IH by (auto; simpl in E; lia).
    rewrite (sumf_S_l (R := Qc)). reflexivity.
Qed.

Section F.
  Variables (chk : Z -> outcome Z) (g : graph) (pos : nat -> point).
  Hypothesis C : constructed g.
  Hypothesis P : Placed chk g pos.
  Hypothesis Hd : 0 < gdim g.
  Hypothesis CC : forall a c, is_node g a -> is_node g c -> joined g a c.
  Hypothesis NE : exists v, is_vertex g v.
  Hypothesis LS : forall v, NoDup (map (evec (gdim g) pos) (inc g v)).
  Notation d := (gdim g).
  Notation ev := (evec d pos).
  Notation evs := (map (evec (gdim g) pos)).

  Lemma shift_length e : In e (dedges g) -> length (shift e) = d.
  Proof. apply dedges_dim; auto. Qed.

  (** *** the edge vectors span the space *)
  Definition disp (a b : node) : point :=
    map (fun k => pget (pos (fst b)) k + ZQ (vget (snd b) k) - pget (pos (fst a)) k - ZQ (vget (snd a) k))%Qc (seq 0 d).
  Lemma disp_length a b : length (disp a b) = d.
  Proof. unfold disp. rewrite map_length, seq_length. auto. Qed.
  Lemma pget_disp a b k : k < d -> pget (disp a b) k = (pget (pos (fst b)) k + ZQ (vget (snd b) k) - pget (pos (fst a)) k - ZQ (vget (snd a) k))%Qc.
  Proof. intros Hk. unfold disp. exact (pget_map_seq _ d k Hk). Qed.

  Lemma evs_lens es : lens d (evs es).
  Proof. apply Forall_forall. intros x Hx. apply in_map_iff in Hx as (e & <- & _). apply evec_length. Qed.

  Lemma walk_span k a b : walk g k a b -> span d (evs (dedges g)) (disp a b).
  Proof.
    induction 1 as [a Na|k a b c W IH Nc (e & He & Ad)].
    - replace (disp a a) with (vzero (R := Qc) d); [apply span_zero, evs_lens|].
      apply point_ext; [rewrite disp_length; apply vzero_length|]. intros k Hk. rewrite vzero_length in Hk. rewrite pget_disp by auto.
      change (pget (vzero d) k) with (vget (vzero (R := Qc) d) k). rewrite vget_vzero. cbn. ring.
    - assert (L : length (shift e) = d) by (apply shift_length, dedges_In; eauto).
      assert (Lb : length (snd b) = d). { destruct W as [b Nb|? ? ? b ? Nb]; apply Nb. }
      destruct Ad as [(Eb & Ec & Es)|(Ec & Eb & Es)].
      + replace (disp a c) with (vadd (disp a b) (ev e)).
        { apply span_add; auto. apply span_In; [apply evs_lens|]. apply in_map, dedges_In. eauto. }
        assert (Ll : length (disp a b) = length (ev e)) by (rewrite disp_length, evec_length; auto).
        apply point_ext; [rewrite vadd_length, !disp_length; auto|].
        intros i Hi. rewrite vadd_length, disp_length in Hi by (rewrite disp_length, evec_length; auto).
        change (pget (vadd (disp a b) (ev e)) i) with (vget (vadd (disp a b) (ev e)) i). rewrite vget_vadd by (rewrite disp_length, evec_length; auto).
        change (vget (disp a b) i) with (pget (disp a b) i). change (vget (ev e) i) with (pget (ev e) i).
        rewrite !pget_disp, pget_evec by auto. rewrite Eb, Ec, Es. rewrite vget_sadd, ZQ_add by congruence. cbn [radd rmul Qc_dom]. ring.
      + assert (Lc : length (snd c) = d) by apply Nc.
        replace (disp a c) with (vadd (disp a b) (vscale (- (1))%Qc (ev e))).
        { apply span_add; auto. apply span_scale, span_In; [apply evs_lens|]. apply in_map, dedges_In. eauto. }
        assert (Ll : length (disp a b) = length (vscale (- (1))%Qc (ev e))) by (rewrite disp_length, vscale_length, evec_length; auto).
        apply point_ext; [rewrite vadd_length, !disp_length; auto|].
        intros i Hi. rewrite vadd_length, disp_length in Hi by auto.
        change (pget (vadd (disp a b) (vscale (- (1))%Qc (ev e))) i) with (vget (vadd (disp a b) (vscale (- (1))%Qc (ev e))) i). rewrite vget_vadd, vget_vscale by auto.
        change (vget (disp a b) i) with (pget (disp a b) i). change (vget (ev e) i) with (pget (ev e) i).
        rewrite !pget_disp, pget_evec by auto. rewrite Eb, Ec, Es. rewrite vget_sadd, ZQ_add by congruence. cbn [radd rmul Qc_dom]. ring.
  Qed.

  Lemma span_edges x : length x = d -> span d (evs (dedges g)) x.
  Proof.
    intros Lx. destruct NE as [v Hv]. destruct ((@RankQ.rk_units) d) as [Lu Eu].
    apply (span_trans d (map (vunit d) (seq 0 d))); [apply evs_lens| |apply (@RankQ.rk_full); auto].
    intros u Hu. apply in_map_iff in Hu as (k & <- & Hk). apply in_seq in Hk.
    destruct (CC (v, vzero (R := Z) d) (v, vunit (R := Z) d k)) as [n W].
    { split; auto. apply vzero_length. }
    { split; auto. apply vunit_length. }
    apply walk_span in W. replace (vunit d k) with (disp (v, vzero (R := Z) d) (v, vunit (R := Z) d k)); auto.
    apply point_ext; [rewrite disp_length, vunit_length; auto|]. intros i Hi. rewrite disp_length in Hi. rewrite pget_disp by auto. cbn [fst snd].
    change (pget (vunit d k) i) with (vget (vunit (R := Qc) d k) i). rewrite vget_vzero, !vget_vunit. destruct ((i =? k) && (i <? d)); cbn; [change (ZQ 1) with 1%Qc|]; change (ZQ 0) with 0%Qc; ring.
  Qed.

  (** *** independent edge lists *)
  Lemma ali_ret es : incl es (dedges g) -> are_linearly_independent chk g es = Ret (rk d (evs es) =? length es).
  Proof.
    intros I. unfold are_linearly_independent. destruct ((@RankQ.rk_extend) d (evs es) (evs_lens es)) as (bs & E & <-).
    assert (Ef : forall b0, foldM (fun bs e => do v <- edge_vector chk g e; extend_basis v bs) b0 es = extend_all b0 (evs es)).
    { clear E bs. induction es as [|e es IH]; intros b0; cbn [foldM map extend_all]; auto. unfold extend_all. cbn [foldM].
      rewrite (edge_vector_ret chk g pos) by (auto; apply I; simpl; auto). cbn [bind].
      destruct (extend_basis (ev e) b0); cbn [bind]; auto. apply IH. intros x Hx. apply I. simpl; auto. }
    rewrite Ef, E. reflexivity.
  Qed.

  Lemma evs_app a b : evs (a ++ b) = evs a ++ evs b.
  Proof. apply map_app. Qed.

  Lemma greedy es : exists c, subl c es /\ rk d (evs c) = length c /\ length c = rk d (evs es).
  Proof.
    induction es as [|e es (c & S & I & L)] using rev_ind.
    - exists []. splits; [constructor| |]; pose proof ((@RankQ.rk_length) d (evs [])) as H; simpl in *; lia.
    - assert (Mono : rk d (evs es) <= rk d (evs (es ++ [e]))).
      { apply (@RankQ.rk_mono); try apply evs_lens. intros v Hv. apply span_In; [apply evs_lens|]. rewrite evs_app. apply in_or_app. auto. }
      assert (Ss : same_span d (evs es) (evs c)).
      { intros x. split.
        - apply span_trans; [apply evs_lens|]. intros v Hv. apply (@RankQ.rk_snoc); [apply evs_lens|apply in_map_iff in Hv as (x' & <- & _); apply evec_length|].
          apply Nat.le_antisymm.
          + rewrite I, L. apply (@RankQ.rk_mono); try apply evs_lens.
            * apply Forall_app. split; [apply evs_lens|]. constructor; [|constructor]. apply in_map_iff in Hv as (x' & <- & _). apply evec_length.
            * intros w Hw. apply span_In; [apply evs_lens|]. apply in_app_or in Hw as [Hw|[<-|[]]]; auto.
              apply in_map_iff in Hw as (y & <- & Hy). apply in_map. apply (subl_incl _ _ S). auto.
          + apply (@RankQ.rk_mono); try apply evs_lens.
            * apply Forall_app. split; [apply evs_lens|]. constructor; [|constructor]. apply in_map_iff in Hv as (x' & <- & _). apply evec_length.
            * intros w Hw. apply span_In; [|apply in_or_app; auto]. apply Forall_app. split; [apply evs_lens|]. constructor; [|constructor]. apply in_map_iff in Hv as (x' & <- & _). apply evec_length.
        - apply span_incl; [apply evs_lens|]. intros w Hw. apply in_map_iff in Hw as (y & <- & Hy). apply in_map. apply (subl_incl _ _ S). auto. }
      destruct (Nat.eq_dec (rk d (evs (es ++ [e]))) (rk d (evs es))) as [Eq|Ne].
      + exists c. splits; auto; [apply subl_skipr; auto|congruence].
      + exists (c ++ [e]). splits; [apply subl_snoc; auto| |].
        * pose proof ((@RankQ.rk_length) d (evs (c ++ [e]))) as B. rewrite map_length in B.
          assert (B2 : rk d (evs c) <= rk d (evs (c ++ [e]))).
          { apply (@RankQ.rk_mono); try apply evs_lens. intros v Hv. apply span_In; [apply evs_lens|]. rewrite evs_app. apply in_or_app. auto. }
          rewrite app_length in *. simpl in *. destruct (Nat.eq_dec (rk d (evs (c ++ [e]))) (rk d (evs c))) as [E2|E2]; [|lia].
          exfalso. apply Ne. rewrite evs_app in E2. cbn [map] in E2. apply (@RankQ.rk_snoc) in E2; [|apply evs_lens|apply evec_length].
          apply (@RankQ.rk_same); try apply evs_lens. rewrite evs_app. intros x. split.
          -- apply span_trans; [apply evs_lens|]. intros w Hw. apply in_app_or in Hw as [Hw|[<-|[]]]; [apply span_In; auto; apply evs_lens|]. apply Ss; auto.
          -- apply span_incl; [rewrite <- evs_app; apply evs_lens|]. intros w Hw. apply in_or_app; auto.
        * pose proof ((@RankQ.rk_length) d (evs (c ++ [e]))) as B. rewrite app_length. simpl.
          assert (B3 : rk d (evs (es ++ [e])) <= length c + 1).
          { transitivity (rk d (evs (c ++ [e]))).
            - apply (@RankQ.rk_mono); try apply evs_lens. intros w Hw. rewrite evs_app in Hw. apply in_app_or in Hw as [Hw|[<-|[]]].
              + apply (span_incl d (evs c)); [apply evs_lens| |]. { intros z Hz. rewrite evs_app. apply in_or_app; auto. } apply Ss. apply span_In; auto. apply evs_lens.
              + apply span_In; [apply evs_lens|]. rewrite evs_app. apply in_or_app. simpl; auto.
            - rewrite map_length, app_length in B. simpl in B. lia. }
          lia.
  Qed.

  (** lists of d independent edges *)
  Definition chr (es : list edge) : Prop := length es = d /\ incl es (dedges g) /\ rk d (evs es) = d.

  Lemma chr_perm a b : Permutation a b -> chr b -> chr a.
  Proof.
    intros Pm (L & I & R). unfold chr. splits.
    - rewrite (Permutation_length Pm); auto.
    - intros e He. apply I. apply (Permutation_in _ Pm). auto.
    - transitivity (rk d (evs b)); auto. apply (@RankQ.rk_same); try apply evs_lens. intros x. split; apply span_incl; try apply evs_lens; intros w Hw;
        apply (Permutation_in _ (Permutation_map ev Pm)) || apply (Permutation_in _ (Permutation_sym (Permutation_map ev Pm))); auto.
  Qed.

  Lemma good_combinations_ret es : incl es (dedges g) ->
    exists r, good_combinations chk g es = Ret r /\ Forall chr r /\ (rk d (evs es) = d -> r <> []).
  Proof.
    intros I. unfold good_combinations.
    assert (Gen : forall cs r0, Forall chr r0 -> (forall c, In c cs -> length c = d /\ incl c (dedges g)) ->
      exists r, foldM (fun result es => do b <- are_linearly_independent chk g es; Ret (if b : bool then result ++ permutations d es else result)) r0 cs = Ret r /\
        Forall chr r /\ (r0 <> [] -> r <> []) /\ ((exists c, In c cs /\ chr c) -> r <> [])).
    { induction cs as [|c cs IH]; intros r0 F0 Hc; cbn [foldM].
      - exists r0. splits; auto. intros (c & [] & _).
      - destruct (Hc c) as [Lc Ic]; [simpl; auto|]. rewrite ali_ret by auto. cbn [bind].
        destruct (Nat.eqb_spec (rk d (evs c)) (length c)) as [Er|Er].
        + assert (Cc : chr c) by (unfold chr; splits; auto; congruence).
          assert (Ne : r0 ++ permutations d c <> []).
          { intros E. apply app_eq_nil in E as [_ E]. pose proof (permutations_self d c Lc) as X. rewrite E in X. destruct X. }
          destruct (IH (r0 ++ permutations d c)) as (r & E & F & N1 & N2).
          * apply Forall_app. split; auto. apply Forall_forall. intros p Hp. apply chr_perm with c; auto. apply (permutations_perm d); auto.
          * intros x Hx. apply Hc. simpl; auto.
          * exists r. splits; auto.
        + destruct (IH r0 F0) as (r & E & F & N1 & N2); [intros x Hx; apply Hc; simpl; auto|].
          exists r. splits; auto. intros (x & [<-|Hx] & Cx); [|apply N2; eauto]. exfalso. apply Er. destruct Cx as (? & _ & ?). congruence. }
    destruct (Gen (combinations d es) []) as (r & E & F & _ & N).
    - constructor.
    - intros c Hc. apply combinations_subl in Hc as [S L]. split; auto. intros x Hx. apply I, (subl_incl _ _ S); auto.
    - exists r. splits; auto. intros R. apply N. destruct (greedy es) as (c & S & I1 & L1). exists c.
      assert (Lc : length c = d) by congruence. split; [apply combinations_subl; auto|]. unfold chr; splits; auto; [|congruence].
      intros x Hx. apply I, (subl_incl _ _ S); auto.
  Qed.

  Lemma inc_incl' v : incl (inc g v) (dedges g).
  Proof. intros e He. apply inc_In in He. tauto. Qed.

  Lemma chain_extensions_ret n : forall es r0, es <> [] -> incl es (dedges g) -> length es + n = d -> (n = 0 -> rk d (evs es) = d) -> Forall chr r0 ->
    exists r, chain_extensions chk g n es r0 = Ret r /\ Forall chr r.
  Proof.
    induction n as [|n IH]; intros es r0 Ne I L Hr F; cbn [chain_extensions].
    - exists (r0 ++ [es]). split; auto. apply Forall_app. split; auto. repeat constructor; auto. lia.
    - destruct (nth_error es (length es - 1)) as [e0|] eqn:E0.
      2: { apply nth_error_None in E0. destruct es; [congruence|]. simpl in E0. lia. }
      cbn [unwrap bind]. assert (He0 : In e0 (dedges g)) by (apply I; eapply nth_error_In; eauto).
      rewrite (incidences_vertex g (tail e0)) by (apply dedges_vertices; auto). cbn [bind].
      assert (Gen : forall inc0, incl inc0 (dedges g) -> forall r0, Forall chr r0 ->
        exists r, foldM (fun result e => do b <- are_linearly_independent chk g (es ++ [e]); if b : bool then chain_extensions chk g n (es ++ [e]) result else Ret result) r0 inc0 = Ret r /\ Forall chr r).
      { induction inc0 as [|e inc0 IHi]; intros Ii r1 F1; cbn [foldM]; [eauto|].
        assert (Ie : incl (es ++ [e]) (dedges g)).
        { intros x Hx. apply in_app_or in Hx as [Hx|[<-|[]]]; auto. apply Ii. simpl; auto. }
        assert (Ii' : incl inc0 (dedges g)) by (intros x Hx; apply Ii; simpl; auto).
        rewrite ali_ret by auto. cbn [bind]. destruct (Nat.eqb_spec (rk d (evs (es ++ [e]))) (length (es ++ [e]))) as [Er|Er].
        - destruct (IH (es ++ [e]) r1) as (r2 & E2 & F2); auto.
          + intros E. apply app_eq_nil in E as [_ E]. discriminate.
          + rewrite app_length. simpl. lia.
          + intros ->. rewrite Er, app_length. simpl. lia.
          + rewrite E2. cbn [bind]. apply IHi; auto.
        - cbn [bind]. apply IHi; auto. }
      apply Gen; auto. apply inc_incl'.
  Qed.

  Lemma good_edge_chains_ret : 2 <= d -> exists r, good_edge_chains chk g = Ret r /\ Forall chr r.
  Proof.
    intros H2. unfold good_edge_chains. destruct (directed_edges_In g pos LS) as (es & E & Ie & _). rewrite E. cbn [bind].
    assert (Gen : forall l, incl l (dedges g) -> forall r0, Forall chr r0 ->
      exists r, foldM (fun result e => chain_extensions chk g (d - 1) [e] result) r0 l = Ret r /\ Forall chr r).
    { induction l as [|e l IH]; intros Il r0 F0; cbn [foldM]; [eauto|].
      destruct (chain_extensions_ret (d - 1) [e] r0) as (r1 & E1 & F1); auto.
      - discriminate.
      - intros x [<-|[]]. apply Il. simpl; auto.
      - simpl. lia.
      - lia.
      - rewrite E1. cbn [bind]. apply IH; auto. intros x Hx. apply Il. simpl; auto. }
    apply Gen; auto. intros x Hx. apply Ie; auto.
  Qed.

  Lemma characteristic_ret : exists r, characteristic_edge_lists chk g = Ret r /\ Forall chr r /\ r <> [].
  Proof.
    unfold characteristic_edge_lists.
    assert (Gen : forall vs, (forall v, In v vs -> is_vertex g v) -> forall r0, Forall chr r0 ->
      exists r, foldM (fun result v => do inc <- incidences g v; do ess <- good_combinations chk g inc; Ret (result ++ ess)) r0 vs = Ret r /\ Forall chr r /\
        (r0 <> [] -> r <> []) /\ ((exists v, In v vs /\ rk d (evs (inc g v)) = d) -> r <> [])).
    { induction vs as [|v vs IH]; intros Hv r0 F0; cbn [foldM].
      - exists r0. splits; auto. intros (v & [] & _).
      - rewrite (incidences_vertex g v) by (apply Hv; simpl; auto). cbn [bind].
        destruct (good_combinations_ret (inc g v) (inc_incl' v)) as (r1 & E1 & F1 & N1). rewrite E1. cbn [bind].
        destruct (IH ltac:(intros x Hx; apply Hv; simpl; auto) (r0 ++ r1)) as (r & E & F & N2 & N3); [apply Forall_app; auto|].
        exists r. splits; auto.
        + intros Ne. apply N2. intros X. apply app_eq_nil in X as [X _]. auto.
        + intros (w & [<-|Hw] & Hr); [|eauto]. apply N2. intros X. apply app_eq_nil in X as [_ X]. apply N1; auto. }
    destruct (Gen (vertices g)) with (r0 := @nil (list edge)) as (r & E & F & _ & N); [intros v; apply vertices_In|constructor|].
    rewrite E. cbn [bind]. destruct r as [|c r]; [|cbn [bind]; exists (c :: r); splits; auto; discriminate].
    assert (R : rk d (evs (dedges g)) = d) by (apply (@RankQ.rk_spanning); [apply evs_lens|apply span_edges]).
    destruct (Nat.eq_dec d 1) as [D1|D1].
    - exfalso. apply N; auto. destruct (greedy (dedges g)) as (c & S & I1 & L1). rewrite R, D1 in L1.
      destruct c as [|e [|]]; try discriminate. assert (He : In e (dedges g)) by (apply (subl_incl _ _ S); simpl; auto).
      exists (head e). split; [apply vertices_In, dedges_vertices; auto|]. apply Nat.le_antisymm; [apply (@RankQ.rk_dim)|].
      transitivity (rk d (evs [e])); [rewrite I1; simpl; lia|]. apply (@RankQ.rk_mono); try apply evs_lens. intros v [<-|[]].
      apply span_In; [apply evs_lens|]. apply in_map. apply inc_In. auto.
    - destruct good_edge_chains_ret as (r & E2 & F2); [lia|]. rewrite E2. cbn [bind].
      destruct r as [|c r]; [|exists (c :: r); splits; auto; discriminate].
      destruct (directed_edges_In g pos LS) as (es & E3 & Ie & _). rewrite E3. cbn [bind].
      destruct (good_combinations_ret es) as (r & E4 & F4 & N4); [intros x; apply Ie|]. exists r. splits; auto. apply N4.
      transitivity (rk d (evs (dedges g))); auto. apply (@RankQ.rk_same); try apply evs_lens. intros x. split; apply span_incl; try apply evs_lens;
        intros w Hw; apply in_map_iff in Hw as (y & <- & Hy); apply in_map; apply Ie; auto.
  Qed.

  (** *** the matrix of a list *)
  Definition mxe (es : list edge) (i j : nat) : Qc := vget (nth i (evs es) []) j.
  Lemma matrix_ret es : chr es -> matrix_from_edge_list chk g es = Ret (mk d d (mxe es)).
  Proof.
    intros (L & I & R). unfold matrix_from_edge_list.
    assert (E : forall l, incl l (dedges g) -> mapM (fun e => do v <- edge_vector chk g e; mat_row v) l = mapM mat_row (evs l)).
    { induction l as [|e l IH]; intros Il; cbn [mapM map]; auto. rewrite (edge_vector_ret chk g pos) by (auto; apply Il; simpl; auto). cbn [bind].
      rewrite IH by (intros x Hx; apply Il; simpl; auto). reflexivity. }
    rewrite E by auto. rewrite (vstack_rows d); [|auto|apply evs_lens|destruct es; simpl in *; [lia|discriminate]].
    rewrite mrows_mk by apply evs_lens. rewrite map_length, L. reflexivity.
  Qed.

  Lemma matrix_inverse es : chr es -> exists x, inverse (mk d d (mxe es)) = Ret (Some (mk d d x)) /\ solves d d d (mxe es) Matrix.delta x.
  Proof.
    intros (L & I & R). destruct (inverse_correct (R := Qc) d (mxe es) Hd) as [H|[_ H]]; auto. exfalso. apply H.
    assert (X : forall k, exists cs, length cs = d /\ lincomb d cs (evs es) = vunit d k).
    { intros k. destruct ((@RankQ.rk_full) d (evs es) (vunit d k) (evs_lens es) R (vunit_length d k)) as (cs & Lc & Ec). rewrite map_length, L in Lc. eauto. }
    destruct (choice_below (fun k cs => length cs = d /\ lincomb d cs (evs es) = vunit d k) d X) as [f Hf]. clear X.
    exists (fun i j => vget (f i) j).
    apply GeomMC.Qc_solves_comm. intros i j Hi Hj. destruct (Hf i Hi) as [Lf Ef].
    assert (Ev : vget (lincomb d (f i) (evs es)) j = Matrix.delta i j).
    { rewrite Ef, vget_vunit. assert (E : (j <? d) = true) by (apply Nat.ltb_lt; auto). rewrite E, andb_true_r. unfold Matrix.delta. rewrite Nat.eqb_sym. auto. }
    rewrite vget_lincomb in Ev by (apply evs_lens || (rewrite map_length; congruence)). rewrite map_length, L in Ev. exact Ev.
  Qed.

  Lemma edges_eqb_spec a b : reflect (a = b) (edges_eqb a b).
  Proof.
    revert b; induction a as [|x a IH]; intros [|y b]; simpl; try (constructor; congruence).
    destruct (edge_eqb_spec x y) as [->|N]; simpl; [|constructor; congruence]. destruct (IH b) as [->|N]; constructor; congruence.
  Qed.

  Lemma conn v w : is_vertex g v -> is_vertex g w -> linked (gedges g) v w.
  Proof.
    intros Hv Hw. destruct (CC (v, vzero (R := Z) d) (w, vzero (R := Z) d)) as [k W]; try (split; auto; apply vzero_length).
    assert (X : forall k a b, walk g k a b -> linked (gedges g) (fst a) (fst b)).
    { induction 1 as [|? a b c W' IH Nc (e & He & A)]; [constructor|]. eapply linked_edge; eauto. intuition. }
    apply X in W. exact W.
  Qed.

  (** one automorphism *)
  Lemma automorphism_valid m s src img : linj d m -> is_vertex g src ->
    exists r, automorphism chk g src img (am d m s) = Ret r /\ 
      match r with
      | Some a => hom g pos (mapp d m) (vact a) (act a) /\ xform a = am d m s /\ vact a src = img /\
          holds g a (vact a) (act a) /\ (s = (fun _ => 0%Qc) -> Valid g pos a m)
      | None => forall f F, hom g pos (mapp d m) f F -> f src <> img
      end.
  Proof.
    intros I Hs. destruct (automorphism_ok chk g pos C P conn LS (am d m s) (mapp d m) (aff_apply_am d m s) src img Hs) as (r & E & Po).
    exists r. split; auto. destruct r as [a|]; [|exact Po]. destruct Po as (X & f & F & Hh & Ef & Ho).
    assert (Hv : forall v, is_vertex g v -> vact a v = f v).
    { intros v Iv. unfold vact. destruct Ho as (_ & _ & Ho & _). rewrite Ho. destruct (is_vertex_dec g v); tauto. }
    assert (He : forall e, In e (dedges g) -> act a e = F e).
    { intros e Ie. unfold act. destruct Ho as (_ & _ & _ & Ho). rewrite Ho. rewrite (proj2 (memb_spec _ edge_eqb_spec e (dedges g)) Ie). auto. }
    splits; auto.
    - intros e Ie. destruct (Hh e Ie) as (A1 & A2 & A3 & A4). destruct (dedges_vertices g e Ie). rewrite He, !Hv by auto. auto.
    - rewrite Hv; auto.
    - destruct Ho as (N1 & N2 & H1 & H2). unfold holds. splits; auto.
      + intros v. rewrite H1. destruct (is_vertex_dec g v); auto. rewrite Hv; auto.
      + intros e. rewrite H2. destruct (memb edge_eqb e (dedges g)) eqn:M; auto. rewrite He; auto. apply (memb_spec _ edge_eqb_spec); auto.
    - intros ->. eapply valid_holds; eauto.
  Qed.

  (** *** the loop *)
  Section Loop.
    Variables (lists : list (list edge)) (inv_b : nat -> nat -> Qc).
    Hypothesis HL : Forall chr lists.
    Hypothesis HI : linj d inv_b.
    Hypothesis N0 : lists <> [].
    Let seeds := map (fun es => head (hd (Edge 0 0 []) es)) lists.
    Let bases := map (fun es => mk d d (mxe es)) lists.

    Lemma linj_det m x : determinant (mk d d m) = Ret x -> x <> 0%Qc -> linj d m.
    Proof.
      intros E N. destruct (inverse_correct (R := Qc) d m Hd) as [(y & _ & S)|[E1 _]]; [apply (linj_solves d m y S)|].
      destruct (@GeomMC.Qc_det_inverse (mk d d m)) as (r & x' & A & B & X); auto; [apply wfm_mk; auto|].
      rewrite E in B. injection B as <-. rewrite E1 in A. injection A as <-. contradiction.
    Qed.

    Lemma foldM_unite (h : list edge -> list edge) iso ls p : wf edges_eqb p -> (forall l, In l ls -> mapM (fun e => unwrap (aget edge_eqb e (emap iso))) l = Ret (h l)) ->
      exists p', foldM (fun p lk => do mapped <- mapM (fun e => unwrap (aget edge_eqb e (emap iso))) lk; part_unite edges_eqb p lk mapped) p ls = Ret p' /\ wf edges_eqb p'.
    Proof.
      revert p; induction ls as [|l ls IH]; intros p W H; cbn [foldM]; [eauto|].
      rewrite H by (simpl; auto). cbn [bind]. destruct (unite_correct edges_eqb edges_eqb_spec p l (h l) W) as (p' & E & W' & _). rewrite E. cbn [bind].
      apply IH; auto. intros x Hx. apply H. simpl; auto.
    Qed.

    Lemma sy_step_ret p gens i : i < length lists -> wf edges_eqb p -> (forall a, In a gens -> exists m, Valid g pos a m) ->
      exists p' gens', sy_step chk g lists seeds bases (mk d d inv_b) (p, gens) i = Ret (p', gens') /\ wf edges_eqb p' /\ forall a, In a gens' -> exists m, Valid g pos a m.
    Proof.
      intros Hi W Hg. unfold sy_step, seeds, bases. rewrite !nth_error_map.
      destruct (nth_error lists i) as [li|] eqn:Ei; [|apply nth_error_None in Ei; lia].
      destruct (nth_error lists 0) as [l0|] eqn:E0; [|apply nth_error_None in E0; lia]. cbn [unwrap bind option_map].
      assert (Ci : chr li) by (rewrite Forall_forall in HL; apply HL; eapply nth_error_In; eauto).
      assert (C0 : chr l0) by (rewrite Forall_forall in HL; apply HL; eapply nth_error_In; eauto).
      destruct (find_correct edges_eqb edges_eqb_spec p li W) as (p1 & ri & -> & W1 & _). cbn [bind].
      destruct (find_correct edges_eqb edges_eqb_spec p1 l0 W1) as (p2 & r0 & -> & W2 & _). cbn [bind].
      destruct (edges_eqb ri r0); [eauto 6|]. rewrite mat_mul_mk by auto. cbn [bind].
      set (m := fun i j => sumf d (fun k => rmul (mxe li i k) (inv_b k j))).
      unfold is_unimodular. destruct (@GeomMC.Qc_det_inverse (mk d d m)) as (r & x & A & B & X); auto; [apply wfm_mk; auto|].
      rewrite B. cbn [bind]. set (u := _ && _). destruct u eqn:Eu; [|eauto 6].
      assert (Nx : x <> 0%Qc).
      { intros ->. unfold u in Eu. apply andb_true_iff in Eu as [_ Eu]. vm_compute in Eu. discriminate. }
      pose proof (linj_det m x B Nx) as Im. rewrite vec_zero_cv. cbn [bind]. rewrite aff_new_am. cbn [bind].
      assert (H0 : is_vertex g (head (hd (Edge 0 0 []) l0))).
      { destruct C0 as (L & I & _). destruct l0 as [|e l0]; [simpl in L; lia|]. simpl. apply dedges_vertices. apply I. simpl; auto. }
      destruct (automorphism_valid m (fun _ => 0%Qc) _ (head (hd (Edge 0 0 []) li)) Im H0) as (iso & Ea & Ha).
      change (Vec.r0 (R := Qc)) with 0%Qc. rewrite Ea. cbn [bind]. destruct iso as [iso|]; [|eauto 6].
      destruct Ha as (_ & _ & _ & _ & V). specialize (V eq_refl).
      destruct (foldM_unite (map (act iso)) iso lists p2 W2) as (p' & E & W').
      { intros l Hl. apply mapM_Ret. intros e He. rewrite (valid_eget g pos iso m); auto. rewrite Forall_forall in HL. apply (HL l Hl); auto. }
      rewrite E. cbn [bind]. exists p', (gens ++ [iso]). splits; auto. intros a Ia. apply in_app_or in Ia as [Ia|[<-|[]]]; eauto.
    Qed.

    Lemma sy_loop is : (forall i, In i is -> i < length lists) -> forall p gens, wf edges_eqb p -> (forall a, In a gens -> exists m, Valid g pos a m) ->
      exists p' gens', foldM (sy_step chk g lists seeds bases (mk d d inv_b)) (p, gens) is = Ret (p', gens') /\ forall a, In a gens' -> exists m, Valid g pos a m.
    Proof.
      induction is as [|i is IH]; intros Hi p gens W Hg; cbn [foldM]; [eauto|].
      destruct (sy_step_ret p gens i) as (p1 & g1 & E & W1 & H1); auto; [apply Hi; simpl; auto|].
      rewrite E. cbn [bind]. apply IH; auto. intros x Hx. apply Hi. simpl; auto.
    Qed.
  End Loop.

  Lemma symmetries_ok : is_locally_stable chk g = Ret true ->
    exists id gens res, auto_identity g = Ret id /\ Valid g pos id Matrix.delta /\ (forall e, act id e = e) /\ (forall v, vact id v = v) /\
      symmetries chk g = Ret res /\ is_closure g pos id gens res.
  Proof.
    intros St. unfold symmetries. rewrite St. cbn [bind assert].
    destruct characteristic_ret as (lists & E & F & N). rewrite E. cbn [bind].
    rewrite (mapM_Ret _ (fun es => head (hd (Edge 0 0 []) es))).
    2: { intros es He. rewrite Forall_forall in F. destruct (F es He) as (L & _). destruct es; [simpl in L; lia|]. reflexivity. }
    cbn [bind]. rewrite (mapM_Ret _ (fun es => mk d d (mxe es))).
    2: { intros es He. rewrite Forall_forall in F. apply matrix_ret; auto. }
    cbn [bind]. rewrite nth_error_map. destruct (nth_error lists 0) as [l0|] eqn:E0; [|apply nth_error_None in E0; destruct lists; [congruence|simpl in E0; lia]].
    cbn [option_map unwrap bind]. assert (C0 : chr l0) by (rewrite Forall_forall in F; apply F; eapply nth_error_In; eauto).
    destruct (matrix_inverse l0 C0) as (x & -> & S). cbn [unwrap bind].
    assert (Ix : linj d x) by (apply (linj_solves d x (mxe l0)); apply GeomMC.Qc_solves_comm; auto).
    destruct (sy_loop lists x F (seq 0 (length lists))) with (p := part_new (T := list edge)) (gens := @nil auto) as (p' & gens & El & Hg).
    { intros i Hi. apply in_seq in Hi. lia. }
    { apply wf_new. }
    { intros a []. }
    rewrite El. cbn [bind]. destruct (identity_valid g pos Hd LS) as (id & Eid & Vid & A1 & A2). rewrite Eid. cbn [bind].
    destruct (mg_ok g pos Hd span_edges id gens Vid A1 Hg) as (res & Er & Hr). exists id, gens, res. splits; auto.
  Qed.
End F.
