(** Sizes: the graph functions on machine integers do not overflow if the
    shifts are small compared with the number of vertices. *)
From Coq Require Import List ZArith Lia Bool PeanoNat Permutation.
From Verif Require Import Base Vec Elim Scalars Matrix LinAlg OrdSet PGraph Net PGraphBase Traverse Machine.
Import ListNotations.
Open Scope Z_scope.

(** all components are at most [b] in absolute value *)
Definition within (b : Z) (s : shiftv) : Prop := Forall (fun x => Z.abs x <= b) s.
Definition edges_within (b : Z) (es : list edge) : Prop := forall e, In e es -> within b (shift e).

Lemma within_mono a b s : a <= b -> within a s -> within b s.
Proof. intros H. apply Forall_impl. intros x Hx. lia. Qed.
Lemma within_sadd a b s t : within a s -> within b t -> within (a + b) (sadd s t).
Proof.
  intros H. revert t. induction H as [|x s Hx H IH]; intros [|y t] K; try constructor.
  - inversion K; subst. lia.
  - inversion K; subst. apply IH; auto.
Qed.
Lemma within_ssub a b s t : within a s -> within b t -> within (a + b) (ssub s t).
Proof.
  intros H. revert t. induction H as [|x s Hx H IH]; intros [|y t] K; try constructor.
  - inversion K; subst. lia.
  - inversion K; subst. apply IH; auto.
Qed.
Lemma within_sneg b s : within b s -> within b (sneg s).
Proof. induction 1; constructor; auto. lia. Qed.
Lemma within_szero b d : 0 <= b -> within b (szero d).
Proof. intros H. apply Forall_forall. intros x Hx. apply repeat_spec in Hx. subst. lia. Qed.
Lemma within_rev b e : within b (shift e) -> within b (shift (rev e)).
Proof. apply within_sneg. Qed.
Lemma within_canonical b e : within b (shift e) -> within b (shift (canonical e)).
Proof. intros H. destruct (canonical_cases e) as [-> | ->]; auto. apply within_rev; auto. Qed.

(** two loops with the same behaviour on all states that can occur *)
Lemma whl_same {S R} (f g : S -> outcome (S + R)) (I : S -> Prop) n s :
  (forall s, I s -> f s = g s /\ match g s with Ret (inl s') => I s' | _ => True end) -> I s ->
  whl f n s = whl g n s /\ match whl g n s with Ret (inl s') => I s' | _ => True end.
Proof.
  intros H. revert s. induction n as [|n IH]; intros s Hs; cbn [whl]; [apply H; auto|].
  destruct (IH s Hs) as [-> K]. destruct (whl g n s) as [[s'|r]| |]; auto.
Qed.
Lemma loop_same {S R} (f g : S -> outcome (S + R)) (I : S -> Prop) n s :
  (forall s, I s -> f s = g s /\ match g s with Ret (inl s') => I s' | _ => True end) -> I s -> loop f n s = loop g n s.
Proof. intros H Hs. unfold loop. destruct (whl_same f g I n s H Hs) as [-> _]. reflexivity. Qed.
Lemma foldM_same {A S} (f g : S -> A -> outcome S) (I : S -> Prop) l s :
  (forall s x, In x l -> I s -> f s x = g s x /\ match g s x with Ret s' => I s' | _ => True end) -> I s ->
  foldM f s l = foldM g s l /\ match foldM g s l with Ret s' => I s' | _ => True end.
Proof.
  revert s. induction l as [|x l IH]; intros s H Hs; cbn [foldM]; auto.
  destruct (H s x (or_introl eq_refl) Hs) as [-> K]. destruct (g s x) as [s'| |]; cbn [bind]; auto.
  apply IH; auto. intros. apply H; auto. right; auto.
Qed.

Section Fits.
  Variables (chk : Z -> outcome Z) (M : Z).
  Hypothesis Hok : forall z, Z.abs z <= M -> chk z = Ret z.

  Lemma chk_all s : within M s -> mapM chk s = Ret s.
  Proof. induction 1 as [|x s Hx H IH]; cbn [mapM]; auto. rewrite Hok by auto. cbn [bind]. rewrite IH. reflexivity. Qed.

  Lemma rev_fits e : within M (shift e) -> m_rev chk e = Ret (rev e).
  Proof. intros H. unfold m_rev, m_sneg. rewrite chk_all by (apply within_sneg; auto). reflexivity. Qed.
  Lemma canonical_fits e : within M (shift e) -> m_canonical chk e = Ret (canonical e).
  Proof. intros H. unfold m_canonical, canonical. destruct (_ || _); auto. apply rev_fits; auto. Qed.
  Lemma gnew_fits d raw : edges_within M raw -> m_gnew chk d raw = Ret (gnew d raw).
  Proof.
    intros H. unfold m_gnew, gnew. rewrite (mapM_Ret (m_canonical chk) canonical raw); [reflexivity|]. intros e He. apply canonical_fits. auto.
  Qed.
  Lemma edges_within_gnew b d raw : edges_within b raw -> edges_within b (gedges (gnew d raw)).
  Proof. intros H e He. apply gnew_edges in He as (f & Hf & ->). apply within_canonical. auto. Qed.
  Lemma edges_within_mono a b es : a <= b -> edges_within a es -> edges_within b es.
  Proof. intros L H e He. eapply within_mono; eauto. Qed.

  Lemma incidence_map_fits g : edges_within M (gedges g) -> m_incidence_map chk g = Ret (incidence_map g).
  Proof.
    intros H. unfold m_incidence_map, incidence_map. rewrite flat_map_concat_map.
    rewrite (mapM_Ret _ (fun e => [e; rev e])); [reflexivity|]. intros e He. rewrite rev_fits by auto. reflexivity.
  Qed.
  Lemma incidences_fits g v : edges_within M (gedges g) -> m_incidences chk g v = incidences g v.
  Proof. intros H. unfold m_incidences. rewrite incidence_map_fits by auto. reflexivity. Qed.
  Lemma directed_edges_fits g : edges_within M (gedges g) -> m_directed_edges chk g = directed_edges g.
  Proof. intros H. unfold m_directed_edges, directed_edges. f_equal. apply mapM_ext. intros. apply incidences_fits; auto. Qed.

  Section G.
    Variables (g : graph) (b : Z).
    Hypothesis Hb : 0 <= b <= M.
    Hypothesis HE : edges_within b (gedges g).

    Lemma HEM : edges_within M (gedges g).
    Proof. eapply edges_within_mono; [|exact HE]. lia. Qed.
    Lemma inc_within v es : incidences g v = Ret es -> forall e, In e es -> In e (dedges g) /\ head e = v /\ within b (shift e).
    Proof.
      intros E e He. destruct (is_vertex_dec g v) as [V|V]; [|rewrite incidences_no_vertex in E by auto; discriminate].
      rewrite incidences_vertex in E by auto. injection E as <-. apply inc_In in He as [D Hh]. splits; auto.
      apply dedges_In in D as (f & Hf & [-> | ->]); [auto|apply within_rev; auto].
    Qed.

    (** *** coordination sequences *)
    Lemma cs_next_fits order last this c : (forall l, Permutation (order l) l) -> 0 <= c -> b + c <= M ->
      (forall w, In w this -> within c (snd w)) ->
      m_cs_next chk order g (last, this) = cs_next order g (last, this) /\
      match cs_next order g (last, this) with
      | Ret (last', this', _) => last' = this /\ forall w, In w this' -> within (b + c) (snd w)
      | _ => True
      end.
    Proof.
      intros Po Hc Hs W. unfold m_cs_next, cs_next.
      set (f := fun acc vs => _). set (h := fun (acc : list node) (vs : node) => do inc <- incidences g (fst vs); _).
      destruct (foldM_same f h (fun acc => forall w, In w acc -> within (b + c) (snd w)) (order this) []) as [E K].
      - intros acc vs Hvs I. assert (Wv : within c (snd vs)) by (apply W; apply (Permutation_in _ (Po this)); auto).
        unfold f, h. rewrite incidences_fits by apply HEM. destruct (incidences g (fst vs)) as [es| |] eqn:Ei; cbn [bind]; auto.
        pose proof (inc_within _ _ Ei) as Hes. clear Ei f h Hvs. revert acc I. induction es as [|e es IH]; intros acc I; cbn [foldM fold_left]; auto.
        assert (We : within (b + c) (sadd (shift e) (snd vs))) by (apply within_sadd; auto; apply Hes; left; auto).
        unfold m_sadd at 1. rewrite chk_all by (eapply within_mono; [|exact We]; auto). cbn [bind].
        apply IH; [intros; apply Hes; right; auto|]. intros w Hw. destruct (_ && _); [|auto].
        apply (sinsert_In node_eqb node_eqb_spec) in Hw as [-> | Hw]; auto.
      - intros w [].
      - rewrite E. destruct (foldM h [] (order this)); cbn [bind]; auto.
    Qed.

    Lemma cs_take_fits order n last this c : (forall k l, Permutation (order k l) l) -> 0 <= c -> Z.of_nat n * b + c <= M ->
      (forall w, In w this -> within c (snd w)) -> m_cs_take chk order g n (last, this) = cs_take order g n (last, this).
    Proof.
      intros Po. revert last this c. induction n as [|n IH]; intros last this c Hc Hs W; cbn [m_cs_take cs_take]; auto.
      destruct (cs_next_fits (order (S n)) last this c) as [E K]; auto; [nia|]. rewrite E.
      destruct (cs_next (order (S n)) g (last, this)) as [[[l' t'] x]| |]; cbn [bind]; auto. destruct K as [-> K].
      rewrite (IH this t' (b + c)); auto; nia.
    Qed.

    (** *** traversal *)
    Definition nv : Z := Z.of_nat (length (vertices g)).
    Definition tbound (st : tstate) : Prop :=
      let '(shifts, seen, queue, result) := st in
      NoDup (map fst shifts) /\ incl (map fst shifts) (vertices g) /\
      (forall v s, aget Nat.eqb v shifts = Some s -> within ((Z.of_nat (length shifts) - 1) * b) s) /\
      edges_within ((2 * nv - 1) * b) result.
    Hypothesis Hn : (2 * nv - 1) * b <= M.

    Lemma shifts_len (shifts : list (nat * shiftv)) : NoDup (map fst shifts) -> incl (map fst shifts) (vertices g) ->
      Z.of_nat (length shifts) <= nv.
    Proof.
      intros N I. unfold nv. pose proof (NoDup_incl_length N I) as L. rewrite map_length in L. lia.
    Qed.

    Lemma tr_edge_fits st e : tbound st -> In e (dedges g) -> within b (shift e) ->
      m_tr_edge chk st e = tr_edge st e /\ match tr_edge st e with Ret st' => tbound st' | _ => True end.
    Proof.
      destruct st as [[[shifts seen] queue] result]. intros (N & I & W & R) De We. unfold m_tr_edge, tr_edge.
      assert (L : Z.of_nat (length shifts) <= nv) by (apply shifts_len; auto).
      assert (P : forall shifts', NoDup (map fst shifts') -> incl (map fst shifts') (vertices g) ->
        (forall v s, aget Nat.eqb v shifts' = Some s -> within ((Z.of_nat (length shifts') - 1) * b) s) -> forall queue',
        (do e <- m_canonical chk e;
         if memb edge_eqb e seen then Ret (shifts', seen, queue', result)
         else do sh <- unwrap (aget Nat.eqb (head e) shifts');
              do a <- m_sadd chk sh (shift e);
              do st <- unwrap (aget Nat.eqb (tail e) shifts');
              do b <- m_ssub chk a st;
              Ret (shifts', sinsert edge_eqb e seen, queue', result ++ [Edge (head e) (tail e) b])) =
        (let e := canonical e in
         if memb edge_eqb e seen then Ret (shifts', seen, queue', result)
         else do sh <- unwrap (aget Nat.eqb (head e) shifts');
              do st <- unwrap (aget Nat.eqb (tail e) shifts');
              Ret (shifts', sinsert edge_eqb e seen, queue', result ++ [Edge (head e) (tail e) (ssub (sadd sh (shift e)) st)])) /\
        match (let e := canonical e in
         if memb edge_eqb e seen then Ret (shifts', seen, queue', result)
         else do sh <- unwrap (aget Nat.eqb (head e) shifts');
              do st <- unwrap (aget Nat.eqb (tail e) shifts');
              Ret (shifts', sinsert edge_eqb e seen, queue', result ++ [Edge (head e) (tail e) (ssub (sadd sh (shift e)) st)]))
        with Ret st' => tbound st' | _ => True end).
      { clear N I W L. intros shifts' N I W queue'. assert (L : Z.of_nat (length shifts') <= nv) by (apply shifts_len; auto).
        assert (Wc : within b (shift (canonical e))) by (apply within_canonical; auto).
        rewrite canonical_fits by (eapply within_mono; [|exact We]; lia). cbn [bind]. cbv zeta.
        destruct (memb edge_eqb (canonical e) seen); [split; auto; unfold tbound; auto|].
        destruct (aget Nat.eqb (head (canonical e)) shifts') as [sh|] eqn:Eh; cbn [unwrap bind]; auto.
        apply W in Eh. assert (Wa : within (nv * b) (sadd sh (shift (canonical e)))).
        { eapply within_mono; [|apply within_sadd; [exact Eh|exact Wc]]. nia. }
        assert (Hnv : 0 <= nv) by (unfold nv; lia).
        destruct (Z.eq_dec nv 0) as [Z0|Z0].
        { exfalso. destruct shifts' as [|p shifts']; [|cbn [length] in L; lia]. cbn [length] in Eh.
          apply dedges_vertices in De as [De _]. apply vertices_In in De. unfold nv in Z0. destruct (vertices g); [destruct De|cbn [length] in Z0; lia]. }
        unfold m_sadd. rewrite chk_all by (eapply within_mono; [|exact Wa]; nia). cbn [bind].
        destruct (aget Nat.eqb (tail (canonical e)) shifts') as [st|] eqn:Et; cbn [unwrap bind]; auto.
        apply W in Et. assert (Wb : within ((2 * nv - 1) * b) (ssub (sadd sh (shift (canonical e))) st)).
        { eapply within_mono; [|apply within_ssub; [exact Wa|exact Et]]. nia. }
        unfold m_ssub. rewrite chk_all by (eapply within_mono; [|exact Wb]; auto). cbn [bind]. split; auto.
        unfold tbound. splits; auto. intros f Hf. apply in_app_iff in Hf as [Hf|[<-|[]]]; auto. }
      destruct (aget Nat.eqb (tail e) shifts) as [s|] eqn:Et; cbn [bind]; [apply P; auto|].
      destruct (aget Nat.eqb (head e) shifts) as [sv|] eqn:Eh; cbn [unwrap bind]; auto.
      apply W in Eh. assert (Wn : within (Z.of_nat (length shifts) * b) (sadd sv (shift e))).
      { eapply within_mono; [|apply within_sadd; [exact Eh|exact We]]. nia. }
      assert (Nk : ~ In (tail e) (map fst shifts)).
      { intros K. apply aget_key in K as [s Es]. congruence. }
      rewrite (aset_new _ _ _ Et).
      assert (N' : NoDup (map fst (shifts ++ [(tail e, sadd sv (shift e))]))).
      { rewrite map_app. cbn [map fst]. apply NoDup_snoc; auto. }
      assert (I' : incl (map fst (shifts ++ [(tail e, sadd sv (shift e))])) (vertices g)).
      { rewrite map_app. cbn [map fst]. intros v Hv. apply in_app_iff in Hv as [Hv|[<-|[]]]; auto. apply vertices_In. apply (dedges_vertices g e De). }
      pose proof (shifts_len _ N' I') as L'. rewrite app_length in L'. cbn [length] in L'.
      unfold m_sadd. rewrite chk_all by (eapply within_mono; [|exact Wn]; nia). cbn [bind]. rewrite (aset_new _ _ _ Et). apply P; auto.
      intros v s Es. rewrite app_length. cbn [length]. destruct (in_dec Nat.eq_dec v (map fst shifts)) as [K|K].
      - rewrite aget_app_l in Es by auto. apply W in Es. eapply within_mono; [|exact Es]. nia.
      - assert (v = tail e) as ->. { apply aget_key' in Es. rewrite map_app in Es. apply in_app_iff in Es as [Es|[Es|[]]]; [contradiction|auto]. }
        assert (Ea : aget Nat.eqb (tail e) (shifts ++ [(tail e, sadd sv (shift e))]) = Some (sadd sv (shift e))).
        { clear - Et. induction shifts as [|[k x] l IH]; cbn [aget app] in *; [rewrite Nat.eqb_refl; auto|]. destruct (Nat.eqb _ _); [discriminate|auto]. }
        rewrite Ea in Es. injection Es as <-. eapply within_mono; [|exact Wn]. nia.
    Qed.

    Lemma traverse_fits v : is_vertex g v -> m_traverse chk g v = traverse g v /\
      match traverse g v with Ret t => edges_within ((2 * nv - 1) * b) t | _ => True end.
    Proof.
      intros V. unfold m_traverse, traverse.
      assert (I0 : tbound ([(v, szero (gdim g))], [], [v], [])).
      { unfold tbound. cbn [map fst length]. splits.
        - constructor; [intros []|constructor].
        - intros w [<-|[]]. apply vertices_In; auto.
        - intros w s E. cbn [aget] in E. destruct (Nat.eqb _ _); [|discriminate]. injection E as <-. apply within_szero. lia.
        - intros e []. }
      assert (St : forall st, tbound st -> m_tr_body chk g st = tr_body g st /\
          match tr_body g st with Ret (inl st') => tbound st' | _ => True end /\
          match tr_body g st with Ret (inr t) => edges_within ((2 * nv - 1) * b) t | _ => True end).
      { intros [[[shifts seen] queue] result] T. unfold m_tr_body, tr_body. destruct queue as [|w queue]; [splits; auto; apply T|].
        rewrite incidences_fits by apply HEM. destruct (incidences g w) as [es| |] eqn:Ei; cbn [bind]; auto.
        destruct (foldM_same (m_tr_edge chk) tr_edge tbound es (shifts, seen, queue, result)) as [E K].
        - intros st e He I. destruct (inc_within _ _ Ei e He) as (D & _ & We). apply tr_edge_fits; auto.
        - exact T.
        - rewrite E. destruct (foldM tr_edge (shifts, seen, queue, result) es); unfold omap; cbn [bind]; auto. }
      split.
      - apply (loop_same _ _ tbound); auto. intros st T. destruct (St st T) as (E & K & _). auto.
      - assert (H : forall n st, tbound st -> match whl (tr_body g) n st with
            | Ret (inl st') => tbound st' | Ret (inr t) => edges_within ((2 * nv - 1) * b) t | _ => True end).
        { induction n as [|n IH]; intros st T; cbn [whl].
          - destruct (St st T) as (_ & K1 & K2). destruct (tr_body g st) as [[]| |]; auto.
          - specialize (IH st T) as K. destruct (whl (tr_body g) n st) as [[st'|t]| |]; auto. apply IH; exact K. }
        specialize (H (length (gedges g) + 2)%nat _ I0). unfold loop. destruct (whl _ _ _) as [[]| |]; auto.
    Qed.

    Lemma shift_normalized_fits : m_shift_normalized chk g = shift_normalized g.
    Proof.
      unfold m_shift_normalized, shift_normalized.
      set (f := fun st v => _). set (h := fun (st : list nat * list edge) (v : nat) => let '(seen, es) := st in
        if memb Nat.eqb v seen then Ret (seen, es) else do t <- traverse g v; _).
      destruct (foldM_same f h (fun st => edges_within ((2 * nv - 1) * b) (snd st)) (vertices g) ([], [])) as [E K].
      - intros [seen es] v Hv I. unfold f, h. cbn [snd] in I. destruct (memb Nat.eqb v seen); auto.
        apply vertices_In in Hv. destruct (traverse_fits v Hv) as [-> K]. destruct (traverse g v) as [t| |]; cbn [bind]; auto.
        split; auto. cbn [snd]. intros e He. apply in_app_iff in He as [He|He]; auto.
      - intros e [].
      - rewrite E. destruct (foldM h ([], []) (vertices g)) as [[s es]| |]; cbn [bind]; auto. cbn [snd] in K.
        apply gnew_fits. eapply edges_within_mono; eauto.
    Qed.
  End G.
End Fits.
