(** C60, C61: the table of space groups (src/spacegroups/parse_table.rs, src/spacegroups/types.rs).

    The specification is in TableSpec.v; lines_of, scalar and utf8 are in CgdGrammar.v. *)
From Coq Require Import String Ascii List ZArith NArith Lia Bool PeanoNat QArith Qcanon.
From Verif Require Import Base Scalars Vec Matrix Shapes MatrixMore Geometry Text ParseOp OpGrammar Cgd CgdGrammar CgdText Props_Geometry Props_Operators Table TableSpec TableProof.
Import ListNotations.
Close Scope Q_scope. Close Scope Qc_scope.
Local Open Scope list_scope.
Open Scope nat_scope.

(** ** is_identity *)
Lemma mk_data_in r c (f : nat -> nat -> Qc) x : In x (data (mk r c f)) <-> exists i j, i < r /\ j < c /\ x = f i j.
Proof.
  unfold mk, frows, frow. cbn [data]. rewrite in_concat. split.
  - intros (l & Hl & Hx). apply in_map_iff in Hl as (i & <- & Hi). apply in_map_iff in Hx as (j & <- & Hj). apply in_seq in Hi. apply in_seq in Hj. exists i, j. splits; auto; lia.
  - intros (i & j & Hi & Hj & ->). exists (map (f i) (seq 0 c)). split; [apply in_map_iff; exists i; split; auto; apply in_seq; lia|]. apply in_map. apply in_seq. lia.
Qed.
Lemma qeqb_eq (a b : Qc) : reqb a b = true <-> a = b.
Proof. apply r_eqb. Qed.
Theorem C61_is_identity n (c : @cmap Qc) : 0 < n -> affine_map n (fwd c) ->
  exists b, cmap_is_identity c = Ret b /\ (b = true <-> identity_map c).
Proof.
  intros Hn A. apply (affine_am n _ Hn) in A as (f & s & E). unfold cmap_is_identity, aff_is_identity, identity_map. rewrite E. unfold am, cv. cbn [lin shift]. unfold is_identity. cbn [nrows ncols mk]. rewrite Nat.eqb_refl. cbn [negb].
  rewrite (mapM_Ret _ (fun ij => if Nat.eqb (snd ij) (fst ij) then reqb (f (fst ij) (snd ij)) r1 else reqb (f (fst ij) (snd ij)) r0)).
  2: { intros [i j] H. apply in_prod_iff in H as [Hi Hj]. apply in_seq in Hi. apply in_seq in Hj. cbn [fst snd]. rewrite index_mk by lia. reflexivity. }
  cbn [omap bind]. eexists. split; [reflexivity|]. rewrite andb_true_iff, !forallb_forall. split.
  - intros [H1 H2]. splits; auto.
    + intros i j Hi Hj. rewrite mk_ent by auto. assert (K : id (if Nat.eqb j i then reqb (f i j) r1 else reqb (f i j) r0) = true).
      { apply H1. apply in_map_iff. exists (i, j). split; auto. apply in_prod_iff. rewrite !in_seq. lia. }
      unfold id in K. rewrite Nat.eqb_sym. destruct (Nat.eqb j i); apply qeqb_eq in K; exact K.
    + intros i Hi. rewrite mk_ent by auto. apply qeqb_eq. apply H2. apply mk_data_in. exists i, 0. splits; auto.
  - intros (_ & H1 & H2). split.
    + intros x Hx. apply in_map_iff in Hx as ([i j] & <- & H). apply in_prod_iff in H as [Hi Hj]. apply in_seq in Hi. apply in_seq in Hj. cbn [fst snd].
      specialize (H1 i j ltac:(lia) ltac:(lia)). rewrite mk_ent in H1 by lia. unfold id. rewrite (Nat.eqb_sym j i). destruct (Nat.eqb i j); rewrite H1; apply qeqb_eq; reflexivity.
    + intros x Hx. apply mk_data_in in Hx as (i & j & Hi & Hj & ->). apply qeqb_eq. specialize (H2 i Hi). rewrite mk_ent in H2 by lia. exact H2.
Qed.
Print Assumptions C61_is_identity.
Lemma aff_never_timeout t : aff_from_string t <> Timeout.
Proof.
  pose proof (C58_from_string t) as H. destruct (parse_operator t) as [[[rest x]|]| |]; try congruence. destruct H as (b1 & u & b2 & cs & _ & _ & _ & _ & Ha & Hb).
  destruct (le_lt_dec (length cs) 3) as [L|L]; [destruct (Ha L) as (op & -> & _)|rewrite (Hb L)]; discriminate.
Qed.
Lemma aff_wf t op : aff_from_string t = Ret (Some op) -> exists n, 0 < n /\ affine_map n op.
Proof.
  intros E. pose proof (C58_from_string t) as H. destruct (parse_operator t) as [[[rest x]|]| |]; try congruence. destruct H as (b1 & u & b2 & cs & _ & _ & _ & Ht & Ha & Hb).
  destruct (le_lt_dec (length cs) 3) as [L|L]; [|rewrite (Hb L) in E; discriminate E]. destruct (Ha L) as (op' & E' & D). rewrite E in E'. injection E' as <-. exists (length cs).
  split; [destruct Ht; cbn; lia|]. apply D.
Qed.
Lemma change_wf t m : cmap_from_string t = Ret (Some m) -> exists n, 0 < n /\ affine_map n (fwd m).
Proof.
  unfold cmap_from_string. intros E. destruct (aff_from_string t) as [[op|]| |] eqn:Ea; try discriminate E. cbn [bind] in E. destruct (aff_wf _ _ Ea) as (n & Hn & A). exists n. split; auto.
  destruct (cmap_new op) as [c| |] eqn:Ec; try discriminate E. injection E as <-. destruct (good_new n op c Hn A Ec) as [_ ->]. auto.
Qed.
Lemma change_good ws m : change_text ws = Ret (Some m) -> good_change m.
Proof. intros E. destruct (change_wf _ _ E) as (n & Hn & A). exact (C61_is_identity n m Hn A). Qed.
Lemma change_never_timeout ws : change_text ws <> Timeout.
Proof.
  unfold change_text, cmap_from_string. pose proof (aff_never_timeout (join ws)) as N. destruct (aff_from_string (join ws)) as [[op|]| |] eqn:Ea; try discriminate; [|congruence]. cbn [bind].
  destruct (aff_wf _ _ Ea) as (n & Hn & A). apply (affine_am n _ Hn) in A as (f & s & ->). unfold cmap_new. destruct (inverse_am n f s Hn) as [(g & t & -> & _)|(-> & _)]; cbn [bind unwrap omap]; discriminate.
Qed.

(** ** lines *)
Section Lines.
  Variable lower : text -> text.
  Definition result_of (st : table_state) (r : line_result) : outcome (option table_state) := match r with Says i => apply_item st i | Fails => Ret None | Panics => Panic end.
  Lemma begins_starts c t : starts_with c t = true <-> begins c t.
  Proof. unfold begins. destruct t as [|x t]; cbn [starts_with]; [split; [discriminate|intros (r & K); discriminate K]|]. rewrite N.eqb_eq. split; [intros ->; eauto|intros (r & [= -> _]); auto]. Qed.
  Lemma begins_not c t : starts_with c t = false <-> ~ begins c t.
  Proof. rewrite <- begins_starts. destruct (starts_with c t); split; congruence. Qed.
  Lemma step_blank st t : Forall white t -> table_step lower st (Some t) = Ret (Some st).
  Proof. intros F. unfold table_step. cbn [question]. rewrite (trim_complete t []); [reflexivity|]. exists t, []. splits; auto; [rewrite app_nil_r; auto|]. intros c [K|K]; discriminate K. Qed.
  Lemma step_comment st t u : trimmed t u -> begins (chr "#") u -> table_step lower st (Some t) = Ret (Some st).
  Proof. intros T H. unfold table_step. cbn [question]. rewrite (trim_complete t u T). rewrite (proj2 (begins_starts _ _) H), orb_true_r. reflexivity. Qed.
  Lemma step_operator st t u : trimmed t u -> u <> [] -> ~ begins (chr "#") u -> begins 32%N t -> table_step lower st (Some t) =
    (do o <- aff_from_string u; question o (fun op => apply_item st (Operator op))).
  Proof.
    intros T Nu Nc B. unfold table_step. cbn [question]. rewrite (trim_complete t u T). rewrite (proj2 (begins_not _ _) Nc), orb_false_r. destruct u as [|c u]; [congruence|]. change (chr " ") with 32%N. rewrite (proj2 (begins_starts _ _) B). reflexivity.
  Qed.
  Lemma trimmed_words t u w ws : trimmed t u -> words_of t (w :: ws) -> u <> [] /\ split_whitespace u = w :: ws.
  Proof.
    intros T W. apply words_complete in W. rewrite (words_trim t u T). split; auto. intros ->. assert (F : Forall white t) by (apply (trim_nil t []); auto). apply words_nil in F. congruence.
  Qed.
  Lemma step_fields st t u w ws : trimmed t u -> ~ begins (chr "#") u -> ~ begins 32%N t -> words_of t (w :: ws) -> table_step lower st (Some t) =
    if text_eqb (lower w) (str "alias") then
      do f1 <- field_at (w :: ws) 1; do f2 <- field_at (w :: ws) 2;
      Ret (Some (State (st_settings st) (insert f1 f2 (st_alias st)) (st_lookup st) (st_canonical st) (st_current st)))
    else if text_eqb (lower w) (str "lookup") then
      do o <- make_lookup_entry lower (w :: ws);
      question o (fun e => apply_item st (LookupLine e))
    else
      do o <- change_text ws; question o (fun m => apply_item st (Header w m)).
  Proof.
    intros T Nc B W. destruct (trimmed_words t u w ws T W) as [Nu Es]. unfold table_step. cbn [question]. rewrite (trim_complete t u T). rewrite (proj2 (begins_not _ _) Nc), orb_false_r.
    destruct u as [|c u]; [congruence|]. change (chr " ") with 32%N. rewrite (proj2 (begins_not _ _) B), Es. reflexivity.
  Qed.
  Lemma lookup_step ws r st : lookup_line lower ws r -> (do o <- make_lookup_entry lower ws; question o (fun e => apply_item st (LookupLine e))) = result_of st r.
  Proof.
    intros [w name s c rest system centr m Em Es Ec|ws' L|w name s c rest Em|w name s c rest o Em H].
    - unfold make_lookup_entry. cbn [field_at nth_error fields_from length Nat.leb skipn bind]. unfold change_text in Em. rewrite Em. cbn [bind question]. rewrite Es. cbn [question]. rewrite Ec. reflexivity.
    - destruct ws' as [|a [|b [|c [|d ws']]]]; cbn [length] in L; try lia; reflexivity.
    - unfold make_lookup_entry. cbn [field_at nth_error fields_from length Nat.leb skipn bind]. unfold change_text in Em. rewrite Em. reflexivity.
    - unfold make_lookup_entry. cbn [field_at nth_error fields_from length Nat.leb skipn bind]. unfold change_text in Em. rewrite Em. cbn [bind]. destruct o as [m|]; [|reflexivity]. cbn [question].
      destruct (system_from_string lower s); [|reflexivity]. cbn [question]. destruct (centering_from_string c); [|reflexivity]. destruct H as [H|[H|H]]; discriminate H.
  Qed.
  Lemma line_step t r : table_line lower t r -> forall st, table_step lower st (Some t) = result_of st r.
  Proof.
    intros H st. destruct H as [t F|t u T H|t u op T Nu Nc B E|t u T Nu Nc B E|t u T Nu Nc B E|t u w a b ws T Nc B W E|t u w ws T Nc B W E L|t u w ws r T Nc B W E L|t u w ws m T Nc B W E1 E2 E|t u w ws T Nc B W E1 E2 E|t u w ws T Nc B W E1 E2 E].
    - apply step_blank; auto.
    - eapply step_comment; eauto.
    - rewrite (step_operator st t u) by auto. rewrite E. reflexivity.
    - rewrite (step_operator st t u) by auto. rewrite E. reflexivity.
    - rewrite (step_operator st t u) by auto. rewrite E. reflexivity.
    - rewrite (step_fields st t u _ _ T Nc B W). destruct (text_eqb_spec (lower w) (str "alias")); [|congruence]. reflexivity.
    - rewrite (step_fields st t u _ _ T Nc B W). destruct (text_eqb_spec (lower w) (str "alias")); [|congruence]. destruct ws as [|x [|y ws]]; cbn [length] in L; try lia; reflexivity.
    - rewrite (step_fields st t u _ _ T Nc B W). destruct (text_eqb_spec (lower w) (str "alias")) as [K|_]; [rewrite E in K; discriminate K|]. destruct (text_eqb_spec (lower w) (str "lookup")); [|congruence]. apply lookup_step. auto.
    - rewrite (step_fields st t u _ _ T Nc B W). destruct (text_eqb_spec (lower w) (str "alias")); [congruence|]. destruct (text_eqb_spec (lower w) (str "lookup")); [congruence|]. rewrite E. reflexivity.
    - rewrite (step_fields st t u _ _ T Nc B W). destruct (text_eqb_spec (lower w) (str "alias")); [congruence|]. destruct (text_eqb_spec (lower w) (str "lookup")); [congruence|]. rewrite E. reflexivity.
    - rewrite (step_fields st t u _ _ T Nc B W). destruct (text_eqb_spec (lower w) (str "alias")); [congruence|]. destruct (text_eqb_spec (lower w) (str "lookup")); [congruence|]. rewrite E. reflexivity.
  Qed.
  Lemma line_good t i : table_line lower t (Says i) -> good_item i.
  Proof.
    intros H. remember (Says i) as r eqn:Er. destruct H as [t F|t u T H|t u op T Nu Nc B E|t u T Nu Nc B E|t u T Nu Nc B E|t u w a b ws T Nc B W E|t u w ws T Nc B W E L|t u w ws r T Nc B W E L|t u w ws m T Nc B W E1 E2 E|t u w ws T Nc B W E1 E2 E|t u w ws T Nc B W E1 E2 E];
      try discriminate Er; try (injection Er as <-; exact I).
    - subst r. inversion L; subst; exact I.
    - injection Er as <-. cbn. eapply change_good; eauto.
  Qed.
  Lemma lookup_exists w ws : exists r, lookup_line lower (w :: ws) r.
  Proof.
    destruct ws as [|name [|s [|c rest]]]; try (exists Panics; apply lookup_short; cbn; lia). pose proof (change_never_timeout rest) as N. destruct (change_text rest) as [[m|]| |] eqn:E; [| | |congruence].
    - destruct (system_from_string lower s) as [sy|] eqn:Es; [|exists Fails; eapply lookup_fails; eauto]. destruct (centering_from_string c) as [ce|] eqn:Ec; [|exists Fails; eapply lookup_fails; eauto]. eexists. eapply lookup_says; eauto.
    - exists Fails. eapply lookup_fails; eauto.
    - exists Panics. apply lookup_panics. auto.
  Qed.
  Lemma line_exists t : exists r, table_line lower t r.
  Proof.
    pose proof (trim_sound t) as T. set (u := trim t) in *. destruct u as [|c u'] eqn:Eu; [exists (Says Nothing); apply line_blank; apply (trim_nil t []); auto|]. rewrite <- Eu in *. assert (Nu : u <> []) by congruence.
    destruct (starts_with (chr "#") u) eqn:C; [apply begins_starts in C; exists (Says Nothing); eapply line_comment; eauto|apply begins_not in C].
    destruct (starts_with 32%N t) eqn:B; [apply begins_starts in B|apply begins_not in B].
    - pose proof (aff_never_timeout u) as N. destruct (aff_from_string u) as [[op|]| |] eqn:E; [| | |congruence].
      + eexists. eapply line_operator; eauto.
      + eexists. eapply line_operator_fails; eauto.
      + eexists. eapply line_operator_panics; eauto.
    - pose proof (words_sound t) as W. destruct (split_whitespace t) as [|w ws] eqn:Ew; [exfalso; apply words_nil in Ew; apply Nu; apply (trim_nil t u); auto|].
      destruct (text_eqb_spec (lower w) (str "alias")) as [E|E1].
      + destruct ws as [|a [|b ws]]; eexists; [eapply line_alias_short; eauto; cbn; lia|eapply line_alias_short; eauto; cbn; lia|eapply line_alias; eauto].
      + destruct (text_eqb_spec (lower w) (str "lookup")) as [E|E2].
        * destruct (lookup_exists w ws) as (r & L). eexists. eapply line_lookup; eauto.
        * pose proof (change_never_timeout ws) as N. destruct (change_text ws) as [[m|]| |] eqn:E; [| | |congruence]; eexists.
          -- eapply line_header; eauto.
          -- eapply line_header_fails; eauto.
          -- eapply line_header_panics; eauto.
  Qed.

  (** ** the loop *)
  (** readable lines that say something, with operators only after headers *)
  Definition readable (l : list N) (i : item) : Prop := exists t, Forall scalar t /\ utf8 t = l /\ table_line lower t (Says i).
  Definition good_lines (ls : list (list N)) (items : list item) : Prop := Forall2 readable ls items /\ attached items.
  (** reasons to fail at a line *)
  Definition fails_at (before : list item) (l : list N) : Prop :=
    (~ exists t, Forall scalar t /\ utf8 t = l) \/
    (exists t, Forall scalar t /\ utf8 t = l /\ table_line lower t Fails) \/
    (exists t op, Forall scalar t /\ utf8 t = l /\ table_line lower t (Says (Operator op)) /\ ~ exists i, In i before /\ is_header i).
  Definition panics_at (l : list N) : Prop := exists t, Forall scalar t /\ utf8 t = l /\ table_line lower t Panics.
  Definition decoded (ls : list (list N)) := map (fun l => utf8_decode (length l) l) ls.
  Lemma attached_snoc items i : attached items -> ((forall op, i = Operator op -> has_header items) <-> attached (items ++ [i])).
  Proof.
    intros A. split.
    - intros H a op b E. apply snoc_cases in E as [(-> & E & ->)|(b' & -> & ->)]; [exact (H op (eq_sym E))|]. eapply A. reflexivity.
    - intros H op ->. apply (H items op []). reflexivity.
  Qed.
  Inductive loop_result (items : list item) (ls : list (list N)) (st : table_state) : Prop :=
  | loop_done items' st' : Forall2 readable ls items' -> attached (items ++ items') -> table_loop lower st (decoded ls) = Ret (Some st') -> invariant (items ++ items') st' -> loop_result items ls st
  | loop_fails a l b items' : ls = a ++ l :: b -> Forall2 readable a items' -> attached (items ++ items') -> fails_at (items ++ items') l -> table_loop lower st (decoded ls) = Ret None -> loop_result items ls st
  | loop_panics a l b items' : ls = a ++ l :: b -> Forall2 readable a items' -> attached (items ++ items') -> panics_at l -> table_loop lower st (decoded ls) = Panic -> loop_result items ls st.
  Lemma loop_total ls : forall items st, attached items -> invariant items st -> loop_result items ls st.
  Proof.
    induction ls as [|l ls IH]; intros items st A I.
    - eapply (loop_done items [] st [] st); rewrite ?app_nil_r; auto.
    - cbn [decoded map] in *. destruct (utf8_decode (length l) l) as [t|] eqn:D.
      + apply decode_spec in D as [Hs Hu]. assert (D : utf8_decode (length l) l = Some t) by (apply decode_spec; auto). destruct (line_exists t) as (r & H). pose proof (line_step t r H st) as E.
        assert (Eq : table_loop lower st (decoded (l :: ls)) = do o <- result_of st r; question o (fun st' => table_loop lower st' (decoded ls))).
        { cbn [decoded map table_loop]. rewrite D, E. reflexivity. }
        destruct r as [i| |].
        * assert (G : forall st', apply_item st i = Ret (Some st') -> invariant (items ++ [i]) st' -> (forall op, i = Operator op -> has_header items) -> loop_result items (l :: ls) st).
          { intros st' Ea I' Ho. assert (A' : attached (items ++ [i])) by (apply attached_snoc; auto). cbn [result_of] in Eq. rewrite Ea in Eq. cbn [bind question] in Eq. assert (R : readable l i) by (exists t; auto).
            destruct (IH _ _ A' I') as [items' st2 F2 A2 E2 I2|a l2 b items' -> F2 A2 Fl E2|a l2 b items' -> F2 A2 Fl E2]; rewrite <- app_assoc in *; cbn [app] in *.
            - apply (loop_done items (l :: ls) st (i :: items') st2); [constructor; auto|auto|congruence|auto].
            - apply (loop_fails items (l :: a ++ l2 :: b) st (l :: a) l2 b (i :: items')); [reflexivity|constructor; auto|auto|auto|congruence].
            - apply (loop_panics items (l :: a ++ l2 :: b) st (l :: a) l2 b (i :: items')); [reflexivity|constructor; auto|auto|auto|congruence]. }
          pose proof (invariant_step items st i I (line_good t i H)) as S. destruct i as [|op|x y|le|n m]; try (destruct S as (st' & Ea & I'); eapply G; eauto; discriminate).
          destruct S as [S1 S2]. assert (Dh : has_header items \/ ~ has_header items).
          { clear. unfold has_header. induction items as [|x items IH]; [right; intros (i & [] & _)|]. destruct x as [| | | |n m]; try (left; exists (Header n m); split; [left; auto|eexists _, _; reflexivity]);
            (destruct IH as [(i & Hi & Hh)|N]; [left; exists i; split; auto; right; auto|right; intros (i & [<-|Hi] & Hh); [destruct Hh as (n & m & K); discriminate K|apply N; eauto]]). }
          destruct Dh as [Hh|Hh].
          -- destruct (S1 Hh) as (st' & Ea & I'). eapply G; eauto.
          -- eapply (loop_fails items (l :: ls) st [] l ls []); auto; rewrite ?app_nil_r; auto.
             ++ right. right. exists t, op. splits; auto.
             ++ rewrite Eq. cbn [result_of]. rewrite (S2 Hh). reflexivity.
        * eapply (loop_fails items (l :: ls) st [] l ls []); auto; rewrite ?app_nil_r; auto. right. left. exists t. auto.
        * eapply (loop_panics items (l :: ls) st [] l ls []); auto; rewrite ?app_nil_r; auto. exists t. auto.
      + eapply (loop_fails items (l :: ls) st [] l ls []); auto; rewrite ?app_nil_r; auto; [|cbn [decoded map table_loop]; rewrite D; reflexivity].
        left. intros (t & H). apply decode_spec in H. congruence.
  Qed.
  Lemma loop_good ls items : Forall2 readable ls items -> forall before st, attached (before ++ items) -> invariant before st -> exists st', table_loop lower st (decoded ls) = Ret (Some st') /\ invariant (before ++ items) st'.
  Proof.
    induction 1 as [|l i ls items R _ IH]; intros before st A I; [exists st; rewrite app_nil_r; auto|]. destruct R as (t & Hs & Hu & H).
    assert (D : utf8_decode (length l) l = Some t) by (apply decode_spec; auto). cbn [decoded map table_loop]. rewrite D, (line_step t _ H st). cbn [result_of].
    pose proof (invariant_step before st i I (line_good t i H)) as S.
    assert (G : exists st', apply_item st i = Ret (Some st') /\ invariant (before ++ [i]) st'). { destruct i; auto. apply S. destruct (A before op items eq_refl) as (j & K). exists j. auto. }
    destruct G as (st' & -> & I'). cbn [bind question]. destruct (IH (before ++ [i]) st') as (st2 & E2 & I2); [rewrite <- app_assoc; auto|auto|]. rewrite <- app_assoc in I2. exists st2. split; auto.
  Qed.
  Lemma loop_app a : forall st b, table_loop lower st (a ++ b) = do o <- table_loop lower st a; question o (fun st' => table_loop lower st' b).
  Proof. induction a as [|l a IH]; intros st b; [reflexivity|]. cbn [app table_loop]. destruct (table_step lower st l) as [[st'|]| |]; cbn [bind question]; auto. Qed.
End Lines.

Lemma attached_nil : attached []. Proof. intros a op b E. destruct a; discriminate E. Qed.
Lemma parse_decoded lower bytes ls : lines_of bytes ls -> parse_space_group_table lower bytes =
  do o <- table_loop lower (State [] [] [] [] []) (decoded ls); question o (fun st => Ret (Some (Tables (st_settings st) (st_alias st) (st_lookup st)))).
Proof. intros L. apply split_complete in L. subst ls. reflexivity. Qed.
Lemma lines_exist bytes : exists ls, lines_of bytes ls.
Proof. exists (split_lines [] bytes). exact (split_sound bytes [] (fun x => x)). Qed.
Definition start_state : table_state := State [] [] [] [] [].

(** ** C60: parse_space_group_table returns the table that the lines describe *)
Theorem C60_table lower bytes t : parse_space_group_table lower bytes = Ret (Some t) ->
  exists ls items, lines_of bytes ls /\ Forall2 (readable lower) ls items /\ attached items /\ table_of items t.
Proof.
  intros E. destruct (lines_exist bytes) as (ls & L). rewrite (parse_decoded lower bytes ls L) in E.
  destruct (loop_total lower ls [] start_state attached_nil invariant_start) as [items st F A El I|a l b items _ _ _ _ El|a l b items _ _ _ _ El]; unfold start_state in El; rewrite El in E; try discriminate E.
  cbn [bind question] in E. injection E as <-. exists ls, items. splits; auto. apply I.
Qed.
(** it does so for every file with readable lines *)
Theorem C60_complete lower bytes ls items : lines_of bytes ls -> Forall2 (readable lower) ls items -> attached items ->
  exists t, parse_space_group_table lower bytes = Ret (Some t) /\ table_of items t.
Proof.
  intros L F A. destruct (loop_good lower ls items F [] start_state A invariant_start) as (st & E & I). rewrite (parse_decoded lower bytes ls L). unfold start_state in E. rewrite E. cbn [bind question]. eexists. split; [reflexivity|]. apply I.
Qed.
(** otherwise it returns None or panics at the first line that is not right *)
Theorem C60_none lower bytes : parse_space_group_table lower bytes = Ret None <->
  exists a l b items, lines_of bytes (a ++ l :: b) /\ Forall2 (readable lower) a items /\ attached items /\ fails_at lower items l.
Proof.
  split.
  - intros E. destruct (lines_exist bytes) as (ls & L). rewrite (parse_decoded lower bytes ls L) in E.
    destruct (loop_total lower ls [] start_state attached_nil invariant_start) as [items st F A El I|a l b items -> F A H El|a l b items _ _ _ _ El]; unfold start_state in El; rewrite El in E; try discriminate E.
    exists a, l, b, items. auto.
  - intros (a & l & b & items & L & F & A & H). rewrite (parse_decoded lower bytes _ L). unfold decoded. rewrite map_app. cbn [map]. rewrite loop_app.
    destruct (loop_good lower a items F [] start_state A invariant_start) as (st & E & I). unfold start_state, decoded in E. rewrite E. cbn [bind question table_loop].
    destruct H as [H|[(t & Hs & Hu & H)|(t & op & Hs & Hu & H & Nh)]].
    + destruct (utf8_decode (length l) l) as [t|] eqn:D; [exfalso; apply H; exists t; apply decode_spec; auto|reflexivity].
    + assert (D : utf8_decode (length l) l = Some t) by (apply decode_spec; auto). rewrite D, (line_step lower t _ H st). reflexivity.
    + assert (D : utf8_decode (length l) l = Some t) by (apply decode_spec; auto). rewrite D, (line_step lower t _ H st). cbn [result_of].
      destruct (invariant_step items st _ I (line_good lower t _ H)) as [_ S]. rewrite (S Nh). reflexivity.
Qed.
Theorem C60_panics lower bytes : parse_space_group_table lower bytes = Panic <->
  exists a l b items, lines_of bytes (a ++ l :: b) /\ Forall2 (readable lower) a items /\ attached items /\ panics_at lower l.
Proof.
  split.
  - intros E. destruct (lines_exist bytes) as (ls & L). rewrite (parse_decoded lower bytes ls L) in E.
    destruct (loop_total lower ls [] start_state attached_nil invariant_start) as [items st F A El I|a l b items -> F A H El|a l b items -> F A H El]; unfold start_state in El; rewrite El in E; try discriminate E.
    exists a, l, b, items. auto.
  - intros (a & l & b & items & L & F & A & (t & Hs & Hu & H)). rewrite (parse_decoded lower bytes _ L). unfold decoded. rewrite map_app. cbn [map]. rewrite loop_app.
    destruct (loop_good lower a items F [] start_state A invariant_start) as (st & E & I). unfold start_state, decoded in E. rewrite E. cbn [bind question table_loop].
    assert (D : utf8_decode (length l) l = Some t) by (apply decode_spec; auto). rewrite D, (line_step lower t _ H st). reflexivity.
Qed.
Print Assumptions C60_table.
Print Assumptions C60_complete.
Print Assumptions C60_none.
Print Assumptions C60_panics.

(** a table with two settings of one group, an alias and a lookup line *)
Definition ascii_lower (t : text) : text := map lower_ascii t.
Definition join_lines (ls : list text) : text := flat_map (fun l => l ++ [10%N]) ls.
Definition sample : list N := join_lines [str "# sample"; str "p1 x,y"; str "  x,y"; str "alias P11 p1"; str "p1b x,y+1/2"; str " x,y"; str " x+1/2,y"; []; str "Lookup p1 Square p x,y"].
Definition show (t : tables) : list (text * text * text * nat * list (option text)) * list (text * text) * list (text * crystal_system * centering) :=
  (map (fun p => (fst p, te_name (snd p), te_canonical (snd p), length (te_operators (snd p)), map (fun op => match write_op op with Ret o => o | _ => None end) (fwd (te_transform (snd p)) :: te_operators (snd p)))) (settings t),
   alias t, map (fun e => (lk_name e, lk_system e, lk_centering e)) (lookup t)).
Example C60_example : (do o <- parse_space_group_table ascii_lower sample; Ret (match o with Some t => Some (show t) | None => None end)) =
  Ret (Some ([(str "p1b", str "p1b", str "p1", 2, [Some (str "x,y+1/2"); Some (str "x,y"); Some (str "x+1/2,y")]); (str "p1", str "p1", str "p1", 1, [Some (str "x,y"); Some (str "x,y")])],
    [(str "P11", str "p1")], [(str "p1", Square, Primitive2d)])).
Proof. vm_compute. reflexivity. Qed.
(** lines that panic or fail: too few words after alias or lookup, a singular transform, an operator without setting, and an operator after a tab (taken for the name of a setting) *)
Definition outcome_of (o : outcome (option tables)) : outcome bool := do r <- o; Ret (match r with Some _ => true | None => false end).
Example C60_bad_lines :
  parse_space_group_table ascii_lower (str "alias P2") = Panic /\ parse_space_group_table ascii_lower (str "lookup P2 Square") = Panic /\
  parse_space_group_table ascii_lower (str "p1 x,x") = Panic /\ outcome_of (parse_space_group_table ascii_lower (str " x,y")) = Ret false /\
  outcome_of (parse_space_group_table ascii_lower (join_lines [str "p1 x,y"; 9%N :: str "x,y"])) = Ret false /\
  outcome_of (parse_space_group_table ascii_lower (join_lines [str "p1 x,y"; 9%N :: str "x, x, y"])) = Ret true.
Proof. splits; vm_compute; reflexivity. Qed.

(** ** C61: names of crystal systems and centerings, and the lookup by them *)
Lemma match_text_spec {A} s (cases : list (text * A)) a : match_text s cases = Some a -> In (s, a) cases.
Proof. induction cases as [|[t b] cases IH]; [discriminate|]. cbn [match_text]. destruct (text_eqb_spec s t) as [->|_]; [intros [= ->]; left; auto|right; auto]. Qed.
Theorem C61_system_names lower s x : system_from_string lower s = Some x <-> lower s = write_system x.
Proof.
  split.
  - intros H. apply match_text_spec in H. cbn [In] in H. decompose [or] H; clear H; try contradiction; match goal with K : (_, _) = (_, _) |- _ => injection K as K1 K2; rewrite <- K1, <- K2; reflexivity end.
  - intros H. unfold system_from_string. rewrite H. destruct x; vm_compute; reflexivity.
Qed.
Theorem C61_centering_names s x : centering_from_string s = Some x <-> s = write_centering x.
Proof.
  split.
  - intros H. apply match_text_spec in H. cbn [In] in H. decompose [or] H; clear H; try contradiction; match goal with K : (_, _) = (_, _) |- _ => injection K as K1 K2; rewrite <- K1, <- K2; reflexivity end.
  - intros ->. destruct x; vm_compute; reflexivity.
Qed.
(** so every system and every centering is read back from its printed form (if this is in lower case already, as it is), and no two have the same form *)
Theorem C61_names_differ x y : write_system x = write_system y -> x = y.
Proof. destruct x, y; intros H; try reflexivity; discriminate H. Qed.
Theorem C61_centerings_differ x y : write_centering x = write_centering y -> x = y.
Proof. destruct x, y; intros H; try reflexivity; discriminate H. Qed.
(** lookup_settings returns the names and coordinate changes of the matching lookup lines, in the order of the file *)
Theorem C61_lookup t s c : exists matches, lookup_settings t s c = map (fun e => (lk_name e, lk_from_std e)) (filter matches (lookup t)) /\
  forall e, matches e = true <-> lk_system e = s /\ lk_centering e = c.
Proof.
  exists (fun e => crystal_system_beq s (lk_system e) && centering_beq c (lk_centering e)). split.
  - unfold lookup_settings. induction (lookup t) as [|e l IH]; auto. cbn [flat_map filter]. rewrite IH. destruct (_ && _); reflexivity.
  - intros e. rewrite andb_true_iff. split.
    + intros [H1 H2]. apply internal_crystal_system_dec_bl in H1. apply internal_centering_dec_bl in H2. auto.
    + intros [<- <-]. split; [apply internal_crystal_system_dec_lb|apply internal_centering_dec_lb]; reflexivity.
Qed.
Print Assumptions C61_system_names.
Print Assumptions C61_centering_names.
Print Assumptions C61_lookup.
Example C61_example : system_from_string ascii_lower (str "MonoClinic") = Some Monoclinic /\ centering_from_string (str "f") = None /\ ascii_lower (write_system Trigonal) = write_system Trigonal.
Proof. splits; vm_compute; reflexivity. Qed.
