(** Specification for the lines and blocks of a cgd file, and proofs that the model meets it. *)
From Coq Require Import String Ascii List ZArith NArith Lia Bool PeanoNat.
From Verif Require Import Base Text ParseOp Cgd CgdGrammar CgdText.
Import ListNotations.
Local Open Scope list_scope.
Open Scope nat_scope.

(** ** lines: the entry for a line with a given number *)
Definition unreadable (l : list N) : Prop := ~ exists t, Forall scalar t /\ utf8 t = l.
(** what an entry keeps from its line *)
Definition ending_notes (rest : text) : list note := match rest with [] => [] | _ => [UnparsedEnding rest] end.
Inductive line_entry rnd (lower : text -> text) (n : nat) (l : list N) : entry -> Prop :=
| entry_unreadable : unreadable l -> line_entry rnd lower n l (Entry Error None [] [NotReadable] n None)
| entry_failed t : Forall scalar t -> utf8 t = l -> parse_cgd_line rnd t = Ret None -> line_entry rnd lower n l (Entry Error None [] [NotParsed] n (Some t))
| entry_empty t rest : Forall scalar t -> utf8 t = l -> parse_cgd_line rnd t = Ret (Some (rest, [])) ->
    line_entry rnd lower n l (Entry Empty None [] (ending_notes rest) n (Some t))
| entry_keyed t rest k fs : Forall scalar t -> utf8 t = l -> parse_cgd_line rnd t = Ret (Some (rest, Key k :: fs)) ->
    line_entry rnd lower n l (Entry Data (Some (lower k)) fs (ending_notes rest) n (Some t))
| entry_data t rest f fs : Forall scalar t -> utf8 t = l -> parse_cgd_line rnd t = Ret (Some (rest, f :: fs)) -> (forall k, f <> Key k) ->
    line_entry rnd lower n l (Entry Data None (f :: fs) (ending_notes rest) n (Some t)).
(** entries numbered from n on *)
Inductive numbered_entries rnd lower : nat -> list (list N) -> list entry -> Prop :=
| numbered_nil n : numbered_entries rnd lower n [] []
| numbered_cons n l ls e es : line_entry rnd lower n l e -> numbered_entries rnd lower (S n) ls es -> numbered_entries rnd lower n (l :: ls) (e :: es).
(** a line on which the line parser panics *)
Definition bad_line rnd (l : list N) : Prop := exists t, Forall scalar t /\ utf8 t = l /\ parse_cgd_line rnd t = Panic.

Section Lines.
  Variables (rnd : Qcanon.Qc -> option Qcanon.Qc) (lower : text -> text).
  Lemma ending_eq rest : (if 0 <? length rest then [UnparsedEnding rest] else []) = ending_notes rest. Proof. destruct rest; auto. Qed.
  Lemma decode_none l : utf8_decode (length l) l = None <-> unreadable l.
  Proof.
    split.
    - intros E (t & H). apply decode_spec in H. congruence.
    - intros H. destruct (utf8_decode (length l) l) as [t|] eqn:E; auto. exfalso. apply H. exists t. apply decode_spec. auto.
  Qed.
  Lemma parse_line_cases n l : (exists e, parse_line rnd lower n (utf8_decode (length l) l) = Ret e /\ line_entry rnd lower n l e) \/
    (parse_line rnd lower n (utf8_decode (length l) l) = Panic /\ bad_line rnd l).
  Proof.
    destruct (utf8_decode (length l) l) as [t|] eqn:E.
    - apply decode_spec in E as [Hs Hu]. cbn [parse_line]. assert (R : parse_cgd_line rnd t <> Timeout) by (unfold parse_cgd_line; destruct (line_p rnd t); discriminate).
      destruct (parse_cgd_line rnd t) as [[[rest fs]|]| |] eqn:P; cbn [bind]; [| | |congruence].
      + left. rewrite ending_eq. destruct fs as [|f fs]; [eexists; split; [reflexivity|]; apply entry_empty; auto|].
        destruct f as [q|z|x|k|s]; eexists; (split; [reflexivity|]); first [apply entry_keyed; solve [auto]|apply entry_data; auto; discriminate].
      + left. eexists. split; [reflexivity|]. apply entry_failed; auto.
      + right. split; auto. exists t. auto.
    - apply decode_none in E. left. eexists. split; [reflexivity|]. apply entry_unreadable. auto.
  Qed.
  Lemma parse_line_complete n l e : line_entry rnd lower n l e -> parse_line rnd lower n (utf8_decode (length l) l) = Ret e.
  Proof.
    assert (D : forall t, Forall scalar t -> utf8 t = l -> utf8_decode (length l) l = Some t) by (intros; apply decode_spec; auto).
    intros [U|t Hs Hu P|t rest Hs Hu P|t rest k fs Hs Hu P|t rest f fs Hs Hu P Nk].
    - rewrite (proj2 (decode_none l) U). reflexivity.
    - rewrite (D t Hs Hu). cbn [parse_line]. rewrite P. reflexivity.
    - rewrite (D t Hs Hu). cbn [parse_line]. rewrite P. cbn [bind]. rewrite ending_eq. reflexivity.
    - rewrite (D t Hs Hu). cbn [parse_line]. rewrite P. cbn [bind]. rewrite ending_eq. reflexivity.
    - rewrite (D t Hs Hu). cbn [parse_line]. rewrite P. cbn [bind]. rewrite ending_eq. destruct f; try reflexivity. exfalso. eapply Nk. eauto.
  Qed.
  Definition decoded (ls : list (list N)) := map (fun l => utf8_decode (length l) l) ls.
  Lemma parse_from_cases ls : forall n, (exists es, parse_from rnd lower n (decoded ls) = Ret es /\ numbered_entries rnd lower n ls es) \/
    (parse_from rnd lower n (decoded ls) = Panic /\ exists l, In l ls /\ bad_line rnd l).
  Proof.
    induction ls as [|l ls IH]; intros n.
    - left. exists []. split; [reflexivity|constructor].
    - cbn [decoded map parse_from]. destruct (parse_line_cases n l) as [(e & -> & He)|(-> & Hb)]; cbn [bind].
      + destruct (IH (S n)) as [(es & E & Hes)|(E & l' & Hl & Hb)]; unfold decoded in E; rewrite E; cbn [bind].
        * left. eexists. split; [reflexivity|]. constructor; auto.
        * right. split; auto. exists l'. split; auto. right; auto.
      + right. split; auto. exists l. split; auto. left; auto.
  Qed.
  Lemma parse_from_complete n ls es : numbered_entries rnd lower n ls es -> parse_from rnd lower n (decoded ls) = Ret es.
  Proof. induction 1 as [n|n l ls e es He _ IH]; [reflexivity|]. cbn [decoded map parse_from]. rewrite (parse_line_complete n l e He). cbn [bind]. unfold decoded in IH. rewrite IH. reflexivity. Qed.
End Lines.

(** ** blocks *)
Section Blocks.
  Variable lower : text -> text.
  (** kinds of entries; the key of an entry is put in lower case once more *)
  Definition silent (e : entry) : Prop := kind e = Empty /\ notes e = [].
  Definition remark (e : entry) : Prop := kind e = Error \/ (kind e = Empty /\ notes e <> []).
  Definition unkeyed (e : entry) : Prop := kind e = Data /\ key e = None.
  Definition keyed (e : entry) (k : text) : Prop := kind e = Data /\ exists s, key e = Some s /\ k = lower s.
  Definition end_line (e : entry) : Prop := keyed e (str "end").
  Definition other_line (e : entry) (k : text) : Prop := keyed e k /\ k <> str "end".

  (** an entry with another kind and key, and more notes *)
  Definition amended (t : entry_type) (k : option text) (ns : list note) (e : entry) : entry :=
    Entry t k (fields e) (notes e ++ ns) (line_number e) (content e).
  Definition if_two_fields (e : entry) (n : note) : list note := if 2 <=? length (fields e) then [n] else [].
  (** lines outside of blocks; k is the last key of the block before *)
  Inductive outside (k : option text) : list entry -> list entry -> Prop :=
  | outside_none : outside k [] []
  | outside_silent e es es' : silent e -> outside k es es' -> outside k (e :: es) es'
  | outside_remark e es es' : remark e -> outside k es es' -> outside k (e :: es) (e :: es')
  | outside_data e es es' : unkeyed e -> outside k es es' -> outside k (e :: es) (amended Data k [DataBeforeBlock] e :: es').
  (** lines between begin and end: data without key gets the last key before it; k and k' are the last keys before and after *)
  Inductive inside : option text -> list entry -> list entry -> option text -> Prop :=
  | inside_none k : inside k [] [] k
  | inside_silent k e es es' k' : silent e -> inside k es es' k' -> inside k (e :: es) es' k'
  | inside_remark k e es es' k' : remark e -> inside k es es' k' -> inside k (e :: es) (e :: es') k'
  | inside_data k e es es' k' : unkeyed e -> inside k es es' k' -> inside k (e :: es) (amended Data k [] e :: es') k'
  | inside_keyed k e s es es' k' : other_line e s -> inside (Some s) es es' k' -> inside k (e :: es) (amended Data (Some s) [] e :: es') k'.
  (** the blocks of a file *)
  Inductive file_blocks : option text -> list entry -> list block -> Prop :=
  | file_end k es es' : outside k es es' -> file_blocks k es []
  | file_block k pre pre' b t mid mid' k' e rest bs : outside k pre pre' -> other_line b t -> inside None mid mid' k' -> end_line e -> file_blocks k' rest bs ->
      file_blocks k (pre ++ b :: mid ++ e :: rest)
        (Block t (line_number b) (line_number e)
          (pre' ++ amended Begin (Some t) (if_two_fields b TextAfterType) b :: mid' ++ [amended End (Some (str "end")) (if_two_fields e TextAfterEnd) e]) :: bs)
  | file_void k pre pre' e rest bs : outside k pre pre' -> end_line e -> file_blocks k rest bs ->
      file_blocks k (pre ++ e :: rest)
        (Block (str "--void--") (line_number e) (line_number e) (pre' ++ [amended End (Some (str "end")) (VoidBlock :: if_two_fields e TextAfterEnd) e]) :: bs)
  | file_open k pre pre' b t mid mid' k' init last : outside k pre pre' -> other_line b t -> inside None mid mid' k' ->
      amended Begin (Some t) (if_two_fields b TextAfterType) b :: mid' = init ++ [last] ->
      file_blocks k (pre ++ b :: mid) [Block t (line_number b) (line_number last) (pre' ++ init ++ [amended (kind last) (key last) [MissingEnd] last])].

  Definition with_entries (b : block) (es : list entry) : block := Block (block_type b) (lineno_start b) (lineno_end b) es.
  Lemma with_self b : with_entries b (entries b) = b. Proof. destruct b; auto. Qed.
  Lemma push_with e b es : with_entries (push e b) (entries (push e b) ++ es) = with_entries b (entries b ++ e :: es).
  Proof. unfold with_entries, push. cbn. rewrite <- app_assoc. reflexivity. Qed.
  Lemma silent_step st e : silent e -> block_step lower st e = st.
  Proof. destruct st as [[[bs c] k] i]. intros [K N]. unfold block_step. rewrite K, N. reflexivity. Qed.
  Lemma remark_step bs c k i e : remark e -> block_step lower (bs, c, k, i) e = (bs, push e c, k, i).
  Proof. intros [K|[K N]]; unfold block_step; rewrite K; auto. destruct (notes e); [congruence|reflexivity]. Qed.
  Lemma amended_none e t k ns : amended t k ns e = Entry t k (fields e) (notes e ++ ns) (line_number e) (content e). Proof. reflexivity. Qed.
  Lemma amended_no_notes e t k : amended t k [] e = Entry t k (fields e) (notes e) (line_number e) (content e). Proof. unfold amended. rewrite app_nil_r. reflexivity. Qed.
  Lemma outside_fold k es es' : outside k es es' -> forall bs c, fold_left (block_step lower) es (bs, c, k, false) = (bs, with_entries c (entries c ++ es'), k, false).
  Proof.
    induction 1 as [|e es es' H _ IH|e es es' H _ IH|e es es' [K N] _ IH]; intros bs c; cbn [fold_left].
    - rewrite app_nil_r, with_self. reflexivity.
    - rewrite silent_step by auto. apply IH.
    - rewrite remark_step by auto. rewrite IH, push_with. reflexivity.
    - unfold block_step at 2. rewrite K, N. cbn [negb]. rewrite IH, push_with. unfold amended, add_note, set_key. cbn. rewrite K. reflexivity.
  Qed.
  Lemma inside_fold k es es' k' : inside k es es' k' -> forall bs c, fold_left (block_step lower) es (bs, c, k, true) = (bs, with_entries c (entries c ++ es'), k', true).
  Proof.
    induction 1 as [k|k e es es' k' H _ IH|k e es es' k' H _ IH|k e es es' k' [K N] _ IH|k e s es es' k' [[K (s0 & N & ->)] Ne] _ IH]; intros bs c; cbn [fold_left].
    - rewrite app_nil_r, with_self. reflexivity.
    - rewrite silent_step by auto. apply IH.
    - rewrite remark_step by auto. rewrite IH, push_with. reflexivity.
    - unfold block_step at 2. rewrite K, N. cbn [negb]. rewrite IH, push_with, amended_no_notes. unfold set_key. rewrite K. reflexivity.
    - unfold block_step at 2. rewrite K, N. destruct (list_eq_dec N.eq_dec (lower s0) (str "end")); [congruence|]. cbn [negb]. rewrite IH, push_with, amended_no_notes. unfold set_key. rewrite K. reflexivity.
  Qed.
  Lemma two_eq e : (1 <? length (fields e)) = (2 <=? length (fields e)). Proof. reflexivity. Qed.
  Lemma begin_step bs c k e t : other_line e t ->
    block_step lower (bs, c, k, false) e = (bs, Block t (line_number e) (lineno_end c) (entries c ++ [amended Begin (Some t) (if_two_fields e TextAfterType) e]), None, true).
  Proof.
    intros [[K (s & N & ->)] Ne]. unfold block_step. rewrite K, N. destruct (list_eq_dec N.eq_dec (lower s) (str "end")); [congruence|]. cbn [negb]. rewrite two_eq.
    unfold push, if_two_fields. cbn [block_type lineno_start lineno_end entries]. destruct (2 <=? length (fields e)); [reflexivity|rewrite amended_no_notes; reflexivity].
  Qed.
  Lemma end_step bs c k e i : end_line e -> exists c', block_step lower (bs, c, k, i) e = (bs ++ [c'], block_new, k, false) /\
    c' = if i then Block (block_type c) (lineno_start c) (line_number e) (entries c ++ [amended End (Some (str "end")) (if_two_fields e TextAfterEnd) e])
         else Block (str "--void--") (line_number e) (line_number e) (entries c ++ [amended End (Some (str "end")) (VoidBlock :: if_two_fields e TextAfterEnd) e]).
  Proof.
    intros [K (s & N & E)]. eexists. split; [unfold block_step; rewrite K, N; destruct (list_eq_dec N.eq_dec (lower s) (str "end")); [reflexivity|congruence]|].
    rewrite two_eq, <- E. unfold push, if_two_fields, amended, add_note, set_kind, set_key.
    destruct i; destruct (2 <=? length (fields e)); cbn [block_type lineno_start lineno_end entries fields notes line_number content kind key]; rewrite ?app_nil_r, <- ?app_assoc; reflexivity.
  Qed.
  Lemma blocks_fold k es bs : file_blocks k es bs -> forall before, finish (fold_left (block_step lower) es (before, block_new, k, false)) = Ret (before ++ bs).
  Proof.
    induction 1 as [k es es' Ho|k pre pre' b t mid mid' k' e rest bs Ho Hb Hi He _ IH|k pre pre' e rest bs Ho He _ IH|k pre pre' b t mid mid' k' init last Ho Hb Hi E]; intros before.
    - rewrite (outside_fold _ _ _ Ho). cbn [finish]. rewrite app_nil_r. reflexivity.
    - rewrite fold_left_app, (outside_fold _ _ _ Ho). cbn [fold_left]. rewrite (begin_step _ _ _ _ _ Hb), fold_left_app, (inside_fold _ _ _ _ Hi). cbn [fold_left].
      match goal with |- context [block_step lower (?bs, ?c, ?k, true) e] => destruct (end_step bs c k e true He) as (c' & -> & ->) end.
      rewrite IH, <- app_assoc. unfold with_entries, block_new. cbn [block_type lineno_start lineno_end entries app]. do 4 f_equal. rewrite <- !app_assoc. reflexivity.
    - rewrite fold_left_app, (outside_fold _ _ _ Ho). cbn [fold_left].
      match goal with |- context [block_step lower (?bs, ?c, ?k, false) e] => destruct (end_step bs c k e false He) as (c' & -> & ->) end.
      rewrite IH, <- app_assoc. reflexivity.
    - rewrite fold_left_app, (outside_fold _ _ _ Ho). cbn [fold_left]. rewrite (begin_step _ _ _ _ _ Hb), (inside_fold _ _ _ _ Hi). unfold with_entries, block_new. cbn [block_type lineno_start lineno_end entries app finish].
      rewrite <- app_assoc. cbn [app]. rewrite E, app_assoc, rev_app_distr. cbn [rev app]. rewrite rev_involutive, <- app_assoc. unfold add_note, amended. reflexivity.
  Qed.
  (** every list of entries made by parse_lines has such blocks *)
  Definition plain_entry (e : entry) : Prop := kind e <> Begin /\ kind e <> End.
  Lemma entry_cases e : plain_entry e -> silent e \/ remark e \/ unkeyed e \/ exists k, keyed e k.
  Proof.
    intros [H1 H2]. destruct (kind e) eqn:K; try congruence.
    - destruct (key e) as [s|] eqn:E; [|right; right; left; split; auto]. right. right. right. exists (lower s). split; auto. exists s; auto.
    - destruct (notes e) eqn:N; [left; split; auto|]. right. left. right. split; auto. congruence.
    - right. left. left. auto.
  Qed.
  Lemma split_outside ck es : Forall plain_entry es -> exists pre pre', outside ck pre pre' /\ (es = pre \/ exists e k rest, keyed e k /\ es = pre ++ e :: rest).
  Proof.
    induction 1 as [|e es He _ (pre & pre' & Ho & IH)]; [exists [], []; split; [constructor|auto]|].
    destruct (entry_cases e He) as [H|[H|[H|(k & H)]]].
    - exists (e :: pre), pre'. split; [apply outside_silent; auto|]. destruct IH as [->|(e' & k & rest & K & ->)]; [left; auto|right]. exists e', k, rest. auto.
    - exists (e :: pre), (e :: pre'). split; [apply outside_remark; auto|]. destruct IH as [->|(e' & k & rest & K & ->)]; [left; auto|right]. exists e', k, rest. auto.
    - exists (e :: pre). eexists. split; [apply outside_data; eauto|]. destruct IH as [->|(e' & k & rest & K & ->)]; [left; auto|right]. exists e', k, rest. auto.
    - exists [], []. split; [constructor|]. right. exists e, k, es. auto.
  Qed.
  Lemma split_inside es : Forall plain_entry es -> forall ck, exists mid mid' k', inside ck mid mid' k' /\ (es = mid \/ exists e rest, end_line e /\ es = mid ++ e :: rest).
  Proof.
    induction 1 as [|e es He _ IH]; intros ck; [exists [], [], ck; split; [constructor|auto]|].
    assert (G : forall ck' m, (forall mid mid' k', inside ck' mid mid' k' -> exists mid'', inside ck (e :: mid) mid'' k') -> m = es -> exists mid mid' k', inside ck mid mid' k' /\ (e :: es = mid \/ exists e' rest, end_line e' /\ e :: es = mid ++ e' :: rest)).
    { intros ck' m G _. destruct (IH ck') as (mid & mid' & k' & Hi & C). destruct (G _ _ _ Hi) as (mid'' & Hi'). exists (e :: mid), mid'', k'. split; auto.
      destruct C as [->|(e' & rest & K & ->)]; [left; auto|right]. exists e', rest. auto. }
    destruct (entry_cases e He) as [H|[H|[H|(k & H)]]].
    - apply (G ck es); auto. intros mid mid' k' Hi. eexists. apply inside_silent; eauto.
    - apply (G ck es); auto. intros mid mid' k' Hi. eexists. apply inside_remark; eauto.
    - apply (G ck es); auto. intros mid mid' k' Hi. eexists. apply inside_data; eauto.
    - destruct (list_eq_dec N.eq_dec k (str "end")) as [->|Ne].
      + exists [], [], ck. split; [constructor|]. right. exists e, es. auto.
      + apply (G (Some k) es); auto. intros mid mid' k' Hi. eexists. apply inside_keyed; eauto. split; eauto.
  Qed.
  Lemma file_blocks_exist : forall n ck es, length es <= n -> Forall plain_entry es -> exists bs, file_blocks ck es bs.
  Proof.
    induction n as [|n IH]; intros ck es L F.
    - destruct es; [|cbn in L; lia]. exists []. eapply file_end. constructor.
    - destruct (split_outside ck es F) as (pre & pre' & Ho & [->|(b & k & rest & K & ->)]); [exists []; eapply file_end; eauto|].
      rewrite app_length in L. cbn [length] in L. apply Forall_app in F as [_ F]. inversion F as [|? ? Fb Fr]; subst. destruct (list_eq_dec N.eq_dec k (str "end")) as [->|Ne].
      + destruct (IH ck rest) as (bs & H); [lia|auto|]. eexists. apply file_void; eauto.
      + destruct (split_inside rest Fr None) as (mid & mid' & k' & Hi & [->|(e & rest' & He & ->)]).
        * destruct (@exists_last _ (amended Begin (Some k) (if_two_fields b TextAfterType) b :: mid')) as (init & last & E); [discriminate|]. assert (Hb : other_line b k) by (split; auto). eexists. eapply file_open; eauto.
        * rewrite app_length in L. cbn [length] in L. apply Forall_app in Fr as [_ Fr]. inversion Fr as [|? ? Fe Fr']; subst. destruct (IH k' rest') as (bs & H); [lia|auto|]. assert (Hb : other_line b k) by (split; auto). eexists. eapply file_block; eauto.
  Qed.

  (** ** what is kept *)
  (** the same line, perhaps with another key and more notes *)
  Definition same_line (e e' : entry) : Prop := fields e' = fields e /\ line_number e' = line_number e /\ content e' = content e /\ exists ns, notes e' = notes e ++ ns.
  Definition visible (e : entry) : bool := match kind e, notes e with Empty, [] => false | _, _ => true end.
  Lemma same_refl e : same_line e e. Proof. unfold same_line. splits; auto. exists []. rewrite app_nil_r. auto. Qed.
  Lemma same_amended e t k ns : same_line e (amended t k ns e). Proof. unfold same_line. splits; auto. exists ns. reflexivity. Qed.
  Lemma silent_visible e : silent e -> visible e = false. Proof. intros [K N]. unfold visible. rewrite K, N. auto. Qed.
  Lemma remark_visible e : remark e -> visible e = true. Proof. unfold visible. intros [K|[K N]]; rewrite K; auto. destruct (notes e); congruence. Qed.
  Lemma data_visible e : kind e = Data -> visible e = true. Proof. unfold visible. intros K. rewrite K. auto. Qed.
  Lemma outside_kept k es es' : outside k es es' -> Forall2 same_line (filter visible es) es'.
  Proof.
    induction 1 as [|e es es' H _ IH|e es es' H _ IH|e es es' [K N] _ IH]; cbn [filter]; auto.
    - rewrite silent_visible by auto. auto.
    - rewrite remark_visible by auto. constructor; auto. apply same_refl.
    - rewrite data_visible by auto. constructor; auto. apply same_amended.
  Qed.
  Lemma inside_kept k es es' k' : inside k es es' k' -> Forall2 same_line (filter visible es) es'.
  Proof.
    induction 1 as [k|k e es es' k' H _ IH|k e es es' k' H _ IH|k e es es' k' [K N] _ IH|k e s es es' k' [[K _] _] _ IH]; cbn [filter]; auto.
    - rewrite silent_visible by auto. auto.
    - rewrite remark_visible by auto. constructor; auto. apply same_refl.
    - rewrite data_visible by auto. constructor; auto. apply same_amended.
    - rewrite data_visible by auto. constructor; auto. apply same_amended.
  Qed.
  Lemma outside_unkeyed k es es' : outside k es es' -> Forall (fun e => kind e = Data -> key e = None) es.
  Proof. induction 1 as [|e es es' [K _] _ IH|e es es' H _ IH|e es es' [K N] _ IH]; constructor; auto; try congruence. destruct H as [K|[K _]]; congruence. Qed.
  Lemma same_trans a b c : same_line a b -> same_line b c -> same_line a c.
  Proof. intros (F1 & L1 & C1 & n1 & N1) (F2 & L2 & C2 & n2 & N2). unfold same_line. splits; try congruence. exists (n1 ++ n2). rewrite N2, N1, app_assoc. reflexivity. Qed.
  Lemma file_kept k es bs : file_blocks k es bs -> exists used dropped, es = used ++ dropped /\ Forall2 same_line (filter visible used) (concat (map entries bs)) /\
    Forall (fun e => kind e = Data -> key e = None) dropped /\ (dropped = [] \/ used = [] \/ exists u e, used = u ++ [e] /\ end_line e).
  Proof.
    induction 1 as [k es es' Ho|k pre pre' b t mid mid' k' e rest bs Ho Hb Hi He _ IH|k pre pre' e rest bs Ho He _ IH|k pre pre' b t mid mid' k' init last Ho Hb Hi E].
    - exists [], es. splits; auto; [constructor|apply (outside_unkeyed _ _ _ Ho)].
    - destruct IH as (used & dropped & -> & F & D & U). exists (pre ++ b :: mid ++ e :: used), dropped. splits; auto.
      + rewrite <- app_assoc. cbn [app]. rewrite <- app_assoc. reflexivity.
      + rewrite filter_app. cbn [filter map concat entries]. rewrite <- app_assoc. apply Forall2_app; [eapply outside_kept; eauto|].
        rewrite data_visible by apply Hb. cbn [app]. constructor; [apply same_amended|]. rewrite filter_app, <- app_assoc. cbn [filter]. apply Forall2_app; [eapply inside_kept; eauto|].
        rewrite data_visible by apply He. cbn [app]. constructor; [apply same_amended|auto].
      + destruct U as [->|[->|(u & x & -> & U)]]; [left; auto| |]; right; right.
        * exists (pre ++ b :: mid), e. split; auto. rewrite <- app_assoc. reflexivity.
        * exists (pre ++ b :: mid ++ e :: u), x. split; auto. rewrite <- app_assoc. cbn [app]. rewrite <- app_assoc. reflexivity.
    - destruct IH as (used & dropped & -> & F & D & U). exists (pre ++ e :: used), dropped. splits; auto.
      + rewrite <- app_assoc. reflexivity.
      + rewrite filter_app. cbn [filter map concat entries]. rewrite <- app_assoc. apply Forall2_app; [eapply outside_kept; eauto|].
        rewrite data_visible by apply He. cbn [app]. constructor; [apply same_amended|auto].
      + destruct U as [->|[->|(u & x & -> & U)]]; [left; auto| |]; right; right.
        * exists pre, e. split; auto.
        * exists (pre ++ e :: u), x. split; auto. rewrite <- app_assoc. reflexivity.
    - exists (pre ++ b :: mid), []. splits; auto; [rewrite app_nil_r; auto|]. cbn [map concat entries]. rewrite app_nil_r, filter_app. cbn [filter]. rewrite data_visible by apply Hb.
      apply Forall2_app; [eapply outside_kept; eauto|].
      assert (G : Forall2 same_line (b :: filter visible mid) (init ++ [last])). { rewrite <- E. constructor; [apply same_amended|eapply inside_kept; eauto]. }
      apply Forall2_app_inv_r in G as (l1 & l2 & G1 & G2 & ->). apply Forall2_app; auto. inversion G2 as [|x y ? ? S2 G3]; subst. inversion G3; subst. constructor; [|constructor]. eapply same_trans; [eauto|apply same_amended].
  Qed.
End Blocks.
