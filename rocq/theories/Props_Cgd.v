(** C54, C55, C56, C59: reading cgd files.

    The parameters rnd (rounding to f64; None if too large) and lower (str::to_lowercase) are arbitrary functions.
    The specification is in CgdGrammar.v (lines, UTF-8, texts of fields) and in the first part of CgdBlocks.v. *)
From Coq Require Import String Ascii List ZArith NArith Lia Bool PeanoNat QArith Qcanon.
From Verif Require Import Base Scalars ZQ Text ParseOp OpGrammar Cgd CgdGrammar CgdLine CgdFields CgdText CgdBlocks.
Import ListNotations.
Close Scope Q_scope. Close Scope Qc_scope.
Local Open Scope list_scope.
Open Scope nat_scope.

(** instances of the parameters for examples: no rounding, and only ASCII letters in lower case *)
Definition exact (q : Qc) : option Qc := Some q.
Definition ascii_lower (t : text) : text := map lower_ascii t.

(** ** C59: lines *)
(** The result is one of these: fields denoted by a text at the start of the line, with blanks around it and perhaps a comment; what is left
    starts neither with a blank nor with a comment. Or an error, only if the line has a number followed by an e or E and no exponent.
    Or a panic, only if the line has a fraction with denominator 0. *)
Theorem C59_sound rnd i :
  (exists rest fs b1 u b2 cm, parse_cgd_line rnd i = Ret (Some (rest, fs)) /\ i = b1 ++ u ++ b2 ++ cm ++ rest /\ blanks b1 /\ blanks b2 /\ content_text rnd u fs /\ comment_text cm /\
     (cm <> [] -> rest = []) /\ forall c r, rest = c :: r -> ~ blank c /\ c <> chr "#") \/
  (parse_cgd_line rnd i = Ret None /\ cut_exponent i) \/
  (parse_cgd_line rnd i = Panic /\ zero_quotient i).
Proof.
  destruct (line_cases rnd i) as [(rest & fs & b1 & u & b2 & cm & H1 & H2 & H3 & H4 & H5 & H6 & H7 & H8 & H9)|H]; [left|right; auto].
  exists rest, fs, b1, u, b2, cm. splits; auto. intros c r ->. cbn [OpParse.starts] in H8, H9. split.
  - intros B. unfold is_blank in H9. apply orb_false_iff in H9 as [B1 B2]. apply N.eqb_neq in B1. apply N.eqb_neq in B2. destruct B; subst; congruence.
  - intros ->. discriminate H8.
Qed.
(** Lines of which the whole text is an optional key and fields that cannot be taken for something else, and perhaps a comment, are read completely. *)
Theorem C59_complete rnd b1 u fs b2 cm : blanks b1 -> clear_content rnd u fs -> blanks b2 -> comment_text cm ->
  parse_cgd_line rnd (b1 ++ u ++ b2 ++ cm) = Ret (Some ([], fs)).
Proof. apply line_complete. Qed.
Print Assumptions C59_sound.
Print Assumptions C59_complete.
(** If rounding keeps the integers in the range of i32, these are read exactly. *)
Theorem C59_integers rnd sg k ds n : (forall m, i32_range m -> rnd (ZQ m) = Some (ZQ m)) -> sign_text sg k -> numeral ds n -> i32_range (k * n) ->
  parse_cgd_line rnd (sg ++ ds) = Ret (Some ([], [Int (k * n)])).
Proof.
  intros Hr Hs Hd Hi. assert (T : number_text (sg ++ ds) (ZQ (k * n))).
  { replace (sg ++ ds) with (sg ++ ds ++ []) by (rewrite app_nil_r; reflexivity). replace (ZQ (k * n)) with (ZQ (k * n) * ten_to (0 - Z.of_nat 0))%Qc by (cbn [ten_to Z.sub Z.of_nat Z.add Z.opp]; ring).
    apply (number_parts sg k ds n 0 [] 0); auto; constructor; auto. }
  pose proof (C59_complete rnd [] (sg ++ ds) [Int (k * n)] [] []) as C. cbn [app] in C. rewrite app_nil_r in C. apply C; try constructor; auto.
  - constructor. eapply clear_number; eauto. apply number_int; auto.
  - assert (F : forall c d, digit c d -> ~ letter c). { intros c d (D1 & ->) L. unfold letter in L. lia. }
    assert (G : forall ds n, numeral ds n -> forall c r, ds = c :: r -> exists d, digit c d).
    { clear. induction 1 as [c0 d D|ds n c0 d _ IH D]; intros c r E; [injection E as <- _; eauto|]. destruct ds as [|x ds]; [injection E as <- _; eauto|]. injection E as <- _. eauto. }
    intros c r E L. destruct Hs as [| |]; cbn [app] in E.
    + destruct (G _ _ Hd _ _ E) as (d & D). apply (F _ _ D L).
    + injection E as <- _. unfold letter in L. vm_compute in L. intuition discriminate.
    + injection E as <- _. unfold letter in L. vm_compute in L. intuition discriminate.
Qed.
Print Assumptions C59_integers.
Example C59_example : parse_cgd_line exact (str "  Data 1 two -27/25 +27.25E-3 # four") =
  Ret (Some ([], [Key (str "Data"); Int 1; Name (str "two"); Fraction (ZQ (-27) / ZQ 25)%Qc; Double (Finite (ZQ 2725 / ZQ 100000)%Qc)])).
Proof. vm_compute. do 3 f_equal. Qed.
Example C59_clear_example : clear_content exact (str "Data 1/2 two") [Key (str "Data"); Fraction (ZQ 1 / ZQ 2)%Qc; Name (str "two")] /\
  clear_content exact (str "-7") [Int (-7)] /\ zero_quotient (str "a 1/0") /\ cut_exponent (str "2Edge").
Proof.
  assert (D : forall k, (0 <= k <= 9)%Z -> numeral [Z.to_N (48 + k)] k) by (intros k H; constructor; split; auto). splits.
  - apply (clear_key_fields exact (str "Data") [32%N] (str "1/2 two")); [|repeat constructor; auto|discriminate|].
    + split; [split; [discriminate|repeat constructor; try (intros E; vm_compute in E; intuition discriminate); discriminate]|]. eexists _, _. split; [reflexivity|]. unfold letter. vm_compute. auto. left. split; discriminate.
    + apply (clear_more exact (str "1/2") _ [32%N] (str "two")); [|repeat constructor; auto|discriminate|].
      * apply clear_fraction. apply (quotient_plus (str "1") 1 (str "2") 2); try (apply (D 1%Z); lia); try (apply (D 2%Z); lia); unfold short; cbn; lia.
      * constructor. apply clear_word.
        -- split; [discriminate|repeat constructor; try (intros E; vm_compute in E; intuition discriminate); discriminate].
        -- intros [(sg & k & c & r & d & Sg & (Dg & ->) & E)|(a & r & [H|H] & E)].
           ++ destruct Sg; destruct E as [E|E]; apply (f_equal (hd 0%N)) in E; change (hd 0%N (str "two")) with 116%N in E; cbn [hd app] in E; first [discriminate E|lia].
           ++ inversion H as [|x y ? ? S1 F1]; subst. injection E as <- _. destruct S1; discriminate.
           ++ inversion H as [|x y ? ? S1 F1]; subst. injection E as <- _. destruct S1; discriminate.
  - apply clear_only_fields.
    + constructor. apply (clear_number exact (str "-7") (ZQ (-7))).
      * replace (ZQ (-7)) with (ZQ ((-1) * 7) * ten_to (0 - Z.of_nat 0))%Qc by (cbn [ten_to Z.sub Z.of_nat Z.add Z.opp]; change ((-1) * 7)%Z with (-7)%Z; ring).
        apply (number_parts (str "-") (-1) (str "7") 7 0 [] 0); try constructor. apply (D 7%Z). lia.
      * apply number_int; [reflexivity|]. unfold i32_range. lia.
    + intros c r E. injection E as <- _. intros L. unfold letter in L. vm_compute in L. intuition discriminate.
  - exists (str "a "), (str "1"), 1%Z, (str "0"), []. splits; [apply (D 1%Z); lia|apply (D 0%Z); lia|reflexivity].
  - exists [], (str "2"), 2%Z, 0, (chr "E"), [], 1%Z, (str "dge"). splits; [constructor; apply (D 2%Z); lia|right; left; reflexivity|apply sign_none| |reflexivity].
    intros x d r E (Hd & Hx). injection E as <- _. lia.
Qed.

(** It is not true that a key followed by a word is read as this key and this word: "info" starts like infinity, "2Edge" starts like a number with
    an exponent and spoils the whole line, and a name ends before the letter with number 288 = 256 + 32, as if this letter were a blank. *)
Theorem C59_words_refuted : ~ forall k b s, key_word k -> blanks b -> b <> [] -> s <> [] -> Forall (fun c => scalar c /\ ~ blank c /\ c <> 34%N /\ c <> chr "#") s ->
  parse_cgd_line exact (k ++ b ++ s) = Ret (Some ([], [Key k; Name s])).
Proof.
  intros H. specialize (H (str "data") [32%N] (str "info")).
  assert (K : parse_cgd_line exact (str "data" ++ [32%N] ++ str "info") = Ret (Some ([], [Key (str "data"); Name (str "info")]))); [|vm_compute in K; discriminate K].
  assert (W : forall s, forallb (fun c => negb (N.eqb c 34) && negb (N.eqb c 35) && negb (is_blank (c mod 256)) && (c <? 128)%N && negb (is_blank c)) s = true ->
    Forall (fun c => scalar c /\ ~ blank c /\ c <> 34%N /\ c <> chr "#" /\ ~ blank (c mod 256)%N) s).
  { clear. intros s E. apply Forall_forall. intros c Hc. rewrite forallb_forall in E. specialize (E c Hc). rewrite !andb_true_iff, !negb_true_iff in E. destruct E as ((((E1 & E2) & E3) & E4) & E5).
    assert (B : forall x, is_blank x = false -> ~ blank x). { intros x Hx [->| ->]; discriminate Hx. }
    apply N.eqb_neq in E1. apply N.eqb_neq in E2. apply N.ltb_lt in E4. unfold scalar. splits; auto. left. lia. }
  pose proof (W (str "data") eq_refl) as W1. pose proof (W (str "info") eq_refl) as W2. apply H.
  - split; [split; [discriminate|]|eexists _, _; split; [reflexivity|right; split; discriminate]]. eapply Forall_impl; [|exact W1]. cbn beta. intros c Hc. unfold word_char. intuition.
  - constructor; [left; reflexivity|constructor].
  - discriminate.
  - discriminate.
  - eapply Forall_impl; [|exact W2]. cbn beta. intros c Hc. intuition.
Qed.
Example C59_surprises :
  parse_cgd_line exact (str "data info") = Ret (Some (str "o", [Key (str "data"); Double (Infinite false)])) /\
  parse_cgd_line exact (str "data Nancy") = Ret (Some (str "cy", [Key (str "data"); Double NotANumber])) /\
  parse_cgd_line exact (str "data 2Edge") = Ret None /\
  parse_cgd_line exact (str "data 1/0") = Panic /\
  parse_cgd_line exact (str "name " ++ [65%N; 288%N; 66%N]) = Ret (Some ([288%N; 66%N], [Key (str "name"); Name (str "A")])).
Proof. splits; vm_compute; reflexivity. Qed.

(** ** C54: one entry for each line, with its number and text *)
Theorem C54_lines rnd lower bytes es : parse_lines rnd lower bytes = Ret es <-> exists ls, lines_of bytes ls /\ numbered_entries rnd lower 0 ls es.
Proof.
  unfold parse_lines, input_lines. split.
  - intros E. exists (split_lines [] bytes). pose proof (split_sound bytes [] (fun x => x)) as L. cbn [app] in L. split; auto.
    destruct (parse_from_cases rnd lower (split_lines [] bytes) 0) as [(es' & E' & H)|(E' & _)]; unfold decoded in E'; rewrite E' in E; [injection E as <-; auto|discriminate E].
  - intros (ls & L & H). apply split_complete in L. subst ls. apply parse_from_complete in H. exact H.
Qed.
Theorem C54_panics rnd lower bytes : parse_lines rnd lower bytes = Panic <-> exists ls l, lines_of bytes ls /\ In l ls /\ bad_line rnd l.
Proof.
  split.
  - unfold parse_lines, input_lines. intros E. pose proof (split_sound bytes [] (fun x => x)) as L. cbn [app] in L.
    destruct (parse_from_cases rnd lower (split_lines [] bytes) 0) as [(es' & E' & H)|(E' & l & Hl & Hb)]; unfold decoded in E'; [rewrite E' in E; discriminate E|]. eauto.
  - intros (ls & l & L & Hl & Hb). assert (N : parse_lines rnd lower bytes <> Timeout).
    { unfold parse_lines, input_lines. destruct (parse_from_cases rnd lower (split_lines [] bytes) 0) as [(es' & E' & H)|(E' & _)]; unfold decoded in E'; rewrite E'; discriminate. }
    destruct (parse_lines rnd lower bytes) as [es| |] eqn:E; auto; [|congruence]. exfalso. apply C54_lines in E as (ls' & L' & H).
    apply split_complete in L. apply split_complete in L'. subst ls' ls. clear - Hl Hb H. revert Hl. induction H as [n|n l0 ls e es He _ IH]; intros Hl; [destruct Hl|]. destruct Hl as [->|Hl]; [|auto].
    apply parse_line_complete in He. destruct Hb as (t & Hs & Hu & P). assert (D : utf8_decode (length l) l = Some t) by (apply decode_spec; auto). rewrite D in He. cbn [parse_line] in He. rewrite P in He. discriminate He.
Qed.
(** consequences: the i-th entry has number i and the text of the i-th line, and a note if the line was not read, or not completely *)
Theorem C54_entries rnd lower bytes ls es : lines_of bytes ls -> parse_lines rnd lower bytes = Ret es -> length es = length ls /\
  forall i l e, nth_error ls i = Some l -> nth_error es i = Some e -> line_number e = i /\
    (forall t, content e = Some t <-> Forall scalar t /\ utf8 t = l) /\
    (forall t rest fs, content e = Some t -> parse_cgd_line rnd t = Ret (Some (rest, fs)) -> (rest <> [] <-> In (UnparsedEnding rest) (notes e)) /\ (kind e = Empty <-> fs = []) /\ (kind e <> Error)) /\
    (kind e = Error <-> content e = None \/ exists t, content e = Some t /\ parse_cgd_line rnd t = Ret None).
Proof.
  intros L E. apply C54_lines in E as (ls' & L' & H). apply split_complete in L. apply split_complete in L'. subst ls' ls.
  assert (G : forall n ls es, numbered_entries rnd lower n ls es -> length es = length ls /\ forall i l e, nth_error ls i = Some l -> nth_error es i = Some e -> line_entry rnd lower (n + i) l e).
  { clear. induction 1 as [n|n l ls e es He _ [IH1 IH2]]; [split; auto; intros [|] ? ?; discriminate|]. split; [cbn; lia|]. intros [|i] l' e' El Ee; cbn [nth_error] in El, Ee.
    - injection El as <-. injection Ee as <-. rewrite Nat.add_0_r. auto.
    - rewrite Nat.add_succ_r. apply (IH2 i l' e'); auto. }
  destruct (G _ _ _ H) as [G1 G2]. split; auto. intros i l e El Ee. specialize (G2 i l e El Ee). cbn [plus] in G2.
  assert (U : forall t t', Forall scalar t -> utf8 t = l -> Forall scalar t' -> utf8 t' = l -> t = t').
  { intros t t' H1 H2 H3 H4. assert (A : utf8_decode (length l) l = Some t) by (apply decode_spec; auto). assert (B : utf8_decode (length l) l = Some t') by (apply decode_spec; auto). congruence. }
  assert (N : forall rest, rest <> [] <-> In (UnparsedEnding rest) (ending_notes rest)). { intros [|c r]; cbn; split; auto; try congruence; intros []. }
  destruct G2 as [Ur|t Hs Hu P|t rest Hs Hu P|t rest k fs Hs Hu P|t rest f fs Hs Hu P Nk]; cbn [line_number content kind notes]; (split; [reflexivity|]); (split; [intros t'; split|split]).
  all: try (intros Ht; injection Ht as <-; auto; fail).
  all: try (intros (H1 & H2); f_equal; eapply U; eauto; fail).
  all: try (intros t' rest' fs' Ht P'; injection Ht as <-; rewrite P in P'; injection P' as <- <-; splits; [apply N|split; intros; congruence|discriminate]).
  all: try discriminate.
  - intros (H1 & H2). exfalso. apply Ur. eauto.
  - split; auto.
  - intros t' rest' fs' Ht P'. injection Ht as <-. congruence.
  - split; auto. intros _. right. eauto.
  - split; [discriminate|]. intros [Hn|(t' & Ht & P')]; [discriminate|]. injection Ht as <-. congruence.
  - split; [discriminate|]. intros [Hn|(t' & Ht & P')]; [discriminate|]. injection Ht as <-. congruence.
  - split; [discriminate|]. intros [Hn|(t' & Ht & P')]; [discriminate|]. injection Ht as <-. congruence.
Qed.
Print Assumptions C54_lines.
Print Assumptions C54_panics.
Print Assumptions C54_entries.
Definition newline : text := [10%N].
Example C54_example : parse_lines exact ascii_lower (str "Graph 3" ++ [13%N; 10%N] ++ [255%N] ++ newline ++ newline ++ str "1 2)") =
  Ret [Entry Data (Some (str "graph")) [Int 3] [] 0 (Some (str "Graph 3")); Entry Error None [] [NotReadable] 1 None; Entry Empty None [] [] 2 (Some []);
       Entry Data None [Int 1; Int 2] [UnparsedEnding (str ")")] 3 (Some (str "1 2)"))].
Proof. vm_compute. reflexivity. Qed.

(** ** C55: blocks *)
Lemma plain_lines rnd lower n ls es : numbered_entries rnd lower n ls es -> Forall plain_entry es.
Proof. induction 1 as [n|n l ls e es He _ IH]; constructor; auto. destruct He; split; discriminate. Qed.
(** The result is the list of blocks of the file, as specified in CgdBlocks.v; there are no other panics than those of parse_lines. *)
Theorem C55_blocks rnd lower bytes bs : parse_blocks rnd lower bytes = Ret bs <-> exists es, parse_lines rnd lower bytes = Ret es /\ file_blocks lower None es bs.
Proof.
  unfold parse_blocks, blocks_of. split.
  - intros E. destruct (parse_lines rnd lower bytes) as [es| |] eqn:P; try discriminate E. cbn [bind] in E. exists es. split; auto.
    pose proof P as P'. apply C54_lines in P' as (ls & _ & H). apply plain_lines in H. destruct (file_blocks_exist lower (length es) None es (le_n _) H) as (bs' & F).
    pose proof (blocks_fold lower None es bs' F []) as R. cbn [app] in R. rewrite R in E. injection E as <-. auto.
  - intros (es & -> & F). cbn [bind]. exact (blocks_fold lower None es bs F []).
Qed.
Theorem C55_panics rnd lower bytes : parse_blocks rnd lower bytes = Panic <-> parse_lines rnd lower bytes = Panic.
Proof.
  split; [|intros E; unfold parse_blocks; rewrite E; reflexivity]. intros E. destruct (parse_lines rnd lower bytes) as [es| |] eqn:P; auto; [|unfold parse_blocks in E; rewrite P in E; discriminate E].
  pose proof P as P'. apply C54_lines in P' as (ls & _ & H). apply plain_lines in H. destruct (file_blocks_exist lower (length es) None es (le_n _) H) as (bs & F).
  assert (R : parse_blocks rnd lower bytes = Ret bs) by (apply C55_blocks; eauto). congruence.
Qed.
(** The entries of the blocks, in order, are the lines of the file which are not empty, without the lines after the last end if there is no key among these. *)
Theorem C55_kept rnd lower bytes es bs : parse_lines rnd lower bytes = Ret es -> parse_blocks rnd lower bytes = Ret bs ->
  exists used dropped, es = used ++ dropped /\ Forall2 same_line (filter visible used) (concat (map entries bs)) /\
    Forall (fun e => kind e = Data -> key e = None) dropped /\ (dropped = [] \/ used = [] \/ exists u e, used = u ++ [e] /\ end_line lower e).
Proof. intros E Eb. apply C55_blocks in Eb as (es' & E' & F). rewrite E in E'. injection E' as <-. exact (file_kept lower None es bs F). Qed.
Print Assumptions C55_blocks.
Print Assumptions C55_panics.
Print Assumptions C55_kept.
(** the blocks of the test test_parse_cgd_block, shortened *)
Definition join_lines (ls : list text) : text := flat_map (fun l => l ++ newline) ls.
Example C55_example : parse_blocks exact ascii_lower (join_lines [str "FIRST"; str " Data 1"; str " 3"; str "END"; []; str "123"; str "THIRD"]) =
  Ret [Block (str "first") 0 3
         [Entry Begin (Some (str "first")) [] [] 0 (Some (str "FIRST")); Entry Data (Some (str "data")) [Int 1] [] 1 (Some (str " Data 1"));
          Entry Data (Some (str "data")) [Int 3] [] 2 (Some (str " 3")); Entry End (Some (str "end")) [] [] 3 (Some (str "END"))];
       Block (str "third") 6 6
         [Entry Data (Some (str "data")) [Int 123] [DataBeforeBlock] 5 (Some (str "123")); Entry Begin (Some (str "third")) [] [MissingEnd] 6 (Some (str "THIRD"))]].
Proof. vm_compute. reflexivity. Qed.
(** Not every line that is not empty is in a block: lines after the last end are lost without a note. *)
Theorem C55_nothing_lost_refuted : ~ forall bytes es bs, parse_lines exact ascii_lower bytes = Ret es -> parse_blocks exact ascii_lower bytes = Ret bs ->
  Forall2 same_line (filter visible es) (concat (map entries bs)).
Proof.
  intros H. specialize (H (join_lines [str "FIRST"; str "END"; str "1 2"; str "3/4"])). specialize (H _ _ eq_refl eq_refl). vm_compute in H.
  inversion H as [|? ? ? ? _ H1]; subst. inversion H1 as [|? ? ? ? _ H2]; subst. inversion H2.
Qed.
(** Data before a block should have no key, but it gets the last key of the block before (see C55_example). *)
Theorem C55_stray_data_unkeyed_refuted : ~ forall bytes bs b e, parse_blocks exact ascii_lower bytes = Ret bs -> In b bs -> In e (entries b) -> In DataBeforeBlock (notes e) -> key e = None.
Proof.
  intros H. specialize (H _ _ (Block (str "third") 6 6 [Entry Data (Some (str "data")) [Int 123] [DataBeforeBlock] 5 (Some (str "123")); Entry Begin (Some (str "third")) [] [MissingEnd] 6 (Some (str "THIRD"))])
    (Entry Data (Some (str "data")) [Int 123] [DataBeforeBlock] 5 (Some (str "123"))) C55_example).
  assert (K : Some (str "data") = None); [|discriminate K]. apply H; [right; left; reflexivity|left; reflexivity|left; reflexivity].
Qed.

(** ** C56: warnings about ignored text *)
(** A begin or end entry has the warning exactly if at least two fields follow. *)
Definition no_warnings (e : entry) : Prop := plain_entry e /\ ~ In TextAfterType (notes e) /\ ~ In TextAfterEnd (notes e).
Definition warned (e : entry) : Prop := (kind e = Begin -> (In TextAfterType (notes e) <-> 2 <= length (fields e))) /\ (kind e = End -> (In TextAfterEnd (notes e) <-> 2 <= length (fields e))).
Lemma unwarned_lines rnd lower n ls es : numbered_entries rnd lower n ls es -> Forall no_warnings es.
Proof.
  induction 1 as [n|n l ls e es He _ IH]; constructor; auto. assert (N : forall rest, ~ In TextAfterType (ending_notes rest) /\ ~ In TextAfterEnd (ending_notes rest)).
  { intros [|c r]; cbn; split; intros H; intuition discriminate. }
  destruct He; split; try (split; discriminate); try apply N; cbn [notes In]; intuition discriminate.
Qed.
Lemma two_fields_in e n : In n (if_two_fields e n) <-> 2 <= length (fields e).
Proof. unfold if_two_fields. destruct (Nat.leb_spec 2 (length (fields e))); cbn; split; auto; try lia; intros []. Qed.
Lemma warned_plain e : plain_entry e -> warned e. Proof. intros [H1 H2]. split; congruence. Qed.
Lemma warned_amended e t k ns : t <> Begin -> t <> End -> warned (amended t k ns e). Proof. intros H1 H2. apply warned_plain. split; auto. Qed.
Lemma outside_warned k es es' : outside k es es' -> Forall no_warnings es -> Forall warned es'.
Proof. induction 1 as [|e es es' H _ IH|e es es' H _ IH|e es es' H _ IH]; intros F; auto; inversion F as [|? ? F1 F2]; subst; auto; constructor; auto; [apply warned_plain, F1|apply warned_amended; discriminate]. Qed.
Lemma inside_warned lower k es es' k' : inside lower k es es' k' -> Forall no_warnings es -> Forall warned es'.
Proof.
  induction 1 as [k|k e es es' k' H _ IH|k e es es' k' H _ IH|k e es es' k' H _ IH|k e s es es' k' H _ IH]; intros F; auto; inversion F as [|? ? F1 F2]; subst; auto; constructor; auto;
    [apply warned_plain, F1|apply warned_amended; discriminate|apply warned_amended; discriminate].
Qed.
Lemma begin_warned e k : no_warnings e -> warned (amended Begin k (if_two_fields e TextAfterType) e).
Proof. intros (_ & H1 & H2). split; [|discriminate]. intros _. cbn [amended notes fields]. rewrite in_app_iff, two_fields_in. intuition. Qed.
Lemma end_warned e k : no_warnings e -> warned (amended End k (if_two_fields e TextAfterEnd) e).
Proof. intros (_ & H1 & H2). split; [discriminate|]. intros _. cbn [amended notes fields]. rewrite in_app_iff, two_fields_in. intuition. Qed.
Lemma void_warned e k : no_warnings e -> warned (amended End k (VoidBlock :: if_two_fields e TextAfterEnd) e).
Proof. intros (_ & H1 & H2). split; [discriminate|]. intros _. cbn [amended notes fields]. rewrite in_app_iff. cbn [In]. rewrite two_fields_in. intuition discriminate. Qed.
Lemma missing_warned e : warned e -> warned (amended (kind e) (key e) [MissingEnd] e).
Proof. intros [H1 H2]. split; cbn [amended kind notes fields]; intros K; rewrite in_app_iff; cbn [In]; [rewrite (H1 K)|rewrite (H2 K)]; intuition discriminate. Qed.
Lemma file_warned lower k es bs : file_blocks lower k es bs -> Forall no_warnings es -> Forall (fun b => Forall warned (entries b)) bs.
Proof.
  induction 1 as [k es es' Ho|k pre pre' b t mid mid' k' e rest bs Ho Hb Hi He _ IH|k pre pre' e rest bs Ho He _ IH|k pre pre' b t mid mid' k' init last Ho Hb Hi E]; intros F; constructor.
  - apply Forall_app in F as [F1 F]. inversion F as [|? ? F2 F3]; subst. apply Forall_app in F3 as [F3 F4]. inversion F4 as [|? ? F5 F6]; subst. cbn [entries].
    apply Forall_app. split; [eapply outside_warned; eauto|]. constructor; [apply begin_warned; auto|]. apply Forall_app. split; [eapply inside_warned; eauto|]. constructor; [apply end_warned; auto|constructor].
  - apply Forall_app in F as [F1 F]. inversion F as [|? ? F2 F3]; subst. apply Forall_app in F3 as [F3 F4]. inversion F4 as [|? ? F5 F6]; subst. auto.
  - apply Forall_app in F as [F1 F]. inversion F as [|? ? F2 F3]; subst. cbn [entries]. apply Forall_app. split; [eapply outside_warned; eauto|]. constructor; [apply void_warned; auto|constructor].
  - apply Forall_app in F as [F1 F]. inversion F as [|? ? F2 F3]; subst. auto.
  - apply Forall_app in F as [F1 F]. inversion F as [|? ? F2 F3]; subst. cbn [entries]. apply Forall_app. split; [eapply outside_warned; eauto|].
    assert (G : Forall warned (init ++ [last])). { rewrite <- E. constructor; [apply begin_warned; auto|eapply inside_warned; eauto]. }
    apply Forall_app in G as [G1 G2]. apply Forall_app. split; auto. inversion G2; subst. constructor; [apply missing_warned; auto|constructor].
  - constructor.
Qed.
Theorem C56_warnings rnd lower bytes bs b e : parse_blocks rnd lower bytes = Ret bs -> In b bs -> In e (entries b) ->
  (kind e = Begin -> (In TextAfterType (notes e) <-> 2 <= length (fields e))) /\ (kind e = End -> (In TextAfterEnd (notes e) <-> 2 <= length (fields e))).
Proof.
  intros E Hb He. apply C55_blocks in E as (es & E & F). apply C54_lines in E as (ls & _ & H). apply unwarned_lines in H. pose proof (file_warned _ _ _ _ F H) as W.
  rewrite Forall_forall in W. specialize (W b Hb). rewrite Forall_forall in W. exact (W e He).
Qed.
Print Assumptions C56_warnings.
(** So the warning is missing if one field follows. *)
Theorem C56_one_field_refuted : ~ forall bytes bs b e, parse_blocks exact ascii_lower bytes = Ret bs -> In b bs -> In e (entries b) -> fields e <> [] ->
  (kind e = Begin -> In TextAfterType (notes e)) /\ (kind e = End -> In TextAfterEnd (notes e)).
Proof.
  intros H. specialize (H (join_lines [str "FIRST one"; str "END two"]) _ (Block (str "first") 0 1 [Entry Begin (Some (str "first")) [Name (str "one")] [] 0 (Some (str "FIRST one")); Entry End (Some (str "end")) [Name (str "two")] [] 1 (Some (str "END two"))])
    (Entry Begin (Some (str "first")) [Name (str "one")] [] 0 (Some (str "FIRST one"))) eq_refl).
  destruct H as [H _]; [left; vm_compute; reflexivity|left; reflexivity|discriminate|]. destruct (H eq_refl).
Qed.
Example C56_example : parse_blocks exact ascii_lower (join_lines [str "FIRST one"; str "END two"; str "SECOND one two"; str "END one two"]) =
  Ret [Block (str "first") 0 1 [Entry Begin (Some (str "first")) [Name (str "one")] [] 0 (Some (str "FIRST one")); Entry End (Some (str "end")) [Name (str "two")] [] 1 (Some (str "END two"))];
       Block (str "second") 2 3 [Entry Begin (Some (str "second")) [Name (str "one"); Name (str "two")] [TextAfterType] 2 (Some (str "SECOND one two"));
         Entry End (Some (str "end")) [Name (str "one"); Name (str "two")] [TextAfterEnd] 3 (Some (str "END one two"))]].
Proof. vm_compute. reflexivity. Qed.
