(** Properties C52, C53 and C58: src/spacegroups/parse_operator.rs, and the reading and printing of
    operators in src/spacegroups/parse_table.rs.  The grammar and the meaning of texts are in OpGrammar.v. *)
From Coq Require Import String Ascii List ZArith NArith Lia Bool PeanoNat QArith Qcanon.
From Verif Require Import Base Vec Elim Scalars Matrix LinAlg ZQ Lattices Geometry Props_Geometry Basics Text ParseOp OpGrammar OpParse OpPrint.
Import ListNotations.
Close Scope Q_scope. Close Scope Qc_scope.
Local Open Scope list_scope.
Open Scope nat_scope.

Lemma ends_no_operator b r : blanks b -> ends_operator r -> starts is_blank r = false /\ no_operator (b ++ r).
Proof.
  intros Hb E. assert (K : forall f : N -> bool, (forall c, f c = true -> In c (str " 0123456789xyz+-*/,") \/ c = 9%N) -> starts f r = false).
  { intros f Hf. destruct r as [|c r]; auto. cbn [starts]. destruct (f c) eqn:F; auto. destruct (E c r eq_refl) as [E1 E2]. destruct (Hf c F); contradiction. }
  assert (Sb : starts is_blank r = false). { apply K. intros c H. apply blank_bool in H as [->| ->]; auto. left. cbn. auto. }
  split; auto. unfold no_operator, no_coordinate, no_term, no_frac. assert (K2 : skip (b ++ r) = r) by (apply skip_blanks; auto). rewrite K2.
  assert (S1 : starts is_digit r = false).
  { apply K. intros c H. left. unfold is_digit in H. apply andb_true_iff in H as [H1 H2]. apply N.leb_le in H1, H2. cbn.
    assert (c = 48 \/ c = 49 \/ c = 50 \/ c = 51 \/ c = 52 \/ c = 53 \/ c = 54 \/ c = 55 \/ c = 56 \/ c = 57)%N by lia. intuition. }
  assert (S2 : forall x, In x (str "*/,") -> starts (N.eqb x) r = false). { intros x Hx. apply K. intros c H. apply N.eqb_eq in H as <-. left. cbn in *. intuition. }
  splits.
  - apply starts_blanks; auto.
  - apply S2. cbn. auto.
  - apply starts_blanks; auto. apply S2. cbn. auto.
  - apply K. intros c H. apply axis_letter_bool in H as (k & []); left; cbn; auto 20.
  - apply no_sign_next. rewrite K2. apply K. intros c H. unfold is_sign in H. cbn [existsb] in H. rewrite !orb_true_iff, !N.eqb_eq in H. destruct H as [->|[->|H]]; [left; cbn; auto 20|left; cbn; auto 20|discriminate H].
  - intros r' x Ex. exfalso. destruct (separator_cases (b ++ r)) as [(r2 & x2 & c1 & c2 & _ & B1 & B2 & E2)|[E2 _]]; [|congruence].
    assert (E3 : skip (b ++ r) = [comma] ++ c2 ++ r2) by (rewrite E2; apply skip_blanks; auto). rewrite K2 in E3. assert (S3 : starts (N.eqb comma) r = false) by (apply S2; cbn; auto). rewrite E3 in S3. discriminate S3.
Qed.

(** ** C53 *)
(** what the parser accepts is an operator between blanks, followed by an unparsed rest; the result is what the operator denotes *)
Theorem C53_sound i rest op : parse_operator i = Ret (Some (rest, op)) ->
  exists b1 t b2 cs, i = b1 ++ t ++ b2 ++ rest /\ blanks b1 /\ blanks b2 /\ operator_text t cs /\ Forall sums_fit cs /\ op = meaning cs.
Proof. intros H. apply parse_sound in H as (b1 & t & b2 & cs & H). exists b1, t, b2, cs. tauto. Qed.
(** it accepts every operator whose sums stay in the range of i32, if the text ends there or goes on with a character that cannot continue it *)
Theorem C53_complete b1 t b2 rest cs : blanks b1 -> blanks b2 -> operator_text t cs -> Forall sums_fit cs -> ends_operator rest ->
  parse_operator (b1 ++ t ++ b2 ++ rest) = Ret (Some (rest, meaning cs)).
Proof. intros H1 H2 Ht F E. destruct (ends_no_operator b2 rest H2 E). apply parse_complete; auto. Qed.
(** so a text denotes one operator only *)
Theorem C53_unambiguous t cs cs' : operator_text t cs -> operator_text t cs' -> Forall sums_fit cs -> Forall sums_fit cs' -> meaning cs = meaning cs'.
Proof.
  intros H H' F F'. assert (E : forall cs, operator_text t cs -> Forall sums_fit cs -> parse_operator ([] ++ t ++ [] ++ []) = Ret (Some ([], meaning cs))).
  { intros c Hc Fc. apply C53_complete; auto; try constructor; congruence. }
  pose proof (E cs H F). pose proof (E cs' H' F'). congruence.
Qed.
(** n coordinates give n shifts and n rows of length min(n, 3) *)
Theorem C53_shape i rest rows shifts : parse_operator i = Ret (Some (rest, (rows, shifts))) ->
  0 < length shifts /\ length rows = length shifts /\ (forall r, In r rows -> length r = Nat.min (length shifts) 3) /\ exists pre, i = pre ++ rest.
Proof.
  intros H. apply C53_sound in H as (b1 & t & b2 & cs & -> & _ & _ & H & _ & [= -> ->]). rewrite !map_length. splits; auto.
  - destruct H; cbn; lia.
  - intros r Hr. apply in_map_iff in Hr as (c & <- & _). rewrite map_length, seq_length. auto.
  - exists (b1 ++ t ++ b2). rewrite <- !app_assoc. auto.
Qed.
(** it always returns, except that it panics for some texts with a fraction with denominator 0 *)
Theorem C53_total i : (exists r, parse_operator i = Ret r) \/ (parse_operator i = Panic /\ has_zero i).
Proof.
  destruct (parse_operator i) eqn:E; eauto.
  - right. split; auto. apply parse_panic. auto.
  - exfalso. revert E. unfold parse_operator. destruct (delimited space0 operator_p space0 i); discriminate.
Qed.
(** and it does so if the text begins with one *)
Theorem C53_zero_denominator bs sign b1 a n b2 b3 b rest : blanks bs -> In sign [[]; [chr "+"]; [chr "-"]] -> blanks b1 -> (sign = [] -> b1 = []) ->
  numeral a n -> short a -> blanks b2 -> blanks b3 -> numeral b 0 -> short b -> (forall c t, rest = c :: t -> ~ In c (str "0123456789")) ->
  parse_operator (bs ++ sign ++ b1 ++ a ++ b2 ++ [chr "/"] ++ b3 ++ b ++ rest) = Panic.
Proof.
  intros Hbs Hs H1 Hsign Ha La H2 H3 Hb Lb Hr.
  assert (Sr : starts is_digit rest = false).
  { destruct rest as [|c rest]; auto. cbn [starts]. destruct (is_digit c) eqn:D; auto. exfalso. apply (Hr c rest eq_refl). unfold is_digit in D. apply andb_true_iff in D as [D1 D2]. apply N.leb_le in D1, D2. cbn.
    assert (c = 48 \/ c = 49 \/ c = 50 \/ c = 51 \/ c = 52 \/ c = 53 \/ c = 54 \/ c = 55 \/ c = 56 \/ c = 57)%N by lia. intuition. }
  set (u := a ++ b2 ++ [chr "/"] ++ b3 ++ b ++ rest).
  assert (Eu : u = a ++ (b2 ++ (slash :: (b3 ++ (b ++ rest))))) by reflexivity.
  assert (Su : starts is_digit u = true) by (apply (numeral_starts a n); auto).
  assert (F : unsigned_fraction u = PPanic).
  { rewrite Eu. unfold unsigned_fraction, alt, map_out, separated_pair, pair_. rewrite (integer_complete a n) by (auto; apply starts_blanks; auto). cbn [pbind].
    rewrite space0_app by auto. cbn [pbind]. unfold char_ at 1. change (slash =? chr "/")%N with true. cbn [pbind].
    rewrite space0_app; [|auto|]. 2: { eapply starts_excl; [apply (numeral_starts b 0); auto|apply digit_not_blank]. }
    cbn [pbind]. rewrite (integer_complete b 0) by auto. reflexivity. }
  assert (U : unsigned_term u = PPanic) by (unfold unsigned_term, alt, map_opt, separated_pair; rewrite F; reflexivity).
  assert (T : term_p (sign ++ b1 ++ u) = PPanic).
  { assert (Sb : starts is_blank u = false) by (eapply starts_excl; [exact Su|apply digit_not_blank]).
    destruct Hs as [<-|[<-|[<-|[]]]]; unfold term_p, alt.
    - rewrite Hsign by auto. cbn [app]. rewrite signed_error; [exact U|]. eapply starts_excl; [exact Su|]. intros c Hc. apply first_facts. unfold is_first. rewrite Hc. auto.
    - cbn [app]. unfold signed_term, map_opt, separated_pair. change (sign_p (chr "+" :: b1 ++ u)) with (POk (b1 ++ u) 1%Z). cbn [pbind]. rewrite space0_app by auto. cbn [pbind]. rewrite U. reflexivity.
    - cbn [app]. unfold signed_term, map_opt, separated_pair. change (sign_p (chr "-" :: b1 ++ u)) with (POk (b1 ++ u) (-1)%Z). cbn [pbind]. rewrite space0_app by auto. cbn [pbind]. rewrite U. reflexivity. }
  unfold parse_operator, delimited. rewrite space0_app; [|auto|].
  - cbn [pbind]. unfold operator_p, separated_list1, coordinate_p, map_opt, pair_. rewrite T. reflexivity.
  - destruct Hs as [<-|[<-|[<-|[]]]]; try reflexivity. rewrite Hsign by auto. eapply starts_excl; [exact Su|apply digit_not_blank].
Qed.
Print Assumptions C53_sound.
Print Assumptions C53_complete.
Print Assumptions C53_unambiguous.
Print Assumptions C53_shape.
Print Assumptions C53_total.
Print Assumptions C53_zero_denominator.

Definition half : Qc := (ZQ 1 / ZQ 2)%Qc.
Lemma fits_example : forall c, In c [[(1%Qc, Some 0); ((- (1))%Qc, Some 1); (half, None)]; [(1%Qc, Some 0)]] -> sums_fit c.
Proof.
  intros c Hc pre q a post E.
  assert (S : small q /\ coefficient a pre = 0%Qc).
  { destruct Hc as [<-|[<-|[]]]; repeat (destruct pre as [|? pre]; [injection E as <- <- <-|injection E as <- E]; [split; [vm_compute; split; reflexivity|reflexivity]|]); destruct pre; discriminate E. }
  destruct S as [S ->]. apply small_fits. auto.
Qed.
Example C53_example : parse_operator (str " x-y + 1/2 ,x; rest") = Ret (Some (str "; rest", ([[1; - (1)]; [1; 0]], [half; 0])))%Qc.
Proof.
  pose proof (C53_complete (str " ") (str "x-y + 1/2 ,x") [] (str "; rest") [[(1%Qc, Some 0); ((- (1))%Qc, Some 1); (half, None)]; [(1%Qc, Some 0)]]) as H.
  assert (B : forall t, forallb is_blank t = true -> blanks t) by (intros; apply blanks_bool; auto).
  change (str " x-y + 1/2 ,x; rest") with (str " " ++ str "x-y + 1/2 ,x" ++ [] ++ str "; rest"). rewrite H; auto.
  - unfold meaning. cbn [map length Nat.min seq coefficient fold_right same_axis fst snd Nat.eqb]. repeat first [reflexivity | f_equal; try ring].
  - apply (operator_comma (str "x-y + 1/2") _ (str " ") [] (str "x")); auto.
    + apply (coordinate_unsigned (str "x") _ _ (str "-y + 1/2")); [apply unsigned_axis; constructor|].
      apply (one_more_term [] (str "-y") _ _ (str " + 1/2")); auto; [apply (signed_minus [] (str "y")); [auto|apply unsigned_axis; constructor]|].
      apply (one_more_term (str " ") (str "+ 1/2") _ _ []); auto; [|constructor]. apply (signed_plus (str " ") (str "1/2")); auto. apply unsigned_constant.
      apply (fraction_quotient (str "1") 1 [] [] (str "2") 2); auto; try (apply numeral_one; split; [lia|reflexivity]); try (unfold short; cbn; lia).
    + apply operator_last. apply (coordinate_unsigned (str "x") _ _ []); [apply unsigned_axis; constructor|constructor].
  - apply Forall_forall. apply fits_example.
  - intros c t [= <- _]. cbn. split; [|discriminate]. intros H'. repeat (destruct H' as [H'|H']; [discriminate H'|]). exact H'.
Qed.
(** a fraction with denominator 0 after the part that is read does no harm *)
Example C53_harmless_zero : parse_operator (str "x; 1/0") = Ret (Some (str "; 1/0", ([[1%Qc]], [0%Qc]))).
Proof. vm_compute. reflexivity. Qed.
Example C53_zero_panics : parse_operator (str "x, 1/0") = Panic /\ parse_operator (str "- 1/0") = Panic.
Proof. split; vm_compute; reflexivity. Qed.
(** a number of ten digits is not read, and neither is a sum that leaves the range of i32 *)
Example C53_too_large : parse_operator (str "1234567890") = Ret None /\ parse_operator (str "999999999x+999999999x+999999999x") = Ret None.
Proof. split; vm_compute; reflexivity. Qed.

(** ** C58 *)
(** the matrix and the shift of an operator with n coordinates; the columns are the first n axes *)
Definition denoted (cs : list (list (Qc * option nat))) (op : @affine Qc) : Prop :=
  let n := length cs in affine_map n op /\
  (forall i j, i < n -> j < n -> ent (lin op) i j = coefficient (Some j) (nth i cs [])) /\
  (forall i, i < n -> ent (shift op) i 0 = coefficient None (nth i cs [])).
Lemma from_meaning cs : 0 < length cs -> length cs <= 3 ->
  (do rows <- mapM mat_row (fst (meaning cs)); do a <- vstack rows; do t <- vec_new (snd (meaning cs)); omap Some (aff_new a t)) =
  Ret (Some (am (length cs) (fun i j => coefficient (Some j) (nth i cs [])) (fun i => coefficient None (nth i cs [])))).
Proof.
  intros H0 H3. set (n := length cs). unfold meaning. cbn [fst snd]. fold n. rewrite Nat.min_l by lia.
  pose proof (vstack_rows n (map (fun c => map (fun k => coefficient (Some k) c) (seq 0 n)) cs) H0) as V. unfold bind in V |- *.
  set (rows := map (fun c => map (fun k => coefficient (Some k) c) (seq 0 n)) cs) in *.
  assert (L : lens n rows). { apply Forall_forall. intros r Hr. apply in_map_iff in Hr as (c & <- & _). rewrite map_length, seq_length. auto. }
  assert (Ne : rows <> []). { unfold rows. destruct cs; [cbn in H0; lia|discriminate]. }
  specialize (V L Ne). destruct (mapM mat_row rows) as [ms| |]; [|discriminate V|discriminate V]. rewrite V. rewrite vec_new_cv, map_length. fold n.
  rewrite mrows_mk by auto. assert (length rows = n) as -> by (unfold rows; apply map_length). rewrite aff_new_am. cbn [omap bind]. f_equal. f_equal. unfold am. f_equal.
  - apply mk_ext. intros i j Hi Hj. unfold rows. rewrite (nth_indep _ [] (map (fun k => coefficient (Some k) []) (seq 0 n))) by (rewrite map_length; auto).
    rewrite (map_nth (fun c => map (fun k => coefficient (Some k) c) (seq 0 n))). apply (vget_map_seq n (fun k => coefficient (Some k) (nth i cs []))). auto.
  - apply cv_ext. intros i Hi. unfold vget. rewrite (nth_indep _ r0 (coefficient None [])) by (rewrite map_length; auto). apply (map_nth (coefficient None)).
Qed.
Lemma many_rows cs : 3 < length cs ->
  (do rows <- mapM mat_row (fst (meaning cs)); do a <- vstack rows; do t <- vec_new (snd (meaning cs)); omap Some (aff_new a t)) = Panic.
Proof.
  intros H3. set (n := length cs) in *. unfold meaning. cbn [fst snd]. fold n. rewrite Nat.min_r by lia.
  set (rows := map (fun c => map (fun k => coefficient (Some k) c) (seq 0 3)) cs).
  assert (L : lens 3 rows). { apply Forall_forall. intros r Hr. apply in_map_iff in Hr as (c & <- & _). reflexivity. }
  assert (Ne : rows <> []). { unfold rows. destruct cs; [cbn in H3; lia|discriminate]. }
  assert (V : (do ms <- mapM mat_row rows; vstack ms) = Ret (mrows 3 rows)) by (apply vstack_rows; auto; lia). unfold bind in V |- *.
  destruct (mapM mat_row rows) as [ms| |]; [|discriminate V|discriminate V]. rewrite V. rewrite vec_new_cv, map_length. fold n.
  rewrite mrows_mk by auto. assert (length rows = n) as -> by (unfold rows; apply map_length). unfold aff_new, vdim. cbn [nrows ncols mk cv]. rewrite Nat.eqb_refl. cbn [assert bind].
  destruct (Nat.eqb_spec 3 n); [lia|]. reflexivity.
Qed.
(** from_string returns the operator denoted by the text, whatever follows it in the text; it panics for four or more coordinates *)
Theorem C58_from_string i : match parse_operator i with
  | Ret None => aff_from_string i = Ret None
  | Ret (Some (rest, _)) => exists b1 t b2 cs, i = b1 ++ t ++ b2 ++ rest /\ blanks b1 /\ blanks b2 /\ operator_text t cs /\
      (length cs <= 3 -> exists op, aff_from_string i = Ret (Some op) /\ denoted cs op) /\ (3 < length cs -> aff_from_string i = Panic)
  | _ => aff_from_string i = Panic
  end.
Proof.
  unfold aff_from_string. destruct (parse_operator i) as [[[rest [rows shifts]]|]| |] eqn:E; cbn [bind]; auto.
  2: { exfalso. revert E. unfold parse_operator. destruct (delimited space0 operator_p space0 i); discriminate. }
  apply C53_sound in E as (b1 & t & b2 & cs & -> & H1 & H2 & Ht & F & M). exists b1, t, b2, cs.
  assert (Er : rows = fst (meaning cs)) by (rewrite <- M; auto). assert (Es : shifts = snd (meaning cs)) by (rewrite <- M; auto).
  assert (L : length rows = length shifts) by (rewrite Er, Es; cbn [meaning fst snd]; rewrite !map_length; auto). rewrite L, Nat.eqb_refl. cbn [negb].
  assert (P : 0 < length cs) by (destruct Ht; cbn; lia). splits; auto; intros H3.
  - rewrite Er, Es. rewrite from_meaning by auto. eexists. split; [reflexivity|]. unfold denoted. splits.
    + apply affine_am; eauto.
    + intros a b Ha Hb. cbn [am lin]. rewrite mk_ent; auto.
    + intros a Ha. cbn [am shift]. unfold cv. rewrite mk_ent; auto.
  - rewrite Er, Es. apply many_rows. auto.
Qed.
(** the converse: every operator text with at most three coordinates is read *)
Theorem C58_reads b1 t b2 rest cs : blanks b1 -> blanks b2 -> operator_text t cs -> Forall sums_fit cs -> ends_operator rest -> length cs <= 3 ->
  exists op, aff_from_string (b1 ++ t ++ b2 ++ rest) = Ret (Some op) /\ denoted cs op.
Proof.
  intros H1 H2 Ht F E H3. unfold aff_from_string. rewrite (C53_complete b1 t b2 rest cs) by auto. cbn [bind]. unfold meaning. rewrite !map_length, Nat.eqb_refl. cbn [negb].
  assert (P : 0 < length cs) by (destruct Ht; cbn; lia). pose proof (from_meaning cs P H3) as M. unfold meaning in M. cbn [fst snd] in M. rewrite M. eexists. split; [reflexivity|]. unfold denoted. splits.
  - apply affine_am; eauto.
  - intros a b Ha Hb. cbn [am lin]. rewrite mk_ent; auto.
  - intros a Ha. cbn [am shift]. unfold cv. rewrite mk_ent; auto.
Qed.
Print Assumptions C58_from_string.
Print Assumptions C58_reads.
(** a coordinate change is returned for a text with an invertible matrix; otherwise reading it panics *)
Theorem C58_coordinate_map i : match aff_from_string i with
  | Ret (Some op) => cmap_from_string i = omap Some (cmap_new op)
  | Ret None => cmap_from_string i = Ret None
  | _ => cmap_from_string i = Panic
  end.
Proof.
  unfold cmap_from_string. pose proof (C58_from_string i) as H. destruct (aff_from_string i) as [[op|]| |]; cbn [bind]; auto.
  destruct (parse_operator i) as [[[r x]|]| |]; try discriminate H. destruct H as (b1 & t & b2 & cs & _ & _ & _ & _ & Ha & Hb).
  destruct (le_lt_dec (length cs) 3) as [L|L]; [destruct (Ha L) as (op & Eo & _); discriminate Eo|specialize (Hb L); discriminate Hb].
Qed.
Print Assumptions C58_coordinate_map.
Definition same_outcome (a b : outcome (option (@affine Qc))) : bool :=
  match a, b with Ret (Some f), Ret (Some g) => aff_eqb f g | Ret None, Ret None => true | Panic, Panic => true | _, _ => false end.
(** the rest of the text is not looked at, axes beyond the dimension are dropped, four coordinates panic *)
Example C58_rest_ignored : same_outcome (aff_from_string (str "x,y no operator")) (aff_from_string (str "x,y")) = true /\ same_outcome (aff_from_string (str "x+")) (aff_from_string (str "x")) = true.
Proof. split; vm_compute; reflexivity. Qed.
Example C58_axis_dropped : same_outcome (aff_from_string (str "x+z,y")) (aff_from_string (str "x,y")) = true.
Proof. vm_compute. reflexivity. Qed.
Example C58_four_coordinates : aff_from_string (str "x,y,z,x") = Panic.
Proof. vm_compute. reflexivity. Qed.

(** ** C52 *)
(** printing then reading returns the operator, for operators in dimensions 1 to 3 whose numbers have at most nine digits, if no component of the shift is 1 or -1 *)
Definition nine_digits (q : Qc) : Prop := (Z.abs (Qnum q) < 10 ^ 9)%Z /\ (Z.pos (Qden q) < 10 ^ 9)%Z.
Definition unit_size (q : Qc) : Prop := q = 1%Qc \/ q = (- (1))%Qc.

Lemma qabs_unit q : qabs q = 1%Qc -> unit_size q.
Proof. unfold qabs, unit_size. destruct (Qnum q <? 0)%Z; auto. intros H. right. rewrite <- H. ring. Qed.
Fixpoint joined (ts : list text) : text := match ts with [] => [] | [t] => t | t :: us => t ++ chr "," :: joined us end.
Lemma concat_joined f : forall n k, concat (map (fun i => (if 0 <? i then [chr ","] else []) ++ f i) (seq (S k) n)) = concat (map (fun i => chr "," :: f i) (seq (S k) n)).
Proof. induction n as [|n IH]; intros k; auto. cbn [seq map concat]. rewrite IH. reflexivity. Qed.
Lemma joined_concat (f : nat -> text) n k : joined (map f (seq k (S n))) = f k ++ concat (map (fun i => chr "," :: f i) (seq (S k) n)).
Proof.
  revert k. induction n as [|n IH]; intros k; [cbn; rewrite app_nil_r; auto|]. change (seq k (S (S n))) with (k :: seq (S k) (S n)). cbn [map].
  change (joined (f k :: map f (seq (S k) (S n)))) with (f k ++ chr "," :: joined (map f (seq (S k) (S n)))). rewrite IH. reflexivity.
Qed.
Lemma joined_operator ts cs : ts <> [] -> Forall2 coordinate_text ts cs -> operator_text (joined ts) cs.
Proof.
  intros Ne F. induction F as [|t c ts cs H F IH]; [congruence|]. destruct F as [|t' c' ts' cs' H' F'].
  - constructor. auto.
  - apply (operator_comma t c [] [] (joined (t' :: ts')) (c' :: cs')); auto; try constructor. apply IH. discriminate.
Qed.
Theorem C52_round_trip d op : 1 <= d <= 3 -> affine_map d op ->
  (forall i j, i < d -> j < d -> nine_digits (ent (lin op) i j)) -> (forall i, i < d -> nine_digits (ent (shift op) i 0) /\ ~ unit_size (ent (shift op) i 0)) ->
  exists t, write_op op = Ret (Some t) /\ aff_from_string t = Ret (Some op).
Proof.
  intros Hd Ha Hl Hs. assert (D0 : 0 < d) by lia. apply (affine_am d op D0) in Ha as (f & s & ->). cbn [am lin shift] in Hl, Hs.
  assert (Hf : forall i j, i < d -> j < d -> small (f i j)). { intros i j Hi Hj. specialize (Hl i j Hi Hj). rewrite mk_ent in Hl by auto. exact Hl. }
  assert (Hsh : forall i, i < d -> small (s i) /\ qabs (s i) <> 1%Qc). { intros i Hi. specialize (Hs i Hi). unfold cv in Hs. rewrite mk_ent in Hs by auto. destruct Hs as [Hs1 Hs2]. split; auto. intros E. apply Hs2. apply qabs_unit. auto. }
  set (txt := fun i => write_op_row (frow d f i) (s i)). set (cs := map (fun i => row_terms (frow d f i) (s i)) (seq 0 d)).
  assert (Lf : forall i, length (frow d f i) = d) by (intros; apply frow_length).
  assert (Fs : forall i, i < d -> Forall small (frow d f i)). { intros i Hi. apply Forall_forall. intros q Hq. apply in_map_iff in Hq as (j & <- & Hj). apply in_seq in Hj. apply Hf; lia. }
  exists (joined (map txt (seq 0 d))). split.
  - unfold write_op, aff_dim, vdim. cbn [am shift lin cv mk nrows]. destruct (Nat.ltb_spec 3 d); [lia|].
    rewrite (mapM_Ret _ (fun i => (if 0 <? i then [chr ","] else []) ++ txt i)).
    + cbn [bind]. f_equal. f_equal. destruct d as [|n]; [lia|]. rewrite joined_concat. cbn [seq map concat]. change (if 0 <? 0 then [chr ","] else []) with (@nil N). cbn [app]. f_equal. apply concat_joined.
    + intros i Hi. apply in_seq in Hi. unfold am, cv. cbn [lin shift]. rewrite get_row_mk by lia. cbn [bind]. rewrite index_mk by lia. reflexivity.
  - assert (O : operator_text (joined (map txt (seq 0 d))) cs).
    { apply joined_operator; [destruct d; [lia|discriminate]|]. unfold cs. assert (G : forall l, (forall i, In i l -> i < d) -> Forall2 coordinate_text (map txt l) (map (fun i => row_terms (frow d f i) (s i)) l)).
      { intros l. induction l as [|i l IH]; intros Hi; cbn [map]; constructor; [|apply IH; intros; apply Hi; right; auto]. assert (i < d) by (apply Hi; left; auto). apply row_text; [rewrite Lf; lia|auto|apply Hsh; auto|apply Hsh; auto]. }
      apply G. intros i Hi. apply in_seq in Hi. lia. }
    assert (Fit : Forall sums_fit cs). { apply Forall_forall. intros c Hc. apply in_map_iff in Hc as (i & <- & Hi). apply in_seq in Hi. apply row_fit; [apply Fs; lia|apply Hsh; lia]. }
    assert (Lc : length cs = d) by (unfold cs; rewrite map_length, seq_length; auto).
    assert (P : parse_operator (joined (map txt (seq 0 d))) = Ret (Some ([], meaning cs))).
    { pose proof (C53_complete [] (joined (map txt (seq 0 d))) [] [] cs) as C. cbn [app] in C. rewrite app_nil_r in C. apply C; auto; try constructor; congruence. }
    unfold aff_from_string. rewrite P. cbn [bind]. unfold meaning. rewrite !map_length, Nat.eqb_refl. cbn [negb].
    pose proof (from_meaning cs) as M. unfold meaning in M. cbn [fst snd] in M. rewrite M by lia. rewrite Lc. f_equal. f_equal. unfold am. f_equal.
    + apply mk_ext. intros i j Hi Hj. unfold cs. rewrite (nth_indep _ [] (row_terms (frow d f 0) (s 0))) by (rewrite map_length, seq_length; auto).
      rewrite (map_nth (fun i => row_terms (frow d f i) (s i))), seq_nth by auto. cbn [plus].
      rewrite (proj1 (row_coefficient (frow d f i) (s i) ltac:(rewrite Lf; lia))) by (rewrite Lf; auto). change (vget (frow d f i) j = f i j). apply vget_frow. auto.
    + apply cv_ext. intros i Hi. unfold cs. rewrite (nth_indep _ [] (row_terms (frow d f 0) (s 0))) by (rewrite map_length, seq_length; auto).
      rewrite (map_nth (fun i => row_terms (frow d f i) (s i))), seq_nth by auto. cbn [plus]. apply row_coefficient. rewrite Lf. lia.
Qed.
Print Assumptions C52_round_trip.
(** without the condition on the shift the claim is false: the operator x + 1 is printed as "x+" and read back as x, and the constant operator 1 is printed as "" *)
Definition line_map (a b : Qc) : @affine Qc := am 1 (fun _ _ => a) (fun _ => b).
Theorem C52_unit_shift_refuted : ~ forall d op, 1 <= d <= 3 -> affine_map d op ->
  (forall i j, i < d -> j < d -> nine_digits (ent (lin op) i j)) -> (forall i, i < d -> nine_digits (ent (shift op) i 0)) ->
  exists t, write_op op = Ret (Some t) /\ aff_from_string t = Ret (Some op).
Proof.
  intros H. destruct (H 1 (line_map 1 1)) as (t & E & E2); [lia|apply affine_am; [lia|unfold line_map; eauto]| | |].
  - intros i j Hi Hj. unfold line_map, am. cbn [lin]. rewrite mk_ent by auto. split; cbn; lia.
  - intros i Hi. unfold line_map, am, cv. cbn [shift]. rewrite mk_ent by auto. split; cbn; lia.
  - vm_compute in E. injection E as <-. apply (f_equal (fun o => match o with Ret (Some a) => aff_eqb a (line_map 1 1) | _ => false end)) in E2. vm_compute in E2. discriminate E2.
Qed.
Example C52_printed : write_op (line_map 1 1) = Ret (Some (str "x+")) /\ write_op (line_map 0 1) = Ret (Some []) /\ write_op (line_map 0 (- (1))) = Ret (Some (str "-")) /\
  same_outcome (aff_from_string []) (Ret None) = true /\ same_outcome (aff_from_string (str "-")) (Ret None) = true.
Proof. splits; vm_compute; reflexivity. Qed.
Example C52_example : exists t, write_op (am 3 (fun i j => if i =? j then 1 else if j =? 0 then (- half)%Qc else 0)%Qc (fun i => if i =? 2 then half else 0%Qc)) = Ret (Some t) /\ t = str "x,-1/2x+y,-1/2x+z+1/2".
Proof. eexists. split; vm_compute; reflexivity. Qed.

(** the condition on the shift is needed for every operator: if a component of the shift is 1 or -1, then its digit is not printed, and what is read back is
    not the operator *)
Lemma print_parts_app : forall a k b, print_parts k (a ++ b) = print_parts k a ++ print_parts (k + length a) b.
Proof.
  induction a as [|p a IH]; intros k b; cbn [app print_parts length]; [rewrite Nat.add_0_r; auto|]. rewrite IH, <- app_assoc. replace (S k + length a) with (k + S (length a)) by lia. reflexivity.
Qed.
Lemma terms_snoc row q : q <> 0%Qc -> terms row q = terms row 0%Qc ++ [(q, None)].
Proof.
  intros H. unfold terms. rewrite !filter_app, <- app_assoc. f_equal. cbn [filter fst]. rewrite (proj2 (qc_eqb_spec 0%Qc 0%Qc) eq_refl). cbn [negb app].
  destruct (Qc_eq_bool q 0) eqn:E; [apply qc_eqb_spec in E; congruence|reflexivity].
Qed.
Definition sign_of (q : Qc) : N := if (Qnum q <? 0)%Z then chr "-" else chr "+".
Lemma unit_cases q : qabs q = 1%Qc -> q = 1%Qc \/ q = (- (1))%Qc. Proof. apply qabs_unit. Qed.
Lemma unit_row row q : length row <= 3 -> qabs q = 1%Qc ->
  write_op_row row q = match terms row 0%Qc with [] => if (Qnum q <? 0)%Z then [chr "-"] else [] | ts => print_parts 0 (render ts) ++ [sign_of q] end.
Proof.
  intros L U. assert (Nz : q <> 0%Qc) by (intros ->; discriminate U). unfold write_op_row. rewrite op_parts_render, terms_snoc by auto. unfold render. rewrite map_app. cbn [map fst snd].
  destruct (terms row 0%Qc) as [|p ts].
  - cbn [map app]. destruct (unit_cases q U) as [-> | ->]; reflexivity.
  - cbn [map app]. change ((fst p, axis_text (snd p)) :: map (fun p => (fst p, axis_text (snd p))) ts ++ [(q, axis_text None)]) with (((fst p, axis_text (snd p)) :: map (fun p => (fst p, axis_text (snd p))) ts) ++ [(q, axis_text None)]).
    rewrite print_parts_app. f_equal. cbn [length plus]. destruct (unit_cases q U) as [-> | ->]; reflexivity.
Qed.
Lemma row_text_axes row p ts : length row <= 3 -> Forall small row -> terms row 0%Qc = p :: ts -> coordinate_text (print_parts 0 (render (p :: ts))) (p :: ts).
Proof.
  intros L F E. pose proof (row_text row 0%Qc L F small_zero) as H. unfold write_op_row, row_terms in H. rewrite op_parts_render in H by auto. rewrite E in H. apply H. discriminate.
Qed.
Definition tail_of (ts : list text) : text := concat (map (fun t => chr "," :: t) ts).
Lemma joined_tail t ts : joined (t :: ts) = t ++ tail_of ts.
Proof. revert t. induction ts as [|u us IH]; intros t; [unfold tail_of; cbn; rewrite app_nil_r; auto|]. change (joined (t :: u :: us)) with (t ++ chr "," :: joined (u :: us)). rewrite IH. reflexivity. Qed.
Lemma tail_of_app a b : tail_of (a ++ b) = tail_of a ++ tail_of b. Proof. unfold tail_of. rewrite map_app, concat_app. auto. Qed.
Lemma tail_of_cases ts : tail_of ts = [] \/ exists l, tail_of ts = chr "," :: l.
Proof. destruct ts; [left; auto|right; unfold tail_of; cbn; eauto]. Qed.
Lemma dangling_sign q ts : no_operator (sign_of q :: tail_of ts).
Proof.
  unfold no_operator, no_coordinate, no_term, no_frac, sign_of. destruct (Qnum q <? 0)%Z; destruct (tail_of_cases ts) as [-> |(l & ->)]; splits; try reflexivity; intros r' x E; discriminate E.
Qed.
Lemma missing_coordinate q ts : no_operator (chr "," :: (if (Qnum q <? 0)%Z then [chr "-"] else []) ++ tail_of ts).
Proof.
  split; [apply (no_coordinate_comma []); constructor|]. intros r' x E.
  destruct (Qnum q <? 0)%Z; destruct (tail_of_cases ts) as [Et|(l & Et)]; rewrite Et in E; cbn in E; injection E as <- _; reflexivity.
Qed.
Lemma no_first_coordinate q ts : parse_operator ((if (Qnum q <? 0)%Z then [chr "-"] else []) ++ tail_of ts) = Ret None.
Proof. destruct (Qnum q <? 0)%Z; destruct (tail_of_cases ts) as [-> |(l & ->)]; reflexivity. Qed.
Lemma least_unit (s : nat -> Qc) d : (exists i, i < d /\ qabs (s i) = 1%Qc) -> exists i, i < d /\ qabs (s i) = 1%Qc /\ forall j, j < i -> qabs (s j) <> 1%Qc.
Proof.
  induction d as [|d IH]; intros (i & Hi & U); [lia|]. destruct (Nat.eq_dec i d) as [->|Ne]; [|destruct IH as (j & Hj & V); [exists i; split; [lia|auto]|exists j; split; [lia|auto]]].
  assert (D : (exists i, i < d /\ qabs (s i) = 1%Qc) \/ forall j, j < d -> qabs (s j) <> 1%Qc).
  { clear. induction d as [|d IH]; [right; intros; lia|]. destruct IH as [(i & Hi & U)|N]; [left; exists i; split; [lia|auto]|]. destruct (Qc_eq_dec (qabs (s d)) 1%Qc) as [U|U]; [left; exists d; auto|].
    right. intros j Hj. destruct (Nat.eq_dec j d) as [->|]; auto. apply N. lia. }
  destruct D as [D|D]; [destruct (IH D) as (j & Hj & V); exists j; split; [lia|auto]|exists d; splits; auto].
Qed.
Lemma qabs_of_unit q : unit_size q -> qabs q = 1%Qc. Proof. intros [-> | ->]; apply Qc_is_canon; reflexivity. Qed.
Theorem C52_unit_shift d op : 1 <= d <= 3 -> affine_map d op ->
  (forall i j, i < d -> j < d -> nine_digits (ent (lin op) i j)) -> (forall i, i < d -> nine_digits (ent (shift op) i 0)) -> (exists i, i < d /\ unit_size (ent (shift op) i 0)) ->
  exists t r, write_op op = Ret (Some t) /\ aff_from_string t = Ret r /\ r <> Some op.
Proof.
  intros Hd Ha Hl Hs Hu. assert (D0 : 0 < d) by lia. apply (affine_am d op D0) in Ha as (f & s & ->). cbn [am lin shift] in Hl, Hs, Hu.
  assert (Hf : forall i j, i < d -> j < d -> small (f i j)). { intros i j Hi Hj. specialize (Hl i j Hi Hj). rewrite mk_ent in Hl by auto. exact Hl. }
  assert (Hsh : forall i, i < d -> small (s i)). { intros i Hi. specialize (Hs i Hi). unfold cv in Hs. rewrite mk_ent in Hs by auto. exact Hs. }
  assert (Hus : exists i, i < d /\ qabs (s i) = 1%Qc). { destruct Hu as (i & Hi & U). exists i. split; auto. unfold cv in U. rewrite mk_ent in U by auto. apply qabs_of_unit. auto. }
  apply least_unit in Hus as (i & Hi & U & Before). clear Hl Hs Hu.
  set (txt := fun i => write_op_row (frow d f i) (s i)). set (good := fun i => row_terms (frow d f i) (s i)).
  assert (Lf : forall i, length (frow d f i) = d) by (intros; apply frow_length).
  assert (Fs : forall i, i < d -> Forall small (frow d f i)). { intros k Hk. apply Forall_forall. intros q Hq. apply in_map_iff in Hq as (j & <- & Hj). apply in_seq in Hj. apply Hf; lia. }
  assert (W : write_op (am d f s) = Ret (Some (joined (map txt (seq 0 d))))).
  { unfold write_op, aff_dim, vdim. cbn [am shift lin cv mk nrows]. destruct (Nat.ltb_spec 3 d); [lia|].
    rewrite (mapM_Ret _ (fun i => (if 0 <? i then [chr ","] else []) ++ txt i)).
    - cbn [bind]. f_equal. f_equal. destruct d as [|n]; [lia|]. rewrite joined_concat. cbn [seq map concat]. change (if 0 <? 0 then [chr ","] else []) with (@nil N). cbn [app]. f_equal. apply concat_joined.
    - intros k Hk. apply in_seq in Hk. unfold am, cv. cbn [lin shift]. rewrite get_row_mk by lia. cbn [bind]. rewrite index_mk by lia. reflexivity. }
  assert (Split : seq 0 d = seq 0 i ++ i :: seq (S i) (d - S i)). { replace d with (i + S (d - S i)) at 1 by lia. rewrite seq_app. reflexivity. }
  set (pre := map txt (seq 0 i)). set (post := map txt (seq (S i) (d - S i))).
  assert (T : map txt (seq 0 d) = pre ++ txt i :: post) by (rewrite Split, map_app; reflexivity).
  assert (Ei : txt i = match terms (frow d f i) 0%Qc with [] => if (Qnum (s i) <? 0)%Z then [chr "-"] else [] | ts => print_parts 0 (render ts) ++ [sign_of (s i)] end) by (apply unit_row; auto; rewrite Lf; lia).
  assert (Good : forall l, (forall k, In k l -> k < i) -> Forall2 coordinate_text (map txt l) (map good l) /\ Forall sums_fit (map good l)).
  { intros l. induction l as [|k l IH]; intros Hk; cbn [map]; [split; constructor|]. assert (k < i) by (apply Hk; left; auto). destruct IH as [IH1 IH2]; [intros; apply Hk; right; auto|].
    split; constructor; auto; [apply row_text; [rewrite Lf; lia|apply Fs; lia|apply Hsh; lia|apply Before; auto]|apply row_fit; [apply Fs; lia|apply Hsh; lia]]. }
  destruct (Good (seq 0 i)) as [G1 G2]; [intros k Hk; apply in_seq in Hk; lia|]. fold pre in G1.
  (* reading the first coordinates, followed by a rest *)
  assert (Read : forall ts cs r, ts <> [] -> Forall2 coordinate_text ts cs -> Forall sums_fit cs -> length cs <= 3 -> starts is_blank r = false -> no_operator r ->
    aff_from_string (joined ts ++ r) = Ret (Some (am (length cs) (fun i j => coefficient (Some j) (nth i cs [])) (fun i => coefficient None (nth i cs []))))).
  { intros ts cs r Ne F2 F3 L3 Sr Nr. pose proof (parse_complete [] [] (joined ts) cs r (Forall_nil _) (Forall_nil _) (joined_operator ts cs Ne F2) F3 Sr Nr) as P. cbn [app] in P.
    unfold aff_from_string. rewrite P. cbn [bind]. unfold meaning. rewrite !map_length, Nat.eqb_refl. cbn [negb]. pose proof (from_meaning cs) as M. unfold meaning in M. cbn [fst snd] in M. apply M; auto.
    destruct F2; [congruence|cbn; lia]. }
  assert (Lg : length (map good (seq 0 i)) = i) by (rewrite map_length, seq_length; auto).
  exists (joined (map txt (seq 0 d))). rewrite T. destruct (terms (frow d f i) 0%Qc) as [|p ts] eqn:Et.
  - destruct pre as [|t0 pre'] eqn:Ep.
    + exists None. splits; [rewrite W, T; auto| |discriminate]. cbn [app]. rewrite joined_tail, Ei. unfold aff_from_string. rewrite no_first_coordinate. reflexivity.
    + eexists. splits; [rewrite W, T; auto| |].
      * cbn [app]. rewrite joined_tail, tail_of_app. change (tail_of (txt i :: post)) with ((chr "," :: txt i) ++ tail_of post). rewrite app_assoc, <- (joined_tail t0 pre'), Ei. cbn [app].
        apply (Read (t0 :: pre') (map good (seq 0 i)) (chr "," :: (if (Qnum (s i) <? 0)%Z then [chr "-"] else []) ++ tail_of post)); auto; [discriminate|lia|apply missing_coordinate].
      * intros E. assert (Ld : length (map good (seq 0 i)) = d) by exact (f_equal (fun o => match o with Some a => nrows (lin a) | None => 0 end) E). lia.
  - eexists. splits; [rewrite W, T; auto| |].
    + assert (Et2 : joined (pre ++ txt i :: post) = joined (pre ++ [print_parts 0 (render (p :: ts))]) ++ (sign_of (s i) :: tail_of post)).
      { rewrite Ei. destruct pre as [|t0 pre']; cbn [app]; rewrite !joined_tail.
        - cbn [tail_of map concat]. rewrite app_nil_r, <- app_assoc. reflexivity.
        - rewrite !tail_of_app. unfold tail_of at 2 4. cbn [map concat]. fold (tail_of post). rewrite app_nil_r, <- !app_assoc. cbn [app]. rewrite <- app_assoc. reflexivity. }
      rewrite Et2. apply (Read _ (map good (seq 0 i) ++ [p :: ts])).
      * destruct pre; discriminate.
      * apply Forall2_app; auto. constructor; [|constructor]. apply (row_text_axes (frow d f i)); auto. rewrite Lf. lia.
      * apply Forall_app. split; auto. constructor; [|constructor]. rewrite <- Et. apply terms_fit; [auto|apply small_zero].
      * rewrite app_length, Lg. cbn [length]. lia.
      * unfold sign_of. destruct (Qnum (s i) <? 0)%Z; reflexivity.
      * apply dangling_sign.
    + intros E. pose proof (f_equal (fun o => match o with Some a => a | None => am d f s end) E) as E2. cbv beta iota in E2.
      assert (Ld : length (map good (seq 0 i) ++ [p :: ts]) = d) by exact (f_equal (fun a => nrows (lin a)) E2).
      apply (f_equal (fun a => ent (shift a) i 0)) in E2. cbn [am shift] in E2. rewrite Ld in E2. unfold cv in E2. rewrite !mk_ent in E2 by auto. rewrite app_nth2 in E2 by lia. rewrite Lg, Nat.sub_diag in E2. cbn [nth] in E2.
      rewrite <- Et in E2. rewrite (proj2 (terms_coefficient (frow d f i) 0%Qc ltac:(rewrite Lf; lia))) in E2. rewrite <- E2 in U. discriminate U.
Qed.
Print Assumptions C52_unit_shift.
(** so an operator with numbers of at most nine digits survives printing and reading exactly if no component of its shift is 1 or -1 *)
Theorem C52_survives d op : 1 <= d <= 3 -> affine_map d op ->
  (forall i j, i < d -> j < d -> nine_digits (ent (lin op) i j)) -> (forall i, i < d -> nine_digits (ent (shift op) i 0)) ->
  exists t, write_op op = Ret (Some t) /\ (aff_from_string t = Ret (Some op) <-> forall i, i < d -> ~ unit_size (ent (shift op) i 0)).
Proof.
  intros Hd Ha Hl Hs. assert (D : (exists i, i < d /\ unit_size (ent (shift op) i 0)) \/ forall i, i < d -> ~ unit_size (ent (shift op) i 0)).
  { clear. induction d as [|d IH]; [right; intros; lia|]. destruct IH as [(i & Hi & U)|N]; [left; exists i; split; [lia|auto]|].
    destruct (Qc_eq_dec (ent (shift op) d 0) 1%Qc) as [U|U1]; [left; exists d; split; [lia|left; auto]|]. destruct (Qc_eq_dec (ent (shift op) d 0) (- (1))%Qc) as [U|U2]; [left; exists d; split; [lia|right; auto]|].
    right. intros j Hj. destruct (Nat.eq_dec j d) as [->|]; [intros [E|E]; contradiction|]. apply N. lia. }
  destruct D as [D|D].
  - destruct (C52_unit_shift d op Hd Ha Hl Hs D) as (t & r & W & R & Ne). exists t. split; auto. split; [rewrite R; intros [= E]; congruence|]. intros H. destruct D as (i & Hi & U). exfalso. exact (H i Hi U).
  - destruct (C52_round_trip d op Hd Ha Hl) as (t & W & R); [intros i Hi; split; auto|]. exists t. split; auto. tauto.
Qed.
Print Assumptions C52_survives.
