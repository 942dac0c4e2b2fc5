(** Reading back the texts written by the Display implementations. *)
From Coq Require Import String Ascii List ZArith NArith Lia Bool PeanoNat QArith Qcanon.
From Verif Require Import Base Vec Elim Scalars Matrix MatrixMore LinAlg ZQ Lattices Geometry Basics ModSolver OrdSet PGraph Text ParseOp OpGrammar OpParse OpPrint Table Display.
Import ListNotations.
Close Scope Q_scope. Close Scope Qc_scope.
Local Open Scope list_scope.
Open Scope nat_scope.

(** ** words *)
(** two words ended by characters that do not occur in words *)
Lemma word_split (P : N -> Prop) : forall (a b : text) (c d : N) r s, Forall P a -> Forall P b -> ~ P c -> ~ P d ->
  a ++ c :: r = b ++ d :: s -> a = b /\ c = d /\ r = s.
Proof.
  induction a as [|x a IH]; intros [|y b] c d r s Ha Hb Hc Hd E; cbn in E; injection E as E1 E2; subst; auto.
  - inversion Hb; contradiction.
  - inversion Ha; contradiction.
  - inversion Ha; inversion Hb; subst. destruct (IH b c d r s) as (-> & -> & ->); auto.
Qed.
(** a code whose words are recognised when followed by one of the characters [stop] *)
Definition stops {A} (D : A -> Prop) (stop : N -> Prop) (f : A -> text) : Prop :=
  forall a b c d r s, D a -> D b -> stop c -> stop d -> f a ++ c :: r = f b ++ d :: s -> a = b /\ c = d /\ r = s.
Lemma word_stops {A} (D : A -> Prop) (P : N -> Prop) (f : A -> text) :
  (forall a, D a -> Forall P (f a)) -> (forall a b, D a -> D b -> f a = f b -> a = b) -> stops D (fun c => ~ P c) f.
Proof.
  intros HP I a b c d r s Da Db Hc Hd E. destruct (word_split P (f a) (f b) c d r s) as (Ef & -> & ->); auto.
Qed.
Lemma stops_sub {A} (D D' : A -> Prop) (st st' : N -> Prop) f : stops D st f -> (forall a, D' a -> D a) -> (forall c, st' c -> st c) -> stops D' st' f.
Proof. intros H HD Hs a b c d r s Da Db Hc Hd E. apply H; auto. Qed.
(** a code that needs nothing after it *)
Definition prefix_free {A} (D : A -> Prop) (f : A -> text) : Prop := forall a b r s, D a -> D b -> f a ++ r = f b ++ s -> a = b /\ r = s.

(** lists of words *)
Section Lists.
  Context {A : Type} (D : A -> Prop) (stop : N -> Prop) (f : A -> text).
  Hypothesis F : stops D stop f.
  Hypothesis F0 : forall a, D a -> exists c t, f a = c :: t /\ stop c.
  Lemma list_stops : forall l l' c d r s, Forall D l -> Forall D l' -> stop c -> stop d ->
    (forall a t, D a -> f a ++ t <> c :: r) -> (forall a t, D a -> f a ++ t <> d :: s) ->
    concat (map f l) ++ c :: r = concat (map f l') ++ d :: s -> l = l' /\ c = d /\ r = s.
  Proof.
    assert (Hd : forall l c r, Forall D l -> stop c -> exists c' t, concat (map f l) ++ c :: r = c' :: t /\ stop c').
    { intros [|a l] c r HD Hc; [exists c, r; auto|]. inversion HD; subst. destruct (F0 a) as (c' & t & E & Hc'); auto. cbn. rewrite E. cbn. eauto. }
    induction l as [|a l IH]; intros [|b l'] c d r s Hl Hl' Hc Hd' U U' E; cbn in E.
    - injection E as -> ->. auto.
    - exfalso. inversion Hl'; subst. rewrite <- app_assoc in E. apply (U b _ H1 (eq_sym E)).
    - exfalso. inversion Hl; subst. rewrite <- app_assoc in E. apply (U' a _ H1 E).
    - inversion Hl; inversion Hl'; subst. rewrite <- !app_assoc in E.
      destruct (Hd l c r) as (c1 & t1 & E1 & S1); auto. destruct (Hd l' d s) as (c2 & t2 & E2 & S2); auto.
      rewrite E1, E2 in E. apply F in E as (-> & -> & ->); auto. rewrite <- E2 in E1.
      destruct (IH l' c d r s) as (-> & -> & ->); auto.
  Qed.
End Lists.
(** lists of prefix free words, followed by something that is no word *)
Lemma list_prefix_free {A} (D : A -> Prop) (f : A -> text) : prefix_free D f -> forall l l' r s, Forall D l -> Forall D l' ->
  (forall a t, D a -> f a ++ t <> r) -> (forall a t, D a -> f a ++ t <> s) -> concat (map f l) ++ r = concat (map f l') ++ s -> l = l' /\ r = s.
Proof.
  intros F. induction l as [|a l IH]; intros [|b l'] r s Hl Hl' U U' E; cbn in E; auto.
  - exfalso. inversion Hl'; subst. rewrite <- app_assoc in U. apply (U b _ H1 eq_refl).
  - exfalso. inversion Hl; subst. rewrite <- app_assoc in U'. apply (U' a _ H1 eq_refl).
  - inversion Hl; inversion Hl'; subst. rewrite <- !app_assoc in E. apply F in E as [-> E]; auto. destruct (IH l' r s) as [-> ->]; auto.
Qed.

(** ** numbers *)
Definition digit_char (c : N) : Prop := (48 <= c <= 57)%N.
(** the characters in numbers: digits, minus and slash *)
Definition num_char (c : N) : Prop := digit_char c \/ c = chr "-" \/ c = chr "/".
Definition int_char (c : N) : Prop := digit_char c \/ c = chr "-".
Lemma digits_ok n : (0 <= n)%Z -> digits n <> [] /\ Forall digit_char (digits n) /\ value (digits n) = n.
Proof.
  intros H. apply numeral_digits, numeral_value in H as (N & F & V). splits; auto. rewrite Forall_forall. rewrite forallb_forall in F. intros c Hc. apply F in Hc.
  unfold is_digit in Hc. apply andb_true_iff in Hc as [H1 H2]. apply N.leb_le in H1, H2. unfold digit_char. lia.
Qed.
Lemma digits_inj n m : (0 <= n)%Z -> (0 <= m)%Z -> digits n = digits m -> n = m.
Proof. intros Hn Hm E. apply digits_ok in Hn as (_ & _ & <-). apply digits_ok in Hm as (_ & _ & <-). congruence. Qed.
Lemma digits_starts n : (0 <= n)%Z -> exists c t, digits n = c :: t /\ digit_char c.
Proof. intros H. apply digits_ok in H as (N & F & _). destruct (digits n) as [|c t]; [congruence|]. inversion F; eauto. Qed.
Lemma show_Z_inj a b : show_Z a = show_Z b -> a = b.
Proof.
  unfold show_Z. destruct (Z.ltb_spec a 0), (Z.ltb_spec b 0); intros E.
  - injection E as E. apply digits_inj in E; lia.
  - exfalso. destruct (digits_starts b H0) as (c & t & E' & Hc). rewrite E' in E. injection E as <- _. destruct Hc as [Hc _]. vm_compute in Hc. congruence.
  - exfalso. destruct (digits_starts a H) as (c & t & E' & Hc). rewrite E' in E. injection E as -> _. destruct Hc as [Hc _]. vm_compute in Hc. congruence.
  - apply digits_inj; auto.
Qed.
Lemma show_Z_chars z : Forall int_char (show_Z z) /\ exists c t, show_Z z = c :: t /\ int_char c.
Proof.
  assert (G : forall n, (0 <= n)%Z -> Forall int_char (digits n)). { intros n H. apply digits_ok in H as (_ & F & _). eapply Forall_impl; [|exact F]. unfold int_char. auto. }
  unfold show_Z. destruct (Z.ltb_spec z 0).
  - split; [constructor; [right; auto|apply G; lia]|]. exists (chr "-"), (digits (- z)). split; auto. right. auto.
  - split; [auto|]. destruct (digits_starts z H) as (c & t & E & Hc). exists c, t. split; auto. left. auto.
Qed.
Lemma chr_int s c : int_char c -> In c s -> exists x, In x s /\ int_char x. Proof. eauto. Qed.
Lemma int_num c : int_char c -> num_char c. Proof. unfold int_char, num_char. tauto. Qed.
Lemma not_num c : (c < 45 \/ 57 < c \/ c = 46)%N -> ~ num_char c.
Proof. unfold num_char, digit_char. change (chr "-") with 45%N. change (chr "/") with 47%N. lia. Qed.
Lemma slash_not_int : ~ int_char (chr "/").
Proof. unfold int_char, digit_char. change (chr "-") with 45%N. change (chr "/") with 47%N. lia. Qed.
Lemma show_Z_stops : stops (fun _ => True) (fun c => ~ int_char c) show_Z.
Proof. apply word_stops; [intros; apply show_Z_chars|intros a b _ _; apply show_Z_inj]. Qed.
Lemma show_nat_stops : stops (fun _ => True) (fun c => ~ int_char c) show_nat.
Proof. intros a b c d r s _ _ Hc Hd E. apply show_Z_stops in E as (E & -> & ->); auto. splits; auto. lia. Qed.
Lemma show_Q_inj p q : show_Q p = show_Q q -> p = q.
Proof.
  intros E. apply Qc_is_canon. assert (X : Qnum p = Qnum q /\ Qden p = Qden q); [|destruct X as [X Y]; unfold Qeq; rewrite X, Y; auto].
  unfold show_Q in E. destruct (Z.eqb_spec (Z.pos (Qden p)) 1) as [Hp|Hp], (Z.eqb_spec (Z.pos (Qden q)) 1) as [Hq|Hq]; rewrite ?app_nil_r in E.
  - apply show_Z_inj in E. split; auto. lia.
  - exfalso. apply slash_not_int. pose proof (show_Z_chars (Qnum p)) as [F _]. rewrite E in F. rewrite Forall_forall in F. apply F. apply in_or_app. right. left. auto.
  - exfalso. apply slash_not_int. pose proof (show_Z_chars (Qnum q)) as [F _]. rewrite <- E in F. rewrite Forall_forall in F. apply F. apply in_or_app. right. left. auto.
  - apply show_Z_stops in E as (E & _ & E'); auto; try apply slash_not_int. apply show_Z_inj in E'. split; auto. lia.
Qed.
Lemma show_Q_chars q : Forall num_char (show_Q q) /\ exists c t, show_Q q = c :: t /\ num_char c.
Proof.
  assert (G : forall z, Forall num_char (show_Z z)). { intros z. eapply Forall_impl; [|apply (proj1 (show_Z_chars z))]. apply int_num. }
  split.
  - unfold show_Q. apply Forall_app. split; auto. destruct (_ =? _)%Z; auto. constructor; auto. right. right. auto.
  - destruct (show_Z_chars (Qnum q)) as [_ (c & t & E & Hc)]. unfold show_Q. rewrite E. cbn. eexists _, _. split; [reflexivity|apply int_num; auto].
Qed.

(** ** label vectors and edges *)
Lemma commas_stops : forall (l l' : list Z) r s, commas (map show_Z l) ++ chr ")" :: r = commas (map show_Z l') ++ chr ")" :: s -> l = l' /\ r = s.
Proof.
  assert (NP : ~ int_char (chr ")")) by (intros H; apply int_num, not_num in H; auto; vm_compute; auto).
  assert (NC : ~ int_char (chr ",")) by (intros H; apply int_num, not_num in H; auto; vm_compute; auto).
  assert (S0 : forall (l : list Z) x r, exists c t, commas (map show_Z (x :: l)) ++ chr ")" :: r = show_Z x ++ c :: t /\ ~ int_char c /\
    (c = chr ")" /\ l = [] /\ t = r \/ c = chr "," /\ exists y l1, l = y :: l1 /\ t = 32%N :: commas (map show_Z l) ++ chr ")" :: r)).
  { intros [|y l] x r.
    - exists (chr ")"), r. cbn. splits; auto.
    - exists (chr ","), (32%N :: commas (map show_Z (y :: l)) ++ chr ")" :: r). splits; auto.
      + change (commas (map show_Z (x :: y :: l))) with (show_Z x ++ str ", " ++ commas (map show_Z (y :: l))). rewrite <- !app_assoc. reflexivity.
      + right. split; auto. eauto. }
  assert (NE : forall (l : list Z) x r s, commas (map show_Z (x :: l)) ++ chr ")" :: r <> chr ")" :: s).
  { intros l x r s E. destruct (S0 l x r) as (c & t & E' & _). rewrite E' in E. destruct (show_Z_chars x) as [_ (c' & t' & E2 & H)]. rewrite E2 in E. cbn in E.
    injection E as -> _. auto. }
  induction l as [|x l IH]; intros [|y l'] r s E.
  - cbn in E. injection E as ->. auto.
  - exfalso. symmetry in E. apply NE in E. auto.
  - exfalso. apply NE in E. auto.
  - destruct (S0 l x r) as (c & t & E1 & Nc & H1). destruct (S0 l' y s) as (c' & t' & E2 & Nc' & H2). rewrite E1, E2 in E.
    apply show_Z_stops in E as (-> & -> & ->); auto.
    destruct H1 as [(H1 & -> & ->)|(-> & y1 & l1 & El & ->)], H2 as [(H2 & -> & H2')|(H2 & y2 & l2 & El' & H2')]; try congruence.
    + auto.
    + rewrite H1 in H2. vm_compute in H2. discriminate H2.
    + rewrite H2 in *. vm_compute in H2. discriminate H2.
    + injection H2' as H2'. apply IH in H2' as [-> ->]. auto.
Qed.
Lemma label_prefix_free : prefix_free (fun _ => True) display_label.
Proof. intros a b r s _ _ E. unfold display_label in E. rewrite <- !app_assoc in E. cbn in E. injection E as E. apply commas_stops in E. auto. Qed.
Lemma edge_stops : stops (fun _ => True) (fun c => ~ int_char c) display_edge.
Proof.
  assert (NS : ~ int_char 32%N) by (intros H; apply int_num, not_num in H; auto; lia).
  intros e f c d r s _ _ Hc Hd E. unfold display_edge in E. rewrite <- !app_assoc in E. change (str " --") with (32%N :: str "--") in E.
  cbn [app] in E. unfold display_label in E. apply show_nat_stops in E as (Eh & _ & E); auto. cbn in E. injection E as E. rewrite <- !app_assoc in E. apply commas_stops in E as [Es E].
  injection E as E. apply show_nat_stops in E as (Et & -> & ->); auto. splits; auto. destruct e, f. cbn in *. congruence.
Qed.
Lemma line_prefix_free : prefix_free (fun _ => True) (fun e => display_edge e ++ [nl]).
Proof.
  assert (NS : ~ int_char 10%N) by (intros H; apply int_num, not_num in H; auto; lia).
  intros e f r s _ _ E. rewrite <- !app_assoc in E. cbn [app] in E. apply edge_stops in E as (-> & _ & ->); auto.
Qed.
Lemma edge_starts e t : exists c t', display_edge e ++ t = c :: t' /\ int_char c.
Proof. unfold display_edge, show_nat. destruct (show_Z_chars (Z.of_nat (head e))) as [_ (c & t' & E & H)]. rewrite E. cbn. eauto. Qed.
(** a graph is determined by its text, whatever follows it, unless that begins like a number *)
Lemma graph_text g g' r s : gdim g = gdim g' -> (forall c t, r = c :: t -> ~ int_char c) -> (forall c t, s = c :: t -> ~ int_char c) ->
  display_graph g ++ r = display_graph g' ++ s -> g = g' /\ r = s.
Proof.
  intros Hd Hr Hs E.
  assert (NB : forall r e t, (forall c t, r = c :: t -> ~ int_char c) -> (display_edge e ++ [nl]) ++ t <> r).
  { clear. intros r e t H E. destruct (edge_starts e ([nl] ++ t)) as (c & t' & E' & Hc). rewrite <- app_assoc, E' in E. apply (H c t'); auto. }
  apply (list_prefix_free _ _ line_prefix_free) in E; auto using Forall_forall.
  - destruct E as [E ->]. split; auto. destruct g, g'; cbn in *; congruence.
  - apply Forall_forall. auto.
  - apply Forall_forall. auto.
Qed.

(** ** matrices *)
(** an entry's text is a word without blanks and line ends that determines the entry *)
Definition readable {R} (show : R -> text) : Prop :=
  (forall x y, show x = show y -> x = y) /\ forall x, show x <> [] /\ Forall (fun c => c <> 32%N /\ c <> nl) (show x).
Lemma show_Z_readable : readable show_Z.
Proof.
  split; [apply show_Z_inj|]. intros z. destruct (show_Z_chars z) as [F (c & t & E & _)]. split; [congruence|]. eapply Forall_impl; [|exact F].
  intros x Hx. split; intros ->; apply int_num, not_num in Hx; auto; lia.
Qed.
Lemma show_Q_readable : readable show_Q.
Proof.
  split; [apply show_Q_inj|]. intros z. destruct (show_Q_chars z) as [F (c & t & E & _)]. split; [congruence|]. eapply Forall_impl; [|exact F].
  intros x Hx. split; intros ->; apply not_num in Hx; auto; lia.
Qed.

Section Rows.
  Context {R : Type} {RD : Dom R} (show : R -> text) (Hs : readable show).
  Definition sep (c : N) : Prop := ~ (c <> 32%N /\ c <> nl).
  Definition cell (x : R) : text := 32%N :: show x.
  Lemma show_stops : stops (fun _ => True) sep show.
  Proof. apply word_stops; [intros a _; apply (proj2 Hs)|intros a b _ _; apply Hs]. Qed.
  Lemma cell_stops : stops (fun _ => True) sep cell.
  Proof. intros a b c d r s _ _ Hc Hd E. unfold cell in E. cbn in E. injection E as E. apply show_stops in E; auto. Qed.
  Lemma cell_starts x : True -> exists c t, cell x = c :: t /\ sep c.
  Proof. intros _. exists 32%N, (show x). split; auto. intros [H _]. auto. Qed.
  Lemma sep_nl : sep nl. Proof. intros [_ H]. auto. Qed.
  Lemma sep_blank : sep 32%N. Proof. intros [H _]. auto. Qed.
  Lemma all_true {A} (l : list A) : Forall (fun _ => True) l. Proof. apply Forall_forall. auto. Qed.
  Definition line (row : list R) : text := concat (map cell row) ++ [nl].
  Lemma line_free : prefix_free (fun _ => True) line.
  Proof.
    intros a b r s _ _ E. unfold line in E. rewrite <- !app_assoc in E. cbn [app] in E.
    apply (list_stops (fun _ => True) sep cell cell_stops cell_starts) in E as (-> & _ & ->); auto using all_true, sep_nl; discriminate.
  Qed.
  Definition aline (row : list R * R) : text := concat (map cell (fst row)) ++ str "    " ++ show (snd row) ++ [nl].
  Lemma aline_free : prefix_free (fun _ => True) aline.
  Proof.
    intros [a x] [b y] r s _ _ E. unfold aline in E. cbn [fst snd] in E. rewrite <- !app_assoc in E. change (str "    ") with [32; 32; 32; 32]%N in E. cbn [app] in E.
    assert (U : forall x0 t u, cell x0 ++ t <> 32%N :: 32%N :: u).
    { intros x0 t u E'. unfold cell in E'. cbn in E'. injection E' as E'. destruct (proj2 Hs x0) as [N F]. destruct (show x0) as [|c w]; [congruence|]. cbn in E'. injection E' as -> _.
      inversion F; subst. tauto. }
    apply (list_stops (fun _ => True) sep cell cell_stops cell_starts) in E as (-> & _ & E); auto using all_true, sep_blank.
    injection E as E. apply show_stops in E as (-> & _ & ->); auto using sep_nl.
  Qed.
  (** the text of a matrix: the lines of its rows *)
  Lemma display_mat_rows (m : mat R) : wfm m -> display_mat show m = Ret (concat (map line (map (frow (ncols m) (ent m)) (seq 0 (nrows m))))).
  Proof.
    intros W. unfold display_mat. rewrite (mapM_Ret _ (fun i => line (frow (ncols m) (ent m) i))); [cbn [bind]; rewrite map_map; auto|].
    intros i Hi. apply in_seq in Hi. rewrite (mapM_Ret _ (fun j => cell (ent m i j))); [cbn [bind]; unfold line, frow; rewrite map_map; auto|].
    intros j Hj. apply in_seq in Hj. rewrite index_wf by (auto; lia). auto.
  Qed.
  Definition aff_wf (a : @affine R) : Prop := exists n, 0 < n /\ wfm (lin a) /\ nrows (lin a) = n /\ ncols (lin a) = n /\ wfm (Geometry.shift a) /\ nrows (Geometry.shift a) = n /\ ncols (Geometry.shift a) = 1.
  Lemma display_aff_rows (a : @affine R) : aff_wf a ->
    display_aff show a = Ret (concat (map aline (map (fun i => (frow (nrows (lin a)) (ent (lin a)) i, ent (Geometry.shift a) i 0)) (seq 0 (nrows (lin a)))))).
  Proof.
    intros (n & Hn & W & E1 & E2 & W' & E3 & E4). unfold display_aff, vdim. rewrite E1, E3. cbv zeta.
    rewrite (mapM_Ret _ (fun i => aline (frow n (ent (lin a)) i, ent (Geometry.shift a) i 0))); [cbn [bind]; rewrite map_map; auto|].
    intros i Hi. apply in_seq in Hi. rewrite (mapM_Ret _ (fun j => cell (ent (lin a) i j))).
    - cbn [bind]. rewrite index_wf by (auto; lia). cbn [bind]. unfold aline, frow. cbn [fst snd]. rewrite map_map. auto.
    - intros j Hj. apply in_seq in Hj. rewrite index_wf by (auto; lia). auto.
  Qed.
End Rows.
