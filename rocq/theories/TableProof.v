(** Proofs about the table of space groups. *)
From Coq Require Import String Ascii List ZArith NArith Lia Bool PeanoNat QArith Qcanon.
From Verif Require Import Base Scalars Matrix Shapes Geometry Text ParseOp Cgd Table TableSpec.
Import ListNotations.
Close Scope Q_scope. Close Scope Qc_scope.
Local Open Scope list_scope.
Open Scope nat_scope.

(** ** words *)
Lemma is_white_spec c : is_white c = true <-> white c.
Proof.
  unfold is_white, white. rewrite !orb_true_iff, !andb_true_iff, !N.leb_le, !N.eqb_eq. cbn [In]. split.
  - intros H. decompose [or] H; clear H; try (right; left; subst; auto 20; fail); [left|right; right]; lia.
  - intros H. decompose [or] H; clear H; subst; auto 20; try lia. all: tauto.
Qed.
Lemma not_white c : is_white c = false <-> ~ white c.
Proof. rewrite <- is_white_spec. destruct (is_white c); split; congruence. Qed.
Lemma drop_spec t : exists a, t = a ++ drop_white t /\ Forall white a /\ forall c, hd_error (drop_white t) = Some c -> ~ white c.
Proof.
  induction t as [|c t (a & E & F & H)]; [exists []; cbn; splits; auto; discriminate|]. cbn [drop_white]. destruct (is_white c) eqn:W.
  - exists (c :: a). splits; [cbn; congruence|constructor; auto; apply is_white_spec; auto|auto].
  - exists []. splits; auto. cbn. intros x [= <-]. apply not_white. auto.
Qed.
Lemma drop_app a t : Forall white a -> drop_white (a ++ t) = drop_white t.
Proof. induction 1 as [|c a H _ IH]; auto. cbn. rewrite (proj2 (is_white_spec c) H). auto. Qed.
Lemma drop_solid t : (forall c, hd_error t = Some c -> ~ white c) -> drop_white t = t.
Proof. destruct t as [|c t]; auto. intros H. cbn. rewrite (proj2 (not_white c)); auto. Qed.
Lemma trim_sound t : trimmed t (trim t).
Proof.
  unfold trimmed, trim. destruct (drop_spec t) as (a & E & F & H). destruct (drop_spec (rev (drop_white t))) as (b & E' & F' & H').
  assert (E2 : drop_white t = rev (drop_white (rev (drop_white t))) ++ rev b). { rewrite <- rev_app_distr, <- E', rev_involutive. auto. }
  exists a, (rev b). splits; auto; [congruence|apply Forall_rev; auto|].
  intros c [Hc|Hc]; [|rewrite rev_involutive in Hc; auto]. apply H. rewrite E2. destruct (rev (drop_white (rev (drop_white t)))) as [|x r]; [discriminate|auto].
Qed.
Lemma trim_complete t u : trimmed t u -> trim t = u.
Proof.
  intros (a & b & -> & Fa & Fb & S). unfold trim. rewrite drop_app by auto. destruct u as [|c u].
  - cbn [app]. rewrite <- (app_nil_r b), drop_app by auto. reflexivity.
  - rewrite (drop_solid ((c :: u) ++ b)) by (intros x [= <-]; apply S; left; auto). rewrite rev_app_distr, drop_app by (apply Forall_rev; auto).
    rewrite drop_solid by (intros x Hx; apply S; right; auto). apply rev_involutive.
Qed.
Definition solid (w : text) : Prop := Forall (fun c => ~ white c) w.
Lemma split_solid w : solid w -> forall v t, split_white v (w ++ t) = split_white (v ++ w) t.
Proof.
  induction 1 as [|c w H _ IH]; intros v t; [rewrite app_nil_r; auto|]. cbn [app split_white]. rewrite (proj2 (not_white c) H), IH, <- app_assoc. reflexivity.
Qed.
Lemma split_blank b : Forall white b -> forall t, split_white [] (b ++ t) = split_white [] t.
Proof. induction 1 as [|c b H _ IH]; intros t; auto. cbn [app split_white]. rewrite (proj2 (is_white_spec c) H). auto. Qed.
Lemma split_stop v t : v <> [] -> (forall c r, t = c :: r -> white c) -> split_white v t = v :: split_white [] t.
Proof.
  intros Nv H. destruct t as [|c t]; cbn [split_white]; [destruct v; congruence|]. rewrite (proj2 (is_white_spec c)) by (eapply H; eauto). destruct v; [congruence|]. reflexivity.
Qed.
Lemma words_complete t ws : words_of t ws -> split_whitespace t = ws.
Proof.
  unfold split_whitespace. induction 1 as [t H|b w t ws Hb Nw Hw Ht _ IH].
  - rewrite <- (app_nil_r t), split_blank by auto. reflexivity.
  - rewrite split_blank by auto. rewrite (split_solid w Hw). cbn [app]. rewrite split_stop by auto. congruence.
Qed.
Lemma words_exist : forall n t, length t <= n -> exists ws, words_of t ws.
Proof.
  induction n as [|n IH]; intros t L; [destruct t; [exists []; constructor; constructor|cbn in L; lia]|].
  destruct (drop_spec t) as (b & E & Fb & H). destruct (drop_white t) as [|c u] eqn:D; [rewrite app_nil_r in E; subst; exists []; constructor; auto|].
  assert (G : forall v, exists w r, v = w ++ r /\ solid w /\ (forall c r', r = c :: r' -> white c) /\ (forall c v', v = c :: v' -> ~ white c -> w <> [])).
  { clear. induction v as [|c v (w & r & -> & Hw & Hr & _)]; [exists [], []; splits; try constructor; discriminate|]. destruct (is_white c) eqn:W.
    - apply is_white_spec in W. exists [], (c :: w ++ r). splits; [auto|constructor| |]; intros x y [= <- _]; [auto|tauto].
    - exists (c :: w), r. splits; auto; [constructor; auto; apply not_white; auto|discriminate]. }
  destruct (G (c :: u)) as (w & r & Eu & Hw & Hr & Nw). assert (Nw' : w <> []) by (eapply Nw; [reflexivity|apply H; reflexivity]). 
  destruct (IH r) as (ws & W). { rewrite E, Eu in L. rewrite !app_length in L. destruct w; [congruence|cbn in L; lia]. }
  exists (w :: ws). rewrite E, Eu. apply words_more; auto.
Qed.
Lemma words_sound t : words_of t (split_whitespace t).
Proof. destruct (words_exist (length t) t (le_n _)) as (ws & W). rewrite (words_complete t ws W). auto. Qed.
Lemma words_trim t u : trimmed t u -> split_whitespace u = split_whitespace t.
Proof.
  intros (a & b & -> & Fa & Fb & S). unfold split_whitespace. rewrite split_blank by auto.
  assert (G : forall v, split_white v (u ++ b) = split_white v u); [|symmetry; apply G]. clear - Fb. induction u as [|c u IH]; intros v.
  - cbn [app]. destruct v as [|x v]; [rewrite <- (app_nil_r b), split_blank by auto; reflexivity|]. rewrite split_stop; [|discriminate|intros c r ->; inversion Fb; auto].
    rewrite <- (app_nil_r b), split_blank by auto. reflexivity.
  - cbn [app split_white]. destruct (is_white c); [destruct v; rewrite IH; reflexivity|apply IH].
Qed.
Lemma trim_nil t u : trimmed t u -> u = [] <-> Forall white t.
Proof.
  intros (a & b & -> & Fa & Fb & S). split.
  - intros ->. apply Forall_app. auto.
  - intros F. apply Forall_app in F as [_ F]. apply Forall_app in F as [F _]. destruct u as [|c u]; auto. exfalso. apply (S c); [left; reflexivity|]. inversion F; auto.
Qed.
Lemma words_nil t : split_whitespace t = [] <-> Forall white t.
Proof.
  split; [|intros F; apply words_complete; constructor; auto]. intros E. pose proof (words_sound t) as W. rewrite E in W. inversion W. auto.
Qed.

(** ** tables *)
Lemma text_eqb_spec a b : reflect (a = b) (text_eqb a b).
Proof. unfold text_eqb. destruct (list_eq_dec N.eq_dec a b); constructor; auto. Qed.
Lemma get_insert {A} k k' (a : A) m : get k (insert k' a m) = if text_eqb k k' then Some a else get k m.
Proof.
  unfold insert. cbn [get]. destruct (text_eqb_spec k k') as [->|Ne]; auto. induction m as [|[x b] m IH]; auto. cbn [filter fst].
  destruct (text_eqb_spec k' x) as [->|Nx]; cbn [negb get]; [destruct (text_eqb_spec k x); [congruence|auto]|]. rewrite IH. auto.
Qed.
Lemma snoc_cases {A} (a b l : list A) x i : l ++ [i] = a ++ x :: b -> (a = l /\ x = i /\ b = []) \/ exists b', b = b' ++ [i] /\ l = a ++ x :: b'.
Proof.
  intros E. destruct (@exists_last _ (x :: b)) as (c & z & Ec); [discriminate|]. rewrite Ec, app_assoc in E. apply app_inj_tail in E as [E <-].
  destruct c as [|y c]; cbn in Ec; [injection Ec as -> ->; left; rewrite app_nil_r in E; auto|]. injection Ec as <- ->. right. exists c. auto.
Qed.
Fixpoint until (items : list item) : list (@affine Qc) :=
  match items with [] => [] | Header _ _ :: _ => [] | Operator op :: r => op :: until r | _ :: r => until r end.
Lemma following_until items ops : following_operators items ops <-> ops = until items.
Proof.
  split.
  - intros (a & b & -> & Ha & Hb & ->). induction a as [|i a IH]; cbn [app].
    + destruct Hb as [->|(i & r & -> & n & m & ->)]; reflexivity.
    + destruct i; cbn [until]; rewrite <- ?IH by (intros x Hx; apply Ha; right; auto); auto. exfalso. eapply Ha; [left; reflexivity|]. eexists _, _. reflexivity.
  - intros ->. induction items as [|i items (a & b & -> & Ha & Hb & E)]; [exists [], []; splits; auto; intros i []|].
    destruct i as [|op|x y|e|n m]; cbn [until].
    5: { exists [], (Header n m :: a ++ b). splits; auto. right. eexists _, _. split; [reflexivity|eexists _, _; reflexivity]. }
    all: match goal with |- following_operators (?i :: _) _ => exists (i :: a), b end; splits; auto; try (rewrite E; reflexivity); intros i [<-|Hi]; auto; intros (n & m & K); discriminate K.
Qed.
Definition has_header (items : list item) : Prop := exists i, In i items /\ is_header i.
Lemma until_snoc items i : (has_header items -> until (items ++ [i]) = until items) /\
  (~ has_header items -> until (items ++ [i]) = until items ++ match i with Operator op => [op] | _ => [] end).
Proof.
  induction items as [|x items [IH1 IH2]].
  - split; [intros (i' & [] & _)|]. intros _. destruct i; reflexivity.
  - assert (G : is_header x \/ ((has_header (x :: items) <-> has_header items) /\ ~ is_header x)).
    { destruct x; try (left; eexists _, _; reflexivity); right; split; try (intros (n & m & K); discriminate K);
      (split; [intros (y & [<-|Hy] & Hh); [destruct Hh as (n & m & K); discriminate K|exists y; auto]|intros (y & Hy & Hh); exists y; split; auto; right; auto]). }
    destruct G as [(n & m & ->)|[G Nx]].
    + split; [reflexivity|]. intros N. exfalso. apply N. exists (Header n m). split; [left; auto|eexists _, _; reflexivity].
    + rewrite G. split; intros H; [specialize (IH1 H) as K|specialize (IH2 H) as K]; clear IH1 IH2; destruct x; cbn [app until]; auto; try (rewrite K; reflexivity); exfalso; apply Nx; eexists _, _; reflexivity.
Qed.
(** last headers *)
Definition last_header (items : list item) (n : text) : Prop := exists a m b, items = a ++ Header n m :: b /\ ~ has_header b.
Lemma canonical_snoc items c i : canonical_name items c ->
  match i with
  | Header n m => (identity_map m -> canonical_name (items ++ [i]) n) /\ (~ identity_map m -> canonical_name (items ++ [i]) c)
  | _ => canonical_name (items ++ [i]) c
  end.
Proof.
  assert (G : (forall n m, i = Header n m -> ~ identity_map m) -> canonical_name items c -> canonical_name (items ++ [i]) c).
  { intros Hi [(a & m & b & -> & Im & Hb)|[H ->]]; [left|right].
    - exists a, m, (b ++ [i]). splits; auto; [rewrite <- app_assoc; reflexivity|]. intros n m' K. apply in_app_or in K as [K|[K|[]]]; eauto.
    - split; auto. intros n m' K. apply in_app_or in K as [K|[K|[]]]; eauto. }
  intros H. destruct i as [| | | |n m]; try (apply G; auto; intros; discriminate). split.
  - intros Im. left. exists items, m, []. splits; auto.
  - intros Nm. apply G; auto. intros n' m' [= <- <-]. auto.
Qed.
Lemma canonical_unique items c c' : canonical_name items c -> canonical_name items c' -> c = c'.
Proof.
  revert c c'. induction items as [|x items IH] using rev_ind; intros c c' H H'.
  - destruct H as [(a & m & b & E & _)|[_ ->]]; [destruct a; discriminate|]. destruct H' as [(a & m' & b & E & _)|[_ ->]]; [destruct a; discriminate|]. auto.
  - assert (G : forall c, canonical_name (items ++ [x]) c -> (exists m, x = Header c m /\ identity_map m) \/ ((forall n m, x = Header n m -> ~ identity_map m) /\ canonical_name items c)).
    { clear. intros c [(a & m & b & E & Im & Hb)|[H ->]].
      - apply snoc_cases in E as [(-> & <- & ->)|(b' & -> & ->)]; [left; eauto|right]. split; [intros n m' ->; eapply Hb; apply in_or_app; right; left; reflexivity|].
        left. exists a, m, b'. splits; auto. intros n m' K. eapply Hb. apply in_or_app. eauto.
      - right. split; [intros n m ->; eapply H; apply in_or_app; right; left; reflexivity|]. right. split; auto. intros n m K. eapply H. apply in_or_app. eauto. }
    destruct (G c H) as [(m & -> & Im)|[N C]]; destruct (G c' H') as [(m' & E & Im')|[N' C']]; [congruence| | |eauto].
    + exfalso. eapply N'; eauto.
    + subst x. exfalso. eapply N; eauto.
Qed.
Lemma describes_unique items n e e' : describes items n e -> describes items n e' -> e = e'.
Proof.
  intros (a & b & E & Nb & En & C & F) (a' & b' & E' & Nb' & En' & C' & F'). apply following_until in F. apply following_until in F'.
  assert (P : a = a' /\ te_transform e = te_transform e' /\ b = b').
  { rewrite E in E'. clear - E' Nb Nb'. revert a' E'. induction a as [|x a IH]; intros [|x' a'] E'; cbn [app] in E'.
    - injection E' as Ht ->. auto.
    - injection E' as <- ->. exfalso. eapply Nb. apply in_or_app. right. left. reflexivity.
    - injection E' as -> <-. exfalso. eapply Nb'. apply in_or_app. right. left. reflexivity.
    - injection E' as <- E'. destruct (IH _ E') as (-> & Et & ->). auto. }
  destruct P as (-> & Et & ->). destruct e as [nm c t ops], e' as [nm' c' t' ops']. cbn [te_name te_canonical te_transform te_operators] in *. subst. f_equal. eapply canonical_unique; eauto.
Qed.
(** items other than headers and operators do not change the settings *)
Lemma describes_other items i n e : ~ is_header i -> (forall op, i <> Operator op) -> describes (items ++ [i]) n e <-> describes items n e.
Proof.
  intros Hi Ho. assert (U : forall b, until (b ++ [i]) = until b).
  { intros b. induction b as [|x b IH]; cbn [app until]; [destruct i; auto; exfalso; eapply Ho; reflexivity|]. destruct x; rewrite ?IH; auto. }
  unfold describes. split.
  - intros (a & b & E & Nb & En & C & F). apply snoc_cases in E as [(-> & K & ->)|(b' & -> & ->)]; [exfalso; apply Hi; rewrite <- K; eexists _, _; reflexivity|].
    exists a, b'. splits; auto; [intros m K; eapply Nb; apply in_or_app; eauto|]. apply following_until in F. apply following_until. rewrite F. apply U.
  - intros (a & b & -> & Nb & En & C & F). exists a, (b ++ [i]). splits; auto.
    + rewrite <- app_assoc. reflexivity.
    + intros m K. apply in_app_or in K as [K|[K|[]]]; [eapply Nb; eauto|]. apply Hi. rewrite K. eexists _, _. reflexivity.
    + apply following_until in F. apply following_until. rewrite F. symmetry. apply U.
Qed.
Lemma describes_header items n0 m0 n e : describes (items ++ [Header n0 m0]) n e <->
  (n = n0 /\ te_name e = n0 /\ te_transform e = m0 /\ te_operators e = [] /\ canonical_name (items ++ [Header n0 m0]) (te_canonical e)) \/ (n <> n0 /\ describes items n e).
Proof.
  assert (U : forall b, until (b ++ [Header n0 m0]) = until b) by (intros b; induction b as [|x b IH]; cbn [app until]; auto; destruct x; rewrite ?IH; auto).
  unfold describes. split.
  - intros (a & b & E & Nb & En & C & F). apply snoc_cases in E as [(-> & K & ->)|(b' & -> & ->)].
    + injection K as <- <-. left. apply following_until in F. auto.
    + right. split; [intros ->; eapply Nb; apply in_or_app; right; left; reflexivity|]. exists a, b'. splits; auto; [intros m K; eapply Nb; apply in_or_app; eauto|].
      apply following_until in F. apply following_until. rewrite F. apply U.
  - intros [(-> & En & Et & Eo & C)|(Ne & a & b & -> & Nb & En & C & F)].
    + exists items, []. rewrite Et. splits; auto. apply following_until. auto.
    + exists a, (b ++ [Header n0 m0]). splits; auto; [rewrite <- app_assoc; reflexivity| |].
      * intros m K. apply in_app_or in K as [K|[K|[]]]; [eapply Nb; eauto|congruence].
      * apply following_until in F. apply following_until. rewrite F. symmetry. apply U.
Qed.
Lemma split_same {A} (a b a' b' : list A) x y : a ++ x :: b = a' ++ y :: b' -> (a = a' /\ x = y /\ b = b') \/ In y b \/ In x b'.
Proof.
  revert a'. induction a as [|z a IH]; intros [|z' a'] E; cbn [app] in E.
  - injection E as -> ->. auto.
  - injection E as -> ->. right. left. apply in_or_app. right. left. reflexivity.
  - injection E as -> <-. right. right. apply in_or_app. right. left. reflexivity.
  - injection E as -> E. destruct (IH _ E) as [(-> & K)|H]; auto.
Qed.
Lemma describes_operator items op n0 n e : last_header items n0 -> describes (items ++ [Operator op]) n e <->
  (n = n0 /\ exists e0, describes items n0 e0 /\ e = TableEntry (te_name e0) (te_canonical e0) (te_transform e0) (te_operators e0 ++ [op])) \/ (n <> n0 /\ describes items n e).
Proof.
  intros (a0 & m0 & b0 & -> & N0).
  assert (G : forall a n m b, a0 ++ Header n0 m0 :: b0 = a ++ Header n m :: b -> (forall m, ~ In (Header n m) b) -> (n = n0 /\ ~ has_header b) \/ (n <> n0 /\ has_header b)).
  { clear e n. intros a n m b E Nb. apply split_same in E as [(-> & K & ->)|[H|H]].
    - injection K as -> ->. left. auto.
    - exfalso. apply N0. eexists. split; [exact H|]. eexists _, _. reflexivity.
    - right. split; [intros ->; eapply Nb; eauto|]. eexists. split; [exact H|]. eexists _, _. reflexivity. }
  split.
  - intros (a & b & E & Nb & En & C & F). apply snoc_cases in E as [(_ & K & _)|(b' & -> & E)]; [discriminate K|]. apply following_until in F.
    assert (Nb' : forall m, ~ In (Header n m) b') by (intros m K; eapply Nb; apply in_or_app; eauto). destruct (until_snoc b' (Operator op)) as [U1 U2].
    destruct (G _ _ _ _ E Nb') as [(-> & H)|(Ne & H)].
    + left. split; auto. exists (TableEntry n0 (te_canonical e) (te_transform e) (until b')). split.
      * exists a, b'. cbn [te_name te_canonical te_transform te_operators]. splits; auto. apply following_until. auto.
      * cbn [te_name te_canonical te_transform te_operators]. destruct e as [nm c t ops]. cbn [te_name te_canonical te_transform te_operators] in *. subst. f_equal. apply U2. auto.
    + right. split; auto. exists a, b'. splits; auto. apply following_until. rewrite F. apply U1. auto.
  - intros [(-> & e0 & (a & b & E & Nb & En & C & F) & ->)|(Ne & a & b & E & Nb & En & C & F)]; apply following_until in F; destruct (G _ _ _ _ E Nb) as [(En0 & H)|(Ne' & H)]; try congruence; destruct (until_snoc b (Operator op)) as [U1 U2].
    + exists a, (b ++ [Operator op]). cbn [te_name te_canonical te_transform te_operators]. splits; auto.
      * rewrite E, <- app_assoc. reflexivity.
      * intros m K. apply in_app_or in K as [K|[K|[]]]; [eapply Nb; eauto|discriminate K].
      * apply following_until. rewrite U2 by auto. rewrite F. reflexivity.
    + exists a, (b ++ [Operator op]). splits; auto.
      * rewrite E, <- app_assoc. reflexivity.
      * intros m K. apply in_app_or in K as [K|[K|[]]]; [eapply Nb; eauto|discriminate K].
      * apply following_until. rewrite U1 by auto. auto.
Qed.
Definition aliased (items : list item) (a b : text) : Prop := exists x y, items = x ++ Alias a b :: y /\ forall b', ~ In (Alias a b') y.
Lemma aliased_snoc items i a b : aliased (items ++ [i]) a b <-> (i = Alias a b) \/ ((forall b', i <> Alias a b') /\ aliased items a b).
Proof.
  unfold aliased. split.
  - intros (x & y & E & H). apply snoc_cases in E as [(-> & K & ->)|(y' & -> & ->)]; auto. right. split; [intros b' ->; eapply H; apply in_or_app; right; left; reflexivity|].
    exists x, y'. split; auto. intros b' K. eapply H. apply in_or_app. eauto.
  - intros [->|(Ni & x & y & -> & H)]; [exists items, []; split; auto|]. exists x, (y ++ [i]). split; [rewrite <- app_assoc; reflexivity|]. intros b' K. apply in_app_or in K as [K|[K|[]]]; [eapply H; eauto|eapply Ni; eauto].
Qed.

(** ** the state *)
Definition invariant (items : list item) (st : table_state) : Prop :=
  table_of items (Tables (st_settings st) (st_alias st) (st_lookup st)) /\ canonical_name items (st_canonical st) /\
  ((~ has_header items /\ get (st_current st) (st_settings st) = None) \/ last_header items (st_current st)).
Lemma invariant_start : invariant [] (State [] [] [] [] []).
Proof.
  unfold invariant, table_of. splits; cbn [settings alias lookup st_settings st_alias st_lookup st_canonical st_current get].
  - intros n e. split; [discriminate|]. intros (a & b & E & _). destruct a; discriminate.
  - intros a b. split; [discriminate|]. intros (x & y & E & _). destruct x; discriminate.
  - reflexivity.
  - right. split; auto.
  - left. split; auto. intros (i & [] & _).
Qed.
(** what a line does *)
Definition apply_item (st : table_state) (i : item) : outcome (option table_state) :=
  match i with
  | Nothing => Ret (Some st)
  | Operator op =>
    question (get (st_current st) (st_settings st)) (fun e =>
      Ret (Some (State (insert (st_current st) (TableEntry (te_name e) (te_canonical e) (te_transform e) (te_operators e ++ [op])) (st_settings st)) (st_alias st) (st_lookup st) (st_canonical st) (st_current st))))
  | Alias a b => Ret (Some (State (st_settings st) (insert a b (st_alias st)) (st_lookup st) (st_canonical st) (st_current st)))
  | LookupLine e => Ret (Some (State (st_settings st) (st_alias st) (st_lookup st ++ [e]) (st_canonical st) (st_current st)))
  | Header n m =>
    do id <- cmap_is_identity m;
    let canonical := if id then n else st_canonical st in
    Ret (Some (State (insert n (TableEntry n canonical m []) (st_settings st)) (st_alias st) (st_lookup st) canonical n))
  end.
(** coordinate changes for which is_identity works *)
Definition good_change (m : @cmap Qc) : Prop := exists b, cmap_is_identity m = Ret b /\ (b = true <-> identity_map m).
Definition good_item (i : item) : Prop := match i with Header _ m => good_change m | _ => True end.
Lemma has_header_snoc items i : has_header (items ++ [i]) <-> has_header items \/ is_header i.
Proof.
  unfold has_header. split.
  - intros (x & H & K). apply in_app_or in H as [H|[->|[]]]; eauto.
  - intros [(x & H & K)|K]; [exists x; split; auto; apply in_or_app; auto|exists i; split; auto; apply in_or_app; right; left; auto].
Qed.
Lemma last_snoc items n i : ~ is_header i -> last_header items n -> last_header (items ++ [i]) n.
Proof. intros Hi (a & m & b & -> & N). exists a, m, (b ++ [i]). split; [rewrite <- app_assoc; reflexivity|]. rewrite has_header_snoc. tauto. Qed.
Lemma last_described items st n : invariant items st -> last_header items n -> exists e, get n (st_settings st) = Some e.
Proof.
  intros ((T & _) & C & _) (a & m & b & E & N). assert (K : exists c, canonical_name (a ++ [Header n m]) c).
  { clear. generalize (a ++ [Header n m]). intros l. induction l as [|x l (c & IH)] using rev_ind; [exists []; right; split; auto|]. pose proof (canonical_snoc l c x IH) as H. destruct x as [| | | |n' m']; eauto.
    assert (D : forall m : @cmap Qc, identity_map m \/ ~ identity_map m).
    { clear. intros m. unfold identity_map. 
      assert (Df : forall n (P : nat -> Prop), (forall i, P i \/ ~ P i) -> (forall i, i < n -> P i) \/ ~ (forall i, i < n -> P i)).
      { intros n P HP. induction n as [|n IH]; [left; lia|]. destruct IH as [H|H]; [|right; intros K; apply H; auto]. destruct (HP n) as [Hn|Hn]; [left; intros i Hi; destruct (Nat.eq_dec i n) as [->|]; [auto|apply H; lia]|right; intros K; apply Hn, K; lia]. }
      assert (De : forall a b : Qc, a = b \/ a <> b) by (intros a b; destruct (Qc_eq_dec a b); auto).
      destruct (Nat.eq_dec (nrows (lin (fwd m))) (ncols (lin (fwd m)))) as [E|E]; [|tauto].
      destruct (Df (nrows (lin (fwd m))) (fun i => forall j, j < ncols (lin (fwd m)) -> ent (lin (fwd m)) i j = if i =? j then 1%Qc else 0%Qc)) as [H1|H1]; [intros i; apply Df; intros; apply De| |right; intros (_ & K & _); apply H1; auto].
      destruct (Df (nrows (shift (fwd m))) (fun i => ent (shift (fwd m)) i 0 = 0%Qc)) as [H2|H2]; [intros; apply De| |right; intros (_ & _ & K); apply H2; auto]. left. splits; auto. }
    destruct (D m') as [Hm|Hm]; [exists n'|exists c]; apply H; auto. }
  destruct K as (c & Hc). exists (TableEntry n c m (until b)). apply T. exists a, b. cbn [te_name te_canonical te_transform te_operators]. splits; auto.
  - intros m' K. apply N. eexists. split; [exact K|]. eexists _, _. reflexivity.
  - apply following_until. reflexivity.
Qed.
Lemma invariant_step items st i : invariant items st -> good_item i ->
  match i with
  | Operator _ => (has_header items -> exists st', apply_item st i = Ret (Some st') /\ invariant (items ++ [i]) st') /\ (~ has_header items -> apply_item st i = Ret None)
  | _ => exists st', apply_item st i = Ret (Some st') /\ invariant (items ++ [i]) st'
  end.
Proof.
  intros I Hi. pose proof I as ((T & A & L) & C & H). cbn [settings alias lookup] in *.
  assert (Hl : forall j, ~ is_header j -> ((~ has_header (items ++ [j]) /\ get (st_current st) (st_settings st) = None) \/ last_header (items ++ [j]) (st_current st))).
  { intros j Hj. destruct H as [[H1 H2]|H]; [left; split; auto; rewrite has_header_snoc; tauto|right; apply last_snoc; auto]. }
  assert (Nh : ~ is_header i \/ exists n m, i = Header n m) by (destruct i; try (left; intros (n' & m' & K); discriminate K); right; eauto).
  pose proof (canonical_snoc items (st_canonical st) i C) as Cs.
  assert (Ai : (forall a b, i <> Alias a b) -> forall a b, get a (st_alias st) = Some b <-> aliased (items ++ [i]) a b).
  { intros Ni a b. rewrite aliased_snoc, A. unfold aliased. split; [intros K; right; split; auto|]. intros [K|[_ K]]; auto. exfalso. eapply Ni; eauto. }
  assert (Li : flat_map (fun i => match i with LookupLine e => [e] | _ => [] end) (items ++ [i]) = st_lookup st ++ match i with LookupLine e => [e] | _ => [] end).
  { rewrite flat_map_app, <- L. cbn [flat_map]. rewrite app_nil_r. reflexivity. }
  destruct i as [|op|x y|le|n m].
  - exists st. split; [reflexivity|]. unfold invariant, table_of. cbn [settings alias lookup]. splits; auto.
    + intros n e. rewrite T. symmetry. apply describes_other; [intros (n' & m' & K); discriminate K|discriminate].
    + apply Ai. discriminate.
    + rewrite Li, app_nil_r. reflexivity.
    + apply Hl. intros (n' & m' & K); discriminate K.
  - split.
    + intros Hh. destruct H as [[H1 _]|H]; [tauto|]. destruct (last_described _ _ _ I H) as (e0 & G). cbn [apply_item]. rewrite G. cbn [question]. eexists. split; [reflexivity|].
      unfold invariant, table_of. cbn [settings alias lookup st_settings st_alias st_lookup st_canonical st_current]. splits; auto.
      * intros n e. rewrite (describes_operator items op (st_current st)) by auto. rewrite get_insert. destruct (text_eqb_spec n (st_current st)) as [->|Ne].
        -- split.
           ++ intros [= <-]. left. split; auto. exists e0. split; auto. apply T. auto.
           ++ intros [(_ & e1 & D & ->)|[K _]]; [|congruence]. apply T in D. congruence.
        -- rewrite T. split; auto. intros [[K _]|[_ K]]; auto. congruence.
      * apply Ai. discriminate.
      * rewrite Li, app_nil_r. reflexivity.
      * right. apply last_snoc; auto. intros (n' & m' & K); discriminate K.
    + intros Hh. destruct H as [[_ H]|H]; [cbn [apply_item]; rewrite H; reflexivity|]. exfalso. apply Hh. destruct H as (a & m & b & -> & _). exists (Header (st_current st) m). split; [apply in_or_app; right; left; auto|eexists _, _; reflexivity].
  - eexists. split; [reflexivity|]. unfold invariant, table_of. cbn [settings alias lookup st_settings st_alias st_lookup st_canonical st_current]. splits; auto.
    + intros n e. rewrite T. symmetry. apply describes_other; [intros (n' & m' & K); discriminate K|discriminate].
    + intros a b. fold (aliased (items ++ [Alias x y]) a b). rewrite aliased_snoc, get_insert. destruct (text_eqb_spec a x) as [->|Ne].
      * split; [intros [= <-]; auto|]. intros [K|[K _]]; [congruence|]. exfalso. eapply K. reflexivity.
      * rewrite A. split; [intros K; right; split; [congruence|exact K]|]. intros [K|[_ K]]; [congruence|exact K].
    + rewrite Li, app_nil_r. reflexivity.
    + apply Hl. intros (n' & m' & K); discriminate K.
  - eexists. split; [reflexivity|]. unfold invariant, table_of. cbn [settings alias lookup st_settings st_alias st_lookup st_canonical st_current]. splits; auto.
    + intros n e. rewrite T. symmetry. apply describes_other; [intros (n' & m' & K); discriminate K|discriminate].
    + apply Ai. discriminate.
    + apply Hl. intros (n' & m' & K); discriminate K.
  - cbn [good_item] in Hi. destruct Hi as (b & Eb & Hb). cbn [apply_item]. rewrite Eb. cbn [bind]. eexists. split; [reflexivity|].
    assert (Cn : canonical_name (items ++ [Header n m]) (if b then n else st_canonical st)).
    { destruct b; apply Cs; [apply Hb; auto|]. intros K. apply Hb in K. discriminate. }
    unfold invariant, table_of. cbn [settings alias lookup st_settings st_alias st_lookup st_canonical st_current]. splits; auto.
    + intros n1 e. rewrite describes_header, get_insert. destruct (text_eqb_spec n1 n) as [->|Ne].
      * split.
        -- intros [= <-]. left. cbn [te_name te_canonical te_transform te_operators]. splits; auto.
        -- intros [(_ & E1 & E2 & E3 & E4)|[K _]]; [|congruence]. destruct e as [nm c t ops]. cbn [te_name te_canonical te_transform te_operators] in *. subst. f_equal. f_equal. eapply canonical_unique; eauto.
      * rewrite T. split; auto. intros [[K _]|[_ K]]; auto. congruence.
    + apply Ai. discriminate.
    + rewrite Li, app_nil_r. reflexivity.
    + right. exists items, m, []. split; auto. intros (i & [] & _).
Qed.
