(** The operator parser and the grammar of OpGrammar.v. *)
From Coq Require Import String Ascii List ZArith NArith Lia Bool PeanoNat QArith Qcanon.
From Verif Require Import Base ZQ Text ParseOp OpGrammar.
Import ListNotations.
Close Scope Q_scope. Close Scope Qc_scope.
Local Open Scope list_scope.
Open Scope nat_scope.

(** ** scanning *)
Definition starts (f : N -> bool) (t : text) : bool := match t with c :: _ => f c | [] => false end.
Definition skip (t : text) : text := snd (span is_blank t).

Lemma span_spec f t : span f t = (fst (span f t), snd (span f t)) /\ t = fst (span f t) ++ snd (span f t) /\ forallb f (fst (span f t)) = true /\ starts f (snd (span f t)) = false.
Proof.
  induction t as [|c t IH]; cbn [span]; [cbn; auto|]. destruct (f c) eqn:E; [|cbn [fst snd starts app]; auto].
  destruct (span f t) as [a b]. cbn [fst snd] in *. destruct IH as (_ & H1 & H2 & H3). splits; auto.
  - cbn [app]. congruence.
  - cbn [forallb]. rewrite E, H2. auto.
Qed.
Lemma span_app f a r : forallb f a = true -> starts f r = false -> span f (a ++ r) = (a, r).
Proof.
  induction a as [|c a IH]; cbn [forallb app]; intros H N.
  - destruct r as [|c r]; auto. cbn [starts] in N. cbn [span]. rewrite N. auto.
  - apply andb_true_iff in H as [H1 H2]. cbn [span]. rewrite H1, IH by auto. auto.
Qed.
Lemma starts_app f a r : a <> [] -> starts f (a ++ r) = starts f a.
Proof. destruct a; [congruence|auto]. Qed.
Lemma blank_bool c : is_blank c = true <-> blank c.
Proof. unfold is_blank, blank. rewrite orb_true_iff, !N.eqb_eq. tauto. Qed.
Lemma blanks_bool t : forallb is_blank t = true <-> blanks t.
Proof. unfold blanks. rewrite forallb_forall, Forall_forall. split; intros H c Hc; apply blank_bool; auto. Qed.
Lemma digit_bool c : is_digit c = true <-> exists k, digit c k.
Proof.
  unfold is_digit, digit. rewrite andb_true_iff, !N.leb_le. split.
  - intros H. exists (Z.of_N c - 48)%Z. split; lia.
  - intros (k & H & ->). lia.
Qed.
Lemma skip_blanks b r : blanks b -> starts is_blank r = false -> skip (b ++ r) = r.
Proof. intros H N. apply blanks_bool in H. unfold skip. rewrite span_app by auto. auto. Qed.
Lemma skip_nostart r : starts is_blank r = false -> skip r = r.
Proof. intros N. apply (skip_blanks [] r); auto. constructor. Qed.
Lemma space0_app b r : blanks b -> starts is_blank r = false -> space0 (b ++ r) = POk r b.
Proof. intros H N. apply blanks_bool in H. unfold space0. rewrite span_app by auto. auto. Qed.
Lemma space0_skip i : exists b, i = b ++ skip i /\ blanks b /\ space0 i = POk (skip i) b /\ starts is_blank (skip i) = false.
Proof.
  destruct (span_spec is_blank i) as (E & H & B & N). exists (fst (span is_blank i)). splits; auto; [apply blanks_bool; auto|]. unfold space0. rewrite E. auto.
Qed.
Lemma skip_app_blanks b r : blanks b -> skip (b ++ r) = skip r.
Proof.
  intros H. induction H as [|c b Hc H IH]; auto. apply blank_bool in Hc. unfold skip in *. cbn [app span]. rewrite Hc. destruct (span is_blank (b ++ r)). auto.
Qed.

Lemma starts_blanks f b r : blanks b -> f 32%N = false -> f 9%N = false -> starts f r = false -> starts f (b ++ r) = false.
Proof. intros [|c b' [->| ->] _] H1 H2 H3; auto. Qed.

(** ** numerals *)
Definition value (ds : text) : Z := fold_left (fun n c => n * 10 + (Z.of_N c - 48))%Z ds 0%Z.
Lemma numeral_value ds n : numeral ds n <-> ds <> [] /\ forallb is_digit ds = true /\ value ds = n.
Proof.
  split.
  - induction 1 as [c k [H ->]|ds n c k Hn (N & F & V) [H ->]].
    + splits; [discriminate| |].
      * cbn [forallb]. rewrite andb_true_r. apply digit_bool. exists k. unfold digit. auto.
      * unfold value. cbn [fold_left]. lia.
    + splits; [destruct ds; discriminate| |].
      * rewrite forallb_app, F. cbn [forallb]. rewrite andb_true_r. apply digit_bool. exists k. unfold digit. auto.
      * unfold value in *. rewrite fold_left_app. cbn [fold_left]. rewrite V. lia.
  - revert n. induction ds as [|c ds IH] using rev_ind; intros n (N & F & <-); [congruence|]. rewrite forallb_app in F. apply andb_true_iff in F as [F1 F2]. cbn [forallb] in F2.
    rewrite andb_true_r in F2. apply digit_bool in F2 as (k & Hk). unfold value. rewrite fold_left_app. cbn [fold_left]. fold (value ds).
    assert (Ek : (Z.of_N c - 48)%Z = k) by (destruct Hk as [Hk ->]; lia). rewrite Ek.
    destruct ds as [|c0 ds].
    + cbn [app]. unfold value. cbn [fold_left]. replace (0 * 10 + k)%Z with k by lia. constructor. auto.
    + replace (value (c0 :: ds) * 10 + k)%Z with (10 * value (c0 :: ds) + k)%Z by lia. constructor; auto. apply IH. splits; auto. discriminate.
Qed.
Lemma numeral_nonempty ds n : numeral ds n -> ds <> []. Proof. intros H. apply numeral_value in H. tauto. Qed.
Lemma numeral_starts ds n r : numeral ds n -> starts is_digit (ds ++ r) = true.
Proof. intros H. apply numeral_value in H as (N & F & _). destruct ds as [|c ds]; [congruence|]. cbn [forallb] in F. apply andb_true_iff in F as [F _]. auto. Qed.
Lemma digit_not f c : is_digit c = true -> (forall x, (48 <= x <= 57)%N -> f x = false) -> f c = false.
Proof. intros H G. unfold is_digit in H. apply andb_true_iff in H as [H1 H2]. apply N.leb_le in H1, H2. apply G. lia. Qed.
Lemma starts_excl f g t : starts f t = true -> (forall c, f c = true -> g c = false) -> starts g t = false.
Proof. destruct t as [|c t]; cbn; auto. Qed.
Lemma digit_not_blank c : is_digit c = true -> is_blank c = false.
Proof. unfold is_digit, is_blank. rewrite andb_true_iff, !N.leb_le, orb_false_iff, !N.eqb_neq. lia. Qed.

Lemma digit1_app ds r : ds <> [] -> forallb is_digit ds = true -> starts is_digit r = false -> digit1 (ds ++ r) = POk r ds.
Proof. intros N F S. unfold digit1. rewrite span_app by auto. destruct ds; [congruence|auto]. Qed.
Lemma integer_complete ds n r : numeral ds n -> short ds -> starts is_digit r = false -> integer_p (ds ++ r) = POk r n.
Proof.
  intros H L S. apply numeral_value in H as (N & F & V). unfold integer_p, map_opt. rewrite digit1_app by auto. cbn [pbind]. unfold map_integer, short in *.
  destruct (Nat.leb_spec (length ds) 9); [|lia]. fold (value ds). rewrite V. auto.
Qed.
Lemma integer_sound i r n : integer_p i = POk r n -> exists ds, i = ds ++ r /\ numeral ds n /\ short ds /\ starts is_digit r = false.
Proof.
  unfold integer_p, map_opt, digit1. destruct (span_spec is_digit i) as (E & H & F & S). rewrite E. destruct (fst (span is_digit i)) as [|c ds] eqn:D; cbn [pbind]; [discriminate|].
  unfold map_integer. destruct (Nat.leb_spec (length (c :: ds)) 9); [|discriminate]. fold (value (c :: ds)). intros [= <- <-]. exists (c :: ds). splits; auto.
  apply numeral_value. splits; auto. discriminate.
Qed.
Lemma integer_cases i : (exists r n, integer_p i = POk r n) \/ integer_p i = PError.
Proof.
  unfold integer_p, map_opt, digit1. destruct (span is_digit i) as [[|c ds] r]; cbn [pbind]; auto. destruct (map_integer (c :: ds)); eauto.
Qed.
Lemma integer_error i : starts is_digit i = false -> integer_p i = PError.
Proof. intros S. unfold integer_p, map_opt, digit1. destruct i as [|c i]; auto. cbn [starts] in S. cbn [span]. rewrite S. auto. Qed.

(** ** fractions *)
Definition slash : N := chr "/".
Definition no_frac (r : text) : Prop := starts is_digit r = false /\ starts (N.eqb slash) (skip r) = false.
Lemma char_cases c i : (exists r, i = c :: r /\ char_ c i = POk r c) \/ (starts (N.eqb c) i = false /\ char_ c i = PError).
Proof.
  destruct i as [|x r]; cbn [char_ starts]; auto. destruct (N.eqb_spec x c) as [->|N]; [left; eauto|right]. split; auto. apply N.eqb_neq. auto.
Qed.

Lemma fraction_complete f q r : fraction_text f q -> no_frac r -> unsigned_fraction (f ++ r) = POk r q.
Proof.
  intros H (S & K). destruct H as [ds n Hn L|a n b1 b2 b m Ha La H1 H2 Hb Lb Hm]; unfold unsigned_fraction, alt, map_out, separated_pair, pair_.
  - rewrite (integer_complete ds n r) by auto. cbn [pbind]. destruct (space0_skip r) as (b & _ & _ & -> & _). cbn [pbind].
    destruct (char_cases (chr "/") (skip r)) as [(r' & E & _)|(_ & ->)]; [rewrite E in K; discriminate K|]. cbn [pbind]. unfold map_opt. rewrite (integer_complete ds n r) by auto. reflexivity.
  - replace ((a ++ b1 ++ [chr "/"] ++ b2 ++ b) ++ r) with (a ++ (b1 ++ (slash :: (b2 ++ (b ++ r))))) by (rewrite <- !app_assoc; reflexivity).
    rewrite (integer_complete a n) by (auto; apply starts_blanks; auto). cbn [pbind].
    rewrite space0_app by auto. cbn [pbind]. unfold char_ at 1. change (slash =? chr "/")%N with true. cbn [pbind].
    rewrite space0_app; [|auto|]. 2: { eapply starts_excl; [apply (numeral_starts b m); auto|apply digit_not_blank]. }
    cbn [pbind]. rewrite (integer_complete b m) by auto. cbn [pbind fst snd]. unfold ratio_new. destruct (Z.eqb_spec m 0); [congruence|]. reflexivity.
Qed.
Lemma fraction_sound i r q : unsigned_fraction i = POk r q -> exists f, i = f ++ r /\ fraction_text f q.
Proof.
  unfold unsigned_fraction, alt, map_out, separated_pair, pair_. destruct (integer_cases i) as [(r1 & n & E)|E]; rewrite E; cbn [pbind].
  2: { unfold map_opt. rewrite E. discriminate. }
  apply integer_sound in E as Q. destruct Q as (a & -> & Ha & La & Sa).
  assert (Second : map_opt integer_p (fun n => Some (ZQ n)) (a ++ r1) = POk r q -> exists f, a ++ r1 = f ++ r /\ fraction_text f q).
  { unfold map_opt. rewrite E. cbn [pbind]. intros [= <- <-]. exists a. split; auto. constructor; auto. }
  destruct (space0_skip r1) as (b1 & E1 & B1 & -> & _). cbn [pbind]. destruct (char_cases (chr "/") (skip r1)) as [(r2 & E2 & ->)|(_ & ->)]; cbn [pbind]; auto.
  destruct (space0_skip r2) as (b2 & E3 & B2 & -> & _). cbn [pbind]. destruct (integer_cases (skip r2)) as [(r3 & m & E4)|E4]; rewrite E4; cbn [pbind]; auto.
  apply integer_sound in E4 as (b & E4 & Hb & Lb & _). cbn [fst snd]. unfold ratio_new. destruct (Z.eqb_spec m 0); [discriminate|]. cbn [omap bind]. intros [= <- <-].
  exists (a ++ b1 ++ [chr "/"] ++ b2 ++ b). split; [|constructor; auto]. rewrite E1, E2, E3, E4. rewrite <- !app_assoc. reflexivity.
Qed.
(** how it can panic *)
Lemma has_zero_app a i : has_zero i -> has_zero (a ++ i).
Proof. intros (pre & z & post & H & ->). exists (a ++ pre), z, post. split; auto. rewrite app_assoc. auto. Qed.
Lemma fraction_cases i : (exists r q, unsigned_fraction i = POk r q) \/ unsigned_fraction i = PError \/ (unsigned_fraction i = PPanic /\ has_zero i).
Proof.
  unfold unsigned_fraction, alt, map_out, separated_pair, pair_. destruct (integer_cases i) as [(r1 & n & E)|E]; rewrite E; cbn [pbind].
  2: { unfold map_opt. rewrite E. auto. }
  assert (Second : exists r q, map_opt integer_p (fun n => Some (ZQ n)) i = POk r q) by (unfold map_opt; rewrite E; cbn [pbind]; eauto).
  destruct (space0_skip r1) as (b1 & E1 & B1 & -> & _). cbn [pbind]. destruct (char_cases (chr "/") (skip r1)) as [(r2 & E2 & ->)|(_ & ->)]; cbn [pbind]; auto.
  destruct (space0_skip r2) as (b2 & E3 & B2 & -> & _). cbn [pbind]. destruct (integer_cases (skip r2)) as [(r3 & m & E4)|E4]; rewrite E4; cbn [pbind]; auto.
  cbn [fst snd]. unfold ratio_new. destruct (Z.eqb_spec m 0) as [->|N]; cbn [omap bind]; [|eauto].
  right; right. split; auto. apply integer_sound in E as (a & -> & Ha & _). apply integer_sound in E4 as (b & E4 & Hb & _).
  exists [], (a ++ b1 ++ [chr "/"] ++ b2 ++ b), r3. split; [exists a, n, b1, b2, b; auto|]. rewrite E1, E2, E3, E4. rewrite <- !app_assoc. reflexivity.
Qed.
Lemma fraction_error i : starts is_digit i = false -> unsigned_fraction i = PError.
Proof. intros S. unfold unsigned_fraction, alt, map_out, separated_pair, map_opt. rewrite integer_error by auto. reflexivity. Qed.
Lemma fraction_starts f q r : fraction_text f q -> starts is_digit (f ++ r) = true.
Proof. intros [ds n H _|a n b1 b2 b m H _ _ _ _ _ _]; [eapply numeral_starts; eauto|]. rewrite <- app_assoc. eapply numeral_starts; eauto. Qed.

(** ** terms *)
Definition is_axis (c : N) : bool := existsb (N.eqb c) [chr "x"; chr "y"; chr "z"].
Definition is_sign (c : N) : bool := existsb (N.eqb c) [chr "+"; chr "-"].
Lemma axis_letter_bool c : is_axis c = true <-> exists k, axis_letter c k.
Proof.
  unfold is_axis. cbn [existsb]. rewrite !orb_true_iff, !N.eqb_eq. split.
  - intros [->|[->|[->|H]]]; [eexists; constructor|eexists; constructor|eexists; constructor|discriminate H].
  - intros (k & [| |]); auto.
Qed.
Lemma axis_complete c k r : axis_letter c k -> axis_p (c :: r) = POk r (Some k).
Proof. intros [| |]; reflexivity. Qed.
Lemma axis_sound i r a : axis_p i = POk r a -> exists c k, i = c :: r /\ a = Some k /\ axis_letter c k.
Proof.
  unfold axis_p, map_opt, one_of. destruct i as [|c i]; cbn [pbind]; [discriminate|]. destruct (existsb (N.eqb c) _) eqn:E; cbn [pbind]; [|discriminate].
  destruct (proj1 (axis_letter_bool c) E) as (k & Hk). unfold map_axis. destruct Hk; cbn; intros [= <- <-]; eexists _, _; splits; eauto; constructor.
Qed.
Lemma axis_error i : starts is_axis i = false -> axis_p i = PError.
Proof. unfold axis_p, map_opt, one_of. destruct i as [|c i]; auto. cbn [starts]. unfold is_axis. intros ->. auto. Qed.
Lemma axis_cases i : (exists r a, axis_p i = POk r a) \/ axis_p i = PError.
Proof. destruct (starts is_axis i) eqn:E; [left|right; apply axis_error; auto]. destruct i as [|c i]; [discriminate|]. apply axis_letter_bool in E as (k & H). eauto using axis_complete. Qed.

(** what may follow a term *)
Definition no_term (r : text) : Prop := no_frac r /\ starts (N.eqb (chr "*")) r = false /\ starts is_axis (skip r) = false.
Lemma axis_facts c k : axis_letter c k -> is_digit c = false /\ is_blank c = false /\ is_sign c = false /\ N.eqb (chr "*") c = false /\ N.eqb slash c = false.
Proof. intros [| |]; repeat split. Qed.

Lemma unsigned_complete u q a r : unsigned_text u q a -> no_term r -> unsigned_term (u ++ r) = POk r (q, a).
Proof.
  intros H (Nf & Ns & Na). unfold unsigned_term, alt, map_opt, separated_pair. destruct H as [f q c k Hf Hc|f q b c k Hf Hb Hc|f q Hf|c k Hc].
  - rewrite <- app_assoc. cbn [app]. rewrite (fraction_complete f q) by (auto; split; reflexivity). cbn [pbind]. unfold char_ at 1. rewrite N.eqb_refl. cbn [pbind].
    rewrite (axis_complete c k) by auto. reflexivity.
  - replace ((f ++ b ++ [c]) ++ r) with (f ++ (b ++ (c :: r))) by (rewrite <- !app_assoc; reflexivity). destruct (axis_facts c k Hc) as (F1 & F2 & _ & F4 & F5).
    assert (Nf' : no_frac (b ++ c :: r)). { split; [apply starts_blanks; auto|]. rewrite skip_blanks by auto. auto. }
    rewrite (fraction_complete f q) by auto. cbn [pbind].
    destruct (char_cases (chr "*") (b ++ c :: r)) as [(r' & E & _)|(_ & ->)].
    { assert (starts (N.eqb (chr "*")) (b ++ c :: r) = false) by (apply starts_blanks; auto). rewrite E in H. discriminate H. }
    cbn [pbind]. rewrite space0_app by auto. cbn [pbind]. rewrite (axis_complete c k) by auto. reflexivity.
  - rewrite (fraction_complete f q) by auto. cbn [pbind]. destruct (char_cases (chr "*") r) as [(r' & -> & _)|(_ & ->)]; [discriminate Ns|]. cbn [pbind].
    destruct (space0_skip r) as (b & _ & _ & -> & _). cbn [pbind]. rewrite axis_error by auto. reflexivity.
  - cbn [app]. destruct (axis_facts c k Hc) as (F1 & _). rewrite fraction_error by auto. cbn [pbind]. rewrite (axis_complete c k) by auto. reflexivity.
Qed.
Lemma unsigned_sound i r q a : unsigned_term i = POk r (q, a) -> exists u, i = u ++ r /\ unsigned_text u q a.
Proof.
  unfold unsigned_term, alt, map_opt, separated_pair. destruct (fraction_cases i) as [(r1 & q1 & E)|[E|[E _]]]; rewrite E; cbn [pbind]; [|destruct (axis_cases i) as [(r2 & a2 & E2)|E2]; rewrite E2; cbn [pbind]; [|discriminate]|discriminate].
  - apply fraction_sound in E as (f & -> & Hf).
    assert (Third : POk r1 (q1, @None nat) = POk r (q, a) -> exists u, f ++ r1 = u ++ r /\ unsigned_text u q a) by (intros [= <- <- <-]; exists f; split; auto; constructor; auto).
    assert (Second : match pbind (pbind (space0 r1) (fun r' _ => pbind (axis_p r') (fun r'' c => POk r'' (q1, c)))) (fun r a => POk r a) with PError => POk r1 (q1, None) | r => r end = POk r (q, a) ->
       exists u, f ++ r1 = u ++ r /\ unsigned_text u q a).
    { destruct (space0_skip r1) as (b & E1 & B & -> & _). cbn [pbind]. destruct (axis_cases (skip r1)) as [(r2 & a2 & E2)|E2]; rewrite E2; cbn [pbind]; auto. intros [= <- <- <-].
      apply axis_sound in E2 as (c & k & E3 & -> & Hc). exists (f ++ b ++ [c]). split; [|constructor; auto]. rewrite E1, E3, <- !app_assoc. reflexivity. }
    destruct (char_cases (chr "*") r1) as [(r2 & -> & ->)|(_ & ->)]; cbn [pbind]; auto. destruct (axis_cases r2) as [(r3 & a3 & E3)|E3]; rewrite E3; cbn [pbind]; auto. intros [= <- <- <-].
    apply axis_sound in E3 as (c & k & -> & -> & Hc). exists (f ++ [chr "*"; c]). split; [|constructor; auto]. rewrite <- app_assoc. reflexivity.
  - intros [= <- <- <-]. apply axis_sound in E2 as (c & k & -> & -> & Hc). exists [c]. split; auto. constructor. auto.
Qed.
Lemma unsigned_cases i : (exists r q a, unsigned_term i = POk r (q, a)) \/ unsigned_term i = PError \/ (unsigned_term i = PPanic /\ has_zero i).
Proof.
  unfold unsigned_term, alt, map_opt, separated_pair. destruct (fraction_cases i) as [(r1 & q1 & E)|[E|[E Z]]]; rewrite E; cbn [pbind]; [| |auto].
  - destruct (char_cases (chr "*") r1) as [(r2 & -> & ->)|(_ & ->)]; cbn [pbind].
    + destruct (axis_cases r2) as [(r3 & a3 & E3)|E3]; rewrite E3; cbn [pbind]; [eauto|]. destruct (space0_skip (chr "*" :: r2)) as (b & E1 & B & -> & _). cbn [pbind].
      destruct (axis_cases (skip (chr "*" :: r2))) as [(r4 & a4 & E4)|E4]; rewrite E4; cbn [pbind]; eauto.
    + destruct (space0_skip r1) as (b & E1 & B & -> & _). cbn [pbind]. destruct (axis_cases (skip r1)) as [(r4 & a4 & E4)|E4]; rewrite E4; cbn [pbind]; eauto.
  - destruct (axis_cases i) as [(r2 & a2 & E2)|E2]; rewrite E2; cbn [pbind]; eauto.
Qed.
Definition is_first (c : N) : bool := is_digit c || is_axis c.
Lemma unsigned_starts u q a r : unsigned_text u q a -> starts is_first (u ++ r) = true.
Proof.
  assert (K : forall t, starts is_digit t = true -> starts is_first t = true) by (intros [|c t]; cbn; [discriminate|unfold is_first; intros ->; auto]).
  intros [f q' c k Hf Hc|f q' b c k Hf Hb Hc|f q' Hf|c k Hc]; rewrite <- ?app_assoc; try (apply K; eapply fraction_starts; eauto; fail).
  cbn. unfold is_first. apply orb_true_iff. right. apply axis_letter_bool. eauto.
Qed.
Lemma first_facts c : is_first c = true -> is_blank c = false /\ is_sign c = false.
Proof.
  unfold is_first. intros H. apply orb_true_iff in H as [H|H].
  - split; [apply digit_not_blank; auto|]. unfold is_digit in H. apply andb_true_iff in H as [H1 H2]. apply N.leb_le in H1, H2. unfold is_sign. cbn. rewrite !orb_false_iff, !N.eqb_neq. lia.
  - apply axis_letter_bool in H as (k & H). destruct (axis_facts c k H) as (_ & ? & ? & _). auto.
Qed.

(** ** signed terms *)
Lemma sign_cases i : (exists c r s, i = c :: r /\ sign_p i = POk r s /\ ((c = chr "+" /\ s = 1%Z) \/ (c = chr "-" /\ s = (-1)%Z))) \/ (starts is_sign i = false /\ sign_p i = PError).
Proof.
  unfold sign_p, map_opt, one_of. destruct i as [|c r]; [right; auto|]. cbn [starts]. unfold is_sign. destruct (existsb (N.eqb c) _) eqn:E; cbn [pbind]; [left|right; auto].
  cbn [existsb] in E. rewrite !orb_true_iff, !N.eqb_eq in E. destruct E as [->|[->|E]]; [| |discriminate E]; eexists _, _, _; splits; try reflexivity; auto.
Qed.
Lemma sign_error i : starts is_sign i = false -> sign_p i = PError.
Proof. intros S. destruct (sign_cases i) as [(c & r & s & -> & _ & [[-> _]|[-> _]])|[_ H]]; auto; discriminate S. Qed.
Lemma signed_complete u q a r : signed_text u q a -> no_term r -> signed_term (u ++ r) = POk r (q, a).
Proof.
  intros H N. assert (K : forall b u q' a' c s, blanks b -> unsigned_text u q' a' -> sign_p (c :: (b ++ (u ++ r))) = POk (b ++ (u ++ r)) s ->
    signed_term (([c] ++ b ++ u) ++ r) = POk r ((ZQ s * q')%Qc, a')).
  { intros b u' q' a' c s Hb Hu E. replace (([c] ++ b ++ u') ++ r) with (c :: (b ++ (u' ++ r))) by (rewrite <- !app_assoc; reflexivity). unfold signed_term, map_opt, separated_pair. rewrite E. cbn [pbind].
    rewrite space0_app; [|auto|]. 2: { eapply starts_excl; [eapply unsigned_starts; eauto|]. intros x Hx. apply first_facts; auto. }
    cbn [pbind]. rewrite (unsigned_complete u' q' a') by auto. reflexivity. }
  destruct H as [b u q a Hb Hu|b u q a Hb Hu].
  - rewrite (K b u q a (chr "+") 1%Z Hb Hu eq_refl). assert (E : (ZQ 1 * q = q)%Qc) by (change (ZQ 1) with 1%Qc; ring). rewrite E. reflexivity.
  - rewrite (K b u q a (chr "-") (-1)%Z Hb Hu eq_refl). assert (E : (ZQ (-1) * q = - q)%Qc) by (change (ZQ (-1)) with (- (1))%Qc; ring). rewrite E. reflexivity.
Qed.
Lemma signed_sound i r q a : signed_term i = POk r (q, a) -> exists u, i = u ++ r /\ signed_text u q a.
Proof.
  unfold signed_term, map_opt, separated_pair. destruct (sign_cases i) as [(c & r1 & s & -> & -> & H)|(_ & ->)]; cbn [pbind]; [|discriminate].
  destruct (space0_skip r1) as (b & E1 & B & -> & _). cbn [pbind]. destruct (unsigned_cases (skip r1)) as [(r2 & q2 & a2 & E2)|[E2|[E2 _]]]; rewrite E2; cbn [pbind fst snd]; try discriminate.
  apply unsigned_sound in E2 as (u & E2 & Hu). intros [= <- <- <-]. exists ([c] ++ b ++ u). split; [rewrite E1, E2, <- !app_assoc; reflexivity|]. destruct H as [[-> ->]|[-> ->]].
  - replace (ZQ 1 * q2)%Qc with q2 by (change (ZQ 1) with 1%Qc; ring). constructor; auto.
  - replace (ZQ (-1) * q2)%Qc with (- q2)%Qc by (change (ZQ (-1)) with (- (1))%Qc; ring). constructor; auto.
Qed.
Lemma signed_cases i : (exists r q a, signed_term i = POk r (q, a)) \/ signed_term i = PError \/ (signed_term i = PPanic /\ has_zero i).
Proof.
  unfold signed_term, map_opt, separated_pair. destruct (sign_cases i) as [(c & r1 & s & -> & -> & H)|(_ & ->)]; cbn [pbind]; auto.
  destruct (space0_skip r1) as (b & E1 & B & -> & _). cbn [pbind]. destruct (unsigned_cases (skip r1)) as [(r2 & q2 & a2 & E2)|[E2|[E2 Z]]]; rewrite E2; cbn [pbind fst snd]; eauto.
  right; right. split; auto. rewrite E1. change (c :: b ++ skip r1) with ([c] ++ b ++ skip r1). apply has_zero_app, has_zero_app. auto.
Qed.
Lemma signed_error i : starts is_sign i = false -> signed_term i = PError.
Proof. intros S. unfold signed_term, map_opt, separated_pair. rewrite sign_error by auto. reflexivity. Qed.
Lemma signed_starts u q a r : signed_text u q a -> starts is_sign (u ++ r) = true.
Proof. intros [b v q' a' _ _|b v q' a' _ _]; reflexivity. Qed.
Lemma sign_facts c : is_sign c = true -> is_blank c = false /\ is_digit c = false /\ is_axis c = false /\ N.eqb (chr "*") c = false /\ N.eqb slash c = false.
Proof. unfold is_sign. cbn [existsb]. rewrite !orb_true_iff, !N.eqb_eq. intros [->|[->|H]]; [repeat split|repeat split|discriminate H]. Qed.
Lemma term_complete u q a r : signed_text u q a \/ unsigned_text u q a -> no_term r -> term_p (u ++ r) = POk r (q, a).
Proof.
  intros [H|H] N; unfold term_p, alt; [rewrite (signed_complete u q a) by auto; auto|]. rewrite signed_error; [apply unsigned_complete; auto|].
  eapply starts_excl; [eapply unsigned_starts; eauto|]. intros c Hc. apply first_facts; auto.
Qed.
Lemma term_sound i r q a : term_p i = POk r (q, a) -> exists u, i = u ++ r /\ (signed_text u q a \/ unsigned_text u q a).
Proof.
  unfold term_p, alt. destruct (signed_cases i) as [(r1 & q1 & a1 & E)|[E|[E _]]]; rewrite E; [|  |discriminate].
  - intros [= <- <- <-]. apply signed_sound in E as (u & -> & H). eauto.
  - intros E2. apply unsigned_sound in E2 as (u & -> & H). eauto.
Qed.
Lemma term_cases i : (exists r q a, term_p i = POk r (q, a)) \/ term_p i = PError \/ (term_p i = PPanic /\ has_zero i).
Proof. unfold term_p, alt. destruct (signed_cases i) as [(r1 & q1 & a1 & E)|[E|[E Z]]]; rewrite E; eauto. apply unsigned_cases. Qed.

(** ** checked addition *)
Lemma i32_spec z : i32 z = if ((- 2 ^ 31 <=? z) && (z <? 2 ^ 31))%Z then Some z else None. Proof. reflexivity. Qed.
Lemma i32_some z : i32_range z -> i32 z = Some z.
Proof. unfold i32_range, i32. intros H. assert (((- 2 ^ 31 <=? z) && (z <? 2 ^ 31))%Z = true) as ->; auto. apply andb_true_iff. rewrite Z.leb_le, Z.ltb_lt. lia. Qed.
Lemma i32_inv z x : i32 z = Some x -> x = z /\ i32_range z.
Proof. unfold i32, i32_range. destruct ((- 2 ^ 31 <=? z) && (z <? 2 ^ 31))%Z eqn:E; [|discriminate]. intros [= <-]. apply andb_true_iff in E as [E1 E2]. apply Z.leb_le in E1. apply Z.ltb_lt in E2. split; auto. Qed.
Lemma num_den (p : Qc) : (p = ZQ (Qnum p) / ZQ (Z.pos (Qden p)))%Qc.
Proof.
  apply Qc_is_canon. unfold Qcdiv, Qcmult, Qcinv, ZQ. cbn [this Q2Qc]. rewrite !Qred_correct. unfold Qinv, inject_Z. cbn. destruct (this p) as [n d]. cbn. unfold Qeq. cbn. lia.
Qed.
Lemma ZQ_nz z : z <> 0%Z -> ZQ z <> 0%Qc. Proof. intros H E. apply ZQ_eq0 in E. auto. Qed.
Lemma lcm_form a b : (0 < a -> 0 < b -> a / Z.gcd a b * b = Z.lcm a b)%Z.
Proof.
  intros Ha Hb. pose proof (Z.gcd_nonneg a b) as G. assert (Z.gcd a b <> 0)%Z by (intros E; apply Z.gcd_eq_0_l in E; lia).
  unfold Z.lcm. destruct (Z.gcd_divide_l a b) as [x Hx], (Z.gcd_divide_r a b) as [y Hy]. set (g := Z.gcd a b) in *. clearbody g. subst a b. rewrite !Z.div_mul by auto. rewrite Z.abs_eq by nia. ring.
Qed.
Lemma scaled_num (p : Qc) l : (Z.pos (Qden p) | l)%Z -> (ZQ (l / Z.pos (Qden p) * Qnum p) = p * ZQ l)%Qc.
Proof.
  intros [k ->]. rewrite Z.div_mul by lia. rewrite (num_den p) at 2. rewrite !ZQ_mul. assert (ZQ (Z.pos (Qden p)) <> 0%Qc) by (apply ZQ_nz; lia). field. auto.
Qed.
Lemma checked_add_spec p q s : checked_add p q = Some s <-> addition_fits p q /\ s = (p + q)%Qc.
Proof.
  unfold checked_add, addition_fits. rewrite lcm_form by lia. set (l := Z.lcm (Z.pos (Qden p)) (Z.pos (Qden q))).
  assert (Hp : (Z.pos (Qden p) | l)%Z) by apply Z.divide_lcm_l. assert (Hq : (Z.pos (Qden q) | l)%Z) by apply Z.divide_lcm_r.
  assert (L0 : (l <> 0)%Z). { unfold l. intros E. apply Z.lcm_eq_0 in E. lia. }
  pose proof (scaled_num p l Hp) as Ep. pose proof (scaled_num q l Hq) as Eq. set (a := (l / Z.pos (Qden p) * Qnum p)%Z) in *. set (b := (l / Z.pos (Qden q) * Qnum q)%Z) in *.
  assert (Sum : (ZQ (a + b) / ZQ l = p + q)%Qc). { rewrite ZQ_add, Ep, Eq. field. apply ZQ_nz; auto. }
  split.
  - destruct (i32 l) as [l'|] eqn:E1; cbn [obind]; [|discriminate]. apply i32_inv in E1 as [-> R1]. fold a b.
    destruct (i32 a) as [a'|] eqn:E2; cbn [obind]; [|discriminate]. apply i32_inv in E2 as [-> R2]. destruct (i32 b) as [b'|] eqn:E3; cbn [obind]; [|discriminate]. apply i32_inv in E3 as [-> R3].
    destruct (i32 (a + b)) as [c'|] eqn:E4; cbn [obind]; [|discriminate]. apply i32_inv in E4 as [-> R4]. intros [= <-]. splits; auto.
    intros a' b' Ha Hb. rewrite <- Ep in Ha. rewrite <- Eq in Hb. apply ZQ_inj in Ha as ->, Hb as ->. auto.
  - intros ((R1 & R) & ->). destruct (R a b Ep Eq) as (R2 & R3 & R4). rewrite i32_some by auto. cbn [obind]. fold a b. rewrite i32_some by auto. cbn [obind]. rewrite i32_some by auto. cbn [obind].
    rewrite i32_some by auto. cbn [obind]. rewrite Sum. reflexivity.
Qed.

(** ** collecting terms *)
Definition known (ts : list (Qc * option nat)) : Prop := Forall (fun t => match snd t with Some k => k < 3 | None => True end) ts.
Definition collected (ts : list (Qc * option nat)) : list Qc * Qc := ([coefficient (Some 0) ts; coefficient (Some 1) ts; coefficient (Some 2) ts], coefficient None ts).
Lemma coefficient_snoc a ts q b : coefficient a (ts ++ [(q, b)]) = if same_axis a b then (q + coefficient a ts)%Qc else coefficient a ts.
Proof.
  unfold coefficient. induction ts as [|[q' b'] ts IH]; cbn [app fold_right fst snd]; [destruct (same_axis a b); auto|]. rewrite IH. destruct (same_axis a b), (same_axis a b'); auto. ring.
Qed.
Lemma collect_step_spec pre q a r : (match a with Some k => k < 3 | None => True end) ->
  collect_step (collected pre) (q, a) = Some r <-> addition_fits q (coefficient a pre) /\ r = collected (pre ++ [(q, a)]).
Proof.
  intros Hk. unfold collect_step, collected at 1. destruct a as [k|].
  - assert (E : nth k [coefficient (Some 0) pre; coefficient (Some 1) pre; coefficient (Some 2) pre] 0%Qc = coefficient (Some k) pre) by (destruct k as [|[|[|k]]]; auto; lia).
    rewrite E. destruct (checked_add q (coefficient (Some k) pre)) as [s|] eqn:C; cbn [obind].
    + apply checked_add_spec in C as [F ->]. unfold collected. rewrite !coefficient_snoc. destruct k as [|[|[|k]]]; [| | |lia]; cbn [same_axis Nat.eqb firstn skipn app];
        (split; [intros [= <-]; auto|intros [_ ->]; auto]).
    + split; [discriminate|]. intros [F _]. assert (checked_add q (coefficient (Some k) pre) = Some (q + coefficient (Some k) pre)%Qc) by (apply checked_add_spec; auto). congruence.
  - destruct (checked_add q (coefficient None pre)) as [s|] eqn:C; cbn [obind].
    + apply checked_add_spec in C as [F ->]. unfold collected. rewrite !coefficient_snoc. cbn [same_axis]. split; [intros [= <-]; auto|intros [_ ->]; auto].
    + split; [discriminate|]. intros [F _]. assert (checked_add q (coefficient None pre) = Some (q + coefficient None pre)%Qc) by (apply checked_add_spec; auto). congruence.
Qed.
Lemma collect_none ts : fold_left (fun o t => obind o (fun rs => collect_step rs t)) ts None = None.
Proof. induction ts; auto. Qed.
Lemma collect_spec ts r : known ts -> collect_terms ts = Some r <-> sums_fit ts /\ r = collected ts.
Proof.
  intros K. unfold collect_terms. change (Some ([0%Qc; 0%Qc; 0%Qc], 0%Qc)) with (Some (collected [])).
  enough (G : forall pre, fold_left (fun o t => obind o (fun rs => collect_step rs t)) ts (Some (collected pre)) = Some r <->
     (forall p q a post, ts = p ++ (q, a) :: post -> addition_fits q (coefficient a (pre ++ p))) /\ r = collected (pre ++ ts)) by exact (G []).
  induction K as [|[q a] ts Hk K IH]; intros pre; cbn [fold_left obind].
  - rewrite app_nil_r. split; [intros [= <-]; split; auto; intros [|]; discriminate|intros [_ ->]; auto].
  - destruct (collect_step (collected pre) (q, a)) as [r1|] eqn:E.
    + apply collect_step_spec in E as [F ->]; auto. rewrite IH, <- app_assoc. cbn [app]. split; intros [H ->]; split; auto.
      * intros [|[q0 a0] p] q' a' post [= E1 E2].
        -- subst. rewrite app_nil_r. auto.
        -- subst. specialize (H p q' a' post eq_refl). rewrite <- app_assoc in H. exact H.
      * intros p q' a' post E1. specialize (H ((q, a) :: p) q' a' post). rewrite <- app_assoc. apply H. rewrite E1. reflexivity.
    + rewrite collect_none. split; [discriminate|]. intros [H _]. specialize (H [] q a ts eq_refl). rewrite app_nil_r in H.
      assert (collect_step (collected pre) (q, a) = Some (collected (pre ++ [(q, a)]))) by (apply collect_step_spec; auto). congruence.
Qed.

(** ** coordinates *)
Lemma unsigned_known u q a : unsigned_text u q a -> match a with Some k => k < 3 | None => True end.
Proof. intros [f q' c k Hf Hc|f q' b c k Hf Hb Hc|f q' Hf|c k Hc]; auto; destruct Hc; auto. Qed.
Lemma signed_known u q a : signed_text u q a -> match a with Some k => k < 3 | None => True end.
Proof. intros [b v q' a' _ H|b v q' a' _ H]; eapply unsigned_known; eauto. Qed.
Lemma more_known t ts : more_terms t ts -> known ts.
Proof. induction 1 as [|b s q a t ts Hb Hs Ht IH]; constructor; auto. cbn. eapply signed_known; eauto. Qed.
Lemma coordinate_known t ts : coordinate_text t ts -> known ts.
Proof. intros [s q a t' ts' H M|s q a t' ts' H M]; constructor; cbn [snd]; [exact (signed_known _ _ _ H)|exact (more_known _ _ M)|exact (unsigned_known _ _ _ H)|exact (more_known _ _ M)]. Qed.

(** what may follow a coordinate: a text that continues no term and on which the parser finds no further term *)
Definition next_term : parser (Qc * option nat) := preceded space0 signed_term.
Definition no_coordinate (r : text) : Prop := no_term r /\ next_term r = PError.
Lemma no_sign_next r : starts is_sign (skip r) = false -> next_term r = PError.
Proof. intros S. unfold next_term, preceded. destruct (space0_skip r) as (b & _ & _ & -> & _). cbn [pbind]. apply signed_error. auto. Qed.
Lemma sign_no_term b s q a r : blanks b -> signed_text s q a -> no_term (b ++ s ++ r).
Proof.
  intros Hb Hs. pose proof (signed_starts s q a r Hs) as S. assert (X : forall g, (forall c, is_sign c = true -> g c = false) -> starts g (s ++ r) = false) by (intros g Hg; eapply starts_excl; eauto).
  assert (K : skip (b ++ s ++ r) = s ++ r) by (apply skip_blanks; auto; apply X; intros c Hc; apply sign_facts; auto).
  unfold no_term, no_frac. rewrite K. splits; try (apply starts_blanks; [exact Hb|reflexivity|reflexivity|]); apply X; intros c Hc; apply sign_facts; auto.
Qed.
Lemma next_complete b s q a r : blanks b -> signed_text s q a -> no_term r -> next_term (b ++ s ++ r) = POk r (q, a).
Proof.
  intros Hb Hs N. unfold next_term, preceded. rewrite space0_app; auto.
  - cbn [pbind]. apply signed_complete; auto.
  - eapply starts_excl; [eapply signed_starts; eauto|]. intros c Hc. apply sign_facts; auto.
Qed.
Lemma next_cases i : (exists r q a b s, next_term i = POk r (q, a) /\ blanks b /\ signed_text s q a /\ i = b ++ s ++ r) \/ next_term i = PError \/ (next_term i = PPanic /\ has_zero i).
Proof.
  unfold next_term, preceded. destruct (space0_skip i) as (b & E & B & -> & _). cbn [pbind]. destruct (signed_cases (skip i)) as [(r & q & a & H)|[H|[H Z]]]; rewrite H; auto.
  - left. apply signed_sound in H as (s & E2 & Hs). exists r, q, a, b, s. splits; auto. congruence.
  - right; right. split; auto. rewrite E. apply has_zero_app; auto.
Qed.
Lemma signed_nonempty s q a : signed_text s q a -> 0 < length s.
Proof. intros [b v q' a' _ _|b v q' a' _ _]; cbn; lia. Qed.
Lemma many_complete t ts r : more_terms t ts -> no_coordinate r -> forall fuel acc, length t <= fuel -> many0_ fuel next_term acc (t ++ r) = POk r (acc ++ ts).
Proof.
  intros H N. induction H as [|b s q a t ts Hb Hs Ht IH]; intros fuel acc Hf.
  - cbn [app]. assert (E : next_term r = PError) by apply N.
    rewrite app_nil_r. destruct fuel; cbn [many0_]; rewrite E; auto.
  - assert (Nt : no_term (t ++ r)). { destruct Ht as [|b' s' q' a' t' ts' Hb' Hs' Ht']; [apply N|]. rewrite <- !app_assoc. eapply sign_no_term; eauto. }
    rewrite <- !app_assoc. pose proof (signed_nonempty s q a Hs) as Ln. rewrite !app_length in Hf. destruct fuel as [|fuel]; [lia|]. cbn [many0_]. rewrite (next_complete b s q a) by auto.
    destruct (Nat.eqb_spec (length (t ++ r)) (length (b ++ s ++ t ++ r))) as [E|_]; [rewrite !app_length in E; lia|]. rewrite IH by lia. rewrite <- app_assoc. reflexivity.
Qed.
Lemma many_cases : forall fuel i acc, length i <= fuel -> (exists r t ts, many0_ fuel next_term acc i = POk r (acc ++ ts) /\ i = t ++ r /\ more_terms t ts) \/ (many0_ fuel next_term acc i = PPanic /\ has_zero i).
Proof.
  induction fuel as [|fuel IH]; intros i acc L; cbn [many0_].
  - destruct i; [|cbn in L; lia]. change (next_term []) with (@PError (Qc * option nat)). left. exists [], [], []. splits; auto; [rewrite app_nil_r; auto|constructor].
  - destruct (next_cases i) as [(r & q & a & b & s & E & Hb & Hs & Ei)|[E|[E Z]]]; rewrite E; [| |auto].
    + pose proof (signed_nonempty s q a Hs) as Ln. assert (L2 : length i = length b + length s + length r) by (rewrite Ei, !app_length; lia).
      destruct (Nat.eqb_spec (length r) (length i)) as [E2|_]; [lia|]. destruct (IH r (acc ++ [(q, a)])) as [(r' & t & ts & E2 & Er & M)|[E2 Z]]; [lia| |].
      * left. exists r', (b ++ s ++ t), ((q, a) :: ts). splits; [rewrite E2, <- app_assoc; reflexivity|rewrite Ei, Er, <- !app_assoc; reflexivity|constructor; auto].
      * right. split; auto. rewrite Ei. apply has_zero_app, has_zero_app; auto.
    + left. exists i, [], []. splits; auto; [rewrite app_nil_r; auto|constructor].
Qed.

Lemma coordinate_complete t ts r : coordinate_text t ts -> sums_fit ts -> no_coordinate r -> coordinate_p (t ++ r) = POk r (collected ts).
Proof.
  intros H F N. pose proof (coordinate_known t ts H) as K.
  assert (G : forall s q a t' ts', signed_text s q a \/ unsigned_text s q a -> more_terms t' ts' -> ts = (q, a) :: ts' -> coordinate_p ((s ++ t') ++ r) = POk r (collected ts)).
  { intros s q a t' ts' Hs M Et. unfold coordinate_p, map_opt, pair_. rewrite <- app_assoc. rewrite (term_complete s q a); auto.
    - cbn [pbind]. unfold many0. fold next_term. rewrite (many_complete t' ts' r) by (auto; rewrite app_length; lia). cbn [pbind app fst snd]. rewrite <- Et.
      assert (collect_terms ts = Some (collected ts)) as -> by (apply collect_spec; auto). reflexivity.
    - destruct M as [|b' s' q' a' t'' ts'' Hb' Hs' Ht']; [apply N|]. rewrite <- !app_assoc. eapply sign_no_term; eauto. }
  destruct H as [s q a t' ts' Hs M|s q a t' ts' Hs M]; eapply G; eauto.
Qed.
Lemma coordinate_sound i r c : coordinate_p i = POk r c -> exists t ts, i = t ++ r /\ coordinate_text t ts /\ sums_fit ts /\ c = collected ts.
Proof.
  unfold coordinate_p, map_opt, pair_. destruct (term_cases i) as [(r1 & q & a & E)|[E|[E _]]]; rewrite E; cbn [pbind]; try discriminate.
  apply term_sound in E as (u & -> & Hu). unfold many0. fold next_term. destruct (many_cases (length r1) r1 []) as [(r2 & t & ts & E & -> & M)|[E _]]; auto; rewrite E; cbn [pbind app fst snd]; [|discriminate].
  destruct (collect_terms ((q, a) :: ts)) as [c'|] eqn:C; [|discriminate]. intros [= <- <-].
  assert (H : coordinate_text (u ++ t) ((q, a) :: ts)) by (destruct Hu; [apply coordinate_signed|apply coordinate_unsigned]; auto).
  apply collect_spec in C as [F ->]; [|eapply coordinate_known; eauto]. exists (u ++ t), ((q, a) :: ts). splits; auto. rewrite app_assoc. auto.
Qed.
Lemma coordinate_cases i : (exists r c, coordinate_p i = POk r c) \/ coordinate_p i = PError \/ (coordinate_p i = PPanic /\ has_zero i).
Proof.
  unfold coordinate_p, map_opt, pair_. destruct (term_cases i) as [(r1 & q & a & E)|[E|[E Z]]]; rewrite E; cbn [pbind]; auto.
  apply term_sound in E as (u & -> & Hu). unfold many0. fold next_term. destruct (many_cases (length r1) r1 []) as [(r2 & t & ts & E & -> & M)|[E Z]]; auto; rewrite E; cbn [pbind app fst snd].
  - destruct (collect_terms ((q, a) :: ts)) as [c'|]; eauto.
  - right; right. split; auto. apply has_zero_app; auto.
Qed.
Lemma coordinate_starts t ts r : coordinate_text t ts -> starts is_blank (t ++ r) = false /\ 0 < length t.
Proof.
  intros [s q a t' ts' H M|s q a t' ts' H M]; rewrite <- app_assoc, app_length; split.
  - eapply starts_excl; [eapply signed_starts; eauto|]. intros c Hc. apply sign_facts; auto.
  - pose proof (signed_nonempty s q a H). lia.
  - eapply starts_excl; [eapply unsigned_starts; eauto|]. intros c Hc. apply first_facts; auto.
  - pose proof (unsigned_starts s q a [] H) as S. rewrite app_nil_r in S. destruct s; [discriminate S|cbn; lia].
Qed.

(** ** operators *)
Definition comma : N := chr ",".
Definition separator : parser (text * (N * text)) := pair_ space0 (pair_ (char_ comma) space0).
(** what may follow an operator: a text that continues no coordinate, and that does not begin with a comma and a coordinate *)
Definition no_operator (r : text) : Prop := no_coordinate r /\ forall r' x, separator r = POk r' x -> coordinate_p r' = PError.
Lemma separator_complete b1 b2 r : blanks b1 -> blanks b2 -> starts is_blank r = false -> exists x, separator (b1 ++ [comma] ++ b2 ++ r) = POk r x.
Proof.
  intros H1 H2 S. unfold separator, pair_. rewrite space0_app by auto. cbn [pbind app]. unfold char_. rewrite N.eqb_refl. cbn [pbind]. rewrite space0_app by auto. cbn [pbind]. eauto.
Qed.
Lemma separator_cases i : (exists r x b1 b2, separator i = POk r x /\ blanks b1 /\ blanks b2 /\ i = b1 ++ [comma] ++ b2 ++ r) \/ (separator i = PError /\ starts (N.eqb comma) (skip i) = false).
Proof.
  unfold separator, pair_. destruct (space0_skip i) as (b & E & B & -> & _). cbn [pbind]. destruct (char_cases comma (skip i)) as [(r & E2 & ->)|(S & ->)]; cbn [pbind]; auto.
  destruct (space0_skip r) as (b2 & E3 & B2 & -> & _). cbn [pbind]. left. eexists _, _, b, b2. splits; eauto. rewrite E, E2. rewrite E3 at 1. reflexivity.
Qed.
Lemma no_coordinate_comma b r : blanks b -> no_coordinate (b ++ [comma] ++ r).
Proof.
  intros Hb. unfold no_coordinate, no_term, no_frac. assert (K : skip (b ++ [comma] ++ r) = [comma] ++ r) by (apply skip_blanks; auto).
  split; [|apply no_sign_next; rewrite K; reflexivity]. rewrite K. splits; try reflexivity; apply starts_blanks; auto.
Qed.
Definition tail_text (t : text) (cs : list (list (Qc * option nat))) : Prop :=
  (t = [] /\ cs = []) \/ exists b1 b2 u, blanks b1 /\ blanks b2 /\ operator_text u cs /\ t = b1 ++ [comma] ++ b2 ++ u.
Lemma operator_split t cs : operator_text t cs <-> exists t1 t2 c cs', t = t1 ++ t2 /\ cs = c :: cs' /\ coordinate_text t1 c /\ tail_text t2 cs'.
Proof.
  split.
  - intros [t' c H|t' c b1 b2 u cs' H H1 H2 Hu].
    + exists t', [], c, []. splits; auto; [rewrite app_nil_r; auto|left; auto].
    + exists t', (b1 ++ [comma] ++ b2 ++ u), c, cs'. splits; auto. right. exists b1, b2, u. auto.
  - intros (t1 & t2 & c & cs' & -> & -> & H & [[-> ->]|(b1 & b2 & u & H1 & H2 & Hu & ->)]).
    + rewrite app_nil_r. constructor. auto.
    + apply operator_comma; auto.
Qed.
Lemma tail_complete r : no_operator r -> forall n t cs fuel acc, length t <= n -> tail_text t cs -> Forall sums_fit cs -> length t <= fuel ->
  sep_loop fuel separator coordinate_p acc (t ++ r) = POk r (acc ++ map collected cs).
Proof.
  intros N. assert (Stop : forall fuel acc, sep_loop fuel separator coordinate_p acc r = POk r acc).
  { intros fuel acc. destruct (separator_cases r) as [(r' & x & b1 & b2 & E & B1 & B2 & Er)|[E _]]; [|destruct fuel; cbn [sep_loop]; rewrite E; auto].
    destruct fuel; cbn [sep_loop]; rewrite E;
      (destruct (Nat.eqb_spec (length r') (length r)) as [Q|_]; [rewrite Er, !app_length in Q; cbn [length] in Q; lia|rewrite (proj2 N r' x E); reflexivity]). }
  induction n as [|n IH]; intros t cs fuel acc Ln [[-> ->]|(b1 & b2 & u & H1 & H2 & Hu & ->)] F Lf.
  - cbn [map app]. rewrite app_nil_r. apply Stop.
  - rewrite !app_length in Ln. cbn in Ln. lia.
  - cbn [map app]. rewrite app_nil_r. apply Stop.
  - apply operator_split in Hu as (t1 & t2 & c & cs' & -> & -> & Hc & Ht). inversion F as [|? ? Fc F']; subst.
    destruct (coordinate_starts t1 c (t2 ++ r) Hc) as [Sc Lc]. rewrite !app_length in Ln, Lf. cbn [length] in Ln, Lf.
    replace ((b1 ++ [comma] ++ b2 ++ t1 ++ t2) ++ r) with (b1 ++ [comma] ++ b2 ++ (t1 ++ (t2 ++ r))) by (rewrite <- !app_assoc; reflexivity).
    destruct (separator_complete b1 b2 (t1 ++ t2 ++ r) H1 H2 Sc) as (x & E). destruct fuel as [|fuel]; [lia|]. cbn [sep_loop]. rewrite E.
    destruct (Nat.eqb_spec (length (t1 ++ t2 ++ r)) (length (b1 ++ [comma] ++ b2 ++ t1 ++ t2 ++ r))) as [Q|_]; [rewrite !app_length in Q; cbn [length] in Q; lia|].
    assert (Nc : no_coordinate (t2 ++ r)). { destruct Ht as [[-> _]|(b1' & b2' & u' & H1' & _ & _ & ->)]; [apply N|]. rewrite <- !app_assoc. apply no_coordinate_comma. auto. }
    rewrite (coordinate_complete t1 c) by auto. rewrite (IH t2 cs') by (auto; lia). cbn [map]. rewrite <- app_assoc. reflexivity.
Qed.
Lemma operator_complete t cs r : operator_text t cs -> Forall sums_fit cs -> no_operator r -> operator_p (t ++ r) = POk r (map collected cs).
Proof.
  intros H F N. apply operator_split in H as (t1 & t2 & c & cs' & -> & -> & Hc & Ht). inversion F as [|? ? Fc F']; subst.
  unfold operator_p, separated_list1. fold separator. rewrite <- app_assoc.
  assert (Nc : no_coordinate (t2 ++ r)). { destruct Ht as [[-> _]|(b1' & b2' & u' & H1' & _ & _ & ->)]; [apply N|]. rewrite <- !app_assoc. apply no_coordinate_comma. auto. }
  rewrite (coordinate_complete t1 c) by auto. cbn [pbind]. change (pair_ space0 (pair_ (char_ (chr ",")) space0)) with separator.
  rewrite (tail_complete r N (length t2) t2 cs') by (auto; rewrite ?app_length; lia). reflexivity.
Qed.
Lemma tail_cases : forall fuel i acc, length i <= fuel ->
  (exists r t cs, sep_loop fuel separator coordinate_p acc i = POk r (acc ++ map collected cs) /\ i = t ++ r /\ tail_text t cs /\ Forall sums_fit cs) \/
  (sep_loop fuel separator coordinate_p acc i = PPanic /\ has_zero i).
Proof.
  assert (Stop : forall i, exists r t cs, i = t ++ r /\ tail_text t cs /\ Forall sums_fit cs /\ r = i /\ cs = []) by (intros i; exists i, [], []; splits; auto; left; auto).
  induction fuel as [|fuel IH]; intros i acc L; cbn [sep_loop].
  - destruct i; [|cbn in L; lia]. change (separator []) with (@PError (text * (N * text))). left. exists [], [], []. splits; auto; [cbn [map]; rewrite app_nil_r; auto|left; auto].
  - destruct (separator_cases i) as [(r & x & b1 & b2 & E & B1 & B2 & Ei)|[E _]]; rewrite E.
    2: { left. exists i, [], []. splits; auto; [cbn [map]; rewrite app_nil_r; auto|left; auto]. }
    assert (Li : length i = length b1 + 1 + length b2 + length r) by (rewrite Ei, !app_length; cbn [length]; lia). destruct (Nat.eqb_spec (length r) (length i)) as [Q|_]; [lia|].
    destruct (coordinate_cases r) as [(r1 & c & E1)|[E1|[E1 Z]]]; rewrite E1.
    + apply coordinate_sound in E1 as (t1 & ts & -> & Hc & Fc & ->). destruct (coordinate_starts t1 ts r1 Hc) as [_ Lc]. rewrite app_length in Li.
      destruct (IH r1 (acc ++ [collected ts])) as [(r2 & t2 & cs & E2 & -> & Ht & F)|[E2 Z]]; [lia| |].
      * left. exists r2, (b1 ++ [comma] ++ b2 ++ t1 ++ t2), (ts :: cs). splits.
        -- rewrite E2. cbn [map]. rewrite <- app_assoc. reflexivity.
        -- rewrite Ei, <- !app_assoc. reflexivity.
        -- right. exists b1, b2, (t1 ++ t2). splits; auto. apply operator_split. exists t1, t2, ts, cs. auto.
        -- constructor; auto.
      * right. split; auto. rewrite Ei. repeat apply has_zero_app. auto.
    + left. exists i, [], []. splits; auto; [cbn [map]; rewrite app_nil_r; auto|left; auto].
    + right. split; auto. rewrite Ei. repeat apply has_zero_app. auto.
Qed.
Lemma operator_cases i : (exists r t cs, operator_p i = POk r (map collected cs) /\ i = t ++ r /\ operator_text t cs /\ Forall sums_fit cs) \/ operator_p i = PError \/ (operator_p i = PPanic /\ has_zero i).
Proof.
  unfold operator_p, separated_list1. change (pair_ space0 (pair_ (char_ (chr ",")) space0)) with separator. destruct (coordinate_cases i) as [(r1 & c & E1)|[E1|[E1 Z]]]; rewrite E1; cbn [pbind]; auto.
  apply coordinate_sound in E1 as (t1 & ts & -> & Hc & Fc & ->). destruct (tail_cases (length r1) r1 [collected ts]) as [(r2 & t2 & cs & E2 & -> & Ht & F)|[E2 Z]]; auto.
  - left. exists r2, (t1 ++ t2), (ts :: cs). splits; [rewrite E2; reflexivity|rewrite app_assoc; auto| |constructor; auto]. apply operator_split. exists t1, t2, ts, cs. auto.
  - right; right. split; auto. apply has_zero_app; auto.
Qed.
Lemma operator_starts t cs r : operator_text t cs -> starts is_blank (t ++ r) = false.
Proof. intros H. apply operator_split in H as (t1 & t2 & c & cs' & -> & -> & Hc & Ht). rewrite <- app_assoc. apply (coordinate_starts t1 c _ Hc). Qed.

Lemma convert_meaning cs : convert_operator (map collected cs) = meaning cs.
Proof.
  unfold convert_operator, meaning. rewrite !map_map, map_length. f_equal. apply map_ext. intros c. cbn [collected fst]. destruct (length cs) as [|[|[|n]]]; cbn [Nat.min seq map firstn]; auto.
  destruct n; reflexivity.
Qed.
Lemma parse_complete b1 b2 t cs r : blanks b1 -> blanks b2 -> operator_text t cs -> Forall sums_fit cs -> starts is_blank r = false -> no_operator (b2 ++ r) ->
  parse_operator (b1 ++ t ++ b2 ++ r) = Ret (Some (r, meaning cs)).
Proof.
  intros H1 H2 Ht F S N. unfold parse_operator, delimited. rewrite space0_app by (auto; eapply operator_starts; eauto). cbn [pbind]. rewrite (operator_complete t cs) by auto. cbn [pbind].
  rewrite space0_app by auto. cbn [pbind]. rewrite convert_meaning. reflexivity.
Qed.
Lemma parse_sound i r op : parse_operator i = Ret (Some (r, op)) -> exists b1 t b2 cs, i = b1 ++ t ++ b2 ++ r /\ blanks b1 /\ blanks b2 /\ operator_text t cs /\ Forall sums_fit cs /\ op = meaning cs /\ starts is_blank r = false.
Proof.
  unfold parse_operator, delimited. destruct (space0_skip i) as (b1 & E1 & B1 & -> & _). cbn [pbind]. destruct (operator_cases (skip i)) as [(r1 & t & cs & E & Ei & H & F)|[E|[E _]]]; rewrite E; cbn [pbind]; try discriminate.
  destruct (space0_skip r1) as (b2 & E2 & B2 & -> & S). cbn [pbind]. rewrite convert_meaning. intros [= <- <-]. exists b1, t, b2, cs. splits; auto. rewrite E1, Ei. rewrite E2 at 1. reflexivity.
Qed.
Lemma parse_panic i : parse_operator i = Panic -> has_zero i.
Proof.
  unfold parse_operator, delimited. destruct (space0_skip i) as (b1 & E1 & B1 & -> & _). cbn [pbind]. destruct (operator_cases (skip i)) as [(r1 & t & cs & E & Ei & H & F)|[E|[E Z]]]; rewrite E; cbn [pbind]; try discriminate.
  - destruct (space0_skip r1) as (b2 & E2 & B2 & -> & S). cbn [pbind]. discriminate.
  - intros _. rewrite E1. apply has_zero_app; auto.
Qed.
