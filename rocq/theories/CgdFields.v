(** Fields and lines: continuation of CgdLine.v. *)
From Coq Require Import String Ascii List ZArith NArith Lia Bool PeanoNat QArith Qcanon.
From Verif Require Import Base Scalars ZQ Text ParseOp OpGrammar OpParse Cgd CgdGrammar CgdLine.
Import ListNotations.
Close Scope Q_scope. Close Scope Qc_scope.
Local Open Scope list_scope.
Open Scope nat_scope.

(** ** failing alternatives *)
Lemma no_number_fraction i : no_number i -> fraction_p i = PError.
Proof.
  intros N. unfold fraction_p, map_out, separated_pair. destruct (integer_s_cases i) as [(r & n & s & a & m & _ & Ei & Ha & _ & Hs & _)| ->]; auto. exfalso.
  assert (K : sign_text s (if list_eq_dec N.eq_dec s [] then 1 else -1)). { destruct Hs as [[-> _]|[-> _]]; constructor. }
  destruct (N s _ (a ++ r) K Ei) as [S _]. rewrite (numeral_starts a m r Ha) in S. discriminate S.
Qed.
Lemma no_number_float i : no_number i -> float_parts i = PError.
Proof.
  intros N. unfold float_parts, pair_. destruct (opt_sign_cases i) as (s & k & r & -> & Ei & Hs & _). cbn [pbind]. destruct (mantissa_cases r) as [(r1 & a & f & m & _ & Er & Hm)|[-> _]]; auto. exfalso.
  destruct (N s k r Hs Ei) as [S1 S2]. rewrite Er in S1, S2. destruct Hm as [ds n H|ds n H|a' f' n H Nf].
  - rewrite (numeral_starts ds n r1 H) in S1. discriminate S1.
  - rewrite <- app_assoc, (numeral_starts ds n _ H) in S1. discriminate S1.
  - apply numeral_value in H as (_ & F & _). rewrite forallb_app in F. apply andb_true_iff in F as [Fa Ff]. destruct a' as [|c a'].
    + specialize (S2 (f' ++ r1) eq_refl). destruct f' as [|c f']; [congruence|]. cbn [app starts forallb] in *. apply andb_true_iff in Ff as [Ff _]. congruence.
    + cbn [app starts forallb] in *. apply andb_true_iff in Fa as [Fa _]. congruence.
Qed.
Definition number_char (c : N) : bool := is_digit c || is_sign c || N.eqb c dot.
Lemma no_number_start i : starts number_char i = false -> no_number i.
Proof.
  intros S s k r Hs Ei. assert (K : forall c r, i = c :: r -> is_digit c = false /\ is_sign c = false /\ c <> dot).
  { intros c r' ->. cbn [starts] in S. unfold number_char in S. rewrite !orb_false_iff, N.eqb_neq in S. tauto. }
  destruct Hs; cbn [app] in Ei.
  - subst r. split; [destruct i as [|c i]; auto; cbn [starts]; apply (K c i); auto|]. intros r' ->. destruct (K dot r' eq_refl) as (_ & _ & H). congruence.
  - destruct (K _ _ Ei) as (_ & H & _). discriminate H.
  - destruct (K _ _ Ei) as (_ & H & _). discriminate H.
Qed.
(** a number is not taken for a fraction *)
Definition sign_digit (c : N) : bool := is_digit c || is_sign c.
Lemma span_skip f u v : forallb f u = true -> snd (span f (u ++ v)) = snd (span f v).
Proof. induction u as [|c u IH]; auto. cbn [forallb app span]. intros H. apply andb_true_iff in H as [-> H]. specialize (IH H). destruct (span f (u ++ v)). exact IH. Qed.
Lemma span_stop (f : N -> bool) c r : f c = false -> snd (span f (c :: r)) = c :: r.
Proof. intros H. cbn [span]. rewrite H. auto. Qed.
Lemma forallb_or f (g : N -> bool) l : forallb f l = true -> forallb (fun c => f c || g c) l = true.
Proof. rewrite !forallb_forall. intros H c Hc. rewrite H by auto. auto. Qed.
Lemma fraction_slash i : fraction_p i = PError \/ starts (N.eqb (chr "/")) (snd (span sign_digit i)) = true.
Proof.
  unfold fraction_p, map_out, separated_pair. destruct (integer_s_cases i) as [(r & n & s & a & m & -> & Ei & Ha & _ & Hs & _)| ->]; cbn [pbind]; auto.
  destruct (char_cases (chr "/") r) as [(r1 & -> & _)|(_ & ->)]; cbn [pbind]; auto. right. rewrite Ei. apply numeral_value in Ha as (_ & F & _).
  rewrite span_skip by (destruct Hs as [[-> _]|[-> _]]; reflexivity). rewrite span_skip by (apply forallb_or; auto). rewrite span_stop by reflexivity. reflexivity.
Qed.
Lemma sign_chars s k : sign_text s k -> forallb sign_digit s = true. Proof. intros [| |]; reflexivity. Qed.
Lemma number_not_fraction t q r : number_text t q -> ends_field r -> fraction_p (t ++ r) = PError.
Proof.
  intros [s k m n places x e Hs Hm Hx] E. destruct (fraction_slash ((s ++ m ++ x) ++ r)) as [H|H]; auto. exfalso. rewrite <- !app_assoc, (span_skip _ s) in H by (eapply sign_chars; eauto).
  assert (K : forall ds, numeral ds n -> forallb sign_digit ds = true). { intros ds Hd. apply numeral_value in Hd as (_ & F & _). apply forallb_or; auto. }
  assert (X : starts (N.eqb (chr "/")) (snd (span sign_digit (x ++ r))) = false).
  { destruct Hx as [|c s' k' ds n' Hc _ _].
    - cbn [app]. destruct r as [|c r]; auto. destruct (E c r eq_refl) as [[->| ->]| ->]; rewrite span_stop by reflexivity; reflexivity.
    - cbn [app]. destruct Hc as [<-|[<-|[]]]; rewrite span_stop by reflexivity; reflexivity. }
  destruct Hm as [ds n Hd|ds n Hd|a f n Hd Nf].
  - rewrite span_skip in H by auto. congruence.
  - rewrite <- app_assoc, span_skip in H by auto. cbn [app] in H. rewrite span_stop in H by reflexivity. discriminate H.
  - apply K in Hd. rewrite forallb_app in Hd. apply andb_true_iff in Hd as [Ha _]. rewrite <- !app_assoc, span_skip in H by auto. cbn [app] in H. rewrite span_stop in H by reflexivity. discriminate H.
Qed.

Lemma same_prefix {A} (a b c d : list A) : a ++ b = c ++ d -> length a = length c -> a = c /\ b = d.
Proof. revert c. induction a as [|x a IH]; intros [|y c]; cbn [app length]; intros E L; try discriminate; auto. injection E as -> E. destruct (IH c) as [-> ->]; auto. Qed.
Lemma special_letters t : spells t (str "nan") \/ spells t (str "inf") -> exists a b c, t = [a; b; c] /\ letter a /\ letter b /\ letter c.
Proof.
  assert (L : forall x y, same_letter x y -> (97 <= y <= 122)%N -> letter x). { unfold same_letter, letter. lia. }
  intros [H|H]; cbn in H; unfold spells in H;
    inversion H as [|a a' ta wa Ha H1]; subst; inversion H1 as [|b b' tb wb Hb H2]; subst; inversion H2 as [|c c' tc wc Hc H3]; subst; inversion H3; subst; exists a, b, c;
    splits; auto; eapply L; eauto; cbn; lia.
Qed.
Lemma letter_facts c : letter c -> number_char c = false /\ is_blank c = false /\ c <> chr "#" /\ c <> dquote /\ is_letter c = true.
Proof.
  unfold letter, number_char, is_digit, is_sign, is_blank, is_letter, dot, dquote. intros H. cbn [existsb]. rewrite !orb_false_iff, orb_true_iff, !andb_true_iff, !andb_false_iff, !N.eqb_neq, !N.leb_gt, !N.leb_le.
  change (chr "+") with 43%N. change (chr "-") with 45%N. change (chr ".") with 46%N. change (chr "#") with 35%N. lia.
Qed.
Lemma nan_not_inf t : spells t (str "nan") -> spells t (str "inf") -> False.
Proof. unfold spells. cbn. intros H1 H2. inversion H1 as [|a a' ta wa Ha _]; subst. inversion H2 as [|? ? ? ? Hb _]; subst. unfold same_letter in *. lia. Qed.
Lemma no_special_start i : (forall c r, i = c :: r -> ~ letter c) -> no_special i.
Proof. intros H t r Ht ->. destruct (special_letters t Ht) as (a & b & c & -> & La & _). eapply H; [reflexivity|auto]. Qed.

Section Field.
  Variable rnd : Qc -> option Qc.
  Lemma double_error i : no_number i -> no_special i -> double_p rnd i = PError.
  Proof.
    intros N S. unfold double_p, alt, map_opt. rewrite no_number_float by auto. cbn [pbind].
    destruct (tag_cases (str "nan") i lower_nan) as [(t & r & _ & E & H)|[-> _]]; [exfalso; eapply S; eauto|]. cbn [pbind].
    destruct (tag_cases (str "inf") i lower_inf) as [(t & r & _ & E & H)|[-> _]]; [exfalso; eapply S; eauto|]. cbn [pbind].
    destruct (tag_cases (str "infinity") i lower_infinity) as [(t & r & _ & -> & H)|[-> _]]; [|reflexivity]. exfalso. destruct (infinity_inf t r H) as (t' & r' & E & H'). eapply S; eauto.
  Qed.
  Lemma field_error c r : c = chr "#" \/ blank c -> field_p rnd (c :: r) = PError.
  Proof.
    intros Hc. assert (N : number_char c = false) by (destruct Hc as [->|[->| ->]]; reflexivity). assert (L : ~ letter c) by (unfold letter; change (chr "#") with 35%N in Hc; unfold blank in Hc; lia).
    unfold field_p, alt, map_opt. rewrite no_number_fraction by (apply no_number_start; auto). cbn [pbind]. rewrite double_error; [|apply no_number_start; auto|apply no_special_start; intros ? ? [= <- <-]; auto]. cbn [pbind].
    destruct (quoted_cases (c :: r)) as [(r1 & s & _ & E & _)| ->]; [exfalso; injection E as E _; change (chr "#") with 35%N in Hc; unfold blank in Hc; lia|]. cbn [pbind].
    destruct (name_cases (c :: r)) as [(r1 & s & _ & E & W)|[-> _]]; [|reflexivity]. exfalso. destruct W as [Ns F]. destruct s as [|x s]; [congruence|]. injection E as <- _. inversion F as [|? ? Hw _]; subst. destruct Hc as [->|Hb]; [destruct Hw as (_ & Hw & _); auto|apply (blank_mod _ Hb); auto].
  Qed.
  Lemma field_nil : field_p rnd [] = PError.
  Proof. reflexivity. Qed.
  Lemma word_no_number s r : word s -> ~ looks_numeric s -> ends_field r -> no_number (s ++ r).
  Proof.
    intros [Ne F] Nl E sg k r' Hs Eq. assert (K : forall d t u, is_digit d = true -> s = sg ++ d :: t \/ s = sg ++ dot :: d :: u -> False).
    { intros d t u Hd H. apply digit_bool in Hd as (z & Hz). apply Nl. left. destruct H as [H|H]; [exists sg, k, d, t, z|exists sg, k, d, u, z]; auto. }
    assert (Er : starts is_digit r = false) by (apply ends_starts; auto).
    assert (G : forall s', s = sg ++ s' -> r' = s' ++ r -> starts is_digit r' = false /\ (forall r'', r' = dot :: r'' -> starts is_digit r'' = false)).
    { intros s' Es ->. split.
      - destruct s' as [|c s']; auto. cbn [app starts]. destruct (is_digit c) eqn:D; auto. exfalso. apply (K c s' []); auto.
      - intros r'' E2. destruct s' as [|c s']; cbn [app] in E2; [subst r; exfalso; destruct (E dot r'' eq_refl) as [[B|B]|B]; discriminate B|]. injection E2 as -> <-.
        destruct s' as [|d s']; auto. cbn [app starts]. destruct (is_digit d) eqn:D; auto. exfalso. apply (K d [] s'); auto. }
    destruct s as [|c s]; [congruence|]. cbn [app] in *. destruct Hs; cbn [app] in *.
    - apply (G (c :: s)); auto.
    - injection Eq as -> <-. apply (G s); auto.
    - injection Eq as -> <-. apply (G s); auto.
  Qed.
  Lemma word_no_special s r : word s -> ~ looks_numeric s -> ends_field r -> no_special (s ++ r).
  Proof.
    intros [Ne F] Nl E t u Ht Eq. destruct (special_letters t Ht) as (a & b & c & Et & La & Lb & Lc).
    assert (B : forall x v, r = x :: v -> letter x -> False). { intros x v Er Lx. destruct (letter_facts x Lx) as (_ & H1 & H2 & _). destruct (E x v Er) as [Hb|Hb]; [apply blank_bool in Hb; congruence|auto]. }
    subst t. cbn [app] in Eq. destruct s as [|x [|y [|z s]]]; [congruence| | |]; cbn [app] in Eq; injection Eq as; subst.
    - eapply B; eauto.
    - eapply B; eauto.
    - apply Nl. right. exists [a; b; c], s. split; auto.
  Qed.
  Lemma clear_starts t f r : clear_field rnd t f -> t <> [] /\ starts is_blank (t ++ r) = false.
  Proof.
    assert (D : forall c, is_digit c || N.eqb c dot = true -> is_blank c = false). { intros c H. apply orb_true_iff in H as [H|H]; [apply digit_not_blank; auto|]. apply N.eqb_eq in H as ->. reflexivity. }
    intros H. destruct H as [t q [a n b m Ha _ _ _ _|a n b m Ha _ _ _ _]|t q f [s k m n places x e Hs Hm Hx] _|t H|t H|s N _|s [N W] _].
    - rewrite <- !app_assoc. split; [destruct a; [apply numeral_nonempty in Ha; congruence|discriminate]|]. eapply starts_excl; [eapply numeral_starts; eauto|apply digit_not_blank].
    - split; [discriminate|reflexivity].
    - rewrite <- !app_assoc. pose proof (mantissa_starts m n places (x ++ r) Hm) as S. pose proof (mantissa_starts m n places [] Hm) as S'. rewrite app_nil_r in S'. split.
      + destruct m; [discriminate S'|]. destruct s; discriminate.
      + destruct Hs; try reflexivity. cbn [app]. eapply starts_excl; [exact S|exact D].
    - destruct (special_letters t (or_introl H)) as (a & b & c & -> & La & _). split; [discriminate|]. cbn. apply (letter_facts a La).
    - destruct (special_letters t (or_intror H)) as (a & b & c & -> & La & _). split; [discriminate|]. cbn. apply (letter_facts a La).
    - split; [discriminate|reflexivity].
    - split; auto. destruct s as [|c s]; [congruence|]. cbn. inversion W as [|? ? Hc _]; subst. destruct (is_blank c) eqn:B; auto. apply blank_bool in B. exfalso. apply (blank_mod c B Hc).
  Qed.
  Lemma field_complete t f r : clear_field rnd t f -> ends_field r -> field_p rnd (t ++ r) = POk r f.
  Proof.
    intros H E. unfold field_p, alt, map_opt. destruct H as [t q H|t q f H Hf|t H|t H|s Ns I|s W Nl].
    - rewrite (fraction_p_complete t q) by (auto; apply ends_starts; auto). reflexivity.
    - rewrite (number_not_fraction t q) by auto. cbn [pbind]. unfold double_p, alt, map_opt. destruct (float_complete t q r H E) as (p & -> & V). cbn [pbind]. rewrite V. rewrite (number_field_unique rnd q f Hf). reflexivity.
    - destruct (special_letters t (or_introl H)) as (a & b & c & Et & La & _). assert (Nn : no_number (t ++ r)) by (apply no_number_start; rewrite Et; cbn; apply (letter_facts a La)).
      rewrite no_number_fraction by auto. cbn [pbind]. unfold double_p, alt, map_opt. rewrite no_number_float by auto. cbn [pbind].
      destruct (tag_cases (str "nan") (t ++ r) lower_nan) as [(t' & r' & -> & Eq & H')|[_ N]]; [|exfalso; apply (N t r); auto]. apply same_prefix in Eq as [-> ->]; [|apply spells_length in H, H'; congruence]. reflexivity.
    - destruct (special_letters t (or_intror H)) as (a & b & c & Et & La & _). assert (Nn : no_number (t ++ r)) by (apply no_number_start; rewrite Et; cbn; apply (letter_facts a La)).
      rewrite no_number_fraction by auto. cbn [pbind]. unfold double_p, alt, map_opt. rewrite no_number_float by auto. cbn [pbind].
      destruct (tag_cases (str "nan") (t ++ r) lower_nan) as [(t' & r' & _ & Eq & H')|[-> _]].
      { exfalso. apply same_prefix in Eq as [-> ->]; [|apply spells_length in H, H'; cbn in *; congruence]. eapply nan_not_inf; eauto. }
      cbn [pbind]. destruct (tag_cases (str "inf") (t ++ r) lower_inf) as [(t' & r' & -> & Eq & H')|[_ N]]; [|exfalso; apply (N t r); auto]. apply same_prefix in Eq as [-> ->]; [|apply spells_length in H, H'; congruence]. reflexivity.
    - rewrite no_number_fraction by (apply no_number_start; reflexivity). cbn [pbind]. rewrite double_error; [|apply no_number_start; reflexivity|apply no_special_start; intros c r' [= <- _]; unfold letter; lia]. cbn [pbind].
      rewrite quoted_complete by auto. reflexivity.
    - rewrite no_number_fraction by (apply word_no_number; auto). cbn [pbind]. rewrite double_error; [|apply word_no_number; auto|apply word_no_special; auto]. cbn [pbind].
      destruct (quoted_cases (s ++ r)) as [(r1 & s1 & _ & Eq & _)| ->].
      + exfalso. destruct W as [Ne F]. destruct s as [|c s]; [congruence|]. injection Eq as -> _. inversion F as [|? ? Hc _]; subst. destruct Hc as (Hc & _). auto.
      + cbn [pbind]. rewrite name_complete by (auto; apply ends_field_word; auto). reflexivity.
  Qed.

  (** ** lists of fields *)
  Lemma space1_cases i : (exists b r, space1 i = POk r b /\ i = b ++ r /\ blanks b /\ b <> [] /\ starts is_blank r = false) \/ (space1 i = PError /\ starts is_blank i = false).
  Proof.
    unfold space1. destruct (span_spec is_blank i) as (E & H & F & S). rewrite E. destruct (fst (span is_blank i)) as [|c b] eqn:D.
    - right. split; auto. rewrite H. auto.
    - left. eexists _, _. splits; [reflexivity|auto|apply blanks_bool; auto|discriminate|auto].
  Qed.
  Lemma space1_complete b r : blanks b -> b <> [] -> starts is_blank r = false -> space1 (b ++ r) = POk r b.
  Proof. intros H N S. unfold space1. rewrite span_app by (auto; apply blanks_bool; auto). destruct b; [congruence|auto]. Qed.
  Definition tail_fields (u : text) (fs : list field) : Prop := (u = [] /\ fs = []) \/ exists b u', u = b ++ u' /\ blanks b /\ b <> [] /\ fields_text rnd u' fs /\ fs <> [].
  Lemma tail_fields_cons t f u fs : field_text rnd t f -> tail_fields u fs -> fields_text rnd (t ++ u) (f :: fs).
  Proof. intros H [[-> ->]|(b & u' & -> & Hb & Nb & Hu & Nf)]; [rewrite app_nil_r; apply fields_one; auto|apply fields_more; auto]. Qed.
  Lemma cut_exponent_app a i : cut_exponent i -> cut_exponent (a ++ i).
  Proof. intros (pre & m & n & places & c & s & k & post & H1 & H2 & H3 & H4 & ->). exists (a ++ pre), m, n, places, c, s, k, post. splits; auto. rewrite app_assoc. auto. Qed.
  Lemma zero_quotient_app a i : zero_quotient i -> zero_quotient (a ++ i).
  Proof. intros (pre & x & n & b & post & H1 & H2 & ->). exists (a ++ pre), x, n, b, post. splits; auto. rewrite app_assoc. auto. Qed.
  Lemma loop_cases : forall fuel i acc, length i <= fuel ->
    (exists r u fs, sep_loop fuel space1 (field_p rnd) acc i = POk r (acc ++ fs) /\ i = u ++ r /\ tail_fields u fs) \/
    (sep_loop fuel space1 (field_p rnd) acc i = PFailure /\ cut_exponent i) \/ (sep_loop fuel space1 (field_p rnd) acc i = PPanic /\ zero_quotient i).
  Proof.
    induction fuel as [|fuel IH]; intros i acc L; cbn [sep_loop].
    - destruct i; [|cbn in L; lia]. left. exists [], [], []. rewrite app_nil_r. splits; auto. left. auto.
    - destruct (space1_cases i) as [(b & r & -> & Ei & Hb & Nb & _)|[-> _]].
      2: { left. exists i, [], []. rewrite app_nil_r. splits; auto. left. auto. }
      assert (Li : length i = length b + length r) by (rewrite Ei, app_length; auto). assert (0 < length b) by (destruct b; [congruence|cbn; lia]). destruct (Nat.eqb_spec (length r) (length i)); [lia|].
      destruct (field_cases rnd r) as [(r1 & f & t & -> & Er & Hf & Nt)|[->|[[-> C]|[-> Z]]]].
      + assert (0 < length t) by (destruct t; [congruence|cbn; lia]). rewrite Er, app_length in Li. destruct (IH r1 (acc ++ [f])) as [(r2 & u & fs & E2 & Er1 & Ht)|[[-> C]|[-> Z]]]; [lia| | |].
        * left. exists r2, (b ++ t ++ u), (f :: fs). splits; [rewrite E2, <- app_assoc; auto|rewrite Ei, Er, Er1, <- !app_assoc; auto|]. right. exists b, (t ++ u). splits; auto; [apply tail_fields_cons; auto|discriminate].
        * right; left. split; auto. rewrite Ei, Er. apply cut_exponent_app, cut_exponent_app. auto.
        * right; right. split; auto. rewrite Ei, Er. apply zero_quotient_app, zero_quotient_app. auto.
      + left. exists i, [], []. rewrite app_nil_r. splits; auto. left. auto.
      + right; left. split; auto. rewrite Ei. apply cut_exponent_app. auto.
      + right; right. split; auto. rewrite Ei. apply zero_quotient_app. auto.
  Qed.
  Lemma list_cases i : (exists r u fs, separated_list0 space1 (field_p rnd) i = POk r fs /\ i = u ++ r /\ fields_text rnd u fs) \/
    (separated_list0 space1 (field_p rnd) i = PFailure /\ cut_exponent i) \/ (separated_list0 space1 (field_p rnd) i = PPanic /\ zero_quotient i).
  Proof.
    unfold separated_list0. destruct (field_cases rnd i) as [(r1 & f & t & -> & Er & Hf & Nt)|[->|[[-> C]|[-> Z]]]]; auto.
    - destruct (loop_cases (length r1) r1 [f]) as [(r2 & u & fs & E2 & Er1 & Ht)|[[-> C]|[-> Z]]]; auto.
      + left. exists r2, (t ++ u), (f :: fs). splits; [rewrite E2; auto|rewrite Er, Er1, <- app_assoc; auto|apply tail_fields_cons; auto].
      + right; left. split; auto. rewrite Er. apply cut_exponent_app. auto.
      + right; right. split; auto. rewrite Er. apply zero_quotient_app. auto.
    - left. exists i, [], []. splits; auto. constructor.
  Qed.
  Definition ends_line (r : text) : Prop := exists b cm, r = b ++ cm /\ blanks b /\ comment_text cm.
  Lemma comment_no_blank cm : comment_text cm -> starts is_blank cm = false.
  Proof. intros [->|(r & ->)]; reflexivity. Qed.
  Lemma comment_no_field cm : comment_text cm -> field_p rnd cm = PError.
  Proof. intros [->|(r & ->)]; [apply field_nil|apply field_error; auto]. Qed.
  Lemma ends_line_field r : ends_line r -> ends_field r.
  Proof. intros (b & cm & -> & Hb & Hc) c t E. destruct Hb as [|x b Hx Hb]; cbn [app] in E; [|injection E as <- _; auto]. destruct Hc as [->|(u & ->)]; [discriminate|]. injection E as <- _. auto. Qed.
  Lemma blanks_ends b r : blanks b -> b <> [] -> ends_field (b ++ r).
  Proof. intros [|x b' Hx Hb] N; [congruence|]. intros c v E. injection E as <- _. auto. Qed.
  Lemma loop_stop fuel acc r : ends_line r -> sep_loop fuel space1 (field_p rnd) acc r = POk r acc.
  Proof.
    intros (b & cm & -> & Hb & Hc). assert (E : space1 (b ++ cm) = PError \/ (space1 (b ++ cm) = POk cm b /\ b <> [])).
    { destruct b as [|c b]; [left|right; split; [apply space1_complete; auto; [discriminate|apply comment_no_blank; auto]|discriminate]]. cbn [app]. destruct (space1_cases cm) as [(b' & r' & _ & E & Hb' & Nb & _)|[-> _]]; auto.
      exfalso. pose proof (comment_no_blank cm Hc) as S. rewrite E in S. destruct b' as [|c b']; [congruence|]. cbn [app starts] in S. inversion Hb' as [|? ? B _]; subst. apply blank_bool in B. congruence. }
    destruct fuel; cbn [sep_loop]; destruct E as [->|[-> Nb]]; auto; (destruct (Nat.eqb_spec (length cm) (length (b ++ cm))) as [L|_]; [rewrite app_length in L; destruct b; [congruence|cbn in L; lia]|]); rewrite comment_no_field by auto; auto.
  Qed.
  Lemma clear_fields_starts u fs r : clear_fields rnd u fs -> u <> [] /\ starts is_blank (u ++ r) = false.
  Proof. intros [t f H|t f b u' fs' H _ _ _]; [eapply clear_starts; eauto|]. destruct (clear_starts t f ((b ++ u') ++ r) H) as [N S]. rewrite app_assoc in S. rewrite <- app_assoc in S. split; [destruct t; [congruence|discriminate]|]. rewrite <- app_assoc. exact S. Qed.
  Lemma loop_complete u fs : clear_fields rnd u fs -> forall b r acc fuel, blanks b -> b <> [] -> ends_line r -> length (b ++ u) <= fuel ->
    sep_loop fuel space1 (field_p rnd) acc (b ++ u ++ r) = POk r (acc ++ fs).
  Proof.
    induction 1 as [t f H|t f b' u' fs' H Hb' Nb' Hu IH]; intros b r acc fuel Hb Nb Er L; rewrite !app_length in L; assert (0 < length b) by (destruct b; [congruence|cbn; lia]); (destruct fuel as [|fuel]; [lia|]); cbn [sep_loop].
    - destruct (clear_starts t f r H) as [Nt St]. rewrite space1_complete by auto. destruct (Nat.eqb_spec (length (t ++ r)) (length (b ++ t ++ r))) as [Q|_]; [rewrite !app_length in Q; lia|].
      rewrite (field_complete t f) by (auto; apply ends_line_field; auto). apply loop_stop. auto.
    - destruct (clear_starts t f (b' ++ u' ++ r) H) as [Nt St]. replace ((t ++ b' ++ u') ++ r) with (t ++ (b' ++ u' ++ r)) by (rewrite <- !app_assoc; auto). rewrite space1_complete by auto.
      destruct (Nat.eqb_spec (length (t ++ b' ++ u' ++ r)) (length (b ++ t ++ b' ++ u' ++ r))) as [Q|_]; [rewrite !app_length in Q; lia|].
      rewrite (field_complete t f) by (auto; apply blanks_ends; auto). rewrite IH by (auto; rewrite app_length; lia). rewrite <- app_assoc. reflexivity.
  Qed.
  Lemma list_complete u fs r : clear_fields rnd u fs -> ends_line r -> separated_list0 space1 (field_p rnd) (u ++ r) = POk r fs.
  Proof.
    intros H Er. unfold separated_list0. destruct H as [t f H|t f b u' fs' H Hb Nb Hu].
    - rewrite (field_complete t f) by (auto; apply ends_line_field; auto). apply loop_stop. auto.
    - replace ((t ++ b ++ u') ++ r) with (t ++ (b ++ u' ++ r)) by (rewrite <- !app_assoc; auto).
      rewrite (field_complete t f) by (auto; apply blanks_ends; auto). rewrite (loop_complete u' fs') by (auto; rewrite !app_length; lia). reflexivity.
  Qed.

  (** ** lines *)
  Lemma key_cases i : (exists r k, key_p i = POk r k /\ i = k ++ r /\ key_word k) \/ key_p i = PError.
  Proof.
    unfold key_p, map_opt. destruct (name_cases i) as [(r & s & -> & E & W)|[-> _]]; cbn [pbind]; auto. destruct s as [|c s]; auto. destruct (is_letter c) eqn:L; auto. left. exists r, (c :: s). splits; auto. split; auto. exists c, s. split; auto.
    unfold is_letter in L. unfold letter. rewrite orb_true_iff, !andb_true_iff, !N.leb_le in L. tauto.
  Qed.
  Lemma key_complete k r : key_word k -> ends_field r -> key_p (k ++ r) = POk r k.
  Proof. intros (W & c & s & -> & L) E. unfold key_p, map_opt. rewrite name_complete by (auto; apply ends_field_word; auto). cbn [pbind]. destruct (letter_facts c L) as (_ & _ & _ & _ & ->). reflexivity. Qed.
  Lemma key_error i : (forall c r, i = c :: r -> ~ letter c) -> key_p i = PError.
  Proof. intros H. destruct (key_cases i) as [(r & k & _ & -> & _ & c & s & -> & L)|]; auto. exfalso. eapply H; [reflexivity|auto]. Qed.
  Lemma content_cases i : (exists r u fs, line_content rnd i = POk r fs /\ i = u ++ r /\ content_text rnd u fs) \/
    (line_content rnd i = PFailure /\ cut_exponent i) \/ (line_content rnd i = PPanic /\ zero_quotient i).
  Proof.
    unfold line_content, alt, map_opt, separated_pair. destruct (key_cases i) as [(r & k & -> & E & H)| ->]; cbn [pbind].
    - destruct (space1_cases r) as [(b & r1 & -> & Er & Hb & Nb & _)|[-> _]]; cbn [pbind].
      + destruct (list_cases r1) as [(r2 & u & fs & -> & Er1 & Hu)|[[-> C]|[-> Z]]]; cbn [pbind fst snd].
        * left. eexists _, (k ++ b ++ u), _. splits; [reflexivity|rewrite E, Er, Er1, <- !app_assoc; auto|apply content_key_fields; auto].
        * right; left. split; auto. rewrite E, Er. apply cut_exponent_app, cut_exponent_app. auto.
        * right; right. split; auto. rewrite E, Er. apply zero_quotient_app, zero_quotient_app. auto.
      + left. eexists _, k, _. splits; [reflexivity|auto|apply content_key; auto].
    - destruct (list_cases i) as [(r2 & u & fs & -> & Er1 & Hu)|[[-> C]|[-> Z]]]; cbn [pbind fst snd]; auto. left. exists r2, u, fs. splits; auto. apply content_fields; auto.
  Qed.
  Lemma comment_cases i : (exists r, i = chr "#" :: r /\ comment_p i = POk [] tt) \/ (comment_p i = PError /\ starts (N.eqb (chr "#")) i = false).
  Proof. unfold comment_p, map_opt, pair_, rest_. destruct (char_cases (chr "#") i) as [(r & -> & ->)|(S & ->)]; cbn [pbind]; eauto. Qed.
  Lemma line_cases i :
    (exists rest fs b1 u b2 cm, parse_cgd_line rnd i = Ret (Some (rest, fs)) /\ i = b1 ++ u ++ b2 ++ cm ++ rest /\ blanks b1 /\ blanks b2 /\ content_text rnd u fs /\ comment_text cm /\
       (cm <> [] -> rest = []) /\ starts (N.eqb (chr "#")) rest = false /\ starts is_blank rest = false) \/
    (parse_cgd_line rnd i = Ret None /\ cut_exponent i) \/ (parse_cgd_line rnd i = Panic /\ zero_quotient i).
  Proof.
    unfold parse_cgd_line, line_p, delimited. destruct (space0_skip i) as (b1 & E1 & B1 & -> & _). cbn [pbind]. destruct (content_cases (skip i)) as [(r & u & fs & -> & Er & Hu)|[[-> C]|[-> Z]]]; cbn [pbind].
    - unfold pair_, opt. destruct (space0_skip r) as (b2 & E2 & B2 & -> & S2). cbn [pbind]. destruct (comment_cases (skip r)) as [(r1 & Ec & ->)|[-> S]]; cbn [pbind]; left.
      + eexists _, _, b1, u, b2, (skip r). splits; [reflexivity|rewrite app_nil_r; congruence|auto|auto|auto|right; eauto|auto|auto|auto].
      + eexists _, _, b1, u, b2, []. splits; [reflexivity|cbn [app]; congruence|auto|auto|auto|left; auto|congruence|auto|auto].
    - right; left. split; auto. rewrite E1. apply cut_exponent_app. auto.
    - right; right. split; auto. rewrite E1. apply zero_quotient_app. auto.
  Qed.
  Lemma comment_not_letter cm c r : comment_text cm -> cm = c :: r -> ~ letter c.
  Proof. intros [->|(x & ->)] E; [discriminate|]. injection E as <- _. unfold letter. change (chr "#") with 35%N. lia. Qed.
  Lemma list_comment cm : comment_text cm -> separated_list0 space1 (field_p rnd) cm = POk cm [].
  Proof. intros H. unfold separated_list0. rewrite comment_no_field by auto. auto. Qed.
  Lemma content_complete u fs b cm : clear_content rnd u fs -> blanks b -> comment_text cm -> (u = [] -> b = []) ->
    exists b', blanks b' /\ line_content rnd (u ++ b ++ cm) = POk (b' ++ cm) fs.
  Proof.
    intros H Hb Hc Hu. assert (El : ends_line (b ++ cm)) by (exists b, cm; auto). unfold line_content, alt, map_opt, separated_pair. destruct H as [|k Hk|k b' u fs Hk Hb' Nb' H|u fs H Nl].
    - rewrite Hu by auto. cbn [app]. rewrite key_error by (intros c r; apply comment_not_letter; auto). cbn [pbind]. rewrite list_comment by auto. exists []. split; [constructor|auto].
    - rewrite key_complete by (auto; apply ends_line_field; auto). cbn [pbind]. destruct b as [|c b].
      + cbn [app]. destruct (space1_cases cm) as [(b' & r' & _ & E & Hb' & Nb' & _)|[-> _]]; cbn [pbind].
        * exfalso. pose proof (comment_no_blank cm Hc) as S. rewrite E in S. destruct b' as [|c b']; [congruence|]. cbn [app starts] in S. inversion Hb' as [|? ? B _]; subst. apply blank_bool in B. congruence.
        * exists []. split; [constructor|auto].
      + rewrite space1_complete by first [assumption|discriminate|apply comment_no_blank; auto]. cbn [pbind]. rewrite list_comment by auto. exists []. split; [constructor|auto].
    - replace ((k ++ b' ++ u) ++ b ++ cm) with (k ++ (b' ++ (u ++ (b ++ cm)))) by (rewrite <- !app_assoc; auto). destruct (clear_fields_starts u fs (b ++ cm) H) as [_ S].
      rewrite key_complete by (auto; apply blanks_ends; auto). cbn [pbind]. rewrite space1_complete by auto. cbn [pbind]. rewrite (list_complete u fs) by auto. cbn [pbind]. eauto.
    - destruct (clear_fields_starts u fs (b ++ cm) H) as [Nu _]. rewrite key_error by (intros c r E; destruct u as [|x u]; [congruence|]; injection E as <- _; eapply Nl; eauto). cbn [pbind]. rewrite (list_complete u fs) by auto. eauto.
  Qed.
  Lemma line_complete b1 u fs b2 cm : blanks b1 -> clear_content rnd u fs -> blanks b2 -> comment_text cm -> parse_cgd_line rnd (b1 ++ u ++ b2 ++ cm) = Ret (Some ([], fs)).
  Proof.
    intros H1 H H2 Hc. assert (G : forall b1 b2, blanks b1 -> blanks b2 -> (u = [] -> b2 = []) -> parse_cgd_line rnd (b1 ++ u ++ b2 ++ cm) = Ret (Some ([], fs))).
    { clear b1 b2 H1 H2. intros b1 b2 H1 H2 Hu. unfold parse_cgd_line, line_p, delimited. rewrite space0_app; [|auto|].
      - cbn [pbind]. destruct (content_complete u fs b2 cm H H2 Hc Hu) as (b' & Hb' & ->). cbn [pbind]. unfold pair_, opt. rewrite space0_app by (auto; apply comment_no_blank; auto). cbn [pbind].
        destruct (comment_cases cm) as [(r & _ & ->)|[-> S]]; cbn [pbind]; auto. destruct Hc as [->|(r & ->)]; auto. discriminate S.
      - destruct H as [|k (W & c & s & -> & L)|k b' u fs (W & c & s & -> & L) Hb' Nb' H|u fs H Nl]; try (cbn; apply (letter_facts c L)); [rewrite Hu by auto; apply comment_no_blank; auto|]. apply (clear_fields_starts u fs); auto. }
    destruct u as [|c u]; [|apply G; auto; discriminate]. specialize (G (b1 ++ b2) []). cbn [app] in *. rewrite <- app_assoc in G. apply G; auto; [apply Forall_app; auto|constructor].
  Qed.
End Field.
