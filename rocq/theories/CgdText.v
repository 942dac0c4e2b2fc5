(** Lines of a file and UTF-8. *)
From Coq Require Import String Ascii List ZArith NArith Lia Bool PeanoNat.
From Verif Require Import Base Text ParseOp Cgd CgdGrammar.
Import ListNotations.
Local Open Scope list_scope.
Open Scope nat_scope.

Definition strip (line : list N) : list N := match rev line with 13%N :: l => rev l | _ => line end.
Lemma strip_cr l : strip (l ++ [13%N]) = l.
Proof. unfold strip. rewrite rev_app_distr. cbn [rev app]. apply rev_involutive. Qed.
Lemma strip_no l : (forall l', l <> l' ++ [13%N]) -> strip l = l.
Proof.
  intros H. unfold strip. destruct (rev l) as [|c r] eqn:E; auto. assert (El : l = rev r ++ [c]) by (rewrite <- (rev_involutive l), E; auto).
  destruct (N.eq_dec c 13) as [->|N]; [exfalso; eapply H; eauto|]. destruct c as [|p]; auto. repeat (destruct p as [p|p|]; auto). congruence.
Qed.
Lemma strip_cases l : (exists l', l = l' ++ [13%N] /\ strip l = l') \/ ((forall l', l <> l' ++ [13%N]) /\ strip l = l).
Proof.
  destruct (rev l) as [|c r] eqn:E.
  - right. assert (l = []) by (rewrite <- (rev_involutive l), E; auto). subst. split; auto. intros [|]; discriminate.
  - assert (El : l = rev r ++ [c]) by (rewrite <- (rev_involutive l), E; auto). destruct (N.eq_dec c 13) as [->|N].
    + left. exists (rev r). split; auto. rewrite El. apply strip_cr.
    + right. assert (H : forall l', l <> l' ++ [13%N]) by (intros l' E'; rewrite El in E'; apply app_inj_tail in E' as [_ E']; congruence). split; auto. apply strip_no; auto.
Qed.
Lemma split_eq line c i : split_lines line (c :: i) = if N.eqb c 10 then strip line :: split_lines [] i else split_lines (line ++ [c]) i.
Proof. reflexivity. Qed.
Lemma split_sound : forall i line, ~ In 10%N line -> lines_of (line ++ i) (split_lines line i).
Proof.
  induction i as [|c i IH]; intros line H.
  - rewrite app_nil_r. cbn [split_lines]. destruct line as [|x line]; [constructor|]. apply lines_last; auto. discriminate.
  - rewrite split_eq. destruct (N.eqb_spec c 10) as [->|N].
    + destruct (strip_cases line) as [(l & -> & ->)|[Hn ->]].
      * rewrite <- app_assoc. apply lines_crlf; [intros I; apply H; apply in_or_app; auto|]. apply (IH []). auto.
      * apply lines_lf; auto. apply (IH []). auto.
    + replace (line ++ c :: i) with ((line ++ [c]) ++ i) by (rewrite <- app_assoc; auto). apply IH. intros I. apply in_app_or in I as [I|[I|[]]]; auto.
Qed.
Lemma split_skip l : ~ In 10%N l -> forall line i, split_lines line (l ++ i) = split_lines (line ++ l) i.
Proof.
  induction l as [|c l IH]; intros H line i; [rewrite app_nil_r; auto|]. cbn [app]. rewrite split_eq. destruct (N.eqb_spec c 10) as [->|N]; [exfalso; apply H; left; auto|].
  rewrite IH by (intros I; apply H; right; auto). rewrite <- app_assoc. auto.
Qed.
Lemma split_complete i ls : lines_of i ls -> split_lines [] i = ls.
Proof.
  induction 1 as [|l N H|l rest ls H Hn _ IH|l rest ls H _ IH]; auto.
  - rewrite <- (app_nil_r l) at 1. rewrite split_skip by auto. cbn [app split_lines]. destruct l; [congruence|auto].
  - rewrite split_skip by auto. cbn [app]. rewrite split_eq. change (N.eqb 10 10) with true. cbn iota. rewrite strip_no by auto. congruence.
  - rewrite split_skip by auto. cbn [app]. rewrite split_eq. change (N.eqb 13 10) with false. cbn iota. rewrite split_eq. change (N.eqb 10 10) with true. cbn iota. rewrite strip_cr. congruence.
Qed.

(** ** UTF-8 *)
Lemma continues_spec b : continues b = true <-> (128 <= b < 192)%N.
Proof. unfold continues. rewrite andb_true_iff, N.leb_le, N.ltb_lt. tauto. Qed.
Lemma dm c k : (0 < k -> c = k * (c / k) + c mod k /\ c mod k < k)%N.
Proof. intros H. split; [apply N.div_mod; lia|apply N.mod_lt; lia]. Qed.
Ltac decide_n := repeat match goal with |- context [N.leb ?a ?b] => destruct (N.leb_spec a b); [|try (exfalso; lia)]; cbn [andb negb] | |- context [N.ltb ?a ?b] => destruct (N.ltb_spec a b); [try (exfalso; lia)|try (exfalso; lia)]; cbn [andb negb] end.
Lemma utf8_char_length c : 1 <= length (utf8_char c).
Proof. unfold utf8_char. destruct (c <? 128)%N, (c <? 2048)%N, (c <? 65536)%N; cbn; lia. Qed.
Definition in_range (lo b hi : N) : bool := (lo <=? b)%N && (b <? hi)%N.
Lemma decode_char c rest fuel : scalar c -> utf8_decode (S fuel) (utf8_char c ++ rest) = obind (utf8_decode fuel rest) (fun t => Some (c :: t)).
Proof.
  intros Hc. unfold utf8_char, scalar in *. destruct (N.ltb_spec c 128) as [H1|H1]; [cbn [app utf8_decode]; destruct (N.ltb_spec c 128); [auto|lia]|].
  assert (K : forall x, (x < 64)%N -> continues (128 + x) = true) by (intros x Hx; apply continues_spec; lia).
  destruct (N.ltb_spec c 2048) as [H2|H2].
  { destruct (dm c 64) as [E M]; [lia|]. set (q := (c / 64)%N) in *. set (m := (c mod 64)%N) in *. clearbody q m. cbn [app utf8_decode].
    assert ((192 + q <? 128)%N = false) as -> by (apply N.ltb_ge; lia). assert ((194 <=? 192 + q)%N = true) as -> by (apply N.leb_le; lia). assert ((192 + q <? 224)%N = true) as -> by (apply N.ltb_lt; lia). rewrite K by auto. cbn [andb].
    replace ((192 + q - 192) * 64 + (128 + m - 128))%N with c by lia. auto. }
  destruct (N.ltb_spec c 65536) as [H3|H3].
  { destruct (dm c 64) as [E M]; [lia|]. destruct (dm (c / 64) 64) as [E2 M2]; [lia|]. assert (D : (c / 4096 = c / 64 / 64)%N) by (rewrite N.div_div; auto; lia). rewrite D. set (q := (c / 64)%N) in *. set (m := (c mod 64)%N) in *. set (q2 := (q / 64)%N) in *. set (m2 := (q mod 64)%N) in *. clearbody q m q2 m2. cbn [app utf8_decode].
    assert ((224 + q2 <? 128)%N = false) as -> by (apply N.ltb_ge; lia). assert ((224 + q2 <? 224)%N = false) as -> by (apply N.ltb_ge; lia). rewrite andb_false_r. cbn [andb].
    assert ((224 <=? 224 + q2)%N = true) as -> by (apply N.leb_le; lia). assert ((224 + q2 <? 240)%N = true) as -> by (apply N.ltb_lt; lia). rewrite !K by auto. cbn [andb].
    replace ((224 + q2 - 224) * 4096 + (128 + m2 - 128) * 64 + (128 + m - 128))%N with c by lia. assert ((2048 <=? c)%N = true) as -> by (apply N.leb_le; lia).
    assert (((55296 <=? c) && (c <? 57344))%N = false) as ->. { apply andb_false_iff. rewrite N.leb_gt, N.ltb_ge. lia. } auto. }
  destruct (dm c 64) as [E M]; [lia|]. destruct (dm (c / 64) 64) as [E2 M2]; [lia|]. destruct (dm (c / 64 / 64) 64) as [E3 M3]; [lia|].
  assert (D : (c / 4096 = c / 64 / 64)%N) by (rewrite N.div_div; auto; lia). assert (D2 : (c / 262144 = c / 64 / 64 / 64)%N) by (rewrite !N.div_div; auto; lia). rewrite D, D2.
  set (q := (c / 64)%N) in *. set (m := (c mod 64)%N) in *. set (q2 := (q / 64)%N) in *. set (m2 := (q mod 64)%N) in *. set (q3 := (q2 / 64)%N) in *. set (m3 := (q2 mod 64)%N) in *. clearbody q m q2 m2 q3 m3. cbn [app utf8_decode].
  assert ((240 + q3 <? 128)%N = false) as -> by (apply N.ltb_ge; lia). assert ((240 + q3 <? 224)%N = false) as -> by (apply N.ltb_ge; lia). rewrite andb_false_r. cbn [andb].
  assert ((240 + q3 <? 240)%N = false) as -> by (apply N.ltb_ge; lia). rewrite andb_false_r. cbn [andb].
  assert ((240 <=? 240 + q3)%N = true) as -> by (apply N.leb_le; lia). assert ((240 + q3 <? 248)%N = true) as -> by (apply N.ltb_lt; lia). rewrite !K by auto. cbn [andb].
  replace ((240 + q3 - 240) * 262144 + (128 + m3 - 128) * 4096 + (128 + m2 - 128) * 64 + (128 + m - 128))%N with c by lia. assert ((65536 <=? c)%N = true) as -> by (apply N.leb_le; lia). assert ((c <? 1114112)%N = true) as -> by (apply N.ltb_lt; lia). auto.
Qed.
Lemma utf8_length t : length t <= length (utf8 t).
Proof. induction t as [|c t IH]; cbn [utf8 flat_map length]; [lia|]. fold (utf8 t). rewrite app_length. pose proof (utf8_char_length c). lia. Qed.
Lemma decode_complete t : Forall scalar t -> forall fuel, length t <= fuel -> utf8_decode fuel (utf8 t) = Some t.
Proof.
  induction 1 as [|c t Hc Ht IH]; intros fuel L; [destruct fuel; auto|]. destruct fuel as [|fuel]; [cbn in L; lia|]. cbn [utf8 flat_map]. fold (utf8 t). rewrite decode_char by auto. rewrite IH by (cbn in L; lia). auto.
Qed.
Lemma div_eq a b q r : (b = a * q + r -> r < a -> b / a = q)%N. Proof. intros E H. symmetry. apply (N.div_unique b a q r); auto. Qed.
Lemma mod_eq a b q r : (b = a * q + r -> r < a -> b mod a = r)%N. Proof. intros E H. symmetry. apply (N.mod_unique b a q r); auto. Qed.
Lemma decode_sound : forall fuel bs t, length bs <= fuel -> utf8_decode fuel bs = Some t -> Forall scalar t /\ utf8 t = bs.
Proof.
  induction fuel as [|fuel IH]; intros bs t L E.
  { destruct bs; [|cbn in L; lia]. injection E as <-. auto. }
  cbn [utf8_decode] in E. destruct bs as [|b r]; [injection E as <-; auto|]. cbn [length] in L.
  assert (Go : forall c k rest, obind (utf8_decode fuel rest) (fun t => Some (c :: t)) = Some t -> length rest <= fuel -> scalar c -> utf8_char c = k -> Forall scalar t /\ utf8 t = k ++ rest).
  { intros c k rest E' L' Hc <-. destruct (utf8_decode fuel rest) as [t'|] eqn:D; [|discriminate E']. injection E' as <-. apply IH in D as [D1 D2]; [|lia]. split; [constructor; auto|]. cbn [utf8 flat_map]. fold (utf8 t'). rewrite D2. auto. }
  destruct (N.ltb_spec b 128) as [H1|H1].
  { apply (Go b [b] r E); [lia|unfold scalar; lia|]. unfold utf8_char. destruct (N.ltb_spec b 128); [auto|lia]. }
  destruct r as [|b1 r1]; [discriminate E|]. cbn [length] in L. destruct ((194 <=? b)%N && (b <? 224)%N && continues b1) eqn:C2.
  { rewrite !andb_true_iff, N.leb_le, N.ltb_lt, continues_spec in C2. destruct C2 as [[A1 A2] A3]. apply (Go _ [b; b1] r1 E); [lia|unfold scalar; lia|]. set (c := ((b - 192) * 64 + (b1 - 128))%N). assert (Ec : c = (64 * (b - 192) + (b1 - 128))%N) by (unfold c; lia). clearbody c.
    unfold utf8_char. destruct (N.ltb_spec c 128); [lia|]. destruct (N.ltb_spec c 2048); [|lia]. rewrite (div_eq _ _ _ _ Ec), (mod_eq _ _ _ _ Ec) by lia. f_equal; [lia|f_equal; lia]. }
  destruct r1 as [|b2 r2]; [discriminate E|]. cbn [length] in L. destruct ((224 <=? b)%N && (b <? 240)%N && continues b1 && continues b2) eqn:C3.
  { rewrite !andb_true_iff, N.leb_le, N.ltb_lt, !continues_spec in C3. destruct C3 as [[[A1 A2] A3] A4]. set (c := ((b - 224) * 4096 + (b1 - 128) * 64 + (b2 - 128))%N) in *. assert (Ec : c = (64 * (64 * (b - 224) + (b1 - 128)) + (b2 - 128))%N) by (unfold c; lia). clearbody c.
    destruct ((2048 <=? c)%N && negb ((55296 <=? c)%N && (c <? 57344)%N)) eqn:V; [|discriminate E]. apply andb_true_iff in V as [V1 V2]. apply N.leb_le in V1. apply negb_true_iff, andb_false_iff in V2. rewrite N.leb_gt, N.ltb_ge in V2.
    apply (Go _ [b; b1; b2] r2 E); [lia|unfold scalar; lia|]. unfold utf8_char. destruct (N.ltb_spec c 128); [lia|]. destruct (N.ltb_spec c 2048); [lia|]. destruct (N.ltb_spec c 65536); [|lia].
    assert (Q1 : (c / 64 = 64 * (b - 224) + (b1 - 128))%N) by (apply (div_eq _ _ _ _ Ec); lia). assert (Q2 : (c / 4096 = b - 224)%N). { change 4096%N with (64 * 64)%N. rewrite <- N.div_div by lia. apply (div_eq _ _ _ _ Q1). lia. }
    rewrite Q2, (mod_eq _ _ _ _ Q1), (mod_eq _ _ _ _ Ec) by lia. f_equal; [lia|f_equal; [lia|f_equal; lia]]. }
  destruct r2 as [|b3 r3]; [discriminate E|]. cbn [length] in L. destruct ((240 <=? b)%N && (b <? 248)%N && continues b1 && continues b2 && continues b3) eqn:C4; [|discriminate E].
  rewrite !andb_true_iff, N.leb_le, N.ltb_lt, !continues_spec in C4. destruct C4 as [[[[A1 A2] A3] A4] A5]. set (c := ((b - 240) * 262144 + (b1 - 128) * 4096 + (b2 - 128) * 64 + (b3 - 128))%N) in *.
  assert (Ec : c = (64 * (64 * (64 * (b - 240) + (b1 - 128)) + (b2 - 128)) + (b3 - 128))%N) by (unfold c; lia). clearbody c.
  destruct ((65536 <=? c)%N && (c <? 1114112)%N) eqn:V; [|discriminate E]. apply andb_true_iff in V as [V1 V2]. apply N.leb_le in V1. apply N.ltb_lt in V2.
  apply (Go _ [b; b1; b2; b3] r3 E); [lia|unfold scalar; lia|]. unfold utf8_char. destruct (N.ltb_spec c 128); [lia|]. destruct (N.ltb_spec c 2048); [lia|]. destruct (N.ltb_spec c 65536); [lia|].
  assert (Q1 : (c / 64 = 64 * (64 * (b - 240) + (b1 - 128)) + (b2 - 128))%N) by (apply (div_eq _ _ _ _ Ec); lia).
  assert (Q2 : (c / 4096 = 64 * (b - 240) + (b1 - 128))%N). { change 4096%N with (64 * 64)%N. rewrite <- N.div_div by lia. apply (div_eq _ _ _ _ Q1). lia. }
  assert (Q3 : (c / 262144 = b - 240)%N). { change 262144%N with (4096 * 64)%N. rewrite <- N.div_div by lia. apply (div_eq _ _ _ _ Q2). lia. }
  rewrite Q3, (mod_eq _ _ _ _ Q2), (mod_eq _ _ _ _ Q1), (mod_eq _ _ _ _ Ec) by lia. f_equal; [lia|f_equal; [lia|f_equal; [lia|f_equal; lia]]].
Qed.
Lemma decode_spec bs t : utf8_decode (length bs) bs = Some t <-> Forall scalar t /\ utf8 t = bs.
Proof. split; [apply decode_sound; auto|]. intros [H <-]. apply decode_complete; auto. apply utf8_length. Qed.
