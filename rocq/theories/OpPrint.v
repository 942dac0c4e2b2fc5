(** The text printed for an operator belongs to the grammar and denotes the operator. *)
From Coq Require Import String Ascii List ZArith NArith Lia Bool PeanoNat QArith Qcanon.
From Verif Require Import Base Vec Elim Scalars Matrix LinAlg ZQ Lattices Geometry Basics Text ParseOp OpGrammar OpParse.
Import ListNotations.
Close Scope Q_scope. Close Scope Qc_scope.
Local Open Scope list_scope.
Open Scope nat_scope.

(** ** numbers *)
Lemma digits_numeral : forall fuel n, (0 <= n)%Z -> (n < 2 ^ Z.of_nat fuel)%Z -> 0 < fuel -> numeral (digits_ fuel n) n.
Proof.
  induction fuel as [|fuel IH]; intros n H0 H1 Hf; [lia|]. cbn [digits_].
  assert (M : (0 <= n mod 10 <= 9)%Z) by (pose proof (Z.mod_pos_bound n 10); lia).
  assert (D : digit (Z.to_N (48 + n mod 10)) (n mod 10)) by (split; auto).
  destruct (Z.ltb_spec n 10) as [L|L].
  - cbn [app]. rewrite (Z.mod_small n 10) in * by lia. apply numeral_one. auto.
  - pose proof (Z.div_mod n 10). replace n with (10 * (n / 10) + n mod 10)%Z at 3 by lia. apply numeral_more; auto.
    assert (n / 10 < 2 ^ Z.of_nat fuel)%Z. { apply Z.div_lt_upper_bound; [lia|]. rewrite Nat2Z.inj_succ, Z.pow_succ_r in H1 by lia. lia. }
    assert (0 < n / 10)%Z by (apply Z.div_str_pos; lia). apply IH; [lia|auto|]. destruct fuel; [cbn in *; lia|lia].
Qed.
Lemma numeral_digits n : (0 <= n)%Z -> numeral (digits n) n.
Proof.
  intros H. apply digits_numeral; [auto| |lia]. rewrite Nat2Z.inj_succ, Z2Nat.id by apply Z.log2_nonneg. destruct (Z.eq_dec n 0) as [->|N]; [cbn; lia|]. apply Z.log2_spec. lia.
Qed.
Lemma digits_short : forall k fuel n, (0 <= n < 10 ^ Z.of_nat (S k))%Z -> length (digits_ fuel n) <= S k.
Proof.
  induction k as [|k IH]; intros [|fuel] n H; cbn [digits_]; rewrite ?app_length; cbn [length]; try lia.
  - destruct (Z.ltb_spec n 10); cbn [length]; [lia|]. cbn in H. lia.
  - destruct (Z.ltb_spec n 10); cbn [length]; [lia|].
    assert (length (digits_ fuel (n / 10)) <= S k); [|lia]. apply IH. split; [apply Z.div_pos; lia|]. apply Z.div_lt_upper_bound; [lia|].
    rewrite (Nat2Z.inj_succ (S k)), Z.pow_succ_r in H by lia. lia.
Qed.
Lemma short_digits n : (0 <= n < 10 ^ 9)%Z -> short (digits n).
Proof. intros H. apply (digits_short 8). exact H. Qed.

(** numerator and denominator have at most nine digits *)
Definition small (q : Qc) : Prop := (Z.abs (Qnum q) < 10 ^ 9)%Z /\ (Z.pos (Qden q) < 10 ^ 9)%Z.
Definition qabs (q : Qc) : Qc := if (Qnum q <? 0)%Z then (- q)%Qc else q.
Lemma neg_num (q : Qc) : Qnum (- q)%Qc = (- Qnum q)%Z /\ Qden (- q)%Qc = Qden q.
Proof.
  unfold Qcopp, Q2Qc. cbn [this]. assert (E : Qred (- this q) = (- this q)%Q) by (rewrite Qred_opp; f_equal; apply (canon q)). rewrite E. destruct (this q). auto.
Qed.
Lemma qabs_num q : Qnum (qabs q) = Z.abs (Qnum q) /\ Qden (qabs q) = Qden q.
Proof. unfold qabs. destruct (Z.ltb_spec (Qnum q) 0); [destruct (neg_num q) as [-> ->]|]; split; auto; lia. Qed.
Lemma print_abs_fraction q : small q -> fraction_text (print_abs q) (qabs q).
Proof.
  intros [Hn Hd]. destruct (qabs_num q) as [En Ed]. unfold print_abs. rewrite <- En. assert (Hp : (0 <= Qnum (qabs q))%Z) by lia.
  pose proof (numeral_digits _ Hp) as N. assert (Sn : short (digits (Qnum (qabs q)))) by (apply short_digits; lia). rewrite (num_den (qabs q)) at 2. rewrite Ed.
  destruct (Z.eqb_spec (Z.pos (Qden q)) 1) as [E|E].
  - rewrite app_nil_r, E. replace (ZQ (Qnum (qabs q)) / ZQ 1)%Qc with (ZQ (Qnum (qabs q))) by (change (ZQ 1) with 1%Qc; field; discriminate). apply fraction_integer; auto.
  - apply (fraction_quotient _ _ [] [] (digits (Z.pos (Qden q))) _ N Sn (Forall_nil _) (Forall_nil _)); [apply numeral_digits; lia|apply short_digits; lia|lia].
Qed.
Lemma num_pos_nz q : q <> 0%Qc -> Qnum q <> 0%Z.
Proof. intros H E. apply H. rewrite (num_den q), E. change (ZQ 0) with 0%Qc. unfold Qcdiv. ring. Qed.

(** ** parts *)
Definition axis_text (a : option nat) : text := match a with Some 0 => [chr "x"] | Some 1 => [chr "y"] | Some _ => [chr "z"] | None => [] end.
Definition part_ok (q : Qc) (a : option nat) : Prop :=
  q <> 0%Qc /\ small q /\ match a with Some k => k < 3 | None => qabs q <> 1%Qc end.
Definition magnitude (q : Qc) (a : option nat) : text := (if Qc_eq_bool (qabs q) 1%Qc then [] else print_abs q) ++ axis_text a.
Lemma qc_eqb_spec x y : Qc_eq_bool x y = true <-> x = y.
Proof. split; [apply Qc_eq_bool_correct|]. intros ->. unfold Qc_eq_bool. destruct (Qc_eq_dec y y); congruence. Qed.
Lemma magnitude_text q a : part_ok q a -> unsigned_text (magnitude q a) (qabs q) a.
Proof.
  intros (Nz & Sm & Ha). unfold magnitude. destruct (Qc_eq_bool (qabs q) 1%Qc) eqn:E.
  - apply qc_eqb_spec in E. rewrite E. destruct a as [k|]; [|congruence]. destruct k as [|[|[|k]]]; [| | |lia]; cbn [axis_text app]; apply unsigned_axis; constructor.
  - pose proof (print_abs_fraction q Sm) as F. destruct a as [k|].
    + destruct k as [|[|[|k]]]; [| | |lia]; cbn [axis_text]; apply (unsigned_next _ _ [] _ _ F); constructor.
    + cbn [axis_text]. rewrite app_nil_r. apply unsigned_constant. auto.
Qed.
Lemma print_part_eq k q a : print_part k (q, axis_text a) = (if (0 <? k) && (0 <? Qnum q)%Z then [chr "+"] else if (Qnum q <? 0)%Z then [chr "-"] else []) ++ magnitude q a.
Proof. reflexivity. Qed.
Definition render (parts : list (Qc * option nat)) : list (Qc * text) := map (fun p => (fst p, axis_text (snd p))) parts.
Lemma print_more : forall parts k, 0 < k -> (forall q a, In (q, a) parts -> part_ok q a) -> more_terms (print_parts k (render parts)) parts.
Proof.
  induction parts as [|[q a] parts IH]; intros k Hk H; [constructor|]. unfold render. cbn [map fst snd]. fold (render parts). cbn [print_parts]. rewrite print_part_eq.
  assert (P : part_ok q a) by (apply H; left; auto). pose proof (magnitude_text q a P) as M. pose proof (num_pos_nz q (proj1 P)).
  apply (one_more_term []); [constructor| |apply IH; [lia|intros; apply H; right; auto]]. destruct (Nat.ltb_spec 0 k); [|lia]. cbn [andb].
  unfold qabs in M. destruct (Z.ltb_spec 0 (Qnum q)).
  - destruct (Z.ltb_spec (Qnum q) 0); [lia|]. apply (signed_plus []); auto. constructor.
  - destruct (Z.ltb_spec (Qnum q) 0); [|lia]. replace q with (- - q)%Qc at 2 by ring. apply (signed_minus []); auto. constructor.
Qed.
Lemma print_coordinate q a parts : (forall q' a', In (q', a') ((q, a) :: parts) -> part_ok q' a') -> coordinate_text (print_parts 0 (render ((q, a) :: parts))) ((q, a) :: parts).
Proof.
  intros H. unfold render. cbn [map fst snd]. fold (render parts). cbn [print_parts]. rewrite print_part_eq.
  assert (P : part_ok q a) by (apply H; left; auto). pose proof (magnitude_text q a P) as M. pose proof (num_pos_nz q (proj1 P)).
  assert (R : more_terms (print_parts 1 (render parts)) parts) by (apply print_more; [lia|intros; apply H; right; auto]).
  cbn [Nat.ltb Nat.leb andb]. unfold qabs in M. destruct (Z.ltb_spec (Qnum q) 0).
  - apply coordinate_signed; auto. replace q with (- - q)%Qc at 2 by ring. apply (signed_minus []); auto. constructor.
  - cbn [app]. apply coordinate_unsigned; auto.
Qed.

(** ** coordinates *)
Definition terms (row : list Qc) (s : Qc) : list (Qc * option nat) :=
  filter (fun p => negb (Qc_eq_bool (fst p) 0%Qc)) (map (fun k => (nth k row 0%Qc, Some k)) (seq 0 (length row)) ++ [(s, None)]).
Lemma op_parts_render row s : length row <= 3 -> op_parts row s = render (terms row s).
Proof.
  intros L. unfold op_parts, terms, render.
  assert (E : combine row [[chr "x"]; [chr "y"]; [chr "z"]] ++ [(s, [])] = map (fun p => (fst p, axis_text (snd p))) (map (fun k => (nth k row 0%Qc, Some k)) (seq 0 (length row)) ++ [(s, None)])).
  { destruct row as [|a [|b [|c [|]]]]; cbn [length] in L; try lia; reflexivity. }
  rewrite E. generalize (map (fun k => (nth k row 0%Qc, Some k)) (seq 0 (length row)) ++ [(s, None)]). intros l. induction l as [|[q a] l IH]; auto. cbn [map filter fst]. destruct (Qc_eq_bool q 0); cbn [negb]; auto. cbn [map fst snd]. rewrite IH. auto.
Qed.
Lemma coefficient_filter a ts : coefficient a (filter (fun p => negb (Qc_eq_bool (fst p) 0%Qc)) ts) = coefficient a ts.
Proof.
  induction ts as [|[q b] ts IH]; auto. cbn [filter fst]. destruct (Qc_eq_bool q 0) eqn:E; cbn [negb].
  - rewrite IH. apply qc_eqb_spec in E as ->. cbn [coefficient fold_right fst snd]. destruct (same_axis a b); auto. fold (coefficient a ts). ring.
  - cbn [coefficient fold_right fst snd]. fold (coefficient a ts). fold (coefficient a (filter (fun p => negb (Qc_eq_bool (fst p) 0%Qc)) ts)). rewrite IH. auto.
Qed.
Lemma terms_coefficient row s : length row <= 3 -> (forall k, k < length row -> coefficient (Some k) (terms row s) = nth k row 0%Qc) /\ coefficient None (terms row s) = s.
Proof.
  intros L. unfold terms. rewrite coefficient_filter. split; [intros k Hk; rewrite coefficient_filter|].
  - destruct row as [|a [|b [|c [|]]]]; cbn [length] in *; try lia; destruct k as [|[|[|k]]]; try lia; cbn; ring.
  - destruct row as [|a [|b [|c [|]]]]; cbn [length] in *; try lia; cbn; ring.
Qed.
Definition axes (ts : list (Qc * option nat)) : list (option nat) := map snd ts.
Lemma NoDup_rev_inv_ {A} (l : list A) : NoDup (rev l) -> NoDup l.
Proof. intros H. rewrite <- (rev_involutive l). apply NoDup_rev. auto. Qed.
Lemma terms_distinct row s : NoDup (axes (terms row s)).
Proof.
  unfold terms. assert (N : NoDup (axes (map (fun k => (nth k row 0%Qc, Some k)) (seq 0 (length row)) ++ [(s, None)]))).
  { unfold axes. rewrite map_app, map_map. cbn [map snd]. apply NoDup_rev_inv_. rewrite rev_app_distr. cbn [rev app]. constructor.
    - intros H. apply in_rev, in_map_iff in H as (k & H & _). discriminate H.
    - apply NoDup_rev. apply FinFun.Injective_map_NoDup; [intros x y [= ->]; auto|apply seq_NoDup]. }
  revert N. generalize (map (fun k => (nth k row 0%Qc, Some k)) (seq 0 (length row)) ++ [(s, None)]). intros l. unfold axes. induction l as [|[q a] l IH]; cbn [map filter fst snd]; auto.
  intros N. inversion N as [|? ? N1 N2]; subst. destruct (negb (Qc_eq_bool q 0)); auto. cbn [map snd]. constructor; auto. intros H. apply N1. apply in_map_iff in H as (p & <- & H). apply filter_In in H as [H _]. apply in_map. auto.
Qed.
Lemma coefficient_none a ts : ~ In a (axes ts) -> coefficient a ts = 0%Qc.
Proof.
  induction ts as [|[q b] ts IH]; auto. unfold axes. cbn [map snd]. intros H. cbn [coefficient fold_right fst snd]. fold (coefficient a ts). destruct (same_axis a b) eqn:E; [|apply IH; intros I; apply H; right; auto].
  exfalso. apply H. left. destruct a, b; cbn in E; try discriminate; auto. apply Nat.eqb_eq in E. congruence.
Qed.
Lemma small_fits q : small q -> addition_fits q 0%Qc.
Proof.
  intros [Hn Hd]. unfold addition_fits. change (Z.pos (Qden 0%Qc)) with 1%Z. rewrite Z.lcm_1_r. rewrite Z.abs_eq by lia. split; [unfold i32_range; lia|]. intros a b Ea Eb.
  assert (a = Qnum q). { apply ZQ_inj. rewrite Ea. rewrite (num_den q) at 1. assert (ZQ (Z.pos (Qden q)) <> 0%Qc) by (apply ZQ_nz; lia). field. auto. }
  assert (b = 0)%Z. { apply ZQ_inj. rewrite Eb. change (ZQ 0) with 0%Qc. ring. }
  subst. unfold i32_range. lia.
Qed.
Lemma terms_fit row s : Forall small row -> small s -> sums_fit (terms row s).
Proof.
  intros F Hs pre q a post E. pose proof (terms_distinct row s) as N. rewrite E in N. unfold axes in N. rewrite map_app in N. cbn [map snd] in N.
  assert (coefficient a pre = 0%Qc) as ->. { apply coefficient_none. intros H. apply NoDup_remove_2 in N. apply N. apply in_or_app. auto. }
  apply small_fits. assert (I : In (q, a) (terms row s)) by (rewrite E; apply in_elt). unfold terms in I. apply filter_In in I as [I _]. apply in_app_or in I as [I|[[= <- <-]|[]]]; auto.
  apply in_map_iff in I as (k & [= <- <-] & Hk). apply in_seq in Hk. rewrite Forall_forall in F. apply F. apply nth_In. lia.
Qed.
Lemma small_zero : small 0%Qc. Proof. split; cbn; lia. Qed.
(** the terms denoted by the printed text *)
Definition row_terms (row : list Qc) (s : Qc) : list (Qc * option nat) := match terms row s with [] => [(0%Qc, None)] | ts => ts end.
Lemma row_text row s : length row <= 3 -> Forall small row -> small s -> qabs s <> 1%Qc -> coordinate_text (write_op_row row s) (row_terms row s).
Proof.
  intros L F Hs H1. unfold write_op_row, row_terms. rewrite op_parts_render by auto. destruct (terms row s) as [|[q a] ts] eqn:E.
  - cbn [render map]. assert (unsigned_text [chr "0"] 0%Qc None). { apply unsigned_constant. apply (fraction_integer [chr "0"] 0); [|unfold short; cbn; lia]. apply numeral_one. split; [lia|reflexivity]. }
    apply (coordinate_unsigned [chr "0"] 0%Qc None [] [] H). constructor.
  - change (match render ((q, a) :: ts) with [] => [chr "0"] | p :: l => print_parts 0 (p :: l) end) with (print_parts 0 (render ((q, a) :: ts))). apply print_coordinate. rewrite <- E. intros q' a' I.
    unfold terms in I. apply filter_In in I as [I Nz]. cbn [fst] in Nz.
    assert (q' <> 0%Qc). { intros ->. rewrite (proj2 (qc_eqb_spec 0%Qc 0%Qc) eq_refl) in Nz. discriminate Nz. }
    apply in_app_or in I as [I|[[= <- <-]|[]]]; [|split; auto].
    apply in_map_iff in I as (k & [= <- <-] & Hk). apply in_seq in Hk. split; auto. split; [|lia]. rewrite Forall_forall in F. apply F. apply nth_In. lia.
Qed.
Lemma row_fit row s : Forall small row -> small s -> sums_fit (row_terms row s).
Proof.
  intros F Hs. pose proof (terms_fit row s F Hs) as T. unfold row_terms. destruct (terms row s) as [|p ts]; auto. intros pre q a post E. destruct pre as [|p [|]]; [|discriminate E|discriminate E]. injection E as <- <- <-. apply small_fits, small_zero.
Qed.
Lemma row_coefficient row s : length row <= 3 -> (forall k, k < length row -> coefficient (Some k) (row_terms row s) = nth k row 0%Qc) /\ coefficient None (row_terms row s) = s.
Proof.
  intros L. pose proof (terms_coefficient row s L) as [H1 H2]. unfold row_terms. destruct (terms row s) as [|p ts]; auto.
Qed.
